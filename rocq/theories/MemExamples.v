(* Concrete runs of the memory model. *)
From Verif Require Import Bytes Tables Types Parser Doc Api Mem MemSpec MemThms.

Definition tight : policy := mkPol (fun _ => 0) (fun _ => 0) (fun _ => 0).
Definition loose : policy := mkPol (fun _ => 3) (fun k => k) (fun _ => 2).

(* Parse, mutate, reset, fail, and parse over the recycled records. *)
Definition history : list call :=
  [CNewDoc; CParse 0 (str "{""a"":[1,2,3],""b"":2,""c"":3}"); CDel (mkN 0 0 (Some 0)) (str "a");
   CNull 0; CAppend (mkN 1 0 (Some 0)) [mkN 7 0 (Some 0); mkN 1 0 (Some 0)]; CSlice (mkN 1 0 (Some 0)) 1 4;
   CReset 0; CParse 0 (str "[[1,2,]"); CParse 0 (str "[[1],{""x"":[4,5]}]"); CNewDoc; CParse 1 (str "[6]");
   CAppend (mkN 0 1 (Some 0)) [mkN 0 0 (Some 1)]; CSet (mkN 3 1 (Some 0)) (str "y") (mkN 1 1 (Some 0))].

Lemma example_lem :
  exists m1 m2, mrun tight emptyMem history = Ok m1 /\ mrun loose emptyMem history = Ok m2 /\
    mheap m1 <> mheap m2 /\ worldOf m1 = worldOf m2 /\ run [] history = Ok (worldOf m1) /\
    (exists i x, owns m1 0 i x) /\ (exists i x, owns m2 1 i x).
Proof.
  destruct (mrun tight emptyMem history) as [m1| |] eqn:H1; [|vm_compute in H1; discriminate..].
  destruct (mrun loose emptyMem history) as [m2| |] eqn:H2; [|vm_compute in H2; discriminate..].
  exists m1, m2. vm_compute in H1, H2. injection H1 as <-. injection H2 as <-.
  split; [reflexivity|]. split; [reflexivity|]. split; [discriminate|]. split; [vm_compute; reflexivity|].
  split; [vm_compute; reflexivity|]. split.
  - exists 0. eexists. eexists. eexists. split; [reflexivity|]. split; reflexivity.
  - exists 0. eexists. eexists. eexists. split; [reflexivity|]. split; reflexivity.
Qed.

(* An iterator keeps node.values (node.go:143-148).  Deleting a key while iterating moves the last
   entry to the front and zeroes the last place, which the iterator still has: it is then given the
   entry with no key and id 0, which is the object itself. *)
Definition obj : list call := [CNewDoc; CParse 0 (str "{""a"":1,""b"":2,""c"":3}")].
Lemma iter_lem :
  exists pol m m' p s, mrun pol emptyMem obj = Ok m /\ m_get m (mkN 0 0 (Some 0)) = Some p /\ sget (mheap m) p = Some s /\
    mstep pol m (CDel (mkN 0 0 (Some 0)) (str "a")) = Ok m' /\
    sread (mheap m) (svals s) = [mkV 1 (str "a"); mkV 2 (str "b"); mkV 3 (str "c")] /\
    sread (mheap m') (svals s) = [mkV 3 (str "c"); mkV 2 (str "b"); mkV 0 []].
Proof.
  exists loose. destruct (mrun loose emptyMem obj) as [m| |] eqn:H1; [|vm_compute in H1; discriminate..].
  destruct (mstep loose m (CDel (mkN 0 0 (Some 0)) (str "a"))) as [m'| |] eqn:H2;
    vm_compute in H1; injection H1 as <-; [|vm_compute in H2; discriminate..].
  vm_compute in H2. injection H2 as <-. eexists. eexists. eexists. eexists. split; [reflexivity|].
  split; [reflexivity|]. split; [reflexivity|]. split; [reflexivity|]. split; reflexivity.
Qed.
