(* C67: what the test cases of njsontest report. *)
From Verif Require Import Bytes Types JsonSpec Parser Doc DocSpec NjTest NjTestSpec NjTestThms NjTestExamples.
Local Open Scope nat_scope.

(* AppendJSON reports nothing iff the data can be had, and the method returns the error asked for or, when none is asked for,
   no error and the data *)
Theorem C67_append : forall (V : Type) (U : universe V) x l os name f k m v b err m' data derr,
  makeAll U l = Ok os -> x <> SNil -> named l (str "AppendJSON") name -> methodOf U x name = Some f -> fits f = true ->
  call f ANil m = Ok (m', [v; err_result err]) -> bytes_result v b -> data_for U x l k m data derr ->
  (forall a e, last_of anError l a -> asks a e) ->
  exists run m2 rep, AppendJSON U x os = Some run /\ run k m = Ok (m2, rep) /\
    (rep = [] <-> derr = None /\ (error_met l err \/ ~ wanted l /\ err = None /\ b = data)).
Proof. exact (fun V U x l os name f k m v b err m' data derr Mk Nx Nm Mf Fi Ca Br Da As => C67_append_core U x l os Mk As name f k m v b err m' data derr Nx Nm Mf Fi Ca Br Da). Qed.
Print Assumptions C67_append.

(* Unmarshal reports nothing iff the data can be had and begin with a value, and the method, given that value, returns the error
   asked for or, when none is asked for, no error and leaves a value deeply equal to the one of the test *)
Theorem C67_unmarshal : forall (V : Type) (U : universe V) x l os name f rev k m v m1 data derr h,
  makeAll U l = Ok os -> x <> SNil -> target U x l m v m1 -> named l (str "UnmarshalNodeJSON") name -> methodOf U v name = Some f -> fits f = true ->
  data_for U x l k m1 data derr ->
  (forall a e, last_of anError l a -> asks a e) ->
  (forall W n j, tree_of W n j -> call f (ANode W n) m1 = Ok (fst (h j), [err_result (snd (h j))])) ->
  (forall j, exists t y t' p y', v = SPtr t' (Some p) /\ nth_error (fst (h j)) p = Some y' /\ value_in (fst (h j)) x t y) ->
  exists run m2 rep, Unmarshal U x os = Some run /\ run rev k m = Ok (m2, rep) /\
    (rep = [] <-> derr = None /\ exists j, text_of data j /\
      (error_met l (snd (h j)) \/
       ~ wanted l /\ snd (h j) = None /\ exists t y t' y', value_in (fst (h j)) x t y /\ value_in (fst (h j)) v t' y' /\ deepEqual U t y t' y' = true)).
Proof. exact (fun V U x l os name f rev k m v m1 data derr h Mk Nx Tg Nm Mf Fi Da As Hc Hv => C67_unmarshal_core U x l os Mk As name f rev k m v m1 data derr h Nx Tg Nm Mf Fi Da Hc Hv). Qed.
Print Assumptions C67_unmarshal.

(* when the run of AppendJSON panics for what the method returns *)
Theorem C67_panics : forall (V : Type) (U : universe V) x l os name f k m m' vs data,
  makeAll U l = Ok os -> x <> SNil -> named l (str "AppendJSON") name -> methodOf U x name = Some f ->
  data_for U x l k m data None -> call f ANil m = Ok (m', vs) -> results_panic l vs ->
  exists run, AppendJSON U x os = Some run /\ run k m = Panic.
Proof. exact (fun V U x l os name f k m m' vs data Mk Nx Nm Mf Da Ca Rp => C67_panics_core U x l os Mk name f k m m' vs data Nx Nm Mf Da Ca Rp). Qed.
Print Assumptions C67_panics.
(* an error of a type that cannot be compared, and the test asks for one of this type *)
Example C67_panics_example :
  let e := mkErr 1 7 false (str "a") in let l : list (given bool) := [GError (EAError (mkErr 2 7 false (str "b"))); GJSON JANil] in
  let U := mkU (V := bool) (fun _ _ => Some (mkMeth true (fun _ m => Ok (m, [RNil; RErr e])))) (fun _ => false) (fun _ _ => ([], None)) (fun _ _ _ _ => false) in
  results_panic l [RNil; RErr e] /\ data_for U (SVal 0 true) l 0 [] (str "null") None /\ named l (str "AppendJSON") (str "AppendJSON") /\
  exists os run, makeAll U l = Ok os /\ AppendJSON U (SVal 0 true) os = Some run /\ run 0 [] = Panic.
Proof. exact ex67_panics. Qed.

(* options can be made of anything but an argument of Error that is none of its kinds *)
Theorem C67_made : forall (V : Type) (U : universe V) l, (In (GError EAOther) l -> makeAll U l = Panic) /\ (~ In (GError EAOther) l -> exists os, makeAll U l = Ok os).
Proof. exact C67_made_core. Qed.
Print Assumptions C67_made.
Example C67_made_example : makeAll exU [GNil; GError EAOther] = Panic /\ exists os, makeAll exU [GNil; GError (EABool true); GValue SNil] = Ok os.
Proof. split; [reflexivity|eexists; reflexivity]. Qed.

(* without the method, Unmarshal says so and calls nothing *)
Theorem C67_missing : forall (V : Type) (U : universe V) x l os name rev k m v m1,
  makeAll U l = Ok os -> x <> SNil -> target U x l m v m1 -> named l (str "UnmarshalNodeJSON") name ->
  (forall f, methodOf U v name = Some f -> fits f = false) ->
  exists run, Unmarshal U x os = Some run /\ run rev k m = Ok (m1, [CMethod]).
Proof. exact @C67_missing_core. Qed.
Print Assumptions C67_missing.
Theorem C67_nil : forall (V : Type) (U : universe V) os, AppendJSON U SNil os = None /\ Unmarshal U SNil os = None.
Proof. exact @C67_nil_core. Qed.
Print Assumptions C67_nil.

(* the value true has the text true, not the text false; an error that was asked for must come *)
Example C67_append_example :
  let ends l k := exists os run, makeAll exU l = Ok os /\ AppendJSON exU (SVal 0 true) os = Some run /\ run k [] = Ok ([], match l with [] => [] | [GJSON _] => [CBytes (str "false") (str "true")] | _ => [CError None] end) in
  ends [] 0 /\ ends [GJSON (JAString (str "false"))] 0 /\ ends [GJSON (JAReader (str "true") None); GNil; GError (EAString (str "boolean"))] 0 /\
  named (V := bool) [] (str "AppendJSON") (str "AppendJSON") /\ bytes_result (RBytes (str "true")) (str "true") /\ data_for exU (SVal 0 true) [] 0 [] (str "true") None.
Proof.
  split; [|split; [|split]]; try (eexists _, _; split; [reflexivity|]; split; [reflexivity|]; vm_compute; reflexivity).
  split; [right; split; [right; intros ? []|reflexivity]|]. split; [left; reflexivity|]. apply df_default; [intros ? []|reflexivity].
Qed.

(* the hypotheses of C67_unmarshal for the type of the examples, and what is reported for several texts *)
Example C67_unmarshal_example :
  let x := SPtr 0 (Some 0) in let m := [true] in let m1 := [true; false] in
  target exU x [] m (SPtr 0 (Some 1)) m1 /\ methodOf exU (SPtr 0 (Some 1)) (str "UnmarshalNodeJSON") = Some (ex_unmarshal 1) /\
  (forall W n j, tree_of W n j -> call (ex_unmarshal 1) (ANode W n) m1 = Ok (fst (ex_h 1 m1 j), [err_result (snd (ex_h 1 m1 j))])) /\
  (forall j, exists t y t' p y', SPtr 0 (Some 1) = SPtr (V := bool) t' (Some p) /\ nth_error (fst (ex_h 1 m1 j)) p = Some y' /\ value_in (fst (ex_h 1 m1 j)) x t y) /\
  (exists os run, makeAll exU [] = Ok os /\ Unmarshal exU x os = Some run /\ run 5%N 0 m = Ok ([true; true], [])) /\
  (exists os run, makeAll exU [GJSON (JABytes (str " false"))] = Ok os /\ Unmarshal exU x os = Some run /\ run 5%N 0 m = Ok ([true; false], [CValue])) /\
  (exists os run, makeAll exU [GJSON JANil] = Ok os /\ Unmarshal exU x os = Some run /\ run 5%N 0 m = Ok (m1, [CError (Some ex_err)])) /\
  (exists os run, makeAll exU [GJSON JANil; GError (EAString (str "a bool"))] = Ok os /\ Unmarshal exU x os = Some run /\ run 5%N 0 m = Ok (m1, [])).
Proof.
  split; [apply (tg_new exU (SPtr 0 (Some 0)) [] [true] 0); [right; intros ? []|left; eexists; reflexivity]|]. split; [reflexivity|]. split; [intros W n j; exact (ex_unmarshal_ok 1 [true; false] W n j)|].
  split; [intro j; destruct j; (eexists _, _, _, _, _; split; [reflexivity|]; split; [reflexivity|apply vi_ptr; reflexivity])|].
  repeat split; (eexists _, _; split; [reflexivity|]; split; [reflexivity|]; vm_compute; reflexivity).
Qed.
Example C67_missing_example :
  (exists os run, makeAll exU [GMethod (str "Empty")] = Ok os /\ Unmarshal exU (SVal 0 true) os = Some run /\ run 5%N 0 [] = Ok ([false], [CMethod])) /\
  named (V := bool) [GMethod (str "Empty")] (str "UnmarshalNodeJSON") (str "Empty") /\ (forall f, methodOf exU (SPtr 0 (Some 0)) (str "Empty") = Some f -> fits f = false).
Proof.
  split; [eexists _, _; split; [reflexivity|]; split; [reflexivity|]; vm_compute; reflexivity|]. split; [left; split; [exists [], (GMethod (str "Empty")), []; split; [reflexivity|split; [reflexivity|intros ? []]]|discriminate]|].
  intros f H. injection H as <-. reflexivity.
Qed.

(* refuted: a value without the method is reported *)
Theorem C67_method_refuted : exists (V : Type) (U : universe V) x os run, x <> SNil /\ methodOf U x (str "AppendTo") = None /\
  makeAll U [GMethod (str "AppendTo")] = Ok os /\ AppendJSON U x os = Some run /\ forall m, run 0 m = Panic.
Proof. exact C67_method_lem. Qed.
Print Assumptions C67_method_refuted.
(* refuted: the value read is compared with the one of the test as it was before; with the same pointer it is compared with itself *)
Theorem C67_alias_refuted : exists (V : Type) (U : universe V) x l os run m m2 y y' t, makeAll U l = Ok os /\ Unmarshal U x os = Some run /\ ~ wanted l /\
  run 0%N 0 m = Ok (m2, []) /\ value_in m x t y /\ value_in m2 x t y' /\ last_of aValue l x /\ deepEqual U t y t y' = false.
Proof. exact C67_alias_lem. Qed.
Print Assumptions C67_alias_refuted.
(* refuted: a second run in the same state reports the same *)
Theorem C67_twice_refuted : exists (V : Type) (U : universe V) x l os run m, makeAll U l = Ok os /\ AppendJSON U x os = Some run /\
  run 0 m = Ok (m, []) /\ run 1 m <> Ok (m, []).
Proof. exact C67_twice_lem. Qed.
Print Assumptions C67_twice_refuted.
(* refuted: the data are one JSON text; what follows the value is not looked at *)
Theorem C67_tail_refuted : exists (V : Type) (U : universe V) x os run m m2, makeAll U [GJSON (JAString (str "true}"))] = Ok os /\ Unmarshal U x os = Some run /\
  run 0%N 0 m = Ok (m2, []).
Proof. exact C67_tail_lem. Qed.
Print Assumptions C67_tail_refuted.
