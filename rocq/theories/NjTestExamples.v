(* A small type with both methods, for the examples beside C67. *)
From Verif Require Import Bytes Types JsonSpec Parser Doc DocSpec ParserThms NjTest NjTestSpec NjTestThms.
Local Open Scope nat_scope.

(* A type of booleans: AppendJSON on values and pointers, UnmarshalNodeJSON on pointers; Empty is a method of another type. *)
Definition ex_err : gerr := mkErr 1 7 true (str "not a boolean").
Definition ex_bool (b : bool) : bytes := if b then str "true" else str "false".
Definition ex_put (m : memory bool) (p : nat) (b : bool) : memory bool := firstn p m ++ b :: skipn (S p) m.
Definition ex_append (x : subject bool) : method bool :=
  mkMeth true (fun _ m =>
    match x with
    | SVal _ b => Ok (m, [RBytes (ex_bool b); RNil])
    | SPtr _ (Some p) => match nth_error m p with Some b => Ok (m, [RBytes (ex_bool b); RNil]) | None => Panic end
    | _ => Panic
    end).
Definition ex_unmarshal (p : nat) : method bool :=
  mkMeth true (fun a m =>
    match a with
    | ANode w n => match Node_ToBool w n with (b, true) => Ok (ex_put m p b, [RNil]) | (_, false) => Ok (m, [RErr ex_err]) end
    | ANil => Panic
    end).
Definition exU : universe bool := mkU
  (fun x name =>
     if bseqb name (str "AppendJSON") then match x with SNil => None | _ => Some (ex_append x) end
     else if bseqb name (str "UnmarshalNodeJSON") then match x with SPtr _ (Some p) => Some (ex_unmarshal p) | _ => None end
     else if bseqb name (str "Empty") then Some (mkMeth false (fun _ _ => Panic)) else None)
  (fun _ => false)
  (fun x m => match x with SVal _ b => (ex_bool b, None) | SPtr _ (Some p) => (match nth_error m p with Some b => ex_bool b | None => [] end, None) | _ => (str "null", None) end)
  (fun t a t' b => (t =? t') && Bool.eqb a b).
Definition ex_h (p : nat) (m : memory bool) (j : jval) : memory bool * option gerr :=
  match j with JTrue => (ex_put m p true, None) | JFalse => (ex_put m p false, None) | _ => (m, Some ex_err) end.
Lemma ex_unmarshal_ok p m W n j : tree_of W n j -> call (ex_unmarshal p) (ANode W n) m = Ok (fst (ex_h p m j), [err_result (snd (ex_h p m j))]).
Proof.
  intros (r & d & E1 & E2 & E3 & D). cbn [call ex_unmarshal]. unfold Node_ToBool, Node_get, getDoc. rewrite E1, E2, E3, N.eqb_refl.
  inversion D as [i x G Ty Nv Ei Ej|i x G Ty Nv Ei Ej|i x G Ty Nv Rw Ei Ej|i x G Ty Nv Rw Ei Ej|i x G Ty Nv Rw Ei Ej|i x vs G Ty Rw Dl Ei Ej|i x ms G Ty Rw Dl Ei Ej]; subst; rewrite G; unfold info_IsBoolean; rewrite Ty; try reflexivity; cbn [TypeBoolean]; rewrite Rw; reflexivity.
Qed.
Lemma C67_nil_core {V} (U : universe V) os : AppendJSON U SNil os = None /\ Unmarshal U SNil os = None.
Proof. split; reflexivity. Qed.
Lemma C67_missing_core {V} (U : universe V) x l os name rev k m v m1 : makeAll U l = Ok os -> x <> SNil -> target U x l m v m1 -> named l (str "UnmarshalNodeJSON") name ->
  (forall f, methodOf U v name = Some f -> fits f = false) ->
  exists run, Unmarshal U x os = Some run /\ run rev k m = Ok (m1, [CMethod]).
Proof.
  intros Mk Nx Tg Nm Mf. destruct (target_of U x l os Mk _ _ _ Tg) as (Tq & Nv). pose proof (name_of U x l os Mk _ _ Nm) as Nn.
  assert (Cm : checkMethod U v name = false) by (unfold checkMethod; destruct v; [reflexivity|destruct (methodOf U _ name) as [f|] eqn:Mq; [exact (Mf f eq_refl)|reflexivity]..]).
  unfold Unmarshal. cbv zeta. rewrite Nn. assert (G : forall F : N -> nat -> memory V -> res (memory V * list complaint), F rev k m = Ok (m1, [CMethod]) -> exists run, match x with SNil => None | _ => Some F end = Some run /\ run rev k m = Ok (m1, [CMethod]))
    by (intros F HF; exists F; split; [destruct x; [congruence|reflexivity..]|exact HF]).
  apply G. destruct (tvalue (newT U x os)); injection Tq as -> ->; rewrite Cm; reflexivity.
Qed.
Lemma C67_alias_lem : exists (V : Type) (U : universe V) x l os run m m2 y y' t, makeAll U l = Ok os /\ Unmarshal U x os = Some run /\ ~ wanted l /\
  run 0%N 0 m = Ok (m2, []) /\ value_in m x t y /\ value_in m2 x t y' /\ last_of aValue l x /\ deepEqual U t y t y' = false.
Proof.
  exists bool, exU, (SPtr 0 (Some 0)), [GJSON (JAString (str "true")); GValue (SPtr 0 (Some 0))]. eexists _, _, [false], [true], false, true, 0. split; [reflexivity|]. split; [reflexivity|].
  split; [intros (a & (p & o & q & E & F & _) & _); destruct p as [|? [|? [|? ?]]]; cbn [app] in E; try discriminate; injection E as <- <-; try (subst o); discriminate F|].
  split; [vm_compute; reflexivity|]. split; [apply vi_ptr; reflexivity|]. split; [apply vi_ptr; reflexivity|]. split; [exists [GJSON (JAString (str "true"))], (GValue (SPtr 0 (Some 0))), []; split; [reflexivity|]; split; [reflexivity|intros ? []]|reflexivity].
Qed.
Lemma C67_twice_lem : exists (V : Type) (U : universe V) x l os run m, makeAll U l = Ok os /\ AppendJSON U x os = Some run /\
  run 0 m = Ok (m, []) /\ run 1 m <> Ok (m, []).
Proof. exists bool, exU, (SVal 0 true), [GJSON (JAReader (str "true") None)]. eexists _, _, []. split; [reflexivity|]. split; [reflexivity|]. split; [reflexivity|discriminate]. Qed.
Lemma C67_tail_lem : exists (V : Type) (U : universe V) x os run m m2, makeAll U [GJSON (JAString (str "true}"))] = Ok os /\ Unmarshal U x os = Some run /\
  run 0%N 0 m = Ok (m2, []).
Proof. exists bool, exU, (SVal 0 true). eexists _, _, [], [true]. split; [reflexivity|]. split; [reflexivity|]. vm_compute. reflexivity. Qed.
Lemma C67_method_lem : exists (V : Type) (U : universe V) x os run, x <> SNil /\ methodOf U x (str "AppendTo") = None /\
  makeAll U [GMethod (str "AppendTo")] = Ok os /\ AppendJSON U x os = Some run /\ forall m, run 0 m = Panic.
Proof. exists bool, exU, (SVal 0 true). eexists _, _. split; [discriminate|]. split; [reflexivity|]. split; [reflexivity|]. split; reflexivity. Qed.
Lemma ex67_panics :
  let e := mkErr 1 7 false (str "a") in let l : list (given bool) := [GError (EAError (mkErr 2 7 false (str "b"))); GJSON JANil] in
  let U := mkU (V := bool) (fun _ _ => Some (mkMeth true (fun _ m => Ok (m, [RNil; RErr e])))) (fun _ => false) (fun _ _ => ([], None)) (fun _ _ _ _ => false) in
  results_panic l [RNil; RErr e] /\ data_for U (SVal 0 true) l 0 [] (str "null") None /\ named l (str "AppendJSON") (str "AppendJSON") /\
  exists os run, makeAll U l = Ok os /\ AppendJSON U (SVal 0 true) os = Some run /\ run 0 [] = Panic.
Proof.
  cbv zeta. split; [|split; [|split]].
  - apply (rp_compare _ _ _ (mkErr 2 7 false (str "b"))); [|reflexivity|reflexivity]. exists [], (GError (EAError (mkErr 2 7 false (str "b")))), [GJSON JANil]. split; [reflexivity|]. split; [reflexivity|]. intros o [<-|[]]. reflexivity.
  - eapply df_given; [|apply yl_nil]. exists [GError (EAError (mkErr 2 7 false (str "b")))], (GJSON JANil), []. split; [reflexivity|]. split; [reflexivity|]. intros o [].
  - right. split; [right|reflexivity]. intros o [<-|[<-|[]]]; reflexivity.
  - eexists _, _. split; [reflexivity|]. split; [reflexivity|]. vm_compute. reflexivity.
Qed.
