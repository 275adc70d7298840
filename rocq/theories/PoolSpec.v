(* Specification for C48: how a pool is to be used. *)
From Verif Require Import Bytes Types Parser Doc Api HistSpec Pool.

(* The discipline: a user calls document methods only on documents they own, and gives back only those.
   Node methods may be called on any node. *)
Definition may (st : pstate) (e : event) : Prop :=
  match e with
  | PCall u c => forall r, subject c = Some r -> In (u, r) (owned st)
  | PReset u r => In (u, r) (owned st)
  | PPut u r => In (u, r) (closing st)
  | _ => True
  end.
Inductive druns : pstate -> list event -> pstate -> Prop :=
| dr_nil st : druns st [] st
| dr_cons st e st1 es st2 : may st e -> pstep st e = Some (Ok st1) -> druns st1 es st2 -> druns st (e :: es) st2.

Definition blank (w : world) (r : ref) : Prop := exists d, nth_error w r = Some d /\ dnodes d = [].
(* no document is stored twice, owned twice, or both *)
Definition exclusive (st : pstate) : Prop := NoDup (map snd (owned st) ++ map snd (closing st) ++ pooled st).
Definition by_user (e : event) (u : uid) : Prop :=
  match e with PGet u' _ | PCall u' _ | PReset u' _ | PPut u' _ => u' = u | PDrop _ => False end.
(* the events do not reach document r through a node that is still valid *)
Fixpoint no_node (r : ref) (st : pstate) (es : list event) : Prop :=
  match es with
  | [] => True
  | e :: es =>
      match e with PCall _ c => forall n, receiver c = Some n -> ndoc n = Some r -> inert (pworld st) n | _ => True end /\
      forall st1, pstep st e = Some (Ok st1) -> no_node r st1 es
  end.
