(* Property C48: pools of documents.  Only statements, each closed by [exact]. *)
From Verif Require Import Bytes Types JsonSpec Parser Doc DocSpec Api HistSpec Pool PoolSpec PoolThms.

(* For every schedule that keeps to the discipline: nothing is owned or stored twice, and what is stored is blank. *)
Theorem C48_exclusive : forall es st, druns pstart es st -> exclusive st /\ forall r, In r (pooled st) -> blank (pworld st) r.
Proof. exact exclusive_lem. Qed.
Print Assumptions C48_exclusive.
Theorem C48_get : forall es st u k st1, druns pstart es st -> pstep st (PGet u k) = Some (Ok st1) ->
  exists r, owned st1 = (u, r) :: owned st /\ blank (pworld st1) r /\ (forall u', ~ In (u', r) (owned st)) /\ (forall u', ~ In (u', r) (closing st1)) /\ ~ In r (pooled st1).
Proof. exact get_lem. Qed.
Print Assumptions C48_get.
(* Nodes of a document that was given back are inert from then on, until the revision comes around after 2^64 resets. *)
Theorem C48_stale_partial : forall st es st' n r d u, pruns st es st' -> nth_error (pworld st) r = Some d -> ndoc n = Some r -> nrev n = drev d -> (drev d < two64)%N ->
  In (PReset u r) es -> (resets r (calls es) < two64)%N -> inert (pworld st') n.
Proof. exact stale_lem. Qed.
Print Assumptions C48_stale_partial.
Theorem C48_wrap_refuted : exists es1 st1 es2 st2 n u r, druns pstart es1 st1 /\ ndoc n = Some r /\ tree_of (pworld st1) n JNull /\ druns st1 es2 st2 /\ In (PReset u r) es2 /\
  resets r (calls es2) = two64 /\ ~ inert (pworld st2) n.
Proof. exact wrap_lem. Qed.
Print Assumptions C48_wrap_refuted.
(* As long as a user owns a document, others leave it alone, even if they call methods of stale nodes of it. *)
Theorem C48_isolated : forall es0 st es st' u r, druns pstart es0 st -> In (u, r) (owned st) -> druns st es st' -> Forall (fun e => ~ by_user e u) es -> no_node r st es ->
  In (u, r) (owned st') /\ nth_error (pworld st') r = nth_error (pworld st) r.
Proof. exact isolated_start. Qed.
Print Assumptions C48_isolated.
(* Without the discipline the statement is false: a document closed twice is handed to two users. *)
Theorem C48_refuted : exists es st u1 u2 r, pruns pstart es st /\ u1 <> u2 /\ In (u1, r) (owned st) /\ In (u2, r) (owned st).
Proof. exact twice_lem. Qed.
Print Assumptions C48_refuted.
Example C48_example : exists st st1, druns pstart [PGet 0 None; PGet 1 None; PCall 0 (CParse 0 (str "[1,2]")); PReset 0 0; PCall 1 (CNull 1); PPut 0 0] st /\
  pstep st (PGet 2 (Some O)) = Some (Ok st1) /\ owned st1 = [(2, 0); (1, 1)] /\ pworld st1 = [mkDoc [] 1; mkDoc [mkNode (N.lor vNull infRoot) (str "null") []] 0].
Proof. exact C48_example_lem. Qed.
