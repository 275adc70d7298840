(* Property C47: a Cache shared by goroutines.  Only statements, each closed by [exact]. *)
From Coq Require Import Permutation.
From Verif Require Import Bytes Cache CacheSpec CacheThms.

(* All successful calls for one method and type return the same instance, and it stays in the map. *)
Theorem C47_same : forall calls s st q i j, cruns (cstart calls) s st -> In (q, RGot i) (log st) -> In (q, RGot j) (log st) -> i = j.
Proof. exact same_lem. Qed.
Print Assumptions C47_same.
Theorem C47_kept : forall calls s st q i s' st', cruns (cstart calls) s st -> In (q, RGot i) (log st) -> cruns st s' st' -> look st' q = Some i.
Proof. exact kept_lem. Qed.
Print Assumptions C47_kept.
(* It is an instance that was built for that method and type. *)
Theorem C47_built_for : forall P calls s st q i, cruns_by P (cstart calls) s st -> In (q, RGot i) (log st) -> P q i.
Proof. exact typed_lem. Qed.
Print Assumptions C47_built_for.
(* No step is a fatal error: no write to a nil map, no unlocking of an unlocked lock. *)
Theorem C47_no_crash : forall calls s st t b, cruns (cstart calls) s st -> cstep st t b <> Crash.
Proof. exact no_crash_lem. Qed.
Print Assumptions C47_no_crash.
Theorem C47_no_race : forall calls s st, cruns (cstart calls) s st -> ~ race st.
Proof. exact no_race_lem. Qed.
Print Assumptions C47_no_race.
(* No deadlock, no endless execution: every execution that cannot go on has answered every call. *)
Theorem C47_progress : forall calls s st, cruns (cstart calls) s st -> finished st \/ exists t, forall b, exists st1, cstep st t b = Next st1.
Proof. exact progress_lem. Qed.
Print Assumptions C47_progress.
Theorem C47_bounded : forall calls s st, cruns (cstart calls) s st -> length s <= 11 * length (concat calls).
Proof. exact bounded_lem. Qed.
Print Assumptions C47_bounded.
Theorem C47_answered : forall calls s st, cruns (cstart calls) s st -> (forall t b st1, cstep st t b <> Next st1) -> finished st /\ Permutation (map fst (log st)) (concat calls).
Proof. exact answered_lem. Qed.
Print Assumptions C47_answered.
(* Two goroutines both miss and build 7 and 8 for the same type; 7 is stored first and both return it. *)
Example C47_example : exists st, cruns (cstart [[(KDec, 3)]; [(KDec, 3); (KEnc, 3)]])
   (map (fun t => (t, RGot (7 + t))) [0; 1; 0; 1; 0; 1; 0; 1; 0; 1; 0; 0; 0; 0; 0; 0; 1; 1; 1; 1]) st /\
  log st = [((KDec, 3), RGot 7); ((KDec, 3), RGot 7)].
Proof. exact C47_example_lem. Qed.
