(* Specification for C47. *)
From Verif Require Import Bytes Cache.

Definition finished (st : cstate) : Prop := forall th, In th (threads st) -> todo th = [] /\ at_ th = Outside.
(* accesses to the two maps, which the goroutine is about to make *)
Definition reads (p : pc) : Prop := match p with Reading _ | Checking _ _ | Making _ _ | Storing _ _ => True | _ => False end.
Definition writes (p : pc) : Prop := match p with Making _ _ | Storing _ _ => True | _ => False end.
Definition race (st : cstate) : Prop :=
  exists t1 t2 th1 th2, t1 <> t2 /\ nth_error (threads st) t1 = Some th1 /\ nth_error (threads st) t2 = Some th2 /\ writes (at_ th1) /\ (reads (at_ th2) \/ writes (at_ th2)).

(* executions in which the codecs built for q are among those P allows *)
Inductive cruns_by (P : request -> inst -> Prop) : cstate -> list (tid * outcome) -> cstate -> Prop :=
| cb_nil st : cruns_by P st [] st
| cb_cons st t b st1 s st2 : cstep st t b = Next st1 ->
    (forall th q i, nth_error (threads st) t = Some th -> at_ th = Unlocked q None -> b = RGot i -> P q i) ->
    cruns_by P st1 s st2 -> cruns_by P st ((t, b) :: s) st2.
