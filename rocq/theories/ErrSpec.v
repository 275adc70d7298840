(* Specification vocabulary for the texts of errors: C64. *)
From Verif Require Import Bytes StrSpec Types.
Local Open Scope N_scope.

(* The control characters of Unicode (category Cc), among them the line ends. *)
Definition control (r : N) : Prop := r < 32 \/ 127 <= r <= 159.
(* Text that is UTF-8 and has none of them. *)
Definition one_line (s : bytes) : Prop := exists rs, Forall (fun r => scalar r /\ ~ control r) rs /\ s = utf8s rs.
(* What is used of strconv.IsPrint. *)
Definition prints (isPrint : N -> bool) : Prop := forall r, isPrint r = true -> ~ control r.
(* A set of types: none, one, or more of the six. *)
Definition type_mask (t : N) : Prop := N.land t TypeAnyValue = t.
