(* Specification of field tags: parts separated by commas. *)
From Verif Require Import Bytes JsonSpec.

Definition no_comma (p : bytes) : Prop := ~ In x2c p.
Definition has (h : bytes) (ps : list bytes) : bool := existsb (bseqb h) ps.
(* the hints of the parts *)
Definition bits (ps : list bytes) : N :=
  ((if has (str "8bit") ps then 1 else 0) + (if has (str "html") ps then 2 else 0) + (if has (str "omitempty") ps then 4 else 0))%N.
