(* What correct rounding means: specification vocabulary for Float.v. *)
From Coq Require Export QArith Qabs Qpower.
From Verif Require Import Bytes Float.
Open Scope Q_scope.

Definition p2 (e : Z) : Q := Qpower (2#1) e.

(* The number a finite float stands for. *)
Definition fval (x : float) : Q :=
  match x with FFin s m e => inject_Z (signed s m) * p2 e | _ => 0 end.
Definition finite (x : float) : Prop := match x with FFin _ _ _ => True | _ => False end.

(* m * 2^e with the mantissa and exponent in range. *)
Definition representable (f : format) (x : float) : Prop :=
  match x with FFin _ m e => (0 <= m < 2 ^ fprec f)%Z /\ (femin f <= e <= femax f)%Z | _ => False end.
(* The unique such form: normal, or subnormal with the least exponent. *)
Definition canonical (f : format) (x : float) : Prop :=
  match x with
  | FFin _ m e => representable f x /\ ((2 ^ (fprec f - 1) <= m)%Z \/ e = femin f)
  | _ => True
  end.
Definition even_mantissa (x : float) : Prop := match x with FFin _ m _ => Z.even m = true | _ => False end.

(* x is the float nearest to q, the one with even mantissa if there are two. *)
Definition nearest (f : format) (q : Q) (x : float) : Prop :=
  representable f x /\ canonical f x /\
  forall y, representable f y ->
    Qabs (q - fval x) <= Qabs (q - fval y) /\
    (Qabs (q - fval x) == Qabs (q - fval y) -> ~ fval x == fval y -> even_mantissa x).

(* Half a unit beyond the largest float: from there on the result is infinite. *)
Definition overflow (f : format) (q : Q) : Prop := (inject_Z (2 ^ fprec f) - (1#2)) * p2 (femax f) <= Qabs q.

Definition fsign (x : float) : option bool := match x with FFin s _ _ | FInf s => Some s | FNaN => None end.

(* x is q (of sign s, for zeros) correctly rounded. *)
Definition rounded (f : format) (s : bool) (q : Q) (x : float) : Prop :=
  fsign x = Some s /\
  ((~ overflow f q /\ nearest f q x) \/ (overflow f q /\ x = FInf s)).

(* Formats with at least two digits and one exponent. *)
Definition good (f : format) : Prop := (2 <= fprec f)%Z /\ (femin f <= femax f)%Z.
