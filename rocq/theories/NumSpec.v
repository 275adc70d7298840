(* Specification vocabulary for numbers: decimal texts and their values. *)
From Coq Require Export QArith Qabs Qpower.
From Verif Require Import Bytes JsonSpec Float FloatSpec.
Open Scope Z_scope.

(* Value of a digit string. *)
Fixpoint dval (ds : bytes) : Z :=
  match ds with
  | [] => 0
  | d :: r => (Z.of_N (bN d) - 48) * 10 ^ Z.of_nat (length r) + dval r
  end.
Definition digits (ds : bytes) : Prop := Forall digit ds.

(* The parts of a number: minus sign; integer digits; fraction digits, if any; e or E, signs and digits of
   the exponent, if any. *)
Record parts := mkParts { pneg : bool; pint : bytes; pfrac : option bytes; pexp : option (byte * bytes * bytes) }.

Definition frac_text (f : option bytes) : bytes := match f with Some ds => x2e :: ds | None => [] end.
Definition exp_text (e : option (byte * bytes * bytes)) : bytes :=
  match e with Some (c, sg, ds) => c :: sg ++ ds | None => [] end.
Definition text (p : parts) : bytes :=
  (if pneg p then [x2d] else []) ++ pint p ++ frac_text (pfrac p) ++ exp_text (pexp p).

(* Nonempty digit strings everywhere, e or E, and the signs satisfy sgOK. *)
Definition shape (sgOK : bytes -> Prop) (p : parts) : Prop :=
  digits (pint p) /\ pint p <> [] /\
  match pfrac p with Some ds => digits ds /\ ds <> [] | None => True end /\
  match pexp p with Some (c, sg, ds) => (c = x65 \/ c = x45) /\ sgOK sg /\ digits ds /\ ds <> [] | None => True end.
(* at most one sign *)
Definition one_sign (sg : bytes) : Prop := sg = [] \/ sg = [x2d] \/ sg = [x2b].
(* any number of signs *)
Definition some_signs (sg : bytes) : Prop := Forall (fun c => c = x2d \/ c = x2b) sg.

(* Optionally signed digit string with optional fraction and exponent. *)
Definition decimal_text (s : bytes) : Prop := exists p, shape one_sign p /\ s = text p.

(* Exponent of ten of the exponent part. *)
Definition exp_val (e : option (byte * bytes * bytes)) : Z :=
  match e with
  | Some (_, sg, ds) => if existsb (beqb x2d) sg then - dval ds else dval ds
  | None => 0
  end.
Definition frac_digits (p : parts) : bytes := match pfrac p with Some ds => ds | None => [] end.

Definition p10 (e : Z) : Q := Qpower (10#1) e.
(* Magnitude of the number. *)
Definition magnitude (p : parts) : Q :=
  ((inject_Z (dval (pint p)) + inject_Z (dval (frac_digits p)) * p10 (- Z.of_nat (length (frac_digits p)))) * p10 (exp_val (pexp p)))%Q.
Definition numval (p : parts) : Q := ((if pneg p then - (1) else 1) * magnitude p)%Q.

(* The integer written. *)
Definition intval (p : parts) : Z := if pneg p then - dval (pint p) else dval (pint p).
Definition integer_text (p : parts) : Prop := shape one_sign p /\ pfrac p = None /\ pexp p = None.

(* A float64 with this value exists. *)
Definition float_int (z : Z) : Prop := exists y, representable b64 y /\ (fval y == inject_Z z)%Q.
