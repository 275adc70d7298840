(* What strconv.AppendFloat(dst, f, fmt, -1, bits) appends, as far as AppendFloat relies on it. *)
From Verif Require Import Bytes JsonSpec Float FloatSpec NumSpec.

(* format 'e' of a finite number: an exponent e, a sign and at least two digits *)
Definition e_text (p : parts) : Prop :=
  shape one_sign p /\ rfc_int (pint p) /\ exists sg ds, pexp p = Some (x65, [sg], ds) /\ (2 <= length ds)%nat.
(* format 'f': no exponent *)
Definition f_text (p : parts) : Prop := shape one_sign p /\ rfc_int (pint p) /\ pexp p = None.
(* The number that is written: f itself, or the float32 nearest to it. *)
Definition fmt_of (bits : Z) : format := if (bits =? 32)%Z then b32 else b64.
Definition narrow (bits : Z) (f g : float) : Prop :=
  (bits = 64%Z /\ g = f) \/
  (bits = 32%Z /\ match f with FFin s _ _ => rounded b32 s (fval f) g | _ => g = f end).
(* Finite numbers are written in these formats, and rounding what is written gives the number. *)
Definition ftoa_spec (ftoa : float -> bool -> Z -> bytes) : Prop :=
  forall f g e bits, canonical b64 f -> narrow bits f g -> finite g ->
    exists p, ftoa f e bits = text p /\ (if e then e_text p else f_text p) /\ rounded (fmt_of bits) (pneg p) (numval p) g.
(* The others are written NaN, +Inf and -Inf, which are not numbers. *)
Definition ftoa_special (ftoa : float -> bool -> Z -> bytes) : Prop :=
  forall f g e bits, canonical b64 f -> narrow bits f g -> ~ finite g ->
    ftoa f e bits = match g with FInf false => str "+Inf" | FInf true => str "-Inf" | _ => str "NaN" end.

(* e-0d becomes e-d, nothing else changes *)
Definition cleaned (p p' : parts) : Prop :=
  pneg p' = pneg p /\ pint p' = pint p /\ pfrac p' = pfrac p /\
  ((exists d, pexp p = Some (x65, [x2d], [x30; d]) /\ pexp p' = Some (x65, [x2d], [d])) \/
   ((forall d, pexp p <> Some (x65, [x2d], [x30; d])) /\ pexp p' = pexp p)).
