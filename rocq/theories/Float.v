(* IEEE 754 binary floating point as Go uses it for float64 and float32: rounding to nearest, ties to
   even, gradual underflow, overflow to infinity.  NaN payloads and signalling are not modelled.
   No function here has a counterpart in /repo: this is the part of the Go language that numjson and
   unjson rely on.  Products and sums are rounded separately (no fused multiply-add, as on amd64). *)
From Coq Require Export ZArith.
From Verif Require Import Bytes.
Open Scope Z_scope.

(* A finite number is (-1)^s * m * 2^e. *)
Inductive float : Type :=
| FNaN
| FInf (s : bool)
| FFin (s : bool) (m : Z) (e : Z).

(* Precision, smallest and largest exponent of m * 2^e. *)
Record format := mkFormat { fprec : Z; femin : Z; femax : Z }.
Definition b64 : format := mkFormat 53 (-1074) 971.
Definition b32 : format := mkFormat 24 (-149) 104.

(* num/den, rounded to an integer, ties to even; 0 <= num, 0 < den *)
Definition roundHalfEven (num den : Z) : Z :=
  let q := num / den in
  let r := num mod den in
  match 2 * r ?= den with
  | Lt => q
  | Gt => q + 1
  | Eq => if Z.even q then q else q + 1
  end.

(* Largest k with 2^k * den <= num; 0 < num, 0 < den *)
Definition flog (num den : Z) : Z :=
  let k := Z.log2 num - Z.log2 den in
  if (if 0 <=? k then den * 2 ^ k <=? num else den <=? num * 2 ^ (- k)) then k else k - 1.

(* The float nearest to (-1)^s * num/den; 0 <= num, 0 < den *)
Definition roundQ (f : format) (s : bool) (num den : Z) : float :=
  if num =? 0 then FFin s 0 (femin f)
  else
    let e := Z.max (femin f) (flog num den - (fprec f - 1)) in
    let m := if 0 <=? e then roundHalfEven num (den * 2 ^ e) else roundHalfEven (num * 2 ^ (- e)) den in
    let '(m, e) := if m =? 2 ^ fprec f then (2 ^ (fprec f - 1), e + 1) else (m, e) in
    if femax f <? e then FInf s else FFin s m e.

(* m * 2^e as a fraction *)
Definition dyadic (m e : Z) : Z * Z := if 0 <=? e then (m * 2 ^ e, 1) else (m, 2 ^ (- e)).

(* -x *)
Definition fneg (x : float) : float :=
  match x with FNaN => FNaN | FInf s => FInf (negb s) | FFin s m e => FFin (negb s) m e end.
(* math.Abs *)
Definition fabs (x : float) : float :=
  match x with FNaN => FNaN | FInf _ => FInf false | FFin _ m e => FFin false m e end.

(* x * y *)
Definition fmul (f : format) (x y : float) : float :=
  match x, y with
  | FNaN, _ | _, FNaN => FNaN
  | FInf s, FInf t => FInf (xorb s t)
  | FInf s, FFin t m _ | FFin s m _, FInf t => if m =? 0 then FNaN else FInf (xorb s t)
  | FFin s m e, FFin t n e' => let (a, b) := dyadic (m * n) (e + e') in roundQ f (xorb s t) a b
  end.

(* x / y *)
Definition fdiv (f : format) (x y : float) : float :=
  match x, y with
  | FNaN, _ | _, FNaN => FNaN
  | FInf _, FInf _ => FNaN
  | FInf s, FFin t _ _ => FInf (xorb s t)
  | FFin s _ _, FInf t => FFin (xorb s t) 0 (femin f)
  | FFin s m e, FFin t n e' =>
      if n =? 0 then if m =? 0 then FNaN else FInf (xorb s t)
      else let (a, b) := dyadic m (e - e') in roundQ f (xorb s t) a (b * n)
  end.

(* x + y; an exact zero sum of opposite signs is +0 *)
Definition signed (s : bool) (m : Z) : Z := if s then - m else m.
Definition fadd (f : format) (x y : float) : float :=
  match x, y with
  | FNaN, _ | _, FNaN => FNaN
  | FInf s, FInf t => if Bool.eqb s t then FInf s else FNaN
  | FInf s, FFin _ _ _ | FFin _ _ _, FInf s => FInf s
  | FFin s m e, FFin t n e' =>
      let e0 := Z.min e e' in
      let z := signed s m * 2 ^ (e - e0) + signed t n * 2 ^ (e' - e0) in
      if z =? 0 then FFin (s && t) 0 (femin f)
      else let (a, b) := dyadic (Z.abs z) e0 in roundQ f (z <? 0) a b
  end.

(* Comparison of m * 2^e and n * 2^e', with signs *)
Definition fcmp (x y : float) : option comparison :=
  match x, y with
  | FNaN, _ | _, FNaN => None
  | FInf s, FInf t => Some (if Bool.eqb s t then Eq else if s then Lt else Gt)
  | FInf s, FFin _ _ _ => Some (if s then Lt else Gt)
  | FFin _ _ _, FInf s => Some (if s then Gt else Lt)
  | FFin s m e, FFin t n e' =>
      let e0 := Z.min e e' in
      Some (signed s m * 2 ^ (e - e0) ?= signed t n * 2 ^ (e' - e0))
  end.
(* x < y, x <= y, x == y *)
Definition flt (x y : float) : bool := match fcmp x y with Some Lt => true | _ => false end.
Definition fle (x y : float) : bool := match fcmp x y with Some Lt | Some Eq => true | _ => false end.
Definition feq (x y : float) : bool := match fcmp x y with Some Eq => true | _ => false end.

(* float64(n) for an integer n *)
Definition fofZ (f : format) (z : Z) : float := roundQ f (z <? 0) (Z.abs z) 1.

(* math.Trunc *)
Definition ftrunc (f : format) (x : float) : float :=
  match x with
  | FFin s m e => if e <? 0 then roundQ f s (m / 2 ^ (- e)) 1 else x
  | _ => x
  end.
(* The integer part, as used by the conversions int64(x) and uint64(x) when it is in range *)
Definition ftoZ (x : float) : Z :=
  match x with
  | FFin s m e => signed s (if e <? 0 then m / 2 ^ (- e) else m * 2 ^ e)
  | _ => 0
  end.
Close Scope Z_scope.
