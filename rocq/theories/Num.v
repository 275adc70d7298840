(* Model of numjson/numjson.go, numjson/format.go and the numeric parts of node.go and document.go.

   The parts of the Go standard library they use are modelled by their documented behaviour:
   float64 arithmetic (Float.v), math.Pow10, math.Trunc, strconv.ParseFloat (nearest float64 of a decimal
   text), strconv.FormatInt/FormatUint.  strconv.AppendFloat is a parameter. *)
From Verif Require Import Bytes Types Parser Doc Float.
Local Open Scope Z_scope.

Definition isDigit (c : byte) : bool := (48 <=? bN c)%N && (bN c <=? 57)%N.
(* c - '0' *)
Definition digitVal (c : byte) : Z := Z.of_N (bN c) - 48.

Definition two64Z : Z := 18446744073709551616.

(* numjson.go:34-46, 60-71: the digit loops.  The accumulator is a uint64; returns it, the number of
   digits read and the rest of the text, which is empty or starts with the byte c that is not a digit. *)
Fixpoint scanDigits (s : bytes) (acc j : Z) : Z * Z * bytes :=
  match s with
  | c :: r => if isDigit c then scanDigits r ((acc * 10 + digitVal c) mod two64Z) (j + 1) else (acc, j, s)
  | [] => (acc, j, [])
  end.

(* numjson.go:89-106: the exponent loop; exp is an int.  None is return fNaN. *)
Fixpoint scanExp (s : bytes) (neg : bool) (exp jj : Z) : option (bool * Z * Z) :=
  match s with
  | [] => Some (neg, exp, jj)
  | c :: r =>
      if isDigit c then scanExp r neg (wrap64 (10 * exp + digitVal c)) (jj + 1)
      else if jj =? 0 then
        if beqb c x2d then scanExp r true exp jj
        else if beqb c x2b then scanExp r neg exp jj else None
      else None
  end.

(* math.Pow10: 10^n from tables of correctly rounded constants: pow10postab32[n/32] * pow10tab[n%32]
   for 0 <= n <= 308, pow10negtab32[-n/32] / pow10tab[-n%32] for -323 <= n <= 0. *)
Definition lit10 (n : Z) : float := if 0 <=? n then roundQ b64 false (10 ^ n) 1 else roundQ b64 false 1 (10 ^ (- n)).
Definition Pow10 (n : Z) : float :=
  if (0 <=? n) && (n <=? 308) then fmul b64 (lit10 (n / 32 * 32)) (lit10 (n mod 32))
  else if (-323 <=? n) && (n <=? 0) then fdiv b64 (lit10 (- (- n / 32 * 32))) (lit10 (- n mod 32))
  else if 0 <? n then FInf false else FFin false 0 (femin b64).

(* strconv.ParseFloat(s, 64) with its error ignored: the nearest float64, an infinity when out of range, 0
   for text that is not [sign] digits [. digits] [e [sign] digits].  The other forms that strconv accepts
   (inf, nan, hexadecimal, underscores, .5, 5.) cannot reach the call in numjson.go:127. *)
Fixpoint takeDigits (s : bytes) : bytes * bytes :=
  match s with
  | c :: r => if isDigit c then let (d, t) := takeDigits r in (c :: d, t) else ([], s)
  | [] => ([], [])
  end.
Definition digitsZ (ds : bytes) : Z := fold_left (fun n c => 10 * n + digitVal c) ds 0.
Definition round10 (s : bool) (m e : Z) : float :=
  if 0 <=? e then roundQ b64 s (m * 10 ^ e) 1 else roundQ b64 s m (10 ^ (- e)).
Definition zeroF : float := FFin false 0 (femin b64).
Definition strconv_ParseFloat (s : bytes) : float :=
  let (neg, r) := match s with
                  | c :: r => if beqb c x2d then (true, r) else if beqb c x2b then (false, r) else (false, s)
                  | [] => (false, [])
                  end in
  let (i, r) := takeDigits r in
  match i with [] => zeroF | _ =>
  let (f, r) := match r with c :: r' => if beqb c x2e then takeDigits r' else ([], r) | [] => ([], []) end in
  match r with
  | [] => round10 neg (digitsZ (i ++ f)) (- Z.of_nat (length f))
  | c :: r =>
      if beqb c x65 || beqb c x45 then
        let (eneg, r) := match r with
                         | c :: r' => if beqb c x2d then (true, r') else if beqb c x2b then (false, r') else (false, r)
                         | [] => (false, [])
                         end in
        let (e, r) := takeDigits r in
        match e, r with
        | _ :: _, [] => round10 neg (digitsZ (i ++ f)) (signed eneg (digitsZ e) - Z.of_nat (length f))
        | _, _ => zeroF
        end
      else zeroF
  end
  end.

(* numjson.go:74-77, 122-125 *)
Definition applySign (neg : bool) (f : float) : float := if neg then fneg f else f.

Local Notation fu := (fofZ b64).
Local Notation "x +f y" := (fadd b64 x y) (at level 50).
Local Notation "x *f y" := (fmul b64 x y) (at level 40).

(* numjson.go:84-128 with c the byte at index i and r the text after it *)
Definition scientific (s : bytes) (neg : bool) (num dec j : Z) (c : byte) (r : bytes) : float :=
  if beqb c x65 || beqb c x45 then
    match scanExp r false 0 0 with
    | None => FNaN
    | Some (eneg, exp, jj) =>
        if jj =? 0 then FNaN
        else if 300 <? exp then strconv_ParseFloat s
        else applySign neg
          (if eneg then (fu num +f fu dec *f Pow10 (- j)) *f Pow10 (wrap64 (- exp))
           else fu num *f Pow10 exp +f fu dec *f Pow10 (wrap64 (exp - j)))
    end
  else FNaN.

(* numjson.go:11-130 *)
Definition ParseFloat (s : bytes) : float :=
  match s with
  | [c] => if isDigit c then fu (digitVal c) else FNaN                                 (* 26-31 *)
  | _ =>
  let (neg, r) := match s with
                  | c :: r => if beqb c x2d then (true, r) else (false, s)             (* 22-25 *)
                  | [] => (false, [])
                  end in
  let '(num, j, r) := scanDigits r 0 0 in
  if j =? 0 then FNaN                                                                   (* 41-43, 53-55 *)
  else match r with
  | [] => if j <=? 18 then applySign neg (fu num) else strconv_ParseFloat s              (* 47-56 *)
  | c :: r =>
      if beqb c x2e then                                                                 (* 58 *)
        let '(dec, j, r) := scanDigits r 0 0 in
        if j =? 0 then FNaN                                                              (* 70, 79-81 *)
        else match r with
        | [] => if j <=? 18 then applySign neg (fu num +f fu dec *f Pow10 (- j)) else strconv_ParseFloat s
        | c :: r => scientific s neg num dec j c r
        end
      else scientific s neg num 0 j c r
  end
  end.

(* int64(f) and uint64(f) for f in range; what they give otherwise depends on the machine and is not
   modelled (0 here), but the second result is then false. *)
Definition toInt64 (f : float) : Z :=
  if fle (fu (-9223372036854775808)) f && flt f (fu 9223372036854775807) then ftoZ f else 0.
Definition toUint64 (f : float) : Z :=
  if fle zeroF f && flt f (fu 18446744073709551615) then ftoZ f else 0.
(* numjson.go:133-136 *)
Definition intOk (f : float) : bool :=
  fle (fu (-9223372036854775808)) f && flt f (fu 9223372036854775807) && feq (ftrunc b64 f) f.
Definition ParseInt (s : bytes) : Z * bool := let f := ParseFloat s in (toInt64 f, intOk f).
(* numjson.go:139-142 *)
Definition uintOk (f : float) : bool :=
  fle zeroF f && flt f (fu 18446744073709551615) && feq (ftrunc b64 f) f.
Definition ParseUint (s : bytes) : Z * bool := let f := ParseFloat s in (toUint64 f, uintOk f).

Definition isNaN (f : float) : bool := negb (feq f f).
(* node.go:95-101 *)
Definition Node_ToFloat (w : world) (n : Node) : float * bool :=
  match Node_get w n with
  | Some x => let f := ParseFloat (nraw x) in (f, feq f f)
  | None => (zeroF, false)
  end.
(* node.go:104-110 *)
Definition Node_ToInt (w : world) (n : Node) : Z * bool :=
  match Node_get w n with
  | Some x => let f := ParseFloat (nraw x) in (toInt64 f, intOk f)
  | None => (0, false)
  end.
(* node.go:113-119 *)
Definition Node_ToUint (w : world) (n : Node) : Z * bool :=
  match Node_get w n with
  | Some x => let f := ParseFloat (nraw x) in (toUint64 f, uintOk f)
  | None => (0, false)
  end.

(* strconv.FormatUint(u, 10) and strconv.FormatInt(i, 10); [fuel] is more than the number of digits *)
Fixpoint digitsOf (fuel : nat) (n : N) : bytes :=
  match fuel with
  | O => []
  | S k => if (n <? 10)%N then [Nb (48 + n)] else digitsOf k (n / 10)%N ++ [Nb (48 + n mod 10)%N]
  end.
Definition FormatUint (n : N) : bytes := digitsOf (S (N.size_nat n)) n.
Definition FormatInt (z : Z) : bytes := if z <? 0 then x2d :: FormatUint (Z.to_N (- z)) else FormatUint (Z.to_N z).
(* node.go:387-392 *)
Definition Node_SetInt (w : world) (n : Node) (i : Z) : world := Node_SetNumberRaw w n (FormatInt i).
(* node.go:395-400 *)
Definition Node_SetUint (w : world) (n : Node) (u : Z) : world := Node_SetNumberRaw w n (FormatUint (Z.to_N u)).

(* ---- format.go ---- *)

(* format.go:11-15.  float32(abs) rounds abs. *)
Definition to32 (x : float) : float :=
  match x with FFin s m e => let (a, b) := dyadic m e in roundQ b32 s a b | _ => x end.
Definition isZero (x : float) : bool := feq x zeroF.
Definition useExp (f : float) (bits : Z) : bool :=
  let abs := fabs f in
  negb (isZero abs) &&
  (((bits =? 32) && (flt (to32 abs) (roundQ b32 false 1 1000000) || fle (roundQ b32 false (10 ^ 21) 1) (to32 abs))) ||
   ((bits =? 64) && (flt abs (roundQ b64 false 1 1000000) || fle (roundQ b64 false (10 ^ 21) 1) abs))).

(* format.go:17-26: dst[len(dst)-4:] is inspected, and the last byte dropped *)
Definition cleanup (dst : bytes) : bytes :=
  let n := length dst in
  if (n <? 4)%nat then dst
  else match skipn (n - 4) dst with
  | [a; b; c; d] => if beqb a x65 && beqb b x2d && beqb c x30 then firstn (n - 4) dst ++ [a; b; d] else dst
  | _ => dst
  end.

(* format.go:9-28; [ftoa f e bits] is what strconv.AppendFloat(dst, f, fmt, -1, bits) appends, e telling
   whether fmt is 'e'.  strconv.AppendFloat panics when bits is not 32 or 64. *)
Definition AppendFloat (ftoa : float -> bool -> Z -> bytes) (dst : bytes) (f : float) (bits : Z) : res bytes :=
  let e := useExp f bits in
  if (bits =? 32) || (bits =? 64) then
    let dst := dst ++ ftoa f e bits in
    Ok (if e then cleanup dst else dst)
  else Panic.
(* format.go:31-35 *)
Definition FormatFloat (ftoa : float -> bool -> Z -> bytes) (f : float) (bits : Z) : res bytes := AppendFloat ftoa [] f bits.
(* document.go:159-164 *)
Definition Document_Number ftoa (w : world) (r : ref) (f : float) : res (world * Node) :=
  let! s := FormatFloat ftoa f 64 in Document_NumberRaw w r s.
(* node.go:403-407 *)
Definition Node_SetFloat ftoa (w : world) (n : Node) (f : float) : res world :=
  let! s := FormatFloat ftoa f 64 in Ok (Node_SetNumberRaw w n s).
