(* Model of the parts of Go's unicode/utf8 and unicode/utf16 that njson calls.  These packages are not in
   /repo; the functions below follow their documented behaviour (go doc unicode/utf8, unicode/utf16). *)
From Verif Require Import Bytes.

Definition RuneError : N := 65533.       (* utf8.RuneError = '�' *)
Definition RuneSelf : N := 128.          (* utf8.RuneSelf *)

Definition between (lo c hi : N) : bool := ((lo <=? c) && (c <=? hi))%N.

(* The table utf8.first: number of bytes announced by a first byte and the range allowed for the second.
   None: not the first byte of any sequence of two or more. *)
Definition firstInfo (s0 : N) : option (nat * (N * N)) :=
  if between 194 s0 223 then Some (2, (128%N, 191%N))
  else if (s0 =? 224)%N then Some (3, (160%N, 191%N))
  else if (s0 =? 237)%N then Some (3, (128%N, 159%N))
  else if between 225 s0 239 then Some (3, (128%N, 191%N))
  else if (s0 =? 240)%N then Some (4, (144%N, 191%N))
  else if between 241 s0 243 then Some (4, (128%N, 191%N))
  else if (s0 =? 244)%N then Some (4, (128%N, 143%N))
  else None.

Definition cont (c : byte) : bool := between 128 (bN c) 191.
Definition low6 (c : byte) : N := N.land (bN c) 63.

(* utf8.DecodeRuneInString: the first rune and its width; (RuneError, 1) if the encoding is invalid,
   (RuneError, 0) if s is empty. *)
Definition DecodeRune (s : bytes) : N * nat :=
  match s with
  | [] => (RuneError, 0)
  | s0 :: r =>
      if (bN s0 <? RuneSelf)%N then (bN s0, 1)
      else
        match firstInfo (bN s0), r with
        | Some (2, (lo, hi)), s1 :: _ =>
            if between lo (bN s1) hi
            then (N.lor (N.shiftl (N.land (bN s0) 31) 6) (low6 s1), 2) else (RuneError, 1)
        | Some (3, (lo, hi)), s1 :: s2 :: _ =>
            if between lo (bN s1) hi && cont s2
            then (N.lor (N.lor (N.shiftl (N.land (bN s0) 15) 12) (N.shiftl (low6 s1) 6)) (low6 s2), 3)
            else (RuneError, 1)
        | Some (4, (lo, hi)), s1 :: s2 :: s3 :: _ =>
            if between lo (bN s1) hi && cont s2 && cont s3
            then (N.lor (N.lor (N.lor (N.shiftl (N.land (bN s0) 7) 18) (N.shiftl (low6 s1) 12))
                               (N.shiftl (low6 s2) 6)) (low6 s3), 4)
            else (RuneError, 1)
        | _, _ => (RuneError, 1)
        end
  end.

(* byte(x) of an N *)
Definition tx : N := 128.
(* utf8.EncodeRune: the bytes written; also what strings.Builder.WriteRune appends. *)
Definition encode3 (r : N) : bytes :=
  [Nb (N.lor 224 (N.shiftr r 12)); Nb (N.lor tx (N.land (N.shiftr r 6) 63)); Nb (N.lor tx (N.land r 63))].
Definition EncodeRune (r : N) : bytes :=
  if (r <=? 127)%N then [Nb r]
  else if (r <=? 2047)%N then [Nb (N.lor 192 (N.shiftr r 6)); Nb (N.lor tx (N.land r 63))]
  else if (1114111 <? r)%N || between 55296 r 57343 then encode3 RuneError
  else if (r <=? 65535)%N then encode3 r
  else [Nb (N.lor 240 (N.shiftr r 18)); Nb (N.lor tx (N.land (N.shiftr r 12) 63));
        Nb (N.lor tx (N.land (N.shiftr r 6) 63)); Nb (N.lor tx (N.land r 63))].

(* utf16.IsSurrogate *)
Definition IsSurrogate (r : N) : bool := ((55296 <=? r) && (r <? 57344))%N.
(* utf16.DecodeRune *)
Definition DecodeRune16 (r1 r2 : N) : N :=
  if ((55296 <=? r1) && (r1 <? 56320) && (56320 <=? r2) && (r2 <? 57344))%N
  then (N.lor (N.shiftl (r1 - 55296) 10) (r2 - 56320) + 65536)%N
  else RuneError.
