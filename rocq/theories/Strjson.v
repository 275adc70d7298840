(* Model of package strjson: escape.go, unescape.go, and the lookups of bytemaps.go.

   The loops walk over the string with indices pos <= i.  The model keeps s[pos:i], the part not yet
   copied, as [pend] and s[i:] as [s].  All three loops get fuel; one unit per byte always suffices
   (StrProofs). *)
From Verif Require Import Bytes Tables Parser Doc Utf8.

(* strjson/bytemaps.go:9-19 *)
Definition fromHex (c : byte) : byte := tbl bytemapFromHex c.
Definition toHex (c : byte) : byte := tbl bytemapToHex c.
Definition toJSON (c : byte) : byte := tbl bytemapToJSON c.

(* escape.go:163-169 *)
Definition uLineSeparator : N := 8232.
Definition uParagraphSeparator : N := 8233.

(* escape.go:46-51 and 175-182  escapeUTF8 *)
Definition escapeUTF8 (r : N) : bytes :=
  [x5c; x75; toHex (Nb (N.shiftr r 12)); toHex (Nb (N.land (bN (Nb (N.shiftr r 8))) 15));
   toHex (Nb (N.shiftr (bN (Nb r)) 4)); toHex (Nb (N.land (bN (Nb r)) 15))].
(* escape.go:74-77 and 171-173  escapeByte *)
Definition escapeByte (c : byte) : bytes :=
  [x5c; x75; x30; x30; toHex (Nb (N.shiftr (bN c) 4)); toHex (Nb (N.land (bN c) 15))].

(* escape.go:29-85, the loop of Escaped; b is the builder. *)
Fixpoint escapedLoop (fuel : nat) (HTML : bool) (b pend s : bytes) : option bytes :=
  match fuel with O => None | S f =>
  match s with
  | [] => Some (b ++ pend)
  | c :: r =>
      let e := toJSON c in
      if beqb e x80 then escapedLoop f HTML b (pend ++ [c]) r
      else if beqb e xff then
        let (rn, size) := DecodeRune s in
        if (rn =? RuneError)%N || (rn =? uLineSeparator)%N || (rn =? uParagraphSeparator)%N then
          if Nat.eqb size 0 then escapedLoop f HTML b (pend ++ [c]) r
          else escapedLoop f HTML (b ++ pend ++ escapeUTF8 rn) [] (skipn size s)
        else escapedLoop f HTML b (pend ++ firstn size s) (skipn size s)
      else if beqb e x01 && negb HTML then escapedLoop f HTML b (pend ++ [c]) r
      else
        let e := if beqb e x01 then x00 else e in
        escapedLoop f HTML
          (b ++ pend ++ (if beqb e x5c then [x5c; c] else if beqb e x00 then escapeByte c else [x5c; e])) [] r
  end
  end.

(* escape.go:10-90 *)
Definition Escaped (s : bytes) (HTML quoted : bool) : res bytes :=
  match s with
  | [] => Ok (if quoted then [x22; x22] else [])
  | _ =>
      match escapedLoop (S (length s)) HTML (if quoted then [x22] else []) [] s with
      | Some b => Ok (if quoted then b ++ [x22] else b)
      | None => Diverge
      end
  end.

(* escape.go:111-160, the loop of AppendEscaped *)
Fixpoint appendEscapedLoop (fuel : nat) (HTML : bool) (dst pend s : bytes) : option bytes :=
  match fuel with O => None | S f =>
  match s with
  | [] => Some (dst ++ pend)
  | c :: r =>
      let e := toJSON c in
      if beqb e x80 then appendEscapedLoop f HTML dst (pend ++ [c]) r
      else if beqb e xff then
        let (rn, size) := DecodeRune s in
        if (rn =? RuneError)%N || (rn =? uLineSeparator)%N || (rn =? uParagraphSeparator)%N then
          if Nat.eqb size 0 then appendEscapedLoop f HTML dst (pend ++ [c]) r
          else appendEscapedLoop f HTML (dst ++ pend ++ escapeUTF8 rn) [] (skipn size s)
        else appendEscapedLoop f HTML dst (pend ++ firstn size s) (skipn size s)
      else if beqb e x01 && negb HTML then appendEscapedLoop f HTML dst (pend ++ [c]) r
      else
        let e := if beqb e x01 then x00 else e in
        appendEscapedLoop f HTML
          (dst ++ pend ++ (if beqb e x5c then [x5c; c] else if beqb e x00 then escapeByte c else [x5c; e])) [] r
  end
  end.

(* escape.go:93-161.  Growing the buffer (104-109) does not change its contents. *)
Definition AppendEscaped (dst s : bytes) (HTML : bool) : res bytes :=
  match s with
  | [] => Ok dst
  | _ => match appendEscapedLoop (S (length s)) HTML dst [] s with Some b => Ok b | None => Diverge end
  end.

(* unescape.go:69-72, 82-85, 214-217, 227-230 *)
Definition hexRune (a b c d : byte) : N :=
  N.lor (N.lor (N.lor (N.shiftl (bN (fromHex a)) 12) (N.shiftl (bN (fromHex b)) 8))
               (N.shiftl (bN (fromHex c)) 4)) (bN (fromHex d)).

(* The switch at unescape.go:34-53 and 182-201: the byte an escape stands for. *)
Definition simpleEscape (c : byte) : option byte :=
  if beqb c x22 || beqb c x2f || beqb c x5c then Some c
  else if beqb c x6e then Some x0a
  else if beqb c x72 then Some x0d
  else if beqb c x74 then Some x09
  else if beqb c x62 then Some x08
  else if beqb c x66 then Some x0c
  else None.

(* unescape.go:171-250, Unescaped's loop; b is the builder. *)
Fixpoint unescapedLoop (fuel : nat) (b pend s : bytes) : option bytes :=
  match fuel with O => None | S f =>
  match s with
  | [] => Some (b ++ pend)
  | c :: r =>
      if negb (beqb c delimEscape) then unescapedLoop f b (pend ++ [c]) r
      else
        let b := b ++ pend in
        match r with
        | [] => Some (b ++ [x5c])
        | c :: r =>
            match simpleEscape c with
            | Some c => unescapedLoop f (b ++ [c]) [] r
            | None =>
                if beqb c x75 then
                  match r with
                  | h1 :: h2 :: h3 :: h4 :: r4 =>
                      let r1 := hexRune h1 h2 h3 h4 in
                      if (r1 <? RuneSelf)%N then unescapedLoop f (b ++ [Nb r1]) [] r4
                      else if IsSurrogate r1 then
                        match r4 with
                        | e :: u :: g1 :: g2 :: g3 :: g4 :: r10 =>
                            if beqb e delimEscape && beqb u x75 then
                              unescapedLoop f (b ++ EncodeRune (DecodeRune16 r1 (hexRune g1 g2 g3 g4))) [] r10
                            else unescapedLoop f (b ++ EncodeRune RuneError) [] r4
                        | _ => unescapedLoop f (b ++ EncodeRune RuneError) [] r4
                        end
                      else unescapedLoop f (b ++ EncodeRune r1) [] r4
                  | _ => unescapedLoop f (b ++ [x5c; x75]) [] r
                  end
                else unescapedLoop f (b ++ [x5c; c]) [] r
            end
        end
  end
  end.

(* unescape.go:156-251 *)
Definition Unescaped (s : bytes) : res bytes :=
  match s with
  | [] => Ok []
  | _ =>
      match indexByte delimEscape s with
      | None => Ok s
      | Some i =>
          match unescapedLoop (S (length s)) [] (firstn i s) (skipn i s) with
          | Some b => Ok b
          | None => Diverge
          end
      end
  end.

(* copy(dst[j:], bs) when it fits *)
Definition writeAt (dst : bytes) (j : nat) (bs : bytes) : bytes :=
  firstn j dst ++ bs ++ skipn (j + length bs) dst.

(* unescape.go:118-126: the buffer and the number of bytes written *)
Definition writeStringAt (dst s : bytes) (pos : nat) : bytes * nat :=
  if (pos <? length dst) && (length s <=? length dst - pos) then (writeAt dst pos s, length s) else (dst, 0).

(* unescape.go:57-60, 100-103, 105-108: if 0 <= j && j < len(dst) { dst[j] = c; j++ } *)
Definition putByte (dst : bytes) (j : nat) (c : byte) : bytes * nat :=
  if j <? length dst then (writeAt dst j [c], S j) else (dst, j).

(* unescape.go:91-93: if 0 <= j && j < len(dst) { j += utf8.EncodeRune(dst[j:], r1) }; EncodeRune panics when
   the rune does not fit. *)
Definition putRune (dst : bytes) (j : nat) (r : N) : res (bytes * nat) :=
  if j <? length dst then
    if length (EncodeRune r) <=? length dst - j then Ok (writeAt dst j (EncodeRune r), j + length (EncodeRune r))
    else Panic
  else Ok (dst, j).

(* unescape.go:23-110, Unescape's loop *)
Fixpoint unescapeLoop (fuel : nat) (dst : bytes) (j : nat) (pend s : bytes) : res (bytes * nat) :=
  match fuel with O => Diverge | S f =>
  match s with
  | [] => let (dst, n) := match pend with [] => (dst, 0) | _ => writeStringAt dst pend j end in Ok (dst, j + n)
  | c :: r =>
      if negb (beqb c delimEscape) then unescapeLoop f dst j (pend ++ [c]) r
      else
        let (dst, n) := match pend with [] => (dst, 0) | _ => writeStringAt dst pend j end in
        let j := j + n in
        match r with
        | [] => Ok (putByte dst j x5c)
        | c :: r =>
            match simpleEscape c with
            | Some c => let (dst, j) := putByte dst j c in unescapeLoop f dst j [] r
            | None =>
                if beqb c x75 then
                  match r with
                  | h1 :: h2 :: h3 :: h4 :: r4 =>
                      let r1 := hexRune h1 h2 h3 h4 in
                      if (r1 <? RuneSelf)%N then let (dst, j) := putByte dst j (Nb r1) in unescapeLoop f dst j [] r4
                      else if IsSurrogate r1 then
                        match r4 with
                        | e :: u :: g1 :: g2 :: g3 :: g4 :: r10 =>
                            if beqb e delimEscape && beqb u x75 then
                              let! (dst, j) := putRune dst j (DecodeRune16 r1 (hexRune g1 g2 g3 g4)) in
                              unescapeLoop f dst j [] r10
                            else let! (dst, j) := putRune dst j RuneError in unescapeLoop f dst j [] r4
                        | _ => let! (dst, j) := putRune dst j RuneError in unescapeLoop f dst j [] r4
                        end
                      else let! (dst, j) := putRune dst j r1 in unescapeLoop f dst j [] r4
                  | _ => let (dst, j) := putByte dst j x5c in
                         let (dst, j) := putByte dst j x75 in unescapeLoop f dst j [] r
                  end
                else
                  let (dst, j) := putByte dst j x5c in
                  let (dst, j) := putByte dst j c in unescapeLoop f dst j [] r
            end
        end
  end
  end.

(* unescape.go:13-111: the buffer afterwards and the length returned *)
Definition Unescape (dst s : bytes) : res (bytes * nat) :=
  match s with
  | [] => Ok (dst, 0)
  | _ => unescapeLoop (S (length s)) dst 0 [] s
  end.

(* unescape.go:130-151.  A slice is its contents and the contents of its spare capacity.  None: nil. *)
Definition AppendUnescaped (dst spare s : bytes) : res (option bytes) :=
  match s with
  | [] => Ok (Some dst)
  | _ =>
      let spare := if length dst + length spare <? length dst + length s then repeat x00 (length s) else spare in
      let! (buf, n) := Unescape spare s in
      if n + length dst <=? length dst + length spare then Ok (Some (dst ++ firstn n buf)) else Ok None
  end.
