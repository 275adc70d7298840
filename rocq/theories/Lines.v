(* Model of unjson/stream.go with the values that are encoded and decoded.

   Simplifications: those of Stream.v and Codec.v.  The writer takes everything it is given and keeps nothing; the
   buffer of the encoder is a new one for each call, which stream.go:78-80 has by cutting it to length 0.  Targets are
   not nil. *)
From Verif Require Import Bytes Types Parser Doc Options Stream Codec Coder.

(* stream.go:76-88: what is written, and the error; m is e.Encoder *)
Definition LineEncoder_EncodeValue (E : env) (m : option typeEncoder) (x : option (tid * gv)) : res (bytes * option uerr) :=
  let! r := match m with None => AppendJSON E [] x | Some m => Encode E m [] x end in
  Ok match snd r with
     | Some e => (LineEncoder_Encode None, Some e)
     | None => (LineEncoder_Encode (Some (fst r)), None)
     end.

(* the errors of stream.go:39, 47, 50 and 53-55 *)
Inductive lineError := ErrEOF | ErrParse (e : perror) | ErrLine | ErrValue (e : uerr).
(* stream.go:34-57 with a target x of type t; d is d.Decoder and pi the type *interface{}.  The result has the document,
   what is left to read, the new value of x and the error. *)
Definition LineDecoder_DecodeValue (E : env) (pi : tid) (B : nat) (early : bool) (w : world) (r : ref) (d : option decoder) (t : tid) (x : gv) (s : bytes) :
    res (world * bytes * gv * option lineError) :=
  let! p := LineDecoder_Decode B early w r s in
  let '(w, s, o) := p in
  match o with
  | LEOF => Ok (w, s, x, Some ErrEOF)
  | LParse e => Ok (w, s, x, Some (ErrParse e))
  | LTail => Ok (w, s, x, Some ErrLine)
  | LNode n =>
      let! y := match d with
                | None => UnmarshalFromNode E w n t x
                | Some d => let! y := Decode E pi w d (Some (t, x)) n in Ok (match fst y with Some (_, y) => y | None => x end, snd y)
                end in
      Ok (w, s, fst y, option_map ErrValue (snd y))
  end.

(* Calls of Encode one after another: all that is written, and the errors. *)
Fixpoint encodeLines (E : env) (m : option typeEncoder) (xs : list (option (tid * gv))) : res (bytes * list (option uerr)) :=
  match xs with
  | [] => Ok ([], [])
  | x :: xs => let! r := LineEncoder_EncodeValue E m x in let! rs := encodeLines E m xs in Ok (fst r ++ fst rs, snd r :: snd rs)
  end.
(* Calls of Decode one after another, with targets of type t: the new values and the errors. *)
Fixpoint decodeLines (E : env) (pi : tid) (B : nat) (early : bool) (w : world) (r : ref) (d : option decoder) (t : tid) (xs : list gv) (s : bytes) : res (world * bytes * list (gv * option lineError)) :=
  match xs with
  | [] => Ok (w, s, [])
  | x :: xs =>
      let! y := LineDecoder_DecodeValue E pi B early w r d t x s in
      let '(w, s, x, e) := y in
      let! ys := decodeLines E pi B early w r d t xs s in
      let '(w, s, ys) := ys in Ok (w, s, (x, e) :: ys)
  end.
