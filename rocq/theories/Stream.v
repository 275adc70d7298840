(* Model of unjson/stream.go.  The bytes that the reader has not delivered yet are a list; the underlying
   reader delivers all of them and then io.EOF.  bufio.Reader is modelled after its documented behaviour:
   B is the size of its buffer, and [early] tells whether the reader reports io.EOF together with the last
   bytes, which matters only when these fill the buffer. *)
From Verif Require Import Bytes Types Parser Doc Utf8 Options.

Definition dropCR (l : bytes) : bytes := match rev l with c :: r => if beqb c x0d then rev r else l | [] => l end.
Definition endsCR (l : bytes) : bool := match rev l with c :: _ => beqb c x0d | [] => false end.

(* bufio.Reader.ReadLine: line, isPrefix and what remains; None is io.EOF *)
Definition ReadLine (B : nat) (early : bool) (s : bytes) : option (bytes * bool * bytes) :=
  match IndexByte (firstn B s) x0a with
  | Some i => Some (dropCR (firstn i s), false, skipn (S i) s)
  | None =>
      if (B <=? length s)%nat && negb (early && (length s =? B)%nat) then
        let l := firstn B s in
        if endsCR l then Some (removelast l, true, x0d :: skipn B s) else Some (l, true, skipn B s)
      else match s with [] => None | _ => Some (s, false, []) end
  end.

(* stream.go:35-44: the loop up to the first part that is not a prefix.  The outer option is out of fuel,
   the inner one io.EOF. *)
Fixpoint readLines (fuel B : nat) (early : bool) (acc s : bytes) : option (option (bytes * bytes)) :=
  match fuel with
  | O => None
  | S k =>
      match ReadLine B early s with
      | None => Some None
      | Some (l, true, s) => readLines k B early (acc ++ l) s
      | Some (l, false, s) => Some (Some (acc ++ l, s))
      end
  end.

(* unicode.IsSpace *)
Definition IsSpaceRune (r : N) : bool :=
  between 9 r 13 || (r =? 32)%N || (r =? 133)%N || (r =? 160)%N || (r =? 5760)%N || between 8192 r 8202 ||
  (r =? 8232)%N || (r =? 8233)%N || (r =? 8239)%N || (r =? 8287)%N || (r =? 12288)%N.
(* strings.TrimSpace(s) == "" *)
Fixpoint onlySpace (fuel : nat) (s : bytes) : bool :=
  match s with
  | [] => true
  | _ => match fuel with
         | O => false
         | S k => let (r, n) := DecodeRune s in IsSpaceRune r && onlySpace k (skipn n s)
         end
  end.

Inductive lineResult := LNode (n : Node) | LEOF | LParse (e : perror) | LTail.
(* stream.go:34-57, up to the decoder's call in lines 52-55, which is given the node.  r is d.p. *)
Definition LineDecoder_Decode (B : nat) (early : bool) (w : world) (r : ref) (s : bytes) : res (world * bytes * lineResult) :=
  match readLines (S (length s)) B early [] s with
  | None => Diverge
  | Some None => Ok (w, [], LEOF)
  | Some (Some (line, s)) =>
      let! p := Document_Parse w r line in
      match p with
      | (w, (n, tail, Some e)) => Ok (w, s, LParse e)
      | (w, (n, tail, None)) => Ok (w, s, if onlySpace (length tail) tail then LNode n else LTail)
      end
  end.

(* stream.go:76-88: what is written when the encoder gives [text]; nothing when it fails *)
Definition LineEncoder_Encode (text : option bytes) : bytes := match text with Some t => t ++ [x0a] | None => [] end.

(* calls of Decode until io.EOF, all of which give a node *)
Inductive decodes (B : nat) (early : bool) (r : ref) : world -> bytes -> world -> list Node -> Prop :=
| de_end w s w' : LineDecoder_Decode B early w r s = Ok (w', [], LEOF) -> decodes B early r w s w' []
| de_next w s w1 s1 n w' ns : LineDecoder_Decode B early w r s = Ok (w1, s1, LNode n) -> decodes B early r w1 s1 w' ns -> decodes B early r w s w' (n :: ns).
