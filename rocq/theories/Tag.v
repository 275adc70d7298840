(* Struct tags from their text: reflect.StructTag.Lookup and strconv.Unquote (model by their documentation, Go 1.18 and later, where
   a surrogate half in an escape is an error), and ParseFieldTag of the generator. *)
From Verif Require Import Bytes Utf8 GoLit Options.

(* strconv.Unquote of a string in double quotes, given what is between them: bytes that are not UTF-8 are read as U+FFFD.
   None: out of fuel. *)
Fixpoint scrub (fuel : nat) (s : bytes) : option bytes :=
  match s with
  | [] => Some []
  | _ =>
      match fuel with
      | O => None
      | S k => let (r, n) := DecodeRune s in match scrub k (skipn n s) with Some t => Some (EncodeRune r ++ t) | None => None end
      end
  end.
Definition Unquote (s : bytes) : option (option bytes) := match scrub (length s) s with Some t => Some (goLit t) | None => None end.

(* reflect.StructTag.Lookup *)
Fixpoint skipSpaces (s : bytes) : bytes := match s with c :: r => if beqb c x20 then skipSpaces r else s | [] => [] end.
Definition keyByte (c : byte) : bool := (32 <? bN c)%N && negb (beqb c x3a || beqb c x22 || beqb c x7f).
Fixpoint spanKey (s : bytes) : bytes * bytes :=
  match s with
  | c :: r => if keyByte c then let (a, b) := spanKey r in (c :: a, b) else ([], s)
  | [] => ([], [])
  end.
(* what is before the closing quote, and what is behind it *)
Fixpoint spanQuoted (s : bytes) : option (bytes * bytes) :=
  match s with
  | [] => None
  | c :: r =>
      if beqb c x22 then Some ([], r)
      else if beqb c x5c then
        match r with
        | [] => None
        | d :: r => match spanQuoted r with Some (a, b) => Some (c :: d :: a, b) | None => None end
        end
      else match spanQuoted r with Some (a, b) => Some (c :: a, b) | None => None end
  end.
(* None: out of fuel; Some None: not found *)
Fixpoint lookupTag (fuel : nat) (tag key : bytes) : option (option bytes) :=
  match fuel with
  | O => None
  | S k =>
      let (name, rest) := spanKey (skipSpaces tag) in
      match name, rest with
      | _ :: _, c :: q :: rest =>
          if beqb c x3a && beqb q x22 then
            match spanQuoted rest with
            | Some (body, rest) => if bseqb key name then Unquote body else lookupTag k rest key
            | None => Some None
            end
          else Some None
      | _, _ => Some None
      end
  end.
Definition StructTag_Lookup (tag key : bytes) : option (option bytes) := lookupTag (S (length tag)) tag key.

(* strings.Index; None for -1 *)
Fixpoint prefixOf (p s : bytes) : bool := match p, s with [], _ => true | c :: p, d :: s => beqb c d && prefixOf p s | _, [] => false end.
Fixpoint Index (s p : bytes) : option nat := if prefixOf p s then Some O else match s with [] => None | _ :: s => option_map S (Index s p) end.
(* internal/generator/options.go:207-227.  None: out of fuel *)
Definition ParseFieldTag (tag key : bytes) : option (bytes * bool * bool) :=
  let key := match key with [] => str "json" | _ => key end in
  match StructTag_Lookup tag key with
  | None => None
  | Some None => Some ([], false, false)
  | Some (Some tag) =>
      if bseqb tag (str "-") then Some (tag, false, false)
      else
        match IndexByte tag x2c with
        | Some i => Some (firstn i tag, match Index (skipn i tag) (str "omitempty") with Some j => (0 <? j)%nat | None => false end, true)
        | None => Some (tag, false, true)
        end
  end.
(* unjson/options.go:24-35, 91-99, with the tag looked up *)
Definition parseFieldOf (omitEmpty : bool) (fname tag key : bytes) : option (bytes * N * bool) :=
  match StructTag_Lookup tag key with Some found => parseField omitEmpty fname tag found | None => None end.
