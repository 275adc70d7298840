(* Model of unjson/options.go: struct tags.  reflect.StructTag.Lookup is not modelled: the model is given
   its result, None for not found. *)
From Verif Require Import Bytes.

(* unjson/codec.go:264-270 *)
Definition hintRaw : N := 1.
Definition hintHTML : N := 2.
Definition hintOmitempty : N := 4.

(* strings.IndexByte; None for -1 *)
Fixpoint IndexByte (s : bytes) (c : byte) : option nat :=
  match s with
  | [] => None
  | x :: r => if beqb x c then Some O else option_map S (IndexByte r c)
  end.

(* options.go:79-86 *)
Definition hintBits (h : bytes) : N :=
  if bseqb h (str "omitempty") then hintOmitempty
  else if bseqb h (str "8bit") then hintRaw
  else if bseqb h (str "html") then hintHTML
  else 0.

(* options.go:67-89.  Each round drops at least a byte: fuel length tag is enough. *)
Fixpoint parseHintsLoop (fuel : nat) (tag : bytes) (hints : N) : option N :=
  match tag with
  | [] => Some hints
  | _ :: tag =>
      match fuel with
      | O => None
      | S k =>
          match IndexByte tag x2c with
          | Some i => parseHintsLoop k (skipn i tag) (N.lor hints (hintBits (firstn i tag)))
          | None => parseHintsLoop k [] (N.lor hints (hintBits tag))
          end
      end
  end.
Definition parseHints (tag : bytes) : option N := parseHintsLoop (length tag) tag 0.

(* options.go:91-99; found is the result of tag.Lookup(key).  None: out of fuel. *)
Definition parseTag (tag : bytes) (found : option bytes) : option (bytes * N * bool) :=
  match found with
  | Some name =>
      match IndexByte name x2c with
      | Some i =>
          if (i <? length tag)%nat then
            match parseHints (skipn i name) with Some h => Some (firstn i name, h, true) | None => None end
          else Some (name, 0%N, true)
      | None => Some (name, 0%N, true)
      end
  | None => Some ([], 0%N, false)
  end.

(* options.go:24-35; omitEmpty is o.OmitEmpty, fname the field's name *)
Definition parseField (omitEmpty : bool) (fname tag : bytes) (found : option bytes) : option (bytes * N * bool) :=
  match parseTag tag found with
  | Some (name, hints, ok) =>
      Some (match name with [] => fname | _ => name end, if omitEmpty then N.lor hints hintOmitempty else hints, ok)
  | None => None
  end.
