(* Model of internal/bytemaper/bytemaper.go: the command that writes the lookup tables.  The functions behind the tables and
   the loop that fills one are in Bytemaper.v.  The functions of package unicode are inputs; text/template walks a map by
   its keys in order; writing to the file does not fail. *)
From Verif Require Import Bytes Utf8 Parser ErrText GoLit Tag GenFile Gen Bytemaper.

(* bytemaper.go:46-54, 56-64: unicode.ToUpper and ToLower of ASCII letters *)
Definition upperLetter (c : byte) : bool := (65 <=? bN c)%N && (bN c <=? 90)%N.
Definition lowerLetter (c : byte) : bool := (97 <=? bN c)%N && (bN c <=? 122)%N.
Definition toISO3166 (c : byte) : byte := if upperLetter c then c else if lowerLetter c then Nb (bN c - 32) else x5a.
Definition toISO639 (c : byte) : byte := if upperLetter c then Nb (bN c + 32) else if lowerLetter c then c else x7a.

(* unicode.IsControl and so on, on runes below 256 *)
Record uni := mkUni { uIsControl : N -> bool; uIsPunct : N -> bool; uIsDigit : N -> bool; uIsSpace : N -> bool; uIsPrint : N -> bool;
  uToLower : N -> Z; uToUpper : N -> Z; uToTitle : N -> Z }.
(* bytemaper.go:21-28, 29-37; utf8.RuneLen is 1 from 0 to 127 *)
Definition trIs (fn : N -> bool) (b : byte) : byte := if fn (bN b) then x01 else x00.
Definition trTo (fn : N -> Z) (b : byte) : byte := let r := fn (bN b) in if ((0 <=? r) && (r <=? 127))%Z then Nb (Z.to_N r) else x00.
(* bytemaper.go:39-44 *)
Definition nameOrDefault (name defaultName : bytes) : bytes := match name with [] => defaultName | _ => name end.

(* strconv.Unquote, None: out of fuel; the error is dropped in line 133, the value is empty then.  Strings in other quotes do not get there. *)
Definition strconvUnquote (s : bytes) : option bytes :=
  match s with
  | q :: r =>
      match rev r with
      | q' :: m => if beqb q x22 && beqb q' x22 then match Unquote (rev m) with None => None | Some None => Some [] | Some (Some v) => Some v end else Some []
      | [] => Some []
      end
  | [] => Some []
  end.
(* bytemaper.go:130-132 *)
Definition wrapQuotes (arg : bytes) : bytes :=
  if (2 <=? length arg)%nat && negb (beqb (hd x00 arg) x22) && negb (beqb (last arg x00) x22) then x22 :: arg ++ [x22] else arg.
(* bytemaper.go:137-176: the cases but the last *)
Definition namedTable (U : uni) (name : bytes) : option (byte -> byte) :=
  if bseqb name (str "ToJSON") then Some genToJSON
  else if bseqb name (str "ToISO3166") then Some toISO3166
  else if bseqb name (str "ToISO639") then Some toISO639
  else if bseqb name (str "ToHex") then Some genToHex
  else if bseqb name (str "FromHex") then Some genFromHex
  else if bseqb name (str "IsControl") then Some (trIs (uIsControl U))
  else if bseqb name (str "IsPunct") then Some (trIs (uIsPunct U))
  else if bseqb name (str "IsDigit") then Some (trIs (uIsDigit U))
  else if bseqb name (str "IsSpace") then Some (trIs (uIsSpace U))
  else if bseqb name (str "IsPrint") then Some (trIs (uIsPrint U))
  else if bseqb name (str "ToLower") then Some (trTo (uToLower U))
  else if bseqb name (str "ToUpper") then Some (trTo (uToUpper U))
  else if bseqb name (str "ToTitle") then Some (trTo (uToTitle U))
  else None.
(* bytemaper.go:126-193 for one argument.  None: out of fuel, Some None: Fatal. *)
Definition oneArg (U : uni) (a : bytes) : option (option (bytes * bytes)) :=
  match (match indexByte x3a a with Some i => (firstn i a, strconvUnquote (wrapQuotes (skipn (S i) a))) | None => (a, Some []) end) with
  | (_, None) => None
  | (name, Some arg) =>
      match namedTable U name with
      | Some tr => Some (Some (nameOrDefault arg name, mask tr))
      | None => match name with [] => Some None | _ => Some (Some (name, mask (isOneOf arg))) end
      end
  end.
(* masks[name] = string(mask), the map being sorted by its keys *)
Fixpoint putMask (masks : list (bytes * bytes)) (name m : bytes) : list (bytes * bytes) :=
  match masks with
  | [] => [(name, m)]
  | (k, v) :: r => if bseqb name k then (k, m) :: r else if less name k then (name, m) :: masks else (k, v) :: putMask r name m
  end.
(* bytemaper.go:124-194 *)
Fixpoint allArgs (U : uni) (args : list bytes) (masks : list (bytes * bytes)) : option (option (list (bytes * bytes))) :=
  match args with
  | [] => Some (Some masks)
  | a :: r =>
      match oneArg U a with
      | None => None
      | Some None => Some None
      | Some (Some (name, m)) => allArgs U r (putMask masks name m)
      end
  end.

Section Template.
  (* strconv.IsPrint *)
  Variable isPrint : N -> bool.
  (* bytemaper.go:213-215 *)
  Definition constLine (prefix : bytes) (e : bytes * bytes) : bytes := x0a :: x09 :: prefix ++ fst e ++ str " = " ++ quoteString isPrint (snd e).
  (* bytemaper.go:218-230 *)
  Definition funcText (prefix : bytes) (e : bytes * bytes) : bytes :=
    if HasPrefix (fst e) (str "Is")
    then x0a :: x0a :: str "func " ++ fst e ++ str "(c byte) bool {" ++ x0a :: x09 :: str "return " ++ prefix ++ fst e ++ str "[c] == 1" ++ x0a :: str "}"
    else x0a :: x0a :: str "func " ++ fst e ++ str "(c byte) byte {" ++ x0a :: x09 :: str "return " ++ prefix ++ fst e ++ str "[c]" ++ x0a :: str "}".
  (* bytemaper.go:205-231 *)
  Definition tableFile (pkg prefix : bytes) (masks : list (bytes * bytes)) : bytes :=
    str "// Code generated by bytemaper; DO NOT EDIT." ++ x0a :: str "package " ++ pkg ++ x0a :: x0a :: str "const (" ++
    flat_map (constLine prefix) masks ++ x0a :: str ")" ++ flat_map (funcText prefix) masks ++ [x0a].
  (* bytemaper.go:114-203.  file is the value of -w, create says whether os.Create succeeds; the file is None if it is not touched. *)
  Definition bytemaper (U : uni) (pkg file prefix : bytes) (create : bool) (args : list bytes) : option outcome :=
    let w := match file with [] => false | _ => true end in
    if w && negb create then Some (mkOut false None [])
    else
      match allArgs U args [] with
      | None => None
      | Some None => Some (mkOut false (if w then Some [] else None) [])
      | Some (Some masks) => let text := tableFile pkg prefix masks in Some (if w then mkOut true (Some text) [] else mkOut true None text)
      end.
End Template.
