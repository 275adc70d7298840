(* Model of the texts of errors and types: types.go:48-71 and error.go.  fmt.Sprintf and strconv.Quote are modelled after
   their documentation: %s and %v of a Type call its String method, %v of a slice writes the elements between brackets
   and separated by spaces, %d writes a decimal number, %q writes a Go literal.  The nil *ParseError is not modelled. *)
From Verif Require Import Bytes Types Utf8 Parser Doc Num.
Local Open Scope N_scope.

(* The names in types.go:48-71; those of the types with a bit of their own. *)
Definition typeName (t : N) : option bytes :=
  if t =? TypeInvalid then Some (str "InvalidToken") else if t =? TypeString then Some (str "String") else if t =? TypeArray then Some (str "Array")
  else if t =? TypeObject then Some (str "Object") else if t =? TypeNumber then Some (str "Number") else if t =? TypeNull then Some (str "Null")
  else if t =? TypeBoolean then Some (str "Boolean") else if t =? TypeAnyValue then Some (str "AnyValue") else None.
(* fmt: the elements of a slice *)
Fixpoint spaced (l : list bytes) : bytes := match l with [] => [] | [x] => x | x :: r => x ++ x20 :: spaced r end.
Definition bracketed (l : list bytes) : bytes := x5b :: spaced l ++ [x5d].
(* The String method of an element of Types(), which has one bit: types.go:48-71 without the recursion, that is, the
   case of line 67 does not arise. *)
Definition oneName (t : N) : bytes := match typeName t with Some s => s | None => str "InvalidToken" end.
(* %v of t.Types(): types.go:68, error.go:19 *)
Definition Types_text (t : N) : bytes := bracketed (map oneName (Type_Types t)).
(* types.go:48-71 *)
Definition Type_String (t : N) : bytes :=
  match typeName t with
  | Some s => s
  | None => if (1 <? onesCount8 t)%nat then Types_text t else str "InvalidToken"
  end.

(* strconv: lowerhex *)
Definition lowerhex (n : N) : byte := if n <? 10 then Nb (48 + n) else Nb (87 + n).
Section Print.
  (* strconv.IsPrint *)
  Variable isPrint : N -> bool.
  (* strconv.appendEscapedRune; q is the quote.  The runes are those of a string or a byte, at most utf8.MaxRune.
     (Before Go 1.17 U+007F was written as \u007f.) *)
  Definition escapedRune (q : byte) (r : N) : bytes :=
    if (r =? bN q) || (r =? 92) then [x5c; Nb r]
    else if isPrint r then EncodeRune r
    else if r =? 7 then [x5c; x61] else if r =? 8 then [x5c; x62] else if r =? 12 then [x5c; x66] else if r =? 10 then [x5c; x6e]
    else if r =? 13 then [x5c; x72] else if r =? 9 then [x5c; x74] else if r =? 11 then [x5c; x76]
    else if (r <? 32) || (r =? 127) then [x5c; x78; lowerhex (r / 16); lowerhex (r mod 16)]
    else if r <? 65536 then [x5c; x75; lowerhex (r / 4096); lowerhex ((r / 256) mod 16); lowerhex ((r / 16) mod 16); lowerhex (r mod 16)]
    else [x5c; x55; lowerhex (r / 268435456); lowerhex ((r / 16777216) mod 16); lowerhex ((r / 1048576) mod 16); lowerhex ((r / 65536) mod 16);
          lowerhex ((r / 4096) mod 16); lowerhex ((r / 256) mod 16); lowerhex ((r / 16) mod 16); lowerhex (r mod 16)].
  (* strconv.appendQuotedWith, with the number of bytes of the rune that are still to be skipped *)
  Fixpoint quotedWith (q : byte) (skip : nat) (s : bytes) : bytes :=
    match s with
    | [] => []
    | c :: rest =>
        match skip with
        | S k => quotedWith q k rest
        | O =>
            let (r, width) := if bN c <? RuneSelf then (bN c, 1%nat) else DecodeRune s in
            if (width =? 1)%nat && (r =? RuneError) then x5c :: x78 :: lowerhex (bN c / 16) :: lowerhex (bN c mod 16) :: quotedWith q O rest
            else escapedRune q r ++ quotedWith q (pred width) rest
        end
    end.
  (* %q of a string, of a byte or rune, and of a slice of runes *)
  Definition quoteString (s : bytes) : bytes := x22 :: quotedWith x22 O s ++ [x22].
  Definition quoteRune (c : byte) : bytes := x27 :: escapedRune x27 (bN c) ++ [x27].
  Definition quoteGot (g : token) : bytes := match g with GotByte c => quoteRune c | GotStr s => quoteString s end.
  Definition quoteWant (w : wanted) : bytes := match w with WantStr s => quoteString s | WantRune c => quoteRune c | WantRunes cs => bracketed (map quoteRune cs) end.
  (* error.go:40-45, 50-52 *)
  Definition perror_Error (e : perror) : bytes :=
    match e with
    | ParseError pos typ got want => str "Invalid token " ++ quoteGot got ++ str " != " ++ quoteWant want ++ str " at position " ++ FormatUint pos ++ str " while scanning " ++ Type_String typ
    | UnexpectedEOF typ => str "Unexpected end of input while scanning " ++ Type_String typ
    end.
End Print.
(* error.go:15-20 *)
Definition terr_Error (e : terr) : bytes :=
  match e with
  | TypeErr t want => if negb (N.land want t =? 0) then str "Invalid value for type " ++ Type_String t else str "Invalid type " ++ Type_String t ++ str " not in " ++ Types_text want
  end.
