(* Model of the parts of document.go and node.go that escape and unescape text. *)
From Verif Require Import Bytes Tables Types Parser Doc Strjson.

(* document.go:133-135 *)
Definition Document_Text (w : world) (r : ref) (s : bytes) : res (world * Node) :=
  let! e := Escaped s false false in Document_TextRaw w r e.
(* document.go:138-140 *)
Definition Document_TextHTML (w : world) (r : ref) (s : bytes) : res (world * Node) :=
  let! e := Escaped s true false in Document_TextRaw w r e.
(* node.go:410-412 *)
Definition Node_SetString (w : world) (n : Node) (s : bytes) : res world :=
  let! e := Escaped s false false in Ok (Node_SetStringRaw w n e).
(* node.go:415-417 *)
Definition Node_SetStringHTML (w : world) (n : Node) (s : bytes) : res world :=
  let! e := Escaped s true false in Ok (Node_SetStringRaw w n e).
(* node.go:78-83 *)
Definition Node_Unescaped (w : world) (n : Node) : res bytes :=
  match Node_get w n with
  | Some nn => if info_IsString (ninfo nn) then Unescaped (nraw nn) else Ok []
  | None => Ok []
  end.
