(* Histories of API calls.  A call names documents and nodes directly; node arguments are arbitrary
   (forged ids, stale revisions, nil documents), which covers every node a program can hold. *)
From Verif Require Import Bytes Tables Types Parser Doc.

Inductive call : Type :=
| CNewDoc                                  (* &Document{}, document.go:12-15; also a pooled document's first use, 374-383 *)
| CReset (r : ref)                         (* document.go:167-171; Close (410-413) is Reset and a Put *)
| CParse (r : ref) (s : bytes)             (* parser.go:14-34 *)
| CNull (r : ref) | CFalse (r : ref) | CTrue (r : ref)  (* document.go:100-121 *)
| CTextRaw (r : ref) (s : bytes)           (* document.go:124-130; Text and TextHTML (133-140) escape first *)
| CObject (r : ref) | CArray (r : ref)     (* document.go:143-156 *)
| CNumberRaw (r : ref) (s : bytes)         (* document.go:159-164 after FormatFloat *)
| CSet (n : Node) (key : bytes) (v : Node) (* node.go:272-293 *)
| CAppend (n : Node) (vs : list Node)      (* node.go:296-311 *)
| CSlice (n : Node) (i j : Z)              (* node.go:316-320 *)
| CReplace (n : Node) (i : Z) (v : Node)   (* node.go:323-332 *)
| CRemove (n : Node) (i : Z)               (* node.go:335-345 *)
| CStrip (n : Node) (key : bytes)          (* node.go:348-367 *)
| CDel (n : Node) (key : bytes)            (* node.go:371-384 *)
| CSetNumberRaw (n : Node) (s : bytes)     (* node.go:387-407 after formatting *)
| CSetStringRaw (n : Node) (s : bytes)     (* node.go:422-426; SetString and SetStringHTML (410-419) escape first *)
| CSetFalse (n : Node) | CSetTrue (n : Node) | CSetNull (n : Node). (* node.go:429-447 *)

(* The world after a call; returned nodes are not needed since calls may name any node. *)
Definition step (w : world) (c : call) : res world :=
  match c with
  | CNewDoc => Ok (w ++ [mkDoc [] 0])
  | CReset r => Document_Reset w r
  | CParse r s => let! (w', _) := Document_Parse w r s in Ok w'
  | CNull r => let! (w', _) := Document_Null w r in Ok w'
  | CFalse r => let! (w', _) := Document_False w r in Ok w'
  | CTrue r => let! (w', _) := Document_True w r in Ok w'
  | CTextRaw r s => let! (w', _) := Document_TextRaw w r s in Ok w'
  | CObject r => let! (w', _) := Document_Object w r in Ok w'
  | CArray r => let! (w', _) := Document_Array w r in Ok w'
  | CNumberRaw r s => let! (w', _) := Document_NumberRaw w r s in Ok w'
  | CSet n k v => Node_Set w n k v
  | CAppend n vs => Node_Append w n vs
  | CSlice n i j => Ok (Node_Slice w n i j)
  | CReplace n i v => Node_Replace w n i v
  | CRemove n i => Ok (Node_Remove w n i)
  | CStrip n k => Node_Strip w n k
  | CDel n k => Ok (Node_Del w n k)
  | CSetNumberRaw n s => Ok (Node_SetNumberRaw w n s)
  | CSetStringRaw n s => Ok (Node_SetStringRaw w n s)
  | CSetFalse n => Ok (Node_SetFalse w n)
  | CSetTrue n => Ok (Node_SetTrue w n)
  | CSetNull n => Ok (Node_SetNull w n)
  end.

Fixpoint run (w : world) (cs : list call) : res world :=
  match cs with
  | [] => Ok w
  | c :: r => let! w' := step w c in run w' r
  end.

(* The node a mutator is called on. *)
Definition receiver (c : call) : option Node :=
  match c with
  | CSet n _ _ | CAppend n _ | CSlice n _ _ | CReplace n _ _ | CRemove n _ | CStrip n _ | CDel n _
  | CSetNumberRaw n _ | CSetStringRaw n _ | CSetFalse n | CSetTrue n | CSetNull n => Some n
  | _ => None
  end.

(* The values a mutator stores. *)
Definition stored (c : call) : list Node :=
  match c with
  | CSet _ _ v | CReplace _ _ v => [v]
  | CAppend _ vs => vs
  | _ => []
  end.

(* The document a document method is called on. *)
Definition subject (c : call) : option ref :=
  match c with
  | CReset r | CParse r _ | CNull r | CFalse r | CTrue r | CTextRaw r _ | CObject r | CArray r
  | CNumberRaw r _ => Some r
  | _ => None
  end.
