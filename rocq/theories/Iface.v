(* Model of document.go:191-250: conversion to generic Go values. *)
From Verif Require Import Bytes Types Parser Doc DocSpec Strjson Float Num.

(* interface{} values made by toInterface; a map[string]interface{} is an association list with distinct
   keys in order of first insertion *)
Inductive goval : Type :=
| GNil | GBool (b : bool) | GFloat (f : float) | GString (s : bytes)
| GSlice (l : list goval) | GMap (m : list (bytes * goval)).

(* document.go:224-250: the loops over values.  [rec] is d.toInterface; None is !ok. *)
Fixpoint toInterfaceMap (rec : N -> res (option goval)) (values : list V) (m : list (bytes * goval)) : res (option goval) :=
  match values with
  | [] => Ok (Some (GMap m))
  | v :: r =>
      let! x := rec (vid v) in
      match x with
      | Some x => toInterfaceMap rec r (assign (vkey v) x m)
      | None => Ok None
      end
  end.
Fixpoint toInterfaceSlice (rec : N -> res (option goval)) (values : list V) (x : list goval) : res (option goval) :=
  match values with
  | [] => Ok (Some (GSlice x))
  | v :: r =>
      let! y := rec (vid v) in
      match y with
      | Some y => toInterfaceSlice rec r (x ++ [y])
      | None => Ok None
      end
  end.

(* document.go:191-222 *)
Fixpoint toInterface (fuel : nat) (ns : list node) (id : N) : res (option goval) :=
  match fuel with O => Diverge | S k =>
  match getNode ns id with
  | None => Ok None
  | Some n =>
      let t := info_Type (ninfo n) in
      if (t =? TypeObject)%N then toInterfaceMap (toInterface k ns) (nvalues n) []
      else if (t =? TypeArray)%N then toInterfaceSlice (toInterface k ns) (nvalues n) []
      else if (t =? TypeString)%N then let! s := Unescaped (nraw n) in Ok (Some (GString s))
      else if (t =? TypeBoolean)%N then
        if bseqb (nraw n) strTrue then Ok (Some (GBool true))
        else if bseqb (nraw n) strFalse then Ok (Some (GBool false)) else Ok None
      else if (t =? TypeNull)%N then Ok (Some GNil)
      else if (t =? TypeNumber)%N then
        let f := ParseFloat (nraw n) in Ok (if feq f f then Some (GFloat f) else None)
      else Ok None
  end
  end.
(* node.go:161-163 *)
Definition Node_ToInterface (w : world) (n : Node) : res (option goval) :=
  let ns := match getDoc w (Node_Document w n) with Some d => dnodes d | None => [] end in
  toInterface (depthFuel ns) ns (nid n).
