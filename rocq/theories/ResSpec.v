(* What a text costs once parsed: the values in it, how deep they nest, and the bytes and slots a
   table of nodes holds on to. *)
From Verif Require Import Bytes JsonSpec Parser Mem.

(* The values of a tree: itself and everything below it. *)
Fixpoint values_in (v : jval) : nat :=
  match v with
  | JArr vs => 1 + list_sum (map values_in vs)
  | JObj ms => 1 + list_sum (map (fun m => values_in (snd m)) ms)
  | _ => 1
  end.

(* How many values lie one inside another along the longest chain. *)
Fixpoint depth (v : jval) : nat :=
  match v with
  | JArr vs => 1 + list_max (map depth vs)
  | JObj ms => 1 + list_max (map (fun m => depth (snd m)) ms)
  | _ => 1
  end.

(* The slots of the Values slices of the nodes, and the bytes of text their raw values and keys
   refer to (document.go:19-30: a node is info, raw and values; a V is an id and a key). *)
Definition slots (l : list node) : nat := list_sum (map (fun n => length (nvalues n)) l).
Definition keybytes (vs : list V) : nat := list_sum (map (fun v => length (vkey v)) vs).
Definition textbytes (l : list node) : nat :=
  list_sum (map (fun n => length (nraw n) + keybytes (nvalues n)) l).

(* The cells of all arrays allocated so far (Mem.v keeps those nothing refers to any more). *)
Definition vcells (h : heap) : nat := list_sum (map (@length V) (varrs h)).
Definition ncells (h : heap) : nat := list_sum (map (@length slot) (narrs h)).

(* ---- C76: parsing again into the same document ---- *)

(* The sizes of all arrays: nothing is allocated between two heaps with the same sizes. *)
Definition sizes (h : heap) : list nat * list nat := (map (@length V) (varrs h), map (@length slot) (narrs h)).

(* How many values each value of a tree has below it, in the order in which they begin in the text. *)
Fixpoint children (v : jval) : list nat :=
  match v with
  | JArr vs => length vs :: flat_map children vs
  | JObj ms => length ms :: flat_map (fun m => children (snd m)) ms
  | _ => [0]
  end.

(* [fits l l']: l is no longer than l', and no number is larger than the one at its place in l'. *)
Inductive fits : list nat -> list nat -> Prop :=
| fits_nil l : fits [] l
| fits_cons x y l l' : x <= y -> fits l l' -> fits (x :: l) (y :: l').

(* The text begins with the value v. *)
Definition begins (s : bytes) (v : jval) : Prop :=
  exists s1 w tail, s = s1 ++ w ++ tail /\ ws s1 /\ lenient_value v w /\ (is_num v = true -> num_stop tail).
