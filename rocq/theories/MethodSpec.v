(* Specification vocabulary for C55: what a method of a type is given and what becomes of its result. *)
From Verif Require Import Bytes Types JsonSpec Parser Doc DocSpec Options Codec CodecSpec.
Local Open Scope nat_scope.

(* r is what is appended to b for the value v of type t with the methods m: AppendJSON first, then MarshalJSON, then
   MarshalText, whose result is put in quotes. *)
Definition marshalled (E : env) (t : tid) (m : mset) (b : bytes) (v : gv) (r : res (bytes * option uerr)) : Prop :=
  (isAppender m = true -> r = callAppend E t v b) /\
  (isAppender m = false -> isJSON m = true -> forall x e, callJSON E t v = Ok (x, e) ->
     r = Ok (match x, e with Some w, None => b ++ w | _, _ => b end, e)) /\
  (isAppender m = false -> isJSON m = false -> isText m = true -> forall x e, callText E t v = Ok (x, e) ->
     r = Ok (match e with None => b ++ x22 :: x ++ [x22] | _ => b end, e)).
(* r is the new value and the error for the value v of type t with the methods m, decoded from the node n with the
   value j: UnmarshalNodeJSON first, then UnmarshalJSON with the text of j, then UnmarshalText with the text of j if it
   is a string. *)
Definition unmarshalled (E : env) (t : tid) (m : mset) (w : world) (n : Node) (j : jval) (v : gv) (r : res (gv * option uerr)) : Prop :=
  (isNodeU m = true -> r = callNodeU E t v w n) /\
  (isNodeU m = false -> isJSONU m = true -> r = callJSONU E t v (print j)) /\
  (isNodeU m = false -> isJSONU m = false -> isTextU m = true ->
     (forall s, j = JStr s -> r = callTextU E t v s) /\ ((forall s, j <> JStr s) -> exists e, r = Ok (v, Some e))).

(* [slot E G x h p]: in the objects G, object p is to decode or encode the part x, with the hints h, of another object:
   a field or an element. *)
Inductive slot (E : env) (G : list cobj) : item -> N -> nat -> Prop :=
| slot_decoder q t fs c : nth_error G q = Some (CStruct t fs) -> In c fs -> slot E G (IDec (ctype (fst c))) 0 (fst (snd c))
| slot_encoder q t fs c : nth_error G q = Some (CStruct t fs) -> In c fs -> slot E G (IEnc (ctype (fst c))) (chints (fst c)) (snd (snd c))
| slot_elem q it h p e n : nth_error G q = Some (CKind it h p) ->
    (kindOf E (itype it) = Some (KPtr e) \/ kindOf E (itype it) = Some (KSlice e) \/ kindOf E (itype it) = Some (KArray n e)) -> slot E G (isub it e) h p
| slot_value q it h p k e : nth_error G q = Some (CKind it h p) -> kindOf E (itype it) = Some (KMap k e) -> slot E G (isub it e) 0 p.

(* Struct types with methods for one of encoding and decoding only *)
Definition half (E : env) (t : tid) : Prop := exists T, isStruct E t = true /\ typeOf E t = Some T /\ unmarshals (tmeth T) <> marshals (tmeth T).
