(* Specification vocabulary for the encoder and decoder objects: C56, C57, C58. *)
From Verif Require Import FloatSpec FmtSpec Bytes Types JsonSpec Parser Doc DocSpec Float Num Iface IfaceSpec Options Codec CodecSpec DecodeSpec RoundSpec Coder.
Local Open Scope nat_scope.

(* [stands_for E t u]: u is what t points to, or t itself if it is no pointer type.  An encoder made for t takes the
   types that stand for the same. *)
Definition stands_for (E : env) (t u : tid) : Prop :=
  kindOf E t = Some (KPtr u) \/ t = u /\ exists k, kindOf E t = Some k /\ forall e, k <> KPtr e.
Definition accepts (E : env) (t s : tid) : Prop := exists u, stands_for E t u /\ stands_for E s u.
(* The methods that encode a value are those of the type, not only of the pointer to it. *)
Definition own_methods (E : env) (t : tid) : Prop :=
  forall T, typeOf E t = Some T ->
    match tkind T with
    | KPtr e => forall X, typeOf E e = Some X -> same_marshals (tmeth T) (tmeth X)
    | _ => same_marshals (tptr T) (tmeth T)
    end.
(* The type is encoded by methods: those of the pointer type. *)
Definition encoded_by_method (E : env) (t : tid) : Prop :=
  exists T, typeOf E t = Some T /\ ~ no_marshaler (match tkind T with KPtr _ => tmeth T | _ => tptr T end).
(* No type has the Omit method on the pointer to it only. *)
Definition omits_by_value (E : env) (m : bytes) : Prop :=
  forall t T, typeOf E t = Some T -> hasOmit (tptr T) m = true -> hasOmit (tmeth T) m = true \/ exists e, tkind T = KPtr e.

(* The options given, or the default for those left out. *)
Definition completed (O O' : opts) : Prop :=
  (oTag O <> [] /\ oTag O' = oTag O \/ oTag O = [] /\ oTag O' = str "json") /\
  (oOmitMethod O <> [] /\ oOmitMethod O' = oOmitMethod O \/ oOmitMethod O = [] /\ oOmitMethod O' = str "Omit") /\
  oOmitEmpty O' = oOmitEmpty O /\ oNaN O' = oNaN O /\ oInf O' = oInf O.
Definition noOptions : opts := mkO [] false [] false false.
Definition tagOnly (tag : bytes) : opts := mkO tag false [] false false.
(* [unpointed E s v u y]: the value v of type s is a pointer to the value y of type u, or it is y and s = u is no
   pointer type. *)
Definition unpointed (E : env) (s : tid) (v : gv) (u : tid) (y : gv) : Prop :=
  kindOf E s = Some (KPtr u) /\ v = VPtr (Some y) \/ s = u /\ v = y /\ exists k, kindOf E s = Some k /\ forall e, k <> KPtr e.
(* What is left in an interface{} when the value cannot be read: a nil slice for an array, a float64 for a number. *)
Definition left_over (j : jval) : option (tid * gv) :=
  match j with JArr _ => Some (tSliceI, VSlice None) | JNum _ => Some (tFloat64, VFloat FNaN) | _ => None end.
(* The type t, with pt the type of pointers to it, is encoded and decoded by its kind with the options O. *)
Definition both_ways (E : env) (O : opts) (pt t : tid) : Prop :=
  (exists P, typeOf E pt = Some P /\ tkind P = KPtr t /\ no_unmarshaler (tmeth P)) /\ decodable E O t /\ no_pointer_loop E /\ bare E O t /\
  forall T, typeOf E t = Some T -> (forall e, tkind T <> KPtr e) -> no_marshaler (tptr T).
