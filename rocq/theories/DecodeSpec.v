(* Specification vocabulary for decoding: C40, C42, C43.  What it means that a JSON tree is stored in a value, and
   that a part of it has the wrong type. *)
From Verif Require Import Bytes Types JsonSpec Parser Doc DocSpec Strjson Float Num Iface IfaceSpec Options Codec CodecSpec.
Local Open Scope nat_scope.

(* [reads E O t u]: to decode a value of type t it may be necessary to decode one of type u. *)
Inductive reads (E : env) (O : opts) : tid -> tid -> Prop :=
| rd_here t : reads E O t t
| rd_elem t k e u : kindOf E t = Some k -> In e (elems k) -> reads E O e u -> reads E O t u
| rd_field t fs cs c u : kindOf E t = Some (KStruct fs) -> structFields E O t = Ok cs -> In c cs -> reads E O (ctype c) u -> reads E O t u.

(* Every type read is decoded by its kind, is of a kind that has a decoder, and no field is embedded through a
   pointer. *)
Definition direct (c : codec) : Prop := Forall (fun i => 0 <= i)%Z (cindex c).
Definition decodable (E : env) (O : opts) (t : tid) : Prop :=
  forall u, reads E O t u -> exists T, typeOf E u = Some T /\ no_unmarshaler (tmeth T) /\
    match tkind T with
    | KOther | KIface true => False
    | KStruct _ => exists cs, structFields E O u = Ok cs /\ Forall direct cs
    | _ => True
    end.
(* Types for which decoding may panic: maps, which may be nil, and defined types of kind interface. *)
Definition hazard (E : env) (O : opts) (t : tid) : Prop :=
  exists u, reads E O t u /\ ((exists k e, kindOf E u = Some (KMap k e)) \/ u <> tIface /\ kindOf E u = Some (KIface false)).
(* Types without slices and arrays. *)
Definition strict (E : env) (O : opts) (t : tid) : Prop :=
  forall u, reads E O t u -> (forall e, kindOf E u <> Some (KSlice e)) /\ forall n e, kindOf E u <> Some (KArray n e).
(* No type is a pointer to itself, or to a pointer to itself, and so on. *)
Definition no_pointer_loop (E : env) : Prop :=
  exists rank : tid -> nat, (forall t, rank t < length (types E)) /\ forall t e, kindOf E t = Some (KPtr e) -> rank e < rank t.

(* The zero value of a type. *)
Inductive blank (E : env) : tid -> gv -> Prop :=
| bl_bool t : kindOf E t = Some KBool -> blank E t (VBool false)
| bl_int t bits : kindOf E t = Some (KInt bits) -> blank E t (VInt 0)
| bl_uint t bits : kindOf E t = Some (KUint bits) -> blank E t (VUint 0)
| bl_float t : kindOf E t = Some KFloat32 \/ kindOf E t = Some KFloat64 -> blank E t (VFloat zeroF)
| bl_string t : kindOf E t = Some KString -> blank E t (VString [])
| bl_iface t m : kindOf E t = Some (KIface m) -> blank E t (VIface None)
| bl_ptr t e : kindOf E t = Some (KPtr e) -> blank E t (VPtr None)
| bl_slice t e : kindOf E t = Some (KSlice e) -> blank E t (VSlice None)
| bl_map t k e : kindOf E t = Some (KMap k e) -> blank E t (VMap None)
| bl_array t n e l : kindOf E t = Some (KArray n e) -> length l = n -> Forall (blank E e) l -> blank E t (VArray l)
| bl_struct t fs l : kindOf E t = Some (KStruct fs) -> Forall2 (fun f x => blank E (ftype f) x) fs l -> blank E t (VStruct l)
| bl_other t : kindOf E t = Some KOther -> blank E t VOther.

(* Numbers as the decoders read them: numjson first (C34 to C36), then strconv. *)
Definition int_of (s : bytes) (z : Z) : Prop := ParseInt s = (z, true) \/ snd (ParseInt s) = false /\ scParseInt s = Some z.
Definition uint_of (s : bytes) (z : Z) : Prop := ParseUint s = (z, true) \/ snd (ParseUint s) = false /\ scParseUint s = Some z.
Definition float_of (E : env) (s : bytes) (f : float) : Prop := ParseFloat s = f /\ f <> FNaN \/ ParseFloat s = FNaN /\ scParseFloat E s = Some f.

(* [put v path x y v']: x is at the path in v, and v' is v with y there. *)
Inductive put : gv -> list Z -> gv -> gv -> gv -> Prop :=
| put_here x y : put x [] x y y
| put_field a x b path o y x' : put x path o y x' -> put (VStruct (a ++ x :: b)) (Z.of_nat (length a) :: path) o y (VStruct (a ++ x' :: b)).
(* [put_key m k y m']: m' is the map m with y at the key. *)
Inductive put_key : list (gv * gv) -> bytes -> gv -> list (gv * gv) -> Prop :=
| pk_old a k x b y : put_key (a ++ (VString k, x) :: b) k y (a ++ (VString k, y) :: b)
| pk_new m k y : ~ In (VString k) (map fst m) -> put_key m k y (m ++ [(VString k, y)]).
(* The field used for a key. *)
Definition field_for (cs : list codec) (k : bytes) (c : codec) : Prop := exists a b, cs = a ++ c :: b /\ ckey c = k /\ ~ In k (map ckey a).
(* [slots E e x n l s]: the n elements that an array of n values is decoded into: those in memory if the slice has
   the capacity, otherwise blank ones. *)
Definition slots (E : env) (e : tid) (x : option (list gv * list gv)) (n : nat) (l s : list gv) : Prop :=
  length l = n /\
  match x with
  | Some (l0, s0) => n <= length (l0 ++ s0) /\ l ++ s = l0 ++ s0 \/ length (l0 ++ s0) < n /\ Forall (blank E e) l /\ s = []
  | None => Forall (blank E e) l /\ s = []
  end.

(* [stored E O t v j v']: v' is the value v of type t after the whole tree j is stored in it.  Integers are stored
   modulo the size of the type. *)
Inductive stored (E : env) (O : opts) : tid -> gv -> jval -> gv -> Prop :=
| st_bool t b j b' : kindOf E t = Some KBool -> (j = JTrue /\ b' = true \/ (j = JFalse \/ j = JNull) /\ b' = false) -> stored E O t (VBool b) j (VBool b')
| st_int t bits z s n k : kindOf E t = Some (KInt bits) -> int_of s n -> (- 2 ^ (bits - 1) <= n + k * 2 ^ bits < 2 ^ (bits - 1))%Z ->
    stored E O t (VInt z) (JNum s) (VInt (n + k * 2 ^ bits)%Z)
| st_int_null t bits z : kindOf E t = Some (KInt bits) -> stored E O t (VInt z) JNull (VInt 0)
| st_uint t bits z s n k : kindOf E t = Some (KUint bits) -> uint_of s n -> (0 <= n + k * 2 ^ bits < 2 ^ bits)%Z ->
    stored E O t (VUint z) (JNum s) (VUint (n + k * 2 ^ bits)%Z)
| st_uint_null t bits z : kindOf E t = Some (KUint bits) -> stored E O t (VUint z) JNull (VUint 0)
| st_float32 t f s g : kindOf E t = Some KFloat32 -> float_of E s g -> stored E O t (VFloat f) (JNum s) (VFloat (widen (to32 g)))
| st_float64 t f s g : kindOf E t = Some KFloat64 -> float_of E s g -> stored E O t (VFloat f) (JNum s) (VFloat g)
| st_float_null t f : kindOf E t = Some KFloat32 \/ kindOf E t = Some KFloat64 -> stored E O t (VFloat f) JNull (VFloat zeroF)
| st_string t s0 s o : kindOf E t = Some KString -> Unescaped s = Ok o -> stored E O t (VString s0) (JStr s) (VString o)
| st_string_null t s0 : kindOf E t = Some KString -> stored E O t (VString s0) JNull (VString [])
| st_iface x j g : go_of j g -> stored E O tIface (VIface x) j (VIface (ofGo g))
| st_ptr_null t e x : kindOf E t = Some (KPtr e) -> stored E O t (VPtr x) JNull (VPtr None)
| st_ptr t e x j y : kindOf E t = Some (KPtr e) -> j <> JNull -> stored E O e x j y -> stored E O t (VPtr (Some x)) j (VPtr (Some y))
| st_ptr_new t e z j y : kindOf E t = Some (KPtr e) -> j <> JNull -> blank E e z -> stored E O e z j y -> stored E O t (VPtr None) j (VPtr (Some y))
| st_slice_null t e x y : kindOf E t = Some (KSlice e) -> y = option_map (fun p => ([], fst p ++ snd p)) x -> stored E O t (VSlice x) JNull (VSlice y)
| st_slice t e x js l s l' : kindOf E t = Some (KSlice e) -> slots E e x (length js) l s -> stored_each E O e l js l' -> stored E O t (VSlice x) (JArr js) (VSlice (Some (l', s)))
| st_array_null t n e l l' : kindOf E t = Some (KArray n e) -> length l' = n -> Forall (blank E e) l' -> stored E O t (VArray l) JNull (VArray l')
| st_array_short t n e l1 l2 js l1' l2' : kindOf E t = Some (KArray n e) -> stored_each E O e l1 js l1' -> length l2' = length l2 -> Forall (blank E e) l2' ->
    stored E O t (VArray (l1 ++ l2)) (JArr js) (VArray (l1' ++ l2'))
| st_array_long t n e l js more l' : kindOf E t = Some (KArray n e) -> length l = n -> stored_each E O e l js l' -> stored E O t (VArray l) (JArr (js ++ more)) (VArray l')
| st_map_null t k e x : kindOf E t = Some (KMap k e) -> stored E O t (VMap x) JNull (VMap x)
| st_map_empty t k e x : kindOf E t = Some (KMap k e) -> stored E O t (VMap x) (JObj []) (VMap x)
| st_map t e m ms m' : kindOf E t = Some (KMap tString e) -> stored_keys E O e ms m m' -> stored E O t (VMap (Some m)) (JObj ms) (VMap (Some m'))
| st_struct_null t fs l z : kindOf E t = Some (KStruct fs) -> blank E t z -> stored E O t (VStruct l) JNull z
| st_struct t fs cs l ms v' : kindOf E t = Some (KStruct fs) -> structFields E O t = Ok cs -> stored_fields E O cs ms (VStruct l) v' -> stored E O t (VStruct l) (JObj ms) v'
with stored_each (E : env) (O : opts) : tid -> list gv -> list jval -> list gv -> Prop :=
| se_nil e : stored_each E O e [] [] []
| se_cons e x l j js y l' : stored E O e x j y -> stored_each E O e l js l' -> stored_each E O e (x :: l) (j :: js) (y :: l')
with stored_keys (E : env) (O : opts) : tid -> list (bytes * jval) -> list (gv * gv) -> list (gv * gv) -> Prop :=
| sk_nil e m : stored_keys E O e [] m m
| sk_cons e k j ms m z y m1 m' : blank E e z -> stored E O e z j y -> put_key m k y m1 -> stored_keys E O e ms m1 m' -> stored_keys E O e ((k, j) :: ms) m m'
with stored_fields (E : env) (O : opts) : list codec -> list (bytes * jval) -> gv -> gv -> Prop :=
| sf_nil cs v : stored_fields E O cs [] v v
| sf_other cs k j ms v v' : ~ In k (map ckey cs) -> stored_fields E O cs ms v v' -> stored_fields E O cs ((k, j) :: ms) v v'
| sf_field cs k j ms v c x y v1 v' : field_for cs k c -> put v (cindex c) x y v1 -> stored E O (ctype c) x j y -> stored_fields E O cs ms v1 v' ->
    stored_fields E O cs ((k, j) :: ms) v v'.

(* [mismatch E O t j]: some part of the tree j is not of the JSON type that the corresponding part of t takes, or is a
   number that cannot be read.  Members without a field and array elements without a place are not considered. *)
Definition takes (k : kind) (j : jval) : Prop :=
  match k, j with
  | KBool, (JTrue | JFalse | JNull) => True
  | (KInt _ | KUint _ | KFloat32 | KFloat64), (JNum _ | JNull) => True
  | KString, (JStr _ | JNull) => True
  | (KSlice _ | KArray _ _), (JArr _ | JNull) => True
  | (KMap _ _ | KStruct _), (JObj _ | JNull) => True
  | (KPtr _ | KIface _ | KOther), _ => True
  | _, _ => False
  end.
Inductive mismatch (E : env) (O : opts) : tid -> jval -> Prop :=
| mm_kind t k j : kindOf E t = Some k -> ~ takes k j -> mismatch E O t j
| mm_int t bits s : kindOf E t = Some (KInt bits) -> (forall z, ~ int_of s z) -> mismatch E O t (JNum s)
| mm_uint t bits s : kindOf E t = Some (KUint bits) -> (forall z, ~ uint_of s z) -> mismatch E O t (JNum s)
| mm_float t s : kindOf E t = Some KFloat32 \/ kindOf E t = Some KFloat64 -> (forall f, ~ float_of E s f) -> mismatch E O t (JNum s)
| mm_iface t j : kindOf E t = Some (KIface false) -> ~ numbers_parse j -> mismatch E O t j
| mm_ptr t e j : kindOf E t = Some (KPtr e) -> j <> JNull -> mismatch E O e j -> mismatch E O t j
| mm_slice t e js j : kindOf E t = Some (KSlice e) -> In j js -> mismatch E O e j -> mismatch E O t (JArr js)
| mm_array t n e js i j : kindOf E t = Some (KArray n e) -> nth_error js i = Some j -> i < n -> mismatch E O e j -> mismatch E O t (JArr js)
| mm_map t k e ms key j : kindOf E t = Some (KMap k e) -> In (key, j) ms -> mismatch E O e j -> mismatch E O t (JObj ms)
| mm_field t fs cs ms k j c : kindOf E t = Some (KStruct fs) -> structFields E O t = Ok cs -> In (k, j) ms -> field_for cs k c -> mismatch E O (ctype c) j ->
    mismatch E O t (JObj ms).

(* t is a type *e that is decoded into by kind with the options: e is decodable, no struct embeds itself, no pointer
   type loops, and no codec is missing (C54). *)
Definition target_with (E : env) (O : opts) (t e : tid) : Prop :=
  (exists T, typeOf E t = Some T /\ tkind T = KPtr e /\ no_unmarshaler (tmeth T)) /\ decodable E O e /\
  (forall u, ~ cyclic E O u) /\ no_pointer_loop E /\ forall x, uses_star E O (IDec e) x -> ~ lacks E x.
(* The same for Unmarshal. *)
Definition target (E : env) (t e : tid) : Prop := target_with E decodeOptions t e.
(* The text starts with the value j, as the parser reads it. *)
Definition begins (s : bytes) (j : jval) : Prop :=
  exists s1 w tail, s = s1 ++ w ++ tail /\ ws s1 /\ lenient_value j w /\ (is_num j = true -> num_stop tail).
