(* Specification vocabulary for C78: what json.Unmarshal of encoding/json stores in values of types without methods. *)
From Coq Require Import Permutation.
From Verif Require Import FloatSpec FmtSpec Bytes Types JsonSpec StrSpec Parser Doc DocSpec Float NumSpec Num Options OptSpec Codec CodecSpec DecodeSpec StdSpec.
Local Open Scope nat_scope.

(* ---- json.Unmarshal ---- *)

(* The text of a JSON value with white space around it. *)
Definition json_text (s : bytes) (j : jval) : Prop := exists s1 w s2, s = s1 ++ w ++ s2 /\ ws s1 /\ ws s2 /\ rfc_value j w.
(* The string written as w: stray bytes are replaced by U+FFFD. *)
Definition string_of (w s : bytes) : Prop := exists o rs, meaning w o /\ runes o rs /\ s = utf8s rs.
Definition last_of {A} (k : bytes) (x : A) (l : list (bytes * A)) : Prop := exists a b, l = a ++ (k, x) :: b /\ ~ In k (map fst b).
(* What is stored in an interface{}. *)
Inductive generic : jval -> option (tid * gv) -> Prop :=
| gn_null : generic JNull None
| gn_true : generic JTrue (Some (tBool, VBool true))
| gn_false : generic JFalse (Some (tBool, VBool false))
| gn_num p f : shape one_sign p -> rounded b64 (pneg p) (numval p) f -> finite f -> generic (JNum (text p)) (Some (tFloat64, VFloat f))
| gn_str w s : string_of w s -> generic (JStr w) (Some (tString, VString s))
| gn_arr js l : Forall2 generic js l -> generic (JArr js) (Some (tSliceI, VSlice (Some (map VIface l, []))))
| gn_obj ms l m : Forall2 (fun a b => string_of (fst a) (fst b) /\ generic (snd a) (snd b)) ms l -> NoDup (map fst m) -> (forall k x, In (k, x) m <-> last_of k x l) ->
    generic (JObj ms) (Some (tMapSI, VMap (Some (map (fun p => (VString (fst p), VIface (snd p))) m)))).
(* The field for a key: the one of that name, or else the first whose name is the key but for case, which is given as [fold]. *)
Definition chosen (fold : bytes -> bytes -> Prop) (l : list sfld) (k : bytes) (s : sfld) : Prop :=
  In s l /\ s_name s = k \/
  ~ In k (map s_name l) /\ exists a b, l = a ++ s :: b /\ fold (s_name s) k /\ forall d, In d a -> ~ fold (s_name d) k.
(* null leaves values of these kinds as they are. *)
Definition keeps_null (k : option kind) : Prop :=
  match k with Some (KBool | KInt _ | KUint _ | KFloat32 | KFloat64 | KString | KArray _ _ | KStruct _) => True | _ => False end.

(* [loads E letter fold t v j v']: json.Unmarshal stores j in the value v of type t, which is v' then.  There is no rule for what
   is an error.  Left out: keys of maps that are not strings, fields with the option string or in structs embedded through
   pointers, pointers in interfaces, and slices that are not empty, whose elements are not set to zero first. *)
Inductive loads (E : env) (letter : N -> Prop) (fold : bytes -> bytes -> Prop) : tid -> gv -> jval -> gv -> Prop :=
| ld_null t v : keeps_null (kindOf E t) -> loads E letter fold t v JNull v
| ld_true t b : kindOf E t = Some KBool -> loads E letter fold t (VBool b) JTrue (VBool true)
| ld_false t b : kindOf E t = Some KBool -> loads E letter fold t (VBool b) JFalse (VBool false)
| ld_int t bits z p : kindOf E t = Some (KInt bits) -> integer_text p -> (- 2 ^ (bits - 1) <= intval p < 2 ^ (bits - 1))%Z -> loads E letter fold t (VInt z) (JNum (text p)) (VInt (intval p))
| ld_uint t bits z p : kindOf E t = Some (KUint bits) -> integer_text p -> pneg p = false -> (intval p < 2 ^ bits)%Z -> loads E letter fold t (VUint z) (JNum (text p)) (VUint (intval p))
| ld_float32 t f p g : kindOf E t = Some KFloat32 -> shape one_sign p -> rounded b32 (pneg p) (numval p) g -> finite g -> loads E letter fold t (VFloat f) (JNum (text p)) (VFloat (widen g))
| ld_float64 t f p g : kindOf E t = Some KFloat64 -> shape one_sign p -> rounded b64 (pneg p) (numval p) g -> finite g -> loads E letter fold t (VFloat f) (JNum (text p)) (VFloat g)
| ld_string t s0 w s : kindOf E t = Some KString -> string_of w s -> loads E letter fold t (VString s0) (JStr w) (VString s)
| ld_iface t x j g : kindOf E t = Some (KIface false) -> (forall dt y, x <> Some (dt, VPtr y)) -> generic j g -> loads E letter fold t (VIface x) j (VIface g)
| ld_ptr_null t e x : kindOf E t = Some (KPtr e) -> loads E letter fold t (VPtr x) JNull (VPtr None)
| ld_ptr t e x j y : kindOf E t = Some (KPtr e) -> j <> JNull -> loads E letter fold e x j y -> loads E letter fold t (VPtr (Some x)) j (VPtr (Some y))
| ld_ptr_new t e z j y : kindOf E t = Some (KPtr e) -> j <> JNull -> blank E e z -> loads E letter fold e z j y -> loads E letter fold t (VPtr None) j (VPtr (Some y))
| ld_slice_null t e x : kindOf E t = Some (KSlice e) -> loads E letter fold t (VSlice x) JNull (VSlice None)
| ld_slice t e x js l l' : kindOf E t = Some (KSlice e) -> x = None \/ x = Some ([], []) -> Forall (blank E e) l -> loads_each E letter fold e l js l' -> loads E letter fold t (VSlice x) (JArr js) (VSlice (Some (l', [])))
| ld_bytes t e x w zs : kindOf E t = Some (KSlice e) -> kindOf E e = Some (KUint 8) -> string_of w (base64 zs) -> Forall (fun z => 0 <= z < 256)%Z zs -> loads E letter fold t (VSlice x) (JStr w) (VSlice (Some (map VUint zs, [])))
| ld_array_short t n e l1 l2 js l1' l2' : kindOf E t = Some (KArray n e) -> loads_each E letter fold e l1 js l1' -> length l2' = length l2 -> Forall (blank E e) l2' ->
    loads E letter fold t (VArray (l1 ++ l2)) (JArr js) (VArray (l1' ++ l2'))
| ld_array_long t n e l js more l' : kindOf E t = Some (KArray n e) -> length l = n -> loads_each E letter fold e l js l' -> loads E letter fold t (VArray l) (JArr (js ++ more)) (VArray l')
| ld_map_null t k e x : kindOf E t = Some (KMap k e) -> loads E letter fold t (VMap x) JNull (VMap None)
| ld_map t k e x ms m' : kindOf E t = Some (KMap k e) -> kindOf E k = Some KString -> loads_keys E letter fold e ms (match x with Some m => m | None => [] end) m' -> loads E letter fold t (VMap x) (JObj ms) (VMap (Some m'))
| ld_struct t fs l v ms v' : kindOf E t = Some (KStruct fs) -> std_fields E letter t l -> loads_fields E letter fold l ms (VStruct v) v' -> loads E letter fold t (VStruct v) (JObj ms) v'
with loads_each (E : env) (letter : N -> Prop) (fold : bytes -> bytes -> Prop) : tid -> list gv -> list jval -> list gv -> Prop :=
| le_nil e : loads_each E letter fold e [] [] []
| le_cons e x l j js y l' : loads E letter fold e x j y -> loads_each E letter fold e l js l' -> loads_each E letter fold e (x :: l) (j :: js) (y :: l')
with loads_keys (E : env) (letter : N -> Prop) (fold : bytes -> bytes -> Prop) : tid -> list (bytes * jval) -> list (gv * gv) -> list (gv * gv) -> Prop :=
| lk_nil e m : loads_keys E letter fold e [] m m
| lk_cons e w k j ms m z y m1 m' : string_of w k -> blank E e z -> loads E letter fold e z j y -> put_key m k y m1 -> loads_keys E letter fold e ms m1 m' -> loads_keys E letter fold e ((w, j) :: ms) m m'
with loads_fields (E : env) (letter : N -> Prop) (fold : bytes -> bytes -> Prop) : list sfld -> list (bytes * jval) -> gv -> gv -> Prop :=
| lf_nil l v : loads_fields E letter fold l [] v v
| lf_other l w k j ms v v' : string_of w k -> (forall s, ~ chosen fold l k s) -> loads_fields E letter fold l ms v v' -> loads_fields E letter fold l ((w, j) :: ms) v v'
| lf_field l w k j ms v s x y v1 v' : string_of w k -> chosen fold l k s -> s_quoted s = false -> put v (s_path s) x y v1 -> loads E letter fold (s_type s) x j y -> loads_fields E letter fold l ms v1 v' ->
    loads_fields E letter fold l ((w, j) :: ms) v v'.

(* ---- where Unmarshal stores the same ---- *)

(* The same value: the order of the keys of maps and the room of slices aside. *)
Inductive equals : gv -> gv -> Prop :=
| eq_same v : equals v v
| eq_iface t x y : equals x y -> equals (VIface (Some (t, x))) (VIface (Some (t, y)))
| eq_ptr x y : equals x y -> equals (VPtr (Some x)) (VPtr (Some y))
| eq_slice l l' s s' : Forall2 equals l l' -> equals (VSlice (Some (l, s))) (VSlice (Some (l', s')))
| eq_array l l' : Forall2 equals l l' -> equals (VArray l) (VArray l')
| eq_map m m1 m' : Forall2 (fun a b => fst a = fst b /\ equals (snd a) (snd b)) m m1 -> Permutation m1 m' -> equals (VMap (Some m)) (VMap (Some m'))
| eq_struct l l' : Forall2 equals l l' -> equals (VStruct l) (VStruct l').
(* Numbers: numjson reads the nearest float64 (C34, C35), rounding that to 32 bits is no other than rounding the number, and
   for integers there is a float64 (C36). *)
Definition well_number (p : parts) : Prop :=
  shape one_sign p /\ rounded b64 (pneg p) (numval p) (ParseFloat (text p)) /\
  (forall x y, rounded b64 (pneg p) (numval p) x -> finite x -> rounded b32 (pneg p) (fval x) y -> rounded b32 (pneg p) (numval p) y) /\
  (integer_text p -> float_int (intval p)).
(* Strings: in UTF-8, with the escapes of C31. *)
Definition well_string (w : bytes) : Prop := tame w /\ forall o, meaning w o -> exists rs, Forall scalar rs /\ o = utf8s rs.
(* Keys: in UTF-8 without escapes, and not the name of a field but for case. *)
Definition well_key (E : env) (letter : N -> Prop) (fold : bytes -> bytes -> Prop) (k : bytes) : Prop :=
  ~ In x5c k /\ (exists rs, Forall scalar rs /\ k = utf8s rs) /\ forall t s, candidate E letter t s -> fold (s_name s) k -> s_name s = k.
Inductive well (E : env) (letter : N -> Prop) (fold : bytes -> bytes -> Prop) : jval -> Prop :=
| wl_null : well E letter fold JNull
| wl_true : well E letter fold JTrue
| wl_false : well E letter fold JFalse
| wl_num p : well_number p -> well E letter fold (JNum (text p))
| wl_str w : well_string w -> well E letter fold (JStr w)
| wl_arr js : Forall (well E letter fold) js -> well E letter fold (JArr js)
| wl_obj ms : NoDup (map fst ms) -> Forall (fun m => well_key E letter fold (fst m) /\ well E letter fold (snd m)) ms -> well E letter fold (JObj ms).
(* Texts: strings that have a quote in them or do not end in a backslash (C02). *)
Definition well_text (s : bytes) (j : jval) : Prop := exists s1 w s2, s = s1 ++ w ++ s2 /\ ws s1 /\ ws s2 /\ rfc_value_plain j w.
(* Types: no slice of bytes. *)
Definition no_bytes (E : env) : Prop := forall t e, kindOf E t = Some (KSlice e) -> kindOf E e <> Some (KUint 8).
Definition unstd_world (E : env) (letter : N -> Prop) : Prop := wf_types E /\ embeds_structs E /\ std_structs E letter /\ no_bytes E.

(* Where Unmarshal does not store what json.Unmarshal stores, and where it takes what json.Unmarshal does not. *)
Definition stores_other (E : env) (letter : N -> Prop) (fold : bytes -> bytes -> Prop) (s : bytes) (t e : tid) (v : gv) : Prop :=
  exists j v', json_text s j /\ loads E letter fold e v j v' /\ forall v'', Unmarshal E 0 s t (VPtr (Some v)) = Ok (VPtr (Some v''), None) -> ~ equals v'' v'.
Definition stores_more (E : env) (letter : N -> Prop) (fold : bytes -> bytes -> Prop) (s : bytes) (t e : tid) (v : gv) : Prop :=
  (forall j v', json_text s j -> ~ loads E letter fold e v j v') /\ exists v'', Unmarshal E 0 s t (VPtr (Some v)) = Ok (VPtr (Some v''), None).
