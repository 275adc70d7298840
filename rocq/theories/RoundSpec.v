(* Specification vocabulary for C40: which values can come back from Marshal and Unmarshal, and what it means that
   they do. *)
From Verif Require Import FloatSpec NumSpec FmtSpec StrSpec Bytes Types JsonSpec Parser Doc DocSpec Strjson Float Num Iface IfaceSpec Options Codec CodecSpec DecodeSpec.
Local Open Scope nat_scope.

(* Every type read is encoded by its kind and has no Omit method, and no two fields of a struct have the same key. *)
Definition bare (E : env) (O : opts) (t : tid) : Prop :=
  forall u, reads E O t u -> (exists T, typeOf E u = Some T /\ no_marshaler (tmeth T)) /\ silent E O u /\ forall cs, structFields E O u = Ok cs -> NoDup (map ckey cs).

(* What is written for the float (always with 32 bits) is read as a float equal to it; [how] is the conversion to the
   type of the target. *)
Definition writes (E : env) (f : float) (s : bytes) : Prop :=
  canonical b64 f /\ (exists g, narrow 32 f g /\ finite g) /\ FormatFloat (ftoa E) f 32 = Ok s.
Definition kept32 (E : env) (f : float) : Prop := exists s g, writes E f s /\ float_of E s g /\ feq f (widen (to32 g)) = true.
Definition kept64 (E : env) (f : float) : Prop := exists s g, writes E f s /\ float_of E s g /\ feq f g = true.

(* Values of the type interface{} made of what Unmarshal stores in one.  The keys of a map are not changed by
   escaping. *)
Inductive go_kept (E : env) : gv -> Prop :=
| gk_nil : go_kept E (VIface None)
| gk_bool b : go_kept E (VIface (Some (tBool, VBool b)))
| gk_float f s : writes E f s -> ParseFloat s <> FNaN -> feq f (ParseFloat s) = true -> go_kept E (VIface (Some (tFloat64, VFloat f)))
| gk_string s : valid_utf8 s -> plain_end s -> go_kept E (VIface (Some (tString, VString s)))
| gk_slice_nil : go_kept E (VIface (Some (tSliceI, VSlice None)))
| gk_slice l s : Forall (go_kept E) l -> go_kept E (VIface (Some (tSliceI, VSlice (Some (l, s)))))
| gk_map m : NoDup (map fst m) -> Forall (fun p => (exists k, fst p = VString k /\ Escaped k false false = Ok k) /\ go_kept E (snd p)) m ->
    go_kept E (VIface (Some (tMapSI, VMap (Some m)))).

(* The values that come back.  An integer must be a float64 value, a string must be UTF-8 and not end with a backslash
   (unless it has a quote), a pointer must not point to nil. *)
Inductive survives (E : env) (O : opts) : tid -> gv -> Prop :=
| sv_bool t b : kindOf E t = Some KBool -> survives E O t (VBool b)
| sv_int t bits z : kindOf E t = Some (KInt bits) -> float_int z -> survives E O t (VInt z)
| sv_uint t bits z : kindOf E t = Some (KUint bits) -> float_int z -> survives E O t (VUint z)
| sv_float32 t f : kindOf E t = Some KFloat32 -> kept32 E f -> survives E O t (VFloat f)
| sv_float64 t f : kindOf E t = Some KFloat64 -> kept64 E f -> survives E O t (VFloat f)
| sv_string t s : kindOf E t = Some KString -> valid_utf8 s -> plain_end s -> survives E O t (VString s)
| sv_iface v : go_kept E v -> survives E O tIface v
| sv_ptr_nil t e : kindOf E t = Some (KPtr e) -> survives E O t (VPtr None)
| sv_ptr t e x : kindOf E t = Some (KPtr e) -> x <> VPtr None -> x <> VIface None -> survives E O e x -> survives E O t (VPtr (Some x))
| sv_slice_nil t e : kindOf E t = Some (KSlice e) -> survives E O t (VSlice None)
| sv_slice t e l s : kindOf E t = Some (KSlice e) -> Forall (survives E O e) l -> survives E O t (VSlice (Some (l, s)))
| sv_array t n e l : kindOf E t = Some (KArray n e) -> Forall (survives E O e) l -> survives E O t (VArray l)
| sv_struct t fs cs l : kindOf E t = Some (KStruct fs) -> structFields E O t = Ok cs ->
    (forall c x, In c cs -> reaches (VStruct l) (cindex c) x -> survives E O (ctype c) x) -> survives E O t (VStruct l).

(* [agree E O t v v']: v' is v, except that floats need only be equal, a nil slice is a slice with no elements,
   the memory after the end of a slice and the order of a map do not count, nor do the fields that have no key. *)
Inductive agree (E : env) (O : opts) : tid -> gv -> gv -> Prop :=
| ag_same t v : agree E O t v v
| ag_float t f g : feq f g = true -> agree E O t (VFloat f) (VFloat g)
| ag_iface t dt x y : agree E O dt x y -> agree E O t (VIface (Some (dt, x))) (VIface (Some (dt, y)))
| ag_ptr t e x y : kindOf E t = Some (KPtr e) -> agree E O e x y -> agree E O t (VPtr (Some x)) (VPtr (Some y))
| ag_slice t e l s l' s' : kindOf E t = Some (KSlice e) -> Forall2 (agree E O e) l l' -> agree E O t (VSlice (Some (l, s))) (VSlice (Some (l', s')))
| ag_nil t s : agree E O t (VSlice None) (VSlice (Some ([], s)))
| ag_to_nil t s : agree E O t (VSlice (Some ([], s))) (VSlice None)
| ag_array t n e l l' : kindOf E t = Some (KArray n e) -> Forall2 (agree E O e) l l' -> agree E O t (VArray l) (VArray l')
| ag_map t k e m m' : kindOf E t = Some (KMap k e) -> NoDup (map fst m') -> (forall key, In key (map fst m) <-> In key (map fst m')) ->
    (forall key x y, In (key, x) m -> In (key, y) m' -> agree E O e x y) -> agree E O t (VMap (Some m)) (VMap (Some m'))
| ag_struct t fs cs l l' : kindOf E t = Some (KStruct fs) -> structFields E O t = Ok cs ->
    (forall c x, In c cs -> reaches (VStruct l) (cindex c) x -> exists y, reaches (VStruct l') (cindex c) y /\ agree E O (ctype c) x y) ->
    agree E O t (VStruct l) (VStruct l').

(* The hypotheses of C40 on the program: its types and tags, the order of maps, and strconv.AppendFloat. *)
Definition go_env (E : env) : Prop :=
  wf_types E /\ embeds_structs E /\ ftoa_spec (ftoa E) /\ walks_maps E /\ tags_json E defaultOptions.
(* The type t, with pt the type of pointers to it, is encoded and decoded by its kind. *)
Definition two_way (E : env) (pt t : tid) : Prop :=
  target E pt t /\ bare E defaultOptions t /\ forall T, typeOf E t = Some T -> (forall e, tkind T <> KPtr e) -> no_marshaler (tptr T).
