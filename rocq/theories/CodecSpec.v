(* Specification vocabulary for the unjson codecs (C40-C44, C46). *)
From Coq Require Import Permutation.
From Verif Require Import FloatSpec FmtSpec Bytes Types JsonSpec Parser Doc DocSpec Float Num Options Codec.

Definition kindOf (E : env) (t : tid) : option kind := option_map tkind (typeOf E t).

(* ---- C46: the fields of a struct and of the structs it embeds ---- *)

(* All the fields that a struct offers, in order of declaration and with the path that leads to each; an
   embedded struct offers its fields in its place.  [offers] starts a struct, [offers_from] is at its field i.
   A path has -1 where a pointer is followed. *)
Definition hidden (O : opts) (f : sfield) : Prop :=
  fcanset f = false \/ exists h g, parseField (oOmitEmpty O) (fname f) (ftag f) (flookup f (oTag O)) = Some (str "-", h, g).
Inductive offers (E : env) (O : opts) : tid -> list Z -> list codec -> Prop :=
| off_struct t path fs l : kindOf E t = Some (KStruct fs) -> offers_from E O path 0 fs l -> offers E O t path l
with offers_from (E : env) (O : opts) : list Z -> nat -> list sfield -> list codec -> Prop :=
| off_end path i : offers_from E O path i [] []
| off_hidden path i f fs l : hidden O f -> offers_from E O path (S i) fs l -> offers_from E O path i (f :: fs) l
| off_field path i f fs l key h tagged :
    fcanset f = true -> parseField (oOmitEmpty O) (fname f) (ftag f) (flookup f (oTag O)) = Some (key, h, tagged) -> key <> str "-" ->
    tagged = true \/ fanon f = false -> offers_from E O path (S i) fs l ->
    offers_from E O path i (f :: fs) (mkC key (path ++ [Z.of_nat i]) (ftype f) h :: l)
| off_named path i f fs l key h idx :       (* embedded, but neither a struct nor a pointer to one *)
    fcanset f = true -> parseField (oOmitEmpty O) (fname f) (ftag f) (flookup f (oTag O)) = Some (key, h, false) -> key <> str "-" ->
    fanon f = true -> (forall gs, kindOf E (ftype f) <> Some (KStruct gs)) -> (forall e gs, kindOf E (ftype f) = Some (KPtr e) -> kindOf E e <> Some (KStruct gs)) ->
    idx = (match kindOf E (ftype f) with Some (KPtr _) => path ++ [Z.of_nat i; -1]%Z | _ => path ++ [Z.of_nat i] end) ->
    offers_from E O path (S i) fs l -> offers_from E O path i (f :: fs) (mkC key idx (ftype f) h :: l)
| off_embed path i f fs l key h gs l' :
    fcanset f = true -> parseField (oOmitEmpty O) (fname f) (ftag f) (flookup f (oTag O)) = Some (key, h, false) -> key <> str "-" ->
    fanon f = true -> kindOf E (ftype f) = Some (KStruct gs) -> offers E O (ftype f) (path ++ [Z.of_nat i]) l' ->
    offers_from E O path (S i) fs l -> offers_from E O path i (f :: fs) (l' ++ l)
| off_embed_ptr path i f fs l key h e gs l' :
    fcanset f = true -> parseField (oOmitEmpty O) (fname f) (ftag f) (flookup f (oTag O)) = Some (key, h, false) -> key <> str "-" ->
    fanon f = true -> kindOf E (ftype f) = Some (KPtr e) -> kindOf E e = Some (KStruct gs) -> offers E O e (path ++ [Z.of_nat i; -1]%Z) l' ->
    offers_from E O path (S i) fs l -> offers_from E O path i (f :: fs) (l' ++ l).

(* c is the right field for its key: no field with that key has a shorter path, and none before it has one as
   short. *)
Definition with_key (key : bytes) (l : list codec) : list codec := filter (fun c => bseqb (ckey c) key) l.
Definition shortest_first (l : list codec) (c : codec) : Prop :=
  exists a b, with_key (ckey c) l = a ++ c :: b /\
    Forall (fun d => length (cindex c) < length (cindex d))%nat a /\ Forall (fun d => length (cindex c) <= length (cindex d))%nat b.
(* The first field declared with the key has the shortest path. *)
Definition first_is_shortest (l : list codec) (key : bytes) : Prop :=
  forall c r, with_key key l = c :: r -> Forall (fun d => length (cindex c) <= length (cindex d))%nat r.

(* A struct embeds itself through pointers. *)
Definition embeds (E : env) (O : opts) (t u : tid) : Prop :=
  exists fs f key h, kindOf E t = Some (KStruct fs) /\ In f fs /\ fcanset f = true /\ fanon f = true /\
    parseField (oOmitEmpty O) (fname f) (ftag f) (flookup f (oTag O)) = Some (key, h, false) /\ key <> str "-" /\
    (ftype f = u \/ kindOf E (ftype f) = Some (KPtr u)) /\ exists gs, kindOf E u = Some (KStruct gs).
Inductive embeds_star (E : env) (O : opts) : tid -> tid -> Prop :=
| em_refl t : embeds_star E O t t
| em_step t u v : embeds E O t u -> embeds_star E O u v -> embeds_star E O t v.

Definition cyclic (E : env) (O : opts) (t : tid) : Prop := exists u v, embeds_star E O t u /\ embeds E O u v /\ embeds_star E O v u.

(* [subseq a b]: a is b with some entries left out. *)
Inductive subseq {A} : list A -> list A -> Prop :=
| sub_nil : subseq [] []
| sub_keep x a b : subseq a b -> subseq (x :: a) (x :: b)
| sub_drop x a b : subseq a b -> subseq a (x :: b).

(* ---- types and values ---- *)

(* [typed E t v]: v is a value of type t.  Floats are not restricted. *)
Inductive typed (E : env) : tid -> gv -> Prop :=
| t_bool t b : kindOf E t = Some KBool -> typed E t (VBool b)
| t_int t bits z : kindOf E t = Some (KInt bits) -> (- 2 ^ (bits - 1) <= z < 2 ^ (bits - 1))%Z -> typed E t (VInt z)
| t_uint t bits z : kindOf E t = Some (KUint bits) -> (0 <= z < 2 ^ bits)%Z -> typed E t (VUint z)
| t_float t f : kindOf E t = Some KFloat32 \/ kindOf E t = Some KFloat64 -> typed E t (VFloat f)
| t_string t s : kindOf E t = Some KString -> typed E t (VString s)
| t_iface_nil t m : kindOf E t = Some (KIface m) -> typed E t (VIface None)
| t_iface t m dt x : kindOf E t = Some (KIface m) -> (forall m', kindOf E dt <> Some (KIface m')) -> typed E dt x -> typed E t (VIface (Some (dt, x)))
| t_ptr_nil t e : kindOf E t = Some (KPtr e) -> typed E t (VPtr None)
| t_ptr t e x : kindOf E t = Some (KPtr e) -> typed E e x -> typed E t (VPtr (Some x))
| t_slice_nil t e : kindOf E t = Some (KSlice e) -> typed E t (VSlice None)
| t_slice t e l s : kindOf E t = Some (KSlice e) -> Forall (typed E e) l -> Forall (typed E e) s -> typed E t (VSlice (Some (l, s)))
| t_array t n e l : kindOf E t = Some (KArray n e) -> length l = n -> Forall (typed E e) l -> typed E t (VArray l)
| t_map_nil t k e : kindOf E t = Some (KMap k e) -> typed E t (VMap None)
| t_map t k e m : kindOf E t = Some (KMap k e) -> Forall (fun p => typed E k (fst p) /\ typed E e (snd p)) m -> NoDup (map fst m) -> typed E t (VMap (Some m))
| t_struct t fs l : kindOf E t = Some (KStruct fs) -> Forall2 (fun f x => typed E (ftype f) x) fs l -> typed E t (VStruct l)
| t_other t : kindOf E t = Some KOther -> typed E t VOther.

(* [inside v x]: x is v or a part of v. *)
Inductive inside : gv -> gv -> Prop :=
| ins_here v : inside v v
| ins_iface t x y : inside x y -> inside (VIface (Some (t, x))) y
| ins_ptr x y : inside x y -> inside (VPtr (Some x)) y
| ins_slice l s x y : In x l -> inside x y -> inside (VSlice (Some (l, s))) y
| ins_array l x y : In x l -> inside x y -> inside (VArray l) y
| ins_map m k x y : In (k, x) m -> inside x y -> inside (VMap (Some m)) y
| ins_struct l x y : In x l -> inside x y -> inside (VStruct l) y.

(* Tables that Go admits: ids are in range, integers have a size, arrays and structs do not contain themselves. *)
Definition mentions (k : kind) : list tid :=
  match k with KPtr e | KSlice e | KArray _ e => [e] | KMap k e => [k; e] | KStruct fs => map ftype fs | _ => [] end.
Definition contains (k : kind) : list tid := match k with KArray _ e => [e] | KStruct fs => map ftype fs | _ => [] end.
Definition wf_types (E : env) : Prop :=
  (forall t k u, kindOf E t = Some k -> In u (mentions k) -> u < length (types E))%nat /\
  (forall t bits, kindOf E t = Some (KInt bits) \/ kindOf E t = Some (KUint bits) -> In bits [8; 16; 32; 64]%Z) /\
  exists rank : tid -> nat, (forall t, rank t < length (types E))%nat /\
    (forall t k u, kindOf E t = Some k -> In u (contains k) -> rank u < rank t)%nat.

(* [walks E t path u]: the path leads from a value of type t to one of type u. *)
Inductive walks (E : env) : tid -> list Z -> tid -> Prop :=
| wk_nil t : walks E t [] t
| wk_field t fs i f path u : kindOf E t = Some (KStruct fs) -> nth_error fs i = Some f -> walks E (ftype f) path u -> walks E t (Z.of_nat i :: path) u
| wk_ptr t e path u : kindOf E t = Some (KPtr e) -> walks E e path u -> walks E t (-1 :: path)%Z u.
(* No field is embedded through a pointer to something that is not a struct. *)
Definition embeds_structs (E : env) : Prop :=
  forall t fs f e, kindOf E t = Some (KStruct fs) -> In f fs -> fanon f = true -> kindOf E (ftype f) = Some (KPtr e) ->
    exists gs, kindOf E e = Some (KStruct gs).

(* ---- C44: which fields are written, and how ---- *)

(* [reaches v path x]: the path leads from v to x; it leads nowhere past a nil pointer. *)
Inductive reaches : gv -> list Z -> gv -> Prop :=
| rc_here v : reaches v [] v
| rc_field l i x path y : nth_error l i = Some x -> reaches x path y -> reaches (VStruct l) (Z.of_nat i :: path) y
| rc_ptr x path y : reaches x path y -> reaches (VPtr (Some x)) (-1 :: path)%Z y.

(* [asks E O addr t v b]: the type or the pointer to it has the Omit method, and its answer is b.  A method of
   the pointer type is not asked when the value has no address; a nil pointer is not asked for its element. *)
Inductive asks (E : env) (O : opts) (addr : bool) : tid -> gv -> bool -> Prop :=
| ask_type t T v b : typeOf E t = Some T -> hasOmit (tmeth T) (oOmitMethod O) = true -> callOmit E t v = Ok b -> asks E O addr t v b
| ask_nil t T e X : typeOf E t = Some T -> hasOmit (tmeth T) (oOmitMethod O) = false -> tkind T = KPtr e -> typeOf E e = Some X ->
    hasOmit (tmeth X) (oOmitMethod O) = true -> asks E O addr t (VPtr None) true
| ask_elem t T e X x b : typeOf E t = Some T -> hasOmit (tmeth T) (oOmitMethod O) = false -> tkind T = KPtr e -> typeOf E e = Some X ->
    hasOmit (tmeth X) (oOmitMethod O) = true -> callOmit E e x = Ok b -> asks E O addr t (VPtr (Some x)) b
| ask_addr t T v b : typeOf E t = Some T -> hasOmit (tmeth T) (oOmitMethod O) = false -> (forall e, tkind T <> KPtr e) ->
    hasOmit (tptr T) (oOmitMethod O) = true -> (if addr then callOmitPtr E t v = Ok b else b = false) -> asks E O addr t v b.
(* No Omit method applies to the type. *)
Definition silent (E : env) (O : opts) (t : tid) : Prop :=
  forall T, typeOf E t = Some T -> hasOmit (tmeth T) (oOmitMethod O) = false /\
    match tkind T with
    | KPtr e => forall X, typeOf E e = Some X -> hasOmit (tmeth X) (oOmitMethod O) = false
    | _ => hasOmit (tptr T) (oOmitMethod O) = false
    end.

(* The empty values of a type: what the Omit method says, or false, 0, nil, no elements or characters, or an
   array of empty values.  Interface types with methods and kinds without codec count as empty. *)
Inductive empty (E : env) (O : opts) (addr : bool) : tid -> gv -> Prop :=
| em_method t v : asks E O addr t v true -> empty E O addr t v
| em_bool t : silent E O t -> kindOf E t = Some KBool -> empty E O addr t (VBool false)
| em_int t bits : silent E O t -> kindOf E t = Some (KInt bits) -> empty E O addr t (VInt 0)
| em_uint t bits : silent E O t -> kindOf E t = Some (KUint bits) -> empty E O addr t (VUint 0)
| em_float t f : silent E O t -> kindOf E t = Some KFloat32 \/ kindOf E t = Some KFloat64 -> feq f zeroF = true -> empty E O addr t (VFloat f)
| em_string t : silent E O t -> kindOf E t = Some KString -> empty E O addr t (VString [])
| em_ptr t e : silent E O t -> kindOf E t = Some (KPtr e) -> empty E O addr t (VPtr None)
| em_iface t : silent E O t -> kindOf E t = Some (KIface false) -> empty E O addr t (VIface None)
| em_slice_nil t e : silent E O t -> kindOf E t = Some (KSlice e) -> empty E O addr t (VSlice None)
| em_slice t e s : silent E O t -> kindOf E t = Some (KSlice e) -> empty E O addr t (VSlice (Some ([], s)))
| em_map_nil t k e : silent E O t -> kindOf E t = Some (KMap k e) -> empty E O addr t (VMap None)
| em_map t k e : silent E O t -> kindOf E t = Some (KMap k e) -> empty E O addr t (VMap (Some []))
| em_array t n e l : silent E O t -> kindOf E t = Some (KArray n e) -> length l = n -> Forall (empty E O addr e) l -> empty E O addr t (VArray l)
| em_other t v : silent E O t -> kindOf E t = Some (KIface true) \/ kindOf E t = Some KOther -> empty E O addr t v.

(* A type whose values are written as objects, field by field. *)
Definition fieldwise (E : env) (t : tid) : Prop :=
  exists T fs, typeOf E t = Some T /\ tkind T = KStruct fs /\ isAppender (tmeth T) = false /\ isJSON (tmeth T) = false /\ isText (tmeth T) = false.
Definition omitempty (c : codec) : Prop := N.land (chints c) hintOmitempty = hintOmitempty.
(* [dropped]: an omitempty field with an empty value; a struct is empty when all its fields are dropped. *)
Inductive dropped (E : env) (O : opts) (addr : bool) : codec -> gv -> Prop :=
| dr_value c x : omitempty c -> ~ fieldwise E (ctype c) -> empty E O addr (ctype c) x -> dropped E O addr c x
| dr_method c x : omitempty c -> fieldwise E (ctype c) -> asks E O addr (ctype c) x true -> dropped E O addr c x
| dr_struct c x cs : omitempty c -> fieldwise E (ctype c) -> silent E O (ctype c) -> structFields E O (ctype c) = Ok cs ->
    (forall d y, In d cs -> reaches x (cindex d) y -> dropped E O addr d y) -> dropped E O addr c x.

(* The members that are written, with the text of the value of each. *)
Inductive written (E : env) (G : list cobj) (O : opts) (addr : bool) (v : gv) : list (codec * (nat * nat)) -> list (bytes * bytes) -> Prop :=
| wr_end : written E G O addr v [] []
| wr_unreachable f fs ms : (forall x, ~ reaches v (cindex (fst f)) x) -> written E G O addr v fs ms -> written E G O addr v (f :: fs) ms
| wr_dropped f x fs ms : reaches v (cindex (fst f)) x -> dropped E O addr (fst f) x -> written E G O addr v fs ms -> written E G O addr v (f :: fs) ms
| wr_member c d e x fs ms b fuel w : reaches v (cindex c) x -> ~ dropped E O addr c x ->
    encode fuel E G O e addr b x = Ok (b ++ w, None) -> written E G O addr v fs ms -> written E G O addr v ((c, (d, e)) :: fs) ((ckey c, w) :: ms).
Definition member (m : bytes * bytes) : bytes := x22 :: fst m ++ x22 :: x3a :: snd m.

(* Appenders append. *)
Definition appends (E : env) : Prop := forall t v b out, callAppend E t v b = Ok (out, None) -> exists w, out = b ++ w.

(* What encoding/json calls empty; there a struct never is. *)
Inductive go_empty : gv -> Prop :=
| ge_bool : go_empty (VBool false)
| ge_int : go_empty (VInt 0)
| ge_uint : go_empty (VUint 0)
| ge_float f : feq f zeroF = true -> go_empty (VFloat f)
| ge_string : go_empty (VString [])
| ge_ptr : go_empty (VPtr None)
| ge_iface : go_empty (VIface None)
| ge_slice_nil : go_empty (VSlice None)
| ge_slice s : go_empty (VSlice (Some ([], s)))
| ge_map_nil : go_empty (VMap None)
| ge_map : go_empty (VMap (Some []))
| ge_array : go_empty (VArray []).
(* Floats in v are float64 values. *)
Definition canonical_floats (v : gv) : Prop := forall f, inside v (VFloat f) -> canonical b64 f.

(* ---- C41: what Marshal needs to write JSON ---- *)

(* The methods write JSON, or the inside of a string. *)
Definition methods_write_json (E : env) : Prop :=
  (forall t v b out, callAppend E t v b = Ok (out, None) -> exists w j, out = b ++ w /\ rfc_value j w) /\
  (forall t v r, callJSON E t v = Ok (r, None) -> exists w j, r = Some w /\ rfc_value j w) /\
  (forall t v w, callText E t v = Ok (w, None) -> rfc_chars w).
(* Keys from tags or names can stand in a string as they are, and no field of a struct has the raw hint alone. *)
Definition tags_json (E : env) (O : opts) : Prop :=
  forall t cs c, structFields E O t = Ok cs -> In c cs ->
    rfc_chars (ckey c) /\ (N.land (chints c) hintRaw = hintRaw -> N.land (chints c) hintHTML = hintHTML).
(* Walking a map visits its entries. *)
Definition walks_maps (E : env) : Prop := forall b m, Permutation (mapOrder E b m) m.
(* Floats in v are float64 values, and the finite ones stay finite when rounded to float32. *)
Definition floats_json (v : gv) : Prop := forall f, inside v (VFloat f) -> canonical b64 f /\ (finite f -> exists g, narrow 32 f g /\ finite g).
(* Methods return. *)
Definition methods_return (E : env) : Prop :=
  (forall t v b, typed E t v -> exists r, callAppend E t v b = Ok r) /\
  (forall t v, typed E t v -> exists r, callJSON E t v = Ok r) /\
  (forall t v, typed E t v -> exists r, callText E t v = Ok r) /\
  (forall t v, typed E t v -> exists r, callOmit E t v = Ok r) /\
  (forall t v, typed E t v -> exists r, callOmitPtr E t v = Ok r).
(* [top_ok E t v]: v of type t can be given to Marshal or stand in an interface: not a nil pointer, and the
   methods are those of the type, not only of the pointer to it. *)
Definition same_marshals (a b : mset) : Prop := isAppender a = isAppender b /\ isJSON a = isJSON b /\ isText a = isText b.
Definition top_ok (E : env) (t : tid) (v : gv) : Prop :=
  v <> VPtr None /\
  forall T, typeOf E t = Some T ->
    match tkind T with
    | KPtr e => forall X, typeOf E e = Some X -> same_marshals (tmeth T) (tmeth X)
    | _ => same_marshals (tptr T) (tmeth T)
    end.
(* The same for every interface in v. *)
Definition tops_ok (E : env) (v : gv) : Prop := forall dt x, inside v (VIface (Some (dt, x))) -> top_ok E dt x.

(* ---- C54: the types that have a codec ---- *)

(* [uses E O a b]: the codec a is made of needs b.  The codec of a struct decodes and encodes its fields. *)
Definition elems (k : kind) : list tid := match k with KPtr e | KSlice e | KArray _ e | KMap _ e => [e] | _ => [] end.
Definition no_unmarshaler (m : mset) : Prop := isNodeU m = false /\ isJSONU m = false /\ isTextU m = false.
Definition no_marshaler (m : mset) : Prop := isAppender m = false /\ isJSON m = false /\ isText m = false.
Definition by_kind (E : env) (it : item) (T : tdef) : Prop :=
  match it with IDec t => typeOf E t = Some T /\ no_unmarshaler (tmeth T) | IEnc t => typeOf E t = Some T /\ no_marshaler (tmeth T) end.
Inductive uses (E : env) (O : opts) : item -> item -> Prop :=
| us_dec t T e : by_kind E (IDec t) T -> In e (elems (tkind T)) -> uses E O (IDec t) (IDec e)
| us_enc t T e : by_kind E (IEnc t) T -> In e (elems (tkind T)) -> uses E O (IEnc t) (IEnc e)
| us_field it t T fs cs c x : it = IDec t \/ it = IEnc t -> by_kind E it T -> tkind T = KStruct fs -> structFields E O t = Ok cs -> In c cs ->
    x = IDec (ctype c) \/ x = IEnc (ctype c) -> uses E O it x.
Inductive uses_star (E : env) (O : opts) : item -> item -> Prop :=
| us_refl it : uses_star E O it it
| us_step a b c : uses E O a b -> uses_star E O b c -> uses_star E O a c.
(* Neither a method nor the kind tells how to do it; the keys of a map must be strings or convert from or to text. *)
Definition lacks (E : env) (it : item) : Prop :=
  exists T, by_kind E it T /\
    match tkind T with
    | KOther | KIface true => True
    | KMap k _ => kindOf E k <> Some KString /\ forall K, typeOf E k = Some K -> match it with IDec _ => isTextU (tmeth K) = false | IEnc _ => isText (tmeth K) = false end
    | _ => False
    end.
