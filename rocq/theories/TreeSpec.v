(* Specification vocabulary for C46 (all keys) and C69: the tree that the encoders write for a value. *)
From Coq Require Import Permutation.
From Verif Require Import FloatSpec FmtSpec Bytes Types JsonSpec Parser Doc DocSpec Strjson Float Num Iface IfaceSpec Options Codec CodecSpec DecodeSpec RoundSpec.
Local Open Scope nat_scope.

(* [kept a l cs]: of the fields l, offered after the fields a, cs are those in the codec of the struct.  A field is kept
   if none with its key was offered before, or if its path is shorter than that of the first one. *)
Inductive kept : list codec -> list codec -> list codec -> Prop :=
| kp_end a : kept a [] []
| kp_take a c l cs : (forall d r, with_key (ckey c) a = d :: r -> length (cindex c) < length (cindex d)) -> kept (a ++ [c]) l cs -> kept a (c :: l) (c :: cs)
| kp_leave a c d r l cs : with_key (ckey c) a = d :: r -> length (cindex d) <= length (cindex c) -> kept (a ++ [c]) l cs -> kept a (c :: l) cs.
(* The fields of a struct that are written and read. *)
Definition struct_fields (E : env) (O : opts) (t : tid) (cs : list codec) : Prop := exists l, offers E O t [] l /\ kept [] l cs.

(* The bits that stand for the hints html and raw. *)
Definition hinted (h bit : N) : Prop := N.land h bit = bit.
(* The text of a key of a map. *)
Definition key_shows (E : env) (k : tid) (key : gv) (w : bytes) : Prop :=
  exists K, typeOf E k = Some K /\
    (isText (tmeth K) = true /\ callText E k key = Ok (w, None) \/ isText (tmeth K) = false /\ exists s, key = VString s /\ Escaped s false false = Ok w).

(* [tree E O addr h t v j]: j is the tree of the value v of type t, by a method of the type or by its kind.  The options
   are O, the hints of the field h; addr tells whether v has an address, which matters to Omit methods of pointers.
   In an interface the options are the default ones. *)
Inductive tree (E : env) : opts -> bool -> N -> tid -> gv -> jval -> Prop :=
| tr_append O addr h t T v b w j : typeOf E t = Some T -> isAppender (tmeth T) = true -> callAppend E t v b = Ok (b ++ w, None) -> rfc_value j w -> tree E O addr h t v j
| tr_json O addr h t T v w j : typeOf E t = Some T -> isAppender (tmeth T) = false -> isJSON (tmeth T) = true -> callJSON E t v = Ok (Some w, None) -> rfc_value j w -> tree E O addr h t v j
| tr_text O addr h t T v w : typeOf E t = Some T -> isAppender (tmeth T) = false -> isJSON (tmeth T) = false -> isText (tmeth T) = true -> callText E t v = Ok (w, None) ->
    tree E O addr h t v (JStr w)
| tr_kind O addr h t T v j : typeOf E t = Some T -> no_marshaler (tmeth T) -> kind_tree E O addr h t (tkind T) v j -> tree E O addr h t v j
(* a struct with a method, of which the cache has the codec for reading it by its fields (C55) *)
| tr_cached O addr t T fs v j : typeOf E t = Some T -> tkind T = KStruct fs -> no_unmarshaler (tmeth T) -> kind_tree E O addr 0%N t (tkind T) v j -> tree E O addr 0%N t v j
with kind_tree (E : env) : opts -> bool -> N -> tid -> kind -> gv -> jval -> Prop :=
| kt_true O addr h t : kind_tree E O addr h t KBool (VBool true) JTrue
| kt_false O addr h t : kind_tree E O addr h t KBool (VBool false) JFalse
| kt_int O addr h t bits z : kind_tree E O addr h t (KInt bits) (VInt z) (JNum (FormatInt z))
| kt_uint O addr h t bits z : kind_tree E O addr h t (KUint bits) (VUint z) (JNum (FormatUint (Z.to_N z)))
| kt_float O addr h t k f s : k = KFloat32 \/ k = KFloat64 -> writes E f s -> kind_tree E O addr h t k (VFloat f) (JNum s)
| kt_html O addr h t s w : hinted h hintHTML -> Escaped s true false = Ok w -> kind_tree E O addr h t KString (VString s) (JStr w)
| kt_string O addr h t s w : ~ hinted h hintHTML -> ~ hinted h hintRaw -> Escaped s false false = Ok w -> kind_tree E O addr h t KString (VString s) (JStr w)
| kt_iface_nil O addr h t : kind_tree E O addr h t (KIface false) (VIface None) JNull
| kt_iface O addr h t dt x j : top_tree E dt x j -> kind_tree E O addr h t (KIface false) (VIface (Some (dt, x))) j
| kt_nil O addr h t e : kind_tree E O addr h t (KPtr e) (VPtr None) JNull
| kt_ptr O addr h t e x j : tree E O true h e x j -> kind_tree E O addr h t (KPtr e) (VPtr (Some x)) j
| kt_slice_nil O addr h t e : kind_tree E O addr h t (KSlice e) (VSlice None) (JArr [])
| kt_slice O addr h t e l s js : each_tree E O true h e l js -> kind_tree E O addr h t (KSlice e) (VSlice (Some (l, s))) (JArr js)
| kt_array O addr h t n e l js : length l = n -> each_tree E O addr h e l js -> kind_tree E O addr h t (KArray n e) (VArray l) (JArr js)
| kt_map_nil O addr h t k e : kind_tree E O addr h t (KMap k e) (VMap None) JNull
| kt_map O addr h t k e m m' ms : Permutation m' m -> entry_trees E O k e m' ms -> kind_tree E O addr h t (KMap k e) (VMap (Some m)) (JObj ms)
| kt_struct O addr h t fs cs v ms : struct_fields E O t cs -> field_trees E O addr v cs ms -> kind_tree E O addr h t (KStruct fs) v (JObj ms)
with each_tree (E : env) : opts -> bool -> N -> tid -> list gv -> list jval -> Prop :=
| et_nil O addr h e : each_tree E O addr h e [] []
| et_cons O addr h e x l j js : tree E O addr h e x j -> each_tree E O addr h e l js -> each_tree E O addr h e (x :: l) (j :: js)
with entry_trees (E : env) : opts -> tid -> tid -> list (gv * gv) -> list (bytes * jval) -> Prop :=
| en_nil O k e : entry_trees E O k e [] []
| en_cons O k e key x m w j ms : key_shows E k key w -> tree E O false 0%N e x j -> entry_trees E O k e m ms -> entry_trees E O k e ((key, x) :: m) ((w, j) :: ms)
with field_trees (E : env) : opts -> bool -> gv -> list codec -> list (bytes * jval) -> Prop :=
| ft_end O addr v : field_trees E O addr v [] []
| ft_unreachable O addr v c cs ms : (forall x, ~ reaches v (cindex c) x) -> field_trees E O addr v cs ms -> field_trees E O addr v (c :: cs) ms
| ft_dropped O addr v c x cs ms : reaches v (cindex c) x -> dropped E O addr c x -> field_trees E O addr v cs ms -> field_trees E O addr v (c :: cs) ms
| ft_member O addr v c x j cs ms : reaches v (cindex c) x -> ~ dropped E O addr c x -> tree E O addr (chints c) (ctype c) x j -> field_trees E O addr v cs ms ->
    field_trees E O addr v (c :: cs) ((ckey c, j) :: ms)
(* what is given to Marshal, or stands in an interface: a pointer stands for what it points to *)
with top_tree (E : env) : tid -> gv -> jval -> Prop :=
| tt_ptr t e x j : kindOf E t = Some (KPtr e) -> tree E defaultOptions true 0%N e x j -> top_tree E t (VPtr (Some x)) j
| tt_value t v j : (forall e, kindOf E t <> Some (KPtr e)) -> tree E defaultOptions false 0%N t v j -> top_tree E t v j.

(* ---- C69: when there is only one tree ---- *)
(* No type has a method for marshaling. *)
Definition no_marshalers (E : env) : Prop := forall t T, typeOf E t = Some T -> no_marshaler (tmeth T).
(* The order of the entries of a map is open: no map in v has two. *)
Definition small_maps (v : gv) : Prop := forall m, inside v (VMap (Some m)) -> length m <= 1.

(* What is given to an encoder object with the options O. *)
Definition top_tree_with (E : env) (O : opts) (t : tid) (v : gv) (j : jval) : Prop :=
  (exists e x, kindOf E t = Some (KPtr e) /\ v = VPtr (Some x) /\ tree E O true 0%N e x j) \/ (forall e, kindOf E t <> Some (KPtr e)) /\ tree E O false 0%N t v j.
