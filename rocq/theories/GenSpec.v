(* Specification vocabulary for the code generator: C60 to C63. *)
From Coq Require Import Permutation.
From Verif Require Import FloatSpec NumSpec FmtSpec StrSpec Bytes Types JsonSpec Parser Doc DocSpec Strjson Float Num Iface IfaceSpec Options Codec CodecSpec DecodeSpec GoLitSpec Gen.
Local Open Scope nat_scope.

(* A path of steps, and paths that never end. *)
Inductive star {A} (R : A -> A -> Prop) : A -> A -> Prop :=
| star_here a : star R a a
| star_step a b c : R a b -> star R b c -> star R a c.
Definition loops {A} (R : A -> A -> Prop) (a : A) : Prop := exists b c, star R a b /\ R b c /\ star R c b.

(* What meta.NewFields gives for a struct: paths that lead to values of the types it says. *)
Definition paths_ok (E : env) (M : genv) : Prop :=
  forall t fs f, kindOf E t = Some (KStruct fs) -> In f (fieldsOf M t) -> walks E t (mpath f) (mtype f) /\ mpath f <> [].

(* ---- C60: the fields that are used and the types that have code ---- *)

(* [field_part G f name params]: the field takes part, under this name and with these parameters.  The parts of a tag stand
   between commas; - for the name leaves the field out, as do the options. *)
Inductive field_part (G : gopts) (f : mfield) : bytes -> list bytes -> Prop :=
| fp_intro p ps : mname f <> str "_" -> gMatch G (mname f) = true -> (gOnlyExported G = true -> mexported f = true) ->
    (exists v, mlookup f (gTag G) = Some v /\ v = join x2c (p :: ps) /\ Forall (fun q => ~ In x2c q) (p :: ps)) \/ mlookup f (gTag G) = None /\ p = [] /\ ps = [] /\ gOnlyTagged G = false ->
    p <> str "-" ->
    field_part G f (match p with [] => match gName G (mname f) with [] => mname f | n => n end | _ => p end) (ps ++ if gForceOmit G then [str "omitempty"] else []).
(* the order of tags: byte by byte *)
Inductive before : bytes -> bytes -> Prop :=
| be_end c s : before [] (c :: s)
| be_byte c d s t : (bN c < bN d)%N -> before (c :: s) (d :: t)
| be_rest c s t : before s t -> before (c :: s) (c :: t).

(* The field that is written under a name: of the fields with the name it has the least tag, and it is the first with
   that tag. *)
Definition leads (G : gopts) (l : list mfield) (name : bytes) (params : list bytes) (f : mfield) : Prop :=
  exists a b, l = a ++ f :: b /\ parseVar G f = Some (name, params) /\
    (forall g ps, In g a -> parseVar G g = Some (name, ps) -> less (mtag f) (mtag g) = true) /\
    (forall g ps, In g b -> parseVar G g = Some (name, ps) -> less (mtag g) (mtag f) = false).
(* The fields written, in order. *)
Definition in_order (G : gopts) (l : list mfield) (cs : list (bytes * list bytes * mfield)) : Prop :=
  (forall name params f, In (name, params, f) cs <-> leads G l name params f) /\ NoDup (map (fun c => fst (fst c)) cs) /\
  ForallOrdPairs (fun c d => less (mtag (snd d)) (mtag (snd c)) = false) cs.

(* The types written by their kind.  A part is a type and whether its strings are raw. *)
Definition parts (k : kind) (raw : bool) : list (tid * bool) :=
  match k with KPtr e | KSlice e => [(e, raw)] | KMap k e => [(k, false); (e, raw)] | _ => [] end.
Inductive needs (E : env) (G : gopts) (M : genv) : tid * bool -> tid * bool -> Prop :=
| nd_part t raw T p : typeOf E t = Some T -> no_marshaler (tmeth T) -> In p (parts (tkind T) raw) -> needs E G M (t, raw) p
| nd_field t raw T fs name params f : typeOf E t = Some T -> no_marshaler (tmeth T) -> tkind T = KStruct fs -> leads G (fieldsOf M t) name params f ->
    needs E G M (t, raw) (mtype f, has rawParam params).
(* The same, whether raw or not. *)
Definition needs_t (E : env) (G : gopts) (M : genv) (t u : tid) : Prop := exists raw raw', needs E G M (t, raw) (u, raw').
(* No code: interfaces with methods, arrays, channels, functions; a struct that may have to be omitted and has no method
   to tell. *)
Definition tells (E : env) (G : gopts) (t : tid) : Prop := exists T, typeOf E t = Some T /\ hasOmit (tmeth T) (gOmit G) = true.
Definition codeless (E : env) (G : gopts) (M : genv) (p : tid * bool) : Prop :=
  exists T, typeOf E (fst p) = Some T /\ no_marshaler (tmeth T) /\
    match tkind T with
    | KIface true | KArray _ _ | KOther => True
    | KStruct _ => exists name params f gs, leads G (fieldsOf M (fst p)) name params f /\ In omitEmpty params /\ kindOf E (mtype f) = Some (KStruct gs) /\ ~ tells E G (mtype f)
    | _ => False
    end.
(* Code that Go accepts. *)
Definition hollow (E : env) (G : gopts) (M : genv) (t : tid) : Prop :=
  exists T fs, typeOf E t = Some T /\ no_marshaler (tmeth T) /\ tkind T = KStruct fs /\ forall name params f, ~ leads G (fieldsOf M t) name params f.
Definition conditional (E : env) (G : gopts) (params : list bytes) (t : tid) : Prop :=
  In omitEmpty params /\ (tells E G t \/ exists k, kindOf E t = Some k /\ match k with KIface true | KArray _ _ | KOther => False | _ => True end).
(* Pointers to pointers, in the end to a hollow struct: code that only asks whether they are nil. *)
Inductive hollow_ptr (E : env) (G : gopts) (M : genv) : tid -> Prop :=
| hp_last t T e : typeOf E t = Some T -> no_marshaler (tmeth T) -> tkind T = KPtr e -> hollow E G M e -> hollow_ptr E G M t
| hp_ptr t T e : typeOf E t = Some T -> no_marshaler (tmeth T) -> tkind T = KPtr e -> hollow_ptr E G M e -> hollow_ptr E G M t.
Definition correct_go (E : env) (G : gopts) (M : genv) (p : tid * bool) : Prop :=
  forall T, typeOf E (fst p) = Some T -> no_marshaler (tmeth T) ->
    match tkind T with
    | KIface _ => False
    | KString => fst p = tString \/ snd p = true
    | KPtr e => (exists X fs, typeOf E e = Some X /\ no_marshaler (tmeth X) /\ tkind X = KStruct fs) \/ hollow_ptr E G M e
    | KSlice e => ~ hollow E G M e
    | KMap k e => ~ hollow E G M k /\ ~ hollow E G M e
    | KStruct _ => forall name params f, leads G (fieldsOf M (fst p)) name params f -> name_quoted name /\ (hollow E G M (mtype f) -> conditional E G params (mtype f))
    | _ => True
    end.

(* Types with slices and pointers only: the elements. *)
Inductive points (E : env) : tid -> tid -> Prop :=
| po_ptr t e : kindOf E t = Some (KPtr e) -> points E t e
| po_slice t e : kindOf E t = Some (KSlice e) -> points E t e.
(* No type is its own element, as T is in type T []T. *)
Definition no_point_loop (E : env) : Prop := forall t, ~ loops (points E) t.
(* The types of fields that are read, whatever methods they have. *)
Inductive can (E : env) : tid -> Prop :=
| can_elem t e : points E t e -> can E e -> can E t
| can_struct t f fs : kindOf E t = Some (KStruct (f :: fs)) -> can E t
| can_kind t k : kindOf E t = Some k -> match k with KMap _ _ | KBool | KString | KInt _ | KUint _ | KFloat32 | KFloat64 | KIface false => True | _ => False end -> can E t.
(* The field that is read for a name: the first such field in the order of the iteration. *)
Definition heads (E : env) (G : gopts) (l : list mfield) (name : bytes) (params : list bytes) (f : mfield) : Prop :=
  exists a b, l = a ++ f :: b /\ parseVar G f = Some (name, params) /\ can E (mtype f) /\ forall g ps, In g a -> parseVar G g = Some (name, ps) -> ~ can E (mtype g).
Definition by_kind_u (M : genv) (t : tid) (T : tdef) : Prop := isTime M t = false /\ isDuration M t = false /\ no_unmarshaler (tptr T).
(* A string of a field tagged raw is stored as it is. *)
Definition raw_string (E : env) (params : list bytes) (t : tid) : Prop := In rawParam params /\ kindOf E t = Some KString.
Inductive needs_u (E : env) (G : gopts) (M : genv) : tid -> tid -> Prop :=
| nu_elem t T e : typeOf E t = Some T -> by_kind_u M t T -> match tkind T with KPtr x | KSlice x | KMap _ x => x = e | _ => False end -> needs_u E G M t e
| nu_field t T fs name params f : typeOf E t = Some T -> by_kind_u M t T -> tkind T = KStruct fs -> heads E G (fieldsOf M t) name params f -> ~ raw_string E params (mtype f) ->
    needs_u E G M t (mtype f).
Definition codeless_u (E : env) (M : genv) (t : tid) : Prop :=
  exists T, typeOf E t = Some T /\ by_kind_u M t T /\ match tkind T with KIface true | KArray _ _ | KOther => True | _ => False end.
(* Code that Go accepts. *)
Definition idle (E : env) (G : gopts) (M : genv) (t : tid) : Prop :=
  exists T, typeOf E t = Some T /\ isTime M t = false /\ isDuration M t = false /\
    (isNodeU (tptr T) = true \/ no_unmarshaler (tptr T) /\ (exists fs, tkind T = KStruct fs) /\ forall name params f, ~ heads E G (fieldsOf M t) name params f).
Definition correct_go_u (E : env) (G : gopts) (M : genv) (t : tid) : Prop :=
  isTime M t = true \/ isDuration M t = false /\
  forall T, typeOf E t = Some T -> isNodeU (tptr T) = false /\
    (no_unmarshaler (tptr T) ->
      match tkind T with
      | KIface _ => False
      | KMap k e => (k = tString \/ kindOf E k = Some (KIface false)) /\ ~ idle E G M e
      | KSlice e | KPtr e => ~ idle E G M e
      | KStruct _ => forall name params f, heads E G (fieldsOf M t) name params f -> name_raw name /\ (raw_string E params (mtype f) \/ ~ idle E G M (mtype f))
      | _ => True
      end).

(* ---- C61: what the AppendJSON methods write ---- *)

(* An omitempty field that is left out. *)
Inductive vacant (E : env) (G : gopts) : tid -> gv -> Prop :=
| va_method t T x : typeOf E t = Some T -> hasOmit (tmeth T) (gOmit G) = true -> callOmit E t x = Ok true -> vacant E G t x
| va_value t T x : typeOf E t = Some T -> hasOmit (tmeth T) (gOmit G) = false -> (forall n e, tkind T <> KArray n e) -> tkind T <> KIface true -> go_empty x -> vacant E G t x.
(* A field that is left out: a nil pointer always is. *)
Definition left_out (E : env) (G : gopts) (params : list bytes) (t : tid) (x : gv) : Prop := x = VPtr None \/ In omitEmpty params /\ vacant E G t x.
(* Keys of maps, and numbers. *)
Inductive key_text : gv -> bytes -> Prop :=
| kt_true : key_text (VBool true) (str "true")
| kt_false : key_text (VBool false) (str "false")
| kt_int z : key_text (VInt z) (FormatInt z)
| kt_uint z : key_text (VUint z) (FormatUint (Z.to_N z)).
(* [shown E G M t v j]: the tree j is the value v of type t, by its kind or by what its methods say. *)
Inductive shown (E : env) (G : gopts) (M : genv) : tid -> gv -> jval -> Prop :=
| sh_append t T v b w j : typeOf E t = Some T -> isAppender (tmeth T) = true -> callAppend E t v b = Ok (b ++ w, None) -> rfc_value j w -> shown E G M t v j
| sh_json t T v w j : typeOf E t = Some T -> isAppender (tmeth T) = false -> isJSON (tmeth T) = true -> callJSON E t v = Ok (Some w, None) -> rfc_value j w -> shown E G M t v j
| sh_text t T v w : typeOf E t = Some T -> isAppender (tmeth T) = false -> isJSON (tmeth T) = false -> isText (tmeth T) = true -> callText E t v = Ok (w, None) -> shown E G M t v (JStr w)
| sh_kind t T v j : typeOf E t = Some T -> no_marshaler (tmeth T) -> shown_kind E G M t (tkind T) v j -> shown E G M t v j
with shown_kind (E : env) (G : gopts) (M : genv) : tid -> kind -> gv -> jval -> Prop :=
| shk_true t : shown_kind E G M t KBool (VBool true) JTrue
| shk_false t : shown_kind E G M t KBool (VBool false) JFalse
| shk_int t bits z : shown_kind E G M t (KInt bits) (VInt z) (JNum (FormatInt z))
| shk_uint t bits z : shown_kind E G M t (KUint bits) (VUint z) (JNum (FormatUint (Z.to_N z)))
| shk_float t k f s : k = KFloat32 \/ k = KFloat64 -> FormatFloat (ftoa E) f 64 = Ok s -> shown_kind E G M t k (VFloat f) (JNum s)
| shk_string t s w : Escaped s false false = Ok w -> shown_kind E G M t KString (VString s) (JStr w)
| shk_nil t e : shown_kind E G M t (KPtr e) (VPtr None) JNull
| shk_ptr t e x j : shown E G M e x j -> shown_kind E G M t (KPtr e) (VPtr (Some x)) j
| shk_slice_nil t e : shown_kind E G M t (KSlice e) (VSlice None) (JArr [])
| shk_slice t e l s js : shown_each E G M e l js -> shown_kind E G M t (KSlice e) (VSlice (Some (l, s))) (JArr js)
| shk_map_nil t k e : shown_kind E G M t (KMap k e) (VMap None) (JObj [])
| shk_map t k e m m' ms : Permutation m' m -> shown_entries E G M e m' ms -> shown_kind E G M t (KMap k e) (VMap (Some m)) (JObj ms)
| shk_struct t fs l cs ms : in_order G (fieldsOf M t) cs -> shown_fields E G M (VStruct l) cs ms -> shown_kind E G M t (KStruct fs) (VStruct l) (JObj ms)
with shown_each (E : env) (G : gopts) (M : genv) : tid -> list gv -> list jval -> Prop :=
| she_nil e : shown_each E G M e [] []
| she_cons e x l j js : shown E G M e x j -> shown_each E G M e l js -> shown_each E G M e (x :: l) (j :: js)
with shown_entries (E : env) (G : gopts) (M : genv) : tid -> list (gv * gv) -> list (bytes * jval) -> Prop :=
| shn_nil e : shown_entries E G M e [] []
| shn_cons e k x m s j ms : key_text k s -> shown E G M e x j -> shown_entries E G M e m ms -> shown_entries E G M e ((k, x) :: m) ((s, j) :: ms)
with shown_fields (E : env) (G : gopts) (M : genv) : gv -> list (bytes * list bytes * mfield) -> list (bytes * jval) -> Prop :=
| shf_nil v : shown_fields E G M v [] []
| shf_unreachable v c cs ms : (forall x, ~ reaches v (mpath (snd c)) x) -> shown_fields E G M v cs ms -> shown_fields E G M v (c :: cs) ms
| shf_out v name params f x cs ms : reaches v (mpath f) x -> left_out E G params (mtype f) x -> shown_fields E G M v cs ms -> shown_fields E G M v ((name, params, f) :: cs) ms
| shf_member v name params f x j cs ms : reaches v (mpath f) x -> ~ left_out E G params (mtype f) x -> shown E G M (mtype f) x j -> shown_fields E G M v cs ms ->
    shown_fields E G M v ((name, params, f) :: cs) ((name, j) :: ms).

(* Names can stand in a string of JSON and in one of Go as they are, no field has the parameter raw, and the keys of maps are integers or
   booleans. *)
Definition plain_name (name : bytes) : Prop := Forall (fun c => (32 <= bN c)%N /\ c <> x22 /\ c <> x5c) name.
Definition names_json (E : env) (G : gopts) (M : genv) (t : tid) : Prop :=
  forall u raw, star (needs E G M) (t, false) (u, raw) -> raw = false /\
    forall fs name params f, kindOf E u = Some (KStruct fs) -> leads G (fieldsOf M u) name params f -> plain_name name.
Definition plain_keys (E : env) (G : gopts) (M : genv) (t : tid) : Prop :=
  forall u raw k e, star (needs E G M) (t, false) (u, raw) -> kindOf E u = Some (KMap k e) ->
    exists K, typeOf E k = Some K /\ no_marshaler (tmeth K) /\ match tkind K with KBool | KInt _ | KUint _ => True | _ => False end.
Definition finite_floats (v : gv) : Prop := forall f, inside v (VFloat f) -> canonical b64 f /\ finite f.
(* The method that a part of v, a value of one of the types written, is written with returned the error. *)
Definition method_error (E : env) (G : gopts) (M : genv) (t : tid) (v : gv) (e : uerr) : Prop :=
  exists u raw T x, star (needs E G M) (t, false) (u, raw) /\ typeOf E u = Some T /\ inside v x /\ typed E u x /\
    (isAppender (tmeth T) = true /\ (exists b o, callAppend E u x b = Ok (o, Some e)) \/
     isAppender (tmeth T) = false /\ isJSON (tmeth T) = true /\ (exists o, callJSON E u x = Ok (o, Some e)) \/
     isAppender (tmeth T) = false /\ isJSON (tmeth T) = false /\ isText (tmeth T) = true /\ exists o, callText E u x = Ok (o, Some e)).

(* ---- C62: what the UnmarshalNodeJSON methods store ---- *)

(* The types read are read by their kind. *)
Definition read_by_kind (E : env) (G : gopts) (M : genv) (t : tid) : Prop := forall u, star (needs_u E G M) t u -> exists T, typeOf E u = Some T /\ by_kind_u M u T.
(* The methods, and time.Parse, return values of the type. *)
Definition unmarshalers_return (E : env) (M : genv) : Prop :=
  (forall t v s, typed E t v -> exists v' e, callJSONU E t v s = Ok (v', e) /\ typed E t v') /\
  (forall t v s, typed E t v -> exists v' e, callTextU E t v s = Ok (v', e) /\ typed E t v') /\
  (forall t s x, isTime M t = true -> parseTime M s = inl x -> typed E t x).
(* The method that a type is read with. *)
Definition by_json (E : env) (M : genv) (t : tid) : Prop :=
  exists T, typeOf E t = Some T /\ isTime M t = false /\ isDuration M t = false /\ isNodeU (tptr T) = false /\ isJSONU (tptr T) = true.
Definition by_text (E : env) (M : genv) (t : tid) : Prop :=
  exists T, typeOf E t = Some T /\ isTime M t = false /\ isDuration M t = false /\ isNodeU (tptr T) = false /\ isJSONU (tptr T) = false /\ isTextU (tptr T) = true.
Definition of_kind (E : env) (M : genv) (t : tid) (k : kind) : Prop := exists T, typeOf E t = Some T /\ by_kind_u M t T /\ tkind T = k.
(* The text that a node has; arrays and objects have none. *)
Definition raw_text (j : jval) : bytes := match j with JStr s | JNum s => s | JTrue => str "true" | JFalse => str "false" | JNull => str "null" | JArr _ | JObj _ => [] end.
(* [lay E t v path x y v']: x is at the path in v, or blank if a nil pointer is in the way; v' is v with y there, and new
   pointers for nil ones. *)
Inductive lay (E : env) : tid -> gv -> list Z -> gv -> gv -> gv -> Prop :=
| lay_here t x y : lay E t x [] x y y
| lay_field t fs a x b f path o y x' : kindOf E t = Some (KStruct fs) -> nth_error fs (length a) = Some f -> lay E (ftype f) x path o y x' ->
    lay E t (VStruct (a ++ x :: b)) (Z.of_nat (length a) :: path) o y (VStruct (a ++ x' :: b))
| lay_ptr t e x path o y x' : kindOf E t = Some (KPtr e) -> lay E e x path o y x' -> lay E t (VPtr (Some x)) (-1 :: path)%Z o y (VPtr (Some x'))
| lay_new t e z path o y x' : kindOf E t = Some (KPtr e) -> blank E e z -> lay E e z path o y x' -> lay E t (VPtr None) (-1 :: path)%Z o y (VPtr (Some x')).
(* A number, or a string with the text of one. *)
Definition digits_of (j : jval) (s : bytes) : Prop := j = JNum s \/ j = JStr s.
(* The elements that an array of n values is stored in: those in memory if the slice has the capacity, otherwise blank
   ones, as many as n and the elements of the slice together. *)
Definition gslots (E : env) (e : tid) (x : option (list gv * list gv)) (n : nat) (l s : list gv) : Prop :=
  match x with
  | Some (l0, s0) => n <= length (l0 ++ s0) /\ length l = n /\ l ++ s = l0 ++ s0 \/ length (l0 ++ s0) < n /\ length l = length l0 + n /\ Forall (blank E e) l /\ s = []
  | None => length l = n /\ Forall (blank E e) l /\ s = []
  end.
(* The key of a map for a string: itself, or the string in an interface. *)
Definition key_box (E : env) (k : tid) (box : bytes -> gv) : Prop :=
  k = tString /\ box = VString \/ kindOf E k = Some (KIface false) /\ box = fun s => VIface (Some (tString, VString s)).
(* [put_at m k y m']: m' is the map m with y at the key. *)
Inductive put_at : list (gv * gv) -> gv -> gv -> list (gv * gv) -> Prop :=
| pa_old a k x b y : put_at (a ++ (k, x) :: b) k y (a ++ (k, y) :: b)
| pa_new m k y : ~ In k (map fst m) -> put_at m k y (m ++ [(k, y)]).
(* [filled E G M t v j v']: v' is the value v of type t after the whole tree j is stored in it. *)
Inductive filled (E : env) (G : gopts) (M : genv) : tid -> gv -> jval -> gv -> Prop :=
| fi_time t v j x : isTime M t = true -> parseTime M (raw_text j) = inl x -> filled E G M t v j x
| fi_json t v j x : by_json E M t -> callJSONU E t v (print j) = Ok (x, None) -> filled E G M t v j x
| fi_text t v s x : by_text E M t -> callTextU E t v s = Ok (x, None) -> filled E G M t v (JStr s) x
| fi_true t b : of_kind E M t KBool -> filled E G M t (VBool b) JTrue (VBool true)
| fi_false t b : of_kind E M t KBool -> filled E G M t (VBool b) JFalse (VBool false)
| fi_int t bits z j s n k : of_kind E M t (KInt bits) -> digits_of j s -> ParseInt s = (n, true) -> (- 2 ^ (bits - 1) <= n + k * 2 ^ bits < 2 ^ (bits - 1))%Z ->
    filled E G M t (VInt z) j (VInt (n + k * 2 ^ bits)%Z)
| fi_uint t bits z j s n k : of_kind E M t (KUint bits) -> digits_of j s -> ParseUint s = (n, true) -> (0 <= n + k * 2 ^ bits < 2 ^ bits)%Z ->
    filled E G M t (VUint z) j (VUint (n + k * 2 ^ bits)%Z)
| fi_float32 t f j s : of_kind E M t KFloat32 -> digits_of j s -> ParseFloat s <> FNaN -> filled E G M t (VFloat f) j (VFloat (widen (to32 (ParseFloat s))))
| fi_float64 t f j s : of_kind E M t KFloat64 -> digits_of j s -> ParseFloat s <> FNaN -> filled E G M t (VFloat f) j (VFloat (ParseFloat s))
| fi_string t s0 s o : of_kind E M t KString -> Unescaped s = Ok o -> filled E G M t (VString s0) (JStr s) (VString o)
| fi_string_other t s0 j : of_kind E M t KString -> (forall s, j <> JStr s) -> filled E G M t (VString s0) j (VString [])
| fi_ptr_null t e x : of_kind E M t (KPtr e) -> filled E G M t (VPtr x) JNull (VPtr None)
| fi_ptr t e x j y : of_kind E M t (KPtr e) -> j <> JNull -> filled E G M e x j y -> filled E G M t (VPtr (Some x)) j (VPtr (Some y))
| fi_ptr_new t e z j y : of_kind E M t (KPtr e) -> j <> JNull -> blank E e z -> filled E G M e z j y -> filled E G M t (VPtr None) j (VPtr (Some y))
| fi_slice_null t e x : of_kind E M t (KSlice e) -> filled E G M t (VSlice x) JNull (VSlice None)
| fi_slice_nil t e : of_kind E M t (KSlice e) -> filled E G M t (VSlice None) (JArr []) (VSlice None)
| fi_slice t e x js l1 l2 s l' : of_kind E M t (KSlice e) -> (x = None -> js <> []) -> gslots E e x (length js) (l1 ++ l2) s -> filled_each E G M e l1 js l' ->
    filled E G M t (VSlice x) (JArr js) (VSlice (Some (l' ++ l2, s)))
| fi_map_null t k e x : of_kind E M t (KMap k e) -> filled E G M t (VMap x) JNull (VMap None)
| fi_map t k box e x ms m' : of_kind E M t (KMap k e) -> key_box E k box -> filled_keys E G M e box ms (match x with Some m => m | None => [] end) m' -> filled E G M t (VMap x) (JObj ms) (VMap (Some m'))
| fi_struct t fs l ms v' : of_kind E M t (KStruct fs) -> filled_fields E G M t ms (VStruct l) v' -> filled E G M t (VStruct l) (JObj ms) v'
with filled_each (E : env) (G : gopts) (M : genv) : tid -> list gv -> list jval -> list gv -> Prop :=
| fe_nil e : filled_each E G M e [] [] []
| fe_cons e x l j js y l' : filled E G M e x j y -> filled_each E G M e l js l' -> filled_each E G M e (x :: l) (j :: js) (y :: l')
with filled_keys (E : env) (G : gopts) (M : genv) : tid -> (bytes -> gv) -> list (bytes * jval) -> list (gv * gv) -> list (gv * gv) -> Prop :=
| fk_nil e box m : filled_keys E G M e box [] m m
| fk_cons e box k j ms m z y m1 m' : blank E e z -> filled E G M e z j y -> put_at m (box k) y m1 -> filled_keys E G M e box ms m1 m' -> filled_keys E G M e box ((k, j) :: ms) m m'
with filled_fields (E : env) (G : gopts) (M : genv) : tid -> list (bytes * jval) -> gv -> gv -> Prop :=
| ff_nil t v : filled_fields E G M t [] v v
| ff_other t k j ms v v' : (forall params f, ~ heads E G (fieldsOf M t) k params f) -> filled_fields E G M t ms v v' -> filled_fields E G M t ((k, j) :: ms) v v'
| ff_raw t k j ms v params f x v1 v' : heads E G (fieldsOf M t) k params f -> raw_string E params (mtype f) -> lay E t v (mpath f) x (VString (raw_text j)) v1 -> filled_fields E G M t ms v1 v' ->
    filled_fields E G M t ((k, j) :: ms) v v'
| ff_field t k j ms v params f x y v1 v' : heads E G (fieldsOf M t) k params f -> ~ raw_string E params (mtype f) -> lay E t v (mpath f) x y v1 -> filled E G M (mtype f) x j y ->
    filled_fields E G M t ms v1 v' -> filled_fields E G M t ((k, j) :: ms) v v'.
(* [refused E G M t j e]: the method that a part of t is read with returned the error e for the corresponding part of the
   tree j; or that part of j is not of a JSON type that the part of t takes, or is not a number, and e tells so. *)
Definition takes_u (k : kind) (j : jval) : Prop :=
  match k, j with
  | KBool, (JTrue | JFalse) => True
  | (KInt _ | KUint _ | KFloat32 | KFloat64), (JNum _ | JStr _) => True
  | KSlice _, (JArr _ | JNull) => True
  | KMap _ _, (JObj _ | JNull) => True
  | KStruct _, JObj _ => True
  | (KString | KPtr _ | KIface _ | KOther | KArray _ _), _ => True
  | _, _ => False
  end.
Definition json_type (j : jval) : N :=
  match j with JStr _ => TypeString | JNum _ => TypeNumber | JTrue | JFalse => TypeBoolean | JNull => TypeNull | JArr _ => TypeArray | JObj _ => TypeObject end.
Definition wanted (k : kind) : N :=
  match k with KBool => TypeBoolean | KSlice _ => N.lor TypeArray TypeNull | KMap _ _ => N.lor TypeObject TypeNull | KStruct _ => TypeObject | _ => TypeNumber end.
Definition complaint (j : jval) (want : N) : uerr := UType (TypeErr (json_type j) want).
Inductive refused (E : env) (G : gopts) (M : genv) : tid -> jval -> uerr -> Prop :=
| rf_time t j e : isTime M t = true -> parseTime M (raw_text j) = inr e -> refused E G M t j e
| rf_json t v j x e : by_json E M t -> typed E t v -> callJSONU E t v (print j) = Ok (x, Some e) -> refused E G M t j e
| rf_text t v s x e : by_text E M t -> typed E t v -> callTextU E t v s = Ok (x, Some e) -> refused E G M t (JStr s) e
| rf_text_type t j : by_text E M t -> (forall s, j <> JStr s) -> refused E G M t j (complaint j TypeString)
| rf_kind t k j : of_kind E M t k -> ~ takes_u k j -> refused E G M t j (complaint j (wanted k))
| rf_int t bits j s : of_kind E M t (KInt bits) -> digits_of j s -> snd (ParseInt s) = false -> refused E G M t j (complaint j TypeNumber)
| rf_uint t bits j s : of_kind E M t (KUint bits) -> digits_of j s -> snd (ParseUint s) = false -> refused E G M t j (complaint j TypeNumber)
| rf_float t j s : of_kind E M t KFloat32 \/ of_kind E M t KFloat64 -> digits_of j s -> ParseFloat s = FNaN -> refused E G M t j (complaint j TypeNumber)
| rf_ptr t e j er : of_kind E M t (KPtr e) -> j <> JNull -> refused E G M e j er -> refused E G M t j er
| rf_slice t e js j er : of_kind E M t (KSlice e) -> In j js -> refused E G M e j er -> refused E G M t (JArr js) er
| rf_map t k e ms key j er : of_kind E M t (KMap k e) -> In (key, j) ms -> refused E G M e j er -> refused E G M t (JObj ms) er
| rf_field t fs ms name params f j er : of_kind E M t (KStruct fs) -> In (name, j) ms -> heads E G (fieldsOf M t) name params f -> ~ raw_string E params (mtype f) -> refused E G M (mtype f) j er ->
    refused E G M t (JObj ms) er.

(* ---- C63: reading what was written ---- *)

(* Two paths that part: neither is a part of the other. *)
Definition apart (p q : list Z) : Prop := exists a i j p' q', p = a ++ i :: p' /\ q = a ++ j :: q' /\ i <> j.
(* The code for the two methods may be made with the fields in different orders.  The types that are written by their
   kinds are read by their kinds, the field that is written under a name is the one that is read for it, and no field
   is a part of another. *)
Definition paired (E : env) (G : gopts) (M M' : genv) (t : tid) : Prop :=
  forall u raw T, star (needs E G M) (t, false) (u, raw) -> typeOf E u = Some T -> no_marshaler (tmeth T) -> by_kind_u M' u T /\
    forall fs, tkind T = KStruct fs ->
      (forall name params f, leads G (fieldsOf M u) name params f -> heads E G (fieldsOf M' u) name params f) /\
      (forall name params f name' params' f', leads G (fieldsOf M u) name params f -> leads G (fieldsOf M u) name' params' f' -> name = name' \/ apart (mpath f) (mpath f')).
(* JSON without white space in which no string ends with a backslash (C01). *)
Definition compact : jval -> bytes -> Prop := value (fun s => s = []) (fun s => rfc_chars s /\ plain_end s) rfc_chars rfc_number.
(* A value of a type with methods: what the method writes for it is read as the value, whatever was there before. *)
Definition undone (E : env) (G : gopts) (M M' : genv) (t : tid) (v : gv) : Prop :=
  exists T, typeOf E t = Some T /\ ~ no_marshaler (tmeth T) /\
    (isAppender (tmeth T) = true -> forall b, exists w j, callAppend E t v b = Ok (b ++ w, None) /\ compact j w) /\
    (isAppender (tmeth T) = false -> isJSON (tmeth T) = true -> exists w j, callJSON E t v = Ok (Some w, None) /\ compact j w) /\
    (isAppender (tmeth T) = false -> isJSON (tmeth T) = false -> isText (tmeth T) = true -> exists w, callText E t v = Ok (w, None) /\ rfc_chars w /\ plain_end w) /\
    forall j, shown E G M t v j ->
      isTime M' t = true /\ parseTime M' (raw_text j) = inl v \/
      by_json E M' t /\ (forall z, typed E t z -> callJSONU E t z (print j) = Ok (v, None)) \/
      by_text E M' t /\ exists s, j = JStr s /\ forall z, typed E t z -> callTextU E t z s = Ok (v, None).
Definition written_kind (E : env) (t : tid) (k : kind) : Prop := exists T, typeOf E t = Some T /\ no_marshaler (tmeth T) /\ tkind T = k.
(* The values that come back.  An integer must be a float64 value; a float must be read as one equal to it; a string must
   be UTF-8 and not end with a backslash (unless it has a quote).  A map must be
   empty: the keys of the maps that can be written are not strings, and of those that can be read they are. *)
Inductive gsurvives (E : env) (G : gopts) (M M' : genv) : tid -> gv -> Prop :=
| gs_method t v : undone E G M M' t v -> gsurvives E G M M' t v
| gs_bool t b : written_kind E t KBool -> gsurvives E G M M' t (VBool b)
| gs_int t bits z : written_kind E t (KInt bits) -> float_int z -> gsurvives E G M M' t (VInt z)
| gs_uint t bits z : written_kind E t (KUint bits) -> float_int z -> gsurvives E G M M' t (VUint z)
| gs_float32 t f s : written_kind E t KFloat32 -> canonical b64 f -> finite f -> FormatFloat (ftoa E) f 64 = Ok s -> feq f (widen (to32 (ParseFloat s))) = true -> gsurvives E G M M' t (VFloat f)
| gs_float64 t f s : written_kind E t KFloat64 -> canonical b64 f -> finite f -> FormatFloat (ftoa E) f 64 = Ok s -> feq f (ParseFloat s) = true -> gsurvives E G M M' t (VFloat f)
| gs_string t s : written_kind E t KString -> valid_utf8 s -> plain_end s -> gsurvives E G M M' t (VString s)
| gs_ptr_nil t e : written_kind E t (KPtr e) -> gsurvives E G M M' t (VPtr None)
| gs_ptr t e fs x : written_kind E t (KPtr e) -> written_kind E e (KStruct fs) -> gsurvives E G M M' e x -> gsurvives E G M M' t (VPtr (Some x))
| gs_slice_nil t e : written_kind E t (KSlice e) -> gsurvives E G M M' t (VSlice None)
| gs_slice t e l s : written_kind E t (KSlice e) -> Forall (gsurvives E G M M' e) l -> gsurvives E G M M' t (VSlice (Some (l, s)))
| gs_map t k e m : written_kind E t (KMap k e) -> m = None \/ m = Some [] -> gsurvives E G M M' t (VMap m)
| gs_struct t fs l : written_kind E t (KStruct fs) ->
    (forall name params f x, leads G (fieldsOf M t) name params f -> reaches (VStruct l) (mpath f) x -> ~ left_out E G params (mtype f) x -> gsurvives E G M M' (mtype f) x) ->
    gsurvives E G M M' t (VStruct l).
(* [gagree E G M t v v']: v' is v, except that floats need only be equal, an empty slice is a nil slice and a nil map an empty map, the memory after
   the end of a slice does not count, nor do the fields that have no name.  A field that was left out is blank, or
   an embedded pointer on the way to it is nil. *)
Inductive gagree (E : env) (G : gopts) (M : genv) : tid -> gv -> gv -> Prop :=
| ga_same t v : gagree E G M t v v
| ga_float t f g : feq f g = true -> gagree E G M t (VFloat f) (VFloat g)
| ga_ptr t e x y : kindOf E t = Some (KPtr e) -> gagree E G M e x y -> gagree E G M t (VPtr (Some x)) (VPtr (Some y))
| ga_nil t s : gagree E G M t (VSlice (Some ([], s))) (VSlice None)
| ga_slice t e l s l' s' : kindOf E t = Some (KSlice e) -> Forall2 (gagree E G M e) l l' -> gagree E G M t (VSlice (Some (l, s))) (VSlice (Some (l', s')))
| ga_map_nil t : gagree E G M t (VMap None) (VMap (Some []))
| ga_struct t fs l l' : kindOf E t = Some (KStruct fs) ->
    (forall name params f, leads G (fieldsOf M t) name params f ->
      (forall y, reaches (VStruct l') (mpath f) y -> exists x, reaches (VStruct l) (mpath f) x) /\
      (forall x, reaches (VStruct l) (mpath f) x ->
        ~ left_out E G params (mtype f) x /\ (exists y, reaches (VStruct l') (mpath f) y /\ gagree E G M (mtype f) x y) \/
        left_out E G params (mtype f) x /\ forall y, reaches (VStruct l') (mpath f) y -> blank E (mtype f) y)) ->
    gagree E G M t (VStruct l) (VStruct l').
