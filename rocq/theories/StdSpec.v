(* Specification vocabulary for C77: what json.Marshal of encoding/json writes for values of types without methods. *)
From Coq Require Import Permutation.
From Verif Require Import FloatSpec FmtSpec Bytes Types JsonSpec StrSpec Parser Doc DocSpec Float NumSpec Num Options OptSpec Codec CodecSpec.
Local Open Scope nat_scope.

(* ---- what a JSON text says ---- *)

(* Strings and keys stand for characters, in UTF-8; numbers for rational numbers. *)
Inductive sval : Type :=
| SNull | SBool (b : bool) | SNum (q : Q) | SStr (s : bytes) | SArr (l : list sval) | SObj (l : list (bytes * sval)).
Inductive says : jval -> sval -> Prop :=
| sy_null : says JNull SNull
| sy_true : says JTrue (SBool true)
| sy_false : says JFalse (SBool false)
| sy_num p q : shape one_sign p -> (numval p == q)%Q -> says (JNum (text p)) (SNum q)
| sy_str w s : meaning w s -> says (JStr w) (SStr s)
| sy_arr js l : Forall2 says js l -> says (JArr js) (SArr l)
| sy_obj ms l : Forall2 (fun a b => meaning (fst a) (fst b) /\ says (snd a) (snd b)) ms l -> says (JObj ms) (SObj l).

(* ---- the fields of a struct (encoding/json, typeFields and dominantField) ---- *)

(* The characters of a name in a tag: letters and digits, which are given as [letter], and these. *)
Definition tag_chars : bytes := str "!#$%&()*+-./:;<=>?@[]^_{|}~ ".
Definition valid_name (letter : N -> Prop) (p : bytes) : Prop :=
  p <> [] /\ exists rs, Forall scalar rs /\ p = utf8s rs /\ Forall (fun r => letter r \/ In r (map bN tag_chars)) rs.
(* [std_tag f name opts]: the field is not ignored, its tag gives this name, empty for none, and these options. *)
Inductive std_tag (letter : N -> Prop) (f : sfield) : bytes -> list bytes -> Prop :=
| sg_none : flookup f (str "json") = None -> std_tag letter f [] []
| sg_name v p ps : flookup f (str "json") = Some v -> v <> str "-" -> Forall no_comma (p :: ps) -> v = join x2c (p :: ps) -> valid_name letter p -> std_tag letter f p ps
| sg_bad v p ps : flookup f (str "json") = Some v -> v <> str "-" -> Forall no_comma (p :: ps) -> v = join x2c (p :: ps) -> ~ valid_name letter p -> std_tag letter f [] ps.
(* The struct that a field embeds, and the step to it. *)
Inductive embedded (E : env) (f : sfield) : tid -> list Z -> Prop :=
| eb_struct fs : fanon f = true -> kindOf E (ftype f) = Some (KStruct fs) -> embedded E f (ftype f) []
| eb_ptr e fs : fanon f = true -> kindOf E (ftype f) = Some (KPtr e) -> kindOf E e = Some (KStruct fs) -> embedded E f e [-1]%Z.
Record sfld := mkSF { s_name : bytes; s_path : list Z; s_type : tid; s_tagged : bool; s_omit : bool; s_quoted : bool }.
Definition under (p : list Z) (s : sfld) : sfld := mkSF (s_name s) (p ++ s_path s) (s_type s) (s_tagged s) (s_omit s) (s_quoted s).
(* The fields found in t and in the structs it embeds. *)
Inductive candidate (E : env) (letter : N -> Prop) : tid -> sfld -> Prop :=
| cd_named t fs i f name opts : kindOf E t = Some (KStruct fs) -> nth_error fs i = Some f -> std_tag letter f name opts -> fcanset f = true -> name <> [] ->
    candidate E letter t (mkSF name [Z.of_nat i] (ftype f) true (has (str "omitempty") opts) (has (str "string") opts))
| cd_plain t fs i f opts : kindOf E t = Some (KStruct fs) -> nth_error fs i = Some f -> std_tag letter f [] opts -> fcanset f = true -> (forall u p, ~ embedded E f u p) ->
    candidate E letter t (mkSF (fname f) [Z.of_nat i] (ftype f) false (has (str "omitempty") opts) (has (str "string") opts))
| cd_deep t fs i f opts u p s : kindOf E t = Some (KStruct fs) -> nth_error fs i = Some f -> std_tag letter f [] opts -> embedded E f u p -> candidate E letter u s ->
    candidate E letter t (under (Z.of_nat i :: p) s).
Definition nesting (s : sfld) : nat := length (filter (Z.leb 0) (s_path s)).
(* Of the fields of a name the one that is nested least, then the only one with a tag. *)
Definition dominant (E : env) (letter : N -> Prop) (t : tid) (s : sfld) : Prop :=
  candidate E letter t s /\
  forall d, candidate E letter t d -> s_name d = s_name s -> s_path d <> s_path s -> nesting s < nesting d \/ nesting s = nesting d /\ s_tagged s = true /\ s_tagged d = false.
Definition path_lt (p q : list Z) : Prop := exists a x y r s, p = a ++ x :: r /\ q = a ++ y :: s /\ (x < y)%Z.
Definition std_fields (E : env) (letter : N -> Prop) (t : tid) (l : list sfld) : Prop :=
  (forall s, In s l <-> dominant E letter t s) /\ ForallOrdPairs (fun s d => path_lt (s_path s) (s_path d)) l.

(* ---- values ---- *)

(* RFC 4648, section 4 *)
Definition sextet (n : Z) : byte :=
  List.nth (Z.to_nat n) (str "ABCDEFGHIJKLMNOPQRSTUVWXYZabcdefghijklmnopqrstuvwxyz0123456789+/") x3d.
Fixpoint base64 (l : list Z) : bytes :=
  match l with
  | a :: b :: c :: r => sextet (a / 4) :: sextet (a mod 4 * 16 + b / 16) :: sextet (b mod 16 * 4 + c / 64) :: sextet (c mod 64) :: base64 r
  | [a; b] => [sextet (a / 4); sextet (a mod 4 * 16 + b / 16); sextet (b mod 16 * 4); x3d]
  | [a] => [sextet (a / 4); sextet (a mod 4 * 16); x3d; x3d]
  | [] => []
  end%Z.
(* The number that strconv.AppendFloat(f, 'e' or 'f', -1, bits) writes. *)
Definition value_at (E : env) (f : float) (bits : Z) (q : Q) : Prop := exists e p, shape one_sign p /\ ftoa E f e bits = text p /\ (numval p == q)%Q.
(* Keys of maps. *)
Inductive std_key (E : env) (k : tid) : gv -> bytes -> Prop :=
| sk_string s rs : kindOf E k = Some KString -> runes s rs -> std_key E k (VString s) (utf8s rs)
| sk_int bits z p : kindOf E k = Some (KInt bits) -> integer_text p -> rfc_int (pint p) -> (pneg p = true -> z < 0)%Z -> intval p = z -> std_key E k (VInt z) (text p)
| sk_uint bits z p : kindOf E k = Some (KUint bits) -> integer_text p -> rfc_int (pint p) -> (pneg p = true -> z < 0)%Z -> intval p = z -> std_key E k (VUint z) (text p).
(* The types that the option string is for. *)
Definition scalar_kind (k : option kind) : Prop :=
  match k with Some (KBool | KInt _ | KUint _ | KFloat32 | KFloat64 | KString) => True | _ => False end.
Definition quotable (E : env) (t : tid) : Prop := scalar_kind (kindOf E t) \/ exists e, kindOf E t = Some (KPtr e) /\ scalar_kind (kindOf E e).
(* encoding/json finds no method. *)
Definition std_bare (E : env) (t : tid) : Prop :=
  exists T, typeOf E t = Some T /\ isJSON (tmeth T) = false /\ isText (tmeth T) = false /\ isJSON (tptr T) = false /\ isText (tptr T) = false.

(* [std E letter t v m]: json.Marshal writes m for the value v of type t.  The members of a map are in any order here. *)
Inductive std (E : env) (letter : N -> Prop) : tid -> gv -> sval -> Prop :=
| st_bool t b : std_bare E t -> kindOf E t = Some KBool -> std E letter t (VBool b) (SBool b)
| st_int t bits z : std_bare E t -> kindOf E t = Some (KInt bits) -> std E letter t (VInt z) (SNum (inject_Z z))
| st_uint t bits z : std_bare E t -> kindOf E t = Some (KUint bits) -> std E letter t (VUint z) (SNum (inject_Z z))
| st_float32 t f q : std_bare E t -> kindOf E t = Some KFloat32 -> value_at E f 32 q -> std E letter t (VFloat f) (SNum q)
| st_float64 t f q : std_bare E t -> kindOf E t = Some KFloat64 -> value_at E f 64 q -> std E letter t (VFloat f) (SNum q)
| st_string t s rs : std_bare E t -> kindOf E t = Some KString -> runes s rs -> std E letter t (VString s) (SStr (utf8s rs))
| st_iface_nil t b : std_bare E t -> kindOf E t = Some (KIface b) -> std E letter t (VIface None) SNull
| st_iface t b dt x m : std_bare E t -> kindOf E t = Some (KIface b) -> std E letter dt x m -> std E letter t (VIface (Some (dt, x))) m
| st_nil t e : std_bare E t -> kindOf E t = Some (KPtr e) -> std E letter t (VPtr None) SNull
| st_ptr t e x m : std_bare E t -> kindOf E t = Some (KPtr e) -> std E letter e x m -> std E letter t (VPtr (Some x)) m
| st_slice_nil t e : std_bare E t -> kindOf E t = Some (KSlice e) -> std E letter t (VSlice None) SNull
| st_bytes t e zs s : std_bare E t -> kindOf E t = Some (KSlice e) -> std_bare E e -> kindOf E e = Some (KUint 8) -> std E letter t (VSlice (Some (map VUint zs, s))) (SStr (base64 zs))
| st_slice t e l s ms : std_bare E t -> kindOf E t = Some (KSlice e) -> kindOf E e <> Some (KUint 8) \/ ~ std_bare E e -> std_each E letter e l ms -> std E letter t (VSlice (Some (l, s))) (SArr ms)
| st_array t n e l ms : std_bare E t -> kindOf E t = Some (KArray n e) -> std_each E letter e l ms -> std E letter t (VArray l) (SArr ms)
| st_map_nil t k e : std_bare E t -> kindOf E t = Some (KMap k e) -> std E letter t (VMap None) SNull
| st_map t k e m m' ms : std_bare E t -> kindOf E t = Some (KMap k e) -> Permutation m' m -> std_entries E letter k e m' ms -> std E letter t (VMap (Some m)) (SObj ms)
| st_struct t fs v l ms : std_bare E t -> kindOf E t = Some (KStruct fs) -> std_fields E letter t l -> std_members E letter v l ms -> std E letter t v (SObj ms)
with std_each (E : env) (letter : N -> Prop) : tid -> list gv -> list sval -> Prop :=
| se_nil e : std_each E letter e [] []
| se_cons e x l m ms : std E letter e x m -> std_each E letter e l ms -> std_each E letter e (x :: l) (m :: ms)
with std_entries (E : env) (letter : N -> Prop) : tid -> tid -> list (gv * gv) -> list (bytes * sval) -> Prop :=
| sn_nil k e : std_entries E letter k e [] []
| sn_cons k e key x l w m ms : std_bare E k -> std_key E k key w -> std E letter e x m -> std_entries E letter k e l ms -> std_entries E letter k e ((key, x) :: l) ((w, m) :: ms)
with std_members (E : env) (letter : N -> Prop) : gv -> list sfld -> list (bytes * sval) -> Prop :=
| sb_end v : std_members E letter v [] []
| sb_unreached v s l ms : (forall x, ~ reaches v (s_path s) x) -> std_members E letter v l ms -> std_members E letter v (s :: l) ms
| sb_omitted v s x l ms : reaches v (s_path s) x -> s_omit s = true -> go_empty x -> std_members E letter v l ms -> std_members E letter v (s :: l) ms
| sb_member v s x m l ms : reaches v (s_path s) x -> ~ (s_omit s = true /\ go_empty x) -> s_quoted s = false \/ ~ quotable E (s_type s) \/ x = VPtr None ->
    std E letter (s_type s) x m -> std_members E letter v l ms -> std_members E letter v (s :: l) ((s_name s, m) :: ms)
| sb_quoted v s x j w m l ms : reaches v (s_path s) x -> ~ (s_omit s = true /\ go_empty x) -> s_quoted s = true -> quotable E (s_type s) -> x <> VPtr None ->
    std E letter (s_type s) x m -> says j m -> rfc_value j w -> std_members E letter v l ms -> std_members E letter v (s :: l) ((s_name s, SStr w) :: ms).

(* ---- where Marshal writes the same ---- *)

(* No type has a method for marshaling or an Omit method, nor does the pointer to it. *)
Definition methodless (E : env) : Prop :=
  forall t T, typeOf E t = Some T -> no_marshaler (tmeth T) /\ no_marshaler (tptr T) /\ forall name, hasOmit (tmeth T) name = false /\ hasOmit (tptr T) name = false.
(* Fields: no embedded struct of unexported type; names without backslash; tags that hold their value, with a name that
   encoding/json takes or with none, then not on an embedded field; no tag "-," and no option string; omitempty not on
   arrays, structs and interfaces with methods. *)
Definition omittable (k : option kind) : Prop := match k with Some (KArray _ _ | KStruct _ | KIface true | KOther) => False | _ => True end.
Definition std_field (E : env) (letter : N -> Prop) (f : sfield) : Prop :=
  (fcanset f = false -> forall u p, ~ embedded E f u p) /\ fname f <> str "-" /\ ~ In x5c (fname f) /\
  forall v p ps, flookup f (str "json") = Some v -> Forall no_comma (p :: ps) -> v = join x2c (p :: ps) ->
    length v <= length (ftag f) /\ (p = [] \/ valid_name letter p) /\ ~ In x5c p /\ (p = str "-" -> ps = []) /\ (fanon f = true -> p <> []) /\
    ~ In (str "string") ps /\ (In (str "omitempty") ps -> omittable (kindOf E (ftype f))).
(* Of the fields of a name the first is nested least. *)
Definition first_wins (E : env) (letter : N -> Prop) (t : tid) : Prop :=
  forall s d, candidate E letter t s -> candidate E letter t d -> s_name s = s_name d -> path_lt (s_path s) (s_path d) ->
    (forall e, candidate E letter t e -> s_name e = s_name s -> ~ path_lt (s_path e) (s_path s)) -> nesting s < nesting d /\ length (s_path s) <= length (s_path d).
Definition std_structs (E : env) (letter : N -> Prop) : Prop :=
  forall t fs, kindOf E t = Some (KStruct fs) -> Forall (std_field E letter) fs /\ first_wins E letter t.
(* [part_of E t v u x]: v of type t is x of type u or has it inside. *)
Inductive part_of (E : env) : tid -> gv -> tid -> gv -> Prop :=
| po_here t v : part_of E t v t v
| po_iface t b dt x u y : kindOf E t = Some (KIface b) -> part_of E dt x u y -> part_of E t (VIface (Some (dt, x))) u y
| po_ptr t e x u y : kindOf E t = Some (KPtr e) -> part_of E e x u y -> part_of E t (VPtr (Some x)) u y
| po_slice t e l s x u y : kindOf E t = Some (KSlice e) -> In x l -> part_of E e x u y -> part_of E t (VSlice (Some (l, s))) u y
| po_array t n e l x u y : kindOf E t = Some (KArray n e) -> In x l -> part_of E e x u y -> part_of E t (VArray l) u y
| po_map t k e m key x u y : kindOf E t = Some (KMap k e) -> In (key, x) m -> part_of E e x u y -> part_of E t (VMap (Some m)) u y
| po_struct t fs l i f x u y : kindOf E t = Some (KStruct fs) -> nth_error fs i = Some f -> nth_error l i = Some x -> part_of E (ftype f) x u y -> part_of E t (VStruct l) u y.
(* No nil slice, no slice of bytes, and float64 values that are written the same with 32 bits. *)
Definition portable (E : env) (t : tid) (v : gv) : Prop :=
  forall u x, part_of E t v u x ->
    (forall e, kindOf E u = Some (KSlice e) -> x <> VSlice None /\ kindOf E e <> Some (KUint 8)) /\
    (forall f q, kindOf E u = Some KFloat64 -> x = VFloat f -> value_at E f 32 q -> value_at E f 64 q).
(* No nil pointer is given to Marshal or stands in an interface. *)
Definition no_nil_tops (v : gv) : Prop := v <> VPtr None /\ forall dt, ~ inside v (VIface (Some (dt, VPtr None))).
(* ---- C77 ---- *)
Definition std_world (E : env) : Prop :=
  wf_types E /\ embeds_structs E /\ walks_maps E /\ ftoa_spec (ftoa E) /\ tags_json E defaultOptions /\ methods_write_json E /\ methodless E.
Definition std_value (E : env) (t : tid) (v : gv) : Prop := typed E t v /\ no_nil_tops v /\ floats_json v.
(* Marshal writes something else than json.Marshal, or it returns an error. *)
Definition writes_other (E : env) (letter : N -> Prop) (t : tid) (v : gv) : Prop :=
  exists out j m, AppendJSON E [] (Some (t, v)) = Ok (out, None) /\ rfc_value j out /\ std E letter t v m /\ ~ says j m.
Definition only_fails (E : env) (letter : N -> Prop) (t : tid) (v : gv) : Prop :=
  exists out e m, AppendJSON E [] (Some (t, v)) = Ok (out, Some e) /\ std E letter t v m.
(* a struct, one of its values, and that it is written otherwise *)
Definition field_case (E : env) (letter : N -> Prop) (fs : list sfield) (v : gv) : Prop :=
  exists t, kindOf E t = Some (KStruct fs) /\ std_value E t v /\ portable E t v /\ writes_other E letter t v.

(* ---- json.Marshal writes one value ---- *)
Inductive alike : sval -> sval -> Prop :=
| al_null : alike SNull SNull
| al_bool b : alike (SBool b) (SBool b)
| al_num q r : (q == r)%Q -> alike (SNum q) (SNum r)
| al_str s : alike (SStr s) (SStr s)
| al_arr l l' : Forall2 alike l l' -> alike (SArr l) (SArr l')
| al_obj l l' : Forall2 (fun a b => fst a = fst b /\ alike (snd a) (snd b)) l l' -> alike (SObj l) (SObj l').
(* strconv.AppendFloat writes the same number in the formats 'e' and 'f' for the floats in v. *)
Definition formats_agree (E : env) (v : gv) : Prop := forall f bits q r, inside v (VFloat f) -> value_at E f bits q -> value_at E f bits r -> (q == r)%Q.
