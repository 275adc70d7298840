(* Specification vocabulary for C74: the generated UnmarshalNodeJSON and Unmarshal. *)
From Verif Require Import Bytes Types JsonSpec Parser Doc DocSpec Strjson Float Num Iface IfaceSpec Options Codec CodecSpec DecodeSpec Gen GenSpec.
Local Open Scope nat_scope.

(* The generated code reads the types below t by their kinds, and both find the same fields in the structs: the field for a
   name is at the same place and of the same type, and is not a string tagged raw. *)
Definition same_reads (E : env) (G : gopts) (M : genv) (t : tid) : Prop :=
  forall u, star (needs_u E G M) t u -> exists T, typeOf E u = Some T /\ by_kind_u M u T /\
    forall fs cs, tkind T = KStruct fs -> structFields E decodeOptions u = Ok cs ->
      (forall name params f, heads E G (fieldsOf M u) name params f -> ~ raw_string E params (mtype f) /\ exists c, field_for cs name c /\ cindex c = mpath f /\ ctype c = mtype f) /\
      (forall c, In c cs -> exists params f, heads E G (fieldsOf M u) (ckey c) params f).
(* No array is empty and no key is twice in an object. *)
Inductive orderly : jval -> Prop :=
| or_null : orderly JNull
| or_true : orderly JTrue
| or_false : orderly JFalse
| or_num s : orderly (JNum s)
| or_str s : orderly (JStr s)
| or_arr js : js <> [] -> Forall orderly js -> orderly (JArr js)
| or_obj ms : NoDup (map fst ms) -> Forall (fun m => orderly (snd m)) ms -> orderly (JObj ms).
(* There is no null, and no number that numjson leaves to strconv. *)
Definition native (E : env) (s : bytes) : Prop :=
  (snd (ParseInt s) = false -> scParseInt s = None) /\ (snd (ParseUint s) = false -> scParseUint s = None) /\ (ParseFloat s = FNaN -> scParseFloat E s = None).
Inductive definite (E : env) : jval -> Prop :=
| df_true : definite E JTrue
| df_false : definite E JFalse
| df_num s : native E s -> definite E (JNum s)
| df_str s : definite E (JStr s)
| df_arr js : Forall (definite E) js -> definite E (JArr js)
| df_obj ms : Forall (fun m => definite E (snd m)) ms -> definite E (JObj ms).
(* The fields that take part have types with code for reading, and none is a string tagged raw. *)
Definition handled (E : env) (G : gopts) (l : list mfield) : Prop :=
  forall m name params, In m l -> field_part G m name params -> can E (mtype m) /\ ~ (In (str "raw") params /\ kindOf E (mtype m) = Some KString).
