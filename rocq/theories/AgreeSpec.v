(* Specification vocabulary for C72: the generated AppendJSON and Marshal. *)
From Coq Require Import Permutation.
From Verif Require Import FloatSpec FmtSpec Bytes Types JsonSpec Parser Doc DocSpec Strjson Float Num Iface IfaceSpec Options Codec CodecSpec DecodeSpec RoundSpec TreeSpec GoLitSpec Gen GenSpec.
Local Open Scope nat_scope.

(* The same JSON value: members of objects in any order. *)
Inductive same : jval -> jval -> Prop :=
| sm_null : same JNull JNull
| sm_true : same JTrue JTrue
| sm_false : same JFalse JFalse
| sm_num s : same (JNum s) (JNum s)
| sm_str s : same (JStr s) (JStr s)
| sm_arr l l' : Forall2 same l l' -> same (JArr l) (JArr l')
| sm_obj ms ns ns' : Forall2 (fun a b => fst a = fst b /\ same (snd a) (snd b)) ms ns -> Permutation ns ns' -> same (JObj ms) (JObj ns').

(* The types written have no methods for marshaling and no Omit method. *)
Definition no_methods (E : env) (G : gopts) (M : genv) (t : tid) : Prop :=
  forall u raw T, star (needs E G M) (t, false) (u, raw) -> typeOf E u = Some T -> no_marshaler (tmeth T) /\ forall name, hasOmit (tmeth T) name = false /\ hasOmit (tptr T) name = false.
(* The codec of a field and what the generator makes of it: the same name, place, type and omitempty; no html, no raw, and
   omitempty is not on a struct. *)
Definition alike (E : env) (c : codec) (g : bytes * list bytes * mfield) : Prop :=
  ckey c = fst (fst g) /\ cindex c = mpath (snd g) /\ ctype c = mtype (snd g) /\ (omitempty c <-> In omitEmpty (snd (fst g))) /\
  ~ hinted (chints c) hintHTML /\ ~ hinted (chints c) hintRaw /\ (omitempty c -> forall fs, kindOf E (ctype c) <> Some (KStruct fs)).
Definition alike_all (E : env) (cs : list codec) (gs : list (bytes * list bytes * mfield)) : Prop := exists gs', Forall2 (alike E) cs gs' /\ Permutation gs' gs.
(* Both find the same fields in the structs below t. *)
Definition same_fields (E : env) (G : gopts) (M : genv) (t : tid) : Prop :=
  forall u raw fs cs gs, star (needs E G M) (t, false) (u, raw) -> kindOf E u = Some (KStruct fs) -> struct_fields E defaultOptions u cs -> in_order G (fieldsOf M u) gs -> alike_all E cs gs.
(* Values on which they agree: maps are empty and not nil, floats have one text, and fields without omitempty are not nil
   pointers. *)
Definition one_text (E : env) (v : gv) : Prop := forall f s s', inside v (VFloat f) -> FormatFloat (ftoa E) f 64 = Ok s -> FormatFloat (ftoa E) f 32 = Ok s' -> s = s'.
Definition no_maps (v : gv) : Prop := forall m, inside v (VMap m) -> m = Some [].
Definition nils_omitted (E : env) (G : gopts) (M : genv) (v : gv) : Prop :=
  forall u l name params f, inside v (VStruct l) -> typed E u (VStruct l) -> leads G (fieldsOf M u) name params f -> reaches (VStruct l) (mpath f) (VPtr None) -> In omitEmpty params.
Definition agreeable (E : env) (G : gopts) (M : genv) (v : gv) : Prop := one_text E v /\ no_maps v /\ nils_omitted E G M v.

(* ---- structs without embedded fields ---- *)

(* What meta.NewFields gives for them: the fields themselves. *)
Inductive lists : nat -> list sfield -> list mfield -> Prop :=
| ls_nil i : lists i [] []
| ls_cons i f fs m ms : mname m = fname f -> mexported m = fcanset f -> mpath m = [Z.of_nat i] -> mtype m = ftype f -> mlookup m (str "json") = flookup f (str "json") ->
    lists (S i) fs ms -> lists i (f :: fs) (m :: ms).
(* Names are identifiers, not embedded; _ is not exported; the tag holds its value; there is no hint html or 8bit, and omitempty not on a struct. *)
Definition tidy (E : env) (f : sfield) : Prop :=
  fanon f = false /\ fname f <> [] /\ fname f <> str "-" /\ (fname f = str "_" -> fcanset f = false) /\ (forall v, flookup f (str "json") = Some v -> length v <= length (ftag f)) /\
  forall p ps, Forall (fun q => ~ In x2c q) (p :: ps) -> flookup f (str "json") = Some (join x2c (p :: ps)) ->
    ~ In (str "html") ps /\ ~ In (str "8bit") ps /\ (In (str "omitempty") ps -> forall gs, kindOf E (ftype f) <> Some (KStruct gs)).
(* The options of the generator that are like those of Marshal. *)
Definition usual (G : gopts) (fs : list sfield) : Prop :=
  gTag G = str "json" /\ gOnlyTagged G = false /\ gForceOmit G = false /\ (forall n, gMatch G n = true) /\ (forall n, gName G n = n) /\ (gOnlyExported G = true \/ Forall (fun f => fcanset f = true) fs).
(* No name twice. *)
Definition distinct (G : gopts) (l : list mfield) : Prop :=
  forall i j f g name ps qs, nth_error l i = Some f -> nth_error l j = Some g -> field_part G f name ps -> field_part G g name qs -> i = j.
