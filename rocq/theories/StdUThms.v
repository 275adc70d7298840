(* Unmarshal stores what json.Unmarshal stores (C78). *)
From Coq Require Import Permutation.
From Verif Require Import FloatSpec FloatOps NumSpec FmtSpec FmtThms StrSpec StrThms Utf8Proofs Bytes Types JsonSpec Parser ParserThms Doc DocSpec OpThms Strjson Float Num NumInt NumProofs Iface IfaceSpec Options Codec CodecSpec CodecMerge CodecBase CodecEnc DecodeSpec DecodeThms RoundSpec RoundThms
  GenRound TreeSpec TreeThms AgreeThms AgreeUThms StdSpec StdFields StdOne StdUSpec.
Local Open Scope nat_scope.

Scheme loads_mind := Minimality for loads Sort Prop
  with loads_each_mind := Minimality for loads_each Sort Prop
  with loads_keys_mind := Minimality for loads_keys Sort Prop
  with loads_fields_mind := Minimality for loads_fields Sort Prop.
Combined Scheme loads_mutind from loads_mind, loads_each_mind, loads_keys_mind, loads_fields_mind.

(* ---- strings, keys and numbers ---- *)
Lemma well_unescaped w s : well_string w -> string_of w s -> Unescaped w = Ok s.
Proof. intros (Tm & U) (o & rs & M & R & ->). destruct (U o M) as (rs' & Sc & ->). rewrite (runes_det _ _ _ R (runes_valid _ Sc)). apply C31_lem; assumption. Qed.
Lemma well_key_same E letter fold k s : well_key E letter fold k -> string_of k s -> s = k.
Proof. intros (Nb & (rs' & Sc & Ek) & _) (o & rs & M & R & ->). rewrite (meaning_det _ _ _ M (plain_means k Nb)) in R. rewrite Ek in R. rewrite (runes_det _ _ _ R (runes_valid _ Sc)). auto. Qed.
Lemma well_parts p q : well_number p -> shape one_sign q -> text p = text q -> q = p.
Proof. intros W S T. symmetry. apply text_one; [exact (proj1 W)|exact S|exact T]. Qed.
Lemma well_float p : well_number p -> ParseFloat (text p) <> FNaN.
Proof. intros (_ & R & _). eapply rounded_nan. exact R. Qed.
Lemma well_float_of E p g f : well_number p -> rounded b64 (pneg p) (numval p) f -> float_of E (text p) g -> g = f.
Proof.
  intros W R H. assert (g = ParseFloat (text p)) as ->. { destruct H as [(H & _)|(H & _)]; [auto|]. destruct (well_float p W H). }
  eapply (rounded_unique b64); [vm_compute; split; discriminate|exact (proj1 (proj2 W))|exact R].
Qed.
Lemma well_int p n : well_number p -> integer_text p -> (- 2 ^ 63 <= intval p < 2 ^ 63)%Z -> int_of (text p) n <-> n = intval p.
Proof.
  intros W I B. assert (P : ParseInt (text p) = (intval p, true)) by (apply C36_int_iff; [exact I|split; [apply W; exact I|exact B]]).
  unfold int_of. rewrite P. cbn. split; [intros [H|[H _]]; [congruence|discriminate]|intros ->; auto].
Qed.
Lemma well_uint p n : well_number p -> integer_text p -> (0 <= intval p < 2 ^ 64)%Z -> uint_of (text p) n <-> n = intval p.
Proof.
  intros W I B. assert (P : ParseUint (text p) = (intval p, true)) by (apply C36_uint_iff; [exact I|split; [apply W; exact I|exact B]]).
  unfold uint_of. rewrite P. cbn. split; [intros [H|[H _]]; [congruence|discriminate]|intros ->; auto].
Qed.
Lemma wl_num_inv E letter fold s : well E letter fold (JNum s) -> exists p, s = text p /\ well_number p.
Proof. intro H. inversion H; subst. eauto. Qed.

(* ---- interfaces ---- *)
Section GenericInd.
  Variable P : jval -> option (tid * gv) -> Prop.
  Hypotheses (H1 : P JNull None) (H2 : P JTrue (Some (tBool, VBool true))) (H3 : P JFalse (Some (tBool, VBool false)))
    (H4 : forall p f, shape one_sign p -> rounded b64 (pneg p) (numval p) f -> finite f -> P (JNum (text p)) (Some (tFloat64, VFloat f)))
    (H5 : forall w s, string_of w s -> P (JStr w) (Some (tString, VString s)))
    (H6 : forall js l, Forall2 P js l -> P (JArr js) (Some (tSliceI, VSlice (Some (map VIface l, [])))))
    (H7 : forall ms l m, Forall2 (fun a b => string_of (fst a) (fst b) /\ P (snd a) (snd b)) ms l -> NoDup (map fst m) -> (forall k x, In (k, x) m <-> last_of k x l) ->
      P (JObj ms) (Some (tMapSI, VMap (Some (map (fun p => (VString (fst p), VIface (snd p))) m))))).
  Fixpoint generic_all j g (G : generic j g) {struct G} : P j g :=
    match G with
    | gn_null => H1 | gn_true => H2 | gn_false => H3
    | gn_num p f Sp R F => H4 p f Sp R F
    | gn_str w s M => H5 w s M
    | gn_arr js l F => H6 js l ((fix go a b (F : Forall2 generic a b) : Forall2 P a b := match F with Forall2_nil _ => Forall2_nil _ | Forall2_cons x y h t => Forall2_cons x y (generic_all x y h) (go _ _ t) end) js l F)
    | gn_obj ms l m F N L => H7 ms l m ((fix go a b (F : Forall2 (fun a b => string_of (fst a) (fst b) /\ generic (snd a) (snd b)) a b) : Forall2 (fun a b => string_of (fst a) (fst b) /\ P (snd a) (snd b)) a b :=
        match F with Forall2_nil _ => Forall2_nil _ | Forall2_cons x y h t => Forall2_cons x y (match h with conj h1 h2 => conj h1 (generic_all _ _ h2) end) (go _ _ t) end) ms l F) N L
    end.
End GenericInd.
Lemma perm_Forall2 {A B} (R : A -> B -> Prop) a a' : Permutation a a' -> forall b', Forall2 R a' b' -> exists b, Forall2 R a b /\ Permutation b b'.
Proof.
  induction 1 as [|x a a' P IH|x y a|a a1 a' P IH P' IH']; intros b' F.
  - inversion F; subst. exists []. split; constructor.
  - inversion F as [|? z ? r Rx F']; subst. destruct (IH _ F') as (b & Fb & Pb). exists (z :: b). split; constructor; assumption.
  - inversion F as [|? z ? r Rx F']; subst. inversion F' as [|? z' ? r' Rx' F2]; subst. exists (z' :: z :: r'). split; [repeat constructor; assumption|apply perm_swap].
  - destruct (IH' _ F) as (b1 & F1 & P1). destruct (IH _ F1) as (b & Fb & Pb). exists b. split; [exact Fb|]. eapply Permutation_trans; eassumption.
Qed.
Lemma NoDup_pairs {A} (l : list (bytes * A)) : NoDup (map fst l) -> NoDup l.
Proof. apply NoDup_map_inv. Qed.
Lemma rev_keys {A} (l : list (bytes * A)) : NoDup (map fst l) -> NoDup (map fst (rev l)).
Proof. intro N. rewrite map_rev. apply NoDup_rev. exact N. Qed.
Lemma perm_assoc {A} (m vs : list (bytes * A)) : NoDup (map fst m) -> NoDup (map fst vs) -> (forall k, assoc k m = assoc k (rev vs)) -> Permutation m vs.
Proof.
  intros Nm Nv H. apply NoDup_Permutation; [apply NoDup_pairs; exact Nm|apply NoDup_pairs; exact Nv|]. intros (k, x). split; intro I.
  - apply in_rev, assoc_In. rewrite <- H. apply assoc_once; assumption.
  - apply assoc_In. rewrite H. apply assoc_once; [apply rev_keys; exact Nv|apply in_rev; rewrite rev_involutive; exact I].
Qed.
Lemma perm_last {A} (m l : list (bytes * A)) : NoDup (map fst m) -> NoDup (map fst l) -> (forall k x, In (k, x) m <-> last_of k x l) -> Permutation l m.
Proof.
  intros Nm Nl H. apply NoDup_Permutation; [apply NoDup_pairs; exact Nl|apply NoDup_pairs; exact Nm|]. intros (k, x). rewrite H. split.
  - intro I. apply in_split in I as (a & b & ->). exists a, b. split; [reflexivity|]. rewrite map_app in Nl. cbn in Nl. apply NoDup_remove_2 in Nl. intro X. apply Nl. apply in_or_app. right. exact X.
  - intros (a & b & -> & _). apply in_elt.
Qed.
Lemma generic_parse E letter fold j g : generic j g -> well E letter fold j -> numbers_parse j.
Proof.
  intro G. induction G as [| | |p f S R F|w s M|js l F|ms l m F N L] using generic_all; intro W; try constructor.
  - inversion W as [| | |p' W' X| | |]; subst. apply well_float. exact W'.
  - inversion W as [| | | | |? Fw|]; subst. clear W. induction F; inversion Fw; subst; constructor; auto.
  - inversion W as [| | | | | |? _ Fw]; subst. clear W N L. induction F as [|? ? ? ? (_ & H)]; inversion Fw as [|? ? (_ & W)]; subst; constructor; auto.
Qed.
Lemma generic_go E letter fold j g : generic j g -> well E letter fold j -> forall h, go_of j h -> equals (VIface (ofGo h)) (VIface g).
Proof.
  intro G. induction G as [| | |p f S R F|w s M|js l F|ms l m F N L] using generic_all; intros W h H; inversion H; subst; try constructor.
  - cbn [ofGo]. inversion W as [| | |p' W' X| | |]; subst. assert (f = ParseFloat (text p')) as ->; [|constructor]. rewrite (well_parts _ _ W' S X) in *. eapply (rounded_unique b64); [vm_compute; split; discriminate|exact R|apply W'].
  - cbn [ofGo]. inversion W; subst. rewrite (well_unescaped w s) in * by assumption. replace o with s by congruence. constructor.
  - cbn [ofGo]. constructor. inversion W as [| | | | |? Fw|]; subst. match goal with A : Forall2 go_of _ _ |- _ => rename A into Fg end. clear - F Fw Fg. revert vs Fg. induction F; intros vs Fg; inversion Fg; subst; inversion Fw; subst; cbn [map]; constructor; auto.
  - cbn [ofGo]. inversion W as [| | | | | |? Nk Fw]; subst. match goal with A : Forall2 _ ms vs |- _ => rename A into Fg end. match goal with A : forall k, assoc k _ = _ |- _ => rename A into As end. match goal with A : NoDup (map fst ?x), B : forall k, assoc k ?x = _ |- _ => rename A into Nm; rename x into mm end.
    assert (K1 : map fst vs = map fst ms) by (clear - Fg; induction Fg as [|? ? ? ? (X & _)]; cbn; congruence).
    assert (K2 : map fst l = map fst ms). { clear - F Fw. induction F as [|? ? ? ? (X & _)]; cbn; [reflexivity|]. inversion Fw as [|? ? (Wk & _)]; subst. f_equal; [eapply well_key_same; eassumption|auto]. }
    assert (F2 : Forall2 (fun a b => fst a = fst b /\ equals (VIface (ofGo (snd a))) (VIface (snd b))) vs l).
    { clear - F Fw Fg K1 K2. revert vs Fg K1. induction F as [|x y ms l (X & Y) F IH]; intros vs Fg K1; inversion Fg as [|? z ? r (X' & Y') Fg']; subst; constructor.
      - inversion Fw as [|? ? (Wk & Wj)]; subst. split; [|apply Y; assumption]. cbn in K1, K2. congruence.
      - inversion Fw; subst. cbn in K1, K2. apply IH; auto; congruence. }
    assert (P1 := perm_assoc _ _ Nm (eq_ind_r (fun k => NoDup k) Nk K1) As). assert (P2 := perm_last _ _ N (eq_ind_r (fun k => NoDup k) Nk K2) L).
    destruct (perm_Forall2 _ _ _ P1 _ F2) as (m1 & F1 & Pm). apply (eq_map _ (map (fun p => (VString (fst p), VIface (snd p))) m1)).
    + clear - F1. induction F1 as [|? ? ? ? (X & Y)]; cbn [map]; constructor; auto. cbn [fst snd]. split; [congruence|exact Y].
    + apply Permutation_map. eapply Permutation_trans; eassumption.
Qed.

(* ---- the fields ---- *)
Lemma app_len_inj {A} (a b c d : list A) : a ++ b = c ++ d -> length a = length c -> a = c /\ b = d.
Proof. revert c. induction a as [|x a IH]; intros [|y c] Q L; try discriminate; [auto|]. cbn in Q, L. injection Q as -> Q. destruct (IH c Q) as (-> & ->); auto. Qed.
(* what is finite with 32 bits is finite with 64 *)
Lemma narrow_finite s q x g : rounded b64 s q x -> rounded b32 s q g -> finite g -> finite x /\ exists m e, x = FFin s m e /\ (0 <= m)%Z.
Proof.
  intros R G F. assert (N : ~ overflow b64 q).
  { intro O. destruct G as (_ & [(N & _)|(_ & ->)]); [|exact F]. apply N. unfold overflow in *. eapply Qle_trans; [|exact O]. apply Qle_bool_iff. vm_compute. reflexivity. }
  destruct (rounded_finite _ _ _ _ R N) as (_ & m & e & -> & L). split; [exact I|]. eauto.
Qed.
Lemma Forall2_len {A B} (R : A -> B -> Prop) l l' : Forall2 R l l' -> length l = length l'.
Proof. induction 1; cbn; congruence. Qed.
Lemma ordered_in {A} (R : A -> A -> Prop) l : ForallOrdPairs R l -> forall x y, In x l -> In y l -> x = y \/ R x y \/ R y x.
Proof.
  induction 1 as [|a l F O IH]; intros x y Ix Iy; [destruct Ix|]. rewrite Forall_forall in F. destruct Ix as [<-|Ix], Iy as [<-|Iy]; auto.
Qed.
Lemma std_names E letter t l : std_fields E letter t l -> forall s d, In s l -> In d l -> s_name s = s_name d -> s = d.
Proof.
  intros (H & O) s d Is Id En. destruct (ordered_in _ _ O s d Is Id) as [X|X]; [exact X|exfalso]. assert (Np : s_path s <> s_path d) by (intro Q; rewrite Q in X; destruct X as [X|X]; exact (path_lt_irrefl _ X)).
  apply H in Is, Id. destruct Is as (Cs & Ds), Id as (Cd & Dd). destruct (Ds d Cd (eq_sym En) (not_eq_sym Np)) as [A|(A & B & C)], (Dd s Cs En Np) as [A'|(A' & B' & C')]; try lia. congruence.
Qed.
Section Same.
  Variables (E : env) (letter : N -> Prop) (fold : bytes -> bytes -> Prop).
  Hypothesis UW : unstd_world E letter.
  Lemma uw_fields t fs cs l : kindOf E t = Some (KStruct fs) -> structFields E D t = Ok cs -> std_fields E letter t l -> Forall2 (stands E []) cs l.
  Proof.
    destruct UW as (WF & ES & SS & _). intros K Sf Sl. destruct (fields_std E letter (fun u gs Ku => proj1 (SS u gs Ku)) ES t cs (proj2 (SS t fs K)) (C46_exact_lem _ _ _ _ Sf)) as (ss & F & Sd).
    rewrite (std_fields_one _ _ _ _ _ Sl Sd). exact F.
  Qed.
  Lemma names_same cs l : Forall2 (stands E []) cs l -> map ckey cs = map s_name l.
  Proof. induction 1 as [|c s cs l (X & _) _ IH]; cbn; [reflexivity|]. rewrite X, IH. reflexivity. Qed.
  Lemma stands_in cs l : Forall2 (stands E []) cs l -> forall c, In c cs -> exists s, In s l /\ stands E [] c s.
  Proof. induction 1 as [|c s cs l X _ IH]; intros d I; [destruct I|]. destruct I as [<-|I]; [exists s; split; [left; reflexivity|exact X]|]. destruct (IH d I) as (s' & I' & X'). exists s'. split; [right; exact I'|exact X']. Qed.
  (* the field of encoding/json for a well key *)
  Lemma chosen_for t l k s : std_fields E letter t l -> well_key E letter fold k -> chosen fold l k s -> In s l /\ s_name s = k.
  Proof.
    intros (H & _) (_ & _ & W) [X|(N & a & b & -> & Fo & _)]; [exact X|]. exfalso. apply N. assert (I : In s (a ++ s :: b)) by apply in_elt. rewrite <- (W t s (proj1 (proj1 (H s) I)) Fo). apply in_map. exact I.
  Qed.
  Lemma chosen_codec t cs l k s c : std_fields E letter t l -> Forall2 (stands E []) cs l -> well_key E letter fold k -> chosen fold l k s -> field_for cs k c -> stands E [] c s.
  Proof.
    intros Sl F W C Fc. destruct (chosen_for _ _ _ _ Sl W C) as (Is & En). destruct Fc as (a & b & Ec & Ek & _). destruct (stands_in _ _ F c) as (s' & Is' & St); [rewrite Ec; apply in_elt|].
    assert (s' = s); [|subst; exact St]. eapply std_names; eauto. destruct St as (X & _). congruence.
  Qed.
  Lemma codec_chosen t cs l k c : std_fields E letter t l -> Forall2 (stands E []) cs l -> field_for cs k c -> exists s, chosen fold l k s.
  Proof. intros Sl F (a & b & -> & Ek & _). destruct (stands_in _ _ F c (in_elt _ _ _)) as (s & Is & X & _). exists s. left. split; [exact Is|congruence]. Qed.
  Lemma chosen_has t cs l k s : std_fields E letter t l -> Forall2 (stands E []) cs l -> well_key E letter fold k -> chosen fold l k s -> In k (map ckey cs).
  Proof. intros Sl F W C. destruct (chosen_for _ _ _ _ Sl W C) as (Is & En). rewrite (names_same _ _ F), <- En. apply in_map. exact Is. Qed.

  Lemma bits_int t bits z : kindOf E t = Some (KInt bits) -> (- 2 ^ (bits - 1) <= z < 2 ^ (bits - 1))%Z -> (- 2 ^ 63 <= z < 2 ^ 63)%Z.
  Proof.
    destruct UW as ((_ & B & _) & _). intros K H. assert (In bits [8; 16; 32; 64]%Z) by (apply (B t); auto). assert (2 ^ (bits - 1) <= 2 ^ 63)%Z; [|lia]. apply Z.pow_le_mono_r; [lia|]. cbn [In] in *. lia.
  Qed.
  Lemma bits_uint t bits z : kindOf E t = Some (KUint bits) -> (z < 2 ^ bits)%Z -> (z < 2 ^ 64)%Z.
  Proof.
    destruct UW as ((_ & B & _) & _). intros K H. assert (In bits [8; 16; 32; 64]%Z) by (apply (B t); auto). assert (2 ^ bits <= 2 ^ 64)%Z; [|lia]. apply Z.pow_le_mono_r; [lia|]. cbn [In] in *. lia.
  Qed.
  Lemma nonneg_intval p : integer_text p -> pneg p = false -> (0 <= intval p)%Z.
  Proof. intros ((Dg & _) & _) Np. unfold intval. rewrite Np. exact (proj1 (dval_bound _ Dg)). Qed.
  Lemma well_num_of p : well E letter fold (JNum (text p)) -> shape one_sign p -> well_number p.
  Proof. intros W I. apply wl_num_inv in W as (p' & X & W). rewrite (well_parts _ p W I (eq_sym X)). exact W. Qed.
  Ltac wellnum := match goal with W : well _ _ _ (JNum (text ?p)) |- _ => apply well_num_of in W; [|first [assumption|match goal with I : integer_text p |- _ => exact (proj1 I) end]] end.

  (* what json.Unmarshal takes, Unmarshal takes *)
  Let M (t : tid) (v : gv) (j : jval) (v' : gv) : Prop := well E letter fold j -> ~ mismatch E D t j.
  Lemma loads_takes : (forall t v j v', loads E letter fold t v j v' -> M t v j v') /\ (forall e l js l', loads_each E letter fold e l js l' -> Forall (well E letter fold) js -> forall j, In j js -> ~ mismatch E D e j) /\
    (forall e ms m m', loads_keys E letter fold e ms m m' -> Forall (fun m => well E letter fold (snd m)) ms -> forall k j, In (k, j) ms -> ~ mismatch E D e j) /\
    (forall l ms v v', loads_fields E letter fold l ms v v' -> forall t cs, std_fields E letter t l -> Forall2 (stands E []) cs l -> Forall (fun m => well_key E letter fold (fst m) /\ well E letter fold (snd m)) ms ->
      forall k j c, In (k, j) ms -> field_for cs k c -> ~ mismatch E D (ctype c) j).
  Proof.
    apply loads_mutind; unfold M.
    - intros t v K W Mm. inversion Mm; subst; one_kinds; try congruence; [match goal with A : ~ takes _ _, B : kindOf E t = _ |- _ => rewrite B in K; apply A end; destruct k; cbn in *; auto; contradiction|..]; match goal with B : kindOf E t = _ |- _ => rewrite B in K; destruct K end.
    - intros t b K W Mm. inversion Mm; subst; one_kinds. match goal with A : ~ takes _ _ |- _ => apply A; exact I end.
    - intros t b K W Mm. inversion Mm; subst; one_kinds. match goal with A : ~ takes _ _ |- _ => apply A; exact I end.
    - intros t bits z p K I R W Mm. wellnum. inversion Mm; subst; one_kinds; [match goal with A : ~ takes _ _ |- _ => apply A; exact Logic.I end|]. match goal with A : forall z, ~ int_of _ z |- _ => apply (A (intval p)) end. apply well_int; auto. eapply bits_int; eassumption.
    - intros t bits z p K I Np R W Mm. wellnum. inversion Mm; subst; one_kinds; [match goal with A : ~ takes _ _ |- _ => apply A; exact Logic.I end|]. match goal with A : forall z, ~ uint_of _ z |- _ => apply (A (intval p)) end. apply well_uint; auto. split; [apply nonneg_intval; auto|eapply bits_uint; eassumption].
    - intros t f p g K Sp R Fg W Mm. wellnum. inversion Mm; subst; one_kinds; [match goal with A : ~ takes _ _ |- _ => apply A; exact Logic.I end|]. match goal with A : forall f, ~ float_of _ _ f |- _ => apply (A (ParseFloat (text p))) end. left. split; [reflexivity|apply well_float; assumption].
    - intros t f p g K Sp R Fg W Mm. wellnum. inversion Mm; subst; one_kinds; [match goal with A : ~ takes _ _ |- _ => apply A; exact Logic.I end|]. match goal with A : forall f, ~ float_of _ _ f |- _ => apply (A (ParseFloat (text p))) end. left. split; [reflexivity|apply well_float; assumption].
    - intros t s0 w s K S W Mm. inversion Mm; subst; one_kinds. match goal with A : ~ takes _ _ |- _ => apply A; exact I end.
    - intros t x j g K Nx G W Mm. inversion Mm; subst; one_kinds; [match goal with A : ~ takes _ _ |- _ => apply A; exact I end|]. match goal with A : ~ numbers_parse _ |- _ => apply A end. eapply generic_parse; eassumption.
    - intros t e x K W Mm. inversion Mm; subst; one_kinds; [match goal with A : ~ takes _ _ |- _ => apply A; exact I end|contradiction].
    - intros t e x j y K Nj _ IH W Mm. inversion Mm; subst; one_kinds; [match goal with A : ~ takes _ _ |- _ => apply A; exact I end|apply IH; assumption].
    - intros t e z j y K Nj Bz _ IH W Mm. inversion Mm; subst; one_kinds; [match goal with A : ~ takes _ _ |- _ => apply A; exact I end|apply IH; assumption].
    - intros t e x K W Mm. inversion Mm; subst; one_kinds; match goal with A : ~ takes _ _ |- _ => apply A; exact I end.
    - intros t e x js l l' K _ Bl _ IH W Mm. inversion W; subst. inversion Mm; subst; one_kinds; [match goal with A : ~ takes _ _ |- _ => apply A; exact I end|]. eapply IH; eassumption.
    - intros t e x w zs K Ke S _ W Mm. exact (proj2 (proj2 (proj2 UW)) _ _ K Ke).
    - intros t n e l1 l2 js l1' l2' K _ IH L Bl W Mm. inversion W; subst. inversion Mm; subst; one_kinds; [match goal with A : ~ takes _ _ |- _ => apply A; exact I end|]. eapply IH; [assumption|eapply nth_error_In; eassumption|assumption].
    - intros t n e l js more l' K L Le IH W Mm. inversion W as [| | | | |? Fw|]; subst. apply Forall_app in Fw as (Fw & _). inversion Mm; subst; one_kinds; [match goal with A : ~ takes _ _ |- _ => apply A; exact I end|].
      assert (length l = length js) by (clear - Le; induction Le; cbn; congruence). match goal with A : nth_error (js ++ more) _ = _ |- _ => rewrite nth_error_app1 in A by lia; eapply IH; [assumption|eapply nth_error_In; exact A|assumption] end.
    - intros t k e x K W Mm. inversion Mm; subst; one_kinds; match goal with A : ~ takes _ _ |- _ => apply A; exact I end.
    - intros t k e x ms m' K Kk _ IH W Mm. inversion W as [| | | | | |? _ Fw]; subst. inversion Mm; subst; one_kinds; [match goal with A : ~ takes _ _ |- _ => apply A; exact I end|]. eapply IH; [eapply Forall_impl; [|exact Fw]; intros ? (_ & X); exact X|eassumption|eassumption].
    - intros t fs l v ms v' K Sl _ IH W Mm. inversion W as [| | | | | |? _ Fw]; subst. inversion Mm; subst; one_kinds; [match goal with A : ~ takes _ _ |- _ => apply A; exact I end|]. eapply IH; [exact Sl|eapply uw_fields; eassumption|exact Fw|eassumption|eassumption|assumption].
    - intros e _ j [].
    - intros e x l j js y l' _ IH _ IHs F j' [<-|I]; inversion F; subst; [apply IH; assumption|apply IHs; assumption].
    - intros e m _ k j [].
    - intros e w k j ms m z y m1 m' _ _ _ IH _ _ IHs F k' j' [Q|I]; inversion F; subst; [injection Q as <- <-; apply IH; assumption|eapply IHs; eassumption].
    - intros l v t cs _ _ _ k j c [].
    - intros l w k j ms v v' S N _ IH t cs Sl F Fw k' j' c [Q|I] Fc; inversion Fw as [|? ? (Wk & Wj) Fw']; subst; [|eapply IH; eassumption]. injection Q as <- <-. cbn [fst] in Wk. destruct (codec_chosen _ _ _ _ _ Sl F Fc) as (s & C). rewrite (well_key_same _ _ _ _ _ Wk S) in N. destruct (N s C).
    - intros l w k j ms v s x y v1 v' S C Qs _ _ IHj _ IH t cs Sl F Fw k' j' c [Q|I] Fc; inversion Fw as [|? ? (Wk & Wj) Fw']; subst; [|eapply IH; eassumption]. injection Q as <- <-. cbn [fst snd] in Wk, Wj. rewrite (well_key_same _ _ _ _ _ Wk S) in C.
      destruct (chosen_codec _ _ _ _ _ _ Sl F Wk C Fc) as (_ & _ & Tc & _). rewrite Tc. apply IHj. exact Wj.
  Qed.

  (* and stores the same *)
  Lemma equals_each l : Forall2 equals l l.
  Proof. induction l; constructor; auto. constructor. Qed.
  Lemma equals_struct l l' : equals (VStruct l) (VStruct l') -> Forall2 equals l l'.
  Proof. intro H. inversion H; subst; [apply equals_each|assumption]. Qed.
  Lemma put_equals v p x y v1 : put v p x y v1 -> forall w x' y' w1, put w p x' y' w1 -> equals w v -> equals y' y -> equals w1 v1.
  Proof.
    induction 1 as [|a x b path o y x' P IH]; intros w o' y' w1 P' Ew Ey; inversion P' as [|a2 x2 b2 path2 o2 y2 x2' P2]; subst; auto.
    match goal with A : Z.of_nat _ = Z.of_nat _ |- _ => apply Nat2Z.inj in A; rename A into L end.
    assert (Fe : Forall2 equals (a2 ++ x2 :: b2) (a ++ x :: b)). { apply equals_struct. exact Ew. }
    apply Forall2_app_inv_l in Fe as (r1 & r2 & F1 & F2 & Q). assert (L1 := Forall2_len _ _ _ F1). assert (r1 = a /\ r2 = x :: b) as (-> & ->).
    { assert (X := f_equal (firstn (length a)) Q). rewrite firstn_app, Nat.sub_diag, firstn_all in X. cbn in X. rewrite app_nil_r in X. rewrite firstn_app in X. replace (length a - length r1) with 0 in X by lia. rewrite firstn_all2 in X by lia. cbn in X. rewrite app_nil_r in X. subst r1. split; [reflexivity|]. apply app_inv_head in Q. auto. }
    inversion F2; subst. constructor. apply Forall2_app; [exact F1|]. constructor; [eapply IH; eassumption|assumption].
  Qed.
  Let P (t : tid) (v : gv) (j : jval) (v' : gv) : Prop := ~ hazard E D t -> well E letter fold j -> blank E t v -> forall y, stored E D t v j y -> equals y v'.
  Let P_each (e : tid) (l : list gv) (js : list jval) (l' : list gv) : Prop := ~ hazard E D e -> Forall (well E letter fold) js -> Forall (blank E e) l -> forall l'', stored_each E D e l js l'' -> Forall2 equals l'' l'.
  Let P_fields (l : list sfld) (ms : list (bytes * jval)) (v v' : gv) : Prop :=
    forall t fs cs, ~ hazard E D t -> kindOf E t = Some (KStruct fs) -> structFields E D t = Ok cs -> std_fields E letter t l -> NoDup (map fst ms) -> Forall (fun m => well_key E letter fold (fst m) /\ well E letter fold (snd m)) ms ->
    forall w, equals w v -> (forall c x, In c cs -> In (ckey c) (map fst ms) -> reaches v (cindex c) x -> blank E (ctype c) x) -> (forall c x, In c cs -> In (ckey c) (map fst ms) -> reaches w (cindex c) x -> blank E (ctype c) x) ->
    forall v'', stored_fields E D cs ms w v'' -> equals v'' v'.
  Lemma hazard_elem t k e : ~ hazard E D t -> kindOf E t = Some k -> In e (elems k) -> ~ hazard E D e.
  Proof. intros H K I X. apply H. eapply hazard_up; [eapply reads_elem; eassumption|exact X]. Qed.
  Lemma loads_stores : (forall t v j v', loads E letter fold t v j v' -> P t v j v') /\ (forall e l js l', loads_each E letter fold e l js l' -> P_each e l js l') /\
    (forall e ms m m', loads_keys E letter fold e ms m m' -> True) /\ (forall l ms v v', loads_fields E letter fold l ms v v' -> P_fields l ms v v').
  Proof.
    apply loads_mutind; unfold P, P_each, P_fields.
    - intros t v K H W B y S. rewrite (stored_null E t v y B S). constructor.
    - intros t b K _ _ _ y S. inversion S; subst; one_kinds. intuition (subst; try discriminate; constructor).
    - intros t b K _ _ _ y S. inversion S; subst; one_kinds. intuition (subst; try discriminate; constructor).
    - intros t bits z p K I R _ W _ y S. wellnum. inversion S as [|? bits' ? s' n' k' K' Io R'| | | | | | | | | | | | | | | | | | | | | |]; subst; one_kinds. apply well_int in Io; auto; [|eapply bits_int; eassumption]. subst n'.
      pose proof (wrap_one _ (intval p) k' 0 R') as X. rewrite Z.mul_0_l, Z.add_0_r in X. rewrite <- (X R). constructor.
    - intros t bits z p K I Np R _ W _ y S. wellnum. pose proof (nonneg_intval p I Np). inversion S as [| | |? bits' ? s' n' k' K' Io R'| | | | | | | | | | | | | | | | | | | |]; subst; one_kinds. apply well_uint in Io; auto; [|split; [assumption|eapply bits_uint; eassumption]]. subst n'.
      pose proof (wrap_one_u _ (intval p) k' 0 R') as X. rewrite Z.mul_0_l, Z.add_0_r in X. rewrite <- X by auto. constructor.
    - intros t f p g K Sp R Fg _ W _ y S. wellnum. inversion S as [| | | | |? ? ? g' ? Fo| | | | | | | | | | | | | | | | | |]; subst; one_kinds. pose proof W as (_ & Rp & Dr & _).
      assert (Eg : g' = ParseFloat (text p)) by (eapply well_float_of; eassumption). subst g'. destruct (narrow_finite _ _ _ _ Rp R Fg) as (Fx & m & e & Ex & Nm). pose proof (to32_rounded (pneg p) m e Nm) as R32. rewrite <- Ex in R32.
      rewrite (rounded_unique b32 (pneg p) (numval p) (to32 (ParseFloat (text p))) g); [constructor|vm_compute; split; discriminate|eapply Dr; eassumption|exact R].
    - intros t f p g K Sp R Fg _ W _ y S. wellnum. inversion S as [| | | | | |? ? ? g' ? Fo| | | | | | | | | | | | | | | | |]; subst; one_kinds. rewrite (well_float_of E p g' g); auto. constructor.
    - intros t s0 w s K Ss _ W _ y S. inversion W; subst. inversion S; subst; one_kinds. rewrite (well_unescaped w s) in * by assumption. match goal with A : Ok _ = Ok _ |- _ => injection A as -> end. constructor.
    - intros t x j g K Nx G H W B y S. inversion B; subst; one_kinds. inversion S; subst; one_kinds. eapply generic_go; eassumption.
    - intros t e x K _ _ _ y S. inversion S; subst; one_kinds; try contradiction. constructor.
    - intros t e x j y K Nj _ _ _ _ B. inversion B.
    - intros t e z j y K Nj Bz _ IH H W B y' S. inversion S as [| | | | | | | | | | | | | ? e' z' ? y2 K' Nj' Bz' S' | | | | | | | | | |]; subst; [contradiction|]. one_kinds. rewrite (blank_eq E _ _ _ Bz' Bz) in S'. apply eq_ptr. apply IH; auto. eapply hazard_elem; [exact H|exact K|left; reflexivity].
    - intros t e x K _ _ B y S. inversion B; subst. inversion S; subst; one_kinds. constructor.
    - intros t e x js l l' K _ Bl Le IH H W B y S. inversion W; subst. inversion B; subst. inversion S as [| | | | | | | | | | | | | | | ? e' ? ? l2 s2 l'' K' Sl Se | | | | | | | |]; subst. one_kinds. destruct Sl as (Ll & Fb & ->).
      assert (length l = length js) by (clear - Le; induction Le; cbn; congruence). assert (l2 = l) as -> by (eapply blanks_eq; [|eassumption|eassumption]; congruence). apply eq_slice. apply IH; auto. eapply hazard_elem; [exact H|exact K|left; reflexivity].
    - intros t e x w zs K Ke S _ _ _ _ y _. destruct (proj2 (proj2 (proj2 UW)) _ _ K Ke).
    - intros t n e l1 l2 js l1' l2' K Le IH L Bl H W B y S. inversion W; subst. assert (L1 : length l1 = length js) by (clear - Le; induction Le; cbn; congruence).
      inversion B as [| | | | | | | | |? ? ? ? K2 Ln Fl| |]; subst. one_kinds. apply Forall_app in Fl as (Fl1 & Fl2). pose proof (hazard_elem _ _ _ H K (or_introl eq_refl)) as He.
      inversion S as [| | | | | | | | | | | | | | | | |? ? e' m1 m2 ? m1' m2' K' Se L' Bl'|? n' e' ? js' more l' K' Ln' Se| | | | |]; subst; one_kinds.
      + assert (M1 : length m1 = length js) by (clear - Se; induction Se; cbn; congruence). match goal with A : m1 ++ m2 = l1 ++ l2 |- _ => rename A into Q end. destruct (app_len_inj _ _ _ _ Q) as (-> & ->); [congruence|]. apply eq_array. apply Forall2_app; [apply IH; auto|]. assert (m2' = l2') as -> by (eapply blanks_eq; [|eassumption|eassumption]; congruence). apply equals_each.
      + assert (M1 : length (l1 ++ l2) = length js') by (clear - Se; revert Se; generalize (l1 ++ l2); intros q Se; induction Se; cbn; congruence). rewrite ?app_length in M1, L1. assert (l2 = []) by (destruct l2; [reflexivity|cbn in M1; lia]). subst l2. assert (more = []) by (destruct more; [reflexivity|cbn in M1, L1; lia]). subst more. rewrite ?app_nil_r in *. destruct l2'; [|cbn in L; lia]. rewrite app_nil_r. apply eq_array. apply IH; auto.
    - intros t n e l js more l' K Ln Le IH H W B y S. inversion W as [| | | | |? Fw|]; subst. apply Forall_app in Fw as (Fw & Fm). assert (L1 : length l = length js) by (clear - Le; induction Le; cbn; congruence).
      inversion B as [| | | | | | | | |? ? ? ? K2 Ln Fl| |]; subst. one_kinds. pose proof (hazard_elem _ _ _ H K (or_introl eq_refl)) as He.
      inversion S as [| | | | | | | | | | | | | | | | |? ? e' m1 m2 ? m1' m2' K' Se L' Bl'|? n' e' ? js' more' l'' K' Ln' Se Q| | | | |]; subst; one_kinds.
      + assert (M1 : length m1 = length (js ++ more)) by (clear - Se; revert Se; generalize (js ++ more); intros q Se; induction Se; cbn; congruence). rewrite app_length in L1, M1. assert (m2 = []) by (destruct m2; [reflexivity|cbn in L1; lia]). subst m2. assert (more = []) by (destruct more; [reflexivity|cbn in L1, M1; lia]). subst more. rewrite ?app_nil_r in *. destruct m2'; [|cbn in L'; lia]. rewrite app_nil_r. apply eq_array. apply IH; auto.
      + assert (M1 : length l = length js') by (clear - Se; induction Se; cbn; congruence). match goal with A : js' ++ more' = js ++ more |- _ => destruct (app_len_inj _ _ _ _ A) as (-> & ->); [congruence|] end. apply eq_array. apply IH; auto.
    - intros t k e x K H _ _ y _. exfalso. apply H. exists t. split; [constructor|]. left. eauto.
    - intros t k e x ms m' K _ _ _ H _ _ y _. exfalso. apply H. exists t. split; [constructor|]. left. eauto.
    - intros t fs l v ms v' K Sl _ IH H W B y S. inversion W as [| | | | | |? Nk Fw]; subst. inversion S as [| | | | | | | | | | | | | | | | | | | | | | |? fs' cs ? ? ? K' Sf St]; subst.
      assert (Inv : forall c x, In c cs -> In (ckey c) (map fst ms) -> reaches (VStruct v) (cindex c) x -> blank E (ctype c) x). { intros c x Ic _ R. destruct (structFields_walks _ _ _ _ (proj1 (proj2 UW)) Sf c Ic) as (i & r & _ & Wk). eapply blank_at; eassumption. }
      eapply IH; eauto. constructor.
    - intros e _ _ _ l'' S. inversion S; constructor.
    - intros e x l j js y l' _ IH _ IHs H W B l'' S. inversion S; subst. inversion B; subst. inversion W; subst. constructor; auto.
    - auto.
    - auto.
    - intros l v t fs cs _ _ _ _ _ _ w Ew _ _ v'' S. inversion S; subst. exact Ew.
    - intros l w k j ms v v' Sk N _ IH t fs cs H K Sf Sl Nd Fw u Eu Iv Iu v'' S. inversion Nd; subst. inversion Fw as [|? ? (Wk & Wj) Fw']; subst. cbn [fst] in Wk. rewrite (well_key_same _ _ _ _ _ Wk Sk) in N.
      inversion S as [|? ? ? ? ? ? Nin S'|? ? ? ? ? c x y v1 ? Ff]; subst.
      + eapply IH; eauto; intros c x Ic Ik; [apply Iv|apply Iu]; auto; right; exact Ik.
      + exfalso. destruct (codec_chosen _ _ _ _ _ Sl (uw_fields _ _ _ _ K Sf Sl) Ff) as (s & C). exact (N s C).
    - intros l w k j ms v s x y v1 v' Sk C Qs Pt _ IHj _ IH t fs cs H K Sf Sl Nd Fw u Eu Iv Iu v'' S. inversion Nd as [|? ? Nk Nd']; subst. inversion Fw as [|? ? (Wk & Wj) Fw']; subst. cbn [fst snd] in Wk, Wj. rewrite (well_key_same _ _ _ _ _ Wk Sk) in *. pose proof (uw_fields _ _ _ _ K Sf Sl) as F.
      inversion S as [|? ? ? ? ? ? Nin S'|? ? ? ? ? c x' y' u1 ? Fc Pt' St S']; subst; [destruct (Nin (chosen_has _ _ _ _ _ Sl F Wk C))|].
      destruct (chosen_codec _ _ _ _ _ _ Sl F Wk C Fc) as (_ & Pc & Tc & _). cbn [app] in Pc. assert (Ic : In c cs) by (destruct Fc as (a & b & -> & _ & _); apply in_elt). assert (Ek : ckey c = w) by (destruct Fc as (a & b & _ & Q & _); exact Q).
      rewrite <- Pc in Pt. rewrite <- Tc in IHj. destruct (put_reaches _ _ _ _ _ Pt) as (Rx & _). destruct (put_reaches _ _ _ _ _ Pt') as (Rx' & _).
      assert (Bx : blank E (ctype c) x) by (apply (Iv c x); auto; left; auto). assert (Bx' : blank E (ctype c) x') by (apply (Iu c x'); auto; left; auto). rewrite (blank_eq _ _ _ _ Bx' Bx) in *.
      assert (Ey : equals y' y). { apply IHj; auto. intro X. apply H. eapply hazard_up; [|exact X]. eapply rd_field; [exact K|exact Sf|exact Ic|constructor]. }
      eapply IH; [exact H|exact K|exact Sf|exact Sl|exact Nd'|exact Fw'| | | |exact S'].
      + eapply put_equals; eassumption.
      + intros d a Id Ik Ra. apply (Iv d a); auto; [right; exact Ik|]. destruct (codecs_apart _ _ _ _ Sf c d Ic Id) as [<-|Ap]; [rewrite Ek in Ik; contradiction|]. eapply put_other; [apply put_swap; exact Pt|exact Ap|exact Ra].
      + intros d a Id Ik Ra. apply (Iu d a); auto; [right; exact Ik|]. destruct (codecs_apart _ _ _ _ Sf c d Ic Id) as [<-|Ap]; [rewrite Ek in Ik; contradiction|]. eapply put_other; [apply put_swap; exact Pt'|exact Ap|exact Ra].
  Qed.
End Same.

Lemma ws_stop s : ws s -> num_stop s.
Proof. intros [|c l H _]; [exact I|left; exact H]. Qed.
Lemma C78_lem E letter fold rev s t e v j v' : unstd_world E letter -> target E t e -> ~ hazard E decodeOptions e -> blank E e v -> well_text s j -> well E letter fold j -> loads E letter fold e v j v' ->
  exists v'', Unmarshal E rev s t (VPtr (Some v)) = Ok (VPtr (Some v''), None) /\ equals v'' v'.
Proof.
  intros UW Tg Hz B (s1 & w & s2 & -> & W1 & W2 & V) Wl L. destruct (C43_lem E rev (s1 ++ w ++ s2) t e v (proj1 UW) (proj1 (proj2 UW)) Tg Hz (blank_typed _ (proj1 UW) _ _ B)) as (v'' & err & -> & _ & H).
  destruct (H j) as (-> & St).
  - exists s1, w, s2. split; [reflexivity|]. split; [exact W1|]. split; [apply rfc_plain_lenient; exact V|]. intros _. apply ws_stop. exact W2.
  - eapply (proj1 (loads_takes E letter fold UW)); eauto.
  - exists v''. split; [reflexivity|]. eapply (proj1 (loads_stores E letter fold UW)); eauto.
Qed.
