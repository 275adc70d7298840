(* Lemmas for C33, C35: strconv, which texts are numbers. *)
From Coq Require Import Lqa.
From Verif Require Import Bytes JsonSpec Types Parser Doc Float FloatSpec FloatProofs FloatOps Num NumSpec NumProofs.
Open Scope Q_scope.

(* ---- powers of ten, strconv ---- *)

Lemma p10_pos e : 0 < p10 e.
Proof. apply Qpower_0_lt. reflexivity. Qed.
Lemma p10_add a b : p10 (a + b) == p10 a * p10 b.
Proof. apply Qpower_plus. discriminate. Qed.
Lemma p10_opp e : p10 (- e) == / p10 e. Proof. apply Qpower_opp. Qed.
Lemma p10_Z e : (0 <= e)%Z -> p10 e == inject_Z (10 ^ e).
Proof. intro H. unfold p10. change (10#1) with (inject_Z 10). symmetry. apply Zpower_Qpower; auto. Qed.
Lemma pow10_pos e : (0 <= e)%Z -> (0 < 10 ^ e)%Z.
Proof. intro. apply Z.pow_pos_nonneg; lia. Qed.

Lemma round10_rounded s m e : (0 <= m)%Z -> rounded b64 s (sgq s (inject_Z m * p10 e)) (round10 s m e).
Proof.
  intro Hm. unfold round10. destruct (Z.leb_spec 0 e) as [H|H].
  - pose proof (pow10_pos e H). apply roundQ_rounded; [exact good64|nia|lia|]. rewrite inject_Z_mult, p10_Z by auto. change (inject_Z 1) with 1. ring.
  - pose proof (pow10_pos (- e) ltac:(lia)). apply roundQ_rounded; [exact good64|auto|auto|]. rewrite <- p10_Z, p10_opp by lia. field. pose proof (p10_pos e). lra.
Qed.

Lemma magnitude_mant p : magnitude p == inject_Z (dval (pint p ++ frac_digits p)) * p10 (exp_val (pexp p) - Z.of_nat (length (frac_digits p))).
Proof.
  unfold magnitude. set (f := frac_digits p). rewrite dval_app, inject_Z_plus, inject_Z_mult, <- p10_Z by lia.
  unfold Z.sub. rewrite p10_add, p10_opp. field. pose proof (p10_pos (Z.of_nat (length f))). lra.
Qed.
Lemma digits_app a b : digits a -> digits b -> digits (a ++ b).
Proof. intros. apply Forall_app. auto. Qed.
Lemma shape_fracdigits sgOK p : shape sgOK p -> digits (frac_digits p).
Proof. intros (_ & _ & Hf & _). unfold frac_digits. destruct (pfrac p); [tauto|constructor]. Qed.
Lemma magnitude_nonneg sgOK p : shape sgOK p -> 0 <= magnitude p.
Proof.
  intro S. rewrite magnitude_mant. apply Qmult_le_0_compat; [|apply Qlt_le_weak, p10_pos]. apply inj_nn.
  apply dval_bound. apply digits_app; [apply S|eapply shape_fracdigits; eauto].
Qed.

Lemma beqb_minus c : digit c -> beqb c x2d = false /\ beqb c x2b = false.
Proof. intro H. split; apply beqb_false; intros ->; [apply nd_minus|apply nd_plus]; auto. Qed.
Lemma one_some sg : one_sign sg -> some_signs sg.
Proof. intros [->|[->| ->]]; [constructor| |]; (constructor; [auto|constructor]). Qed.
Lemma shape_one_some p : shape one_sign p -> shape some_signs p.
Proof. intros (A & B & C & D). split; auto. split; auto. split; auto. destruct (pexp p) as [[[c sg] ds]|]; auto. destruct D as (? & ? & ? & ?). auto using one_some. Qed.

Lemma strconv_formula p : shape one_sign p ->
  strconv_ParseFloat (text p) = round10 (pneg p) (dval (pint p ++ frac_digits p)) (exp_val (pexp p) - Z.of_nat (length (frac_digits p))).
Proof.
  destruct p as [neg i f e]. unfold shape, frac_digits, text. cbn [pint pfrac pexp pneg]. intros (Di & Ni & Hf & He).
  assert (Ee : match e with Some (c, _, _) => c = x65 \/ c = x45 | None => True end) by (destruct e as [[[c sg] ds]|]; [tauto|auto]).
  unfold strconv_ParseFloat.
  assert (Sg : match (if neg then [x2d] else []) ++ i ++ frac_text f ++ exp_text e with
     | c :: r => if beqb c x2d then (true, r) else if beqb c x2b then (false, r) else (false, (if neg then [x2d] else []) ++ i ++ frac_text f ++ exp_text e)
     | [] => (false, []) end = (neg, i ++ frac_text f ++ exp_text e)).
  { destruct neg; cbn [app]; [reflexivity|]. destruct i as [|c i]; [congruence|]. inversion Di; subst. cbn [app].
    destruct (beqb_minus c) as [-> ->]; auto. }
  rewrite Sg. clear Sg. rewrite (takeDigits_app i _ Di (stops_tail f e Ee)). destruct i as [|c0 i]; [congruence|].
  set (ii := c0 :: i) in *. clearbody ii. clear Ni.
  assert (Fr : match frac_text f ++ exp_text e with
     | c :: r' => if beqb c x2e then takeDigits r' else ([], frac_text f ++ exp_text e) | [] => ([], []) end =
     (match f with Some ds => ds | None => [] end, exp_text e)).
  { destruct f as [f|]; cbn [frac_text app].
    - change (beqb x2e x2e) with true. cbv iota. apply takeDigits_app; [tauto|]. destruct e as [[[c sg] ds]|]; cbn [exp_text stops]; auto. apply nd_e; auto.
    - destruct e as [[[c sg] ds]|]; cbn [exp_text]; [|reflexivity]. rewrite e_not_dot by auto. reflexivity. }
  rewrite Fr. clear Fr. set (ff := match f with Some ds => ds | None => [] end). destruct e as [[[c sg] ds]|]; cbn [exp_text exp_val].
  - destruct He as (Hc & Hs & Dd & Nd). rewrite (e_is_e _ Hc).
    assert (Se : match sg ++ ds with
       | c :: r' => if beqb c x2d then (true, r') else if beqb c x2b then (false, r') else (false, sg ++ ds) | [] => (false, []) end =
       (existsb (beqb x2d) sg, ds)).
    { destruct Hs as [->|[->| ->]]; cbn [app existsb]; try reflexivity. destruct ds as [|c1 ds]; [congruence|]. inversion Dd; subst.
      destruct (beqb_minus c1) as [-> ->]; auto. }
    rewrite Se. rewrite <- (app_nil_r ds) at 1. rewrite (takeDigits_app ds [] Dd I). destruct ds as [|c1 ds]; [congruence|].
    rewrite !digitsZ_dval. reflexivity.
  - rewrite digitsZ_dval. reflexivity.
Qed.

Lemma numval_sgq p : numval p == sgq (pneg p) (magnitude p).
Proof. reflexivity. Qed.
Lemma strconv_rounded p : shape one_sign p -> rounded b64 (pneg p) (numval p) (strconv_ParseFloat (text p)).
Proof.
  intro S. rewrite (strconv_formula p S). eapply rounded_ext; [|apply round10_rounded].
  - rewrite numval_sgq, magnitude_mant. reflexivity.
  - apply dval_bound. apply digits_app; [apply S|eapply shape_fracdigits; eauto].
Qed.

(* ---- negation ---- *)

Lemma fval_neg x : fval (fneg x) == - fval x.
Proof. destruct x as [| |s m e]; cbn [fneg fval]; try ring. destruct s; cbn [negb signed]; rewrite ?inject_Z_opp; ring. Qed.
Lemma fneg_fneg x : fneg (fneg x) = x.
Proof. destruct x as [| |s m e]; cbn [fneg]; rewrite ?negb_involutive; reflexivity. Qed.
Lemma rounded_neg f s q x : rounded f s q x -> rounded f (negb s) (- q) (fneg x).
Proof.
  intros (H & R). split; [destruct x; cbn in *; congruence|].
  assert (O : overflow f (- q) <-> overflow f q) by (unfold overflow; rewrite Qabs_opp; reflexivity).
  destruct R as [(Hq & R1 & R2 & R3)|(Hq & ->)]; [left|right; rewrite O; auto].
  split; [rewrite O; auto|]. split; [destruct x; exact R1|]. split; [destruct x; exact R2|].
  intros y Ry. assert (Ry' : representable f (fneg y)) by (destruct y; exact Ry). destruct (R3 _ Ry') as [D T].
  assert (A : forall z, Qabs (- q - fval z) == Qabs (q - fval (fneg z))).
  { intro z. rewrite fval_neg, <- Qabs_opp. apply Qabs_wd. ring. }
  rewrite !A, fneg_fneg. split; [exact D|]. intros K1 K2. specialize (T K1). rewrite fval_neg in T.
  assert (even_mantissa x) by (apply T; intro E; apply K2; rewrite fval_neg; lra). destruct x; exact H0.
Qed.
Lemma rounded_sign_apply neg q x : rounded b64 false q x -> rounded b64 neg (sgq neg q) (applySign neg x).
Proof.
  intro R. destruct neg; unfold applySign.
  - apply rounded_neg in R. eapply rounded_ext; [|exact R]. unfold sgq. ring.
  - eapply rounded_ext; [|exact R]. unfold sgq. ring.
Qed.

(* ---- C33 ---- *)

Definition posF (x : float) : Prop := fsign x = Some false /\ nonneg x.
Lemma fofZ_pos z : (0 <= z)%Z -> posF (fofZ b64 z).
Proof.
  intro H. pose proof (fofZ_rounded b64 z good64) as R. rewrite (proj2 (Z.ltb_ge z 0)) in R by auto.
  split; [eapply rounded_sign; eauto|eapply rounded_nonneg; eauto].
Qed.
Lemma posF_fin x : posF x -> finite x -> exists m e, x = FFin false m e /\ (0 <= m)%Z.
Proof. intros (H & N) F. destruct x as [| |s m e]; cbn in *; try tauto. injection H as ->. eauto. Qed.
Lemma fmul_pos x y : posF x -> finite x -> posF y -> finite y -> posF (fmul b64 x y).
Proof.
  intros Px Fx Py Fy. apply posF_fin in Px as (m & e & -> & Hm); auto. apply posF_fin in Py as (n & e' & -> & Hn); auto.
  pose proof (fmul_rounded b64 false m e false n e' good64 Hm Hn) as R. split; [eapply rounded_sign; eauto|eapply rounded_nonneg; eauto].
Qed.
Lemma sumZ_pos m e n e' : (0 <= m)%Z -> (0 <= n)%Z -> (0 <= sumZ false m e false n e')%Z.
Proof. intros. unfold sumZ. cbn [signed]. pose proof (Z.pow_nonneg 2 (e - Z.min e e')). pose proof (Z.pow_nonneg 2 (e' - Z.min e e')). nia. Qed.
Lemma fadd_pos x y : posF x -> posF y -> posF (fadd b64 x y).
Proof.
  intros (Sx & Nx) (Sy & Ny). destruct x as [|s|s m e], y as [|t|t n e']; try discriminate; injection Sx as ->; injection Sy as ->; try (split; [reflexivity|exact I]).
  cbn [nonneg] in *. pose proof (sumZ_pos m e n e' Nx Ny) as Hs. destruct (Z.eq_dec (sumZ false m e false n e') 0) as [E|E].
  - rewrite (fadd_zero b64 _ _ _ _ _ _ E). split; [reflexivity|cbn; lia].
  - pose proof (fadd_rounded b64 false m e false n e' good64 E) as R. rewrite (proj2 (Z.ltb_ge _ 0)) in R by auto.
    split; [eapply rounded_sign; eauto|eapply rounded_nonneg; eauto].
Qed.
Lemma roundQ_pos a b : (0 <= a)%Z -> (0 < b)%Z -> posF (roundQ b64 false a b).
Proof.
  intros Ha Hb. pose proof (roundQ_rounded b64 false a b (inject_Z a / inject_Z b) good64 Ha Hb) as R.
  assert (E : inject_Z a / inject_Z b * inject_Z b == inject_Z a) by (field; pose proof (inj_pos _ Hb); lra). specialize (R E).
  split; [eapply rounded_sign; eauto|eapply rounded_nonneg; eauto].
Qed.
Lemma lit10_pos n : posF (lit10 n).
Proof. unfold lit10. destruct (Z.leb_spec 0 n); apply roundQ_pos; try lia; apply pow10_pos; lia. Qed.

(* all 632 values of Pow10 by computation *)
Lemma mod64 z : (0 <= z mod two64Z < two64Z)%Z.
Proof. apply Z.mod_pos_bound. reflexivity. Qed.
Lemma fofZ_fin z : (0 <= z < two64Z)%Z -> posF (fofZ b64 z) /\ finite (fofZ b64 z).
Proof.
  intro H. split; [apply fofZ_pos; lia|]. pose proof (fofZ_rounded b64 z good64) as R. apply rounded_finite in R as (_ & m & e & -> & _); [exact I|].
  apply not_overflow; [exact good64|]. rewrite Qabs_pos by (apply inj_nn; lia). apply Qlt_le_trans with (p2 64).
  - rewrite p2_Z by lia. rewrite <- Zlt_Qlt. exact (proj2 H).
  - apply p2_le. cbn. lia.
Qed.
Lemma nu_fin ds : posF (nu ds) /\ finite (nu ds).
Proof. apply fofZ_fin, mod64. Qed.
Lemma posF_nan neg x : posF x -> applySign neg x <> FNaN.
Proof. intros (H & _). destruct x; [discriminate| |]; destruct neg; discriminate. Qed.
Lemma strconv_nan s : strconv_ParseFloat s <> FNaN.
Proof.
  assert (R : forall s a b, roundQ b64 s a b <> FNaN).
  { intros. unfold roundQ. destruct (_ =? _)%Z; [discriminate|]. destruct (if (_ =? _)%Z then _ else _) as [m e]. destruct (_ <? _)%Z; discriminate. }
  assert (T : forall s m e, round10 s m e <> FNaN) by (intros; unfold round10; destruct (_ <=? _)%Z; auto).
  assert (Z0 : zeroF <> FNaN) by discriminate.
  unfold strconv_ParseFloat. destruct (match s with [] => _ | _ => _ end) as [neg r]. destruct (takeDigits r) as [i r'].
  destruct i; [auto|]. destruct (match r' with [] => _ | _ => _ end) as [f r'']. destruct r'' as [|c r3]; [auto|].
  destruct (_ || _); [|auto]. destruct (match r3 with [] => _ | _ => _ end) as [g r4]. destruct (takeDigits r4) as [[|x e] [|y r5]]; auto.
Qed.

(* exponents written with at most 18 digits *)
Definition short_exp (p : parts) : Prop := match pexp p with Some (_, _, ds) => (length ds <= 18)%nat | None => True end.
Lemma short_dval ds : digits ds -> (length ds <= 18)%nat -> (0 <= dval ds < 10 ^ 18)%Z.
Proof.
  intros D L. pose proof (dval_bound ds D) as B. split; [lia|]. eapply Z.lt_le_trans; [apply B|]. apply Z.pow_le_mono_r; lia.
Qed.
(* a text that fits in memory *)
Definition small_text (s : bytes) : Prop := (Z.of_nat (length s) < 9223372036854775808)%Z.
Lemma small_parts p : small_text (text p) ->
  (Z.of_nat (length (match pfrac p with Some f => f | None => pint p end)) < 9223372036854775808)%Z.
Proof.
  unfold small_text, text. rewrite !app_length. destruct (pfrac p) as [f|]; cbn [frac_text length]; lia.
Qed.
