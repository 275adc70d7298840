(* Lemmas for C35 and C36: integers written with a point or an exponent. *)
From Coq Require Import Lqa.
From Verif Require Import Bytes JsonSpec Types Parser Doc Float FloatSpec FloatProofs FloatOps Num NumSpec NumProofs NumThms NumClose NumWide NumInt.
Open Scope Q_scope.

(* ---- the digits count modulo 2^64 ---- *)
Definition same_places (p q : parts) : Prop := exists f g, pfrac p = Some f /\ pfrac q = Some g /\ length f = length g.
Definition wraps_to (a b : bytes) : Prop := exists k, (dval a = dval b + k * 2 ^ 64)%Z.
Lemma wraps_nu a b : wraps_to a b -> nu a = nu b.
Proof. intros (k & E). unfold nu. rewrite E. change (2 ^ 64)%Z with two64Z. rewrite Z.mod_add by discriminate. reflexivity. Qed.
Lemma C35_wraps_lem p q : shape some_signs p -> shape some_signs q -> short_exp p -> ~ by_strconv p -> pneg p = pneg q -> pexp p = pexp q -> same_places p q ->
  wraps_to (pint p) (pint q) -> wraps_to (frac_digits p) (frac_digits q) -> ParseFloat (text p) = ParseFloat (text q).
Proof.
  intros Sp Sq Se B En Ee (f & g & Fp & Fq & L) Wi Wf. rewrite (ParseFloat_formula p Sp), (ParseFloat_formula q Sq). unfold formula.
  rewrite (wraps_nu _ _ Wi), (wraps_nu _ _ Wf), <- En, <- Ee, Fp, Fq, <- L. unfold by_strconv, short_exp in B, Se. pose proof Sp as (_ & _ & _ & He).
  destruct (pexp p) as [[[c sg] ds]|].
  - destruct He as (_ & _ & Dd & _). pose proof (short_dval ds Dd Se). rewrite (wrap64_id (dval ds)) by lia. rewrite (proj2 (Z.ltb_ge 300 (dval ds))) by lia. reflexivity.
  - rewrite Fp in B. rewrite (proj2 (Z.leb_le _ 18)) by lia. reflexivity.
Qed.

(* no digit other than zero behind the point once it is moved by the exponent *)
Definition whole (p : parts) : Prop :=
  (0 <= exp_val (pexp p))%Z /\ (dval (frac_digits p) = 0 \/ Z.of_nat (length (frac_digits p)) <= exp_val (pexp p))%Z.
Definition wholeZ (p : parts) : Z :=
  (dval (pint p) * 10 ^ exp_val (pexp p) + dval (frac_digits p) * 10 ^ (exp_val (pexp p) - Z.of_nat (length (frac_digits p))))%Z.

Definition fexact (z : Z) (f : float) : Prop := exists m e, f = FFin false m e /\ representable b64 f /\ fval f == inject_Z z.
Lemma round_fexact q z f : (0 <= z <= 2 ^ 53)%Z -> q == inject_Z z -> rounded b64 false q f -> fexact z f.
Proof.
  intros B E R. eapply rounded_ext in R; [|exact E]. assert (O : ~ overflow b64 (inject_Z z)) by (apply small_not_overflow; lia).
  destruct (rep53 z ltac:(lia)) as (y & Ry & Ey). destruct (rounded_exact _ _ _ _ _ R O Ry Ey) as [V _]. pose proof (rounded_finite _ _ _ _ R O) as (N & m & e & -> & _).
  exists m, e. split; auto. split; [apply N|auto].
Qed.
Lemma fx_mul a b f g : (0 <= a * b <= 2 ^ 53)%Z -> fexact a f -> fexact b g -> fexact (a * b) (fmul b64 f g).
Proof.
  intros B (m & e & -> & R & V) (n & e' & -> & R' & V'). eapply round_fexact; [exact B| |apply (fmul_rounded b64 false m e false n e' good64); [apply R|apply R']].
  rewrite V, V', inject_Z_mult. reflexivity.
Qed.
Lemma fx_zero f g : fexact 0 f -> posF g -> finite g -> fexact 0 (fmul b64 f g).
Proof.
  intros (m & e & -> & R & V) P F. apply posF_fin in P as (n & e' & -> & Hn); auto.
  eapply round_fexact; [lia| |apply (fmul_rounded b64 false m e false n e' good64); [apply R|auto]]. rewrite V. change (inject_Z 0) with 0. ring.
Qed.
Lemma fx_add a b f g : (0 <= a)%Z -> (0 <= b)%Z -> (a + b <= 2 ^ 53)%Z -> fexact a f -> fexact b g -> fexact (a + b) (fadd b64 f g).
Proof.
  intros A B U (m & e & -> & R & V) (n & e' & -> & R' & V').
  assert (S : fval (FFin false m e) + fval (FFin false n e') == inject_Z (a + b)) by (rewrite V, V', inject_Z_plus; reflexivity).
  destruct (Z.eq_dec (sumZ false m e false n e') 0) as [E|N].
  - rewrite (fadd_zero _ _ _ _ _ _ _ E). exists 0%Z, (femin b64). split; [reflexivity|]. split; [apply zero_rep|].
    pose proof (sumZ_val false m e false n e') as Vs. rewrite E in Vs. change (inject_Z 0) with 0 in Vs. rewrite <- S, <- Vs. change (fval (FFin false 0 (femin b64))) with (fval zeroF). destruct zero_rep as [_ ->]. ring.
  - eapply round_fexact; [lia|exact S|]. pose proof (fadd_rounded b64 false m e false n e' good64 N) as Ad.
    rewrite (proj2 (Z.ltb_ge _ 0)) in Ad by (apply sumZ_pos; [apply R|apply R']). exact Ad.
Qed.
Lemma fx_nu ds : digits ds -> (dval ds <= 2 ^ 53)%Z -> fexact (dval ds) (nu ds).
Proof.
  intros D L. unfold nu. pose proof (dval_bound ds D). rewrite Z.mod_small by (unfold two64Z; lia).
  pose proof (fofZ_rounded b64 (dval ds) good64) as R. rewrite (proj2 (Z.ltb_ge _ 0)) in R by lia. eapply round_fexact; [| |exact R]; [lia|reflexivity].
Qed.
Definition exact10 (n : Z) : bool := match Pow10 n with FFin false m e => (0 <=? m)%Z && (m <? 2 ^ 53)%Z && (-1074 <=? e)%Z && (e <=? 971)%Z && Qeq_bool (inject_Z m * p2 e) (inject_Z (10 ^ n)) | _ => false end.
Lemma exact10_all : forallb exact10 (upto 16 0) = true.
Proof. vm_compute. reflexivity. Qed.
Lemma fx_pow n : (0 <= n <= 15)%Z -> fexact (10 ^ n) (Pow10 n).
Proof.
  intro H. pose proof exact10_all as A. rewrite forallb_forall in A. specialize (A n (upto_in 16 0 n ltac:(lia))). unfold exact10 in A.
  destruct (Pow10 n) as [| |[|] m e]; try discriminate. rewrite !andb_true_iff in A. destruct A as ((((A1 & A2) & A3) & A4) & A5).
  apply Z.leb_le in A1, A3, A4. apply Z.ltb_lt in A2. apply Qeq_bool_iff in A5. exists m, e. split; [reflexivity|]. split; [cbn [representable fprec femin femax b64]; lia|exact A5].
Qed.
Lemma pow_small n : (0 <= n)%Z -> (10 ^ n <= 2 ^ 53)%Z -> (n <= 15)%Z.
Proof.
  intros H L. destruct (Z_le_gt_dec n 15); auto. exfalso. assert (10 ^ 16 <= 10 ^ n)%Z by (apply Z.pow_le_mono_r; lia). assert (2 ^ 53 < 10 ^ 16)%Z by reflexivity. lia.
Qed.
(* digits times a power of ten *)
Lemma fx_scaled ds n : digits ds -> (n <= 308)%Z -> (dval ds = 0 \/ 0 <= n)%Z -> (dval ds * 10 ^ n <= 2 ^ 53)%Z -> fexact (dval ds * 10 ^ n) (fmul b64 (nu ds) (Pow10 n)).
Proof.
  intros D N H L. pose proof (dval_bound ds D) as B. destruct (Z.eq_dec (dval ds) 0) as [E|NE].
  - pose proof (fx_nu ds D ltac:(lia)) as X. rewrite E in *. apply fx_zero; auto; apply Pow10_fin; auto.
  - destruct H as [H|H]; [contradiction|]. assert (P : (0 < 10 ^ n)%Z) by (apply Z.pow_pos_nonneg; lia). pose proof (pow_small n H ltac:(nia)). apply fx_mul; [nia|apply fx_nu; auto; nia|apply fx_pow; lia].
Qed.

Lemma whole_value p : shape one_sign p -> whole p -> magnitude p == inject_Z (wholeZ p).
Proof.
  intros S (W1 & W2). rewrite (magnitude_parts p _ eq_refl). unfold ipart, fpart, wholeZ. rewrite inject_Z_plus, !inject_Z_mult. rewrite (p10_Z (exp_val (pexp p))) by auto.
  destruct W2 as [->|W2]; [change (inject_Z 0) with 0; ring|]. rewrite p10_Z by lia. reflexivity.
Qed.
Lemma whole_nn p : shape one_sign p -> whole p -> (0 <= dval (pint p) * 10 ^ exp_val (pexp p) /\ 0 <= dval (frac_digits p) * 10 ^ (exp_val (pexp p) - Z.of_nat (length (frac_digits p))))%Z.
Proof.
  intros S (W1 & W2). pose proof (dval_bound _ (proj1 S)). pose proof (dval_bound _ (shape_fracdigits _ _ S)).
  pose proof (Z.pow_nonneg 10 (exp_val (pexp p)) ltac:(lia)). pose proof (Z.pow_nonneg 10 (exp_val (pexp p) - Z.of_nat (length (frac_digits p))) ltac:(lia)). nia.
Qed.
Lemma fx_sign neg z f : fexact z f -> representable b64 (applySign neg f) /\ fval (applySign neg f) == inject_Z (if neg then - z else z).
Proof.
  intros (m & e & -> & R & V). split; [destruct neg; exact R|]. destruct neg; cbn [applySign]; [|exact V]. rewrite fval_neg, V, inject_Z_opp. reflexivity.
Qed.
Lemma C35_exact_lem p : shape one_sign p -> small_text (text p) -> short_exp p -> whole p -> Qabs (numval p) <= inject_Z (2 ^ 53) ->
  representable b64 (ParseFloat (text p)) /\ fval (ParseFloat (text p)) == numval p.
Proof.
  intros S St Se W U. rewrite (numval_abs p S), (whole_value p S W) in U. rewrite <- Zle_Qle in U. destruct (whole_nn p S W) as [N1 N2].
  assert (Nv : numval p == inject_Z (if pneg p then - wholeZ p else wholeZ p)).
  { rewrite numval_sgq. unfold sgq. rewrite (whole_value p S W). destruct (pneg p); rewrite ?inject_Z_opp; ring. }
  destruct (strconv_cases p S Se) as [B|Sm].
  - pose proof (C35_rounded_lem p S B) as R. assert (O : ~ overflow b64 (numval p)).
    { apply not_overflow; [exact good64|]. rewrite (numval_abs p S), (whole_value p S W). apply Qle_lt_trans with (inject_Z (2 ^ 53)); [rewrite <- Zle_Qle; auto|vm_compute; reflexivity]. }
    unfold wholeZ in U.
    destruct (rep53 (if pneg p then - wholeZ p else wholeZ p)) as (y & Ry & Ey); [unfold wholeZ; destruct (pneg p); lia|]. rewrite <- Nv in Ey.
    destruct (rounded_exact _ _ _ _ _ R O Ry Ey) as [V _]. pose proof (rounded_finite _ _ _ _ R O) as (N & _). split; [apply N|exact V].
  - rewrite Nv. pose proof (shape_one_some _ S) as S'. rewrite (ParseFloat_formula p S'). unfold formula. apply small_parts in St. pose proof S as (Di & Ni & Hf & He).
    pose proof (shape_fracdigits _ _ S) as Df. pose proof (dval_bound _ Di) as Bi. pose proof (dval_bound _ Df) as Bd. destruct W as (W1 & W2). unfold wholeZ in *.
    assert (Sum0 : forall n, (exp_val (pexp p) = 0)%Z -> (n <= 308)%Z ->
       fexact (dval (pint p) * 10 ^ exp_val (pexp p) + dval (frac_digits p) * 10 ^ (exp_val (pexp p) - Z.of_nat (length (frac_digits p)))) (fadd b64 (nu (pint p)) (fmul b64 (nu (frac_digits p)) (Pow10 n)))).
    { intros n E Hn. rewrite E in *. assert (D0 : dval (frac_digits p) = 0%Z). { destruct W2 as [W2|W2]; auto. destruct (frac_digits p); [reflexivity|cbn [length] in W2; lia]. }
      pose proof (fx_nu _ Df ltac:(lia)) as Xd. rewrite D0 in *. change (10 ^ 0)%Z with 1%Z in *. apply fx_add; [lia|lia|lia|rewrite Z.mul_1_r; apply fx_nu; auto; lia|].
      apply fx_zero; auto; apply Pow10_fin; auto. }
    destruct (pexp p) as [[[c sg] ds]|] eqn:Ee.
    + destruct He as (Hc & Hs & Dd & Nd). rewrite (wrap64_id (dval ds)) by lia. rewrite (proj2 (Z.ltb_ge 300 (dval ds))) by lia.
      set (j := Z.of_nat (length (match pfrac p with Some f => f | None => pint p end))).
      assert (Ej : pfrac p <> None -> j = Z.of_nat (length (frac_digits p))) by (unfold j, frac_digits; destruct (pfrac p); congruence).
      assert (Hj : (0 <= j < 9223372036854775808)%Z) by (unfold j; lia). apply fx_sign. cbn [exp_val] in *.
      destruct (existsb (beqb x2d) sg) eqn:Sg.
      * assert (E0 : dval ds = 0%Z) by lia. rewrite E0 in *. change (- 0)%Z with 0%Z in *. change (wrap64 0)%Z with 0%Z.
        rewrite <- (Z.mul_1_r (_ + _)). change 1%Z with (10 ^ 0)%Z. rewrite <- Z.mul_1_r in U. change 1%Z with (10 ^ 0)%Z in U.
        apply fx_mul; [lia|apply Sum0; auto; lia|apply fx_pow; lia].
      * rewrite wrap64_id by lia. apply fx_add; auto.
        -- apply fx_scaled; auto; lia.
        -- destruct (pfrac p) as [f|] eqn:F.
           ++ rewrite (Ej ltac:(discriminate)). apply fx_scaled; auto; lia.
           ++ replace (frac_digits p) with (@nil byte) in * by (unfold frac_digits; rewrite F; reflexivity). cbn [dval] in *. rewrite Z.mul_0_l.
              apply fx_zero; [apply (fx_nu []); [constructor|cbn; lia]| |]; apply Pow10_fin; lia.
    + cbn [exp_val] in *. destruct (pfrac p) as [f|] eqn:F.
      * rewrite (proj2 (Z.leb_le (Z.of_nat (length f)) 18)) by lia. apply fx_sign. apply Sum0; auto. lia.
      * rewrite (proj2 (Z.leb_le (Z.of_nat (length (pint p))) 18)) by lia. apply fx_sign. replace (frac_digits p) with (@nil byte) in * by (unfold frac_digits; rewrite F; reflexivity). cbn [dval] in *.
        rewrite Z.mul_0_l, Z.add_0_r in *. change (10 ^ 0)%Z with 1%Z in *. rewrite Z.mul_1_r in *. apply fx_nu; auto.
Qed.
Lemma C36_whole_lem p : shape one_sign p -> small_text (text p) -> short_exp p -> whole p -> Qabs (numval p) <= inject_Z (2 ^ 53) ->
  exists z, numval p == inject_Z z /\ ParseInt (text p) = (z, true) /\ ((0 <= z)%Z -> ParseUint (text p) = (z, true)).
Proof.
  intros S St Se W U. destruct (C35_exact_lem p S St Se W U) as [R V]. rewrite (numval_abs p S), (whole_value p S W) in U. rewrite <- Zle_Qle in U. destruct (whole_nn p S W) as [N1 N2].
  exists (if pneg p then - wholeZ p else wholeZ p)%Z.
  assert (Nv : numval p == inject_Z (if pneg p then - wholeZ p else wholeZ p)).
  { rewrite numval_sgq. unfold sgq. rewrite (whole_value p S W). destruct (pneg p); rewrite ?inject_Z_opp; ring. }
  rewrite Nv in V. unfold wholeZ in *. split; auto. split; [|intro P]; unfold ParseInt, ParseUint; cbv zeta; [apply int_ok_exact|apply uint_ok_exact]; auto; destruct (pneg p); lia.
Qed.

(* ---- instances ---- *)
Definition thousand : parts := mkParts false (str "1") (Some (str "5")) (Some (x65, [x2b], str "03")).
Definition point0 : parts := mkParts true (str "7") (Some (str "000")) None.
Lemma ex_whole : text thousand = str "1.5e+03" /\ shape one_sign thousand /\ small_text (text thousand) /\ short_exp thousand /\ whole thousand /\ ParseInt (text thousand) = (1500%Z, true) /\
  text point0 = str "-7.000" /\ shape one_sign point0 /\ whole point0 /\ ParseInt (text point0) = ((-7)%Z, true) /\ snd (ParseUint (text point0)) = false.
Proof.
  assert (O : one_sign [x2b]) by (unfold one_sign; auto).
  split; [reflexivity|]. split; [repeat split; auto; try discriminate; apply digits_all; vm_compute; reflexivity|]. split; [vm_compute; reflexivity|]. split; [cbn; lia|].
  split; [split; [vm_compute; discriminate|right; vm_compute; discriminate]|]. split; [vm_compute; reflexivity|]. split; [reflexivity|].
  split; [repeat split; auto; try discriminate; apply digits_all; vm_compute; reflexivity|]. split; [split; [vm_compute; discriminate|left; reflexivity]|]. split; vm_compute; reflexivity.
Qed.
(* why the exponent is not negative: 300000e-5 is read as 3.0000000000000004 *)
Definition three : parts := mkParts false (str "300000") None (Some (x65, [x2d], str "5")).
Lemma three_rfc : rfc_number (text three).
Proof.
  change (text three) with ([] ++ (x33 :: str "00000") ++ [] ++ [x65; x2d; x35]). apply rfc_num; [left; reflexivity| |constructor|].
  - apply int_nz; [vm_compute; split; discriminate|]. apply digits_all. vm_compute. reflexivity.
  - apply (exp_signed x65 x2d x35 []); auto. apply digits_all. vm_compute. reflexivity.
Qed.
Lemma C36_whole_refuted_lem : exists p, rfc_number (text p) /\ text p = str "300000e-5" /\ numval p == 3 /\ snd (ParseInt (text p)) = false /\ snd (ParseUint (text p)) = false.
Proof. exists three. split; [exact three_rfc|]. split; [reflexivity|]. split; [vm_compute; reflexivity|]. split; vm_compute; reflexivity. Qed.
