(* Lemmas for C35 and C52: ParseFloat on all exponents. *)
From Coq Require Import Lqa Qround.
From Verif Require Import Bytes JsonSpec Float FloatSpec FloatProofs FloatOps Num NumSpec NumProofs NumThms NumClose.
Open Scope Q_scope.

(* the integer and the fraction fit in 64 bits, the power of ten of the last digit is a normal float *)
Definition wide_digits (p : parts) : Prop := (dval (pint p) < 2 ^ 64 /\ dval (frac_digits p) < 2 ^ 64 /\ Z.of_nat (length (frac_digits p)) <= 307)%Z.

(* ---- the error of one rounding, subnormal results included ---- *)
Lemma round_err s q z : rounded b64 s q z -> ~ overflow b64 q -> Qabs (fval z - q) <= Qabs q * u + p2 (-1075).
Proof.
  intros R O. pose proof (p2_pos (-1075)) as P75. destruct (Qlt_le_dec (Qabs q) (p2 (-1022))) as [L|L].
  - pose proof (rounded_finite _ _ _ _ R O) as (N & _). destruct N as (_ & _ & N).
    set (n := Qfloor (q * p2 1074 + (1#2))). pose proof (Qfloor_le (q * p2 1074 + (1#2))) as F1. pose proof (Qlt_floor (q * p2 1074 + (1#2))) as F2. fold n in F1, F2.
    rewrite inject_Z_plus in F2. change (inject_Z 1) with 1 in F2.
    pose proof (p2_pos 1074) as Pb. pose proof (p2_pos (-1074)) as Ps.
    assert (E : p2 1074 * p2 (-1074) == 1) by (vm_compute; reflexivity).
    assert (E2 : p2 (-1022) * p2 1074 == inject_Z (2 ^ 52)) by (vm_compute; reflexivity).
    assert (E3 : p2 (-1075) == (1#2) * p2 (-1074)) by (vm_compute; reflexivity).
    apply Qabs_Qlt_condition in L as [L1 L2].
    assert (B : (Z.abs n <= 2 ^ 52)%Z).
    { assert (inject_Z n < inject_Z (2 ^ 52 + 1)). { rewrite inject_Z_plus, <- E2. change (inject_Z 1) with 1. assert (q * p2 1074 < p2 (-1022) * p2 1074) by (apply Qmult_lt_compat_r; lra). lra. }
      assert (inject_Z (- 2 ^ 52 - 1) < inject_Z n). { replace (- 2 ^ 52 - 1)%Z with (- (2 ^ 52 + 1))%Z by lia. rewrite inject_Z_opp, inject_Z_plus, <- E2. change (inject_Z 1) with 1.
        assert (- p2 (-1022) * p2 1074 < q * p2 1074) by (apply Qmult_lt_compat_r; lra). lra. }
      rewrite <- Zlt_Qlt in *. lia. }
    set (y := FFin (n <? 0)%Z (Z.abs n) (-1074)).
    assert (Ry : representable b64 y) by (unfold y, representable; cbn [fprec femin femax b64]; change (2 ^ 53)%Z with (2 * 2 ^ 52)%Z; lia).
    assert (Vy : fval y == inject_Z n * p2 (-1074)).
    { unfold y, fval. replace (signed (n <? 0)%Z (Z.abs n)) with n; [reflexivity|]. unfold signed. destruct (Z.ltb_spec n 0); lia. }
    destruct (N y Ry) as [M _]. rewrite Vy in M. setoid_replace (Qabs (fval z - q)) with (Qabs (q - fval z)) by (rewrite <- Qabs_opp; apply Qabs_wd; ring).
    eapply Qle_trans; [exact M|]. apply Qle_trans with (p2 (-1075)); [|pose proof (Qabs_nonneg q); pose proof u_pos; nra].
    setoid_replace (q - inject_Z n * p2 (-1074)) with ((q * p2 1074 - inject_Z n) * p2 (-1074)) by (rewrite <- (Qmult_1_r q) at 1; rewrite <- E; ring).
    rewrite Qabs_Qmult, (Qabs_pos (p2 (-1074))) by lra. rewrite E3. apply Qmult_le_compat_r; [|lra]. apply Qabs_Qle_condition. split; lra.
  - eapply Qle_trans; [eapply nearest_rel; eauto; exact good64|]. change (ulp b64) with u. lra.
Qed.

Definition near (v : Q) (f : float) : Prop := representable b64 f /\ Qabs (fval f - v) <= Qabs v * p2 (-49) + p2 (-1074).
Lemma round_near neg v z : Qabs v <= p2 1022 -> rounded b64 neg v z -> near v z.
Proof.
  intros I R. assert (O : ~ overflow b64 v) by (apply not_overflow; [exact good64|eapply Qle_lt_trans; [exact I|reflexivity]]).
  pose proof (rounded_finite _ _ _ _ R O) as (N & _). split; [apply N|]. eapply Qle_trans; [eapply round_err; eauto|].
  assert (u <= p2 (-49)) by (vm_compute; discriminate). assert (p2 (-1075) <= p2 (-1074)) by (vm_compute; discriminate). pose proof (Qabs_nonneg v). nra.
Qed.
Lemma near_ext v v' f : v == v' -> near v f -> near v' f.
Proof. intros E [A B]. split; auto. rewrite <- E. exact B. Qed.
Lemma near_sign neg x f : 0 <= x -> near x f -> near (sgq neg x) (applySign neg f).
Proof.
  intros P [R H]. destruct neg; cbn [applySign].
  - split; [destruct f; exact R|]. rewrite fval_neg, sgq_t, Qabs_opp. setoid_replace (- fval f - - x) with (- (fval f - x)) by ring. rewrite Qabs_opp. exact H.
  - eapply near_ext; [symmetry; apply sgq_f|]. split; auto.
Qed.
Lemma fclose_near x f : fclose 12 x f -> near x f.
Proof.
  intro C. pose proof (final_close false x f C) as [A B]. cbn [applySign] in *. split; auto. rewrite sgq_f in B. pose proof (p2_pos (-1074)). lra.
Qed.
(* a product that may be subnormal *)
Lemma fmul_near a b x y f g : (a + b <= 11)%nat -> x * y <= p2 1022 -> fclose a x f -> fclose b y g -> near (x * y) (fmul b64 f g).
Proof.
  intros K I (m & e & -> & R & C) (n & e' & -> & R' & C').
  pose proof (fmul_rounded b64 false m e false n e' good64 (proj1 (proj1 R)) (proj1 (proj1 R'))) as Rd. pose proof (close_mul _ _ _ _ _ _ C C') as M.
  eapply close_weak in M; [|exact K]. pose proof (close_nn _ _ _ M) as Py.
  set (q := fval _ * fval _) in *. set (v := x * y) in *. destruct M as (A & B & D). pose proof (hi24 11 ltac:(lia)) as H11.
  assert (O : ~ overflow b64 q). { apply not_overflow; [exact good64|]. rewrite Qabs_pos by auto. apply Qle_lt_trans with (p2 1022 * (1001#1000)); [nra|vm_compute; reflexivity]. }
  pose proof (rounded_finite _ _ _ _ Rd O) as (N & _). split; [apply N|].
  pose proof (round_err _ _ _ Rd O) as Er. rewrite (Qabs_pos q Py) in Er. apply Qabs_Qle_condition in Er as [E1 E2]. rewrite (Qabs_pos v) by auto.
  assert (lo 11 * (1 - u) >= 1 - p2 (-49)) by (vm_compute; discriminate). assert (hi 11 * (1 + u) <= 1 + p2 (-49)) by (vm_compute; discriminate).
  assert (p2 (-1075) <= p2 (-1074)) by (vm_compute; discriminate). pose proof u_pos. assert (u <= 1) by (vm_compute; discriminate).
  assert (q * (1 - u) >= v * (lo 11 * (1 - u))). { apply Qle_trans with (v * lo 11 * (1 - u)); [lra|apply Qmult_le_compat_r; lra]. }
  assert (q * (1 + u) <= v * (hi 11 * (1 + u))). { apply Qle_trans with (v * hi 11 * (1 + u)); [apply Qmult_le_compat_r; lra|lra]. }
  apply Qabs_Qle_condition. split; nra.
Qed.

(* ---- the parts ---- *)
Lemma low_part d e : (0 <= d)%Z -> (-307 <= e)%Z -> inject_Z d * p10 e == 0 \/ p2 (-1021) <= inject_Z d * p10 e.
Proof.
  intros D E. pose proof (p10_pos e). destruct (Z.eq_dec d 0) as [->|N]; [left; change (inject_Z 0) with 0; ring|right].
  assert (1 <= inject_Z d) by (change 1 with (inject_Z 1); rewrite <- Zle_Qle; lia).
  apply Qle_trans with (p10 (-307)); [vm_compute; discriminate|]. apply Qle_trans with (p10 e); [apply p10_mono; lia|]. nra.
Qed.
Lemma low_inr x : x == 0 \/ p2 (-1021) <= x -> x <= p2 1022 -> inr x.
Proof. intros [H|H] L; [left|right]; auto. Qed.
Lemma ipart_nn p : digits (pint p) -> 0 <= ipart p.
Proof. intro D. apply inj_nn. apply dval_bound, D. Qed.
Lemma fpart_nn sgOK p e : shape sgOK p -> 0 <= fpart p e.
Proof.
  intro S. unfold fpart. apply Qmult_le_0_compat; [apply inj_nn, dval_bound; eapply shape_fracdigits; eauto|]. pose proof (p10_pos (e - Z.of_nat (length (frac_digits p)))). lra.
Qed.
Lemma dec_close_wide sgOK p e n : shape sgOK p -> wide_digits p -> (0 <= e <= 300)%Z -> fpart p e <= p2 1022 ->
  (pfrac p <> None -> n = (e - Z.of_nat (length (frac_digits p)))%Z) -> (n <= 308)%Z ->
  fclose 6 (fpart p e) (fmul b64 (nu (frac_digits p)) (Pow10 n)).
Proof.
  intros S (B1 & B2 & B3) E U N L. pose proof (shape_fracdigits _ _ S) as D. pose proof (dval_bound _ D) as Bd. pose proof (nu_close _ D B2) as C.
  destruct (pfrac p) as [f|] eqn:F.
  - rewrite N by discriminate. apply (fmul_close 1 4); [lia| |auto|apply Pow10_close; lia]. apply low_inr; [apply low_part; lia|exact U].
  - assert (Z0 : inject_Z (dval (frac_digits p)) == 0) by (unfold frac_digits; rewrite F; reflexivity).
    eapply fclose_ext; [|eapply zero_fmul; [eapply fclose_ext; [exact Z0|exact C]|apply Pow10_fin|apply Pow10_fin]]; auto. unfold fpart. rewrite Z0. ring.
Qed.
Lemma parts_small sgOK p : shape sgOK p -> wide_digits p -> ipart p + fpart p 0 <= p2 66.
Proof.
  intros S (B1 & B2 & B3). pose proof (dval_bound _ (shape_fracdigits _ _ S)) as Bd.
  assert (I : ipart p <= p2 64) by (unfold ipart; change (p2 64) with (inject_Z (2 ^ 64)); rewrite <- Zle_Qle; lia).
  assert (F : fpart p 0 <= p2 64).
  { unfold fpart. assert (inject_Z (dval (frac_digits p)) <= p2 64) by (change (p2 64) with (inject_Z (2 ^ 64)); rewrite <- Zle_Qle; lia).
    assert (0 <= inject_Z (dval (frac_digits p))) by (apply inj_nn; lia).
    assert (p10 (0 - Z.of_nat (length (frac_digits p))) <= p10 0) by (apply p10_mono; lia). change (p10 0) with 1 in *. pose proof (p10_pos (0 - Z.of_nat (length (frac_digits p)))). nra. }
  assert (p2 64 + p2 64 <= p2 66) by (vm_compute; discriminate). lra.
Qed.
Lemma sum_close sgOK p n : shape sgOK p -> wide_digits p -> (n <= 308)%Z -> (pfrac p <> None -> n = (- Z.of_nat (length (frac_digits p)))%Z) ->
  fclose 7 (ipart p + fpart p 0) (fadd b64 (nu (pint p)) (fmul b64 (nu (frac_digits p)) (Pow10 n))).
Proof.
  intros S W Hn En. pose proof S as (Di & _). pose proof W as (B1 & B2 & B3). pose proof (dval_bound _ (shape_fracdigits _ _ S)) as Bd. pose proof (dval_bound _ Di) as Bi.
  pose proof (parts_small _ _ S W) as U. pose proof (ipart_nn p Di) as Ni. pose proof (fpart_nn _ p 0 S) as Nf.
  assert (p2 66 <= p2 1022) by (vm_compute; discriminate).
  apply fadd_close; [lia| |apply fclose_weak with 1%nat; [lia|apply nu_close; auto]|eapply dec_close_wide; eauto; try lia; lra].
  apply low_inr; [|lra]. pose proof (low_part (dval (pint p)) 0 ltac:(lia) ltac:(lia)) as L1. change (p10 0) with 1 in L1. rewrite Qmult_1_r in L1. fold (ipart p) in L1.
  pose proof (low_part (dval (frac_digits p)) (0 - Z.of_nat (length (frac_digits p))) ltac:(lia) ltac:(lia)) as L2. fold (fpart p 0) in L2.
  destruct L1 as [L1|L1], L2 as [L2|L2]; [left; rewrite L1, L2; ring|right; lra|right; lra|right; lra].
Qed.

(* ---- every exponent ---- *)
Lemma strconv_cases p : shape one_sign p -> short_exp p -> by_strconv p \/
  match pexp p with Some (_, _, ds) => (0 <= dval ds <= 300)%Z | None => match pfrac p with Some f => (length f <= 18)%nat | None => (length (pint p) <= 18)%nat end end.
Proof.
  intros (_ & _ & _ & He) E. unfold by_strconv, short_exp in *. destruct (pexp p) as [[[c sg] ds]|].
  - destruct He as (_ & _ & Dd & _). pose proof (short_dval ds Dd E). destruct (Z_lt_le_dec 300 (dval ds)); [left; lia|right; lia].
  - destruct (pfrac p) as [f|]; [destruct (le_lt_dec (length f) 18); auto|destruct (le_lt_dec (length (pint p)) 18); auto].
Qed.
Lemma numval_abs p : shape one_sign p -> Qabs (numval p) == magnitude p.
Proof.
  intro S. rewrite numval_sgq, Qabs_sgq. apply Qabs_pos. rewrite (magnitude_parts p _ eq_refl). pose proof (ipart_nn p (proj1 S)). pose proof (fpart_nn _ p (exp_val (pexp p)) S). pose proof (p10_pos (exp_val (pexp p))). nra.
Qed.
Lemma mag_nn p : shape one_sign p -> 0 <= magnitude p.
Proof. intro S. rewrite <- (numval_abs p S). apply Qabs_nonneg. Qed.
Lemma C35_wide_lem p : shape one_sign p -> small_text (text p) -> short_exp p -> by_strconv p \/ wide_digits p -> Qabs (numval p) <= p2 1022 ->
  near (numval p) (ParseFloat (text p)).
Proof.
  intros S St Se W U. destruct (strconv_cases p S Se) as [B|Sm]; [eapply round_near; eauto; apply C35_rounded_lem; auto|].
  assert (Wd : wide_digits p). { destruct W as [B|]; auto. exfalso. unfold by_strconv in B. destruct (pexp p) as [[[c sg] ds]|]; [lia|]. destruct (pfrac p); lia. }
  clear W. rewrite (numval_abs p S) in U. pose proof (mag_nn p S) as Pm. apply small_parts in St. pose proof (shape_one_some _ S) as S'.
  rewrite (ParseFloat_formula p S'). unfold formula. pose proof S as (Di & Ni & Hf & He). pose proof Wd as (B1 & B2 & B3).
  pose proof (dval_bound _ Di) as Bi. pose proof (nu_close _ Di B1) as Ci. fold (ipart p) in Ci.
  pose proof (dval_bound _ (shape_fracdigits _ _ S)) as Bd. pose proof (ipart_nn p Di) as Pi.
  eapply near_ext; [symmetry; apply numval_sgq|].
  destruct (pexp p) as [[[c sg] ds]|] eqn:Ee.
  - destruct He as (Hc & Hs & Dd & Nd). rewrite (wrap64_id (dval ds)) by lia. rewrite (proj2 (Z.ltb_ge 300 (dval ds))) by lia. apply near_sign; auto.
    set (j := Z.of_nat (length (match pfrac p with Some f => f | None => pint p end))).
    assert (Ej : pfrac p <> None -> j = Z.of_nat (length (frac_digits p))) by (unfold j, frac_digits; destruct (pfrac p); congruence).
    assert (Hj : (0 <= j < 9223372036854775808)%Z) by (unfold j; lia).
    destruct (existsb (beqb x2d) sg) eqn:Sg.
    + assert (Ev : exp_val (pexp p) = (- dval ds)%Z) by (rewrite Ee; cbn [exp_val]; rewrite Sg; auto).
      rewrite wrap64_id by lia. eapply near_ext; [symmetry; apply (magnitude_scaled p _ Ev)|].
      apply (fmul_near 7 4); [lia|rewrite <- (magnitude_scaled p _ Ev); auto| |apply Pow10_close; lia]. eapply sum_close; eauto; [lia|]. intro Hn. rewrite (Ej Hn). reflexivity.
    + assert (Ev : exp_val (pexp p) = dval ds) by (rewrite Ee; cbn [exp_val]; rewrite Sg; auto).
      pose proof (magnitude_parts p _ Ev) as Em. rewrite Em in U. pose proof (p10_pos (dval ds)) as Pp. pose proof (fpart_nn _ p (dval ds) S) as Pf.
      assert (Pip : 0 <= ipart p * p10 (dval ds)) by nra.
      pose proof (low_part (dval (pint p)) (dval ds) ltac:(lia) ltac:(lia)) as L1. fold (ipart p) in L1.
      pose proof (low_part (dval (frac_digits p)) (dval ds - Z.of_nat (length (frac_digits p))) ltac:(lia) ltac:(lia)) as L2. fold (fpart p (dval ds)) in L2.
      eapply near_ext; [symmetry; exact Em|]. apply fclose_near. apply fclose_weak with 7%nat; [lia|].
      apply fadd_close; [lia| | |].
      * apply low_inr; [|exact U]. destruct L1 as [L1|L1], L2 as [L2|L2]; [left; rewrite L1, L2; ring|right; lra|right; lra|right; lra].
      * apply (fmul_close 1 4); [lia| |auto|apply Pow10_close; lia]. apply low_inr; [auto|lra].
      * eapply dec_close_wide; eauto; try lia; try (rewrite wrap64_id by lia; lia); [lra|]. intro Hn. rewrite wrap64_id by lia. rewrite (Ej Hn). reflexivity.
  - assert (Em : magnitude p == ipart p + fpart p 0) by (rewrite (magnitude_scaled p 0) by (rewrite Ee; reflexivity); change (p10 0) with 1; ring).
    destruct (pfrac p) as [f|] eqn:F.
    + rewrite (proj2 (Z.leb_le (Z.of_nat (length f)) 18)) by lia. apply near_sign; auto. eapply near_ext; [symmetry; exact Em|]. apply fclose_near. apply fclose_weak with 7%nat; [lia|].
      eapply sum_close; eauto; [lia|]. intros _. unfold frac_digits. rewrite F. reflexivity.
    + rewrite (proj2 (Z.leb_le (Z.of_nat (length (pint p))) 18)) by lia. apply near_sign; auto. apply fclose_near. apply fclose_weak with 1%nat; [lia|]. eapply fclose_ext; [|exact Ci].
      rewrite Em. unfold fpart, frac_digits. rewrite F. cbn [dval length Z.of_nat]. change (inject_Z 0) with 0. ring.
Qed.

(* ---- too large for a float ---- *)
Lemma p2_over q : p2 1024 <= q -> overflow b64 q.
Proof. intro H. unfold overflow. pose proof (p2_pos 1024). rewrite Qabs_pos by lra. eapply Qle_trans; [|exact H]. vm_compute. discriminate. Qed.
Lemma fmul_over a b x y f g : (a + b <= 11)%nat -> p2 1025 <= x * y -> fclose a x f -> fclose b y g -> fmul b64 f g = FInf false.
Proof.
  intros K I (m & e & -> & R & C) (n & e' & -> & R' & C').
  pose proof (fmul_rounded b64 false m e false n e' good64 (proj1 (proj1 R)) (proj1 (proj1 R'))) as Rd. pose proof (close_mul _ _ _ _ _ _ C C') as M.
  set (q := fval _ * fval _) in *. set (v := x * y) in *. destruct M as (A & B & D). pose proof (lo24 (a + b) ltac:(lia)) as L.
  assert (O : overflow b64 q). { apply p2_over. assert (p2 1025 == 2 * p2 1024) as E by reflexivity. rewrite E in I. nra. }
  destruct Rd as (_ & [[N _]|[_ E]]); [contradiction|exact E].
Qed.
Lemma fadd_inf_l g : posF g -> fadd b64 (FInf false) g = FInf false.
Proof. intros (S & _). destruct g as [|s|s m e]; try discriminate; [injection S as ->|]; reflexivity. Qed.
Lemma fadd_inf_r f : posF f -> fadd b64 f (FInf false) = FInf false.
Proof. intros (S & _). destruct f as [|s|s m e]; try discriminate; [injection S as ->|]; reflexivity. Qed.
Lemma C35_over_lem p : shape one_sign p -> small_text (text p) -> short_exp p -> by_strconv p \/ wide_digits p -> p2 1026 <= Qabs (numval p) ->
  ParseFloat (text p) = FInf (pneg p).
Proof.
  intros S St Se W U. destruct (strconv_cases p S Se) as [B|Sm].
  { destruct (C35_rounded_lem p S B) as (_ & [[N _]|[_ E]]); [|exact E]. exfalso. apply N. unfold overflow. eapply Qle_trans; [|exact U]. vm_compute. discriminate. }
  assert (Wd : wide_digits p). { destruct W as [B|]; auto. exfalso. unfold by_strconv in B. destruct (pexp p) as [[[c sg] ds]|]; [lia|]. destruct (pfrac p); lia. }
  clear W. rewrite (numval_abs p S) in U. apply small_parts in St. pose proof (shape_one_some _ S) as S'.
  rewrite (ParseFloat_formula p S'). unfold formula. pose proof S as (Di & Ni & Hf & He). pose proof Wd as (B1 & B2 & B3).
  pose proof (dval_bound _ Di) as Bi. pose proof (nu_close _ Di B1) as Ci. fold (ipart p) in Ci.
  pose proof (shape_fracdigits _ _ S) as Df. pose proof (dval_bound _ Df) as Bd. pose proof (nu_close _ Df B2) as Cd. pose proof (ipart_nn p Di) as Pi. pose proof (fpart_nn _ p 0 S) as P0.
  pose proof (parts_small _ _ S Wd) as Up. assert (Q66 : p2 66 < p2 1026) by (vm_compute; reflexivity).
  assert (Sign : forall x, x = FInf false -> applySign (pneg p) x = FInf (pneg p)) by (intros x ->; destruct (pneg p); reflexivity).
  destruct (pexp p) as [[[c sg] ds]|] eqn:Ee.
  - destruct He as (Hc & Hs & Dd & Nd). rewrite (wrap64_id (dval ds)) by lia. rewrite (proj2 (Z.ltb_ge 300 (dval ds))) by lia. apply Sign.
    destruct (existsb (beqb x2d) sg) eqn:Sg.
    + exfalso. assert (Ev : exp_val (pexp p) = (- dval ds)%Z) by (rewrite Ee; cbn [exp_val]; rewrite Sg; auto). rewrite (magnitude_scaled p _ Ev) in U.
      assert (p10 (- dval ds) <= p10 0) by (apply p10_mono; lia). change (p10 0) with 1 in *. pose proof (p10_pos (- dval ds)).
      set (t := ipart p + fpart p 0) in *. assert (0 <= t) by (unfold t; lra). assert (t * p10 (- dval ds) <= t * 1) by (rewrite !(Qmult_comm t); apply Qmult_le_compat_r; lra). lra.
    + assert (Ev : exp_val (pexp p) = dval ds) by (rewrite Ee; cbn [exp_val]; rewrite Sg; auto). rewrite (magnitude_parts p _ Ev) in U.
      rewrite wrap64_id by lia.
      destruct (nu_fin (pint p)) as [Pn Fn]. destruct (nu_fin (frac_digits p)) as [Pd Fd].
      destruct (Pow10_fin (dval ds) ltac:(lia)) as [P1 P2].
      match goal with |- fadd _ _ (fmul _ _ (Pow10 ?n)) = _ => destruct (Pow10_fin n ltac:(lia)) as [P3 P4] end.
      destruct (Qlt_le_dec (ipart p * p10 (dval ds)) (p2 1025)) as [L|L].
      * assert (L2 : p2 1025 <= fpart p (dval ds)) by (assert (p2 1026 == 2 * p2 1025) as E by reflexivity; rewrite E in U; lra).
        destruct (pfrac p) as [f|] eqn:F.
        -- replace (frac_digits p) with f in * by (unfold frac_digits; rewrite F; reflexivity).
           rewrite (fmul_over 1 4 (inject_Z (dval f)) (p10 (dval ds - Z.of_nat (length f))) (nu f)); [|lia| |exact Cd|apply Pow10_close; lia].
           ++ apply fadd_inf_r. apply fmul_pos; auto.
           ++ unfold fpart in L2. unfold frac_digits in L2. rewrite F in L2. exact L2.
        -- exfalso. unfold fpart, frac_digits in L2. rewrite F in L2. cbn [dval] in L2. change (inject_Z 0) with 0 in L2. pose proof (p2_pos 1025). lra.
      * rewrite (fmul_over 1 4 (ipart p) (p10 (dval ds)) (nu (pint p))); [|lia|exact L|exact Ci|apply Pow10_close; lia].
        apply fadd_inf_l. apply fmul_pos; auto.
  - exfalso. rewrite (magnitude_scaled p 0) in U by (rewrite Ee; reflexivity). change (p10 0) with 1 in U. lra.
Qed.

(* ---- why the length of the fraction is bounded ---- *)
Definition deep : parts := mkParts false (str "0") (Some (repeat x30 305 ++ str "1844674407370955161")) (Some (x65, [], str "0")).
Lemma digits_all f : forallb (fun c => (48 <=? bN c)%N && (bN c <=? 57)%N) f = true -> Forall digit f.
Proof. intro H. rewrite forallb_forall in H. apply Forall_forall. intros c I. specialize (H c I). apply andb_prop in H as [A B]. apply N.leb_le in A. apply N.leb_le in B. split; auto. Qed.
Lemma deep_rfc : rfc_number (text deep).
Proof.
  change (text deep) with ([] ++ [x30] ++ (x2e :: x30 :: (repeat x30 304 ++ str "1844674407370955161")) ++ [x65; x30]).
  apply rfc_num; [left; reflexivity|constructor| |].
  - constructor. apply digits_all. vm_compute. reflexivity.
  - apply (exp_plain x65 x30 []); auto. repeat constructor; vm_compute; discriminate.
Qed.
Lemma C35_deep_lem : exists p, rfc_number (text p) /\ (dval (pint p) < 2 ^ 64)%Z /\ (dval (frac_digits p) < 2 ^ 64)%Z /\ (p2 (-1022) <= numval p)%Q /\ fval (ParseFloat (text p)) == 0.
Proof. exists deep. split; [exact deep_rfc|]. split; [vm_compute; reflexivity|]. split; [vm_compute; reflexivity|]. split; [vm_compute; discriminate|vm_compute; reflexivity]. Qed.

(* ---- instances ---- *)
Definition tiny : parts := mkParts true (str "4") (Some (str "9")) (Some (x65, [x2d], str "324")).
Definition low : parts := mkParts false (str "123") (Some (str "4")) (Some (x45, [x2d], str "300")).
Definition high : parts := mkParts false (str "98765432") (Some (str "1")) (Some (x65, [x2b], str "299")).
Definition huge : parts := mkParts true (str "98765432109") None (Some (x65, [], str "299")).
Lemma wide_examples :
  (text low = str "123.4E-300" /\ shape one_sign low /\ small_text (text low) /\ short_exp low /\ wide_digits low /\ Qabs (numval low) <= p2 1022) /\
  (text high = str "98765432.1e+299" /\ shape one_sign high /\ small_text (text high) /\ short_exp high /\ wide_digits high /\ Qabs (numval high) <= p2 1022) /\
  (text tiny = str "-4.9e-324" /\ shape one_sign tiny /\ by_strconv tiny /\ ParseFloat (text tiny) = FFin true 1 (-1074)) /\
  (text huge = str "-98765432109e299" /\ shape one_sign huge /\ wide_digits huge /\ p2 1026 <= Qabs (numval huge)).
Proof.
  assert (D : forall p, match pexp p with Some (c, sg, ds) => (c = x65 \/ c = x45) /\ one_sign sg /\ digits ds /\ ds <> [] | None => True end ->
     match pfrac p with Some ds => digits ds /\ ds <> [] | None => True end -> digits (pint p) -> pint p <> [] -> shape one_sign p) by (intros p A B C E; repeat split; auto).
  assert (O : one_sign [x2d] /\ one_sign [x2b] /\ one_sign []) by (unfold one_sign; auto). destruct O as (O1 & O2 & O3).
  repeat match goal with |- _ /\ _ => split end; try reflexivity; try (vm_compute; reflexivity); try (vm_compute; discriminate);
    try (apply D; cbn [pexp pfrac pint low high tiny huge]; [|try exact I| |discriminate]; repeat match goal with |- _ /\ _ => split end; auto; try discriminate; try (apply digits_all; vm_compute; reflexivity)).
  all: try (unfold short_exp, wide_digits; cbn; lia).
Qed.
