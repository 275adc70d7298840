(* Lemmas for C33, C34, C36. *)
From Coq Require Import Lqa.
From Verif Require Import Bytes JsonSpec Types Parser Doc Float FloatSpec FloatProofs FloatOps Num NumSpec NumProofs NumThms Utf8Proofs.
Open Scope Q_scope.

Lemma rfc_decimal s : rfc_number s -> decimal_text s.
Proof.
  intros [m i f e Hm Hi Hf He].
  assert (Di : digits i /\ i <> []).
  { destruct Hi as [|d ds H F].
    - split; [|discriminate]. constructor; [vm_compute; split; discriminate|constructor].
    - split; [|discriminate]. constructor; [unfold digit19, digit in *; lia|exact F]. }
  assert (exists pf, frac_text pf = f /\ match pf with Some ds => digits ds /\ ds <> [] | None => True end) as (pf & <- & Pf).
  { destruct Hf as [|d ds F]; [exists None; auto|]. exists (Some (d :: ds)). repeat split; auto. discriminate. }
  assert (exists pe, exp_text pe = e /\ match pe with Some (c, sg, ds) => (c = x65 \/ c = x45) /\ one_sign sg /\ digits ds /\ ds <> [] | None => True end) as (pe & <- & Pe).
  { destruct He as [|c d ds Hc F|c sg d ds Hc Hs F].
    - exists None. auto.
    - exists (Some (c, [], d :: ds)). split; [reflexivity|]. split; auto. split; [left; auto|]. split; [exact F|discriminate].
    - exists (Some (c, [sg], d :: ds)). split; [reflexivity|]. split; auto. split; [unfold one_sign; destruct Hs as [->| ->]; auto|]. split; [exact F|discriminate]. }
  destruct Hm as [->| ->].
  - exists (mkParts false i pf pe). split; [|reflexivity]. split; [apply Di|]. split; [apply Di|]. split; auto.
  - exists (mkParts true i pf pe). split; [|reflexivity]. split; [apply Di|]. split; [apply Di|]. split; auto.
Qed.

Lemma C33_nan s : (forall p, shape some_signs p -> s <> text p) -> ParseFloat s = FNaN.
Proof.
  intro H. destruct (ParseFloat s) eqn:E; auto; exfalso;
    (assert (N : ParseFloat s <> FNaN) by (rewrite E; discriminate); apply ParseFloat_inv in N as (p & S & ->); eapply H; eauto).
Qed.

Lemma C33_signs_refuted_lem : exists s, ~ decimal_text s /\ ParseFloat s <> FNaN.
Proof.
  exists (str "1e+-5"). split; [|vm_compute; discriminate].
  intros ([neg i f e] & (Di & Ni & Hf & He) & E). unfold text in E. cbn [pneg pint pfrac pexp] in *.
  destruct neg; [discriminate|]. destruct i as [|c i]; [congruence|]. cbn [app] in E. injection E as <- E.
  destruct i as [|c i]; [|cbn [app] in E; injection E as <- E; inversion Di; subst; inversion H2; subst; vm_compute in H3; destruct H3; congruence].
  cbn [app] in E. destruct f as [f|]; [discriminate|]. cbn [app frac_text] in E. destruct e as [[[c sg] ds]|]; [|discriminate].
  cbn [exp_text] in E. injection E as <- E. destruct He as (_ & Hs & Dd & _). destruct Hs as [->|[->| ->]]; cbn [app] in E.
  - subst ds. inversion Dd; subst. vm_compute in H1. destruct H1. congruence.
  - discriminate.
  - injection E as <-. inversion Dd; subst. vm_compute in H1. destruct H1. congruence.
Qed.
Lemma C33_refuted_lem : exists s, rfc_number s /\ ParseFloat s = FNaN.
Proof.
  exists (str "0e-18446744073709551216"). split; [|vm_compute; reflexivity].
  change (str "0e-18446744073709551216") with ([] ++ [x30] ++ [] ++ [x65; x2d] ++ str "18446744073709551216").
  apply rfc_num; [left; reflexivity|constructor|constructor|]. apply (exp_signed x65 x2d x31 (str "8446744073709551216")); auto.
  apply Forall_forall. intros c I. repeat (destruct I as [<-|I]; [vm_compute; split; discriminate|]). destruct I.
Qed.

(* ---- C34 ---- *)

Lemma int_numval p : pfrac p = None -> pexp p = None -> numval p == inject_Z (intval p).
Proof.
  intros F E. unfold numval, magnitude, frac_digits, intval. rewrite F, E. cbn [dval length exp_val Z.of_nat Z.opp].
  change (p10 0) with 1. change (inject_Z 0) with 0. destruct (pneg p); rewrite ?inject_Z_opp; ring.
Qed.
Lemma ten18 : (10 ^ 18 < two64Z)%Z. Proof. reflexivity. Qed.
Lemma C34_rounded p : integer_text p -> rounded b64 (pneg p) (inject_Z (intval p)) (ParseFloat (text p)).
Proof.
  intros (S & F & E). rewrite (ParseFloat_formula p (shape_one_some _ S)). unfold formula. rewrite F, E.
  destruct (Z.leb_spec (Z.of_nat (length (pint p))) 18) as [L|L].
  - destruct S as (Di & _). pose proof (short_dval (pint p) Di ltac:(lia)) as B. pose proof ten18.
    eapply rounded_ext; [|apply rounded_sign_apply; unfold nu; rewrite Z.mod_small by lia; pose proof (fofZ_rounded b64 (dval (pint p)) good64) as R;
      rewrite (proj2 (Z.ltb_ge _ 0)) in R by lia; exact R].
    unfold intval, sgq. destruct (pneg p); rewrite ?inject_Z_opp; ring.
  - eapply rounded_ext; [|apply strconv_rounded; auto]. apply int_numval; auto.
Qed.

Definition repZ (z : Z) : float := FFin (z <? 0)%Z (Z.abs z) 0.
Lemma repZ_rep z : (Z.abs z < 2 ^ 53)%Z -> representable b64 (repZ z) /\ fval (repZ z) == inject_Z z.
Proof.
  intro H. split; [cbn; cbn in H; lia|]. unfold repZ. rewrite fval_sgq. change (p2 0) with 1. rewrite Qmult_1_r. symmetry. apply Zabs_Q.
Qed.
Lemma rep53 z : (Z.abs z <= 2 ^ 53)%Z -> float_int z.
Proof.
  intro H. destruct (Z_lt_le_dec (Z.abs z) (2 ^ 53)) as [L|L]; [exists (repZ z); apply repZ_rep; auto|].
  exists (FFin (z <? 0)%Z (2 ^ 52) 1). split; [cbn; lia|]. rewrite fval_sgq, (Zabs_Q z). assert (Z.abs z = 2 ^ 53)%Z as -> by lia.
  apply sgq_comp. reflexivity.
Qed.
Lemma small_not_overflow z : (Z.abs z <= 2 ^ 64)%Z -> ~ overflow b64 (inject_Z z).
Proof.
  intro H. apply not_overflow; [exact good64|]. change (Qabs (inject_Z z)) with (inject_Z (Z.abs z)). apply Qle_lt_trans with (p2 64).
  - rewrite p2_Z by lia. rewrite <- Zle_Qle. exact H.
  - reflexivity.
Qed.
Lemma C34_exact_lem p : integer_text p -> (Z.abs (intval p) <= 2 ^ 53)%Z -> finite (ParseFloat (text p)) /\ fval (ParseFloat (text p)) == inject_Z (intval p).
Proof.
  intros T H. pose proof (C34_rounded p T) as R. destruct (rep53 _ H) as (y & Ry & Ey).
  assert (O : ~ overflow b64 (inject_Z (intval p))) by (apply small_not_overflow; lia).
  destruct (rounded_exact _ _ _ _ _ R O Ry Ey); auto.
Qed.

(* ---- comparisons, integers ---- *)

Lemma fcmp_spec s m e t n e' : fcmp (FFin s m e) (FFin t n e') = Some (fval (FFin s m e) ?= fval (FFin t n e')).
Proof.
  cbn [fcmp]. f_equal. set (e0 := Z.min e e'). set (a := (signed s m * 2 ^ (e - e0))%Z). set (b := (signed t n * 2 ^ (e' - e0))%Z).
  assert (A : fval (FFin s m e) == inject_Z a * p2 e0).
  { unfold a. rewrite inject_Z_mult, <- p2_Z by lia. cbn [fval]. rewrite <- (p2_sub e e0). ring. }
  assert (B : fval (FFin t n e') == inject_Z b * p2 e0).
  { unfold b. rewrite inject_Z_mult, <- p2_Z by lia. cbn [fval]. rewrite <- (p2_sub e' e0). ring. }
  pose proof (p2_pos e0) as P. destruct (Z.compare_spec a b) as [E|E|E]; symmetry.
  - apply Qeq_alt. rewrite A, B, E. reflexivity.
  - apply Qlt_alt. rewrite A, B. apply Qmult_lt_compat_r; auto. rewrite <- Zlt_Qlt. auto.
  - apply Qgt_alt. rewrite A, B. apply Qmult_lt_compat_r; auto. rewrite <- Zlt_Qlt. auto.
Qed.
Lemma flt_iff x y : finite x -> finite y -> (flt x y = true <-> fval x < fval y).
Proof.
  destruct x as [| |s m e], y as [| |t n e']; cbn [finite]; try tauto. intros _ _. unfold flt. rewrite fcmp_spec, Qlt_alt.
  destruct (_ ?= _); split; congruence.
Qed.
Lemma fle_iff x y : finite x -> finite y -> (fle x y = true <-> fval x <= fval y).
Proof.
  destruct x as [| |s m e], y as [| |t n e']; cbn [finite]; try tauto. intros _ _. unfold fle. rewrite fcmp_spec, Qle_alt.
  destruct (_ ?= _); split; congruence.
Qed.
Lemma feq_iff x y : finite x -> finite y -> (feq x y = true <-> fval x == fval y).
Proof.
  destruct x as [| |s m e], y as [| |t n e']; cbn [finite]; try tauto. intros _ _. unfold feq. rewrite fcmp_spec, Qeq_alt.
  destruct (_ ?= _); split; congruence.
Qed.

(* truncation *)
Lemma trunc_rep s m e : representable b64 (FFin s m e) -> (e < 0)%Z ->
  finite (ftrunc b64 (FFin s m e)) /\ fval (ftrunc b64 (FFin s m e)) == inject_Z (signed s (m / 2 ^ (- e))).
Proof.
  intros ((M1 & M2) & E) N. cbn [ftrunc]. rewrite (proj2 (Z.ltb_lt e 0)) by auto.
  pose proof (Z.pow_pos_nonneg 2 (- e) ltac:(lia) ltac:(lia)) as P. set (d := (m / 2 ^ (- e))%Z).
  assert (Hd : (0 <= d < 2 ^ 53)%Z).
  { split; [apply Z.div_pos; lia|]. eapply Z.le_lt_trans; [|exact M2]. apply Z.div_le_upper_bound; nia. }
  pose proof (roundQ_rounded b64 s d 1 (inject_Z d) good64 ltac:(lia) ltac:(lia) ltac:(change (inject_Z 1) with 1; ring)) as R.
  destruct (repZ_rep (signed s d)) as [Rr Rv]; [destruct s; cbn [signed]; lia|].
  eapply rounded_ext in R; [|symmetry; apply signed_Q].
  destruct (rounded_exact _ _ _ _ (repZ (signed s d)) R) as [V F]; auto. apply small_not_overflow. destruct s; cbn [signed]; lia.
Qed.
Lemma ftrunc_int x : representable b64 x -> (feq (ftrunc b64 x) x = true <-> fval x == inject_Z (ftoZ x)).
Proof.
  destruct x as [| |s m e]; cbn [representable]; try tauto. intro R. cbn [ftoZ]. destruct (Z.ltb_spec e 0) as [L|L].
  - destruct (trunc_rep s m e R L) as [F V]. rewrite feq_iff by (auto; exact I). rewrite V. split; intro H; symmetry; exact H.
  - cbn [ftrunc]. rewrite (proj2 (Z.ltb_ge e 0)) by auto. rewrite feq_iff by exact I. split; [intros _|reflexivity].
    cbn [fval]. destruct s; cbn [signed]; rewrite ?inject_Z_opp, inject_Z_mult, <- p2_Z by auto; ring.
Qed.
Lemma ftoZ_int x z : representable b64 x -> fval x == inject_Z z -> ftoZ x = z.
Proof.
  destruct x as [| |s m e]; cbn [representable]; try tauto. intros R H. apply (proj1 (inject_Z_injective _ _)). rewrite <- H. symmetry.
  cbn [ftoZ]. destruct (Z.ltb_spec e 0) as [L|L].
  - rewrite signed_Q, fval_sgq. apply sgq_comp. rewrite fval_sgq in H.
    (* m = |z| * 2^-e *)
    assert (Em : (m = Z.abs z * 2 ^ (- e))%Z).
    { apply (proj1 (inject_Z_injective _ _)). rewrite inject_Z_mult, <- p2_Z, p2_opp by lia. pose proof (p2_pos e) as P.
      assert (A : inject_Z m * p2 e == inject_Z (Z.abs z)).
      { assert (A : Qabs (sgq s (inject_Z m * p2 e)) == Qabs (inject_Z z)) by (rewrite H; reflexivity). rewrite Qabs_sgq in A.
        rewrite Qabs_pos in A; [exact A|]. apply Qmult_le_0_compat; [apply inj_nn; lia|lra]. }
      rewrite <- A. field. lra. }
    pose proof (Z.pow_pos_nonneg 2 (- e) ltac:(lia) ltac:(lia)) as P2.
    rewrite Em, Z.div_mul, inject_Z_mult, <- p2_Z, p2_opp by lia. field. pose proof (p2_pos e). lra.
  - rewrite signed_Q, fval_sgq, inject_Z_mult, <- p2_Z by auto. reflexivity.
Qed.

(* the bounds *)
Lemma lo63 : fofZ b64 (-9223372036854775808) = FFin true 4503599627370496 11. Proof. reflexivity. Qed.
Lemma hi63 : fofZ b64 9223372036854775807 = FFin false 4503599627370496 11. Proof. reflexivity. Qed.
Lemma hi64 : fofZ b64 18446744073709551615 = FFin false 4503599627370496 12. Proof. reflexivity. Qed.

(* ok and the result, for a finite float *)
Lemma intOk_iff x : representable b64 x ->
  (intOk x = true <-> inject_Z (- 2 ^ 63) <= fval x /\ fval x < inject_Z (2 ^ 63) /\ fval x == inject_Z (ftoZ x)).
Proof.
  intro R. assert (F : finite x) by (destruct x; cbn in *; tauto). unfold intOk. rewrite lo63, hi63, !andb_true_iff.
  rewrite fle_iff, flt_iff, ftrunc_int by (auto; exact I).
  change (fval (FFin true 4503599627370496 11)) with (inject_Z (- 2 ^ 63)). change (fval (FFin false 4503599627370496 11)) with (inject_Z (2 ^ 63)). tauto.
Qed.
Lemma uintOk_iff x : representable b64 x ->
  (uintOk x = true <-> 0 <= fval x /\ fval x < inject_Z (2 ^ 64) /\ fval x == inject_Z (ftoZ x)).
Proof.
  intro R. assert (F : finite x) by (destruct x; cbn in *; tauto). unfold uintOk. rewrite hi64, !andb_true_iff.
  rewrite fle_iff, flt_iff, ftrunc_int by (auto; exact I).
  assert (Z0 : fval zeroF == 0) by reflexivity. rewrite Z0. change (fval (FFin false 4503599627370496 12)) with (inject_Z (2 ^ 64)). tauto.
Qed.
Lemma intOk_inf s : intOk (FInf s) = false. Proof. destruct s; reflexivity. Qed.
Lemma uintOk_inf s : uintOk (FInf s) = false. Proof. destruct s; reflexivity. Qed.
Lemma toInt64_ok x : intOk x = true -> toInt64 x = ftoZ x.
Proof. unfold intOk, toInt64. intro H. apply andb_prop in H as [-> _]. reflexivity. Qed.
Lemma toUint64_ok x : uintOk x = true -> toUint64 x = ftoZ x.
Proof. unfold uintOk, toUint64. intro H. apply andb_prop in H as [-> _]. reflexivity. Qed.

(* ---- C36 ---- *)

Lemma int_rep p : integer_text p -> ~ overflow b64 (inject_Z (intval p)) ->
  nearest b64 (inject_Z (intval p)) (ParseFloat (text p)) /\ representable b64 (ParseFloat (text p)).
Proof.
  intros T O. pose proof (C34_rounded p T) as R. apply rounded_finite in R as (N & _); auto. split; auto. apply N.
Qed.
Lemma int_ok_exact x z : representable b64 x -> fval x == inject_Z z -> (- 2 ^ 63 <= z < 2 ^ 63)%Z -> (toInt64 x, intOk x) = (z, true).
Proof.
  intros R V B. assert (K : intOk x = true).
  { apply intOk_iff; auto. rewrite (ftoZ_int x z R V). split; [|split; auto]; rewrite V; [rewrite <- Zle_Qle|rewrite <- Zlt_Qlt]; lia. }
  rewrite (toInt64_ok x K), K, (ftoZ_int x z R V). reflexivity.
Qed.
Lemma uint_ok_exact x z : representable b64 x -> fval x == inject_Z z -> (0 <= z < 2 ^ 64)%Z -> (toUint64 x, uintOk x) = (z, true).
Proof.
  intros R V B. assert (K : uintOk x = true).
  { apply uintOk_iff; auto. rewrite (ftoZ_int x z R V). split; [|split; auto]; rewrite V; [apply inj_nn; lia|rewrite <- Zlt_Qlt; lia]. }
  rewrite (toUint64_ok x K), K, (ftoZ_int x z R V). reflexivity.
Qed.
Lemma float_int_exact p : integer_text p -> float_int (intval p) -> (Z.abs (intval p) <= 2 ^ 64)%Z ->
  representable b64 (ParseFloat (text p)) /\ fval (ParseFloat (text p)) == inject_Z (intval p).
Proof.
  intros T (y & Ry & Ey) H. pose proof (small_not_overflow _ H) as O. destruct (int_rep p T O) as [_ R]. split; auto.
  destruct (rounded_exact _ _ _ _ _ (C34_rounded p T) O Ry Ey); auto.
Qed.
Lemma C36_int_iff p : integer_text p -> (ParseInt (text p) = (intval p, true) <-> float_int (intval p) /\ (- 2 ^ 63 <= intval p < 2 ^ 63)%Z).
Proof.
  intro T. split.
  - intro H. unfold ParseInt in H. cbv zeta in H. injection H as Hz Hk.
    destruct (C34_rounded p T) as (_ & [(_ & N)|(_ & I)]); [|rewrite I, intOk_inf in Hk; discriminate].
    rewrite (toInt64_ok _ Hk) in Hz. apply intOk_iff in Hk as (K1 & K2 & K3); [|apply N]. rewrite Hz in K3. split.
    + exists (ParseFloat (text p)). split; [apply N|auto].
    + rewrite K3 in K1, K2. rewrite <- Zle_Qle in K1. rewrite <- Zlt_Qlt in K2. lia.
  - intros (F & B). destruct (float_int_exact p T F ltac:(lia)) as [R V]. unfold ParseInt. cbv zeta. apply int_ok_exact; auto.
Qed.
Lemma C36_uint_iff p : integer_text p -> (ParseUint (text p) = (intval p, true) <-> float_int (intval p) /\ (0 <= intval p < 2 ^ 64)%Z).
Proof.
  intro T. split.
  - intro H. unfold ParseUint in H. cbv zeta in H. injection H as Hz Hk.
    destruct (C34_rounded p T) as (_ & [(_ & N)|(_ & I)]); [|rewrite I, uintOk_inf in Hk; discriminate].
    rewrite (toUint64_ok _ Hk) in Hz. apply uintOk_iff in Hk as (K1 & K2 & K3); [|apply N]. rewrite Hz in K3. split.
    + exists (ParseFloat (text p)). split; [apply N|auto].
    + rewrite K3 in K1, K2. change 0 with (inject_Z 0) in K1. rewrite <- Zle_Qle in K1. rewrite <- Zlt_Qlt in K2. lia.
  - intros (F & B). destruct (float_int_exact p T F ltac:(lia)) as [R V]. unfold ParseUint. cbv zeta. apply uint_ok_exact; auto.
Qed.
Lemma C36_int_lem p : integer_text p -> (Z.abs (intval p) <= 2 ^ 53)%Z -> ParseInt (text p) = (intval p, true).
Proof. intros T H. apply C36_int_iff; auto. split; [apply rep53; auto|lia]. Qed.
Lemma C36_uint_lem p : integer_text p -> (0 <= intval p <= 2 ^ 53)%Z -> ParseUint (text p) = (intval p, true).
Proof. intros T H. apply C36_uint_iff; auto. split; [apply rep53; lia|lia]. Qed.

(* above and below the range *)
Lemma rep_p63 : representable b64 (FFin false 4503599627370496 11). Proof. cbn. lia. Qed.
Lemma rep_p64 : representable b64 (FFin false 4503599627370496 12). Proof. cbn. lia. Qed.
Lemma out_hi q s x y : rounded b64 s q x -> s = false -> representable b64 y -> fval y <= q -> (exists t, x = FInf t) \/ (representable b64 x /\ fval y <= fval x).
Proof.
  intros (Sx & [(O & N)|(O & ->)]) -> Ry L; [right|left; eauto]. split; [apply N|]. eapply nearest_ge; eauto.
Qed.
Lemma neg_false p : shape one_sign p -> (0 < intval p)%Z -> pneg p = false.
Proof.
  intros (D & _) H. unfold intval in H. destruct (pneg p); auto. pose proof (dval_bound _ D). lia.
Qed.
Lemma C36_int_high_lem p : integer_text p -> (2 ^ 63 <= intval p)%Z -> snd (ParseInt (text p)) = false.
Proof.
  intros T H. pose proof (C34_rounded p T) as R. unfold ParseInt. cbn [snd].
  destruct (out_hi _ _ _ (FFin false 4503599627370496 11) R) as [(t & ->)|(Rx & L)]; [apply neg_false; [apply T|lia]|exact rep_p63| |apply intOk_inf|].
  - change (fval (FFin false 4503599627370496 11)) with (inject_Z (2 ^ 63)). rewrite <- Zle_Qle. auto.
  - apply not_true_iff_false. intro K. apply intOk_iff in K as (_ & K & _); auto. change (fval (FFin false 4503599627370496 11)) with (inject_Z (2 ^ 63)) in L. lra.
Qed.
Lemma C36_uint_high_lem p : integer_text p -> (2 ^ 64 <= intval p)%Z -> snd (ParseUint (text p)) = false.
Proof.
  intros T H. pose proof (C34_rounded p T) as R. unfold ParseUint. cbn [snd].
  destruct (out_hi _ _ _ (FFin false 4503599627370496 12) R) as [(t & ->)|(Rx & L)]; [apply neg_false; [apply T|lia]|exact rep_p64| |apply uintOk_inf|].
  - change (fval (FFin false 4503599627370496 12)) with (inject_Z (2 ^ 64)). rewrite <- Zle_Qle. auto.
  - apply not_true_iff_false. intro K. apply uintOk_iff in K as (_ & K & _); auto. change (fval (FFin false 4503599627370496 12)) with (inject_Z (2 ^ 64)) in L. lra.
Qed.
(* -2^63 - 2048 *)
Definition below63 : float := FFin true 4503599627370497 11.
Lemma C36_int_low_lem p : integer_text p -> (intval p <= - 2 ^ 63 - 2048)%Z -> snd (ParseInt (text p)) = false.
Proof.
  intros T H. pose proof (C34_rounded p T) as R. unfold ParseInt. cbn [snd]. destruct R as (Sx & [(O & N)|(O & ->)]); [|apply intOk_inf].
  assert (L : fval (ParseFloat (text p)) <= fval below63).
  { eapply nearest_le; eauto; [cbn; lia|]. change (fval below63) with (inject_Z (- 2 ^ 63 - 2048)). rewrite <- Zle_Qle. auto. }
  apply not_true_iff_false. intro K. apply intOk_iff in K as (K & _); [|apply N].
  change (fval below63) with (inject_Z (- 2 ^ 63 - 2048)) in L. assert (inject_Z (- 2 ^ 63 - 2048) < inject_Z (- 2 ^ 63)) by reflexivity. lra.
Qed.
Lemma C36_uint_neg_lem p : integer_text p -> (intval p < 0)%Z -> snd (ParseUint (text p)) = false.
Proof.
  intros T H. pose proof (C34_rounded p T) as R. unfold ParseUint. cbn [snd]. destruct R as (Sx & [(O & N)|(O & ->)]); [|apply uintOk_inf].
  assert (L : fval (ParseFloat (text p)) <= fval (repZ (-1))).
  { eapply nearest_le; eauto; [cbn; lia|]. destruct (repZ_rep (-1)) as [_ ->]; [reflexivity|]. rewrite <- Zle_Qle. lia. }
  destruct (repZ_rep (-1)) as [_ E]; [reflexivity|]. rewrite E in L. change (inject_Z (-1)) with (- (1)) in L.
  apply not_true_iff_false. intro K. apply uintOk_iff in K as (K & _); [|apply N]. lra.
Qed.
Lemma C36_malformed_lem s : ParseFloat s = FNaN -> snd (ParseInt s) = false /\ snd (ParseUint s) = false.
Proof. intro H. unfold ParseInt, ParseUint. cbn [snd]. rewrite H. split; reflexivity. Qed.
(* ok means that the float nearest to the number is the integer returned *)
Lemma C36_nearest_lem p z : integer_text p -> ParseInt (text p) = (z, true) ->
  exists x, nearest b64 (inject_Z (intval p)) x /\ fval x == inject_Z z.
Proof.
  intros T H. unfold ParseInt in H. cbv zeta in H. injection H as Hz Hk. exists (ParseFloat (text p)).
  pose proof (C34_rounded p T) as R. destruct R as (_ & [(O & N)|(O & E)]); [|rewrite E, intOk_inf in Hk; discriminate].
  split; auto. rewrite <- Hz, (toInt64_ok _ Hk). apply intOk_iff in Hk; [apply Hk|apply N].
Qed.

Definition int_parts (z : Z) : parts := mkParts (z <? 0)%Z (FormatUint (Z.to_N (Z.abs z))) None None.
Lemma C36_refuted_lem : exists p z, integer_text p /\ ParseInt (text p) = (z, true) /\ z <> intval p.
Proof.
  exists (mkParts false (str "9007199254740993") None None), 9007199254740992%Z.
  split; [|split; [vm_compute; reflexivity|vm_compute; discriminate]]. split; [|split; reflexivity].
  split; [|split; [discriminate|split; exact I]]. cbn [pint]. apply Forall_forall. intros c I. repeat (destruct I as [<-|I]; [vm_compute; split; discriminate|]). destruct I.
Qed.
Lemma C36_range_refuted_lem : exists p, integer_text p /\ (intval p < - 2 ^ 63)%Z /\ snd (ParseInt (text p)) = true.
Proof.
  exists (mkParts true (str "9223372036854775809") None None).
  split; [|split; [reflexivity|vm_compute; reflexivity]]. split; [|split; reflexivity].
  split; [|split; [discriminate|split; exact I]]. cbn [pint]. apply Forall_forall. intros c I. repeat (destruct I as [<-|I]; [vm_compute; split; discriminate|]). destruct I.
Qed.
Lemma C36_fraction_refuted_lem : exists p, shape one_sign p /\ (forall z, ~ numval p == inject_Z z) /\ snd (ParseInt (text p)) = true.
Proof.
  exists (mkParts false (str "1") (Some (str "00000000000000000001")) None).
  split; [|split; [|vm_compute; reflexivity]].
  - split; [|split; [discriminate|split; [|exact I]]]; cbn [pint pfrac].
    + repeat constructor; vm_compute; discriminate.
    + split; [|discriminate]. apply Forall_forall. intros c I. repeat (destruct I as [<-|I]; [vm_compute; split; discriminate|]). destruct I.
  - intros z H. unfold Qeq in H. set (q := numval _) in H. cbn [Qden Qnum inject_Z] in H.
    assert (Qnum q = 100000000000000000001 /\ QDen q = 100000000000000000000)%Z as [E1 E2] by (split; vm_compute; reflexivity).
    rewrite E1, E2 in H. lia.
Qed.

(* ---- FormatInt ---- *)

Lemma digitsOf_spec fuel : forall n, (N.to_nat (N.log2 n) < fuel)%nat -> digits (digitsOf fuel n) /\ digitsOf fuel n <> [] /\ dval (digitsOf fuel n) = Z.of_N n.
Proof.
  induction fuel as [|fuel IH]; intros n L; [lia|]. cbn [digitsOf].
  assert (Dg : forall k, (k < 10)%N -> digit (Nb (48 + k)) /\ (Z.of_N (bN (Nb (48 + k))) - 48 = Z.of_N k)%Z).
  { intros k Hk. assert (bN (Nb (48 + k)) = 48 + k)%N as E.
    { apply bNb. lia. }
    unfold digit. rewrite E. lia. }
  destruct (N.ltb_spec n 10) as [H|H].
  - destruct (Dg n H) as [D V]. split; [constructor; [auto|constructor]|]. split; [discriminate|]. cbn [dval length]. change (10 ^ Z.of_nat 0)%Z with 1%Z. lia.
  - assert (Ln : (N.to_nat (N.log2 (n / 10)) < fuel)%nat).
    { assert (N.log2 (n / 10) < N.log2 n)%N; [|lia]. apply N.le_lt_trans with (N.log2 (n / 2)).
      - apply N.log2_le_mono. apply N.div_le_compat_l. lia.
      - rewrite <- N.div2_div. rewrite N.div2_spec, N.log2_shiftr by lia. assert (1 <= N.log2 n)%N by (apply (N.log2_le_mono 2); lia). lia. }
    destruct (IH _ Ln) as (D1 & D2 & D3). destruct (Dg (n mod 10)%N) as [D V]; [apply N.mod_lt; discriminate|].
    split; [apply digits_app; auto; constructor; [auto|constructor]|]. split; [destruct (digitsOf fuel (n / 10)); discriminate|].
    rewrite dval_app, D3. cbn [length dval]. change (10 ^ Z.of_nat 1)%Z with 10%Z. change (10 ^ Z.of_nat 0)%Z with 1%Z.
    rewrite V. pose proof (N.div_mod n 10 ltac:(discriminate)). lia.
Qed.
Lemma FormatUint_spec n : digits (FormatUint n) /\ FormatUint n <> [] /\ dval (FormatUint n) = Z.of_N n.
Proof.
  apply digitsOf_spec. destruct n as [|p]; [cbn; lia|].
  assert (E : N.size_nat (N.pos p) = N.to_nat (N.size (N.pos p))).
  { cbn. clear. induction p; cbn; rewrite ?IHp, ?Pos2Nat.inj_succ; auto. }
  rewrite E, N.size_log2 by discriminate. lia.
Qed.
Lemma FormatInt_text z : FormatInt z = text (int_parts z) /\ integer_text (int_parts z) /\ intval (int_parts z) = z.
Proof.
  unfold FormatInt, int_parts, text, integer_text, shape, intval. cbn [pneg pint pfrac pexp frac_text exp_text].
  destruct (FormatUint_spec (Z.to_N (Z.abs z))) as (D & N & V). rewrite !app_nil_r. destruct (Z.ltb_spec z 0) as [L|L].
  - rewrite Z.abs_neq in * by lia. repeat split; auto. rewrite V. lia.
  - rewrite Z.abs_eq in * by lia. repeat split; auto. rewrite V. lia.
Qed.

