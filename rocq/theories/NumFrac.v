(* Lemmas for C36: numbers with fractions and exponents. *)
From Coq Require Import Lqa.
From Verif Require Import Bytes JsonSpec Types Parser Doc Float FloatSpec FloatProofs FloatOps Num NumSpec NumProofs NumThms NumClose NumInt.
Open Scope Q_scope.

Lemma int_close a b : Qabs (inject_Z a - inject_Z b) < 1 -> a = b.
Proof.
  intro H. unfold Qminus in H. rewrite <- inject_Z_opp, <- inject_Z_plus in H. change (Qabs (inject_Z (a + - b))) with (inject_Z (Z.abs (a + - b))) in H.
  change 1 with (inject_Z 1) in H. rewrite <- Zlt_Qlt in H. lia.
Qed.
(* the digits without the point, and the number, are below 2^49 *)
Definition few_digits (p : parts) : Prop := (dval (pint p ++ frac_digits p) < 2 ^ 49)%Z /\ Qabs (numval p) < inject_Z (2 ^ 49).

Lemma close_int sgOK p z : shape sgOK p -> few_digits p -> Qabs (inject_Z z - numval p) <= Qabs (numval p) * p2 (-49) -> numval p == inject_Z z.
Proof.
  intros S (F1 & F2) H. pose proof (magnitude_nonneg _ _ S) as Pm. rewrite numval_sgq in *. rewrite Qabs_sgq, (Qabs_pos (magnitude p)) in F2 by auto. rewrite (Qabs_sgq _ (magnitude p)), (Qabs_pos (magnitude p)) in H by auto.
  set (z' := if pneg p then (- z)%Z else z).
  assert (Ez : inject_Z z == sgq (pneg p) (inject_Z z')) by (unfold z', sgq; destruct (pneg p); rewrite ?inject_Z_opp; ring).
  rewrite Ez in *. apply sgq_comp.
  assert (H' : Qabs (inject_Z z' - magnitude p) <= magnitude p * p2 (-49)).
  { eapply Qle_trans; [|exact H]. setoid_replace (sgq (pneg p) (inject_Z z') - sgq (pneg p) (magnitude p)) with (sgq (pneg p) (inject_Z z' - magnitude p)) by (unfold sgq; ring).
    rewrite Qabs_sgq. apply Qle_refl. }
  clear H. rewrite magnitude_mant in *. set (D := dval (pint p ++ frac_digits p)) in *. set (k := (exp_val (pexp p) - Z.of_nat (length (frac_digits p)))%Z) in *.
  assert (U : p2 (-49) * inject_Z (2 ^ 49) == 1) by reflexivity. pose proof (p2_pos (-49)) as Pu.
  assert (PD : (0 <= D)%Z) by (apply dval_bound; apply digits_app; [apply S|eapply shape_fracdigits; eauto]).
  destruct (Z_le_gt_dec 0 k) as [K|K].
  - rewrite (p10_Z k) in * by auto. rewrite <- inject_Z_mult in *. apply inject_Z_injective. symmetry. apply int_close.
    eapply Qle_lt_trans; [exact H'|]. apply Qlt_le_trans with (inject_Z (2 ^ 49) * p2 (-49)); [apply Qmult_lt_compat_r; auto|]. rewrite Qmult_comm, U. apply Qle_refl.
  - pose proof (p10_pos k) as Pk. pose proof (pow10_pos (- k) ltac:(lia)) as Pt.
    assert (E : (z' * 10 ^ (- k) = D)%Z).
    { apply int_close. rewrite inject_Z_mult, <- p10_Z by lia. pose proof (p10_pos (- k)) as Po.
      assert (Ok : p10 (- k) * p10 k == 1) by (rewrite p10_opp; field; lra).
      setoid_replace (inject_Z z' * p10 (- k) - inject_Z D) with (p10 (- k) * (inject_Z z' - inject_Z D * p10 k)) by (transitivity (inject_Z z' * p10 (- k) - inject_Z D * (p10 (- k) * p10 k)); [rewrite Ok; ring|ring]).
      rewrite Qabs_Qmult, (Qabs_pos (p10 (- k))) by lra. apply Qle_lt_trans with (p10 (- k) * (inject_Z D * p10 k * p2 (-49))).
      - rewrite !(Qmult_comm (p10 (- k))). apply Qmult_le_compat_r; [exact H'|lra].
      - setoid_replace (p10 (- k) * (inject_Z D * p10 k * p2 (-49))) with (inject_Z D * p2 (-49) * (p10 (- k) * p10 k)) by ring. rewrite Ok, Qmult_1_r.
        apply Qlt_le_trans with (inject_Z (2 ^ 49) * p2 (-49)); [apply Qmult_lt_compat_r; auto; rewrite <- Zlt_Qlt; auto|]. rewrite Qmult_comm, U. apply Qle_refl. }
    rewrite <- E, inject_Z_mult, <- p10_Z, p10_opp by lia. field. lra.
Qed.

Lemma C36_sound_lem p z : shape some_signs p -> small_text (text p) -> small_digits p -> (Z.abs (exp_val (pexp p)) <= 285)%Z -> few_digits p ->
  ParseInt (text p) = (z, true) \/ ParseUint (text p) = (z, true) -> numval p == inject_Z z.
Proof.
  intros S St Sm E F H. destruct (C35_close_lem p S St Sm E) as [R C].
  assert (V : fval (ParseFloat (text p)) == inject_Z z).
  { unfold ParseInt, ParseUint in H. cbv zeta in H. destruct H as [H|H]; injection H as Hz Hk.
    - rewrite (toInt64_ok _ Hk) in Hz. apply intOk_iff in Hk as (_ & _ & K); auto. rewrite Hz in K. auto.
    - rewrite (toUint64_ok _ Hk) in Hz. apply uintOk_iff in Hk as (_ & _ & K); auto. rewrite Hz in K. auto. }
  eapply close_int; eauto. rewrite <- V. exact C.
Qed.
Lemma C36_fraction_lem p : shape some_signs p -> small_text (text p) -> small_digits p -> (Z.abs (exp_val (pexp p)) <= 285)%Z -> few_digits p ->
  (forall z, ~ numval p == inject_Z z) -> snd (ParseInt (text p)) = false /\ snd (ParseUint (text p)) = false.
Proof.
  intros S St Sm E F H. split; apply not_true_iff_false; intro K; eapply H; eapply C36_sound_lem; eauto.
  - left. rewrite <- K. apply surjective_pairing.
  - right. rewrite <- K. apply surjective_pairing.
Qed.
