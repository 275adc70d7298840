(* The arithmetic operations round correctly; exactness; relative error. *)
From Coq Require Import Lqa.
From Verif Require Import Bytes Float FloatSpec FloatProofs.
Open Scope Q_scope.

Lemma good64 : good b64. Proof. split; cbn; lia. Qed.
Lemma good32 : good b32. Proof. split; cbn; lia. Qed.

Lemma dyadic_spec m e a b : dyadic m e = (a, b) -> (0 < b)%Z /\ (inject_Z m * p2 e) * inject_Z b == inject_Z a /\ ((0 <= m)%Z -> (0 <= a)%Z).
Proof.
  unfold dyadic. destruct (Z.leb_spec 0 e) as [H|H]; injection 1 as <- <-.
  - pose proof (Z.pow_pos_nonneg 2 e ltac:(lia) H). split; [lia|]. split; [|nia]. rewrite inject_Z_mult, p2_Z by auto. change (inject_Z 1) with 1. ring.
  - split; [apply Z.pow_pos_nonneg; lia|]. split; [|auto]. rewrite <- p2_Z, p2_opp by lia. field. pose proof (p2_pos e). lra.
Qed.

Lemma rounded_ext f s q q' x : q == q' -> rounded f s q x -> rounded f s q' x.
Proof.
  intros E (H1 & H2). split; auto. unfold overflow, nearest in *. destruct H2 as [(O & N1 & N2 & N3)|(O & N)].
  - left. split; [rewrite <- E; auto|]. split; auto. split; auto. intros y Hy. specialize (N3 y Hy). rewrite <- E. exact N3.
  - right. split; [rewrite <- E; auto|auto].
Qed.

(* A nonnegative mantissa. *)
Definition nonneg (x : float) : Prop := match x with FFin _ m _ => (0 <= m)%Z | _ => True end.
Lemma nearest_nonneg f q x : nearest f q x -> nonneg x.
Proof. intros (R & _). destruct x; cbn in *; tauto || lia. Qed.
Lemma rounded_nonneg f s q x : rounded f s q x -> nonneg x.
Proof. intros (_ & [(_ & N)|(_ & ->)]); [eapply nearest_nonneg; eauto|exact I]. Qed.
Lemma rounded_sign f s q x : rounded f s q x -> fsign x = Some s.
Proof. intros (H & _). auto. Qed.
Lemma rounded_nan f s q x : rounded f s q x -> x <> FNaN.
Proof. intros (H & _) ->. discriminate. Qed.
Lemma rounded_finite f s q x : rounded f s q x -> ~ overflow f q -> nearest f q x /\ exists m e, x = FFin s m e /\ (0 <= m)%Z.
Proof.
  intros (H & [(_ & N)|(O & _)]) Hq; [|contradiction]. split; auto. pose proof (nearest_nonneg _ _ _ N) as P.
  destruct N as (R & _). destruct x as [| |s' m e]; cbn in R; try tauto. injection H as ->. eauto.
Qed.

Lemma sgq_mul s t x y : sgq (xorb s t) (x * y) == sgq s x * sgq t y.
Proof. unfold sgq. destruct s, t; cbn [xorb]; ring. Qed.
Lemma fval_sgq s m e : fval (FFin s m e) == sgq s (inject_Z m * p2 e).
Proof. apply fval_fin. Qed.

Lemma fmul_rounded f s m e t n e' : good f -> (0 <= m)%Z -> (0 <= n)%Z ->
  rounded f (xorb s t) (fval (FFin s m e) * fval (FFin t n e')) (fmul f (FFin s m e) (FFin t n e')).
Proof.
  intros G Hm Hn. cbn [fmul]. destruct (dyadic (m * n) (e + e')) as [a b] eqn:D. apply dyadic_spec in D as (Db & Dx & Da).
  eapply rounded_ext; [|apply roundQ_rounded; [auto|apply Da; nia|auto|exact Dx]].
  rewrite !fval_sgq, <- sgq_mul. unfold sgq. rewrite inject_Z_mult, p2_add. ring.
Qed.

Lemma fdiv_rounded f s m e t n e' : good f -> (0 <= m)%Z -> (0 < n)%Z ->
  rounded f (xorb s t) (fval (FFin s m e) / fval (FFin t n e')) (fdiv f (FFin s m e) (FFin t n e')).
Proof.
  intros G Hm Hn. cbn [fdiv]. destruct (Z.eqb_spec n 0) as [|_]; [lia|]. destruct (dyadic m (e - e')) as [a b] eqn:D. apply dyadic_spec in D as (Db & Dx & Da).
  pose proof (inj_pos _ Hn) as Pn. pose proof (inj_pos _ Db) as Pb. pose proof (p2_pos e'). pose proof (p2_pos (e - e')).
  eapply rounded_ext; [|apply (roundQ_rounded f _ a (b * n) (inject_Z m * p2 (e - e') / inject_Z n)); [auto|auto|nia|]].
  - rewrite !fval_sgq. unfold sgq. rewrite <- (p2_sub e e'). destruct s, t; cbn [xorb]; field; lra.
  - rewrite inject_Z_mult, <- Dx. field. lra.
Qed.

Global Instance sgq_comp s : Proper (Qeq ==> Qeq) (sgq s).
Proof. intros x y E. unfold sgq. rewrite E. reflexivity. Qed.
Lemma signed_Q s m : inject_Z (signed s m) == sgq s (inject_Z m).
Proof. unfold sgq. destruct s; cbn [signed]; [rewrite inject_Z_opp|]; ring. Qed.
Lemma Zabs_Q z : inject_Z z == sgq (z <? 0)%Z (inject_Z (Z.abs z)).
Proof.
  unfold sgq. destruct (Z.ltb_spec z 0).
  - rewrite Z.abs_neq, inject_Z_opp by lia. ring.
  - rewrite Z.abs_eq by lia. ring.
Qed.
(* exact sum *)
Definition sumZ s m e t n e' : Z := (signed s m * 2 ^ (e - Z.min e e') + signed t n * 2 ^ (e' - Z.min e e'))%Z.
Lemma sumZ_val s m e t n e' : inject_Z (sumZ s m e t n e') * p2 (Z.min e e') == fval (FFin s m e) + fval (FFin t n e').
Proof.
  unfold sumZ. rewrite inject_Z_plus, !inject_Z_mult, <- !p2_Z by lia. cbn [fval].
  setoid_replace (inject_Z (signed s m) * p2 e + inject_Z (signed t n) * p2 e') with
    (inject_Z (signed s m) * (p2 (e - Z.min e e') * p2 (Z.min e e')) + inject_Z (signed t n) * (p2 (e' - Z.min e e') * p2 (Z.min e e')));
    [ring|rewrite !p2_sub; reflexivity].
Qed.
Lemma fadd_rounded f s m e t n e' : good f -> sumZ s m e t n e' <> 0%Z ->
  rounded f (sumZ s m e t n e' <? 0)%Z (fval (FFin s m e) + fval (FFin t n e')) (fadd f (FFin s m e) (FFin t n e')).
Proof.
  intros G N. pose proof (sumZ_val s m e t n e') as V. cbn [fadd]. fold (sumZ s m e t n e'). set (z := sumZ _ _ _ _ _ _) in *.
  destruct (Z.eqb_spec z 0) as [|_]; [contradiction|]. destruct (dyadic (Z.abs z) (Z.min e e')) as [a b] eqn:D. apply dyadic_spec in D as (Db & Dx & Da).
  eapply rounded_ext; [|apply roundQ_rounded; [auto|apply Da; lia|auto|exact Dx]].
  rewrite <- V, (Zabs_Q z) at 1. unfold sgq. ring.
Qed.
Lemma fadd_zero f s m e t n e' : sumZ s m e t n e' = 0%Z -> fadd f (FFin s m e) (FFin t n e') = FFin (s && t) 0 (femin f).
Proof. intro H. cbn [fadd]. fold (sumZ s m e t n e'). rewrite H. reflexivity. Qed.

Lemma fofZ_rounded f z : good f -> rounded f (z <? 0)%Z (inject_Z z) (fofZ f z).
Proof.
  intro G. unfold fofZ. eapply rounded_ext; [|apply (roundQ_rounded f _ (Z.abs z) 1 (inject_Z (Z.abs z))); auto; try lia].
  - symmetry. apply Zabs_Q.
  - change (inject_Z 1) with 1. ring.
Qed.

(* ---- exactness ---- *)

Lemma canonical_unique f s m e n e' : good f -> canonical f (FFin s m e) -> canonical f (FFin s n e') ->
  inject_Z m * p2 e == inject_Z n * p2 e' -> m = n /\ e = e'.
Proof.
  intros (G1 & G2).
  assert (L : forall m e n e', canonical f (FFin s m e) -> canonical f (FFin s n e') -> inject_Z m * p2 e == inject_Z n * p2 e' -> (e < e')%Z -> False).
  { clear m e n e'. intros m e n e' ((M & E) & _) ((N & E') & C) V Lt. destruct C as [C|C]; [|lia].
    rewrite <- (p2_sub e' e), Qmult_assoc in V. pose proof (p2_pos e). apply Qmult_inj_r in V; [|lra].
    rewrite p2_Z, <- inject_Z_mult in V by lia. apply (proj1 (inject_Z_injective _ _)) in V.
    assert (2 <= 2 ^ (e' - e))%Z. { replace (e' - e)%Z with (1 + (e' - e - 1))%Z by lia. rewrite Z.pow_add_r by lia. pose proof (Z.pow_pos_nonneg 2 (e' - e - 1)). lia. }
    assert (2 ^ fprec f = 2 * 2 ^ (fprec f - 1))%Z by (replace (fprec f) with (1 + (fprec f - 1))%Z at 1 by lia; rewrite Z.pow_add_r by lia; reflexivity).
    nia. }
  intros C1 C2 V. destruct (Z.lt_trichotomy e e') as [K|[K|K]].
  - exfalso. eapply (L m e n e'); eauto.
  - subst. pose proof (p2_pos e'). apply Qmult_inj_r in V; [|lra]. apply (proj1 (inject_Z_injective _ _)) in V. auto.
  - exfalso. symmetry in V. eapply (L n e' m e); eauto.
Qed.

(* A number that is a float rounds to itself. *)
Lemma Qabs_0 q : Qabs q <= 0 -> q == 0.
Proof. intro H. apply Qabs_Qle_condition in H. lra. Qed.
Lemma rounded_exact f s q x y : rounded f s q x -> ~ overflow f q -> representable f y -> fval y == q -> fval x == q /\ finite x.
Proof.
  intros R O Ry E. apply rounded_finite in R as (N & m & e & -> & _); auto. split; [|exact I].
  destruct N as (_ & _ & N). destruct (N y Ry) as [L _]. setoid_replace (q - fval y) with 0 in L by (rewrite E; ring).
  change (Qabs 0) with 0 in L. apply Qabs_0 in L. lra.
Qed.
Lemma not_overflow f q : good f -> Qabs q < p2 (fprec f + femax f - 1) -> ~ overflow f q.
Proof.
  intros (G1 & G2) L O. unfold overflow in O.
  assert (P1 := Z.pow_pos_nonneg 2 (fprec f - 1) ltac:(lia) ltac:(lia)).
  assert (PD : (2 ^ fprec f = 2 * 2 ^ (fprec f - 1))%Z) by (replace (fprec f) with (1 + (fprec f - 1))%Z at 1 by lia; rewrite Z.pow_add_r by lia; reflexivity).
  assert (p2 (fprec f + femax f - 1) <= (inject_Z (2 ^ fprec f) - (1#2)) * p2 (femax f)); [|lra].
  replace (fprec f + femax f - 1)%Z with (fprec f - 1 + femax f)%Z by lia. rewrite p2_add, p2_Z by lia.
  apply Qmult_le_compat_r; [|apply Qlt_le_weak, p2_pos]. rewrite PD, inject_Z_mult. change (inject_Z 2) with (2#1).
  assert (1 <= inject_Z (2 ^ (fprec f - 1))) by (change 1 with (inject_Z 1); rewrite <- Zle_Qle; lia). lra.
Qed.

(* ---- monotonicity with respect to a representable bound ---- *)

Lemma nearest_ge f q x y : nearest f q x -> representable f y -> fval y <= q -> fval y <= fval x.
Proof.
  intros (_ & _ & N) R L. destruct (N y R) as [D _]. rewrite (Qabs_pos (q - fval y)) in D by lra.
  apply Qabs_Qle_condition in D. lra.
Qed.
Lemma nearest_le f q x y : nearest f q x -> representable f y -> q <= fval y -> fval x <= fval y.
Proof.
  intros (_ & _ & N) R L. destruct (N y R) as [D _]. rewrite (Qabs_neg (q - fval y)) in D by lra.
  apply Qabs_Qle_condition in D. lra.
Qed.

(* ---- relative error ---- *)

Definition ulp (f : format) : Q := p2 (- fprec f).
Lemma nearest_rel f s q x : good f -> rounded f s q x -> ~ overflow f q -> p2 (femin f + fprec f - 1) <= Qabs q ->
  Qabs (fval x - q) <= Qabs q * ulp f.
Proof.
  intros (G1 & G2) R O B. apply rounded_finite in R as (N & _); auto.
  (* a neighbour of q at distance at most half a unit *)
  set (a := Qabs q) in *. pose proof (p2_pos (femin f + fprec f - 1)) as Pq.
  set (num := Qnum a). set (den := Zpos (Qden a)).
  assert (Hx : a * inject_Z den == inject_Z num).
  { unfold num, den. destruct a as [n d]. cbn [Qnum Qden]. unfold Qeq, inject_Z. cbn. lia. }
  assert (Pn : (0 < num)%Z).
  { unfold num. assert (0 < a) by lra. unfold Qlt in H. cbn in H. lia. }
  pose proof (roundQ_scaled f num den a (conj G1 G2) Pn ltac:(unfold den; lia) Hx) as S. cbn zeta in S.
  set (e := Z.max _ _) in *. set (m := if (0 <=? e)%Z then _ else _) in *. clearbody e m.
  pose proof (p2_pos e) as Pe. pose proof (sc_d _ _ _ _ S) as D. pose proof (sc_e _ _ _ _ S) as Em.
  set (t := Qle_bool 0 q).
  set (y := if (m =? 2 ^ fprec f)%Z then FFin (negb t) (2 ^ (fprec f - 1)) (e + 1) else FFin (negb t) m e).
  assert (PD : (2 ^ fprec f = 2 * 2 ^ (fprec f - 1))%Z) by (replace (fprec f) with (1 + (fprec f - 1))%Z at 1 by lia; rewrite Z.pow_add_r by lia; reflexivity).
  assert (P1 := Z.pow_pos_nonneg 2 (fprec f - 1) ltac:(lia) ltac:(lia)).
  assert (Vy : fval y == sgq (negb t) (inject_Z m * p2 e)).
  { unfold y. destruct (Z.eqb_spec m (2 ^ fprec f)) as [->|_]; rewrite fval_sgq; [|reflexivity]. unfold sgq.
    rewrite PD, inject_Z_mult, p2_S. change (inject_Z 2) with (2#1). ring. }
  assert (Qt : q == sgq (negb t) a).
  { unfold sgq, a, t. destruct (Qle_bool 0 q) eqn:B0.
    - apply Qle_bool_iff in B0. rewrite Qabs_pos by auto. cbn [negb]. ring.
    - assert (~ 0 <= q). { intro K. apply Qle_bool_iff in K. congruence. } rewrite Qabs_neg by lra. cbn [negb]. ring. }
  assert (Dy : Qabs (q - fval y) <= (1#2) * p2 e).
  { rewrite Vy, Qt at 1. setoid_replace (sgq (negb t) a - sgq (negb t) (inject_Z m * p2 e)) with (sgq (negb t) ((a / p2 e - inject_Z m) * p2 e)).
    - rewrite Qabs_sgq, Qabs_scale by auto. apply Qmult_le_compat_r; [auto|lra].
    - unfold sgq. field. lra. }
  assert (Lo : p2 (e + fprec f - 1) <= a).
  { destruct (Z.eq_dec e (femin f)) as [->|Ne]; [auto|]. pose proof (sc_lo _ _ _ _ S ltac:(lia)) as L. rewrite <- p2_Z in L by lia.
    apply (fun H => Qmult_le_compat_r _ _ _ H (Qlt_le_weak _ _ Pe)) in L. rewrite <- p2_add in L.
    replace (fprec f - 1 + e)%Z with (e + fprec f - 1)%Z in L by lia. eapply Qle_trans; [exact L|]. apply Qle_lteq. right. field. lra. }
  assert (Ry : representable f y).
  { pose proof (sc_m _ _ _ _ S) as Sm. pose proof (sc_hi _ _ _ _ S) as Sh.
    assert (Eb : (e <= femax f)%Z /\ (m = 2 ^ fprec f -> e < femax f)%Z).
    { split.
      - apply Z.nlt_ge. intro K. apply O. unfold overflow. fold a. eapply Qle_trans; [|exact Lo].
        apply Qle_trans with (inject_Z (2 ^ fprec f) * p2 (femax f)); [apply Qmult_le_compat_r; [lra|apply Qlt_le_weak, p2_pos]|].
        rewrite <- p2_Z, <- p2_add by lia. apply p2_le. lia.
      - intros Mm. apply Z.nle_gt. intro K. apply O. unfold overflow. fold a.
        apply Qabs_Qle_condition in D as [D1 D2]. rewrite Mm in D1.
        apply Qle_trans with ((inject_Z (2 ^ fprec f) - (1#2)) * p2 e).
        + rewrite !(Qmult_comm (_ - _)). apply Qmult_le_compat_r; [apply p2_le; lia|].
          assert (1 <= inject_Z (2 ^ fprec f)) by (change 1 with (inject_Z 1); rewrite <- Zle_Qle; lia). lra.
        + apply Qle_trans with (a / p2 e * p2 e); [apply Qmult_le_compat_r; lra|]. apply Qle_lteq. right. field. lra. }
    unfold y. destruct (Z.eqb_spec m (2 ^ fprec f)); cbn [representable]; lia. }
  destruct N as (_ & _ & N). destruct (N y Ry) as [L _]. rewrite Qabs_Qminus. eapply Qle_trans; [exact L|]. eapply Qle_trans; [exact Dy|].
  unfold ulp. apply Qle_trans with (p2 (e + fprec f - 1) * p2 (- fprec f)).
  - rewrite <- p2_add. replace (e + fprec f - 1 + - fprec f)%Z with (e - 1)%Z by lia. replace e with (e - 1 + 1)%Z at 1 by lia. rewrite p2_S. lra.
  - apply Qmult_le_compat_r; auto. apply Qlt_le_weak, p2_pos.
Qed.
