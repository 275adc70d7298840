(* roundQ rounds correctly. *)
From Coq Require Import Lqa.
From Verif Require Import Bytes Float FloatSpec.
Open Scope Q_scope.

(* ---- powers of two ---- *)

Lemma p2_ne : ~ 2#1 == 0. Proof. discriminate. Qed.
Lemma p2_pos e : 0 < p2 e.
Proof. apply Qpower_0_lt. reflexivity. Qed.
Lemma p2_add a b : p2 (a + b) == p2 a * p2 b.
Proof. apply Qpower_plus. exact p2_ne. Qed.
Lemma p2_0 : p2 0 == 1. Proof. reflexivity. Qed.
Lemma p2_opp e : p2 (- e) == / p2 e. Proof. apply Qpower_opp. Qed.
Lemma p2_Z e : (0 <= e)%Z -> p2 e == inject_Z (2 ^ e).
Proof. intro H. unfold p2. change (2#1) with (inject_Z 2). symmetry. apply Zpower_Qpower; auto. Qed.
Lemma p2_sub a b : p2 (a - b) * p2 b == p2 a.
Proof. rewrite <- p2_add. replace (a - b + b)%Z with a by lia. reflexivity. Qed.
Lemma p2_ge1 e : (0 <= e)%Z -> 1 <= p2 e.
Proof. intro H. rewrite p2_Z by auto. change 1 with (inject_Z 1). rewrite <- Zle_Qle. pose proof (Z.pow_pos_nonneg 2 e). lia. Qed.
Lemma p2_le a b : (a <= b)%Z -> p2 a <= p2 b.
Proof.
  intro H. rewrite <- (p2_sub b a). pose proof (p2_ge1 (b - a)). pose proof (p2_pos a).
  rewrite <- (Qmult_1_l (p2 a)) at 1. apply Qmult_le_compat_r; [apply H0; lia|lra].
Qed.
Lemma p2_S e : p2 (e + 1) == 2 * p2 e.
Proof. rewrite p2_add. change (p2 1) with (2#1). lra. Qed.

Lemma inj_pos z : (0 < z)%Z -> 0 < inject_Z z.
Proof. intro. change 0 with (inject_Z 0). rewrite <- Zlt_Qlt. auto. Qed.
Lemma inj_nn z : (0 <= z)%Z -> 0 <= inject_Z z.
Proof. intro. change 0 with (inject_Z 0). rewrite <- Zle_Qle. auto. Qed.

(* ---- roundHalfEven ---- *)

Lemma roundHalfEven_Z a b : (0 <= a)%Z -> (0 < b)%Z -> let m := roundHalfEven a b in
  (0 <= m)%Z /\ (- b <= 2 * (a - m * b) <= b)%Z /\ ((2 * (a - m * b) = b \/ 2 * (a - m * b) = - b)%Z -> Z.even m = true).
Proof.
  intros Ha Hb. unfold roundHalfEven. pose proof (Z.div_mod a b) as D. pose proof (Z.mod_pos_bound a b Hb) as M.
  assert (0 <= a / b)%Z by (apply Z.div_pos; lia). specialize (D ltac:(lia)). set (q := (a / b)%Z) in *. set (r := (a mod b)%Z) in *.
  destruct (Z.compare_spec (2 * r) b) as [E|E|E]; cbn zeta.
  - destruct (Z.even q) eqn:Ev.
    + split; [nia|]. split; [nia|]. auto.
    + split; [nia|]. split; [nia|]. intros _. rewrite Z.add_1_r, Z.even_succ, <- Z.negb_even, Ev. reflexivity.
  - split; [nia|]. split; [nia|]. intros [K|K]; nia.
  - split; [nia|]. split; [nia|]. intros [K|K]; nia.
Qed.

(* X = a/b *)
Lemma roundHalfEven_Q a b X : (0 <= a)%Z -> (0 < b)%Z -> X * inject_Z b == inject_Z a -> let m := roundHalfEven a b in
  (0 <= m)%Z /\ Qabs (X - inject_Z m) <= 1#2 /\ (Qabs (X - inject_Z m) == 1#2 -> Z.even m = true).
Proof.
  intros Ha Hb HX m. destruct (roundHalfEven_Z a b Ha Hb) as (M0 & M1 & M2). fold m in M0, M1, M2.
  assert (Pb := inj_pos _ Hb).
  assert (E : (X - inject_Z m) * (2 * inject_Z b) == inject_Z (2 * (a - m * b))).
  { rewrite inject_Z_mult. unfold Z.sub. rewrite inject_Z_plus, inject_Z_opp, inject_Z_mult, <- HX. change (inject_Z 2) with (2#1). ring. }
  destruct M1 as [L U]. rewrite Zle_Qle in L, U. rewrite inject_Z_opp in L. rewrite <- E in L, U.
  split; auto. set (d := X - inject_Z m) in *. split.
  - apply Qabs_Qle_condition. split.
    + apply Qnot_lt_le. intro K. assert (d * (2 * inject_Z b) < - inject_Z b); [|lra].
      setoid_replace (- inject_Z b) with (- (1#2) * (2 * inject_Z b)) by ring. apply Qmult_lt_compat_r; lra.
    + apply Qnot_lt_le. intro K. assert (inject_Z b < d * (2 * inject_Z b)); [|lra].
      setoid_replace (inject_Z b) with ((1#2) * (2 * inject_Z b)) at 1 by ring. apply Qmult_lt_compat_r; lra.
  - intro K. apply M2. destruct (Qlt_le_dec d 0) as [N|N].
    + right. rewrite Qabs_neg in K by lra. assert (Ed : d == - (1#2)) by lra. rewrite Ed in E. apply inject_Z_injective. rewrite <- E, inject_Z_opp. ring.
    + left. rewrite Qabs_pos in K by lra. rewrite K in E. apply inject_Z_injective. rewrite <- E. ring.
Qed.

(* ---- flog ---- *)

Lemma flog_spec a b x : (0 < a)%Z -> (0 < b)%Z -> x * inject_Z b == inject_Z a ->
  p2 (flog a b) <= x /\ x < p2 (flog a b + 1).
Proof.
  intros Ha Hb Hx. pose proof (Z.log2_spec a Ha) as La. pose proof (Z.log2_spec b Hb) as Lb.
  pose proof (Z.log2_nonneg a). pose proof (Z.log2_nonneg b). unfold flog. set (k := (Z.log2 a - Z.log2 b)%Z).
  assert (Pb := inj_pos _ Hb).
  assert (Up : x < p2 (k + 1)).
  { apply Qnot_le_lt. intro K. destruct La as [_ La], Lb as [Lb _]. rewrite Zlt_Qlt in La. rewrite Zle_Qle in Lb.
    rewrite <- p2_Z in La, Lb by lia. rewrite <- Hx in La.
    assert (p2 (k + 1) * p2 (Z.log2 b) <= x * inject_Z b).
    { apply Qle_trans with (x * p2 (Z.log2 b)).
      - apply Qmult_le_compat_r; auto. apply Qlt_le_weak, p2_pos.
      - rewrite !(Qmult_comm x). apply Qmult_le_compat_r; auto. apply Qle_trans with (p2 (k + 1)); auto. apply Qlt_le_weak, p2_pos. }
    rewrite <- p2_add in H1. replace (k + 1 + Z.log2 b)%Z with (Z.succ (Z.log2 a)) in H1 by (unfold k; lia). lra. }
  assert (Lo : p2 (k - 1) < x).
  { apply Qnot_le_lt. intro K. destruct La as [La _], Lb as [_ Lb]. rewrite Zlt_Qlt in Lb. rewrite Zle_Qle in La.
    rewrite <- p2_Z in La, Lb by lia. rewrite <- Hx in La.
    assert (x * inject_Z b < p2 (k - 1) * p2 (Z.succ (Z.log2 b))).
    { apply Qle_lt_trans with (p2 (k - 1) * inject_Z b).
      - apply Qmult_le_compat_r; auto. lra.
      - rewrite !(Qmult_comm (p2 (k - 1))). apply Qmult_lt_compat_r; auto. apply p2_pos. }
    rewrite <- p2_add in H1. replace (k - 1 + Z.succ (Z.log2 b))%Z with (Z.log2 a) in H1 by (unfold k; lia). lra. }
  assert (T : (if (0 <=? k)%Z then (b * 2 ^ k <=? a)%Z else (b <=? a * 2 ^ (- k))%Z) = true <-> p2 k <= x).
  { destruct (Z.leb_spec 0 k).
    - rewrite Z.leb_le, Zle_Qle, inject_Z_mult, <- p2_Z, <- Hx, (Qmult_comm (inject_Z b)) by auto. rewrite Qmult_le_r by auto. reflexivity.
    - rewrite Z.leb_le, Zle_Qle, inject_Z_mult, <- p2_Z, <- Hx by lia. rewrite p2_opp. pose proof (p2_pos k).
      setoid_replace (x * inject_Z b * / p2 k) with ((x / p2 k) * inject_Z b) by (unfold Qdiv; ring).
      rewrite <- (Qmult_1_l (inject_Z b)) at 1. rewrite Qmult_le_r by auto.
      rewrite <- (Qmult_le_r 1 (x / p2 k) (p2 k)) by auto. rewrite Qmult_1_l.
      setoid_replace (x / p2 k * p2 k) with x by (field; lra). reflexivity. }
  destruct (if (0 <=? k)%Z then _ else _).
  - split; auto. apply T; auto.
  - replace (k - 1 + 1)%Z with k by lia. split; [lra|]. apply Qnot_le_lt. intro K. apply T in K. discriminate.
Qed.

(* ---- roundQ ---- *)

Lemma Qabs_le_tri a b c : Qabs (a - c) <= Qabs (a - b) + Qabs (b - c).
Proof. setoid_replace (a - c) with ((a - b) + (b - c)) by ring. apply Qabs_triangle. Qed.

Lemma int_apart m n : m <> n -> 1 <= Qabs (inject_Z m - inject_Z n).
Proof.
  intro H. rewrite <- inject_Z_opp, <- inject_Z_plus || idtac. unfold Qminus. rewrite <- inject_Z_opp, <- inject_Z_plus.
  change (Qabs (inject_Z (m + - n))) with (inject_Z (Z.abs (m + - n))). change 1 with (inject_Z 1). rewrite <- Zle_Qle. lia.
Qed.

(* m is nearest to X among the integers *)
Lemma nearest_int X m n : Qabs (X - inject_Z m) <= 1#2 -> (Qabs (X - inject_Z m) == 1#2 -> Z.even m = true) ->
  Qabs (X - inject_Z m) <= Qabs (X - inject_Z n) /\ (Qabs (X - inject_Z m) == Qabs (X - inject_Z n) -> m <> n -> Z.even m = true).
Proof.
  intros A B. destruct (Z.eq_dec m n) as [->|N]; [split; [lra|congruence]|].
  pose proof (int_apart _ _ N) as S. pose proof (Qabs_le_tri (inject_Z m) X (inject_Z n)) as T.
  rewrite (Qabs_Qminus (inject_Z m) X) in T. split; [lra|]. intros E _. apply B. lra.
Qed.

Record scaled (f : format) (x : Q) (e m : Z) : Prop := {
  sc_e : (femin f <= e)%Z;
  sc_m : (0 <= m <= 2 ^ fprec f)%Z;
  sc_d : Qabs (x / p2 e - inject_Z m) <= 1#2;
  sc_t : Qabs (x / p2 e - inject_Z m) == 1#2 -> Z.even m = true;
  sc_lo : (femin f < e)%Z -> inject_Z (2 ^ (fprec f - 1)) <= x / p2 e;
  sc_lm : (femin f < e)%Z -> (2 ^ (fprec f - 1) <= m)%Z;
  sc_hi : x / p2 e < inject_Z (2 ^ fprec f)
}.

Lemma inj_near_le X m h : Qabs (X - inject_Z m) <= 1#2 -> inject_Z h <= X -> (h <= m)%Z.
Proof.
  intros A B. apply Qabs_Qle_condition in A as [A1 A2]. destruct (Z_lt_le_dec m h) as [L|L]; auto. exfalso.
  assert (m + 1 <= h)%Z by lia. rewrite Zle_Qle, inject_Z_plus in H. change (inject_Z 1) with 1 in H. lra.
Qed.
Lemma inj_near_ge X m h : Qabs (X - inject_Z m) <= 1#2 -> X < inject_Z h -> (m <= h)%Z.
Proof.
  intros A B. apply Qabs_Qle_condition in A as [A1 A2]. destruct (Z_lt_le_dec h m) as [L|L]; auto. exfalso.
  assert (h + 1 <= m)%Z by lia. rewrite Zle_Qle, inject_Z_plus in H. change (inject_Z 1) with 1 in H. lra.
Qed.

Lemma roundQ_scaled f a b x : good f -> (0 < a)%Z -> (0 < b)%Z -> x * inject_Z b == inject_Z a ->
  let e := Z.max (femin f) (flog a b - (fprec f - 1)) in
  let m := if (0 <=? e)%Z then roundHalfEven a (b * 2 ^ e) else roundHalfEven (a * 2 ^ (- e)) b in
  scaled f x e m.
Proof.
  intros (G1 & G2) Ha Hb Hx e m. destruct (flog_spec a b x Ha Hb Hx) as [L U]. pose proof (p2_pos e) as Pe. pose proof (inj_pos _ Hb) as Pb.
  assert (R : (0 <= m)%Z /\ Qabs (x / p2 e - inject_Z m) <= 1#2 /\ (Qabs (x / p2 e - inject_Z m) == 1#2 -> Z.even m = true)).
  { unfold m. destruct (Z.leb_spec 0 e) as [He|He].
    - pose proof (Z.pow_pos_nonneg 2 e ltac:(lia) He). apply roundHalfEven_Q; [lia|nia|].
      rewrite inject_Z_mult, <- p2_Z, <- Hx by auto. field. lra.
    - pose proof (Z.pow_pos_nonneg 2 (- e) ltac:(lia) ltac:(lia)). apply roundHalfEven_Q; [nia|lia|].
      rewrite inject_Z_mult, <- p2_Z, <- Hx, p2_opp by lia. field. lra. }
  destruct R as (R0 & R1 & R2).
  assert (Hi : x / p2 e < inject_Z (2 ^ fprec f)).
  { rewrite <- p2_Z by lia. apply Qlt_shift_div_r; auto. rewrite <- p2_add. eapply Qlt_le_trans; [exact U|]. apply p2_le. lia. }
  assert (Lo : (femin f < e)%Z -> inject_Z (2 ^ (fprec f - 1)) <= x / p2 e).
  { intro H. rewrite <- p2_Z by lia. apply Qle_shift_div_l; auto. rewrite <- p2_add. eapply Qle_trans; [|exact L]. apply p2_le. lia. }
  constructor; auto.
  - lia.
  - split; auto. eapply inj_near_ge; eauto.
  - intro H. eapply inj_near_le; eauto.
Qed.

Lemma fval_fin s m e : fval (FFin s m e) == (if s then - (1) else 1) * (inject_Z m * p2 e).
Proof. destruct s; cbn [fval signed]; [rewrite inject_Z_opp|]; ring. Qed.

Lemma Qabs_scale c u : 0 < c -> Qabs (u * c) == Qabs u * c.
Proof. intro H. rewrite Qabs_Qmult, (Qabs_pos c) by lra. reflexivity. Qed.

Lemma mono_abs a b c : 0 < c -> (Qabs (a * c) <= Qabs (b * c) <-> Qabs a <= Qabs b).
Proof. intro H. rewrite !Qabs_scale by auto. apply Qmult_le_r; auto. Qed.
Lemma eq_abs a b c : 0 < c -> (Qabs (a * c) == Qabs (b * c) -> Qabs a == Qabs b).
Proof. intros H. rewrite !Qabs_scale by auto. intro E. apply Qmult_inj_r in E; auto. lra. Qed.

(* The heart: m * 2^e is nearest to x >= 0 among all floats; x may be negated with the sign. *)
Lemma scaled_nearest f x e m (s t : bool) n e' : good f -> 0 <= x -> scaled f x e m -> (0 <= n < 2 ^ fprec f)%Z -> (femin f <= e')%Z ->
  let q := (if s then - (1) else 1) * x in
  Qabs (q - fval (FFin s m e)) <= Qabs (q - fval (FFin t n e')) /\
  (Qabs (q - fval (FFin s m e)) == Qabs (q - fval (FFin t n e')) -> ~ fval (FFin s m e) == fval (FFin t n e') -> Z.even m = true).
Proof.
  intros (G1 & G2) Hx S Hn He' q. pose proof (p2_pos e) as Pe. set (X := x / p2 e) in *.
  set (sg := (if s then - (1) else 1)) in *.
  assert (Sg : sg * sg == 1) by (unfold sg; destruct s; reflexivity).
  assert (Ex : x == X * p2 e) by (unfold X; field; lra).
  set (Y := sg * (if t then - (1) else 1) * (inject_Z n * p2 (e' - e))).
  assert (Eq1 : q - fval (FFin s m e) == (sg * (X - inject_Z m)) * p2 e).
  { unfold q. rewrite fval_fin, Ex. fold sg. ring. }
  assert (Eq2 : q - fval (FFin t n e') == (sg * (X - Y)) * p2 e).
  { unfold q, Y. rewrite fval_fin, Ex, <- (p2_sub e' e). setoid_replace (sg * (X - sg * (if t then - (1) else 1) * (inject_Z n * p2 (e' - e))) * p2 e)
      with (sg * X * p2 e - (sg * sg) * ((if t then - (1) else 1) * (inject_Z n * (p2 (e' - e) * p2 e)))) by ring. rewrite Sg. ring. }
  assert (As : forall u, Qabs (sg * u) == Qabs u).
  { intro u. rewrite Qabs_Qmult. unfold sg. destruct s; cbn; change (Qabs (-(1))) with 1 || idtac; apply Qmult_1_l. }
  assert (D : Qabs (X - inject_Z m) <= Qabs (X - Y) /\ (Qabs (X - inject_Z m) == Qabs (X - Y) -> ~ Y == inject_Z m -> Z.even m = true)).
  { destruct (Z_le_gt_dec e e') as [C|C].
    - set (N := ((if s then -1 else 1) * (if t then -1 else 1) * (n * 2 ^ (e' - e)))%Z).
      assert (EY : Y == inject_Z N).
      { unfold Y, N. rewrite p2_Z by lia. rewrite !inject_Z_mult. unfold sg. destruct s, t; ring. }
      rewrite EY. destruct (nearest_int X m N (sc_d _ _ _ _ S) (sc_t _ _ _ _ S)) as [I1 I2]. split; auto.
      intros K1 K2. apply I2; auto. intro E. apply K2. rewrite E. reflexivity.
    - assert (Em : (femin f < e)%Z) by lia. pose proof (sc_lo _ _ _ _ S Em) as Lo. fold X in Lo.
      set (H := (2 ^ (fprec f - 1))%Z) in *.
      assert (YH : Y < inject_Z H).
      { apply Qle_lt_trans with (inject_Z n * p2 (e' - e)).
        - unfold Y, sg. pose proof (inj_nn n ltac:(lia)). pose proof (p2_pos (e' - e)).
          assert (0 <= inject_Z n * p2 (e' - e)) by (apply Qmult_le_0_compat; lra). destruct s, t; lra.
        - apply Qle_lt_trans with (inject_Z n * p2 (-1)).
          + rewrite !(Qmult_comm (inject_Z n)). apply Qmult_le_compat_r; [apply p2_le; lia|apply inj_nn; lia].
          + replace (inject_Z H) with (inject_Z H) by auto. setoid_replace (inject_Z H) with (inject_Z (2 ^ fprec f) * p2 (-1)).
            * apply Qmult_lt_compat_r; [apply p2_pos|]. rewrite <- Zlt_Qlt. lia.
            * unfold H. rewrite <- !p2_Z by lia. rewrite <- p2_add. replace (fprec f + -1)%Z with (fprec f - 1)%Z by lia. reflexivity. }
      destruct (nearest_int X m H (sc_d _ _ _ _ S) (sc_t _ _ _ _ S)) as [I1 _].
      assert (St : Qabs (X - inject_Z H) < Qabs (X - Y)).
      { rewrite !Qabs_pos by lra. lra. }
      split; [lra|]. intro K. lra. }
  rewrite Eq1, Eq2. split.
  - apply mono_abs; auto. rewrite !As. apply D.
  - intros K1 K2. apply eq_abs in K1; auto. rewrite !As in K1. apply D; auto. intro E. apply K2.
    rewrite !fval_fin. fold sg.
    assert (Z0 : q - fval (FFin s m e) == q - fval (FFin t n e')) by (rewrite Eq1, Eq2, E; reflexivity).
    rewrite !fval_fin in Z0. fold sg in Z0. lra.
Qed.

Definition sgq (s : bool) (x : Q) : Q := (if s then - (1) else 1) * x.
Lemma Qabs_sgq s x : Qabs (sgq s x) == Qabs x.
Proof. unfold sgq. rewrite Qabs_Qmult. destruct s; apply Qmult_1_l. Qed.

Theorem roundQ_rounded f s a b x : good f -> (0 <= a)%Z -> (0 < b)%Z -> x * inject_Z b == inject_Z a ->
  rounded f s (sgq s x) (roundQ f s a b).
Proof.
  intros G Ha Hb Hx. pose proof G as (G1 & G2). pose proof (inj_pos _ Hb) as Pb. unfold roundQ.
  assert (PP := Z.pow_pos_nonneg 2 (fprec f) ltac:(lia) ltac:(lia)).
  assert (P1 := Z.pow_pos_nonneg 2 (fprec f - 1) ltac:(lia) ltac:(lia)).
  assert (PD : (2 ^ fprec f = 2 * 2 ^ (fprec f - 1))%Z) by (replace (fprec f) with (1 + (fprec f - 1))%Z at 1 by lia; rewrite Z.pow_add_r by lia; reflexivity).
  pose proof (p2_pos (femax f)) as PM.
  destruct (Z.eqb_spec a 0) as [->|Na].
  - assert (Zx : x == 0) by (change (inject_Z 0) with 0 in Hx; apply Qmult_integral in Hx as [Hx|Hx]; [auto|lra]).
    split; [reflexivity|]. left. split.
    + unfold overflow. rewrite Qabs_sgq, Zx. intro K. change (Qabs 0) with 0 in K.
      assert (0 < (inject_Z (2 ^ fprec f) - (1#2)) * p2 (femax f)); [|lra]. apply Qmult_lt_0_compat; auto.
      assert (1 <= inject_Z (2 ^ fprec f)) by (change 1 with (inject_Z 1); rewrite <- Zle_Qle; lia). lra.
    + assert (Rp : representable f (FFin s 0 (femin f))) by (cbn; lia). split; auto. split; [cbn; split; [exact Rp|auto]|].
      intros y _. unfold sgq. rewrite Zx, fval_fin. change (inject_Z 0) with 0.
      assert (E0 : (if s then - (1) else 1) * 0 - (if s then - (1) else 1) * (0 * p2 (femin f)) == 0) by ring.
      rewrite E0. change (Qabs 0) with 0. split; [apply Qabs_nonneg|]. intros _ _. reflexivity.
  - assert (0 < a)%Z by lia. assert (Px : 0 < x).
    { apply Qnot_le_lt. intro K. pose proof (inj_pos _ H). rewrite <- Hx in H0. assert (x * inject_Z b <= 0 * inject_Z b) by (apply Qmult_le_compat_r; lra). lra. }
    pose proof (roundQ_scaled f a b x G H Hb Hx) as S. cbn zeta in S.
    set (e := Z.max _ _) in *. set (m := if (0 <=? e)%Z then _ else _) in *. clearbody e m.
    pose proof (p2_pos e) as Pe. assert (Ex : x == x / p2 e * p2 e) by (field; lra).
    assert (AX : Qabs (sgq s x) == x) by (rewrite Qabs_sgq, Qabs_pos; lra).
    destruct S as [S1 S2 S3 S4 S5 S6 S7]. pose proof (Build_scaled _ _ _ _ S1 S2 S3 S4 S5 S6 S7) as S.
    set (X := x / p2 e) in *. pose proof S3 as S3'. apply Qabs_Qle_condition in S3' as [D1 D2].
    (* overflow test, in terms of the final exponent *)
    assert (Big : (femax f < e)%Z -> overflow f (sgq s x)).
    { intro K. unfold overflow. rewrite AX, Ex. apply Qle_trans with (inject_Z (2 ^ fprec f) * p2 (femax f)).
      - apply Qmult_le_compat_r; lra.
      - apply Qle_trans with (inject_Z (2 ^ (fprec f - 1)) * p2 e).
        + rewrite <- !p2_Z by lia. rewrite <- !p2_add. apply p2_le. lia.
        + apply Qmult_le_compat_r; [apply S5; lia|lra]. }
    assert (Small : (e < femax f)%Z -> ~ overflow f (sgq s x)).
    { intros K O. unfold overflow in O. rewrite AX, Ex in O.
      assert (X * p2 e < inject_Z (2 ^ fprec f) * p2 e) by (apply Qmult_lt_compat_r; auto).
      assert (inject_Z (2 ^ fprec f) * p2 e <= inject_Z (2 ^ (fprec f - 1)) * p2 (femax f)).
      { rewrite <- !p2_Z by lia. rewrite <- !p2_add. apply p2_le. lia. }
      assert (inject_Z (2 ^ (fprec f - 1)) * p2 (femax f) <= (inject_Z (2 ^ fprec f) - (1#2)) * p2 (femax f)); [|lra].
      apply Qmult_le_compat_r; [|lra]. rewrite PD, inject_Z_mult. change (inject_Z 2) with (2#1).
      assert (1 <= inject_Z (2 ^ (fprec f - 1))) by (change 1 with (inject_Z 1); rewrite <- Zle_Qle; lia). lra. }
    assert (Edge : e = femax f -> (overflow f (sgq s x) <-> m = (2 ^ fprec f)%Z)).
    { intro K. unfold overflow. rewrite AX, Ex, K. split.
      - intro O. apply Qmult_le_r in O; auto. destruct (Z.eq_dec m (2 ^ fprec f)) as [|N]; auto. exfalso.
        assert (m + 1 <= 2 ^ fprec f)%Z by lia. rewrite Zle_Qle, inject_Z_plus in H0. change (inject_Z 1) with 1 in H0.
        assert (Et : X - inject_Z m == 1#2) by lra. assert (Em : inject_Z m == inject_Z (2 ^ fprec f - 1)).
        { unfold Z.sub. rewrite inject_Z_plus. change (inject_Z (-(1))) with (- (1)). lra. }
        apply (proj1 (inject_Z_injective _ _)) in Em. rewrite Et in S4. specialize (S4 (Qeq_refl _)). rewrite Em, PD in S4.
        rewrite Z.sub_1_r, Z.even_pred, Z.odd_mul in S4. discriminate.
      - intros ->. apply Qmult_le_compat_r; lra. }
    assert (Ren : inject_Z (2 ^ fprec f) * p2 e == inject_Z (2 ^ (fprec f - 1)) * p2 (e + 1)).
    { rewrite PD, inject_Z_mult, p2_S. change (inject_Z 2) with (2#1). ring. }
    destruct (Z.eqb_spec m (2 ^ fprec f)) as [Em|Nm].
    + destruct (Z.ltb_spec (femax f) (e + 1)) as [K|K].
      * split; [reflexivity|]. right. split; auto. destruct (Z.eq_dec e (femax f)) as [Ee|Ee]; [apply Edge; auto|apply Big; lia].
      * split; [reflexivity|]. left. split; [apply Small; lia|].
        assert (Rp : representable f (FFin s (2 ^ (fprec f - 1)) (e + 1))) by (cbn; lia).
        split; auto. split; [cbn; split; [exact Rp|left; lia]|].
        intros [| |t n e'] Ry; cbn in Ry; try tauto. destruct Ry as (Rn & Re).
        assert (Ev : fval (FFin s (2 ^ (fprec f - 1)) (e + 1)) == fval (FFin s m e)) by (rewrite !fval_fin, Em, Ren; reflexivity).
        rewrite Ev. destruct (scaled_nearest f x e m s t n e' G ltac:(lra) S Rn ltac:(lia)) as [N1 N2].
        split; [exact N1|]. intros _ _. cbn [even_mantissa]. rewrite Z.even_pow by lia. reflexivity.
    + destruct (Z.ltb_spec (femax f) e) as [K|K].
      * split; [reflexivity|]. right. split; auto.
      * split; [reflexivity|]. left. split.
        { destruct (Z.eq_dec e (femax f)) as [Ee|Ee]; [rewrite (Edge Ee); auto|apply Small; lia]. }
        assert (Rp : representable f (FFin s m e)) by (cbn; lia).
        split; auto. split. { cbn; split; [exact Rp|]. destruct (Z.eq_dec e (femin f)); [auto|left; apply S6; lia]. }
        intros [| |t n e'] Ry; cbn in Ry; try tauto. destruct Ry as (Rn & Re).
        destruct (scaled_nearest f x e m s t n e' G ltac:(lra) S Rn ltac:(lia)) as [N1 N2]. split; [exact N1|exact N2].
Qed.
