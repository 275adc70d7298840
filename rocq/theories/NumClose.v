(* Lemmas for C35: relative error of ParseFloat. *)
From Coq Require Import Lqa.
From Verif Require Import Bytes JsonSpec Types Parser Doc Float FloatSpec FloatProofs FloatOps Num NumSpec NumProofs NumThms.
Open Scope Q_scope.

Definition u : Q := p2 (-53).
Fixpoint lo (k : nat) : Q := match k with O => 1 | S k => lo k * (1 - u) end.
Fixpoint hi (k : nat) : Q := match k with O => 1 | S k => hi k * (1 + u) end.
Lemma u_pos : 0 < u /\ u < 1#1000. Proof. split; reflexivity. Qed.
Lemma lo_pos k : 0 < lo k <= 1.
Proof. pose proof u_pos. induction k as [|k IH]; cbn [lo]; [lra|]. split; [apply Qmult_lt_0_compat; lra|]. nra. Qed.
Lemma hi_pos k : 1 <= hi k.
Proof. pose proof u_pos. induction k as [|k IH]; cbn [hi]; [lra|]. nra. Qed.
Lemma lo_add a b : lo (a + b) == lo a * lo b.
Proof. induction a as [|a IH]; cbn [lo Nat.add]; [ring|]. rewrite IH. ring. Qed.
Lemma hi_add a b : hi (a + b) == hi a * hi b.
Proof. induction a as [|a IH]; cbn [hi Nat.add]; [ring|]. rewrite IH. ring. Qed.
Lemma lo_mono a b : (a <= b)%nat -> lo b <= lo a.
Proof. intro L. replace b with (a + (b - a))%nat by lia. rewrite lo_add. pose proof (lo_pos a). pose proof (lo_pos (b - a)). nra. Qed.
Lemma hi_mono a b : (a <= b)%nat -> hi a <= hi b.
Proof. intro L. replace b with (a + (b - a))%nat by lia. rewrite hi_add. pose proof (hi_pos a). pose proof (hi_pos (b - a)). nra. Qed.
(* 1/(1+u)^k >= (1-u)^k and 1/(1-u)^k <= (1+u)^2k *)
Lemma lohi k : lo k * hi k <= 1.
Proof.
  pose proof u_pos. induction k as [|k IH]; cbn [lo hi]; [lra|]. pose proof (lo_pos k). pose proof (hi_pos k).
  setoid_replace (lo k * (1 - u) * (hi k * (1 + u))) with (lo k * hi k * (1 - u * u)) by ring. assert (0 <= lo k * hi k) by nra. nra.
Qed.
Lemma hilo k : 1 <= lo k * hi (k + k).
Proof.
  rewrite hi_add. induction k as [|k IH]; cbn [lo hi]; [lra|]. pose proof (lo_pos k). pose proof (hi_pos k).
  setoid_replace (lo k * (1 - u) * (hi k * (1 + u) * (hi k * (1 + u)))) with (lo k * (hi k * hi k) * ((1 - u) * ((1 + u) * (1 + u)))) by ring.
  assert (1 <= (1 - u) * ((1 + u) * (1 + u))) by (vm_compute; discriminate). nra.
Qed.

(* y approximates x >= 0 *)
Definition close (k : nat) (x y : Q) : Prop := 0 <= x /\ x * lo k <= y /\ y <= x * hi k.
Lemma close_nn k x y : close k x y -> 0 <= y.
Proof. intros (A & B & C). pose proof (lo_pos k). nra. Qed.
Lemma close_weak a b x y : (a <= b)%nat -> close a x y -> close b x y.
Proof. intros L (A & B & C). pose proof (lo_mono a b L). pose proof (hi_mono a b L). split; auto. split; nra. Qed.
Lemma close_mul a b x y x' y' : close a x y -> close b x' y' -> close (a + b) (x * x') (y * y').
Proof.
  intros H H'. pose proof (close_nn _ _ _ H). pose proof (close_nn _ _ _ H'). destruct H as (A & B & C), H' as (A' & B' & C').
  pose proof (lo_pos a). pose proof (lo_pos b). pose proof (hi_pos a). pose proof (hi_pos b).
  split; [nra|]. rewrite lo_add, hi_add. split.
  - setoid_replace (x * x' * (lo a * lo b)) with ((x * lo a) * (x' * lo b)) by ring. apply Qle_trans with (y * (x' * lo b)).
    + apply Qmult_le_compat_r; auto. nra.
    + rewrite !(Qmult_comm y). apply Qmult_le_compat_r; auto.
  - setoid_replace (x * x' * (hi a * hi b)) with ((x * hi a) * (x' * hi b)) by ring. apply Qle_trans with (y * (x' * hi b)).
    + rewrite !(Qmult_comm y). apply Qmult_le_compat_r; auto.
    + apply Qmult_le_compat_r; auto. nra.
Qed.
Lemma close_add k x y x' y' : close k x y -> close k x' y' -> close k (x + x') (y + y').
Proof. intros (A & B & C) (A' & B' & C'). split; [lra|]. split; lra. Qed.
Lemma close_pos k x y : close k x y -> 0 < x -> 0 < y.
Proof. intros (A & B & C) H. pose proof (lo_pos k). nra. Qed.
Lemma close_zero k y : close k 0 y -> y == 0.
Proof. intros (A & B & C). lra. Qed.
Lemma close_inv b x y : 0 < x -> close b x y -> close (b + b) (/ x) (/ y).
Proof.
  intros P H. pose proof (close_pos _ _ _ H P) as Py. destruct H as (A & B & C). pose proof (hilo b). pose proof (lohi b).
  pose proof (lo_pos b). pose proof (hi_pos b). pose proof (hi_pos (b + b)). pose proof (Qinv_lt_0_compat _ P) as Ix. pose proof (Qinv_lt_0_compat _ Py) as Iy.
  split; [lra|]. split.
  - (* /x * lo 2b <= /x * lo b <= / y  since y lo b <= x hi b lo b <= x *)
    apply Qle_trans with (/ x * lo b); [assert (lo (b + b) <= lo b) by (apply lo_mono; lia); nra|].
    assert (y * lo b <= x) by nra. apply Qmult_lt_0_le_reg_r with (x * y); [nra|].
    setoid_replace (/ x * lo b * (x * y)) with (y * lo b) by (field; lra). setoid_replace (/ y * (x * y)) with x by (field; lra). auto.
  - apply Qmult_lt_0_le_reg_r with (x * y); [nra|].
    setoid_replace (/ y * (x * y)) with x by (field; lra). setoid_replace (/ x * hi (b + b) * (x * y)) with (y * hi (b + b)) by (field; lra).
    apply Qle_trans with (x * lo b * hi (b + b)); nra.
Qed.
Lemma close_round k x y z : close k x y -> Qabs (z - y) <= Qabs y * u -> close (S k) x z.
Proof.
  intros H L. pose proof (close_nn _ _ _ H) as Py. rewrite (Qabs_pos y) in L by auto. apply Qabs_Qle_condition in L as [L1 L2].
  destruct H as (A & B & C). pose proof u_pos. pose proof (lo_pos k). pose proof (hi_pos k). split; auto. cbn [lo hi]. split.
  - apply Qle_trans with (y * (1 - u)); [|lra]. setoid_replace (x * (lo k * (1 - u))) with (x * lo k * (1 - u)) by ring. apply Qmult_le_compat_r; lra.
  - apply Qle_trans with (y * (1 + u)); [lra|]. setoid_replace (x * (hi k * (1 + u))) with (x * hi k * (1 + u)) by ring. apply Qmult_le_compat_r; lra.
Qed.
Lemma close_ext k x x' y : x == x' -> close k x y -> close k x' y.
Proof. intros E (A & B & C). unfold close. rewrite <- E. auto. Qed.

(* magnitudes for which nothing over- or underflows *)
Definition inr (x : Q) : Prop := x == 0 \/ p2 (-1021) <= x /\ x <= p2 1022.
Lemma lo24 k : (k <= 24)%nat -> 1#2 <= lo k.
Proof. intro L. apply Qle_trans with (lo 24); [vm_compute; discriminate|apply lo_mono; auto]. Qed.
Lemma hi24 k : (k <= 24)%nat -> hi k < 1001#1000.
Proof. intro L. apply Qle_lt_trans with (hi 24); [apply hi_mono; auto|reflexivity]. Qed.

(* the float y approximates x *)
Definition fclose (k : nat) (x : Q) (f : float) : Prop := exists m e, f = FFin false m e /\ representable b64 f /\ close k x (fval f).
Lemma fclose_ext k x x' f : x == x' -> fclose k x f -> fclose k x' f.
Proof. intros E (m & e & -> & R & C). exists m, e. split; auto. split; auto. eapply close_ext; eauto. Qed.
Lemma fclose_weak a b x f : (a <= b)%nat -> fclose a x f -> fclose b x f.
Proof. intros L (m & e & -> & R & C). exists m, e. split; auto. split; auto. eapply close_weak; eauto. Qed.

Lemma zero_rep : representable b64 zeroF /\ fval zeroF == 0. Proof. split; [cbn; lia|reflexivity]. Qed.
Lemma zero_over : ~ overflow b64 0. Proof. apply (not_overflow b64 0 good64). reflexivity. Qed.
Lemma round_zero s q z : q == 0 -> rounded b64 s q z -> fval z == 0 /\ representable b64 z.
Proof.
  intros E R. eapply rounded_ext in R; [|exact E]. pose proof (rounded_finite _ _ _ _ R zero_over) as (N & _).
  destruct zero_rep as [Zr Zv]. destruct (rounded_exact _ _ _ _ _ R zero_over Zr Zv) as [V F]. split; auto. apply N.
Qed.
(* rounding an approximation *)
Lemma round_close k x y z : (k <= 24)%nat -> inr x -> close k x y -> rounded b64 false y z -> fclose (S k) x z.
Proof.
  intros K I C R. pose proof (lo24 k K). pose proof (hi24 k K). destruct I as [E|[I1 I2]].
  - eapply close_ext in C; [|exact E]. pose proof (close_zero _ _ C) as Ey. destruct (round_zero _ _ _ Ey R) as [V Rz].
    pose proof (rounded_sign _ _ _ _ R) as S. destruct z as [| |s m e]; cbn in Rz; try tauto. injection S as ->. exists m, e. split; auto. split; auto.
    split; [lra|]. rewrite E, V. split; lra.
  - pose proof (close_nn _ _ _ C) as Py. assert (Hy : p2 (-1022) <= y /\ y < p2 1023).
    { destruct C as (A & B & D). change (p2 (-1022)) with ((1#2) * p2 (-1021)). split; [nra|].
      assert (p2 1023 == 2 * p2 1022) as -> by reflexivity. pose proof (p2_pos 1022). nra. }
    assert (O : ~ overflow b64 y). { apply not_overflow; [exact good64|]. rewrite Qabs_pos by auto. apply Hy. }
    pose proof (rounded_finite _ _ _ _ R O) as (N & m & e & -> & Hm). exists m, e. split; auto. split; [apply N|].
    eapply close_round; [exact C|]. change u with (ulp b64). eapply nearest_rel; eauto; [exact good64|]. rewrite Qabs_pos by auto. apply Hy.
Qed.
Lemma fofZ_close z : (0 <= z < two64Z)%Z -> fclose 1 (inject_Z z) (fofZ b64 z).
Proof.
  intro H. pose proof (fofZ_rounded b64 z good64) as R. rewrite (proj2 (Z.ltb_ge z 0)) in R by lia.
  eapply (round_close 0); eauto.
  - lia.
  - destruct (Z.eq_dec z 0) as [->|N]; [left; reflexivity|right]. split.
    + apply Qle_trans with 1; [vm_compute; discriminate|]. change 1 with (inject_Z 1). rewrite <- Zle_Qle. lia.
    + apply Qle_trans with (inject_Z two64Z); [rewrite <- Zle_Qle; lia|vm_compute; discriminate].
  - split; [apply inj_nn; lia|]. cbn [lo hi]. split; lra.
Qed.
Lemma fmul_close a b x y f g : (a + b <= 24)%nat -> inr (x * y) -> fclose a x f -> fclose b y g -> fclose (S (a + b)) (x * y) (fmul b64 f g).
Proof.
  intros K I (m & e & -> & R & C) (n & e' & -> & R' & C'). eapply round_close; eauto; [apply close_mul; eauto|].
  apply (fmul_rounded b64 false m e false n e' good64); [apply R|apply R'].
Qed.
Lemma fdiv_close a b x y f g : (a + (b + b) <= 24)%nat -> 0 < y -> inr (x / y) -> fclose a x f -> fclose b y g -> fclose (S (a + (b + b))) (x / y) (fdiv b64 f g).
Proof.
  intros K P I (m & e & -> & R & C) (n & e' & -> & R' & C'). eapply round_close; eauto; [apply close_mul; eauto; apply close_inv; eauto|].
  apply (fdiv_rounded b64 false m e false n e' good64); [apply R|].
  pose proof (close_pos _ _ _ C' P) as Pv. rewrite fval_sgq in Pv. cbn [sgq] in Pv. destruct R' as [[R1 R2] _]. destruct (Z.eq_dec n 0) as [->|]; [|lia].
  unfold sgq in Pv. change (inject_Z 0) with 0 in Pv. exfalso. assert (0 * p2 e' == 0) by ring. lra.
Qed.
Lemma fadd_close k x y f g : (k <= 24)%nat -> inr (x + y) -> fclose k x f -> fclose k y g -> fclose (S k) (x + y) (fadd b64 f g).
Proof.
  intros K I (m & e & -> & R & C) (n & e' & -> & R' & C'). pose proof (close_add _ _ _ _ _ C C') as S.
  destruct (Z.eq_dec (sumZ false m e false n e') 0) as [E|N].
  - rewrite (fadd_zero _ _ _ _ _ _ _ E). exists 0%Z, (femin b64). split; [reflexivity|]. split; [apply zero_rep|].
    pose proof (sumZ_val false m e false n e') as V. rewrite E in V. change (inject_Z 0) with 0 in V.
    assert (Z0 : x + y == 0). { destruct S as (S1 & S2 & S3). pose proof (lo_pos k). assert (V0 : fval (FFin false m e) + fval (FFin false n e') == 0) by (rewrite <- V; ring).
      rewrite V0 in S2. destruct (Qlt_le_dec 0 (x + y)) as [P|P]; [|lra]. exfalso. assert (0 < (x + y) * lo k) by (apply Qmult_lt_0_compat; lra). lra. }
    change (fval (FFin false 0 (femin b64))) with (fval zeroF). destruct zero_rep as [_ Zv]. unfold close. rewrite Zv, Z0. lra.
  - eapply round_close; eauto. pose proof (fadd_rounded b64 false m e false n e' good64 N) as A.
    rewrite (proj2 (Z.ltb_ge _ 0)) in A by (apply sumZ_pos; [apply R|apply R']). exact A.
Qed.

Global Instance inr_comp : Proper (Qeq ==> iff) inr.
Proof. intros x y E. unfold inr. rewrite E. tauto. Qed.

(* powers of ten *)
Lemma p10_mono a b : (a <= b)%Z -> p10 a <= p10 b.
Proof.
  intro L. replace b with (a + (b - a))%Z by lia. rewrite p10_add, (p10_Z (b - a)) by lia. pose proof (p10_pos a). pose proof (pow10_pos (b - a) ltac:(lia)).
  assert (1 <= inject_Z (10 ^ (b - a))) by (change 1 with (inject_Z 1); rewrite <- Zle_Qle; lia). nra.
Qed.
Lemma p10_inr e : (-307 <= e <= 307)%Z -> inr (p10 e).
Proof.
  intro H. right. split.
  - apply Qle_trans with (p10 (-307)); [vm_compute; discriminate|apply p10_mono; lia].
  - apply Qle_trans with (p10 307); [apply p10_mono; lia|vm_compute; discriminate].
Qed.
Lemma lit10_rounded n : rounded b64 false (p10 n) (lit10 n).
Proof.
  unfold lit10. destruct (Z.leb_spec 0 n) as [L|L].
  - eapply (rounded_ext b64 false (sgq false (p10 n))); [unfold sgq; ring|]. pose proof (pow10_pos n L). apply roundQ_rounded; [exact good64|lia|lia|].
    rewrite p10_Z by auto. change (inject_Z 1) with 1. ring.
  - pose proof (pow10_pos (- n) ltac:(lia)). eapply (rounded_ext b64 false (sgq false (p10 n))); [unfold sgq; ring|]. apply roundQ_rounded; [exact good64|lia|lia|].
    rewrite <- p10_Z, p10_opp by lia. change (inject_Z 1) with 1. field. pose proof (p10_pos n). lra.
Qed.
Lemma lit10_close n : (-307 <= n <= 307)%Z -> fclose 1 (p10 n) (lit10 n).
Proof.
  intro H. eapply (round_close 0); [lia|apply p10_inr; auto| |apply lit10_rounded]. pose proof (p10_pos n). split; [lra|]. cbn [lo hi]. split; lra.
Qed.
Lemma Pow10_close n : (-307 <= n <= 307)%Z -> fclose 4 (p10 n) (Pow10 n).
Proof.
  intro H. unfold Pow10. destruct (Z.leb_spec 0 n) as [L|L].
  - rewrite (proj2 (Z.leb_le n 308)) by lia. cbn [andb]. pose proof (Z.div_mod n 32 ltac:(lia)). pose proof (Z.mod_pos_bound n 32 ltac:(lia)).
    assert (E : p10 (n / 32 * 32) * p10 (n mod 32) == p10 n) by (rewrite <- p10_add; replace (n / 32 * 32 + n mod 32)%Z with n by lia; reflexivity).
    apply fclose_weak with 3%nat; [lia|]. eapply fclose_ext; [exact E|]. apply (fmul_close 1 1); [lia|rewrite E; apply p10_inr; lia| |]; apply lit10_close; lia.
  - cbn [andb]. rewrite (proj2 (Z.leb_le (-323) n)), (proj2 (Z.leb_le n 0)) by lia. cbn [andb].
    pose proof (Z.div_mod (- n) 32 ltac:(lia)). pose proof (Z.mod_pos_bound (- n) 32 ltac:(lia)).
    assert (E : p10 (- (- n / 32 * 32)) / p10 (- n mod 32) == p10 n).
    { unfold Qdiv. rewrite <- p10_opp, <- p10_add. replace (- (- n / 32 * 32) + - (- n mod 32))%Z with n by lia. reflexivity. }
    eapply fclose_ext; [exact E|]. apply (fdiv_close 1 1); [lia|apply p10_pos|rewrite E; apply p10_inr; lia| |]; apply lit10_close; lia.
Qed.
Definition finb (x : float) : bool := match x with FFin false m _ => (0 <=? m)%Z | _ => false end.
Lemma finb_pos x : finb x = true -> posF x /\ finite x.
Proof. destruct x as [| |[|] m e]; cbn; try discriminate. intro H. apply Z.leb_le in H. repeat split; auto. Qed.
Fixpoint upto (n : nat) (z : Z) : list Z := match n with O => [] | S k => z :: upto k (z + 1) end.
Lemma upto_in n : forall z x, (z <= x < z + Z.of_nat n)%Z -> In x (upto n z).
Proof.
  induction n as [|n IH]; intros z x H; [lia|]. cbn [upto]. destruct (Z.eq_dec z x) as [->|N]; [left; auto|]. right. apply IH. lia.
Qed.
(* the powers of ten that are not covered by the error bounds *)
Lemma Pow10_far : finb (Pow10 308) = true /\ forallb (fun n => finb (Pow10 n)) (upto 16 (-323)) = true.
Proof. split; vm_compute; reflexivity. Qed.
Lemma Pow10_fin n : (n <= 308)%Z -> posF (Pow10 n) /\ finite (Pow10 n).
Proof.
  intro H. destruct (Z_lt_le_dec n (-323)) as [L|L].
  - unfold Pow10. rewrite (proj2 (Z.leb_gt 0 n)), (proj2 (Z.leb_gt (-323) n)), (proj2 (Z.ltb_ge 0 n)) by lia. apply finb_pos. reflexivity.
  - destruct Pow10_far as [F1 F2]. destruct (Z.eq_dec n 308) as [->|N]; [apply finb_pos, F1|].
    destruct (Z_lt_le_dec n (-307)) as [L'|L'].
    + apply finb_pos. rewrite forallb_forall in F2. apply F2, upto_in. cbn. lia.
    + destruct (Pow10_close n ltac:(lia)) as (m & e & -> & R & _). split; [|exact I]. split; [reflexivity|]. apply R.
Qed.
Lemma Pow10_nz n s e : (-307 <= n <= 307)%Z -> Pow10 n <> FFin s 0 e.
Proof.
  intros H E. destruct (Pow10_close n H) as (m & e' & E' & R & C). rewrite E' in E. injection E as _ -> _. rewrite E' in C.
  apply close_pos in C; [|apply p10_pos]. assert (V : fval (FFin false 0 e') == 0) by (rewrite fval_sgq; change (inject_Z 0) with 0; unfold sgq; ring). rewrite V in C. revert C. apply Qlt_irrefl.
Qed.

Lemma C33_number p : shape some_signs p -> short_exp p -> small_text (text p) -> ParseFloat (text p) <> FNaN.
Proof.
  intros S E M. apply small_parts in M. rewrite (ParseFloat_formula p S). pose proof S as (Di & Ni & Hf & He). unfold formula.
  destruct (nu_fin (pint p)) as [Pn Fn]. destruct (nu_fin (frac_digits p)) as [Pd Fd].
  assert (Sum : forall j, (0 <= j)%Z -> posF (fadd b64 (nu (pint p)) (fmul b64 (nu (frac_digits p)) (Pow10 (- j))))).
  { intros j Hj. destruct (Pow10_fin (- j)) as [P1 P2]; [lia|]. apply fadd_pos; auto. apply fmul_pos; auto. }
  unfold short_exp in E. destruct (pexp p) as [[[c sg] ds]|].
  - destruct He as (_ & _ & Dd & Nd). pose proof (short_dval ds Dd E) as B. rewrite (wrap64_id (dval ds)) by lia.
    destruct (Z.ltb_spec 300 (dval ds)) as [L|L]; [apply strconv_nan|]. apply posF_nan.
    set (j := Z.of_nat (length (match pfrac p with Some f => f | None => pint p end))). assert (0 <= j)%Z by lia.
    destruct (existsb _ sg).
    + rewrite wrap64_id by lia. destruct (Pow10_fin (- dval ds)) as [P1 P2]; [lia|].
      assert (Fs : posF (fadd b64 (nu (pint p)) (fmul b64 (nu (frac_digits p)) (Pow10 (- j))))) by (apply Sum; auto).
      destruct (fadd b64 _ _) as [|s|s m e] eqn:Ef; [destruct Fs; discriminate| |].
      * destruct Fs as (Fs & _). injection Fs as ->. apply posF_fin in P1 as (n & e' & EP & Hn); auto.
        assert (Nz : (n <> 0)%Z).
        { intros ->. revert EP. apply Pow10_nz. lia. }
        rewrite EP. cbn [fmul]. destruct (Z.eqb_spec n 0); [contradiction|]. split; [reflexivity|exact I].
      * apply fmul_pos; auto. exact I.
    + rewrite (wrap64_id (dval ds - j)) by (unfold j in *; lia).
      destruct (Pow10_fin (dval ds)) as [P1 P2]; [lia|]. destruct (Pow10_fin (dval ds - j)) as [P3 P4]; [lia|].
      apply fadd_pos; apply fmul_pos; auto.
  - destruct (pfrac p) as [f|].
    + destruct (_ <=? _)%Z; [apply posF_nan, Sum; lia|apply strconv_nan].
    + destruct (_ <=? _)%Z; [apply posF_nan; auto|apply strconv_nan].
Qed.

Lemma nu_close ds : digits ds -> (dval ds < two64Z)%Z -> fclose 1 (inject_Z (dval ds)) (nu ds).
Proof. intros D L. unfold nu. pose proof (dval_bound ds D). rewrite Z.mod_small by lia. apply fofZ_close. lia. Qed.

(* zero times anything *)
Lemma zero_fmul k f g : fclose k 0 f -> posF g -> finite g -> fclose 6 0 (fmul b64 f g).
Proof.
  intros (m & e & -> & R & C) P F. apply posF_fin in P as (n & e' & -> & Hn); auto. pose proof (close_zero _ _ C) as Z0.
  pose proof (fmul_rounded b64 false m e false n e' good64 (proj1 (proj1 R)) Hn) as Rd.
  assert (E : fval (FFin false m e) * fval (FFin false n e') == 0) by (rewrite Z0; ring). pose proof (rounded_sign _ _ _ _ Rd) as S. destruct (round_zero _ _ _ E Rd) as [V Rz].
  destruct (fmul _ _ _) as [| |s a b]; cbn in Rz; try tauto. injection S as ->. exists a, b. split; auto. split; auto. unfold close. rewrite V. split; [|split]; lra.
Qed.

Definition small_digits (p : parts) : Prop := (dval (pint p) < 2 ^ 64 /\ dval (frac_digits p) < 2 ^ 64 /\ Z.of_nat (length (frac_digits p)) <= 19)%Z.
(* the integer and fraction parts scaled *)
Definition ipart (p : parts) : Q := inject_Z (dval (pint p)).
Definition fpart (p : parts) (e : Z) : Q := inject_Z (dval (frac_digits p)) * p10 (e - Z.of_nat (length (frac_digits p))).

Lemma scaled_inr d e : (0 <= d < 10 ^ 20)%Z -> (-306 <= e <= 286)%Z -> inr (inject_Z d * p10 e).
Proof.
  intros D E. pose proof (p10_pos e). destruct (Z.eq_dec d 0) as [->|N]; [left; change (inject_Z 0) with 0; ring|right].
  assert (1 <= inject_Z d <= p10 20). { rewrite p10_Z by lia. change 1 with (inject_Z 1). rewrite <- !Zle_Qle. lia. }
  split.
  - apply Qle_trans with (p10 (-307)); [vm_compute; discriminate|]. apply Qle_trans with (p10 e); [apply p10_mono; lia|]. nra.
  - apply Qle_trans with (p10 306); [|vm_compute; discriminate]. apply Qle_trans with (p10 (20 + e)); [|apply p10_mono; lia]. rewrite p10_add. apply Qmult_le_compat_r; lra.
Qed.
Lemma inr_sum x y : x == 0 \/ p2 (-1021) <= x -> y == 0 \/ p2 (-1021) <= y -> x <= p2 1021 -> y <= p2 1021 -> inr (x + y).
Proof.
  intros X Y Xu Yu. assert (p2 1022 == 2 * p2 1021) as E by reflexivity. pose proof (p2_pos (-1021)). unfold inr. rewrite E.
  destruct X as [X|X], Y as [Y|Y]; [left; rewrite X, Y; ring|right|right|right]; lra.
Qed.
Lemma part_bounds d e : (0 <= d < 10 ^ 20)%Z -> (-306 <= e <= 286)%Z ->
  (inject_Z d * p10 e == 0 \/ p2 (-1021) <= inject_Z d * p10 e) /\ inject_Z d * p10 e <= p2 1021.
Proof.
  intros D E. pose proof (p10_pos e). assert (0 <= inject_Z d) by (apply inj_nn; lia). assert (U : inject_Z d <= p10 20) by (rewrite p10_Z by lia; rewrite <- Zle_Qle; lia).
  split.
  - destruct (Z.eq_dec d 0) as [->|N]; [left; change (inject_Z 0) with 0; ring|right].
    assert (1 <= inject_Z d) by (change 1 with (inject_Z 1); rewrite <- Zle_Qle; lia).
    apply Qle_trans with (p10 (-307)); [vm_compute; discriminate|]. apply Qle_trans with (p10 e); [apply p10_mono; lia|]. nra.
  - apply Qle_trans with (p10 306); [|vm_compute; discriminate]. apply Qle_trans with (p10 (20 + e)); [|apply p10_mono; lia]. rewrite p10_add. apply Qmult_le_compat_r; lra.
Qed.
Lemma dec_close sgOK p e n : shape sgOK p -> small_digits p -> (-287 <= e <= 286)%Z ->
  (pfrac p <> None -> n = (e - Z.of_nat (length (frac_digits p)))%Z) -> (n <= 308)%Z ->
  fclose 6 (fpart p e) (fmul b64 (nu (frac_digits p)) (Pow10 n)).
Proof.
  intros S (B1 & B2 & B3) E N L. pose proof (shape_fracdigits _ _ S) as D. pose proof (dval_bound _ D) as Bd. pose proof (nu_close _ D B2) as C.
  destruct (pfrac p) as [f|] eqn:F.
  - rewrite N by discriminate. apply (fmul_close 1 4); [lia| |auto|apply Pow10_close; lia]. apply scaled_inr; [cbn in B2; lia|lia].
  - assert (Z0 : inject_Z (dval (frac_digits p)) == 0) by (unfold frac_digits; rewrite F; reflexivity).
    eapply fclose_ext; [|eapply zero_fmul; [eapply fclose_ext; [exact Z0|exact C]|apply Pow10_fin|apply Pow10_fin]]; auto. unfold fpart. rewrite Z0. ring.
Qed.
Lemma magnitude_parts p e : exp_val (pexp p) = e -> magnitude p == ipart p * p10 e + fpart p e.
Proof. intros <-. unfold magnitude, ipart, fpart, Zminus. rewrite p10_add. ring. Qed.
Lemma magnitude_scaled p e : exp_val (pexp p) = e -> magnitude p == (ipart p + fpart p 0) * p10 e.
Proof. intros <-. unfold magnitude, ipart, fpart. reflexivity. Qed.

Lemma sgq_f x : sgq false x == x. Proof. unfold sgq. ring. Qed.
Lemma sgq_t x : sgq true x == - x. Proof. unfold sgq. ring. Qed.
Lemma final_close neg x f : fclose 12 x f ->
  representable b64 (applySign neg f) /\ Qabs (fval (applySign neg f) - sgq neg x) <= Qabs (sgq neg x) * p2 (-49).
Proof.
  intros (m & e & -> & R & (A & B & C)). split; [destruct neg; exact R|].
  assert (H : Qabs (fval (FFin false m e) - x) <= x * p2 (-49)).
  { assert (lo 12 >= 1 - p2 (-49)) by (vm_compute; discriminate). assert (hi 12 <= 1 + p2 (-49)) by (vm_compute; discriminate). apply Qabs_Qle_condition. split; nra. }
  rewrite Qabs_sgq, (Qabs_pos x) by auto. destruct neg; cbn [applySign]; [|rewrite sgq_f; exact H].
  rewrite fval_neg, sgq_t. setoid_replace (- fval (FFin false m e) - - x) with (- (fval (FFin false m e) - x)) by ring. rewrite Qabs_opp. exact H.
Qed.
Lemma magnitude_inr sgOK p : shape sgOK p -> small_digits p -> (Z.abs (exp_val (pexp p)) <= 285)%Z -> inr (magnitude p).
Proof.
  intros S (B1 & B2 & B3) E. rewrite (magnitude_parts p _ eq_refl). pose proof (dval_bound _ (proj1 S)) as Bi.
  pose proof (dval_bound _ (shape_fracdigits _ _ S)) as Bd. cbn in B1, B2.
  destruct (part_bounds (dval (frac_digits p)) (exp_val (pexp p) - Z.of_nat (length (frac_digits p)))) as [P1 P2]; [lia|lia|].
  destruct (part_bounds (dval (pint p)) (exp_val (pexp p))) as [P3 P4]; [lia|lia|]. apply inr_sum; auto.
Qed.
Lemma round_rel neg x z : inr x -> rounded b64 neg (sgq neg x) z -> representable b64 z /\ Qabs (fval z - sgq neg x) <= Qabs (sgq neg x) * p2 (-49).
Proof.
  intros I R. destruct I as [E|[I1 I2]].
  - assert (E0 : sgq neg x == 0) by (unfold sgq; rewrite E; ring). destruct (round_zero _ _ _ E0 R) as [V Rz].
    split; [exact Rz|]. rewrite V, E0. vm_compute. discriminate.
  - pose proof (p2_pos (-1021)). assert (Ax : Qabs (sgq neg x) == x) by (rewrite Qabs_sgq; apply Qabs_pos; lra).
    assert (O : ~ overflow b64 (sgq neg x)). { apply not_overflow; [exact good64|]. rewrite Ax. eapply Qle_lt_trans; [exact I2|]. reflexivity. }
    pose proof (rounded_finite _ _ _ _ R O) as (N & _). split; [apply N|].
    eapply Qle_trans; [eapply nearest_rel; eauto; [exact good64|]|].
    + rewrite Ax. eapply Qle_trans; [|exact I1]. vm_compute. discriminate.
    + rewrite Ax. assert (ulp b64 <= p2 (-49)) by (vm_compute; discriminate). rewrite !(Qmult_comm x). apply Qmult_le_compat_r; lra.
Qed.
Lemma C35_close_lem p : shape some_signs p -> small_text (text p) -> small_digits p -> (Z.abs (exp_val (pexp p)) <= 285)%Z ->
  representable b64 (ParseFloat (text p)) /\ Qabs (fval (ParseFloat (text p)) - numval p) <= Qabs (numval p) * p2 (-49).
Proof.
  intros S St Sm E. apply small_parts in St. rewrite (ParseFloat_formula p S). unfold formula. pose proof S as (Di & Ni & Hf & He). pose proof Sm as (B1 & B2 & B3).
  pose proof (dval_bound _ Di) as Bi. pose proof (nu_close _ Di B1) as Ci. fold (ipart p) in Ci. pose proof (magnitude_inr _ _ S Sm E) as Im.
  rewrite !(numval_sgq p).
  pose proof (shape_fracdigits _ _ S) as Df. pose proof (dval_bound _ Df) as Bd.
  assert (Strc : shape one_sign p -> representable b64 (strconv_ParseFloat (text p)) /\ Qabs (fval (strconv_ParseFloat (text p)) - sgq (pneg p) (magnitude p)) <= Qabs (sgq (pneg p) (magnitude p)) * p2 (-49)).
  { intro S1. apply round_rel; auto. eapply rounded_ext; [|apply strconv_rounded; auto]. apply numval_sgq. }
  assert (Sum : forall n, (n <= 308)%Z -> (pfrac p <> None -> n = (- Z.of_nat (length (frac_digits p)))%Z) ->
     fclose 7 (ipart p + fpart p 0) (fadd b64 (nu (pint p)) (fmul b64 (nu (frac_digits p)) (Pow10 n)))).
  { intros n Hn En. apply fadd_close; [lia| |apply fclose_weak with 1%nat; [lia|auto]|eapply dec_close; eauto; lia].
    destruct (part_bounds (dval (frac_digits p)) (0 - Z.of_nat (length (frac_digits p)))) as [P1 P2]; [cbn in B2; lia|lia|].
    destruct (part_bounds (dval (pint p)) 0) as [P3 P4]; [cbn in B1; lia|lia|]. change (p10 0) with 1 in *. rewrite Qmult_1_r in *. apply inr_sum; auto. }
  destruct (pexp p) as [[[c sg] ds]|] eqn:Ee.
  - destruct He as (Hc & Hs & Dd & Nd). pose proof (dval_bound _ Dd) as Be.
    assert (Hd : (0 <= dval ds <= 285)%Z) by (cbn [exp_val] in E; destruct (existsb _ _); lia).
    rewrite (wrap64_id (dval ds)) by lia. rewrite (proj2 (Z.ltb_ge 300 (dval ds))) by lia. apply final_close.
    set (j := Z.of_nat (length (match pfrac p with Some f => f | None => pint p end))).
    assert (Ej : pfrac p <> None -> j = Z.of_nat (length (frac_digits p))) by (unfold j, frac_digits; destruct (pfrac p); congruence).
    assert (Hj : (0 <= j < 9223372036854775808)%Z) by (unfold j; lia).
    destruct (existsb (beqb x2d) sg) eqn:Sg.
    + assert (Ev : exp_val (pexp p) = (- dval ds)%Z) by (rewrite Ee; cbn [exp_val]; rewrite Sg; auto).
      rewrite wrap64_id by lia. eapply fclose_ext; [symmetry; apply (magnitude_scaled p _ Ev)|].
      apply (fmul_close 7 4); [lia|rewrite <- (magnitude_scaled p _ Ev); auto| |apply Pow10_close; lia]. apply Sum; [lia|]. intro Hn. rewrite (Ej Hn). reflexivity.
    + assert (Ev : exp_val (pexp p) = dval ds) by (rewrite Ee; cbn [exp_val]; rewrite Sg; auto).
      eapply fclose_ext; [symmetry; apply (magnitude_parts p _ Ev)|]. apply fclose_weak with 7%nat; [lia|].
      apply fadd_close; [lia|rewrite <- (magnitude_parts p _ Ev); auto| |].
      * apply (fmul_close 1 4); [lia| |auto|apply Pow10_close; lia]. apply scaled_inr; [cbn in B1; lia|lia].
      * eapply dec_close; eauto; try lia; rewrite wrap64_id by lia; [|lia]. intro Hn. rewrite (Ej Hn). reflexivity.
  - rewrite (magnitude_scaled p 0) in * by (rewrite Ee; reflexivity).
    destruct (pfrac p) as [f|] eqn:F.
    + destruct (Z.leb_spec (Z.of_nat (length f)) 18) as [L|L].
      * apply final_close. apply fclose_weak with 7%nat; [lia|]. change (p10 0) with 1. eapply fclose_ext; [symmetry; apply Qmult_1_r|]. apply Sum; [lia|].
        intros _. unfold frac_digits. rewrite F. reflexivity.
      * apply Strc. split; [auto|]. rewrite F, Ee. auto.
    + destruct (Z.leb_spec (Z.of_nat (length (pint p))) 18) as [L|L].
      * apply final_close. apply fclose_weak with 1%nat; [lia|]. eapply fclose_ext; [|exact Ci]. unfold fpart, frac_digits. rewrite F. cbn [dval length Z.of_nat].
        change (inject_Z 0) with 0. change (p10 0) with 1. ring.
      * apply Strc. split; [auto|]. rewrite F, Ee. auto.
Qed.

(* Correctly rounded: a long fraction without exponent, and large exponents. *)
Definition by_strconv (p : parts) : Prop :=
  match pexp p with
  | None => match pfrac p with Some f => (18 < length f)%nat | None => (18 < length (pint p))%nat end
  | Some (_, _, ds) => (300 < dval ds < 2 ^ 63)%Z
  end.
Lemma C35_rounded_lem p : shape one_sign p -> by_strconv p -> rounded b64 (pneg p) (numval p) (ParseFloat (text p)).
Proof.
  intros S B. rewrite (ParseFloat_formula p (shape_one_some _ S)). unfold formula, by_strconv in *. pose proof (strconv_rounded p S) as R.
  destruct (pexp p) as [[[c sg] ds]|].
  - rewrite wrap64_id by lia. rewrite (proj2 (Z.ltb_lt 300 (dval ds))) by lia. exact R.
  - destruct (pfrac p) as [f|].
    + rewrite (proj2 (Z.leb_gt (Z.of_nat (length f)) 18)) by lia. exact R.
    + rewrite (proj2 (Z.leb_gt (Z.of_nat (length (pint p))) 18)) by lia. exact R.
Qed.

(* Refutations *)
Definition wrapped_frac : parts := mkParts false (str "0") (Some (str "99999999999999999999")) (Some (x65, [], str "0")).
Definition wrapped_int : parts := mkParts false (str "99999999999999999999") (Some (str "5")) None.
Lemma wrapped_frac_rfc : rfc_number (text wrapped_frac).
Proof.
  change (text wrapped_frac) with ([] ++ [x30] ++ (x2e :: x39 :: str "9999999999999999999") ++ [x65; x30]).
  apply rfc_num; [left; reflexivity|constructor| |].
  - constructor. apply Forall_forall. intros c I. repeat (destruct I as [<-|I]; [vm_compute; split; discriminate|]). destruct I.
  - apply (exp_plain x65 x30 []); auto. repeat constructor; vm_compute; discriminate.
Qed.
Lemma wrapped_int_rfc : rfc_number (text wrapped_int).
Proof.
  change (text wrapped_int) with ([] ++ str "99999999999999999999" ++ (x2e :: x35 :: []) ++ []).
  apply rfc_num; [left; reflexivity| |repeat constructor; vm_compute; discriminate|constructor].
  apply (int_nz x39 (str "9999999999999999999")); [vm_compute; split; discriminate|].
  apply Forall_forall. intros c I. repeat (destruct I as [<-|I]; [vm_compute; split; discriminate|]). destruct I.
Qed.
Lemma C35_refuted_lem : exists p, rfc_number (text p) /\ finite (ParseFloat (text p)) /\ (9#10) * Qabs (numval p) <= Qabs (fval (ParseFloat (text p)) - numval p).
Proof. exists wrapped_frac. split; [exact wrapped_frac_rfc|]. split; [vm_compute; exact I|vm_compute; discriminate]. Qed.
Lemma C35_int_refuted_lem : exists p, pexp p = None /\ rfc_number (text p) /\ finite (ParseFloat (text p)) /\ (8#10) * Qabs (numval p) <= Qabs (fval (ParseFloat (text p)) - numval p).
Proof. exists wrapped_int. split; [reflexivity|]. split; [exact wrapped_int_rfc|]. split; [vm_compute; exact I|vm_compute; discriminate]. Qed.
