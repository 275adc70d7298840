(* Lemmas for C38. *)
From Coq Require Import Lqa.
From Verif Require Import Bytes JsonSpec Types Parser Doc Utf8Proofs Float FloatSpec FloatProofs FloatOps Num NumSpec NumProofs NumThms NumClose NumInt FmtSpec.
Open Scope Q_scope.

(* ---- cleanup ---- *)

Lemma cleanup_last l a b c d : cleanup (l ++ [a; b; c; d]) = if beqb a x65 && beqb b x2d && beqb c x30 then l ++ [a; b; d] else l ++ [a; b; c; d].
Proof.
  unfold cleanup. rewrite app_length. cbn [length]. destruct (Nat.ltb_spec (length l + 4) 4); [lia|].
  replace (length l + 4 - 4)%nat with (length l + 0)%nat by lia.
  rewrite skipn_app. replace (length l + 0 - length l)%nat with O by lia. rewrite (skipn_all2 l) by lia. cbn [skipn app].
  rewrite firstn_app_2, firstn_O, app_nil_r. reflexivity.
Qed.
Lemma last_two (ds : bytes) : (2 <= length ds)%nat -> exists l c d, ds = l ++ [c; d].
Proof.
  intro H. destruct (exists_last (l := ds)) as (l & d & ->); [intros ->; cbn in H; lia|]. rewrite app_length in H. cbn in H.
  destruct (exists_last (l := l)) as (l' & c & ->); [intros ->; cbn in H; lia|]. exists l', c, d. rewrite <- app_assoc. reflexivity.
Qed.
Lemma digit_e c : digit c -> beqb c x65 = false.
Proof. intro H. apply beqb_false. intros ->. vm_compute in H. destruct H; congruence. Qed.
Lemma cleanup_same l a b c d : beqb a x65 = false -> cleanup (l ++ [a; b; c; d]) = l ++ [a; b; c; d].
Proof. intro H. rewrite cleanup_last, H. reflexivity. Qed.
Lemma dval_x30 d : dval [x30; d] = dval [d].
Proof. cbn [dval length]. change (bN x30) with 48%N. lia. Qed.
Lemma cleaned_spec p p' : shape one_sign p -> cleaned p p' -> shape one_sign p' /\ numval p' == numval p.
Proof.
  destruct p as [neg i f e], p' as [neg' i' f' e']. unfold cleaned. cbn [pneg pint pfrac pexp]. intros S (-> & -> & -> & H).
  unfold shape in *. cbn [pneg pint pfrac pexp] in *. destruct S as (Di & Ni & Hf & He). destruct H as [(d & -> & ->)|(_ & ->)].
  - destruct He as (Hc & Hs & Dd & Nd). split.
    + inversion Dd; subst. repeat (split; auto). discriminate.
    + unfold numval, magnitude, frac_digits. cbn [pneg pint pfrac pexp]. unfold exp_val. rewrite dval_x30. reflexivity.
  - split; [auto|reflexivity].
Qed.
Lemma clean_lem dst p : e_text p -> exists p', cleanup (dst ++ text p) = dst ++ text p' /\ cleaned p p'.
Proof.
  destruct p as [neg i f e]. intros (S & Ri & sg & ds & E & L). cbn [pexp pint] in *. subst e. unfold text, cleaned. cbn [pneg pint pfrac pexp exp_text].
  set (A := (if neg then [x2d] else []) ++ i ++ frac_text f).
  assert (EA : forall r, (if neg then [x2d] else []) ++ i ++ frac_text f ++ r = A ++ r) by (intro r; unfold A; rewrite <- !app_assoc; reflexivity).
  destruct S as (_ & _ & _ & (_ & Hs & Dd & _)). cbn [pexp] in *. destruct (last_two ds L) as (l & c & d & ->).
  rewrite EA. assert (Keep : cleanup (dst ++ A ++ x65 :: [sg] ++ l ++ [c; d]) = dst ++ A ++ x65 :: [sg] ++ l ++ [c; d] -> (forall d', x65 = x65 -> sg = x2d -> l ++ [c; d] <> [x30; d']) ->
     exists p' : parts, cleanup (dst ++ A ++ x65 :: [sg] ++ l ++ [c; d]) = dst ++ (if pneg p' then [x2d] else []) ++ pint p' ++ frac_text (pfrac p') ++ exp_text (pexp p') /\
       pneg p' = neg /\ pint p' = i /\ pfrac p' = f /\
       ((exists d0, Some (x65, [sg], l ++ [c; d]) = Some (x65, [x2d], [x30; d0]) /\ pexp p' = Some (x65, [x2d], [d0])) \/
        (forall d0, Some (x65, [sg], l ++ [c; d]) <> Some (x65, [x2d], [x30; d0])) /\ pexp p' = Some (x65, [sg], l ++ [c; d]))).
  { intros H N. exists (mkParts neg i f (Some (x65, [sg], l ++ [c; d]))). cbn [pneg pint pfrac pexp exp_text]. rewrite EA. split; auto. do 3 (split; auto).
    right. split; auto. intros d0 K. injection K as K1 K2. eapply N; eauto. }
  destruct l as [|b l] using rev_ind.
  - clear Keep IHl || clear Keep. cbn [app] in *. replace (dst ++ A ++ [x65; sg; c; d]) with ((dst ++ A) ++ [x65; sg; c; d]) by (rewrite <- app_assoc; reflexivity).
    rewrite cleanup_last. change (beqb x65 x65) with true. cbn [andb]. destruct (beqb sg x2d) eqn:B1; cbn [andb].
    + apply beqb_true in B1. subst sg. destruct (beqb c x30) eqn:B2.
      * apply beqb_true in B2. subst c. exists (mkParts neg i f (Some (x65, [x2d], [d]))). cbn [pneg pint pfrac pexp exp_text]. rewrite EA, <- app_assoc. split; auto.
        do 3 (split; auto). left. eauto.
      * exists (mkParts neg i f (Some (x65, [x2d], [c; d]))). cbn [pneg pint pfrac pexp exp_text]. rewrite EA, <- app_assoc. split; auto.
        do 3 (split; auto). right. split; auto. intros d0 K. injection K as -> _. discriminate.
    + exists (mkParts neg i f (Some (x65, [sg], [c; d]))). cbn [pneg pint pfrac pexp exp_text]. rewrite EA, <- app_assoc. split; auto.
      do 3 (split; auto). right. split; auto. intros d0 K. injection K as -> _. discriminate.
  - apply Keep; clear Keep.
    + clear IHl. destruct l as [|a l _] using rev_ind.
      * cbn [app]. replace (dst ++ A ++ [x65; sg; b; c; d]) with ((dst ++ A ++ [x65]) ++ [sg; b; c; d]) by (rewrite <- !app_assoc; reflexivity).
        apply cleanup_same. destruct Hs as [Hs|[Hs|Hs]]; try discriminate; injection Hs as ->; reflexivity.
      * replace (dst ++ A ++ x65 :: [sg] ++ ((l ++ [a]) ++ [b]) ++ [c; d]) with ((dst ++ A ++ x65 :: sg :: l) ++ [a; b; c; d]) by (rewrite <- ?app_assoc; cbn [app]; rewrite <- ?app_assoc; reflexivity).
        apply cleanup_same. apply digit_e. apply Forall_app in Dd as [Dd _]. apply Forall_app in Dd as [Dd _]. apply Forall_app in Dd as [_ Dd]. inversion Dd; auto.
    + intros d' _ _ K. apply (f_equal (@length byte)) in K. rewrite !app_length in K. cbn in K. lia.
Qed.

Lemma rfc_parts p : shape one_sign p -> rfc_int (pint p) -> rfc_number (text p).
Proof.
  destruct p as [neg i f e]. intros (Di & Ni & Hf & He) Ri. unfold text. cbn [pneg pint pfrac pexp] in *. apply rfc_num; auto.
  - destruct neg; auto.
  - destruct f as [f|]; [|constructor]. destruct Hf as [Df Nf]. destruct f as [|d f]; [congruence|]. constructor. exact Df.
  - destruct e as [[[c sg] ds]|]; [|constructor]. destruct He as (Hc & Hs & Dd & Nd). destruct ds as [|d ds]; [congruence|]. cbn [exp_text].
    destruct Hs as [->|[->| ->]]; cbn [app]; [apply exp_plain|apply exp_signed|apply exp_signed]; auto.
Qed.
Lemma bits_ok bits f g : narrow bits f g -> ((bits =? 32) || (bits =? 64) = true)%Z%bool.
Proof. intros [[-> _]|[-> _]]; reflexivity. Qed.
Lemma rounded_cleaned F p p' g : shape one_sign p -> cleaned p p' -> rounded F (pneg p) (numval p) g -> rounded F (pneg p') (numval p') g.
Proof.
  intros S C R. destruct (cleaned_spec p p' S C) as [_ V]. destruct C as (-> & _). eapply rounded_ext; [symmetry; exact V|exact R].
Qed.
Lemma C38_lem ftoa dst f g bits : ftoa_spec ftoa -> canonical b64 f -> narrow bits f g -> finite g ->
  exists p p', ftoa f (useExp f bits) bits = text p /\ AppendFloat ftoa dst f bits = Ok (dst ++ text p') /\
    cleaned p p' /\ rfc_number (text p') /\ numval p' == numval p /\ shape one_sign p' /\ rounded (fmt_of bits) (pneg p') (numval p') g.
Proof.
  intros H Cf Nw F. destruct (H f g (useExp f bits) bits Cf Nw F) as (p & Ep & Tp & Rp). unfold AppendFloat. rewrite (bits_ok _ _ _ Nw). destruct (useExp f bits).
  - destruct (clean_lem dst p Tp) as (p' & C & K). exists p, p'. rewrite Ep, C. split; auto. split; auto. split; auto. destruct Tp as (S & R & _).
    destruct (cleaned_spec p p' S K) as (S' & V). split; [|split; [auto|split; [auto|exact (rounded_cleaned _ p p' g S K Rp)]]]. apply rfc_parts; auto. destruct K as (_ & -> & _). auto.
  - exists p, p. rewrite Ep. destruct Tp as (S & R & N). do 2 (split; auto). split; [|split; [apply rfc_parts; auto|split; [reflexivity|split; auto]]].
    repeat split; auto. right. split; auto. intro d. rewrite N. discriminate.
Qed.
Lemma C38_dst_lem ftoa dst f g bits : ftoa_spec ftoa -> canonical b64 f -> narrow bits f g -> finite g ->
  exists s, FormatFloat ftoa f bits = Ok s /\ AppendFloat ftoa dst f bits = Ok (dst ++ s).
Proof.
  intros H Cf Nw F. destruct (H f g (useExp f bits) bits Cf Nw F) as (p & Ep & Tp & Rp). unfold FormatFloat, AppendFloat. rewrite (bits_ok _ _ _ Nw). eexists. split; [reflexivity|].
  f_equal. destruct (useExp f bits).
  - rewrite Ep. (* both are given by the same p' *)
    destruct (clean_lem dst p Tp) as (p1 & -> & K1). destruct (clean_lem [] p Tp) as (p2 & C2 & K2). cbn [app] in C2 |- *. rewrite C2. f_equal. f_equal.
    destruct p as [n0 i0 f0 e0], p1 as [n1 i1 f1 e1], p2 as [n2 i2 f2 e2]. unfold cleaned in *. cbn [pneg pint pfrac pexp] in *.
    destruct K1 as (-> & -> & -> & K1), K2 as (-> & -> & -> & K2). f_equal.
    destruct K1 as [(d & E1 & ->)|(N1 & ->)], K2 as [(d' & E2 & ->)|(N2 & ->)]; try congruence; exfalso; firstorder congruence.
  - reflexivity.
Qed.
Lemma not_number neg c r : ~ digit c -> c <> x2d -> ~ rfc_number ((if neg : bool then [x2d] else []) ++ c :: r).
Proof.
  intros Dc Nc H. assert (K : exists neg' c' r', digit c' /\ (if neg then [x2d] else []) ++ c :: r = (if neg' : bool then [x2d] else []) ++ c' :: r').
  { destruct H as [m i f e Hm Hi Hf He]. assert (exists c r, i = c :: r /\ digit c) as (c' & r' & -> & Dc').
    { destruct Hi as [|d ds Dd F]; do 2 eexists; (split; [reflexivity|]); [vm_compute; split; discriminate|]. unfold digit19, digit in *. lia. }
    destruct Hm as [->| ->]; [exists false|exists true]; exists c'; eexists; (split; [exact Dc'|reflexivity]). }
  destruct K as (neg' & c' & r' & Dc' & E). destruct neg, neg'; cbn [app] in E; try (injection E as -> _; contradiction).
  - injection E as <- _. vm_compute in Dc'. destruct Dc'. congruence.
Qed.
Lemma C38_refuted_lem ftoa f g bits s : ftoa_special ftoa -> canonical b64 f -> narrow bits f g -> ~ finite g -> FormatFloat ftoa f bits = Ok s -> ~ rfc_number s.
Proof.
  intros H Cf Nw F E. unfold FormatFloat, AppendFloat in E. rewrite (bits_ok _ _ _ Nw), (H f g _ bits Cf Nw F) in E. cbn [app] in E. injection E as <-.
  assert (D : forall (b : bool) x, cleanup x = x -> (if b then cleanup x else x) = x) by (intros [] x K; auto).
  rewrite D by (destruct g as [|[]|]; try reflexivity; cbn in F; tauto). clear.
  destruct g as [|[]|]; [apply (not_number false)|apply (not_number true)|apply (not_number false)|apply (not_number false)]; try discriminate; intros [A B]; vm_compute in A, B; congruence.
Qed.
Lemma C38_bits_lem ftoa dst f bits : bits <> 32%Z -> bits <> 64%Z -> AppendFloat ftoa dst f bits = Panic /\ FormatFloat ftoa f bits = Panic.
Proof. intros A B. unfold FormatFloat, AppendFloat. rewrite (proj2 (Z.eqb_neq _ _) A), (proj2 (Z.eqb_neq _ _) B). auto. Qed.

(* ---- notation ---- *)

Lemma fval_fabs x : nonneg x -> fval (fabs x) == Qabs (fval x).
Proof.
  destruct x as [| |s m e]; try reflexivity. cbn [nonneg]. intro H. change (fabs (FFin s m e)) with (FFin false m e). rewrite !fval_sgq, Qabs_sgq, sgq_f.
  symmetry. apply Qabs_pos. apply Qmult_le_0_compat; [apply inj_nn; auto|]. pose proof (p2_pos e). lra.
Qed.
Definition c6 : float := roundQ b64 false 1 1000000.
Definition c21 : float := roundQ b64 false (10 ^ 21) 1.
Definition d6 : float := roundQ b32 false 1 1000000.
Definition d21 : float := roundQ b32 false (10 ^ 21) 1.
Lemma lit_rounded f a b q : good f -> (0 <= a)%Z -> (0 < b)%Z -> q * inject_Z b == inject_Z a -> rounded f false q (roundQ f false a b).
Proof. intros G A B E. eapply rounded_ext; [apply sgq_f|]. apply roundQ_rounded; auto. Qed.
Lemma consts : rounded b64 false (1#1000000) c6 /\ rounded b64 false (inject_Z (10 ^ 21)) c21 /\
  rounded b32 false (1#1000000) d6 /\ rounded b32 false (inject_Z (10 ^ 21)) d21.
Proof.
  split; [|split; [|split]]; apply lit_rounded; try exact good64; try exact good32; try reflexivity; try (vm_compute; discriminate).
Qed.
Lemma C38_exp_lem f : finite f -> nonneg f ->
  (useExp f 64 = true <-> ~ fval f == 0 /\ (Qabs (fval f) < fval c6 \/ fval c21 <= Qabs (fval f))).
Proof.
  intros F N. unfold useExp. cbv zeta. assert (Fa : finite (fabs f)) by (destruct f; cbn in *; tauto).
  rewrite andb_true_iff, negb_true_iff, orb_true_iff. change (64 =? 32)%Z with false. change (64 =? 64)%Z with true. cbn [andb].
  rewrite orb_true_iff. fold c6 c21. rewrite flt_iff, fle_iff by (auto; exact I). rewrite (fval_fabs f N). unfold isZero.
  rewrite <- not_true_iff_false, (feq_iff (fabs f) zeroF Fa I), (fval_fabs f N). assert (Z0 : fval zeroF == 0) by reflexivity. rewrite Z0.
  assert (A : Qabs (fval f) == 0 <-> fval f == 0). { split; intro H; [apply Qabs_0; rewrite H; apply Qle_refl|rewrite H; reflexivity]. }
  rewrite A. intuition discriminate.
Qed.
Lemma rep_not_overflow f x : good f -> representable f x -> ~ overflow f (fval x).
Proof.
  destruct x as [| |s m e]; cbn [representable]; try tauto. intros G ((M1 & M2) & (E1 & E2)) O. unfold overflow in O. rewrite fval_sgq, Qabs_sgq in O.
  pose proof (p2_pos e) as Pe. pose proof (p2_pos (femax f)) as Pf. assert (Im : 0 <= inject_Z m) by (apply inj_nn; auto).
  rewrite Qabs_pos in O by nra. assert (L : p2 e <= p2 (femax f)) by (apply p2_le; auto).
  assert (inject_Z m <= inject_Z (2 ^ fprec f) - 1).
  { assert (H : inject_Z (m + 1) <= inject_Z (2 ^ fprec f)) by (rewrite <- Zle_Qle; lia). rewrite inject_Z_plus in H. change (inject_Z 1) with 1 in H. lra. }
  assert (inject_Z m * p2 e <= inject_Z m * p2 (femax f)) by (rewrite !(Qmult_comm (inject_Z m)); apply Qmult_le_compat_r; auto).
  assert (inject_Z m * p2 (femax f) <= (inject_Z (2 ^ fprec f) - 1) * p2 (femax f)) by (apply Qmult_le_compat_r; lra).
  assert ((inject_Z (2 ^ fprec f) - 1) * p2 (femax f) < (inject_Z (2 ^ fprec f) - (1#2)) * p2 (femax f)) by (apply Qmult_lt_compat_r; lra). lra.
Qed.
Lemma to32_rep m e : representable b32 (FFin false m e) -> finite (to32 (FFin false m e)) /\ fval (to32 (FFin false m e)) == fval (FFin false m e).
Proof.
  intro R. unfold to32. destruct (dyadic m e) as [a b] eqn:D. apply dyadic_spec in D as (Db & Dx & Da).
  assert (Rd : rounded b32 false (fval (FFin false m e)) (roundQ b32 false a b)).
  { eapply rounded_ext; [|apply roundQ_rounded; [exact good32|apply Da; apply R|auto|exact Dx]]. symmetry. apply fval_sgq. }
  pose proof (rep_not_overflow b32 _ good32 R) as O. destruct (rounded_exact _ _ _ _ (FFin false m e) Rd O R ltac:(reflexivity)). auto.
Qed.
Lemma C38_exp32_lem f : representable b32 f ->
  (useExp f 32 = true <-> ~ fval f == 0 /\ (Qabs (fval f) < fval d6 \/ fval d21 <= Qabs (fval f))).
Proof.
  intros R. destruct f as [| |s m e]; cbn [representable] in R; try tauto.
  assert (N : nonneg (FFin s m e)) by (cbn; lia). destruct (to32_rep m e R) as [F3 V3].
  unfold useExp. cbv zeta. change (fabs (FFin s m e)) with (FFin false m e).
  rewrite andb_true_iff, negb_true_iff, orb_true_iff. change (32 =? 32)%Z with true. change (32 =? 64)%Z with false. cbn [andb].
  rewrite orb_true_iff. fold d6 d21. rewrite flt_iff, fle_iff by (auto; exact I). rewrite V3.
  assert (Ef : fval (FFin false m e) == Qabs (fval (FFin s m e))) by (rewrite <- fval_fabs by auto; reflexivity). unfold isZero.
  rewrite <- not_true_iff_false, (feq_iff (FFin false m e) zeroF I I), Ef. assert (Z0 : fval zeroF == 0) by reflexivity. rewrite Z0.
  assert (A : Qabs (fval (FFin s m e)) == 0 <-> fval (FFin s m e) == 0). { split; intro H; [apply Qabs_0; rewrite H; apply Qle_refl|rewrite H; reflexivity]. }
  rewrite A. intuition discriminate.
Qed.

(* ---- a writer that meets the specification: the exact decimal expansion ---- *)

Lemma digitsOf_rfc fuel : forall n, (N.to_nat (N.log2 n) < fuel)%nat -> rfc_int (digitsOf fuel n).
Proof.
  induction fuel as [|fuel IH]; intros n L; [lia|]. cbn [digitsOf].
  assert (Dg : forall k, (k < 10)%N -> bN (Nb (48 + k)) = (48 + k)%N) by (intros k H; apply bNb; lia).
  destruct (N.ltb_spec n 10) as [H|H].
  - destruct (N.eq_dec n 0) as [->|N0]; [constructor|]. apply int_nz; [|constructor]. unfold digit19. rewrite Dg by auto. lia.
  - assert (Ln : (N.to_nat (N.log2 (n / 10)) < fuel)%nat).
    { assert (N.log2 (n / 10) < N.log2 n)%N; [|lia]. apply N.le_lt_trans with (N.log2 (n / 2)).
      - apply N.log2_le_mono. apply N.div_le_compat_l. lia.
      - rewrite <- N.div2_div. rewrite N.div2_spec, N.log2_shiftr by lia. assert (1 <= N.log2 n)%N by (apply (N.log2_le_mono 2); lia). lia. }
    specialize (IH _ Ln). assert (Dm : digit (Nb (48 + n mod 10))). { unfold digit. pose proof (N.mod_lt n 10 ltac:(discriminate)). rewrite (Dg (n mod 10)%N) by exact H0. clear - H0. split; [apply N.le_add_r|]. change 57%N with (48 + 9)%N. apply N.add_le_mono_l. apply N.lt_succ_r. exact H0. }
    assert (Nz : digitsOf fuel (n / 10) <> [x30]).
    { intro E. pose proof (digitsOf_spec fuel (n / 10) Ln) as (_ & _ & V). rewrite E in V. change (dval [x30]) with 0%Z in V.
      assert (1 <= n / 10)%N by (apply N.div_le_lower_bound; lia). lia. }
    inversion IH as [E|d ds D19 Fd E].
    + congruence.
    + cbn [app]. apply int_nz; auto. apply Forall_app. split; auto.
Qed.
Lemma FormatUint_rfc n : rfc_int (FormatUint n).
Proof.
  apply digitsOf_rfc. destruct n as [|p]; [cbn; lia|].
  assert (E : N.size_nat (N.pos p) = N.to_nat (N.size (N.pos p))).
  { cbn. clear. induction p; cbn; rewrite ?IHp, ?Pos2Nat.inj_succ; auto. }
  rewrite E, N.size_log2 by discriminate. lia.
Qed.
(* k digits *)
Fixpoint padded (k : nat) (n : N) : bytes :=
  match k with O => [] | S k => padded k (n / 10) ++ [Nb (48 + n mod 10)] end.
Lemma digit_of k : (k < 10)%N -> digit (Nb (48 + k)).
Proof. intro B. assert (E : bN (Nb (48 + k)) = (48 + k)%N) by (apply bNb; lia). unfold digit. rewrite E. split; lia. Qed.
Lemma padded_spec k : forall n, digits (padded k n) /\ length (padded k n) = k /\ dval (padded k n) = Z.of_N (n mod 10 ^ N.of_nat k).
Proof.
  induction k as [|k IH]; intro n; cbn [padded].
  - split; [constructor|]. split; [reflexivity|]. cbn. rewrite N.mod_1_r. reflexivity.
  - destruct (IH (n / 10)%N) as (D & L & V). pose proof (N.mod_lt n 10 ltac:(discriminate)) as B.
    assert (E : bN (Nb (48 + n mod 10)) = (48 + n mod 10)%N) by (apply bNb; lia).
    split; [apply digits_app; auto; constructor; [apply digit_of; exact B|constructor]|]. split; [rewrite app_length, L; cbn; lia|].
    rewrite dval_app, V. cbn [length dval]. change (10 ^ Z.of_nat 1)%Z with 10%Z. change (10 ^ Z.of_nat 0)%Z with 1%Z. rewrite E.
    replace (N.of_nat (S k)) with (1 + N.of_nat k)%N by lia. rewrite N.pow_add_r, N.pow_1_r.
    rewrite N.mod_mul_r by (try discriminate; apply N.pow_nonzero; discriminate). lia.
Qed.
Definition exact_parts (e : bool) (s : bool) (m x : Z) : parts :=
  if (0 <=? x)%Z then mkParts s (FormatUint (Z.to_N (m * 2 ^ x))) None (if e then Some (x65, [x2b], str "00") else None)
  else let n := Z.to_N (m * 5 ^ (- x)) in
       if e then mkParts s (FormatUint n) None (Some (x65, [x2d], padded (2 + Z.to_nat (- x)) (Z.to_N (- x))))
       else mkParts s (FormatUint (n / 10 ^ Z.to_N (- x))) (Some (padded (Z.to_nat (- x)) n)) None.
Definition exact_ftoa (f : float) (e : bool) (bits : Z) : bytes :=
  match (if (bits =? 32)%Z then to32 f else f) with
  | FNaN => str "NaN" | FInf false => str "+Inf" | FInf true => str "-Inf"
  | FFin s m x => text (exact_parts e s m x)
  end.
Lemma small_pow x : (Z.to_N x < 10 ^ N.of_nat (2 + Z.to_nat x))%N.
Proof.
  replace (N.of_nat (2 + Z.to_nat x)) with (2 + Z.to_N x)%N by lia. generalize (Z.to_N x). intro n.
  apply N.lt_le_trans with (2 ^ n)%N; [apply N.pow_gt_lin_r; lia|]. apply N.le_trans with (10 ^ n)%N; [apply N.pow_le_mono_l; lia|]. apply N.pow_le_mono_r; lia.
Qed.
Lemma p10_p2 k : (0 <= k)%Z -> inject_Z (5 ^ k) * p10 (- k) == p2 (- k).
Proof.
  intro H. rewrite p10_opp, p2_opp, p10_Z, p2_Z by auto. replace (10 ^ k)%Z with (5 ^ k * 2 ^ k)%Z by (rewrite <- Z.pow_mul_l; reflexivity).
  rewrite inject_Z_mult. assert (~ inject_Z (5 ^ k) == 0). { intro E. apply (proj1 (inject_Z_injective _ 0)) in E. pose proof (Z.pow_pos_nonneg 5 k). lia. }
  assert (~ inject_Z (2 ^ k) == 0). { intro E. apply (proj1 (inject_Z_injective _ 0)) in E. pose proof (Z.pow_pos_nonneg 2 k). lia. }
  field. auto.
Qed.
Lemma zero_digits c : digits c -> c = str "00" -> dval c = 0%Z. Proof. intros _ ->. reflexivity. Qed.
Lemma exact_parts_spec e s m x : (0 <= m)%Z ->
  let p := exact_parts e s m x in pneg p = s /\ (if e then e_text p else f_text p) /\ numval p == fval (FFin s m x).
Proof.
  intro M. assert (D00 : digits (str "00")) by (repeat constructor; vm_compute; discriminate).
  assert (Num : forall i f ex, magnitude (mkParts s i f ex) == inject_Z m * p2 x -> numval (mkParts s i f ex) == fval (FFin s m x)).
  { intros i f ex H. unfold numval. rewrite fval_sgq, H. unfold sgq. destruct s; reflexivity. }
  unfold exact_parts. cbv zeta. destruct (Z.leb_spec 0 x) as [L|L].
  - destruct (FormatUint_spec (Z.to_N (m * 2 ^ x))) as (D & N & V). pose proof (FormatUint_rfc (Z.to_N (m * 2 ^ x))) as R.
    rewrite Z2N.id in V by (apply Z.mul_nonneg_nonneg; auto; apply Z.pow_nonneg; lia). split; [reflexivity|].
    assert (Mg : forall ex, exp_val ex = 0%Z -> magnitude (mkParts s (FormatUint (Z.to_N (m * 2 ^ x))) None ex) == inject_Z m * p2 x).
    { intros ex Ee. unfold magnitude, frac_digits. cbn [pneg pint pfrac pexp length dval]. rewrite Ee, V, inject_Z_mult, <- p2_Z by auto. change (p10 0) with 1. change (inject_Z 0) with 0. ring. }
    destruct e; (split; [|apply Num, Mg; reflexivity]); unfold e_text, f_text, shape; cbn [pint pfrac pexp]; unfold one_sign; repeat split; auto; try discriminate.
    exists x2b, (str "00"). auto.
  - set (n := Z.to_N (m * 5 ^ (- x))). assert (En : Z.of_N n = (m * 5 ^ (- x))%Z).
    { unfold n. apply Z2N.id. apply Z.mul_nonneg_nonneg; auto. apply Z.pow_nonneg. lia. }
    assert (Px : inject_Z (5 ^ (- x)) * p10 x == p2 x). { pose proof (p10_p2 (- x) ltac:(lia)) as Px. rewrite !Z.opp_involutive in Px. exact Px. }
    destruct e.
    + destruct (FormatUint_spec n) as (D & N & V). pose proof (FormatUint_rfc n) as R.
      destruct (padded_spec (2 + Z.to_nat (- x)) (Z.to_N (- x))) as (D2 & L2 & V2).
      rewrite N.mod_small in V2 by apply small_pow. rewrite Z2N.id in V2 by lia.
      assert (Ne : padded (2 + Z.to_nat (- x)) (Z.to_N (- x)) <> []) by (intro E; rewrite E in L2; discriminate).
      split; [reflexivity|]. split.
      * unfold e_text, shape; cbn [pint pfrac pexp]; unfold one_sign. split; [repeat split; auto|]. split; auto. exists x2d. eexists. split; [reflexivity|]. rewrite L2. lia.
      * apply Num. unfold magnitude, frac_digits. cbn [pneg pint pfrac pexp length dval]. unfold exp_val. change (existsb (beqb x2d) [x2d]) with true. cbv iota. rewrite V2, V, En, inject_Z_mult.
        change (inject_Z 0) with 0. change (p10 0) with 1. rewrite Z.opp_involutive, <- Px. ring.
    + destruct (FormatUint_spec (n / 10 ^ Z.to_N (- x))) as (D & N & V). pose proof (FormatUint_rfc (n / 10 ^ Z.to_N (- x))) as R.
      destruct (padded_spec (Z.to_nat (- x)) n) as (D2 & L2 & V2). replace (N.of_nat (Z.to_nat (- x))) with (Z.to_N (- x)) in V2 by lia.
      assert (Ne : padded (Z.to_nat (- x)) n <> []) by (intro E; rewrite E in L2; cbn in L2; lia).
      split; [reflexivity|]. split; [unfold f_text, shape; cbn [pint pfrac pexp]; repeat split; auto|].
      apply Num. unfold magnitude, frac_digits. cbn [pneg pint pfrac pexp]. rewrite V, V2, L2. unfold exp_val. change (p10 0) with 1.
      replace (Z.of_nat (Z.to_nat (- x))) with (- x)%Z by lia. rewrite <- Px.
      rewrite Qmult_assoc, <- inject_Z_mult, <- En.
      assert (Hn : inject_Z (Z.of_N n) == inject_Z (Z.of_N (n / 10 ^ Z.to_N (- x))) * inject_Z (10 ^ (- x)) + inject_Z (Z.of_N (n mod 10 ^ Z.to_N (- x)))).
      { rewrite <- inject_Z_mult, <- inject_Z_plus. assert (P : (10 ^ (- x))%Z = Z.of_N (10 ^ Z.to_N (- x))) by (rewrite N2Z.inj_pow, Z2N.id by lia; reflexivity). rewrite P.
        rewrite <- N2Z.inj_mul, <- N2Z.inj_add. rewrite N.mul_comm, <- N.div_mod by (apply N.pow_nonzero; discriminate). reflexivity. }
      rewrite Hn. assert (P : inject_Z (10 ^ (- x)) * p10 x == 1). { rewrite <- p10_Z by lia. rewrite p10_opp. pose proof (p10_pos x) as P0. field. intro K. rewrite K in P0. discriminate P0. }
      rewrite !Z.opp_involutive in *. setoid_rewrite Qmult_plus_distr_l at 2. rewrite <- (Qmult_assoc _ (inject_Z (10 ^ (- x)))). setoid_rewrite P. ring.
Qed.
Lemma canonical_rounded F s m e : good F -> canonical F (FFin s m e) -> rounded F s (fval (FFin s m e)) (FFin s m e).
Proof.
  intros G C. split; [reflexivity|]. left. assert (R : representable F (FFin s m e)) by apply C. split; [apply rep_not_overflow; auto|].
  split; auto. split; auto. intros y Ry. assert (Z0 : Qabs (fval (FFin s m e) - fval (FFin s m e)) == 0).
  { assert (E : fval (FFin s m e) - fval (FFin s m e) == 0) by ring. rewrite E. reflexivity. }
  rewrite Z0. split; [apply Qabs_nonneg|]. intros E Ne. exfalso. apply Ne. assert (fval (FFin s m e) - fval y == 0) by (apply Qabs_0; rewrite <- E; apply Qle_refl). lra.
Qed.
Lemma rounded_canonical F s q x : rounded F s q x -> finite x -> canonical F x.
Proof. intros (_ & [(_ & N)|(_ & ->)]) Fx; [apply N|destruct Fx]. Qed.
Lemma to32_rounded s m e : (0 <= m)%Z -> rounded b32 s (fval (FFin s m e)) (to32 (FFin s m e)).
Proof.
  intro M. unfold to32. destruct (dyadic m e) as [a b] eqn:D. apply dyadic_spec in D as (Db & Dx & Da).
  eapply rounded_ext; [|apply roundQ_rounded; [exact good32|apply Da; auto|auto|exact Dx]]. symmetry. apply fval_sgq.
Qed.
(* two canonical neighbours do not both have even mantissas *)
Lemma mag_succ F x y m e n e' s : good F -> canonical F (FFin s m e) -> canonical F (FFin s n e') ->
  x == inject_Z m * p2 e -> y == inject_Z n * p2 e' -> x < y -> x + p2 e <= y.
Proof.
  intros (G1 & G2) ((M & E) & C1) ((Nn & E') & C2) Hx Hy L. rewrite Hx, Hy in *. pose proof (p2_pos e) as P. pose proof (p2_pos e') as P'.
  destruct (Z_lt_le_dec e' e) as [K|K].
  - exfalso. destruct C1 as [C1|C1]; [|lia]. assert (Q1 : p2 (e' + 1) <= p2 e) by (apply p2_le; lia). rewrite p2_S in Q1.
    assert (A1 : inject_Z n + 1 <= inject_Z (2 ^ fprec F)). { change 1 with (inject_Z 1). rewrite <- inject_Z_plus, <- Zle_Qle. lia. }
    assert (A2 : inject_Z (2 ^ (fprec F - 1)) <= inject_Z m) by (rewrite <- Zle_Qle; lia).
    assert (A3 : inject_Z (2 ^ fprec F) == 2 * inject_Z (2 ^ (fprec F - 1))).
    { change 2 with (inject_Z 2). rewrite <- inject_Z_mult, <- Z.pow_succ_r by lia. replace (Z.succ (fprec F - 1)) with (fprec F) by lia. reflexivity. }
    assert (A4 : 0 < inject_Z (2 ^ (fprec F - 1))) by (apply inj_pos, Z.pow_pos_nonneg; lia).
    assert (inject_Z m * p2 e >= inject_Z (2 ^ (fprec F - 1)) * (2 * p2 e')) by nra. assert (inject_Z n * p2 e' < inject_Z (2 ^ fprec F) * p2 e') by nra. nra.
  - rewrite <- (p2_sub e' e), Qmult_assoc in L |- *. rewrite (p2_Z (e' - e)) in L |- * by lia. rewrite <- inject_Z_mult in L |- *.
    apply Qmult_lt_r in L; auto. rewrite <- Zlt_Qlt in L. assert (A : inject_Z (m + 1) <= inject_Z (n * 2 ^ (e' - e))) by (rewrite <- Zle_Qle; lia).
    rewrite inject_Z_plus in A. change (inject_Z 1) with 1 in A. nra.
Qed.
Lemma nearest_order F s q m e n e' : good F -> nearest F q (FFin s m e) -> nearest F q (FFin s n e') ->
  inject_Z m * p2 e < inject_Z n * p2 e' -> Z.even m = true -> Z.even n = true -> False.
Proof.
  intros G (Rx & Cx & Bx) (Ry & Cy & By) L Em En. pose proof (mag_succ F _ _ m e n e' s G Cx Cy (Qeq_refl _) (Qeq_refl _) L) as S. pose proof (p2_pos e) as P.
  destruct G as (G1 & G2). destruct Rx as (M & E).
  (* the successor of the smaller one *)
  assert (Sc : exists m' k, representable F (FFin s m' k) /\ canonical F (FFin s m' k) /\ inject_Z m' * p2 k == (inject_Z m + 1) * p2 e /\ (m' = m + 1 /\ k = e)%Z).
  { assert (m + 1 <> 2 ^ fprec F)%Z. { intro K. assert (Ev : Z.even (m + 1) = true) by (rewrite K; replace (fprec F) with (Z.succ (fprec F - 1)) by lia; rewrite Z.pow_succ_r, Z.even_mul by lia; reflexivity).
      rewrite Z.even_add, Em in Ev. discriminate. }
    exists (m + 1)%Z, e. assert (Rp : representable F (FFin s (m + 1) e)) by (cbn; lia). split; auto. split; [|split; [rewrite inject_Z_plus; reflexivity|auto]].
    split; auto. destruct Cx as (_ & [C|C]); [left; lia|right; auto]. }
  destruct Sc as (m' & k & Rz & Cz & Vz & -> & ->). set (x := inject_Z m * p2 e) in *. set (y := inject_Z n * p2 e') in *.
  assert (D : x + p2 e == y \/ x + p2 e < y) by (destruct (Qlt_le_dec (x + p2 e) y); [right; auto|left; apply Qle_antisym; auto]).
  destruct D as [D|D].
  - assert (V : inject_Z (m + 1) * p2 e == inject_Z n * p2 e') by (fold y; rewrite <- D, Vz; unfold x; ring).
    apply (canonical_unique F s) in V; auto; [|split; auto]. destruct V as [<- _]. rewrite Z.even_add, Em in En. discriminate.
  - destruct (Bx _ Ry) as [B1 _], (By _ (conj M E : representable F (FFin s m e))) as [B2 _], (Bx _ Rz) as [B3 _], (By _ Rz) as [B4 _].
    assert (Sg : forall a b, fval (FFin s a b) == sgq s (inject_Z a * p2 b)) by (intros; apply fval_sgq). rewrite !Sg in *.
    rewrite Vz in *. fold x y in B1, B2, B3, B4. assert (Ez : (inject_Z m + 1) * p2 e == x + p2 e) by (unfold x; ring). rewrite Ez in *.
    unfold sgq in *. destruct s; repeat match goal with H : context [Qabs ?a] |- _ => let v := fresh "v" in let Hv := fresh "Hv" in remember (Qabs a) as v eqn:Hv in *; revert Hv; apply Qabs_case; intros ? -> end; lra.
Qed.
Lemma ties_apart F q s m e n e' : good F -> nearest F q (FFin s m e) -> nearest F q (FFin s n e') -> ~ fval (FFin s m e) == fval (FFin s n e') ->
  Z.even m = true -> Z.even n = true -> False.
Proof.
  intros G A B N E1 E2. assert (N' : ~ inject_Z m * p2 e == inject_Z n * p2 e') by (intro K; apply N; rewrite !fval_sgq, K; reflexivity).
  destruct (Qlt_le_dec (inject_Z m * p2 e) (inject_Z n * p2 e')) as [L|L]; [eapply (nearest_order F s q m e n e'); eauto|].
  eapply (nearest_order F s q n e' m e); eauto. apply Qle_lteq in L as [L|L]; auto. exfalso. apply N'. symmetry. exact L.
Qed.
Lemma rounded_unique F s q x y : good F -> rounded F s q x -> rounded F s q y -> x = y.
Proof.
  intros G (Sx & Hx) (Sy & Hy). destruct Hx as [(Ox & Nx)|(Ox & ->)], Hy as [(Oy & Ny)|(Oy & ->)]; try contradiction; auto.
  destruct x as [|s1|s1 m e]; [destruct Nx as ([] & _)|destruct Nx as ([] & _)|]. destruct y as [|s2|s2 n e']; [destruct Ny as ([] & _)|destruct Ny as ([] & _)|].
  injection Sx as ->. injection Sy as ->.
  assert (V : fval (FFin s m e) == fval (FFin s n e')).
  { destruct (Qeq_dec (fval (FFin s m e)) (fval (FFin s n e'))) as [E|N]; auto. exfalso.
    pose proof Nx as (Rx & Cx & Bx). pose proof Ny as (Ry & Cy & By).
    destruct (Bx _ Ry) as [B1 B2], (By _ Rx) as [B3 B4]. assert (E : Qabs (q - fval (FFin s m e)) == Qabs (q - fval (FFin s n e'))) by (apply Qle_antisym; auto).
    specialize (B2 E N). assert (N' : ~ fval (FFin s n e') == fval (FFin s m e)) by (intro K; apply N; symmetry; exact K). symmetry in E. specialize (B4 E N').
    eapply (ties_apart F q s m e n e' G Nx Ny N); [|exact B4]. exact B2. }
  rewrite !fval_sgq in V. assert (V' : inject_Z m * p2 e == inject_Z n * p2 e') by (unfold sgq in V; destruct s; lra).
  apply (canonical_unique F s) in V'; [|auto|apply Nx|apply Ny]. destruct V' as [-> ->]. reflexivity.
Qed.
Lemma narrow_exact bits f g : canonical b64 f -> narrow bits f g -> g = if (bits =? 32)%Z then to32 f else f.
Proof.
  intros C [[-> ->]|[-> H]]; [reflexivity|]. cbn [Z.eqb]. change (32 =? 32)%Z with true. cbv iota. destruct f as [|s|s m e]; try exact H.
  eapply rounded_unique; [exact good32|exact H|]. apply to32_rounded. apply C.
Qed.
Lemma exact_spec : ftoa_spec exact_ftoa.
Proof.
  intros f g e bits C Nw F. pose proof (narrow_exact _ _ _ C Nw) as E. unfold exact_ftoa. rewrite <- E. destruct g as [|s|s m x]; try (destruct F).
  assert (Cg : canonical (fmt_of bits) (FFin s m x)).
  { destruct Nw as [[-> ->]|[-> H]]; [exact C|]. change (fmt_of 32) with b32. destruct f as [|t|t a b]; try discriminate. eapply rounded_canonical; [exact H|exact I]. }
  destruct (exact_parts_spec e s m x) as (S & T & V); [apply Cg|]. exists (exact_parts e s m x). split; auto. split; auto. rewrite S.
  eapply rounded_ext; [symmetry; exact V|]. apply canonical_rounded; auto. unfold fmt_of. destruct (_ =? _)%Z; [exact good32|exact good64].
Qed.
Lemma exact_special : ftoa_special exact_ftoa.
Proof.
  intros f g e bits C Nw F. assert (E : g = if (bits =? 32)%Z then to32 f else f).
  { destruct f as [|s|s m x]; [| |apply (narrow_exact bits); auto]; destruct Nw as [[-> ->]|[-> ->]]; reflexivity. }
  unfold exact_ftoa. rewrite <- E. destruct g as [|[]|]; try reflexivity. destruct (F I).
Qed.
