(* Lemmas for C52: floats written with SetFloat and read with ToFloat. *)
From Coq Require Import Lqa.
From Verif Require Import Bytes JsonSpec Types Parser Doc DocSpec DocProofs OpThms Float FloatSpec FloatProofs FloatOps Num NumSpec NumProofs NumThms NumClose NumWide NumInt FmtSpec FmtThms SetThms NumExamples.
Open Scope Q_scope.

(* the float64 nearest to 0.3 *)
Definition three_tenths : float := roundQ b64 false 3 10.
Lemma three_tenths_spec : rounded b64 false (3#10) three_tenths.
Proof. apply lit_rounded; [exact good64|lia|lia|reflexivity]. Qed.
Lemma SetNumberRaw_tree w n x s : Node_get w n = Some x -> tree_of (Node_SetNumberRaw w n s) n (JNum s).
Proof. intro G. eapply setScalar_denotes; eauto. Qed.
Lemma ToFloat_of w n s : tree_of w n (JNum s) -> Node_ToFloat w n = (ParseFloat s, feq (ParseFloat s) (ParseFloat s)).
Proof. intro T. apply tree_num in T as (x & G & <-). unfold Node_ToFloat. rewrite G. reflexivity. Qed.
Lemma feq_finite x : finite x -> feq x x = true.
Proof. intro F. apply feq_iff; auto. reflexivity. Qed.
Lemma rep_finite f x : representable f x -> finite x. Proof. destruct x; cbn; tauto. Qed.
Lemma C52_refuted_lem ftoa w n x : Node_get w n = Some x -> ftoa three_tenths false 64%Z = str "0.3" ->
  exists w' g, Node_SetFloat ftoa w n three_tenths = Ok w' /\ Node_ToFloat w' n = (g, true) /\ finite g /\ ~ fval g == fval three_tenths.
Proof.
  intros G E. unfold Node_SetFloat, FormatFloat, AppendFloat.
  assert (U : useExp three_tenths 64 = false) by (vm_compute; reflexivity). rewrite U, E. cbn [app]. change ((64 =? 32) || (64 =? 64))%Z%bool with true. cbv iota.
  eexists. exists (ParseFloat (str "0.3")). split; [reflexivity|].
  rewrite (ToFloat_of _ _ (str "0.3")) by (eapply SetNumberRaw_tree; eauto).
  assert (F : ParseFloat (str "0.3") = FFin false 5404319552844596 (-54)) by (vm_compute; reflexivity).
  assert (T : three_tenths = FFin false 5404319552844595 (-54)) by (vm_compute; reflexivity). rewrite F, T.
  split; [reflexivity|]. split; [exact I|]. vm_compute. discriminate.
Qed.
Lemma C52_lem ftoa w n x f : ftoa_spec ftoa -> Node_get w n = Some x -> canonical b64 f -> finite f ->
  exists p w', Node_SetFloat ftoa w n f = Ok w' /\ tree_of w' n (JNum (text p)) /\ rfc_number (text p) /\ rounded b64 (pneg p) (numval p) f /\
    (integer_text p \/ by_strconv p -> Node_ToFloat w' n = (f, true)) /\
    (small_text (text p) -> small_digits p -> (Z.abs (exp_val (pexp p)) <= 285)%Z ->
       exists g, Node_ToFloat w' n = (g, true) /\ Qabs (fval g - numval p) <= Qabs (numval p) * p2 (-49)) /\
    (small_text (text p) -> short_exp p -> wide_digits p -> Qabs (numval p) <= p2 1022 ->
       exists g, Node_ToFloat w' n = (g, true) /\ Qabs (fval g - numval p) <= Qabs (numval p) * p2 (-49) + p2 (-1074)).
Proof.
  intros H G C Ff.
  destruct (C38_lem ftoa [] f f 64 H C (or_introl (conj eq_refl eq_refl)) Ff) as (p & p' & _ & A & _ & R & _ & S & Rd).
  change (fmt_of 64) with b64 in Rd. cbn [app] in A. unfold Node_SetFloat, FormatFloat. rewrite A. exists p'. eexists. split; [reflexivity|].
  assert (T : tree_of (Node_SetNumberRaw w n (text p')) n (JNum (text p'))) by (eapply SetNumberRaw_tree; eauto).
  split; [exact T|]. split; [exact R|]. split; [exact Rd|]. rewrite (ToFloat_of _ _ _ T). split; [|split].
  - intro K. assert (E : ParseFloat (text p') = f).
    { destruct K as [K|K]; (eapply rounded_unique; [exact good64| |exact Rd]).
      - eapply rounded_ext; [symmetry; apply int_numval; apply K|]. apply C34_rounded. exact K.
      - apply C35_rounded_lem; auto. }
    rewrite E, feq_finite; auto.
  - intros K1 K2 K3. destruct (C35_close_lem p' (shape_one_some _ S) K1 K2 K3) as (Rp & Cl). eexists. split; [|exact Cl]. f_equal. apply feq_finite. eapply rep_finite; eauto.
  - intros K1 K2 K3 K4. destruct (C35_wide_lem p' S K1 K2 (or_intror K3) K4) as (Rp & Cl). eexists. split; [|exact Cl]. f_equal. apply feq_finite. eapply rep_finite; eauto.
Qed.
Lemma ex52_lem : ftoa_spec exact_ftoa /\ canonical b64 (FFin true (2 ^ 52) (-50)) /\
  (exists w', Node_SetFloat exact_ftoa ex_world (mkN 1 0 (Some O)) (FFin true (2 ^ 52) (-50)) = Ok w' /\
    Node_Raw w' (mkN 1 0 (Some O)) = str "-4." ++ repeat x30 50 /\ Node_ToFloat w' (mkN 1 0 (Some O)) = (FFin true (2 ^ 52) (-50), true)).
Proof.
  split; [apply exact_spec|]. split; [vm_compute; repeat split; try discriminate; left; discriminate|].
  eexists. split; [vm_compute; reflexivity|]. split; vm_compute; reflexivity.
Qed.
