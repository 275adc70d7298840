(* What ParseFloat computes on decimal texts; where it returns NaN. *)
From Verif Require Import Bytes JsonSpec Types Parser Doc Float FloatSpec Num NumSpec.
Open Scope Z_scope.

Lemma isDigit_iff c : isDigit c = true <-> digit c.
Proof. unfold isDigit, digit. rewrite andb_true_iff, !N.leb_le. reflexivity. Qed.
Lemma isDigit_false c : isDigit c = false <-> ~ digit c.
Proof. rewrite <- isDigit_iff. destruct (isDigit c); split; congruence. Qed.

Lemma dval_app a b : dval (a ++ b) = dval a * 10 ^ Z.of_nat (length b) + dval b.
Proof.
  induction a as [|c a IH]; cbn [app dval]; [lia|]. rewrite IH, app_length, Nat2Z.inj_add, Z.pow_add_r by lia. ring.
Qed.
Lemma digitsZ_acc ds : forall acc, fold_left (fun n c => 10 * n + digitVal c) ds acc = acc * 10 ^ Z.of_nat (length ds) + dval ds.
Proof.
  induction ds as [|c ds IH]; intro acc; cbn [fold_left dval].
  - cbn. lia.
  - rewrite IH. cbn [length]. rewrite Nat2Z.inj_succ, Z.pow_succ_r by lia. unfold digitVal. ring.
Qed.
Lemma digitsZ_dval ds : digitsZ ds = dval ds.
Proof. unfold digitsZ. rewrite digitsZ_acc. lia. Qed.

Lemma dval_bound ds : digits ds -> 0 <= dval ds < 10 ^ Z.of_nat (length ds).
Proof.
  induction 1 as [|c ds H F IH]; cbn [dval length]; [cbn; lia|].
  rewrite Nat2Z.inj_succ, Z.pow_succ_r by lia. unfold digit in H. nia.
Qed.

(* ---- scanning ---- *)

Definition stops (r : bytes) : Prop := match r with c :: _ => ~ digit c | [] => True end.

Lemma scanDigits_app ds r : digits ds -> stops r -> forall acc j,
  scanDigits (ds ++ r) acc j = ((if Nat.eqb (length ds) 0 then acc else (acc * 10 ^ Z.of_nat (length ds) + dval ds) mod two64Z), j + Z.of_nat (length ds), r).
Proof.
  intros D S. induction D as [|c ds H F IH]; intros acc j.
  - cbn [app length Nat.eqb]. rewrite Z.add_0_r. destruct r as [|c r]; [reflexivity|]. cbn in S |- *. apply isDigit_false in S. rewrite S. reflexivity.
  - cbn [app scanDigits]. rewrite (proj2 (isDigit_iff c) H), IH. cbn [length Nat.eqb]. f_equal. f_equal; [|lia].
    cbn [dval]. fold (digitVal c). destruct ds as [|c' ds].
    + cbn. f_equal. lia.
    + cbn [length Nat.eqb]. rewrite !Nat2Z.inj_succ. set (k := Z.of_nat (length ds)). rewrite !Z.pow_succ_r by lia.
      rewrite <- Z.add_mod_idemp_l, Z.mul_mod_idemp_l, Z.add_mod_idemp_l by discriminate. f_equal. ring.
Qed.
Lemma scanDigits_0 ds r : digits ds -> stops r ->
  scanDigits (ds ++ r) 0 0 = (dval ds mod two64Z, Z.of_nat (length ds), r).
Proof.
  intros D S. rewrite scanDigits_app by auto. rewrite Z.mul_0_l, !Z.add_0_l. destruct ds; reflexivity.
Qed.
Lemma scanDigits_split s : exists ds r, s = ds ++ r /\ digits ds /\ stops r.
Proof.
  induction s as [|c s IH]; [exists [], []; repeat split; constructor|].
  destruct (isDigit c) eqn:E.
  - apply isDigit_iff in E. destruct IH as (ds & r & -> & D & S). exists (c :: ds), r. repeat split; auto. constructor; auto.
  - apply isDigit_false in E. exists [], (c :: s). repeat split; [constructor|exact E].
Qed.
Lemma takeDigits_app ds r : digits ds -> stops r -> takeDigits (ds ++ r) = (ds, r).
Proof.
  intros D S. induction D as [|c ds H F IH]; cbn [app takeDigits].
  - destruct r as [|c r]; [reflexivity|]. cbn in S |- *. apply isDigit_false in S. rewrite S. reflexivity.
  - rewrite (proj2 (isDigit_iff c) H), IH. reflexivity.
Qed.

Lemma wrap64_cong a b : a mod two64Z = b mod two64Z -> wrap64 a = wrap64 b.
Proof. unfold wrap64. change 18446744073709551616 with two64Z. intros ->. reflexivity. Qed.
Lemma wrap64_id z : -9223372036854775808 <= z < 9223372036854775808 -> wrap64 z = z.
Proof.
  intro H. unfold wrap64. destruct (Z_lt_le_dec z 0) as [N|N].
  - replace (z mod 18446744073709551616) with (z + 18446744073709551616).
    + destruct (Z.ltb_spec (z + 18446744073709551616) 9223372036854775808); lia.
    + symmetry. rewrite <- (Z.mod_add z 1) by discriminate. apply Z.mod_small. lia.
  - rewrite Z.mod_small by lia. destruct (Z.ltb_spec z 9223372036854775808); lia.
Qed.
Lemma wrap64_eqm z : (wrap64 z) mod two64Z = z mod two64Z.
Proof.
  unfold wrap64. change 18446744073709551616 with two64Z. destruct (_ <? _); [apply Z.mod_mod; discriminate|].
  rewrite <- (Z.mod_add _ 1) by discriminate. replace (z mod two64Z - two64Z + 1 * two64Z) with (z mod two64Z) by ring. apply Z.mod_mod. discriminate.
Qed.
Lemma wrap64_range z : -9223372036854775808 <= wrap64 z < 9223372036854775808.
Proof.
  unfold wrap64. pose proof (Z.mod_pos_bound z 18446744073709551616 ltac:(lia)). destruct (Z.ltb_spec (z mod 18446744073709551616) 9223372036854775808); lia.
Qed.

Lemma scanExp_digits ds : digits ds -> forall neg exp jj, 0 <= jj ->
  scanExp ds neg exp jj = Some (neg, if Nat.eqb (length ds) 0 then exp else wrap64 (exp * 10 ^ Z.of_nat (length ds) + dval ds), jj + Z.of_nat (length ds)).
Proof.
  induction 1 as [|c ds H F IH]; intros neg exp jj Hj; cbn [scanExp].
  - cbn. rewrite Z.add_0_r. reflexivity.
  - rewrite (proj2 (isDigit_iff c) H), IH by lia. cbn [length Nat.eqb]. f_equal. f_equal; [f_equal|lia].
    cbn [dval]. fold (digitVal c). destruct ds as [|c' ds].
    + cbn [length Nat.eqb dval]. f_equal. change (10 ^ Z.of_nat 1) with 10. change (10 ^ Z.of_nat 0) with 1. lia.
    + cbn [length Nat.eqb]. rewrite !Nat2Z.inj_succ. set (k := Z.of_nat (length ds)). rewrite !Z.pow_succ_r by lia.
      apply wrap64_cong. rewrite <- Z.add_mod_idemp_l, <- Z.mul_mod_idemp_l, wrap64_eqm, Z.mul_mod_idemp_l, Z.add_mod_idemp_l by discriminate. f_equal. ring.
Qed.
Lemma scanExp_signs sg ds : some_signs sg -> digits ds -> forall neg,
  scanExp (sg ++ ds) neg 0 0 = Some (neg || existsb (beqb x2d) sg, wrap64 (dval ds), Z.of_nat (length ds)).
Proof.
  intros S D. induction S as [|c sg H F IH]; intro neg; cbn [app existsb].
  - rewrite orb_false_r, scanExp_digits by (auto; lia). rewrite Z.mul_0_l, !Z.add_0_l. destruct ds; reflexivity.
  - cbn [scanExp]. destruct H as [->| ->]; cbn; rewrite IH; [|reflexivity]. rewrite orb_true_r. reflexivity.
Qed.
Lemma scanExp_inv s : forall neg exp jj e x k, scanExp s neg exp jj = Some (e, x, k) -> 0 <= jj ->
  exists sg ds, s = sg ++ ds /\ some_signs sg /\ digits ds /\ k = jj + Z.of_nat (length ds) /\ (jj <> 0 -> sg = []).
Proof.
  induction s as [|c s IH]; intros neg exp jj e x k H Hj; cbn [scanExp] in H.
  - injection H as <- <- <-. exists [], []. repeat split; try constructor. cbn. lia.
  - destruct (isDigit c) eqn:E.
    + apply IH in H as (sg & ds & -> & S & D & -> & J); [|lia]. rewrite J by lia. exists [], (c :: ds).
      repeat split; [constructor|constructor; auto; apply isDigit_iff; auto|cbn [length]; lia].
    + destruct (Z.eqb_spec jj 0) as [->|N]; [|discriminate].
      assert (exists c', (c' = x2d \/ c' = x2b) /\ c = c' /\ exists neg', scanExp s neg' exp 0 = Some (e, x, k)) as (c' & Hc & -> & neg' & H').
      { destruct (beqb c x2d) eqn:B1; [apply beqb_true in B1; eauto 10|]. destruct (beqb c x2b) eqn:B2; [apply beqb_true in B2; eauto 10|discriminate]. }
      apply IH in H' as (sg & ds & -> & S & D & -> & J); [|lia]. exists (c' :: sg), ds. repeat split; auto; [constructor; auto|congruence].
Qed.

(* ---- the formula ---- *)

Definition nu (ds : bytes) : float := fofZ b64 (dval ds mod two64Z).

Definition formula (p : parts) : float :=
  let num := nu (pint p) in
  let dec := nu (frac_digits p) in
  match pexp p with
  | None =>
      match pfrac p with
      | None => if Z.of_nat (length (pint p)) <=? 18 then applySign (pneg p) num else strconv_ParseFloat (text p)
      | Some f => if Z.of_nat (length f) <=? 18
                  then applySign (pneg p) (fadd b64 num (fmul b64 dec (Pow10 (- Z.of_nat (length f)))))
                  else strconv_ParseFloat (text p)
      end
  | Some (_, sg, ds) =>
      let exp := wrap64 (dval ds) in
      let j := Z.of_nat (length (match pfrac p with Some f => f | None => pint p end)) in
      if 300 <? exp then strconv_ParseFloat (text p)
      else applySign (pneg p)
        (if existsb (beqb x2d) sg
         then fmul b64 (fadd b64 num (fmul b64 dec (Pow10 (- j)))) (Pow10 (wrap64 (- exp)))
         else fadd b64 (fmul b64 num (Pow10 exp)) (fmul b64 dec (Pow10 (wrap64 (exp - j)))))
  end.

Lemma digit_not c d : digit c -> ~ digit d -> c <> d.
Proof. congruence. Qed.
Ltac nd := unfold digit; vm_compute; intros [? ?]; congruence.
Lemma nd_dot : ~ digit x2e. Proof. nd. Qed.
Lemma nd_minus : ~ digit x2d. Proof. nd. Qed.
Lemma nd_plus : ~ digit x2b. Proof. nd. Qed.
Lemma nd_e c : c = x65 \/ c = x45 -> ~ digit c. Proof. intros [->| ->]; nd. Qed.
Lemma beqb_no c d : c <> d -> beqb c d = false.
Proof. apply beqb_false. Qed.
Lemma e_not_dot c : c = x65 \/ c = x45 -> beqb c x2e = false. Proof. intros [->| ->]; reflexivity. Qed.
Lemma e_is_e c : c = x65 \/ c = x45 -> beqb c x65 || beqb c x45 = true. Proof. intros [->| ->]; reflexivity. Qed.

(* numjson.go from the loop on, without the case of one byte *)
Definition mainF (s : bytes) (neg : bool) (r : bytes) : float :=
  let '(num, j, r) := scanDigits r 0 0 in
  if j =? 0 then FNaN
  else match r with
  | [] => if j <=? 18 then applySign neg (fofZ b64 num) else strconv_ParseFloat s
  | c :: r =>
      if beqb c x2e then
        let '(dec, j, r) := scanDigits r 0 0 in
        if j =? 0 then FNaN
        else match r with
        | [] => if j <=? 18 then applySign neg (fadd b64 (fofZ b64 num) (fmul b64 (fofZ b64 dec) (Pow10 (- j)))) else strconv_ParseFloat s
        | c :: r => scientific s neg num dec j c r
        end
      else scientific s neg num 0 j c r
  end.
Lemma len0 {A} (l : list A) : l <> [] -> (Z.of_nat (length l) =? 0) = false.
Proof. destruct l; [congruence|]. intros _. apply Z.eqb_neq. cbn [length]. lia. Qed.

Lemma stops_tail f e : match e with Some (c, _, _) => c = x65 \/ c = x45 | None => True end ->
  stops (frac_text f ++ exp_text e).
Proof.
  intro H. destruct f as [f|]; cbn [frac_text app stops]; [exact nd_dot|].
  destruct e as [[[c sg] ds]|]; cbn [exp_text stops]; auto. apply nd_e; auto.
Qed.

Lemma mainF_formula p : shape some_signs p -> mainF (text p) (pneg p) (pint p ++ frac_text (pfrac p) ++ exp_text (pexp p)) = formula p.
Proof.
  destruct p as [neg i f e]. unfold shape. cbn [pint pfrac pexp pneg]. intros (Di & Ni & Hf & He).
  assert (Ee : match e with Some (c, _, _) => c = x65 \/ c = x45 | None => True end) by (destruct e as [[[c sg] ds]|]; [tauto|auto]).
  unfold mainF. rewrite (scanDigits_0 i _ Di (stops_tail f e Ee)). rewrite (len0 _ Ni). unfold formula. cbn [pint pfrac pexp pneg frac_digits].
  set (s := text _). clearbody s.
  destruct f as [f|]; cbn [frac_text app].
  - change (beqb x2e x2e) with true. cbv iota. destruct Hf as (Df & Nf).
    assert (Se : stops (exp_text e)). { destruct e as [[[c sg] ds]|]; cbn [exp_text stops]; auto. apply nd_e; auto. }
    rewrite (scanDigits_0 f _ Df Se), (len0 _ Nf). destruct e as [[[c sg] ds]|]; cbn [exp_text].
    + destruct He as (Hc & Hs & Hd & Nd). unfold scientific. rewrite (e_is_e _ Hc), scanExp_signs by auto. rewrite (len0 _ Nd). reflexivity.
    + reflexivity.
  - destruct e as [[[c sg] ds]|]; cbn [exp_text].
    + destruct He as (Hc & Hs & Hd & Nd). rewrite (e_not_dot _ Hc). unfold scientific. rewrite (e_is_e _ Hc), scanExp_signs by auto. rewrite (len0 _ Nd). reflexivity.
    + reflexivity.
Qed.

Lemma ParseFloat_main s : (forall c, s <> [c]) ->
  ParseFloat s = let (neg, r) := match s with c :: r => if beqb c x2d then (true, r) else (false, s) | [] => (false, []) end in mainF s neg r.
Proof. intro H. destruct s as [|c [|c' s]]; [reflexivity|exfalso; eapply H; reflexivity|reflexivity]. Qed.

Lemma ParseFloat_formula p : shape some_signs p -> ParseFloat (text p) = formula p.
Proof.
  intro S. pose proof (mainF_formula p S) as M.
  assert (E : (exists c, text p = [c]) \/ forall c, text p <> [c]).
  { destruct (text p) as [|c [|c' s]]; [right; discriminate|left; eauto|right; discriminate]. }
  destruct E as [(c & E)|E].
  - destruct p as [neg i f e]. unfold shape in S. cbn [pint pfrac pexp pneg] in *. destruct S as (Di & Ni & Hf & He).
    unfold text in E. cbn [pint pfrac pexp pneg] in E. assert (neg = false /\ i = [c] /\ f = None /\ e = None) as (-> & -> & -> & ->).
    { destruct i as [|d i]; [congruence|]. destruct neg; cbn in E; [discriminate|]. injection E as -> E. apply app_eq_nil in E as [-> E].
      apply app_eq_nil in E as [E1 E2]. destruct f; [discriminate|]. destruct e as [[[? ?] ?]|]; [discriminate|]. auto. }
    unfold text. cbn [pint pfrac pexp pneg frac_text exp_text app]. unfold formula. cbn [pint pfrac pexp pneg length].
    inversion Di; subst. unfold ParseFloat. rewrite (proj2 (isDigit_iff c)) by auto. cbn [Z.of_nat Pos.of_succ_nat Z.leb Z.compare Pos.compare Pos.compare_cont].
    unfold applySign, nu. cbn [dval length]. f_equal. rewrite Z.mod_small; unfold digitVal; unfold digit in *; [cbn; lia|]. unfold two64Z. cbn; lia.
  - rewrite (ParseFloat_main _ E). destruct p as [neg i f e]. revert M. unfold text at 2. cbn [pint pfrac pexp pneg] in *. intro M.
    destruct neg; cbn [app]; [exact M|]. destruct S as (Di & Ni & _). cbn [pint] in *. destruct i as [|c i]; [congruence|]. cbn [app]. inversion Di; subst.
    rewrite beqb_no by (intro; subst; apply nd_minus; auto). exact M.
Qed.

(* Texts of any other form give NaN. *)
Lemma scientific_inv s neg num dec j c r : scientific s neg num dec j c r <> FNaN ->
  exists sg ds, (c = x65 \/ c = x45) /\ r = sg ++ ds /\ some_signs sg /\ digits ds /\ ds <> [].
Proof.
  unfold scientific. intro H. destruct (beqb c x65 || beqb c x45) eqn:Ec; [|congruence].
  destruct (scanExp r false 0 0) as [[[eneg exp] jj]|] eqn:Es; [|congruence].
  apply scanExp_inv in Es as (sg & ds & -> & S & D & -> & _); [|lia]. exists sg, ds. repeat split; auto.
  - apply orb_prop in Ec as [Ec|Ec]; apply beqb_true in Ec; auto.
  - intros ->. apply H. reflexivity.
Qed.
Lemma mainF_inv s neg r : mainF s neg r <> FNaN -> exists p, shape some_signs p /\ r = pint p ++ frac_text (pfrac p) ++ exp_text (pexp p).
Proof.
  intro H. unfold mainF in H. destruct (scanDigits_split r) as (i & r1 & -> & Di & Si). rewrite (scanDigits_0 _ _ Di Si) in H.
  destruct i as [|d i]; [cbn in H; congruence|]. rewrite (len0 (d :: i)) in H by discriminate.
  destruct r1 as [|c r1].
  - exists (mkParts false (d :: i) None None). split; [unfold shape; cbn; repeat split; auto; discriminate|]. cbn. rewrite !app_nil_r. reflexivity.
  - destruct (beqb c x2e) eqn:Ec.
    + apply beqb_true in Ec as ->. destruct (scanDigits_split r1) as (f & r2 & -> & Df & Sf). rewrite (scanDigits_0 _ _ Df Sf) in H.
      destruct f as [|d' f]; [cbn in H; congruence|]. rewrite (len0 (d' :: f)) in H by discriminate.
      destruct r2 as [|c r2].
      * exists (mkParts false (d :: i) (Some (d' :: f)) None). split; [unfold shape; cbn; repeat split; auto; discriminate|]. cbn. rewrite !app_nil_r. reflexivity.
      * apply scientific_inv in H as (sg & ds & Hc & -> & S & D & N). exists (mkParts false (d :: i) (Some (d' :: f)) (Some (c, sg, ds))).
        split; [unfold shape; cbn; repeat split; auto; discriminate|]. cbn. reflexivity.
    + apply scientific_inv in H as (sg & ds & Hc & -> & S & D & N). exists (mkParts false (d :: i) None (Some (c, sg, ds))).
      split; [unfold shape; cbn; repeat split; auto; discriminate|]. cbn. reflexivity.
Qed.
Lemma ParseFloat_inv s : ParseFloat s <> FNaN -> exists p, shape some_signs p /\ s = text p.
Proof.
  intro H. destruct s as [|c [|c' s]].
  - cbn in H. congruence.
  - cbn in H. destruct (isDigit c) eqn:E; [|congruence]. apply isDigit_iff in E. exists (mkParts false [c] None None).
    split; [|reflexivity]. unfold shape; cbn. repeat split; try discriminate. repeat constructor; apply E.
  - set (s' := c :: c' :: s) in *. rewrite ParseFloat_main in H by (unfold s'; discriminate). unfold s' in H. destruct (beqb c x2d) eqn:Ec.
    + apply beqb_true in Ec as ->. apply mainF_inv in H as ([neg i f e] & S & E). exists (mkParts true i f e). split; [exact S|].
      unfold s', text. cbn [pneg pint pfrac pexp app] in *. rewrite E. reflexivity.
    + apply mainF_inv in H as ([neg i f e] & S & E). exists (mkParts false i f e). split; [exact S|].
      unfold s', text. cbn [pneg pint pfrac pexp app] in *. rewrite E. reflexivity.
Qed.
