(* The UTF-8 decoder and encoder of Utf8.v against RFC 3629 (StrSpec.v). *)
From Verif Require Import Bytes JsonSpec Utf8 StrSpec.
Local Open Scope N_scope.

Lemma land_low a b k : b < 2 ^ k -> N.land (N.shiftl a k) b = 0.
Proof.
  intro H. apply N.bits_inj. intro n. rewrite N.land_spec, N.bits_0.
  destruct (N.lt_ge_cases n k) as [L|L].
  - rewrite N.shiftl_spec_low by auto. reflexivity.
  - rewrite <- (N.mod_small b (2 ^ k)) by auto. rewrite N.mod_pow2_bits_high by auto. apply andb_false_r.
Qed.
Lemma lor_add a b k : b < 2 ^ k -> N.lor (N.shiftl a k) b = a * 2 ^ k + b.
Proof.
  intro H. rewrite <- N.lxor_lor by (apply land_low; auto). rewrite <- N.add_nocarry_lxor by (apply land_low; auto).
  rewrite N.shiftl_mul_pow2. reflexivity.
Qed.
Lemma land63 a : N.land a 63 = a mod 64. Proof. exact (N.land_ones a 6). Qed.
Lemma land31 a : N.land a 31 = a mod 32. Proof. exact (N.land_ones a 5). Qed.
Lemma land15 a : N.land a 15 = a mod 16. Proof. exact (N.land_ones a 4). Qed.
Lemma land7 a : N.land a 7 = a mod 8. Proof. exact (N.land_ones a 3). Qed.
(* constant with low bits clear *)
Lemma lor128 b : b < 64 -> N.lor 128 b = 128 + b.
Proof. intro. change 128 with (N.shiftl 2 6) at 1. rewrite lor_add by (cbn; lia). cbn [N.pow]. lia. Qed.
Lemma lor192 b : b < 32 -> N.lor 192 b = 192 + b.
Proof. intro. change 192 with (N.shiftl 6 5) at 1. rewrite lor_add by (change (2^5) with 32; lia). change (2^5) with 32. lia. Qed.
Lemma lor224 b : b < 16 -> N.lor 224 b = 224 + b.
Proof. intro. change 224 with (N.shiftl 14 4) at 1. rewrite lor_add by (change (2^4) with 16; lia). change (2^4) with 16. lia. Qed.
Lemma lor240 b : b < 8 -> N.lor 240 b = 240 + b.
Proof. intro. change 240 with (N.shiftl 30 3) at 1. rewrite lor_add by (change (2^3) with 8; lia). change (2^3) with 8. lia. Qed.
Lemma shr a k : N.shiftr a k = a / 2 ^ k. Proof. apply N.shiftr_div_pow2. Qed.

Ltac dm := zify; Z.to_euclidean_division_equations; lia.

Lemma EncodeRune_spec r : scalar r -> EncodeRune r = utf8 r.
Proof.
  intro S. unfold EncodeRune, utf8, scalar, encode3, tx, between in *.
  rewrite !shr, !land63. change (2 ^ 6) with 64. change (2 ^ 12) with 4096. change (2 ^ 18) with 262144.
  assert (forall x, x mod 64 < 64) as M by (intro; apply N.mod_lt; lia).
  destruct (N.leb_spec r 127), (N.ltb_spec r 128); try lia; auto.
  destruct (N.leb_spec r 2047), (N.ltb_spec r 2048); try lia.
  { rewrite lor192 by dm. rewrite lor128 by auto. reflexivity. }
  destruct (N.ltb_spec 1114111 r); [lia|]. cbn [orb].
  destruct (N.leb_spec 55296 r); cbn [andb].
  - destruct (N.leb_spec r 57343); [lia|].
    destruct (N.leb_spec r 65535), (N.ltb_spec r 65536); try lia.
    + rewrite lor224 by dm. rewrite !lor128 by auto. reflexivity.
    + rewrite lor240 by dm. rewrite !lor128 by auto. reflexivity.
  - destruct (N.leb_spec r 65535), (N.ltb_spec r 65536); try lia.
    rewrite lor224 by dm. rewrite !lor128 by auto. reflexivity.
Qed.
Lemma EncodeRune_bad r : ~ scalar r -> EncodeRune r = utf8 replacement.
Proof.
  intro S. unfold EncodeRune, scalar, between in *. destruct (N.leb_spec r 127); [lia|]. destruct (N.leb_spec r 2047); [lia|].
  replace ((1114111 <? r) || (55296 <=? r) && (r <=? 57343)) with true; [reflexivity|].
  symmetry. apply orb_true_iff. rewrite andb_true_iff, N.ltb_lt, !N.leb_le. lia.
Qed.

Lemma bNb n : n < 256 -> bN (Nb n) = n.
Proof. intro. rewrite bN_Nb. apply N.mod_small. auto. Qed.

Lemma utf8_len r : scalar r -> length (utf8 r) = if r <? 128 then 1%nat else if r <? 2048 then 2%nat else if r <? 65536 then 3%nat else 4%nat.
Proof. intro. unfold utf8. destruct (r <? 128), (r <? 2048), (r <? 65536); reflexivity. Qed.
Lemma utf8_nonempty r : utf8 r <> [].
Proof. unfold utf8. destruct (r <? 128), (r <? 2048), (r <? 65536); discriminate. Qed.

Ltac bb := rewrite ?bNb by dm.

Lemma decode2 s0 s1 r : 194 <= bN s0 <= 223 -> 128 <= bN s1 <= 191 ->
  r = N.lor (N.shiftl (N.land (bN s0) 31) 6) (low6 s1) ->
  r = (bN s0 - 192) * 64 + (bN s1 - 128).
Proof.
  intros A B ->. unfold low6. rewrite land31, land63. rewrite lor_add by (change (2^6) with 64; apply N.mod_lt; lia).
  change (2^6) with 64. dm.
Qed.
Lemma decode3 s0 s1 s2 r : 224 <= bN s0 <= 239 -> 128 <= bN s1 <= 191 -> 128 <= bN s2 <= 191 ->
  r = N.lor (N.lor (N.shiftl (N.land (bN s0) 15) 12) (N.shiftl (low6 s1) 6)) (low6 s2) ->
  r = (bN s0 - 224) * 4096 + (bN s1 - 128) * 64 + (bN s2 - 128).
Proof.
  intros A B C ->. unfold low6. rewrite land15, !land63.
  rewrite (lor_add (bN s0 mod 16) _ 12) by (rewrite N.shiftl_mul_pow2; change (2^12) with 4096; change (2^6) with 64; dm).
  rewrite N.shiftl_mul_pow2.
  replace (bN s0 mod 16 * 2 ^ 12 + bN s1 mod 64 * 2 ^ 6) with (N.shiftl (bN s0 mod 16 * 64 + bN s1 mod 64) 6).
  2:{ rewrite N.shiftl_mul_pow2. change (2^12) with 4096. change (2^6) with 64. lia. }
  rewrite lor_add by (change (2^6) with 64; apply N.mod_lt; lia). change (2^6) with 64.
  assert (bN s0 mod 16 = bN s0 - 224) by dm. assert (bN s1 mod 64 = bN s1 - 128) by dm. assert (bN s2 mod 64 = bN s2 - 128) by dm. lia.
Qed.
Lemma decode4 s0 s1 s2 s3 r : 240 <= bN s0 <= 244 -> 128 <= bN s1 <= 191 -> 128 <= bN s2 <= 191 -> 128 <= bN s3 <= 191 ->
  r = N.lor (N.lor (N.lor (N.shiftl (N.land (bN s0) 7) 18) (N.shiftl (low6 s1) 12)) (N.shiftl (low6 s2) 6)) (low6 s3) ->
  r = (bN s0 - 240) * 262144 + (bN s1 - 128) * 4096 + (bN s2 - 128) * 64 + (bN s3 - 128).
Proof.
  intros A B C D ->. unfold low6. rewrite land7, !land63.
  assert (E0 : bN s0 mod 8 = bN s0 - 240) by dm. assert (E1 : bN s1 mod 64 = bN s1 - 128) by dm.
  assert (E2 : bN s2 mod 64 = bN s2 - 128) by dm. assert (E3 : bN s3 mod 64 = bN s3 - 128) by dm. rewrite E0, E1, E2, E3.
  rewrite (lor_add (bN s0 - 240) _ 18) by (rewrite N.shiftl_mul_pow2; change (2^18) with 262144; change (2^12) with 4096; lia).
  replace ((bN s0 - 240) * 2 ^ 18 + N.shiftl (bN s1 - 128) 12) with (N.shiftl ((bN s0 - 240) * 64 + (bN s1 - 128)) 12).
  2:{ rewrite !N.shiftl_mul_pow2. change (2^18) with 262144. change (2^12) with 4096. lia. }
  rewrite (lor_add _ _ 12) by (rewrite N.shiftl_mul_pow2; change (2^12) with 4096; change (2^6) with 64; lia).
  rewrite (N.shiftl_mul_pow2 (bN s2 - 128)).
  replace (((bN s0 - 240) * 64 + (bN s1 - 128)) * 2 ^ 12 + (bN s2 - 128) * 2 ^ 6)
    with (N.shiftl (((bN s0 - 240) * 64 + (bN s1 - 128)) * 64 + (bN s2 - 128)) 6).
  2:{ rewrite !N.shiftl_mul_pow2. change (2^6) with 64. change (2^12) with 4096. lia. }
  rewrite lor_add by (change (2^6) with 64; lia). change (2^6) with 64. lia.
Qed.

Ltac bools := repeat match goal with
  | H : (_ && _)%bool = true |- _ => apply andb_true_iff in H as [? ?]
  | H : (_ <=? _) = true |- _ => apply N.leb_le in H
  | H : (_ =? _) = true |- _ => apply N.eqb_eq in H
  | H : (_ =? _) = false |- _ => apply N.eqb_neq in H
  end.

Lemma firstInfo_spec a k lo hi : firstInfo a = Some (k, (lo, hi)) ->
  128 <= lo /\ hi <= 191 /\
  ((k = 2%nat /\ 194 <= a <= 223) \/
   (k = 3%nat /\ 224 <= a <= 239 /\ (a = 224 -> lo = 160) /\ (a = 237 -> hi = 159)) \/
   (k = 4%nat /\ 240 <= a <= 244 /\ (a = 240 -> lo = 144) /\ (a = 244 -> hi = 143))).
Proof.
  unfold firstInfo, between. intro H.
  destruct (N.leb_spec 194 a), (N.leb_spec a 223); cbn [andb] in H;
  destruct (N.eqb_spec a 224); destruct (N.eqb_spec a 237); destruct (N.leb_spec 225 a), (N.leb_spec a 239); cbn [andb] in H;
  destruct (N.eqb_spec a 240); destruct (N.leb_spec 241 a), (N.leb_spec a 243); cbn [andb] in H;
  destruct (N.eqb_spec a 244); try discriminate; injection H as <- <- <-; lia.
Qed.

Lemma byte_eq c n : bN c = n -> c = Nb n.
Proof. intros <-. symmetry. apply Nb_bN. Qed.

Lemma enc2 s0 s1 : 194 <= bN s0 <= 223 -> 128 <= bN s1 <= 191 ->
  let r := (bN s0 - 192) * 64 + (bN s1 - 128) in scalar r /\ 128 <= r < 2048 /\ utf8 r = [s0; s1].
Proof.
  intros A B r. unfold scalar. split; [lia|]. split; [lia|]. unfold utf8.
  destruct (N.ltb_spec r 128); [lia|]. destruct (N.ltb_spec r 2048); [|lia].
  repeat f_equal; symmetry; apply byte_eq; dm.
Qed.
Lemma enc3 s0 s1 s2 : 224 <= bN s0 <= 239 -> 128 <= bN s1 <= 191 -> 128 <= bN s2 <= 191 ->
  (bN s0 = 224 -> 160 <= bN s1) -> (bN s0 = 237 -> bN s1 <= 159) ->
  let r := (bN s0 - 224) * 4096 + (bN s1 - 128) * 64 + (bN s2 - 128) in
  scalar r /\ 2048 <= r < 65536 /\ utf8 r = [s0; s1; s2].
Proof.
  intros A B C D E r. unfold scalar. split; [lia|]. split; [lia|]. unfold utf8.
  destruct (N.ltb_spec r 128); [lia|]. destruct (N.ltb_spec r 2048); [lia|]. destruct (N.ltb_spec r 65536); [|lia].
  repeat f_equal; symmetry; apply byte_eq; subst r; dm.
Qed.
Lemma enc4 s0 s1 s2 s3 : 240 <= bN s0 <= 244 -> 128 <= bN s1 <= 191 -> 128 <= bN s2 <= 191 -> 128 <= bN s3 <= 191 ->
  (bN s0 = 240 -> 144 <= bN s1) -> (bN s0 = 244 -> bN s1 <= 143) ->
  let r := (bN s0 - 240) * 262144 + (bN s1 - 128) * 4096 + (bN s2 - 128) * 64 + (bN s3 - 128) in
  scalar r /\ 65536 <= r /\ utf8 r = [s0; s1; s2; s3].
Proof.
  intros A B C D E F r. unfold scalar. split; [lia|]. split; [lia|]. unfold utf8.
  destruct (N.ltb_spec r 128); [lia|]. destruct (N.ltb_spec r 2048); [lia|]. destruct (N.ltb_spec r 65536); [lia|].
  repeat f_equal; symmetry; apply byte_eq; subst r; dm.
Qed.

(* The decoder returns a character that is there, or (RuneError, 1). *)
Lemma decode_inv c s : 
  (exists r t, scalar r /\ c :: s = utf8 r ++ t /\ DecodeRune (c :: s) = (r, length (utf8 r))) \/
  (DecodeRune (c :: s) = (RuneError, 1%nat) /\ 128 <= bN c).
Proof.
  cbn [DecodeRune]. destruct (N.ltb_spec (bN c) RuneSelf) as [L|L]; unfold RuneSelf in L.
  { left. exists (bN c), s. assert (scalar (bN c)) by (unfold scalar; lia). split; auto.
    unfold utf8. destruct (N.ltb_spec (bN c) 128); [|lia]. rewrite Nb_bN. auto. }
  destruct (firstInfo (bN c)) as [[k [lo hi]]|] eqn:F; [|right; auto].
  apply firstInfo_spec in F as (Hlo & Hhi & [(-> & A)|[(-> & A & X & Y)|(-> & A & X & Y)]]).
  - destruct s as [|s1 s]; [right; auto|]. destruct (between lo (bN s1) hi) eqn:B; [left|right; auto].
    unfold between in B. bools.
    destruct (enc2 c s1) as (S & _ & U); [lia|lia|].
    rewrite <- (decode2 c s1 _ A ltac:(lia) eq_refl) in S, U.
    eexists _, s. split; [exact S|]. rewrite U. auto.
  - destruct s as [|s1 [|s2 s]]; [right; auto|right; auto|]. destruct (between lo (bN s1) hi && cont s2) eqn:B; [left|right; auto].
    unfold between, cont, between in B. bools.
    destruct (enc3 c s1 s2) as (S & _ & U); try lia.
    rewrite <- (decode3 c s1 s2 _ A ltac:(lia) ltac:(lia) eq_refl) in S, U.
    eexists _, s. split; [exact S|]. rewrite U. auto.
  - destruct s as [|s1 [|s2 [|s3 s]]]; [right; auto|right; auto|right; auto|].
    destruct (between lo (bN s1) hi && cont s2 && cont s3) eqn:B; [left|right; auto].
    unfold between, cont, between in B. bools.
    destruct (enc4 c s1 s2 s3) as (S & _ & U); try lia.
    rewrite <- (decode4 c s1 s2 s3 _ A ltac:(lia) ltac:(lia) ltac:(lia) eq_refl) in S, U.
    eexists _, s. split; [exact S|]. rewrite U. auto.
Qed.

(* UTF-8 is a prefix code. *)
Lemma utf8_head r : scalar r -> exists c t, utf8 r = c :: t /\
  (r < 128 -> bN c = r /\ t = []) /\ (128 <= r < 2048 -> 194 <= bN c <= 223 /\ exists s1, t = [s1] /\ r = (bN c - 192) * 64 + (bN s1 - 128)) /\
  (2048 <= r < 65536 -> 224 <= bN c <= 239 /\ exists s1 s2, t = [s1; s2] /\ r = (bN c - 224) * 4096 + (bN s1 - 128) * 64 + (bN s2 - 128)) /\
  (65536 <= r -> 240 <= bN c <= 244 /\ exists s1 s2 s3, t = [s1; s2; s3] /\ r = (bN c - 240) * 262144 + (bN s1 - 128) * 4096 + (bN s2 - 128) * 64 + (bN s3 - 128)).
Proof.
  intro S. unfold utf8, scalar in *. destruct (N.ltb_spec r 128); [|destruct (N.ltb_spec r 2048); [|destruct (N.ltb_spec r 65536)]].
  - eexists _, _. split; [reflexivity|]. split; [intros; bb; auto|]. split; [intro; lia|]. split; intro; lia.
  - eexists _, _. split; [reflexivity|]. split; [intro; lia|]. split; [|split; intro; lia].
    intros _. bb. split; [dm|]. eexists. split; [reflexivity|]. bb. dm.
  - eexists _, _. split; [reflexivity|]. split; [intro; lia|]. split; [intro; lia|]. split; [|intro; lia].
    intros _. bb. split; [dm|]. eexists _, _. split; [reflexivity|]. bb. dm.
  - eexists _, _. split; [reflexivity|]. split; [intro; lia|]. split; [intro; lia|]. split; [intro; lia|].
    intros _. bb. split; [dm|]. eexists _, _, _. split; [reflexivity|]. bb. dm.
Qed.

Lemma utf8_prefix r r' t t' : scalar r -> scalar r' -> utf8 r ++ t = utf8 r' ++ t' -> r = r' /\ t = t'.
Proof.
  intros S S' E. destruct (utf8_head r S) as (c & u & U & A1 & A2 & A3 & A4). destruct (utf8_head r' S') as (c' & u' & U' & B1 & B2 & B3 & B4).
  rewrite U, U' in E. injection E as <- E.
  assert (r < 128 \/ 128 <= r < 2048 \/ 2048 <= r < 65536 \/ 65536 <= r) as [H|[H|[H|H]]] by lia;
  assert (r' < 128 \/ 128 <= r' < 2048 \/ 2048 <= r' < 65536 \/ 65536 <= r') as [H'|[H'|[H'|H']]] by lia;
  repeat match goal with X : ?P -> _, Y : ?P |- _ => specialize (X Y) end; try lia.
  - destruct A1 as [? ->], B1 as [? ->]. split; [lia|auto].
  - destruct A2 as [? (s1 & -> & ?)], B2 as [? (s1' & -> & ?)]. injection E as <- <-. split; [lia|auto].
  - destruct A3 as [? (s1 & s2 & -> & ?)], B3 as [? (s1' & s2' & -> & ?)]. injection E as <- <- <-. split; [lia|auto].
  - destruct A4 as [? (s1 & s2 & s3 & -> & ?)], B4 as [? (s1' & s2' & s3' & -> & ?)]. injection E as <- <- <- <-. split; [lia|auto].
Qed.

Lemma firstInfo2 a : 194 <= a <= 223 -> firstInfo a = Some (2%nat, (128, 191)).
Proof. intro. unfold firstInfo, between. rewrite !(proj2 (N.leb_le _ _)) by lia. reflexivity. Qed.
Lemma firstInfo3 a x : 224 <= a <= 239 -> 128 <= x <= 191 -> (a = 224 -> 160 <= x) -> (a = 237 -> x <= 159) ->
  exists lo hi, firstInfo a = Some (3%nat, (lo, hi)) /\ lo <= x <= hi.
Proof.
  intros H X L R. unfold firstInfo, between. rewrite (proj2 (N.leb_gt a 223)) by lia. rewrite andb_false_r.
  destruct (N.eqb_spec a 224); [eexists _, _; split; [reflexivity|lia]|].
  destruct (N.eqb_spec a 237); [eexists _, _; split; [reflexivity|lia]|].
  rewrite (proj2 (N.leb_le 225 a)), (proj2 (N.leb_le a 239)) by lia. eexists _, _; split; [reflexivity|lia].
Qed.
Lemma firstInfo4 a x : 240 <= a <= 244 -> 128 <= x <= 191 -> (a = 240 -> 144 <= x) -> (a = 244 -> x <= 143) ->
  exists lo hi, firstInfo a = Some (4%nat, (lo, hi)) /\ lo <= x <= hi.
Proof.
  intros H X L R. unfold firstInfo, between. rewrite (proj2 (N.leb_gt a 223)) by lia. rewrite andb_false_r.
  rewrite (proj2 (N.eqb_neq a 224)), (proj2 (N.eqb_neq a 237)) by lia. rewrite (proj2 (N.leb_gt a 239)) by lia. rewrite andb_false_r.
  destruct (N.eqb_spec a 240); [eexists _, _; split; [reflexivity|lia]|].
  destruct (N.eqb_spec a 244).
  - rewrite (proj2 (N.leb_gt a 243)) by lia. rewrite andb_false_r. eexists _, _; split; [reflexivity|lia].
  - rewrite (proj2 (N.leb_le 241 a)), (proj2 (N.leb_le a 243)) by lia. eexists _, _; split; [reflexivity|lia].
Qed.
Lemma inb lo x hi : lo <= x <= hi -> between lo x hi = true.
Proof. intro. unfold between. rewrite !(proj2 (N.leb_le _ _)) by lia. reflexivity. Qed.
Lemma nb2 s0 s1 t : 194 <= bN s0 <= 223 -> 128 <= bN s1 <= 191 -> DecodeRune (s0 :: s1 :: t) <> (RuneError, 1%nat).
Proof.
  intros A B. cbn [DecodeRune]. rewrite (proj2 (N.ltb_ge (bN s0) RuneSelf)) by (unfold RuneSelf; lia).
  rewrite firstInfo2, inb by auto. discriminate.
Qed.
Lemma nb3 s0 s1 s2 t : 224 <= bN s0 <= 239 -> 128 <= bN s1 <= 191 -> (bN s0 = 224 -> 160 <= bN s1) -> (bN s0 = 237 -> bN s1 <= 159) ->
  128 <= bN s2 <= 191 -> DecodeRune (s0 :: s1 :: s2 :: t) <> (RuneError, 1%nat).
Proof.
  intros A B C D E. cbn [DecodeRune]. rewrite (proj2 (N.ltb_ge (bN s0) RuneSelf)) by (unfold RuneSelf; lia).
  destruct (firstInfo3 _ _ A B C D) as (lo & hi & F & L). unfold cont. rewrite F, !inb by auto. discriminate.
Qed.
Lemma nb4 s0 s1 s2 s3 t : 240 <= bN s0 <= 244 -> 128 <= bN s1 <= 191 -> (bN s0 = 240 -> 144 <= bN s1) -> (bN s0 = 244 -> bN s1 <= 143) ->
  128 <= bN s2 <= 191 -> 128 <= bN s3 <= 191 -> DecodeRune (s0 :: s1 :: s2 :: s3 :: t) <> (RuneError, 1%nat).
Proof.
  intros A B C D E E'. cbn [DecodeRune]. rewrite (proj2 (N.ltb_ge (bN s0) RuneSelf)) by (unfold RuneSelf; lia).
  destruct (firstInfo4 _ _ A B C D) as (lo & hi & F & L). unfold cont. rewrite F, !inb by auto. discriminate.
Qed.

Lemma decode_enc r t : scalar r -> DecodeRune (utf8 r ++ t) = (r, length (utf8 r)).
Proof.
  intro S. pose proof (utf8_nonempty r). destruct (utf8 r ++ t) as [|c s] eqn:E; [destruct (utf8 r); [contradiction|discriminate]|].
  destruct (decode_inv c s) as [(r' & t' & S' & E' & D)|(D & L)].
  - rewrite <- E in E'. apply utf8_prefix in E' as [<- _]; auto.
  - exfalso. rewrite <- E in D.
    assert (L' : forall a b, c :: s = a :: b -> 128 <= bN a) by (intros a b Q; injection Q as <- _; auto). rewrite <- E in L'. clear E L c s.
    revert D. unfold utf8, scalar in *. destruct (N.ltb_spec r 128) as [|G1]; [|destruct (N.ltb_spec r 2048) as [G2|G2]; [|destruct (N.ltb_spec r 65536) as [G3|G3]]]; cbn [app].
    + cbn [app] in L'. specialize (L' _ _ eq_refl). rewrite bNb in L' by lia. lia.
    + apply nb2; bb; dm.
    + apply nb3; bb; dm.
    + apply nb4; bb; dm.
Qed.

(* (RuneError, 1) means no character starts here. *)
Lemma decode_bad c s : DecodeRune (c :: s) = (RuneError, 1%nat) -> forall r t, scalar r -> c :: s <> utf8 r ++ t.
Proof.
  intros D r t S E. rewrite E in D. rewrite decode_enc in D by auto. injection D as -> L. discriminate L.
Qed.

(* Every byte string has exactly one reading. *)
Lemma runes_total s : exists rs, runes s rs.
Proof.
  remember (length s) as n. revert s Heqn. induction n as [n IH] using (well_founded_induction Wf_nat.lt_wf). intros s ->.
  destruct s as [|c s]; [exists []; constructor|].
  destruct (decode_inv c s) as [(r & t & S & E & D)|(D & L)].
  - rewrite E. destruct (IH (length t)) with (s := t) as (rs & H); auto.
    + rewrite E, app_length. pose proof (utf8_nonempty r). destruct (utf8 r); [contradiction|cbn; lia].
    + exists (r :: rs). constructor; auto.
  - destruct (IH (length s)) with (s := s) as (rs & H); auto.
    exists (replacement :: rs). constructor; auto. apply decode_bad. auto.
Qed.
Lemma runes_det s rs rs' : runes s rs -> runes s rs' -> rs = rs'.
Proof.
  intros H. revert rs'. induction H as [|r s rs S H IH|c s rs B H IH]; intros rs' H'.
  - inversion H' as [|r' s' rs2 S' H2 E|]; auto. pose proof (utf8_nonempty r'). destruct (utf8 r'); [contradiction|discriminate].
  - inversion H' as [E|r' s' rs2 S' H2 E|c' s' rs2 B' H2 E]; subst.
    + pose proof (utf8_nonempty r). destruct (utf8 r); [contradiction|discriminate].
    + apply utf8_prefix in E as [-> ->]; auto. f_equal. auto.
    + exfalso. eapply B'; eauto.
  - inversion H' as [|r' s' rs2 S' H2 E|c' s' rs2 B' H2]; subst.
    + exfalso. eapply B; eauto.
    + f_equal. auto.
Qed.
Lemma runes_scalar s rs : runes s rs -> Forall scalar rs.
Proof. induction 1; constructor; auto. unfold scalar, replacement. lia. Qed.
Lemma runes_valid rs : Forall scalar rs -> runes (utf8s rs) rs.
Proof. unfold utf8s. induction 1; cbn; constructor; auto. Qed.
