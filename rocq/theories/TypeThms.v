(* Lemmas for C39. *)
From Coq Require Import Sorted.
From Verif Require Import Bytes Types ApiSpec Utf8 Utf8Proofs.
Local Open Scope N_scope.

Definition masks : list N := map bN all_bytes.
Lemma masks_all t : t < 256 -> In t masks.
Proof. intro L. apply in_map_iff. exists (Nb t). split; [apply bNb; auto|apply all_bytes_complete]. Qed.

Definition singles : list N := [1; 2; 4; 8; 16; 32; 64; 128].
Fixpoint sortedb (l : list N) : bool :=
  match l with x :: r => forallb (fun y => x <? y) r && sortedb r | [] => true end.
Lemma sortedb_sound l : sortedb l = true -> StronglySorted N.lt l.
Proof.
  induction l as [|x l IH]; intro H; constructor; cbn in H; apply andb_prop in H as [A B]; auto.
  apply Forall_forall. intros y I. rewrite forallb_forall in A. apply N.ltb_lt. auto.
Qed.
Lemma Types_lem t : t < 256 ->
  StronglySorted N.lt (Type_Types t) /\ Forall single (Type_Types t) /\ fold_right N.lor 0 (Type_Types t) = t.
Proof.
  intro L. apply masks_all in L.
  assert (X : forallb (fun t => sortedb (Type_Types t) && forallb (fun u => existsb (N.eqb u) singles) (Type_Types t)
    && (fold_right N.lor 0 (Type_Types t) =? t)) masks = true) by (vm_compute; reflexivity).
  rewrite forallb_forall in X. specialize (X _ L). cbn beta in X. apply andb_prop in X as [X X3]. apply andb_prop in X as [X1 X2].
  split; [apply sortedb_sound; auto|]. split; [|apply N.eqb_eq; auto].
  apply Forall_forall. intros u I. rewrite forallb_forall in X2. specialize (X2 _ I). apply existsb_exists in X2 as (v & Iv & E).
  apply N.eqb_eq in E as ->. cbn in Iv.
  repeat (destruct Iv as [<-|Iv]; [match goal with |- single ?k => exists (N.log2 k); split; reflexivity end|]). destruct Iv.
Qed.
Lemma Types_in_lem t u : t < 256 -> single u -> (In u (Type_Types t) <-> N.land t u <> 0).
Proof.
  intros L (i & Li & ->). apply masks_all in L.
  assert (Ii : In (2 ^ i) singles).
  { assert (K : i = 0 \/ i = 1 \/ i = 2 \/ i = 3 \/ i = 4 \/ i = 5 \/ i = 6 \/ i = 7) by lia.
    repeat (destruct K as [->|K]; [cbn; tauto|]). subst. cbn; tauto. }
  assert (X : forallb (fun t => forallb (fun u => Bool.eqb (existsb (N.eqb u) (Type_Types t)) (negb (N.land t u =? 0))) singles) masks = true) by (vm_compute; reflexivity).
  rewrite forallb_forall in X. specialize (X _ L). cbn beta in X. rewrite forallb_forall in X. specialize (X _ Ii). apply eqb_prop in X.
  rewrite <- N.eqb_neq, <- negb_true_iff, <- X, existsb_exists. split.
  - intro I. exists (2 ^ i). split; auto. apply N.eqb_refl.
  - intros (v & Iv & E). apply N.eqb_eq in E. rewrite E. auto.
Qed.

Lemma type_bits i k : N.testbit (info_Type i) k = (k <? 8) && N.testbit i k.
Proof.
  unfold info_Type. change 256 with (2 ^ 8). destruct (N.ltb_spec k 8); cbn [andb].
  - apply N.mod_pow2_bits_low; auto.
  - apply N.mod_pow2_bits_high; auto.
Qed.
Lemma root_bit k : N.testbit infRoot k = (k =? 9).
Proof. change infRoot with (2 ^ 9). rewrite N.pow2_bits_eqb. apply N.eqb_sym. Qed.
Lemma flags_lem i : info_Type (N.lor i infRoot) = info_Type i /\ info_Type (N.ldiff i infRoot) = info_Type i.
Proof.
  split; apply N.bits_inj; intro k; rewrite !type_bits; destruct (N.ltb_spec k 8); cbn [andb]; auto.
  - rewrite N.lor_spec, root_bit. destruct (N.eqb_spec k 9); [lia|]. apply orb_false_r.
  - rewrite N.ldiff_spec, root_bit. destruct (N.eqb_spec k 9); [lia|]. apply andb_true_r.
Qed.
Lemma IsRoot_bit i : info_IsRoot i = N.testbit i 9.
Proof.
  unfold info_IsRoot. destruct (N.testbit i 9) eqn:B.
  - apply N.eqb_eq. apply N.bits_inj. intro k. rewrite N.land_spec, root_bit. destruct (N.eqb_spec k 9); subst; [rewrite B|rewrite andb_false_r]; auto.
  - apply N.eqb_neq. intro E. apply (f_equal (fun x => N.testbit x 9)) in E. rewrite N.land_spec, root_bit, B in E. discriminate.
Qed.
Lemma flag_set_lem i : info_IsRoot (N.lor i infRoot) = true /\ info_IsRoot (N.ldiff i infRoot) = false.
Proof. rewrite !IsRoot_bit, N.lor_spec, N.ldiff_spec, root_bit, N.eqb_refl. split; [apply orb_true_r|apply andb_false_r]. Qed.
Lemma flags_bits i k : i < 65536 -> N.testbit (info_Flags i) k = (8 <=? k) && N.testbit i k.
Proof.
  intro L. unfold info_Flags. change 65280 with (N.shiftl (N.ones 8) 8). rewrite N.land_spec.
  destruct (N.leb_spec 8 k); cbn [andb].
  - rewrite N.shiftl_spec_high' by auto. destruct (N.lt_ge_cases (k - 8) 8) as [Q|Q].
    + rewrite N.ones_spec_low by auto. apply andb_true_r.
    + rewrite N.ones_spec_high, andb_false_r by auto. destruct i as [|p]; [rewrite N.bits_0; auto|]. symmetry. apply N.bits_above_log2.
      apply N.lt_le_trans with 16; [|lia]. apply N.log2_lt_pow2; [reflexivity|]. exact L.
  - rewrite N.shiftl_spec_low by auto. apply andb_false_r.
Qed.
Lemma split_lem i : i < 65536 -> N.lor (info_Type i) (info_Flags i) = i /\ N.land (info_Type i) (info_Flags i) = 0.
Proof.
  intro L. split; apply N.bits_inj; intro k; rewrite ?N.lor_spec, ?N.land_spec, type_bits, flags_bits by auto.
  - destruct (N.ltb_spec k 8), (N.leb_spec 8 k); cbn [andb orb]; try lia; rewrite ?orb_false_r; auto.
  - rewrite N.bits_0. destruct (N.ltb_spec k 8), (N.leb_spec 8 k); cbn [andb orb]; try lia; rewrite ?andb_false_r; auto.
Qed.
Lemma retype_lem t i : t < 256 -> i < 65536 ->
  info_Type (N.lor t (info_Flags i)) = t /\ info_Flags (N.lor t (info_Flags i)) = info_Flags i /\ info_IsRoot (N.lor t (info_Flags i)) = info_IsRoot i.
Proof.
  intros Lt Li.
  assert (Bt : forall k, 8 <= k -> N.testbit t k = false).
  { intros k Hk. destruct t as [|p]; [apply N.bits_0|]. apply N.bits_above_log2. apply N.lt_le_trans with 8; auto. apply N.log2_lt_pow2; [reflexivity|]. exact Lt. }
  assert (Lf : N.lor t (info_Flags i) < 65536).
  { destruct (N.lor t (info_Flags i)) as [|p] eqn:E; [reflexivity|]. change 65536 with (2 ^ 16). apply N.log2_lt_pow2; [reflexivity|].
    apply N.lt_nge. intro Q. assert (B : N.testbit (N.pos p) (N.log2 (N.pos p)) = true) by (apply N.bit_log2; discriminate).
    rewrite <- E, N.lor_spec, flags_bits in B by auto. rewrite E in B. rewrite Bt in B by lia. cbn [orb] in B. apply andb_prop in B as [_ B].
    destruct i as [|q]; [rewrite N.bits_0 in B; discriminate|]. rewrite N.bits_above_log2 in B; [discriminate|]. eapply N.lt_le_trans; [|exact Q]. apply N.log2_lt_pow2; [reflexivity|]. exact Li. }
  repeat split.
  - apply N.bits_inj; intro k. rewrite type_bits, N.lor_spec, flags_bits by auto. destruct (N.ltb_spec k 8); cbn [andb].
    + rewrite (proj2 (N.leb_gt 8 k)) by auto. cbn [andb]. apply orb_false_r.
    + rewrite Bt; auto.
  - apply N.bits_inj; intro k. rewrite !flags_bits, N.lor_spec, flags_bits by auto. destruct (N.leb_spec 8 k); cbn [andb]; auto. rewrite Bt; auto.
  - rewrite !IsRoot_bit, N.lor_spec, flags_bits by auto. rewrite Bt by (vm_compute; discriminate). reflexivity.
Qed.

(* ---- the type of a value ---- *)
Definition value_types : list N := [TypeObject; TypeArray; TypeString; TypeNumber; TypeBoolean; TypeNull].
Lemma type_flags t f : In t value_types -> info_Type (N.lor t (info_Flags f)) = t.
Proof.
  intro H. unfold info_Type, info_Flags. change 256%N with (2 ^ 8)%N. rewrite <- N.land_ones. rewrite N.land_lor_distr_l.
  rewrite <- N.land_assoc. change (N.land 65280 (N.ones 8)) with 0%N. rewrite N.land_0_r, N.lor_0_r.
  destruct H as [<-|[<-|[<-|[<-|[<-|[<-|[]]]]]]]; reflexivity.
Qed.
Lemma is_lem t f : In t value_types -> let i := N.lor t (info_Flags f) in
  (info_IsNull i = true <-> t = TypeNull) /\ (info_IsBoolean i = true <-> t = TypeBoolean) /\ (info_IsNumber i = true <-> t = TypeNumber) /\
  (info_IsString i = true <-> t = TypeString) /\ (info_IsArray i = true <-> t = TypeArray) /\ (info_IsObject i = true <-> t = TypeObject).
Proof.
  intros H i. unfold info_IsNull, info_IsBoolean, info_IsNumber, info_IsString, info_IsArray, info_IsObject. unfold i. rewrite (type_flags t f H), !N.eqb_eq. tauto.
Qed.
Lemma is_value_lem t : (Type_IsValue t = true <-> exists u, In u value_types /\ N.land t u <> 0%N) /\ info_IsValue t = Type_IsValue (info_Type t).
Proof.
  split.
  - unfold Type_IsValue. rewrite negb_true_iff, N.eqb_neq. change TypeAnyValue with (N.lor TypeObject (N.lor TypeArray (N.lor TypeString (N.lor TypeNumber (N.lor TypeBoolean TypeNull))))).
    rewrite !N.land_lor_distr_r, !N.lor_eq_0_iff. split.
    + intro H. destruct (N.eq_dec (N.land t TypeObject) 0) as [E|E]; [|exists TypeObject; split; [cbn; tauto|assumption]]. destruct (N.eq_dec (N.land t TypeArray) 0) as [E1|E1]; [|exists TypeArray; split; [cbn; tauto|assumption]].
      destruct (N.eq_dec (N.land t TypeString) 0) as [E2|E2]; [|exists TypeString; split; [cbn; tauto|assumption]]. destruct (N.eq_dec (N.land t TypeNumber) 0) as [E3|E3]; [|exists TypeNumber; split; [cbn; tauto|assumption]].
      destruct (N.eq_dec (N.land t TypeBoolean) 0) as [E4|E4]; [|exists TypeBoolean; split; [cbn; tauto|assumption]]. destruct (N.eq_dec (N.land t TypeNull) 0) as [E5|E5]; [|exists TypeNull; split; [cbn; tauto|assumption]]. tauto.
    + intros (u & I & N) (A & B & C & D & E & F). cbn in I. destruct I as [<-|[<-|[<-|[<-|[<-|[<-|[]]]]]]]; auto.
  - unfold info_IsValue, Type_IsValue, info_Type. change 256%N with (2 ^ 8)%N. rewrite <- N.land_ones, <- N.land_assoc. reflexivity.
Qed.
