(* Proofs about decoding, C42 and C43. *)
From Verif Require Import Bytes Types JsonSpec Parser Doc DocSpec DocProofs Strjson StrSpec StrThms Float Num Iface IfaceSpec IfaceThms Wrap WrapThms Options Codec CodecSpec CodecMerge CodecBase CodecBuild ParserThms DecodeSpec DecodeTree.
Local Open Scope nat_scope.

Ltac kinds := match goal with A : _ \/ _ |- _ => destruct A; congruence end.
Ltac inv_typed T := inversion T; subst; try congruence; try kinds.

Lemma Forall2_length {A B} (R : A -> B -> Prop) l m : Forall2 R l m -> length l = length m.
Proof. induction 1; cbn; auto. Qed.
(* ---- zero values ---- *)
Lemma bits_pos E t bits : wf_types E -> kindOf E t = Some (KInt bits) \/ kindOf E t = Some (KUint bits) -> (1 <= bits <= 64)%Z.
Proof. intros (_ & B & _) K. specialize (B t bits K). cbn in B. lia. Qed.
Lemma zero_good E t : wf_types E -> t < length (types E) -> blank E t (zero E t) /\ typed E t (zero E t).
Proof.
  intros W L. pose proof W as (M & B & rank & R1 & R2). unfold zero. pose proof (R1 t) as H. revert L H. generalize (length (types E)) at 2 3 4. intros fuel L H.
  revert t L H. induction fuel as [|k IH]; intros t L H; [lia|]. cbn [zeroVal]. destruct (lt_kindOf E t L) as (kd & K). destruct (kindOf_typeOf _ _ _ K) as (T & Ty & Ek). rewrite Ty, Ek.
  assert (Sub : forall u, In u (contains kd) -> blank E u (zeroVal k E u) /\ typed E u (zeroVal k E u)).
  { intros u Iu. apply IH; [|specialize (R2 t kd u K Iu); lia]. apply (M t kd u K). destruct kd; cbn in *; tauto. }
  destruct kd; try (split; econstructor; eauto; fail).
  - assert (1 <= bits <= 64)%Z by (eapply bits_pos; eauto). pose proof (Z.pow_pos_nonneg 2 (bits - 1) ltac:(lia) ltac:(lia)). split; [econstructor; eauto|]. apply t_int with bits; auto. lia.
  - assert (1 <= bits <= 64)%Z by (eapply bits_pos; eauto). pose proof (Z.pow_pos_nonneg 2 bits ltac:(lia) ltac:(lia)). split; [econstructor; eauto|]. apply t_uint with bits; auto. lia.
  - cbn in Sub. destruct (Sub e (or_introl eq_refl)) as [Be Te]. split; [apply bl_array with n e|apply t_array with n e]; auto using repeat_length; apply Forall_forall; intros x Ix; apply repeat_spec in Ix; subst x; auto.
  - cbn in Sub. split; [apply bl_struct with fs|apply t_struct with fs]; auto; clear -Sub; induction fs as [|f fs IHf]; cbn in *; constructor; auto; apply Sub; auto.
Qed.
(* ---- numbers ---- *)
Lemma setInt_range bits z : (1 <= bits)%Z -> exists k, setInt bits z = VInt (z + k * 2 ^ bits)%Z /\ (- 2 ^ (bits - 1) <= z + k * 2 ^ bits < 2 ^ (bits - 1))%Z.
Proof.
  intro L. assert (P : (2 ^ bits = 2 * 2 ^ (bits - 1))%Z) by (rewrite <- Z.pow_succ_r by lia; f_equal; lia). pose proof (Z.pow_pos_nonneg 2 (bits - 1) ltac:(lia) ltac:(lia)).
  exists (- ((z + 2 ^ (bits - 1)) / 2 ^ bits))%Z. unfold setInt. pose proof (Z.mod_pos_bound (z + 2 ^ (bits - 1)) (2 ^ bits) ltac:(lia)). rewrite Z.mod_eq in * by lia. split; [f_equal; lia|lia].
Qed.
Lemma setUint_range bits z : (1 <= bits)%Z -> exists k, setUint bits z = VUint (z + k * 2 ^ bits)%Z /\ (0 <= z + k * 2 ^ bits < 2 ^ bits)%Z.
Proof.
  intro L. pose proof (Z.pow_pos_nonneg 2 bits ltac:(lia) ltac:(lia)). exists (- (z / 2 ^ bits))%Z. unfold setUint. pose proof (Z.mod_pos_bound z (2 ^ bits) ltac:(lia)). rewrite Z.mod_eq in * by lia.
  split; [f_equal; lia|lia].
Qed.
(* ---- interfaces ---- *)
Lemma toGo_spec j : match toGo j with Some g => numbers_parse j /\ go_of j g | None => ~ numbers_parse j end.
Proof.
  pose proof (layout_denotes_gen j [] []) as D. cbn [app] in D. rewrite app_nil_r in D. match type of D with denotes ?x _ _ => set (ns := x) in * end.
  pose proof (toInterface_denotes ns j (jdepth j) (le_n _) _ D) as [A B]. pose proof (toGo_lem ns j (jdepth j) (le_n _) _ D) as G. rewrite G in A, B.
  destruct (numbers_dec j) as [P|P]; [destruct (A P) as (v & Ev & Gv); injection Ev as ->; auto|]. specialize (B P). injection B as ->. exact P.
Qed.
Lemma std_kind E t : t < 6 -> kindOf E t = nth_error [KIface false; KBool; KFloat64; KString; KSlice tIface; KMap tString tIface] t.
Proof. intro L. do 6 (destruct t as [|t]; [reflexivity|]). lia. Qed.
Lemma ofGo_typed E : forall j g, go_of j g -> typed E tIface (VIface (ofGo g)).
Proof.
  assert (NI : forall t k, kindOf E t = Some k -> (forall m, k <> KIface m) -> forall m, kindOf E t <> Some (KIface m)) by (intros t k K N m H; apply (N m); congruence).
  induction j using jval_ind'; intros g G; inversion G; subst; cbn [ofGo].
  - eapply t_iface; [reflexivity|eapply NI; [reflexivity|discriminate]|constructor; reflexivity].
  - eapply t_iface; [reflexivity|eapply NI; [reflexivity|discriminate]|constructor; right; reflexivity].
  - eapply t_iface; [reflexivity|eapply NI; [reflexivity|discriminate]|constructor; reflexivity].
  - eapply t_iface; [reflexivity|eapply NI; [reflexivity|discriminate]|constructor; reflexivity].
  - eapply t_iface_nil; reflexivity.
  - eapply t_iface; [reflexivity|eapply NI; [reflexivity|discriminate]|]. eapply t_slice; [reflexivity| |constructor]. clear G.
    match goal with F : Forall2 go_of _ _ |- _ => revert F end. revert vs0. induction H; intros gs F; inversion F; subst; cbn [map]; constructor; auto.
  - eapply t_iface; [reflexivity|eapply NI; [reflexivity|discriminate]|]. eapply t_map; [reflexivity| |].
    + assert (Al : forall k x, assoc k (rev vs) = Some x -> typed E tIface (VIface (ofGo x))).
      { intros k x A. assert (Ix : In x (map snd vs)).
        { clear -A. rewrite <- (rev_involutive vs). rewrite map_rev, <- in_rev. revert A. generalize (rev vs). induction l as [|[k' y] l IH]; cbn; [discriminate|]. destruct (bseqb k k'); [injection 1 as ->; auto|auto]. }
        match goal with F : Forall2 _ ms vs |- _ => clear -H F Ix end. revert vs Ix H1. induction H as [|m ms Hm Hms IH]; intros vs Ix F; inversion F; subst; cbn in Ix; [contradiction|].
        destruct Ix as [<-|Ix]; [apply Hm; tauto|eapply IH; eassumption]. }
      assert (Am : forall p, In p m -> assoc (fst p) m = Some (snd p)).
      { clear -H2. induction m as [|[k x] m IH]; intros p Ip; [destruct Ip|]. destruct Ip as [<-|Ip]; cbn in *.
        - rewrite bseqb_refl. reflexivity.
        - inversion H2; subst. destruct (bseqb (fst p) k) eqn:Ek; [|auto]. apply bseqb_true in Ek. subst k. exfalso. apply H1. apply in_map. exact Ip. }
      apply Forall_forall. intros p Ip. apply in_map_iff in Ip as ([k x] & <- & Ip). cbn. split; [constructor; reflexivity|]. apply (Al k). rewrite <- H3. apply (Am (k, x) Ip).
    + rewrite map_map. cbn. rewrite <- (map_map fst VString). apply FinFun.Injective_map_NoDup; [|assumption]. intros a b. injection 1. auto.
Qed.
(* ---- fields ---- *)
Lemma Get_some cs k c : Get cs k = Some c -> field_for cs k c /\ In c cs.
Proof.
  induction cs as [|d cs IH]; cbn; [discriminate|]. destruct (bseqb (ckey d) k) eqn:Ek.
  - injection 1 as ->. apply bseqb_true in Ek. split; [exists [], cs; auto|auto].
  - intro H. destruct (IH H) as ((a & b & -> & K & Na) & I). split; [|auto]. exists (d :: a), b. split; auto. split; auto. intros [Eq|Ia]; [rewrite Eq, bseqb_refl in Ek; discriminate|auto].
Qed.
Lemma Get_none cs k : Get cs k = None -> ~ In k (map ckey cs).
Proof.
  induction cs as [|d cs IH]; cbn; [auto|]. destruct (bseqb (ckey d) k) eqn:Ek; [discriminate|]. intros H [Eq|I]; [rewrite Eq, bseqb_refl in Ek; discriminate|apply (IH H); exact I].
Qed.
Lemma field_for_det cs k c d : field_for cs k c -> field_for cs k d -> c = d.
Proof.
  intros (a & b & -> & Kc & Na) (a' & b' & Eq & Kd & Na'). revert a' Eq Na'. induction a as [|x a IH]; intros [|y a'] Eq Na'; cbn in *.
  - congruence.
  - injection Eq as -> _. exfalso. apply Na'. auto.
  - injection Eq as -> _. exfalso. apply Na. auto.
  - injection Eq as -> Eq. apply (IH ltac:(tauto) a' Eq). tauto.
Qed.
Lemma atIndex_put E t p u : walks E t p u -> Forall (fun i => 0 <= i)%Z p -> forall v, typed E t v ->
  exists x (ctx : gv -> gv), typed E u x /\ (forall y, put v p x y (ctx y)) /\ (forall y, typed E u y -> typed E t (ctx y)) /\
    forall f, atIndex E p t v f = (let! y := f x in Ok (ctx (fst y), snd y)).
Proof.
  induction 1 as [t|t fs i f path u K N Wk IH|t e path u K Wk IH]; intros D v T.
  - exists v, (fun y => y). split; auto. split; [constructor|]. split; auto. intro g. cbn [atIndex]. destruct (g v) as [[]| |]; reflexivity.
  - inversion D as [|? ? _ D']; subst. inv_typed T. match goal with A : kindOf E t = Some (KStruct ?g) |- _ => assert (g = fs) by congruence; subst g end.
    destruct (Forall2_nth _ _ _ H0 _ _ N) as (x & Nx & Tx). destruct (nth_error_split _ _ Nx) as (a & b & -> & La). subst i.
    destruct (IH D' x Tx) as (x0 & ctx & T0 & Pu & Tc & At). exists x0, (fun y => VStruct (a ++ ctx y :: b)). split; auto. split; [intro y; constructor; auto|]. split.
    + intros y Ty. eapply t_struct; [exact K|]. apply Forall2_app_inv_r in H0 as (fa & fb & Fa & Fb & ->). inversion Fb as [|g ? gs ? Hg Hgs]; subst. apply Forall2_app; auto. constructor; auto.
      pose proof (Forall2_length _ _ _ Fa) as La. rewrite nth_error_app2, La, Nat.sub_diag in N by lia. cbn in N. injection N as ->. auto.
    + intro g. cbn [atIndex]. replace (Z.of_nat (length a) =? -1)%Z with false by (symmetry; apply Z.eqb_neq; lia). unfold fieldType. destruct (kindOf_typeOf _ _ _ K) as (X & Ty & Ek). rewrite Ty, Ek, Nat2Z.id, N.
      cbn [option_map]. rewrite fieldAt_nat, Nx, At. destruct (g x0) as [[]| |]; cbn [bind fst snd]; auto. rewrite replaceNth_app. reflexivity.
  - inversion D. lia.
Qed.
Lemma slots_lem E e x n : wf_types E -> e < length (types E) -> forall l s,
  (let fresh := (repeat (zero E e) n, []) in match x with None => fresh | Some (l, s) => if (length (l ++ s) <? n)%nat then fresh else (firstn n (l ++ s), skipn n (l ++ s)) end) = (l, s) ->
  slots E e x n l s /\ (match x with Some (l0, s0) => Forall (typed E e) (l0 ++ s0) | None => True end -> Forall (typed E e) l /\ Forall (typed E e) s).
Proof.
  intros W L l s. destruct (zero_good E e W L) as [Bz Tz]. cbv zeta.
  assert (Rp : forall P : gv -> Prop, P (zero E e) -> Forall P (repeat (zero E e) n)) by (intros P Pz; apply Forall_forall; intros y Iy; apply repeat_spec in Iy; subst; auto).
  destruct x as [[l0 s0]|]; [|injection 1 as <- <-; unfold slots; rewrite repeat_length; auto].
  destruct (length (l0 ++ s0) <? n) eqn:Lt; injection 1 as <- <-.
  - apply Nat.ltb_lt in Lt. split; [split; [apply repeat_length|right; auto]|auto].
  - apply Nat.ltb_ge in Lt. split; [split; [rewrite firstn_length; lia|left; rewrite firstn_skipn; auto]|]. intro F. rewrite <- (firstn_skipn n (l0 ++ s0)) in F. apply Forall_app in F. exact F.
Qed.
Lemma setKey_put k y m : (forall p, In p m -> exists s, fst p = VString s) -> put_key m k y (setKey k y m).
Proof.
  induction m as [|[k' x] m IH]; intro S; cbn [setKey].
  - apply (pk_new [] k y). auto.
  - destruct (S (k', x) (or_introl eq_refl)) as (s & Es). cbn in Es. subst k'. destruct (bseqb s k) eqn:Ek.
    + apply bseqb_true in Ek. subst s. apply (pk_old [] k x m y).
    + assert (Nk : VString s <> VString k) by (injection 1 as ->; rewrite bseqb_refl in Ek; discriminate). assert (P : put_key m k y (setKey k y m)) by (apply IH; intros p Ip; apply S; right; exact Ip).
      inversion P as [a ? x' b|? ? ? Ni]; subst; [apply (pk_old ((VString s, x) :: a) k x' b y)|]. apply (pk_new ((VString s, x) :: m) k y). cbn. intros [Eq|I]; [auto|contradiction].
Qed.
Lemma setKey_typed E k e key y m : Forall (fun p => typed E k (fst p) /\ typed E e (snd p)) m -> NoDup (map fst m) -> typed E k (VString key) -> typed E e y ->
  Forall (fun p => typed E k (fst p) /\ typed E e (snd p)) (setKey key y m) /\ NoDup (map fst (setKey key y m)) /\ (forall z, In z (map fst (setKey key y m)) -> z = VString key \/ In z (map fst m)).
Proof.
  intros F N Tk Ty. induction m as [|[k' x] m IH]; cbn [setKey].
  - split; [constructor; auto|]. split; [constructor; [auto|constructor]|]. cbn. intros z [<-|[]]. auto.
  - apply Forall_cons_iff in F as [[F1 F2] F]. cbn [map fst snd] in *. apply NoDup_cons_iff in N as [N1 N2]. destruct (IH F N2) as (A & B & C).
    assert (Keep : k' <> VString key -> Forall (fun p => typed E k (fst p) /\ typed E e (snd p)) ((k', x) :: setKey key y m) /\ NoDup (map fst ((k', x) :: setKey key y m)) /\ (forall z, In z (map fst ((k', x) :: setKey key y m)) -> z = VString key \/ k' = z \/ In z (map fst m))).
    { intro Nk. split; [constructor; auto|]. cbn [map fst]. split; [constructor; [|exact B]; intro I; destruct (C _ I) as [?|?]; contradiction|]. intros z [<-|I]; [auto|]. destruct (C z I); auto. }
    destruct k'; try (apply Keep; discriminate). destruct (bseqb s key) eqn:Ek.
    + apply bseqb_true in Ek. subst s. split; [constructor; auto|]. cbn [map fst]. split; [constructor; auto|]. intros z [<-|I]; [auto|right; right; exact I].
    + apply Keep. injection 1 as ->. rewrite bseqb_refl in Ek. discriminate.
Qed.

(* ---- the decoder ---- *)
Definition good (E : env) (O : opts) (t : tid) (v : gv) (j : jval) (r : res (gv * option uerr)) : Prop :=
  match r with
  | Ok (v', err) => typed E t v' /\ (err = None /\ stored E O t v j v' \/ mismatch E O t j /\ (strict E O t -> err <> None))
  | Panic => hazard E O t
  | Diverge => False
  end.
Lemma reads_trans E O a b c : reads E O a b -> reads E O b c -> reads E O a c.
Proof. induction 1; auto; intro; [eapply rd_elem|eapply rd_field]; eauto. Qed.
Lemma hazard_up E O a b : reads E O a b -> hazard E O b -> hazard E O a.
Proof. intros R (u & Ru & H). exists u. split; auto. eapply reads_trans; eauto. Qed.
Lemma strict_down E O a b : reads E O a b -> strict E O a -> strict E O b.
Proof. intros R S u Ru. apply S. eapply reads_trans; eauto. Qed.
Lemma decodable_down E O a b : reads E O a b -> decodable E O a -> decodable E O b.
Proof. intros R S u Ru. apply S. eapply reads_trans; eauto. Qed.

Lemma unMembers_good E O t cs (dec : codec -> udecodes) : (forall c, In c cs -> reads E O t (ctype c)) -> (forall c, In c cs -> exists i r, cindex c = Z.of_nat i :: r /\ walks E t (cindex c) (ctype c)) -> Forall direct cs ->
  forall ms, (forall c x m, In c cs -> typed E (ctype c) x -> In m ms -> good E O (ctype c) x (snd m) (dec c x (snd m))) -> forall v, typed E t v ->
  match unMembers dec E t cs ms v with
  | Ok (v', err) => typed E t v' /\ (err = None /\ stored_fields E O cs ms v v' \/
      (exists k j c, In (k, j) ms /\ field_for cs k c /\ mismatch E O (ctype c) j) /\ (strict E O t -> err <> None))
  | Panic => hazard E O t
  | Diverge => False
  end.
Proof.
  intros Rd Wk Di. induction ms as [|[k j] ms IH]; intros Hd v T; cbn [unMembers].
  - split; auto. left. split; auto. constructor.
  - specialize (IH (fun c x m Ic Tx Im => Hd c x m Ic Tx (or_intror Im))). destruct (Get cs k) as [c|] eqn:G.
    + destruct (Get_some _ _ _ G) as [Ff Ic]. destruct (Wk c Ic) as (i & r & Ei & Wc). rewrite Ei. rewrite <- Ei. pose proof (proj1 (Forall_forall _ _) Di c Ic) as Dc.
      destruct (atIndex_put E t _ _ Wc Dc v T) as (x & ctx & Tx & Pu & Tc & At). rewrite At. pose proof (Hd c x (k, j) Ic Tx (or_introl eq_refl)) as Gd. cbn [snd] in Gd.
      destruct (dec c x j) as [[y e]| |]; cbn [bind fst snd]; cbn [good] in Gd; [|eapply hazard_up; eauto|exact Gd]. destruct Gd as [Ty Gd].
      destruct e as [e|].
      * split; [auto|]. destruct Gd as [[? _]|[Mm _]]; [discriminate|]. right. split; [exists k, j, c; cbn; auto|discriminate].
      * specialize (IH (ctx y) (Tc y Ty)). destruct (unMembers dec E t cs ms (ctx y)) as [[v' e']| |]; auto. destruct IH as [Tv' IH]. split; auto.
        destruct Gd as [[_ Sd]|[Mm St]].
        -- destruct IH as [[-> Sf]|[(k' & j' & c' & I' & F' & M') St']]; [left; split; auto; eapply sf_field; eauto|right; split; auto]. exists k', j', c'. cbn. auto.
        -- right. split; [exists k, j, c; cbn; auto|]. intro Sx. exfalso. apply (St (strict_down _ _ _ _ (Rd c Ic) Sx)). reflexivity.
    + specialize (IH v T). destruct (unMembers dec E t cs ms v) as [[v' e']| |]; auto. destruct IH as [Tv' IH]. split; auto.
      destruct IH as [[-> Sf]|[(k' & j' & c' & I' & F' & M') St']]; [left; split; auto; apply sf_other; auto; apply Get_none; auto|right; split; auto]. exists k', j', c'. cbn. auto.
Qed.
Lemma unElems_good E O e (dec : udecodes) : forall js l, length l = length js -> (forall x j, typed E e x -> In j js -> good E O e x j (dec x j)) -> Forall (typed E e) l ->
  forall done spare, Forall (typed E e) done -> Forall (typed E e) spare ->
  match unElems dec js done l spare with
  | Ok (l', s') => Forall (typed E e) l' /\ Forall (typed E e) s' /\
      ((exists m, l' = done ++ m /\ s' = spare /\ stored_each E O e l js m) \/
       (exists j, In j js /\ mismatch E O e j) /\ (strict E O e -> exists a j b m, js = a ++ j :: b /\ mismatch E O e j /\ l' = done ++ m /\ stored_each E O e (firstn (length a) l) a m))
  | Panic => hazard E O e
  | Diverge => False
  end.
Proof.
  induction js as [|j js IH]; intros [|x l] L Hd Fl done spare Fd Fs; cbn in L; try lia; cbn [unElems].
  - rewrite app_nil_r. split; auto. split; auto. left. exists []. rewrite app_nil_r. repeat split; auto. constructor.
  - apply Forall_cons_iff in Fl as [Tx Fl]. pose proof (Hd x j Tx (or_introl eq_refl)) as Gd. destruct (dec x j) as [[y e']| |]; cbn [bind]; cbn [good] in Gd; auto. destruct Gd as [Ty Gd].
    destruct e' as [er|].
    + split; auto. split; [constructor; auto; apply Forall_app; auto|]. destruct Gd as [[? _]|[Mm _]]; [discriminate|]. right. split; [exists j; cbn; auto|]. intros _.
      exists [], j, js, []. rewrite app_nil_r. repeat split; auto. constructor.
    + assert (Fd' : Forall (typed E e) (done ++ [y])) by (apply Forall_app; auto).
      specialize (IH l ltac:(lia) (fun x j Tx Ij => Hd x j Tx (or_intror Ij)) Fl (done ++ [y]) spare Fd' Fs). destruct (unElems dec js (done ++ [y]) l spare) as [[l' s']| |]; auto.
      destruct IH as (F1 & F2 & IH). split; auto. split; auto. destruct Gd as [[_ Sd]|[Mm St]].
      * destruct IH as [(m & -> & -> & Se)|[(j' & I' & M') St']].
        -- left. exists (y :: m). rewrite <- app_assoc. repeat split; auto. constructor; auto.
        -- right. split; [exists j'; cbn; auto|]. intro Sx. destruct (St' Sx) as (a & j0 & b & m & -> & Mj & -> & Se). exists (j :: a), j0, b, (y :: m). rewrite <- app_assoc. repeat split; auto. cbn [length firstn]. constructor; auto.
      * right. split; [exists j; cbn; auto|]. intro Sx. exfalso. apply (St Sx). reflexivity.
Qed.
Lemma unArray_good E O e (dec : udecodes) z : typed E e z -> blank E e z -> forall l js, (forall x j, typed E e x -> In j js -> good E O e x j (dec x j)) -> Forall (typed E e) l ->
  match unArray dec z js l with
  | Ok l' => length l' = length l /\ Forall (typed E e) l' /\
      ((exists a b, js = a ++ b /\ stored_each E O e l a l') \/ (exists l1 l2 m n, l = l1 ++ l2 /\ l' = m ++ n /\ stored_each E O e l1 js m /\ length n = length l2 /\ Forall (blank E e) n) \/
       exists i j, nth_error js i = Some j /\ i < length l /\ mismatch E O e j)
  | Panic => hazard E O e
  | Diverge => False
  end.
Proof.
  intros Tz Bz. induction l as [|x l IH]; intros js Hd Fl.
  - replace (unArray dec z js []) with (Ok (@nil gv)) by (destruct js; reflexivity). split; auto. split; auto. left. exists [], js. split; auto. constructor.
  - destruct js as [|j js]; cbn [unArray].
    + split; [cbn; rewrite map_length; auto|]. assert (M : forall P : gv -> Prop, P z -> Forall P (z :: map (fun _ => z) l)) by (intros P Pz; constructor; auto; apply Forall_forall; intros y Iy; apply in_map_iff in Iy as (? & <- & _); auto).
      split; auto. right. left. exists [], (x :: l), [], (z :: map (fun _ => z) l). repeat split; auto; [constructor|cbn; rewrite map_length; auto].
    + apply Forall_cons_iff in Fl as [Tx Fl]. pose proof (Hd x j Tx (or_introl eq_refl)) as Gd. destruct (dec x j) as [[y e']| |]; cbn [bind]; cbn [good] in Gd; auto. destruct Gd as [Ty Gd].
      specialize (IH js (fun x j Tx Ij => Hd x j Tx (or_intror Ij)) Fl). destruct (unArray dec z js l) as [l'| |]; cbn [bind]; auto. destruct IH as (Ll & Fl' & IH). cbn [fst]. split; [cbn; lia|]. split; auto.
      destruct Gd as [[_ Sd]|[Mm _]]; [|right; right; exists 0, j; cbn; repeat split; auto; lia].
      destruct IH as [(a & b & -> & Se)|[(l1 & l2 & m & n & -> & -> & Se & Ln & Bn)|(i & j' & N & Li & M)]].
      * left. exists (j :: a), b. split; auto. constructor; auto.
      * right. left. exists (x :: l1), l2, (y :: m), n. repeat split; auto. constructor; auto.
      * right. right. exists (S i), j'. cbn. repeat split; auto. lia.
Qed.
Lemma unMap_good E O t e kt (dec : udecodes) z : kindOf E t = Some (KMap kt e) -> typed E e z -> blank E e z ->
  forall ms, (forall x m, typed E e x -> In m ms -> good E O e x (snd m) (dec x (snd m))) -> forall v, typed E t v ->
  match unMap dec z kt ms v with
  | Ok (v', err) => typed E t v' /\ (err = None /\ (match v with VMap (Some m) => exists m', v' = VMap (Some m') /\ (ms = [] /\ m' = m \/ kt = tString /\ stored_keys E O e ms m m') | _ => ms = [] /\ v' = v end) \/
      (exists k j, In (k, j) ms /\ mismatch E O e j) /\ (strict E O e -> err <> None))
  | Panic => kt <> tString \/ (forall m, v <> VMap (Some m)) \/ hazard E O e
  | Diverge => False
  end.
Proof.
  intros K Tz Bz.
  induction ms as [|[k j] ms IH]; intros Hd v T; cbn [unMap].
  - split; auto. left. split; auto. destruct v as [| | | | | | | | |[m|]| |]; auto. exists m. auto.
  - pose proof (Hd z (k, j) Tz (or_introl eq_refl)) as Gd. cbn [snd] in Gd. assert (R : reads E O t e) by (eapply rd_elem; [exact K|left; reflexivity|constructor]).
    destruct (dec z j) as [[y e']| |]; cbn [bind]; cbn [good] in Gd; auto. destruct Gd as [Ty Gd].
    destruct e' as [er|].
    + split; auto. destruct Gd as [[? _]|[Mm _]]; [discriminate|]. right. split; [exists k, j; cbn; auto|discriminate].
    + destruct (negb (kt =? tString)) eqn:Ks; [left; apply Nat.eqb_neq, negb_true_iff; exact Ks|]. apply negb_false_iff, Nat.eqb_eq in Ks. subst kt. destruct v as [| | | | | | | | |[m|]| |]; try (right; left; discriminate).
      assert (Ts : forall p, In p m -> exists s, fst p = VString s).
      { inv_typed T. intros p Ip. match goal with F : Forall _ m |- _ => rewrite Forall_forall in F; destruct (F p Ip) as [Tp _] end. assert (k0 = tString) by congruence. subst k0. inversion Tp; subst; eauto; try (match goal with A : kindOf E tString = Some _ |- _ => discriminate A end); match goal with A : _ \/ _ |- _ => destruct A as [A|A]; discriminate A end. }
      assert (T' : typed E t (VMap (Some (setKey k y m)))).
      { inv_typed T. assert (k0 = tString) by congruence. assert (e0 = e) by congruence. subst k0 e0. destruct (setKey_typed E tString e k y m) as (A & B & _); auto; [constructor; reflexivity|]. eapply t_map; eauto. }
      specialize (IH (fun x mm Tx Im => Hd x mm Tx (or_intror Im)) _ T'). destruct (unMap dec z tString ms (VMap (Some (setKey k y m)))) as [[v' err]| |]; auto; [|destruct IH as [?|[Nm|?]]; auto; exfalso; exact (Nm _ eq_refl)]. destruct IH as [Tv IH]. split; auto.
      destruct Gd as [[_ Sd]|[Mm St]].
      * destruct IH as [[-> (m' & -> & Hm)]|[(k' & j' & I' & M') St']].
        -- left. split; auto. exists m'. split; auto. right. split; auto. eapply sk_cons; eauto; [apply setKey_put; auto|]. destruct Hm as [[-> ->]|[_ Hm]]; [constructor|auto].
        -- right. split; auto. exists k', j'. cbn. auto.
      * right. split; [exists k, j; cbn; auto|]. intro Sx. exfalso. apply (St Sx). reflexivity.
Qed.
Lemma jdepth_arr js j : In j js -> jdepth j < jdepth (JArr js).
Proof. intro I. cbn [jdepth]. pose proof (In_max jdepth js j I). lia. Qed.
Lemma jdepth_obj ms m : In m ms -> jdepth (snd m) < jdepth (JObj ms).
Proof. intro I. cbn [jdepth]. pose proof (In_max (fun m => jdepth (snd m)) ms m I). cbn beta in *. lia. Qed.
Lemma jdepth_pos j : 1 <= jdepth j.
Proof. destruct j; cbn; lia. Qed.
Lemma un_good E U O rank : wf_types E -> embeds_structs E -> (forall t, rank t < length (types E)) -> (forall t e, kindOf E t = Some (KPtr e) -> rank e < rank t) ->
  forall fuel t v j, decodable E O t -> typed E t v -> jdepth j * S (length (types E)) + rank t < fuel -> good E O t v j (un fuel E U O t v j).
Proof.
  intros W ES R1 R2. set (len := length (types E)) in *. induction fuel as [|k IH]; intros t v j D T F; [lia|]. cbn [un].
  destruct (D t (rd_here E O t)) as (X & Ty & (NU & NJ & NT) & Dk). rewrite Ty, NU, NJ, NT. pose proof (typeOf_kindOf _ _ _ Ty) as K.
  assert (El : forall e, In e (elems (tkind X)) -> reads E O t e) by (intros e Ie; eapply rd_elem; [exact K|exact Ie|constructor]).
  assert (Lt : forall u, In u (mentions (tkind X)) -> u < length (types E)) by (intros u Iu; exact (proj1 W t _ u K Iu)).
  assert (Sub : forall u j', reads E O t u -> jdepth j' < jdepth j -> forall x, typed E u x -> good E O u x j' (un k E U O u x j')).
  { intros u j' R L x Tx. apply IH; auto; [eapply decodable_down; eauto|]. specialize (R1 u). assert (jdepth j' * S len + S len <= jdepth j * S len) by nia. lia. }
  assert (MK : forall k0, tkind X = k0 -> ~ takes k0 j -> forall want, good E O t v j (Ok (v, tErr j want))) by (intros k0 Ek Nt want; subst k0; split; auto; right; split; [exact (mm_kind E O t _ j K Nt)|discriminate]).
  assert (SF : forall y, typed E t y -> stored E O t v j y -> good E O t v j (Ok (y, None))) by (intros y Hy Hs; split; auto).
  destruct (tkind X) as [|bits|bits| | | |[|]|e|e|n e|kt e|fs|] eqn:Ek; try contradiction.
  - (* bool *) inv_typed T. destruct j as [w|w| | | |vs|ms]; try (apply (MK KBool eq_refl); cbn; tauto); (apply SF; [constructor; auto|constructor; auto]).
  - (* int *) inv_typed T. assert (bits0 = bits) by congruence. subst bits0. assert (1 <= bits <= 64)%Z by (eapply bits_pos; eauto).
    destruct j as [w|w| | | |vs|ms]; try (apply (MK (KInt bits) eq_refl); cbn; tauto).
    + assert (Good : forall y, int_of w y -> good E O t (VInt z) (JNum w) (Ok (setInt bits y, None))).
      { intros y Iy. destruct (setInt_range bits y ltac:(lia)) as (q & -> & Rg). apply SF; [eapply t_int; eauto|eapply st_int; eauto]. }
      destruct (ParseInt w) as [y ok] eqn:P. destruct ok; [apply Good; left; auto|]. destruct (scParseInt w) as [y'|] eqn:Sc; [apply Good; right; rewrite P; auto|].
      split; auto. right. split; [|discriminate]. eapply mm_int; [exact K|]. intros q [Q|[_ Q]]; congruence.
    + apply SF; [|eapply st_int_null; eauto]. eapply t_int; [exact K|]. pose proof (Z.pow_pos_nonneg 2 (bits - 1) ltac:(lia) ltac:(lia)). lia.
  - (* uint *) inv_typed T. assert (bits0 = bits) by congruence. subst bits0. assert (1 <= bits <= 64)%Z by (eapply bits_pos; eauto).
    destruct j as [w|w| | | |vs|ms]; try (apply (MK (KUint bits) eq_refl); cbn; tauto).
    + assert (Good : forall y, uint_of w y -> good E O t (VUint z) (JNum w) (Ok (setUint bits y, None))).
      { intros y Iy. destruct (setUint_range bits y ltac:(lia)) as (q & -> & Rg). apply SF; [eapply t_uint; eauto|eapply st_uint; eauto]. }
      destruct (ParseUint w) as [y ok] eqn:P. destruct ok; [apply Good; left; auto|]. destruct (scParseUint w) as [y'|] eqn:Sc; [apply Good; right; rewrite P; auto|].
      split; auto. right. split; [|discriminate]. eapply mm_uint; [exact K|]. intros q [Q|[_ Q]]; congruence.
    + apply SF; [|eapply st_uint_null; eauto]. eapply t_uint; [exact K|]. pose proof (Z.pow_pos_nonneg 2 bits ltac:(lia) ltac:(lia)). lia.
  - (* float32 *) inv_typed T. destruct j as [w|w| | | |vs|ms]; try (apply (MK KFloat32 eq_refl); cbn; tauto).
    + assert (Good : forall y, float_of E w y -> good E O t (VFloat f) (JNum w) (Ok (setFloat KFloat32 y, None))) by (intros y Iy; apply SF; [constructor; auto|apply st_float32; auto]).
      cbv zeta. destruct (feq (ParseFloat w) (ParseFloat w)) eqn:P; [apply feq_self in P; apply Good; left; auto|].
      assert (Pn : ParseFloat w = FNaN) by (destruct (ParseFloat w) eqn:Q; auto; exfalso; apply not_true_iff_false in P; apply P; apply feq_self; congruence).
      destruct (scParseFloat E w) as [y'|] eqn:Sc; [apply Good; right; auto|]. split; auto. right. split; [|discriminate]. eapply mm_float; [left; exact K|]. intros q [[Q1 Q2]|[_ Q]]; congruence.
    + apply SF; [constructor; auto|apply st_float_null; auto].
  - (* float64 *) inv_typed T. destruct j as [w|w| | | |vs|ms]; try (apply (MK KFloat64 eq_refl); cbn; tauto).
    + assert (Good : forall y, float_of E w y -> good E O t (VFloat f) (JNum w) (Ok (setFloat KFloat64 y, None))) by (intros y Iy; apply SF; [constructor; auto|apply st_float64; auto]).
      cbv zeta. destruct (feq (ParseFloat w) (ParseFloat w)) eqn:P; [apply feq_self in P; apply Good; left; auto|].
      assert (Pn : ParseFloat w = FNaN) by (destruct (ParseFloat w) eqn:Q; auto; exfalso; apply not_true_iff_false in P; apply P; apply feq_self; congruence).
      destruct (scParseFloat E w) as [y'|] eqn:Sc; [apply Good; right; auto|]. split; auto. right. split; [|discriminate]. eapply mm_float; [right; exact K|]. intros q [[Q1 Q2]|[_ Q]]; congruence.
    + apply SF; [constructor; auto|apply st_float_null; auto].
  - (* string *) inv_typed T. destruct j as [w|w| | | |vs|ms]; try (apply (MK KString eq_refl); cbn; tauto).
    + destruct (Unescaped_total w) as (o & Uo & _). rewrite Uo. cbn [bind]. apply SF; [constructor; auto|apply st_string; auto].
    + apply SF; [constructor; auto|apply st_string_null; auto].
  - (* interface *) assert (G := toGo_spec j). inversion T; subst; try congruence; try kinds.
    + destruct (toGo j) as [g|]; [|split; auto; right; split; [eapply mm_iface; eauto|discriminate]]. destruct G as [Pj Gj]. destruct (t =? tIface) eqn:Et.
      * apply Nat.eqb_eq in Et. subst t. apply SF; [eapply ofGo_typed; eauto|constructor; auto].
      * exists t. split; [constructor|]. right. split; [apply Nat.eqb_neq; exact Et|exact K].
    + destruct (toGo j) as [g|]; [|split; auto; right; split; [eapply mm_iface; eauto|discriminate]]. destruct G as [Pj Gj]. destruct (t =? tIface) eqn:Et.
      * apply Nat.eqb_eq in Et. subst t. apply SF; [eapply ofGo_typed; eauto|constructor; auto].
      * exists t. split; [constructor|]. right. split; [apply Nat.eqb_neq; exact Et|exact K].
  - (* pointer *)
    assert (Re : reads E O t e) by (apply El; left; reflexivity). destruct (zero_good E e W (Lt e (or_introl eq_refl))) as [Bz Tz].
    assert (Go : forall x, typed E e x -> good E O e x j (un k E U O e x j)) by (intros x Tx; apply IH; auto; [eapply decodable_down; eauto|specialize (R2 t e K); lia]).
    assert (NN : forall x, v = VPtr x -> typed E e (match x with Some x => x | None => zero E e end)).
    { intros [x|] ->; [|exact Tz]. inv_typed T. }
    assert (Pg : forall x, v = VPtr x -> j <> JNull -> good E O t v j (let! y := un k E U O e (match x with Some x => x | None => zero E e end) j in Ok (VPtr (Some (fst y)), snd y))).
    { intros x -> Nj. specialize (Go _ (NN x eq_refl)). destruct (un k E U O e _ j) as [[y er]| |]; cbn [bind fst snd]; cbn [good] in *; [|eapply hazard_up; eauto|exact Go].
      destruct Go as [Tyy Go]. split; [eapply t_ptr; eauto|]. destruct Go as [[-> Sd]|[Mm St]]; [left; split; auto; destruct x; [eapply st_ptr; eauto|eapply st_ptr_new; eauto]|right].
      split; [eapply mm_ptr; eauto|]. intro Sx. apply St. eapply strict_down; eauto. }
    assert (exists x, v = VPtr x) as (x & ->) by (inv_typed T; eauto).
    destruct j as [w|w| | | |vs|ms]; try (apply Pg; [reflexivity|discriminate]). apply SF; [eapply t_ptr_nil; eauto|eapply st_ptr_null; eauto].
  - (* slice *)
    assert (Re : reads E O t e) by (apply El; left; reflexivity).
    assert (exists x, v = VSlice x /\ match x with Some (l0, s0) => Forall (typed E e) (l0 ++ s0) | None => True end) as (x & -> & Tx).
    { inv_typed T; eauto. assert (e0 = e) by congruence. subst e0. exists (Some (l, s)). split; auto. apply Forall_app; auto. }
    destruct j as [w|w| | | |vs|ms]; try (apply (MK (KSlice e) eq_refl); cbn; tauto).
    + apply SF; [|eapply st_slice_null; [exact K|destruct x as [[]|]; reflexivity]]. destruct x as [[l s]|]; [eapply t_slice; eauto; constructor|eapply t_slice_nil; eauto].
    + cbv zeta. destruct (match x with None => _ | Some _ => _ end) as [l s] eqn:Sl. destruct (slots_lem E e x (length vs) W (Lt e (or_introl eq_refl)) l s Sl) as [Sp Tl]. destruct (Tl Tx) as [Fl Fs].
      assert (Ll : length l = length vs) by apply Sp.
      pose proof (unElems_good E O e (un k E U O e) vs l Ll (fun x j Hx Ij => Sub e j Re (jdepth_arr _ _ Ij) x Hx) Fl [] s (Forall_nil _) Fs) as G.
      destruct (unElems (un k E U O e) vs [] l s) as [[l' s']| |]; cbn [bind]; [|eapply hazard_up; eauto|exact G]. destruct G as (F1 & F2 & G). split; [eapply t_slice; eauto|].
      destruct G as [(m & -> & -> & Se)|[(j & Ij & Mj) _]]; [left; split; auto; eapply st_slice; eauto|right; split; [eapply mm_slice; eauto|]]. intro Sx. exfalso. exact (proj1 (Sx t (rd_here E O t)) e K).
  - (* array *)
    assert (Re : reads E O t e) by (apply El; left; reflexivity). destruct (zero_good E e W (Lt e (or_introl eq_refl))) as [Bz Tz].
    assert (exists l, v = VArray l /\ length l = n /\ Forall (typed E e) l) as (l & -> & Ll & Fl) by (inv_typed T; assert (e0 = e) by congruence; assert (length l = n) by congruence; subst e0; eauto).
    rewrite Ll, Nat.eqb_refl. cbn [negb].
    destruct j as [w|w| | | |vs|ms]; try (apply (MK (KArray n e) eq_refl); cbn; tauto).
    + assert (Rp : forall P : gv -> Prop, P (zero E e) -> Forall P (repeat (zero E e) n)) by (intros P Pz; apply Forall_forall; intros y Iy; apply repeat_spec in Iy; subst y; auto).
      apply SF; [eapply t_array; eauto using repeat_length|eapply st_array_null; eauto using repeat_length].
    + pose proof (unArray_good E O e (un k E U O e) (zero E e) Tz Bz l vs (fun x j Hx Ij => Sub e j Re (jdepth_arr _ _ Ij) x Hx) Fl) as G.
      destruct (unArray (un k E U O e) (zero E e) vs l) as [l'| |]; cbn [bind]; [|eapply hazard_up; eauto|exact G]. destruct G as (Le & Fe & G). split; [eapply t_array; eauto; congruence|].
      destruct G as [(a & b & -> & Se)|[(l1 & l2 & m & q & -> & -> & Se & Ln & Bn)|(i & j & N & Li & M)]].
      * left. split; auto. eapply st_array_long; eauto.
      * left. split; auto. eapply st_array_short; eauto.
      * right. split; [eapply mm_array; eauto; congruence|]. intro Sx. exfalso. exact (proj2 (Sx t (rd_here E O t)) n e K).
  - (* map *)
    assert (Re : reads E O t e) by (apply El; left; reflexivity). destruct (zero_good E e W (Lt e ltac:(right; left; reflexivity))) as [Bz Tz].
    assert (exists x, v = VMap x) as (x & ->) by (inv_typed T; eauto).
    destruct j as [w|w| | | |vs|ms]; try (apply (MK (KMap kt e) eq_refl); cbn; tauto).
    + apply SF; [exact T|eapply st_map_null; eauto].
    + pose proof (unMap_good E O t e kt (un k E U O e) (zero E e) K Tz Bz ms (fun x m Hx Im => Sub e (snd m) Re (jdepth_obj _ _ Im) x Hx) (VMap x) T) as G.
      destruct (unMap (un k E U O e) (zero E e) kt ms (VMap x)) as [[v' er]| |]; auto; [|exists t; split; [constructor|left; eauto]]. destruct G as [Tv G]. split; auto.
      destruct G as [[-> G]|[(key & j & Ij & Mj) St]].
      * left. split; auto. destruct x as [m|].
        -- destruct G as (m' & -> & [[-> ->]|[-> Sk]]); [eapply st_map_empty; eauto|eapply st_map; eauto].
        -- destruct G as [-> ->]. eapply st_map_empty; eauto.
      * right. split; [eapply mm_map; eauto|]. intro Sx. apply St. eapply strict_down; eauto.
  - (* struct *)
    destruct Dk as (cs & Fs & Di). assert (exists l, v = VStruct l) as (l & ->) by (inv_typed T; eauto).
    destruct j as [w|w| | | |vs|ms]; try (apply (MK (KStruct fs) eq_refl); cbn; tauto).
    + destruct (zero_good E t W (kindOf_lt _ _ _ K)) as [Bz Tz]. apply SF; [exact Tz|eapply st_struct_null; eauto].
    + rewrite Fs. cbn [bind]. assert (Rc : forall c, In c cs -> reads E O t (ctype c)) by (intros c Ic; eapply rd_field; [exact K|exact Fs|exact Ic|constructor]).
      pose proof (unMembers_good E O t cs (fun c => un k E U O (ctype c)) Rc (structFields_walks E O t cs ES Fs) Di ms (fun c x m Ic Hx Im => Sub (ctype c) (snd m) (Rc c Ic) (jdepth_obj _ _ Im) x Hx) (VStruct l) T) as G.
      destruct (unMembers _ E t cs ms (VStruct l)) as [[v' er]| |]; auto. destruct G as [Tv G]. split; auto.
      destruct G as [[-> Sf]|[(key & j & c & Ij & Ff & Mj) St]]; [left; split; auto; eapply st_struct; eauto|right; split; auto; eapply mm_field; eauto].
Qed.

(* ---- a tree is stored whole or mismatched, not both ---- *)
Scheme stored_mind := Induction for stored Sort Prop
  with stored_each_mind := Induction for stored_each Sort Prop
  with stored_keys_mind := Induction for stored_keys Sort Prop
  with stored_fields_mind := Induction for stored_fields Sort Prop.
Combined Scheme stored_mutind from stored_mind, stored_each_mind, stored_keys_mind, stored_fields_mind.
Lemma stored_each_length E O e l js l' : stored_each E O e l js l' -> length l = length js /\ length l' = length js.
Proof. induction 1; cbn; lia. Qed.
Ltac one_kind := repeat match goal with
  | A : _ \/ _ |- _ => match type of A with context [kindOf] => destruct A end
  | A : kindOf ?E ?t = Some ?k, B : kindOf ?E ?t = Some ?k' |- _ => first [constr_eq A B; fail 1 | rewrite A in B; first [discriminate B | inversion B; subst; clear B]]
  end.
Ltac inv_mm M := inversion M; subst; clear M; one_kind; try (match goal with N : ~ takes _ ?j |- _ => exfalso; apply N; clear - j; try destruct j; exact Logic.I end); try (match goal with N : ~ takes _ ?j |- _ => exfalso; apply N; exact Logic.I end).
Lemma go_numbers : forall j g, go_of j g -> numbers_parse j.
Proof.
  induction j using jval_ind'; intros g G; try (constructor; fail); inversion G; subst; constructor; auto.
  - clear G. revert vs0 H1. induction H as [|x l Hx Hl IH]; intros gs F; inversion F; subst; constructor; eauto.
  - match goal with F : Forall2 _ ms _ |- _ => rename F into F0 end. clear - H F0. revert vs F0. induction H as [|x l Hx Hl IH]; intros gs F; inversion F as [|? ? ? ? Hd]; subst; constructor; eauto. destruct Hd. eauto.
Qed.
Lemma stored_no_mismatch_all E O :
  (forall t v j v', stored E O t v j v' -> ~ mismatch E O t j) /\
  (forall e l js l', stored_each E O e l js l' -> forall j, In j js -> ~ mismatch E O e j) /\
  (forall e ms m m', stored_keys E O e ms m m' -> forall p, In p ms -> ~ mismatch E O e (snd p)) /\
  (forall cs ms v v', stored_fields E O cs ms v v' -> forall p c, In p ms -> field_for cs (fst p) c -> ~ mismatch E O (ctype c) (snd p)).
Proof.
  apply stored_mutind.
  - intros t b j b' K H M. inv_mm M. destruct H as [[-> _]|[[->| ->] _]]; match goal with N : ~ takes _ _ |- _ => apply N; exact Logic.I end.
  - intros t bits z s n k K I _ M. inv_mm M; match goal with A : forall z, ~ _ |- _ => exact (A _ I) end.
  - intros t bits z K M. inv_mm M.
  - intros t bits z s n k K I _ M. inv_mm M; match goal with A : forall z, ~ _ |- _ => exact (A _ I) end.
  - intros t bits z K M. inv_mm M.
  - intros t f s g K I M. inv_mm M; match goal with A : forall z, ~ _ |- _ => exact (A _ I) end.
  - intros t f s g K I M. inv_mm M; match goal with A : forall z, ~ _ |- _ => exact (A _ I) end.
  - intros t f K M. inv_mm M.
  - intros t s0 s o K Us M. inv_mm M.
  - intros t s0 K M. inv_mm M.
  - intros x j g G M. assert (P := go_numbers _ _ G). assert (K : kindOf E tIface = Some (KIface false)) by reflexivity. inv_mm M. contradiction.
  - intros t e x K M. inv_mm M. congruence.
  - intros t e x j y K Nj _ IH M. inv_mm M; auto.
  - intros t e z j y K Nj _ _ IH M. inv_mm M; auto.
  - intros t e x y K _ M. inv_mm M.
  - intros t e x js l s l' K _ _ IH M. inv_mm M; eapply IH; eauto.
  - intros t n e l l' K _ _ M. inv_mm M.
  - intros t n e l1 l2 js l1' l2' K _ IH _ _ M. inv_mm M; eapply IH; eauto using nth_error_In.
  - intros t n e l js more l' K L Se IH M. inv_mm M. destruct (stored_each_length _ _ _ _ _ _ Se) as [Le _].
    match goal with A : nth_error (js ++ more) _ = _ |- _ => rewrite nth_error_app1 in A by lia end. eapply IH; eauto using nth_error_In.
  - intros t k e x K M. inv_mm M.
  - intros t k e x K M. inv_mm M. contradiction.
  - intros t e m ms m' K _ IH M. inv_mm M. match goal with A : In (?key, ?j) ms, B : mismatch _ _ _ ?j |- _ => exact (IH (key, j) A B) end.
  - intros t fs l z K _ M. inv_mm M.
  - intros t fs cs l ms v' K F _ IH M. inv_mm M. match goal with A : In (?k, ?j) ms, B : field_for ?cs0 ?k ?c, C : mismatch _ _ _ ?j |- _ => assert (cs0 = cs) by congruence; subst cs0; exact (IH (k, j) c A B C) end.
  - intros e j [].
  - intros e x l j js y l' _ IH1 _ IH2 j' [<-|I]; auto.
  - intros e m p [].
  - intros e k j ms m z y m1 m' _ _ IH1 _ _ IH2 p [<-|I]; auto.
  - intros cs v p c [].
  - intros cs k j ms v v' Nk _ IH p c [<-|I] Ff; [|eauto]. exfalso. apply Nk. destruct Ff as (a & b & -> & Kc & _). cbn in Kc. rewrite <- Kc. apply in_map, in_elt.
  - intros cs k j ms v c x y v1 v' Ff _ _ IH1 _ IH2 p d [<-|I] Fd; [|eauto]. cbn in *. rewrite (field_for_det _ _ _ _ Fd Ff). exact IH1.
Qed.
Lemma stored_no_mismatch E O t v j v' : stored E O t v j v' -> ~ mismatch E O t j.
Proof. apply stored_no_mismatch_all. Qed.

(* ---- the entry points ---- *)
Lemma build_target E O t e : wf_types E -> target_with E O t e -> exists o G, newCodec E O (IDec e) = Ok (Some (o, G)).
Proof.
  intros W (_ & D & Cy & _ & La). destruct (D e (rd_here _ _ _)) as (X & Ty & _). destruct (C54_lem E O (IDec e) W Cy (kindOf_lt _ _ _ (typeOf_kindOf _ _ _ Ty))) as (r & Bd & Iff).
  destruct r as [[o G]|]; [eauto|]. destruct (proj1 Iff eq_refl) as (x & Ux & Lx). exfalso. exact (La x Ux Lx).
Qed.
Lemma decode_target E O t e o G w : target_with E O t e -> newCodec E O (IDec e) = Ok (Some (o, G)) -> forall fuel v n j, tree_of w n j -> decode fuel E G w o v n = un fuel E (fun _ _ _ => Panic) O e v j.
Proof.
  intros (_ & D & _) Bd fuel v n j Tr. destruct (newCodec_sound _ _ _ _ _ Bd) as [Sd Sv]. apply (un_bridge E (fun _ _ _ => Panic) O w G Sd); auto.
  - intros u T l R Tu _ _. destruct (D u R) as (T' & Tu' & (A & B & C) & _). rewrite Tu in Tu'. injection Tu' as <-. unfold unmarshals. rewrite A, B, C. reflexivity.
  - intros u X' v' n' j' R Tu Nu. destruct (D u R) as (X'' & Tu' & (Nu' & _) & _). congruence.
Qed.
Lemma made_good E O w n t e v j o G : wf_types E -> embeds_structs E -> target_with E O t e -> newCodec E O (IDec e) = Ok (Some (o, G)) -> typed E e v -> tree_of w n j ->
  good E O e v j (decode (decodeFuel E w n) E G w o v n).
Proof.
  intros W ES Tg Bd T Tr. rewrite (decode_target _ _ _ _ _ _ w Tg Bd _ _ _ _ Tr). destruct Tg as (_ & D & _ & (rank & R1 & R2) & _).
  apply (un_good E _ O rank); auto. destruct Tr as (r & d & En & Ed & Er & Dn). unfold decodeFuel, Node_Document. rewrite En. cbn [getDoc]. rewrite Ed, (proj2 (N.eqb_eq _ _) Er). cbn [getDoc]. rewrite Ed.
  apply denotes_depth in Dn. unfold depthFuel. specialize (R1 e). cbn [Nat.mul]. nia.
Qed.
Lemma node_good E w n t e v j : wf_types E -> embeds_structs E -> target E t e -> typed E e v -> tree_of w n j ->
  exists r, good E decodeOptions e v j r /\ UnmarshalFromNode E w n t (VPtr (Some v)) = (let! y := r in Ok (VPtr (Some (fst y)), snd y)).
Proof.
  intros W ES Tg T Tr. destruct (build_target _ _ _ _ W Tg) as (o & Gc & Bd). exists (decode (decodeFuel E w n) E Gc w o v n). split; [eapply made_good; eassumption|].
  destruct Tg as ((X & Ty & Ek & NU & NJ & NT) & _). unfold UnmarshalFromNode. rewrite Ty, Ek, NU, NJ, NT, Bd. reflexivity.
Qed.
Lemma text_cases E rev s t e v : wf_types E -> target E t e ->
  (exists j w n, begins s j /\ tree_of w n j /\ Unmarshal E rev s t (VPtr (Some v)) = UnmarshalFromNode E w n t (VPtr (Some v))) \/
  ~ (exists j, begins s j) /\ exists pe, Unmarshal E rev s t (VPtr (Some v)) = Ok (VPtr (Some v), Some (UParse pe)).
Proof.
  intros W Tg. destruct (build_target _ _ _ _ W Tg) as (o & Gc & Bd). destruct Tg as ((X & Ty & Ek & NU & NJ & NT) & _). unfold Unmarshal, UnmarshalFromString. rewrite Ty, Ek. unfold unmarshals. rewrite NU, NJ, NT. cbn [orb]. rewrite Bd. cbn [bind negb].
  destruct (Parse_total [mkDoc [] rev] 0 s ltac:(cbn; lia)) as (W' & n & tail & er & P). rewrite P. cbn [bind]. destruct er as [pe|].
  - right. split; eauto. intros (j & s1 & w & tl & Es & Hs & Hw & Hn). destruct (proj2 (Parse_tree_iff [mkDoc [] rev] 0 s j tl)) as (W2 & n2 & P2 & _); [split; [cbn; lia|]; exists s1, w; auto|]. congruence.
  - left. destruct (proj1 (Parse_ok_iff _ _ _ _ _ _) P) as (d & s1 & w & j & _ & Es & Hs & Hw & Hn & _ & _).
    destruct (proj2 (Parse_tree_iff [mkDoc [] rev] 0 s j tail)) as (W2 & n2 & P2 & Tr); [split; [cbn; lia|]; exists s1, w; auto|]. rewrite P in P2. injection P2 as <- <-.
    exists j, W', n. split; [exists s1, w, tail; auto|]. auto.
Qed.
Lemma begins_det s j j' : begins s j -> begins s j' -> j = j'.
Proof.
  intros (s1 & w & tl & Es & Hs & Hw & Hn) (s1' & w' & tl' & Es' & Hs' & Hw' & Hn').
  destruct (proj2 (Parse_tree_iff [mkDoc [] 0%N] 0 s j tl)) as (W2 & n2 & P2 & Tr); [split; [cbn; lia|]; exists s1, w; auto|].
  destruct (proj2 (Parse_tree_iff [mkDoc [] 0%N] 0 s j' tl')) as (W3 & n3 & P3 & Tr'); [split; [cbn; lia|]; exists s1', w'; auto|].
  rewrite P2 in P3. injection P3 as <- <- _. destruct Tr as (r & d & En & Ed & Er & D), Tr' as (r' & d' & En' & Ed' & Er' & D'). assert (r' = r) by congruence. subst r'. assert (d' = d) by congruence. subst d'. eapply denotes_det; eauto.
Qed.
Lemma C43_node_lem E w n t e v j : wf_types E -> embeds_structs E -> target E t e -> ~ hazard E decodeOptions e -> typed E e v -> tree_of w n j ->
  exists v' err, UnmarshalFromNode E w n t (VPtr (Some v)) = Ok (VPtr (Some v'), err) /\ typed E e v' /\ (~ mismatch E decodeOptions e j -> err = None /\ stored E decodeOptions e v j v').
Proof.
  intros W ES Tg Hz T Tr. destruct (node_good E w n t e v j W ES Tg T Tr) as (r & G & ->). destruct r as [[v' err]| |]; cbn [good bind fst snd] in *; [|contradiction|contradiction].
  destruct G as [T' G]. exists v', err. split; auto. split; auto. intro Nm. destruct G as [?|[? _]]; [auto|contradiction].
Qed.
Lemma C43_lem E rev s t e v : wf_types E -> embeds_structs E -> target E t e -> ~ hazard E decodeOptions e -> typed E e v ->
  exists v' err, Unmarshal E rev s t (VPtr (Some v)) = Ok (VPtr (Some v'), err) /\ typed E e v' /\
    forall j, begins s j -> ~ mismatch E decodeOptions e j -> err = None /\ stored E decodeOptions e v j v'.
Proof.
  intros W ES Tg Hz T. destruct (text_cases E rev s t e v W Tg) as [(j & w & n & B & Tr & ->)|(Nb & pe & ->)].
  - destruct (C43_node_lem E w n t e v j W ES Tg Hz T Tr) as (v' & err & -> & T' & St). exists v', err. split; auto. split; auto. intros j' B'. rewrite (begins_det _ _ _ B' B). exact St.
  - exists v, (Some (UParse pe)). split; auto. split; auto. intros j B. exfalso. eauto.
Qed.
Lemma C42_node_lem E w n t e v j x' err : wf_types E -> embeds_structs E -> target E t e -> typed E e v -> tree_of w n j ->
  UnmarshalFromNode E w n t (VPtr (Some v)) = Ok (x', err) ->
  (err <> None -> mismatch E decodeOptions e j) /\ (strict E decodeOptions e -> mismatch E decodeOptions e j -> err <> None).
Proof.
  intros W ES Tg T Tr Un. destruct (node_good E w n t e v j W ES Tg T Tr) as (r & G & Eq). rewrite Eq in Un. destruct r as [[v' er]| |]; cbn [bind fst snd] in Un; try discriminate. injection Un as _ <-.
  cbn [good] in G. destruct G as [_ [[-> Sd]|[Mm St]]]; split; intros; auto; [congruence|]. exfalso. eapply stored_no_mismatch; eauto.
Qed.
Lemma C42_lem E rev s t e v x' err : wf_types E -> embeds_structs E -> target E t e -> typed E e v ->
  Unmarshal E rev s t (VPtr (Some v)) = Ok (x', err) ->
  (err <> None -> ~ (exists j, begins s j) \/ exists j, begins s j /\ mismatch E decodeOptions e j) /\
  (strict E decodeOptions e -> (~ (exists j, begins s j) \/ exists j, begins s j /\ mismatch E decodeOptions e j) -> err <> None).
Proof.
  intros W ES Tg T Un. destruct (text_cases E rev s t e v W Tg) as [(j & w & n & B & Tr & Eq)|(Nb & pe & Eq)]; rewrite Eq in Un.
  - destruct (C42_node_lem E w n t e v j x' err W ES Tg T Tr Un) as [A C]. split; [intro Ne; right; eauto|]. intros St [Nb|(j' & B' & M)]; [exfalso; eauto|]. apply C; auto. rewrite (begins_det _ _ _ B B'). exact M.
  - injection Un as _ <-. split; [auto|discriminate].
Qed.
(* a slice of elements without slices and arrays *)
Lemma C42_slice_lem E w n t s e x js : wf_types E -> embeds_structs E -> target E t s -> kindOf E s = Some (KSlice e) -> strict E decodeOptions e -> ~ hazard E decodeOptions e -> typed E s (VSlice x) -> tree_of w n (JArr js) ->
  exists l s0 l' s', slots E e x (length js) l s0 /\ UnmarshalFromNode E w n t (VPtr (Some (VSlice x))) = Ok (VPtr (Some (VSlice (Some (l', s')))), None) /\
    ((stored_each E decodeOptions e l js l' /\ s' = s0) \/ exists a j b, js = a ++ j :: b /\ mismatch E decodeOptions e j /\ stored_each E decodeOptions e (firstn (length a) l) a l').
Proof.
  intros W ES Tg K St Hz T Tr. destruct (build_target _ _ _ _ W Tg) as (o & Gc & Bd). pose proof (decode_target _ _ _ _ _ _ w Tg Bd) as Br. pose proof Tg as ((X & Ty & Ek & NU & NJ & NT) & D & _ & (rank & R1 & R2) & _).
  unfold UnmarshalFromNode. rewrite Ty, Ek, NU, NJ, NT, Bd. cbn [bind negb]. rewrite (Br _ _ _ (JArr js) Tr).
  assert (Fu : jdepth (JArr js) * S (length (types E)) + rank s < decodeFuel E w n).
  { destruct Tr as (r & d & En & Ed & Er & Dn). unfold decodeFuel, Node_Document. rewrite En. cbn [getDoc]. rewrite Ed, (proj2 (N.eqb_eq _ _) Er). cbn [getDoc]. rewrite Ed.
    apply denotes_depth in Dn. unfold depthFuel. specialize (R1 s). cbn [Nat.mul]. nia. }
  destruct (decodeFuel E w n) as [|k]; [lia|]. cbn [un]. destruct (D s (rd_here _ _ _)) as (Y & Ts & (MU & MJ & MT) & _). rewrite Ts, MU, MJ, MT. pose proof (typeOf_kindOf _ _ _ Ts) as K'. rewrite K in K'. injection K' as K'. rewrite <- K'.
  assert (Re : reads E decodeOptions s e) by (eapply rd_elem; [exact K|left; reflexivity|constructor]).
  assert (Le : e < length (types E)) by (apply (proj1 W s _ e K); left; reflexivity).
  assert (Tx : match x with Some (l0, s0) => Forall (typed E e) (l0 ++ s0) | None => True end).
  { inv_typed T; eauto. assert (e0 = e) by congruence. subst e0. apply Forall_app; auto. }
  cbv zeta. destruct (match x with None => _ | Some _ => _ end) as [l s0] eqn:Sl. destruct (slots_lem E e x (length js) W Le l s0 Sl) as [Sp Tl]. destruct (Tl Tx) as [Fl Fs].
  assert (Ll : length l = length js) by apply Sp.
  assert (Sub : forall x j, typed E e x -> In j js -> good E decodeOptions e x j (un k E (fun _ _ _ => Panic) decodeOptions e x j)).
  { intros y j Hy Ij. apply (un_good E _ decodeOptions rank); auto; [eapply decodable_down; eauto|]. pose proof (jdepth_arr _ _ Ij). specialize (R1 e). assert (jdepth j * S (length (types E)) + S (length (types E)) <= jdepth (JArr js) * S (length (types E))) by nia. lia. }
  pose proof (unElems_good E decodeOptions e _ js l Ll Sub Fl [] s0 (Forall_nil _) Fs) as G.
  destruct (unElems _ js [] l s0) as [[l' s']| |]; cbn [bind]; [|contradiction|contradiction]. destruct G as (F1 & F2 & G). exists l, s0, l', s'. split; auto. split; [reflexivity|].
  destruct G as [(m & -> & -> & Se)|[_ Gs]]; [left; auto|right]. destruct (Gs St) as (a & j & b & m & -> & Mj & -> & Se). exists a, j, b. auto.
Qed.
(* a map that is not nil, with elements for which decoding does not panic *)
Lemma C43_map_lem E w n t s e m j : wf_types E -> embeds_structs E -> target E t s -> kindOf E s = Some (KMap tString e) -> ~ hazard E decodeOptions e -> typed E s (VMap (Some m)) -> tree_of w n j ->
  exists v' err, UnmarshalFromNode E w n t (VPtr (Some (VMap (Some m)))) = Ok (VPtr (Some v'), err) /\ typed E s v' /\ (~ mismatch E decodeOptions s j -> err = None /\ stored E decodeOptions s (VMap (Some m)) j v').
Proof.
  intros W ES Tg K Hz T Tr. pose proof (node_good E w n t s (VMap (Some m)) j W ES Tg T Tr) as (r & G & Un). rewrite Un.
  assert (Np : r <> Panic).
  { clear G. destruct (build_target _ _ _ _ W Tg) as (o & Gc & Bd). pose proof (decode_target _ _ _ _ _ _ w Tg Bd) as Br. pose proof Tg as ((X & Ty & Ek & NU & NJ & NT) & D & _ & (rank & R1 & R2) & _).
    unfold UnmarshalFromNode in Un. rewrite Ty, Ek, NU, NJ, NT, Bd in Un. cbn [bind negb] in Un. rewrite (Br _ _ _ j Tr) in Un.
    assert (Fu : jdepth j * S (length (types E)) + rank s < decodeFuel E w n).
    { destruct Tr as (r0 & d & En & Ed & Er & Dn). unfold decodeFuel, Node_Document. rewrite En. cbn [getDoc]. rewrite Ed, (proj2 (N.eqb_eq _ _) Er). cbn [getDoc]. rewrite Ed.
      apply denotes_depth in Dn. unfold depthFuel. specialize (R1 s). cbn [Nat.mul]. nia. }
    destruct (decodeFuel E w n) as [|k]; [lia|]. cbn [un] in Un. destruct (D s (rd_here _ _ _)) as (Y & Ts & (MU & MJ & MT) & _). rewrite Ts, MU, MJ, MT in Un. pose proof (typeOf_kindOf _ _ _ Ts) as K'. rewrite K in K'. injection K' as K'. rewrite <- K' in Un.
    destruct j as [| | | | | |l]; try (intros ->; discriminate Un).
    assert (Re : reads E decodeOptions s e) by (eapply rd_elem; [exact K|left; reflexivity|constructor]).
    assert (Le : e < length (types E)) by (apply (proj1 W s _ e K); right; left; reflexivity). destruct (zero_good E e W Le) as [Bz Tz].
    assert (Sub : forall x p, typed E e x -> In p l -> good E decodeOptions e x (snd p) (un k E (fun _ _ _ => Panic) decodeOptions e x (snd p))).
    { intros y p Hy Ip. apply (un_good E _ decodeOptions rank); auto; [eapply decodable_down; eauto|]. pose proof (jdepth_obj _ _ Ip). specialize (R1 e). assert (jdepth (snd p) * S (length (types E)) + S (length (types E)) <= jdepth (JObj l) * S (length (types E))) by nia. lia. }
    pose proof (unMap_good E decodeOptions s e tString _ (zero E e) K Tz Bz l Sub (VMap (Some m)) T) as G.
    destruct (unMap _ _ _ _ _) as [y| |]; cbn [bind] in Un; intros ->; try discriminate Un. destruct G as [?|[Nm|?]]; auto. exact (Nm m eq_refl). }
  destruct r as [[v' err]| |]; cbn [good bind fst snd] in *; [|congruence|contradiction].
  destruct G as [T' G]. exists v', err. split; auto. split; auto. intro Nm. destruct G as [?|[? _]]; [auto|contradiction].
Qed.
