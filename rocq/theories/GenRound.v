(* Proofs for C63: a value written by a generated AppendJSON and read by a generated UnmarshalNodeJSON. *)
From Coq Require Import Permutation.
From Verif Require Import FloatSpec NumSpec FmtSpec StrSpec StrThms Bytes Types JsonSpec Parser ParserThms Doc DocSpec OkThms Strjson Float Num NumInt SetThms FmtThms Iface IfaceSpec Wrap Options Codec CodecSpec CodecMerge CodecBase CodecOmit CodecEnc CodecJson DecodeSpec DecodeThms RoundSpec RoundThms Gen GenSpec GenMake GenApp GenMakeU GenDec.
Local Open Scope nat_scope.

(* ---- paths ---- *)
Lemma apart_sym p q : apart p q -> apart q p.
Proof. intros (a & i & j & p' & q' & -> & -> & N). exists a, j, i, q', p'. auto. Qed.
Lemma apart_nil q : ~ apart [] q.
Proof. intros (a & i & j & p' & q' & Q & _). destruct a; discriminate. Qed.
Lemma apart_cons i p q : apart (i :: p) (i :: q) -> apart p q.
Proof. intros (a & x & y & p' & q' & Q & R & N). destruct a as [|b a]; cbn in Q, R; injection Q as Q Q'; injection R as R R'; [subst; congruence|]. exists a, x, y, p', q'. auto. Qed.

Ltac one_kind := match goal with A : kindOf ?E ?t = Some ?a, B : kindOf ?E ?t = Some ?b |- _ => tryif constr_eq A B then fail else (let Q := fresh in assert (Q : a = b) by congruence; first [discriminate Q | injection Q as Q; subst | subst a | subst b]; clear B) end.
Ltac as_in K := match type of K with ?L = Some _ => match goal with A : L = Some _ |- _ => tryif constr_eq A K then fail else (let Q := fresh in pose proof A as Q; rewrite K in Q; injection Q as Q; match type of Q with _ = ?y => subst y end; try clear A) end end.
Ltac typed_at T := inversion T; subst; try congruence; try (match goal with A : _ \/ _ |- _ => destruct A; congruence end).

Lemma Forall2_nth_r {A B} (R : A -> B -> Prop) l m : Forall2 R l m -> forall i y, nth_error m i = Some y -> exists x, nth_error l i = Some x /\ R x y.
Proof. induction 1 as [|x y l m Rx F IH]; intros [|i] z Q; try discriminate; cbn in *; [injection Q as <-; eauto|auto]. Qed.

(* ---- values where lay put something ---- *)
Lemma lay_at E t v p o y v' : lay E t v p o y v' -> reaches v' p y.
Proof. induction 1; try (constructor; assumption). eapply rc_field; [|eassumption]. rewrite nth_error_app2, Nat.sub_diag by lia. reflexivity. Qed.
Lemma lay_keep E t v p o y v' : lay E t v p o y v' -> forall q a, apart p q -> reaches v q a -> reaches v' q a.
Proof.
  induction 1 as [t x y|t fs l x r f path o y x' K N Ly IH|t e x path o y x' K Ly IH|t e z path o y x' K B Ly IH]; intros q a A R.
  - destruct (apart_nil _ A).
  - inversion R as [|? k z ? ? Nz Rz|]; subst; [destruct (apart_nil _ (apart_sym _ _ A))|]. rewrite nth_mid in Nz. destruct (Nat.eqb_spec k (length l)) as [->|Ne].
    + injection Nz as <-. eapply rc_field; [rewrite nth_error_app2, Nat.sub_diag by lia; reflexivity|]. apply IH; auto. exact (apart_cons _ _ _ A).
    + eapply rc_field; [|exact Rz]. rewrite nth_mid. destruct (Nat.eqb_spec k (length l)); [contradiction|]. exact Nz.
  - inversion R; subst; [destruct (apart_nil _ (apart_sym _ _ A))|]. constructor. apply IH; auto. exact (apart_cons _ _ _ A).
  - inversion R; subst. destruct (apart_nil _ (apart_sym _ _ A)).
Qed.
Lemma blank_at E t q u : walks E t q u -> forall z a, blank E t z -> reaches z q a -> blank E u a.
Proof.
  induction 1 as [t|t fs i f path u K N Wk IH|t e path u K Wk IH]; intros z a B R.
  - inversion R; subst. exact B.
  - inversion R as [|l k x ? ? Nx Rx|]; subst; [|lia]. match goal with A : Z.of_nat _ = Z.of_nat _ |- _ => apply Nat2Z.inj in A; subst end. inversion B; subst; try congruence. assert (fs0 = fs) by congruence. subst fs0.
    match goal with F2 : Forall2 _ fs _ |- _ => destruct (Forall2_nth _ _ _ F2 _ _ N) as (x' & Nx' & Bx) end. assert (x' = x) by congruence. subst x'. eapply IH; eassumption.
  - inversion R; subst; [lia|]. inversion B.
Qed.
Lemma lay_made E t v p o y v' : lay E t v p o y v' -> forall q u a, apart p q -> walks E t q u -> reaches v' q a -> reaches v q a \/ blank E u a.
Proof.
  induction 1 as [t x y|t fs l x r f path o y x' K N Ly IH|t e x path o y x' K Ly IH|t e z path o y x' K B Ly IH]; intros q u a A Wk R.
  - destruct (apart_nil _ A).
  - inversion R as [|? k z ? ? Nz Rz|]; subst; [destruct (apart_nil _ (apart_sym _ _ A))|]. rewrite nth_mid in Nz. destruct (Nat.eqb_spec k (length l)) as [->|Ne].
    + injection Nz as <-. inversion Wk as [|? fs' i f' ? ? K' N' Wk'|]; subst; [|lia]. match goal with A : Z.of_nat _ = Z.of_nat _ |- _ => apply Nat2Z.inj in A; subst end. assert (fs' = fs) by congruence. subst fs'. assert (f' = f) by congruence. subst f'.
      destruct (IH _ _ _ (apart_cons _ _ _ A) Wk' Rz) as [L|L]; [left|right; exact L]. eapply rc_field; [|exact L]. rewrite nth_error_app2, Nat.sub_diag by lia. reflexivity.
    + left. eapply rc_field; [|exact Rz]. rewrite nth_mid. destruct (Nat.eqb_spec k (length l)); [contradiction|]. exact Nz.
  - inversion R; subst; [destruct (apart_nil _ (apart_sym _ _ A))|]. inversion Wk; subst; [lia|]. one_kind. edestruct IH as [L|L]; [exact (apart_cons _ _ _ A)|eassumption|eassumption| |]; [left; constructor; exact L|right; exact L].
  - inversion R; subst; [destruct (apart_nil _ (apart_sym _ _ A))|]. inversion Wk; subst; [lia|]. one_kind. edestruct IH as [L|L]; [exact (apart_cons _ _ _ A)|eassumption|eassumption| |]; right; [|exact L]. eapply blank_at; eassumption.
Qed.
Lemma lay_was E t v p o y v' : lay E t v p o y v' -> forall u, walks E t p u -> reaches v p o \/ blank E u o.
Proof.
  induction 1 as [t x y|t fs l x r f path o y x' K N Ly IH|t e x path o y x' K Ly IH|t e z path o y x' K B Ly IH]; intros u Wk.
  - left. constructor.
  - inversion Wk as [|? fs' i f' ? ? K' N' Wk'|]; subst; [|lia]. match goal with A : Z.of_nat _ = Z.of_nat _ |- _ => apply Nat2Z.inj in A; subst end. assert (fs' = fs) by congruence. subst fs'. assert (f' = f) by congruence. subst f'.
    destruct (IH _ Wk') as [L|L]; [left|right; exact L]. eapply rc_field; [|exact L]. rewrite nth_error_app2, Nat.sub_diag by lia. reflexivity.
  - inversion Wk; subst; [lia|]. one_kind. destruct (IH u) as [L|L]; auto. left. constructor. exact L.
  - inversion Wk; subst; [lia|]. one_kind. destruct (IH u) as [L|L]; auto. right. eapply blank_at; eassumption.
Qed.
Lemma blank_any E z q a : reaches z q a -> forall t w, blank E t z -> typed E t w -> exists b, reaches w q b.
Proof.
  induction 1 as [v|l i x path y Nx R IH|x path y R IH]; intros t w B T.
  - exists w. constructor.
  - inversion B as [| | | | | | | | | |? fs ? K F|]; subst. destruct (Forall2_nth_r _ _ _ F _ _ Nx) as (f & Nf & Bx). typed_at T. assert (fs0 = fs) by congruence. subst fs0. match goal with F2 : Forall2 _ fs _ |- _ => destruct (Forall2_nth _ _ _ F2 _ _ Nf) as (x' & Nx' & Tx) end.
    destruct (IH _ _ Bx Tx) as (b & Rb). exists b. econstructor; eassumption.
  - inversion B.
Qed.
Lemma lay_source E t v p o y v' : lay E t v p o y v' -> forall w x0, typed E t w -> reaches w p x0 -> forall q a, apart p q -> reaches v' q a -> (exists b, reaches v q b) \/ exists b, reaches w q b.
Proof.
  induction 1 as [t x y|t fs l x r f path o y x' K N Ly IH|t e x path o y x' K Ly IH|t e z path o y x' K B Ly IH]; intros w x0 T Rw q a A R.
  - destruct (apart_nil _ A).
  - inversion R as [|? k z ? ? Nz Rz|]; subst; [destruct (apart_nil _ (apart_sym _ _ A))|]. rewrite nth_mid in Nz. destruct (Nat.eqb_spec k (length l)) as [->|Ne].
    + injection Nz as <-. inversion Rw as [|lw i xw ? ? Nw Rw'|]; subst; [|lia]. match goal with A : Z.of_nat _ = Z.of_nat _ |- _ => apply Nat2Z.inj in A; subst end. typed_at T. assert (fs0 = fs) by congruence. subst fs0.
      match goal with F2 : Forall2 _ fs _ |- _ => destruct (Forall2_nth _ _ _ F2 _ _ N) as (x'' & Nx' & Tx) end. assert (x'' = xw) by congruence. subst x''. destruct (IH _ _ Tx Rw' _ _ (apart_cons _ _ _ A) Rz) as [(b & L)|(b & L)]; [left|right]; exists b; (eapply rc_field; [|exact L]); [|exact Nw]. rewrite nth_error_app2, Nat.sub_diag by lia. reflexivity.
    + left. exists a. eapply rc_field; [|exact Rz]. rewrite nth_mid. destruct (Nat.eqb_spec k (length l)); [contradiction|]. exact Nz.
  - inversion R; subst; [destruct (apart_nil _ (apart_sym _ _ A))|]. inversion Rw; subst; [lia|]. typed_at T. one_kind. edestruct IH as [(b & L)|(b & L)]; [eassumption|eassumption|exact (apart_cons _ _ _ A)|eassumption| |]; [left|right]; exists b; constructor; exact L.
  - inversion R; subst; [destruct (apart_nil _ (apart_sym _ _ A))|]. inversion Rw; subst; [lia|]. typed_at T. one_kind. edestruct IH as [(b & L)|(b & L)]; [eassumption|eassumption|exact (apart_cons _ _ _ A)|eassumption| |]; right.
    + match goal with B1 : blank E ?g z, T1 : typed E ?g ?w |- _ => destruct (blank_any _ _ _ _ L _ w B1 T1) as (b' & Rb') end. exists b'. constructor. exact Rb'.
    + exists b. constructor. exact L.
Qed.

Lemma blank_typed E : wf_types E -> forall z t, blank E t z -> typed E t z.
Proof.
  intros W z. induction z as [z IH] using (well_founded_induction (Wf_nat.well_founded_ltof _ vdepth)). unfold Wf_nat.ltof in IH. intros t B.
  inversion B as [? K|? bits K|? bits K|? K|? K|? m K|? e K|? e K|? k e K|? n e l K L F|? fs l K F|? K]; subst; try (econstructor; eassumption).
  - destruct (bits_pos E t bits W (or_introl K)). apply (t_int _ _ bits); auto. assert (0 < 2 ^ (bits - 1))%Z by (apply Z.pow_pos_nonneg; lia). lia.
  - destruct (bits_pos E t bits W (or_intror K)). apply (t_uint _ _ bits); auto. assert (0 < 2 ^ bits)%Z by (apply Z.pow_pos_nonneg; lia). lia.
  - eapply t_array; eauto. rewrite Forall_forall in *. intros x Ix. apply IH; auto. pose proof (In_max vdepth l x Ix). cbn [vdepth]. lia.
  - eapply t_struct; eauto. assert (Hl : forall x, In x l -> vdepth x < vdepth (VStruct l)) by (intros x Ix; pose proof (In_max vdepth l x Ix); cbn [vdepth]; lia). clear K B. revert IH Hl. generalize (VStruct l). intros v0 IH Hl. induction F as [|f x fs l Bx F IHF]; constructor; auto.
    + apply IH; auto. apply Hl. left. reflexivity.
    + apply IHF; auto. intros; apply Hl; right; assumption.
Qed.

Section Back.
  Variables (E : env) (G : gopts) (M M' : genv) (t0 : tid).
  Hypothesis W : wf_types E.
  Hypothesis P : paths_ok E M.
  Hypothesis NJ : names_json E G M t0.
  Hypothesis PR : paired E G M M' t0.
  Definition back (t : tid) (v : gv) (j : jval) : Prop :=
    (forall e, ~ refused E G M' t j e) /\ forall z v', blank E t z -> filled E G M' t z j v' -> gagree E G M t v v'.

  Definition goes_out (v v' : gv) (params : list bytes) (f : mfield) : Prop := forall x, reaches v (mpath f) x ->
    ~ left_out E G params (mtype f) x /\ (exists y, reaches v' (mpath f) y /\ gagree E G M (mtype f) x y) \/
    left_out E G params (mtype f) x /\ forall y, reaches v' (mpath f) y -> blank E (mtype f) y.
  Lemma fields_back t fs0 v cs mjs : shown_fields E G M v cs mjs -> kindOf E t = Some (KStruct fs0) -> typed E t v ->
    (forall name params f, In (name, params, f) cs -> leads G (fieldsOf M t) name params f /\ heads E G (fieldsOf M' t) name params f /\ ~ raw_string E params (mtype f) /\ walks E t (mpath f) (mtype f)) ->
    ForallOrdPairs (fun c d => apart (mpath (snd c)) (mpath (snd d))) cs ->
    (forall name params f x j, In (name, params, f) cs -> reaches v (mpath f) x -> ~ left_out E G params (mtype f) x -> shown E G M (mtype f) x j -> back (mtype f) x j) ->
    forall u v', filled_fields E G M' t mjs u v' -> (forall name params f y, In (name, params, f) cs -> reaches u (mpath f) y -> blank E (mtype f) y) ->
    (forall q a, (forall c, In c cs -> apart (mpath (snd c)) q) -> reaches u q a -> reaches v' q a) /\
    (forall q ty a, (forall c, In c cs -> apart (mpath (snd c)) q) -> walks E t q ty -> reaches v' q a -> reaches u q a \/ blank E ty a) /\
    (forall q a, (forall c, In c cs -> mpath (snd c) = q \/ apart (mpath (snd c)) q) -> reaches v' q a -> (exists b, reaches u q b) \/ exists b, reaches v q b) /\
    (forall name params f, In (name, params, f) cs -> goes_out v v' params f).
  Proof.
    intros Sf K Tv. induction Sf as [v|v c cs ms Nr Sf IH|v name params f x cs ms Rx Lo Sf IH|v name params f x j cs ms Rx Nl Sx Sf IH]; intros Hc Ap Hb u v' F Bu.
    - inversion F; subst. repeat split; eauto. intros ? ? ? [].
    - inversion Ap as [|? ? Ac Ar]; subst. destruct (IH Tv ltac:(intros; apply Hc; right; assumption) Ar ltac:(intros; eapply Hb; try right; eassumption) u v' F ltac:(intros; eapply Bu; try right; eassumption)) as (A & B & C & D).
      repeat split; [intros q a Hq; apply A; intros; apply Hq; right; assumption|intros q ty a Hq; apply B; intros; apply Hq; right; assumption|intros q a Hq; apply C; intros; apply Hq; right; assumption|].
      intros name params f [-> |I]; [|apply (D _ _ _ I)]. intros x Rx. destruct (Nr x Rx).
    - inversion Ap as [|? ? Ac Ar]; subst. destruct (IH Tv ltac:(intros; apply Hc; right; assumption) Ar ltac:(intros; eapply Hb; try right; eassumption) u v' F ltac:(intros; eapply Bu; try right; eassumption)) as (A & B & C & D).
      repeat split; [intros q a Hq; apply A; intros; apply Hq; right; assumption|intros q ty a Hq; apply B; intros; apply Hq; right; assumption|intros q a Hq; apply C; intros; apply Hq; right; assumption|].
      intros name' params' f' [Q|I]; [|apply (D _ _ _ I)]. injection Q as <- <- <-. intros y Ry. rewrite (reaches_same _ _ _ _ Ry Rx). right. split; auto. intros y' Ry'.
      destruct (Hc _ _ _ (or_introl eq_refl)) as (_ & _ & _ & Wk). rewrite Forall_forall in Ac. edestruct B as [L|L]; [|exact Wk|exact Ry'| |exact L]; [intros c Ic; apply apart_sym; exact (Ac c Ic)|]. eapply Bu; [left; reflexivity|exact L].
    - inversion Ap as [|? ? Ac Ar]; subst. rewrite Forall_forall in Ac. cbn [snd] in Ac. destruct (Hc _ _ _ (or_introl eq_refl)) as (_ & Hd & Nraw & Wk).
      inversion F as [|? ? ? ? ? ? No|? ? ? ? ? ? ? ? ? ? Hd' Rs|? ? ? ? ? p' f' x0 y v1 ? Hd' Ns Ly Fx Fr]; subst; [destruct (No _ _ Hd)|destruct (heads_det E G _ _ _ _ _ _ Hd Hd') as (-> & ->); contradiction|].
      destruct (heads_det E G _ _ _ _ _ _ Hd Hd') as (<- & <-). destruct (Hb _ _ _ _ _ (or_introl eq_refl) Rx Nl Sx) as (_ & Bk).
      assert (Bx : blank E (mtype f) x0) by (destruct (lay_was _ _ _ _ _ _ _ Ly _ Wk) as [L|L]; [eapply Bu; [left; reflexivity|exact L]|exact L]). pose proof (Bk _ _ Bx Fx) as Ag.
      assert (Bu1 : forall name params g z, In (name, params, g) cs -> reaches v1 (mpath g) z -> blank E (mtype g) z).
      { intros n' ps g z I Rz. destruct (Hc _ _ _ (or_intror I)) as (_ & _ & _ & Wg). destruct (lay_made _ _ _ _ _ _ _ Ly _ _ _ (Ac _ I) Wg Rz) as [L|L]; [eapply Bu; [right; exact I|exact L]|exact L]. }
      destruct (IH Tv ltac:(intros; apply Hc; right; assumption) Ar ltac:(intros; eapply Hb; try right; eassumption) v1 v' Fr Bu1) as (A & B & C & D). repeat split.
      + intros q a Hq Rq. apply A; [intros; apply Hq; right; assumption|]. eapply lay_keep; [exact Ly|exact (Hq _ (or_introl eq_refl))|exact Rq].
      + intros q ty a Hq Wq Rq. destruct (B q ty a ltac:(intros; apply Hq; right; assumption) Wq Rq) as [L|L]; [|right; exact L]. exact (lay_made _ _ _ _ _ _ _ Ly _ _ _ (Hq _ (or_introl eq_refl)) Wq L).
      + intros q a Hq Rq. destruct (C q a ltac:(intros; apply Hq; right; assumption) Rq) as [(b & L)|L]; [|right; exact L]. destruct (Hq _ (or_introl eq_refl)) as [<-|Aq]; [right; exists x; exact Rx|].
        exact (lay_source _ _ _ _ _ _ _ Ly _ _ Tv Rx _ _ Aq L).
      + intros n' ps g [Q|I]; [|apply (D _ _ _ I)]. injection Q as <- <- <-. intros z Rz. rewrite (reaches_same _ _ _ _ Rz Rx). left. split; auto. exists y. split; [|exact Ag]. apply A; [intros c Ic; apply apart_sym; exact (Ac c Ic)|]. exact (lay_at _ _ _ _ _ _ _ Ly).
  Qed.
  Lemma struct_stays t ms u v' : filled_fields E G M' t ms u v' -> (forall name j, In (name, j) ms -> exists params f, heads E G (fieldsOf M' t) name params f /\ mpath f <> []) -> (exists l, u = VStruct l) -> exists l, v' = VStruct l.
  Proof.
    induction 1 as [t v|t k j ms v v' No F IH|t k j ms v params f x v1 v' Hd Rs Ly F IH|t k j ms v params f x y v1 v' Hd Ns Ly Fx F IH]; intros Hm Hu; auto; try (apply IH; auto; intros; eapply Hm; right; eassumption).
    all: apply IH; [intros; eapply Hm; right; eassumption|]; destruct (Hm _ _ (or_introl eq_refl)) as (p' & f' & Hd' & Np); destruct (heads_det E G _ _ _ _ _ _ Hd Hd') as (-> & ->); destruct Hu as (l & ->); inversion Ly; subst; [congruence|eauto].
  Qed.
  Lemma by_kind t raw k : star (needs E G M) (t0, false) (t, raw) -> written_kind E t k -> of_kind E M' t k.
  Proof. intros R (T & ET & Nm & K). exists T. split; [exact ET|]. split; [|exact K]. exact (proj1 (PR _ _ _ R ET Nm)). Qed.
  Lemma kind_not_time t k : of_kind E M' t k -> isTime M' t = true -> False.
  Proof. intros (T & _ & (N & _) & _) Q. congruence. Qed.
  Lemma kind_not_json t k : of_kind E M' t k -> by_json E M' t -> False.
  Proof. intros (T & ET & (_ & _ & Nu) & _) (T' & ET' & _ & _ & _ & Q). assert (T' = T) as -> by congruence. destruct Nu as (_ & N & _). congruence. Qed.
  Lemma kind_not_text t k : of_kind E M' t k -> by_text E M' t -> False.
  Proof. intros (T & ET & (_ & _ & Nu) & _) (T' & ET' & _ & _ & _ & _ & Q). assert (T' = T) as -> by congruence. destruct Nu as (_ & _ & N). congruence. Qed.
  Lemma kind_is t k : of_kind E M' t k -> kindOf E t = Some k.
  Proof. intros (T & ET & _ & K). rewrite (typeOf_kindOf _ _ _ ET), K. reflexivity. Qed.
  Lemma shown_by_kind t k v j : written_kind E t k -> shown E G M t v j -> shown_kind E G M t k v j.
  Proof.
    intros (T & ET & (A & B & C) & K) Sh. inversion Sh as [? X ? ? ? ? EX Q|? X ? ? ? EX _ Q|? X ? ? EX _ _ Q|? X ? ? EX _ Q]; subst; assert (X = T) by congruence; subst X; congruence.
  Qed.
  Ltac no_method O := match goal with
    | A : isTime _ _ = true |- _ => destruct (kind_not_time _ _ O A)
    | A : by_json _ _ _ |- _ => destruct (kind_not_json _ _ O A)
    | A : by_text _ _ _ |- _ => destruct (kind_not_text _ _ O A)
    | A : of_kind E M' _ ?k |- _ => tryif constr_eq A O then fail else (let Q := fresh in pose proof (of_kind_det E M' _ _ _ O A) as Q; first [discriminate Q | injection Q as Q; subst; clear A | clear A Q])
    | A : of_kind E M' _ _ \/ of_kind E M' _ _ |- _ => destruct A
    end.
  Ltac digits := match goal with A : digits_of _ _ |- _ => destruct A as [A|A]; [injection A as <-|discriminate A] end.
  Lemma feq_nan f : feq f FNaN = false.
  Proof. destruct f; reflexivity. Qed.

  Lemma shown_back : forall v t j, star (needs E G M) (t0, false) (t, false) -> typed E t v -> gsurvives E G M M' t v -> shown E G M t v j -> back t v j.
  Proof.
    intro v. induction v as [v IH] using (well_founded_induction (Wf_nat.well_founded_ltof _ vdepth)). intros t j R T Sv Sh.
    inversion Sv as [? ? U|? b K|? bits z K Fz|? bits z K Fz|? f s K Cf Ff Fs Fe|? f s K Cf Ff Fs Fe|? s K Vs Pe|? e K|? e fs x K Ke Sx|? e K|? e l s K Sl|? k e m K Me|? fs l K Sl]; subst.
    { destruct U as (X & EX & Nm & _ & _ & _ & U). 
      destruct (U j Sh) as [(Ti & Pt)|[(Bj & Cj)|(Bt & s & -> & Ct)]]; split.
      - intros e Rf. inversion Rf; subst; try (match goal with A : by_json _ _ _ |- _ => destruct A as (? & ? & ? & _) | A : by_text _ _ _ |- _ => destruct A as (? & ? & ? & _) | A : of_kind _ _ _ _ |- _ => destruct (kind_not_time _ _ A Ti) | A : _ \/ _ |- _ => destruct A as [A|A]; destruct (kind_not_time _ _ A Ti) end); congruence.
      - intros z v' Bz F. inversion F; subst; try (match goal with A : by_json _ _ _ |- _ => destruct A as (? & ? & ? & _) | A : by_text _ _ _ |- _ => destruct A as (? & ? & ? & _) | A : of_kind _ _ _ _ |- _ => destruct (kind_not_time _ _ A Ti) end); try congruence. assert (v' = v) by congruence. subst. constructor.
      - intros e Rf. inversion Rf; subst; try (match goal with A : by_text _ _ _ |- _ => destruct A as (? & ? & ? & ? & ? & ? & _); destruct Bj as (? & ? & ? & ? & ? & ?) | A : of_kind _ _ _ _ |- _ => destruct (kind_not_json _ _ A Bj) | A : _ \/ _ |- _ => destruct A as [A|A]; destruct (kind_not_json _ _ A Bj) end); try congruence.
        + destruct Bj as (? & ? & ? & _). congruence.
        + rewrite (Cj _ ltac:(eassumption)) in *. discriminate.
      - intros z v' Bz F. inversion F; subst; try (match goal with A : by_text _ _ _ |- _ => destruct A as (? & ? & ? & ? & ? & ? & _); destruct Bj as (? & ? & ? & ? & ? & ?) | A : of_kind _ _ _ _ |- _ => destruct (kind_not_json _ _ A Bj) end); try congruence.
        + destruct Bj as (? & ? & ? & _). congruence.
        + rewrite (Cj _ (blank_typed _ W _ _ Bz)) in *. assert (v' = v) by congruence. subst. constructor.
      - intros e Rf. inversion Rf; subst; try (match goal with A : by_json _ _ _ |- _ => destruct A as (? & ? & ? & ? & ? & ?); destruct Bt as (? & ? & ? & ? & ? & ? & _) | A : of_kind _ _ _ _ |- _ => destruct (kind_not_text _ _ A Bt) | A : _ \/ _ |- _ => destruct A as [A|A]; destruct (kind_not_text _ _ A Bt) end); try congruence.
        + destruct Bt as (? & ? & ? & _). congruence.
        + rewrite (Ct _ ltac:(eassumption)) in *. discriminate.
      - intros z v' Bz F. inversion F; subst; try (match goal with A : by_json _ _ _ |- _ => destruct A as (? & ? & ? & ? & ? & ?); destruct Bt as (? & ? & ? & ? & ? & ? & _) | A : of_kind _ _ _ _ |- _ => destruct (kind_not_text _ _ A Bt) end); try congruence.
        + destruct Bt as (? & ? & ? & _). congruence.
        + rewrite (Ct _ (blank_typed _ W _ _ Bz)) in *. assert (v' = v) by congruence. subst. constructor. }
    all: pose proof (by_kind _ _ _ R K) as O; pose proof (kind_is _ _ O) as Kt; pose proof (shown_by_kind _ _ _ _ K Sh) as Sk; unfold Wf_nat.ltof in IH.
    - (* bool *) inversion Sk; subst; (split; [intros e Rf; destruct (refused_kind E G M' _ _ _ _ O Rf) as [N|[]]; apply N; exact I|intros z v' Bz F; inversion F; subst; repeat no_method O; constructor]).
    - (* int *) inversion Sk; subst. typed_at T. as_in Kt. destruct (bits_pos E t bits W (or_introl Kt)) as (B0 & B1). assert (Rz : (- 2 ^ 63 <= z < 2 ^ 63)%Z).
      { pose proof (Z.pow_le_mono_r 2 (bits - 1) 63 ltac:(lia) ltac:(lia)). lia. }
      assert (Pz : ParseInt (FormatInt z) = (z, true)) by (destruct (FormatInt_text z) as (-> & Tx & V); rewrite <- V at 2; apply C36_int_iff; auto; rewrite V; auto).
      split; [intros e Rf; destruct (refused_kind E G M' _ _ _ _ O Rf) as [N|(s & Ds & Ps)]; [apply N; exact I|]; digits; rewrite Pz in Ps; discriminate|].
      intros z0 v' Bz F. inversion F; subst; repeat no_method O. digits. match goal with A : ParseInt _ = (?n, true) |- _ => rewrite Pz in A; injection A as <- end. rewrite mod_range_int by (assumption || lia). constructor.
    - (* uint *) inversion Sk; subst. typed_at T. as_in Kt. destruct (bits_pos E t bits W (or_intror Kt)) as (B0 & B1). assert (Rz : (0 <= z < 2 ^ 64)%Z).
      { pose proof (Z.pow_le_mono_r 2 bits 64 ltac:(lia) ltac:(lia)). lia. }
      assert (Pz : ParseUint (FormatUint (Z.to_N z)) = (z, true)) by (destruct (FormatUint_text z (proj1 Rz)) as (-> & Tx & V); rewrite <- V at 2; apply C36_uint_iff; auto; rewrite V; auto).
      split; [intros e Rf; destruct (refused_kind E G M' _ _ _ _ O Rf) as [N|(s & Ds & Ps)]; [apply N; exact I|]; digits; rewrite Pz in Ps; discriminate|].
      intros z0 v' Bz F. inversion F; subst; repeat no_method O. digits. match goal with A : ParseUint _ = (?n, true) |- _ => rewrite Pz in A; injection A as <- end. rewrite mod_range_uint by (assumption || lia). constructor.
    - (* float32 *) inversion Sk; subst. match goal with A : FormatFloat _ f 64 = Ok ?x |- _ => assert (x = s) by congruence; subst x end.
      assert (Pn : ParseFloat s <> FNaN) by (intro Q; rewrite Q in Fe; cbn in Fe; rewrite feq_nan in Fe; discriminate).
      split; [intros e Rf; destruct (refused_kind E G M' _ _ _ _ O Rf) as [N|(s' & Ds & Ps)]; [apply N; exact I|]; digits; contradiction|].
      intros z0 v' Bz F. inversion F; subst; repeat no_method O. digits. apply ga_float. exact Fe.
    - (* float64 *) inversion Sk; subst. match goal with A : FormatFloat _ f 64 = Ok ?x |- _ => assert (x = s) by congruence; subst x end.
      assert (Pn : ParseFloat s <> FNaN) by (intro Q; rewrite Q in Fe; rewrite feq_nan in Fe; discriminate).
      split; [intros e Rf; destruct (refused_kind E G M' _ _ _ _ O Rf) as [N|(s' & Ds & Ps)]; [apply N; exact I|]; digits; contradiction|].
      intros z0 v' Bz F. inversion F; subst; repeat no_method O. digits. apply ga_float. exact Fe.
    - (* string *) inversion Sk; subst. split; [intros e Rf; destruct (refused_kind E G M' _ _ _ _ O Rf) as [N|[]]; apply N; exact I|].
      destruct (string_back s false Vs Pe []) as (w' & Ew & _ & _ & Uw). destruct (encodeString_spec false [] s) as (w'' & Ew' & _ & Es).
      assert (w' = w'') by (rewrite Ew in Ew'; injection Ew' as Q; apply app_inv_tail in Q; exact Q). assert (w = w') by congruence. subst.
      intros z0 v' Bz F. inversion F; subst; repeat no_method O; [|match goal with A : forall s, JStr _ <> JStr s |- _ => destruct (A _ eq_refl) end]. match goal with A : Unescaped _ = Ok ?o |- _ => rewrite Uw in A; injection A as <- end. constructor.
    - (* nil pointer *) inversion Sk; subst. split; [intros er Rf; destruct (refused_kind E G M' _ _ _ _ O Rf) as [N|(N & _)]; [apply N; exact I|congruence]|].
      intros z0 v' Bz F. inversion F; subst; repeat no_method O; try congruence. constructor.
    - (* pointer *) inversion Sk as [| | | | | | |? ? ? ? Sx'| | | | |]; subst. typed_at T. as_in Kt. assert (Re : star (needs E G M) (t0, false) (e, false)).
      { destruct K as (X & EX & Nm & Kx). eapply gstar_snoc; [exact R|]. eapply nd_part; [exact EX|exact Nm|]. rewrite Kx. left. reflexivity. }
      destruct (IH x ltac:(cbn [vdepth]; lia) e j Re ltac:(assumption) Sx Sx') as (Nr & Bk). assert (Nj : j <> JNull).
      { intros ->. apply (shown_by_kind _ _ _ _ Ke) in Sx'. inversion Sx'. }
      split; [intros er Rf; destruct (refused_kind E G M' _ _ _ _ O Rf) as [N|(_ & N)]; [apply N; exact I|exact (Nr _ N)]|].
      intros z0 v' Bz F. typed_at Bz. inversion F; subst; repeat no_method O; try congruence. eapply ga_ptr; [exact Kt|]. eapply Bk; eassumption.
    - (* nil slice *) inversion Sk; subst. split; [intros er Rf; destruct (refused_kind E G M' _ _ _ _ O Rf) as [N|(js & j' & Q & I' & _)]; [apply N; exact I|]; injection Q as <-; destruct I'|].
      intros z0 v' Bz F. typed_at Bz. inversion F; subst; repeat no_method O; [constructor|]. match goal with A : None = None -> _ |- _ => destruct (A eq_refl eq_refl) end.
    - (* slice *) inversion Sk as [| | | | | | | | |? ? ? ? js Se| | |]; subst. typed_at T. as_in Kt. assert (Re : star (needs E G M) (t0, false) (e, false)).
      { destruct K as (X & EX & Nm & Kx). eapply gstar_snoc; [exact R|]. eapply nd_part; [exact EX|exact Nm|]. rewrite Kx. left. reflexivity. }
      assert (Bs : Forall2 (back e) l js).
      { match goal with A : Forall (typed E e) l |- _ => rename A into Tl end. clear - IH Se Sl Tl Re. assert (Hl : forall x, In x l -> vdepth x < vdepth (VSlice (Some (l, s)))) by (intros x Ix; pose proof (In_max vdepth l x Ix); cbn [vdepth]; lia). revert IH Hl. generalize (VSlice (Some (l, s))). intros v0 IH Hl.
        clear s. revert Re Sl Tl Hl. induction Se as [e|e x l j js Sx Se IHe]; intros Re Sl Tl Hl; inversion Sl; inversion Tl; subst; constructor; [apply (IH x (Hl x (or_introl eq_refl))); assumption|apply IHe; auto]. intros; apply Hl; right; assumption. }
      split.
      + intros er Rf. destruct (refused_kind E G M' _ _ _ _ O Rf) as [N|(js' & j' & Q & I' & N)]; [apply N; exact I|]. injection Q as <-. destruct (Forall2_In_r _ _ _ _ Bs I') as (x & _ & (Nr & _)). exact (Nr _ N).
      + intros z0 v' Bz F. typed_at Bz. inversion F as [| | | | | | | | | | | | | | |? e' O'|? e' x' js' l1 l2 s' l' O' Nn Sl' Fe| | |]; subst; repeat no_method O.
        * inversion Bs; subst. constructor.
        * destruct Sl' as (Ll & Lb & ->). assert (Le : length l1 = length js) by (clear - Fe; induction Fe; cbn; auto). rewrite app_length in Ll. destruct l2 as [|? l2]; [|cbn [length] in Ll; lia]. rewrite !app_nil_r in *. eapply ga_slice; [exact Kt|].
          clear - Bs Fe Lb. revert l Bs. induction Fe as [e|e x l1 j js y l' Fx Fe IHe]; intros l Bs; inversion Bs as [|? ? ? ? (_ & Bk)]; subst; constructor; inversion Lb; subst; eauto.
    - (* map *) assert (j = JObj []) as ->.
      { inversion Sk; subst; [reflexivity|]. destruct Me as [Me|Me]; [discriminate|]. injection Me as ->. match goal with A : Permutation _ [] |- _ => apply Permutation_sym, Permutation_nil in A; subst end. match goal with A : shown_entries _ _ _ _ [] _ |- _ => inversion A end. reflexivity. }
      split; [intros er Rf; destruct (refused_kind E G M' _ _ _ _ O Rf) as [N|(ms & ky & j' & Q & I' & _)]; [apply N; exact I|]; injection Q as <-; destruct I'|].
      intros z0 v' Bz F. typed_at Bz. inversion F; subst; repeat no_method O. match goal with A : filled_keys _ _ _ _ _ [] _ _ |- _ => inversion A; subst end. destruct Me as [-> | ->]; constructor.
    - (* struct *) inversion Sk as [| | | | | | | | | | | |? ? ? cs ms (Lc & Nd & _) Sf]; subst.
      destruct K as (X & EX & Nm & Kx). destruct (proj2 (PR _ _ _ R EX Nm) _ Kx) as (Lh & Lap).
      assert (Step : forall name params f, leads G (fieldsOf M t) name params f -> star (needs E G M) (t0, false) (mtype f, has rawParam params) /\ has rawParam params = false).
      { intros name params f L. assert (St : star (needs E G M) (t0, false) (mtype f, has rawParam params)) by (eapply gstar_snoc; [exact R|]; eapply nd_field; eassumption). split; auto. exact (proj1 (NJ _ _ St)). }
      assert (Wk : forall name params f, leads G (fieldsOf M t) name params f -> walks E t (mpath f) (mtype f) /\ mpath f <> []) by (intros name params f L; exact (P t fs f Kt (leads_In G _ _ _ _ L))).
      assert (Bk : forall name params f x j, In (name, params, f) cs -> reaches (VStruct l) (mpath f) x -> ~ left_out E G params (mtype f) x -> shown E G M (mtype f) x j -> back (mtype f) x j).
      { intros name params f x j I Rx Nl Sx. apply Lc in I. destruct (Step _ _ _ I) as (St & Er). rewrite Er in St. destruct (Wk _ _ _ I) as (Wf & Np). destruct (field_typed _ _ _ _ Wf _ T) as (o & Fo & Ho). assert (o = Some x) as ->.
        { destruct o as [y|]; [f_equal; exact (reaches_det _ _ _ _ _ Fo (fieldByIndex_some _ _ _ Fo) Rx)|destruct (fieldByIndex_none _ _ Fo _ Rx)]. }
        destruct Ho as (Tx & _ & Dx). apply IH; auto; [destruct (mpath f); [congruence|cbn [length] in Dx; lia]|]. eapply Sl; eassumption. }
      assert (Hc : forall name params f, In (name, params, f) cs -> leads G (fieldsOf M t) name params f /\ heads E G (fieldsOf M' t) name params f /\ ~ raw_string E params (mtype f) /\ walks E t (mpath f) (mtype f)).
      { intros name params f I. apply Lc in I. split; [exact I|]. split; [exact (Lh _ _ _ I)|]. split; [|exact (proj1 (Wk _ _ _ I))]. intros (Ir & _). apply has_In in Ir. destruct (Step _ _ _ I). congruence. }
      assert (From : forall name j, In (name, j) ms -> exists params f x, In (name, params, f) cs /\ reaches (VStruct l) (mpath f) x /\ ~ left_out E G params (mtype f) x /\ shown E G M (mtype f) x j).
      { clear - Sf. induction Sf as [v|v c cs ms Nr Sf IH|v name params f x cs ms Rx Lo Sf IH|v name params f x j cs ms Rx Nl Sx Sf IH]; intros n' j' I.
        - destruct I.
        - destruct (IH _ _ I) as (p & f & x & I' & Q). exists p, f, x. split; [right; exact I'|exact Q].
        - destruct (IH _ _ I) as (p & g & x' & I' & Q). exists p, g, x'. split; [right; exact I'|exact Q].
        - destruct I as [Q|I]; [injection Q as <- <-; exists params, f, x; split; [left; reflexivity|auto]|]. destruct (IH _ _ I) as (p & g & x' & I' & Q). exists p, g, x'. split; [right; exact I'|exact Q]. }
      split.
      + intros er Rf. destruct (refused_kind E G M' _ _ _ _ O Rf) as [N|(ms' & name & params & f & j' & Q & I' & Hd & _ & N)]; [apply N; exact I|]. injection Q as <-.
        destruct (From _ _ I') as (p & g & x & Ig & Rx & Nl & Sx). destruct (Hc _ _ _ Ig) as (_ & Hd' & _). destruct (heads_det E G _ _ _ _ _ _ Hd Hd') as (-> & ->). exact (proj1 (Bk _ _ _ _ _ Ig Rx Nl Sx) _ N).
      + intros z0 v' Bz F. inversion F; subst; repeat no_method O. match goal with A : filled_fields _ _ _ _ _ _ _ |- _ => rename A into Ff end.
        assert (Ap : ForallOrdPairs (fun c d => apart (mpath (snd c)) (mpath (snd d))) cs).
        { assert (All : forall c d, In c cs -> In d cs -> fst (fst c) = fst (fst d) \/ apart (mpath (snd c)) (mpath (snd d))) by (intros [[n1 p1] f1] [[n2 p2] f2] I1 I2; apply Lc in I1, I2; exact (Lap _ _ _ _ _ _ I1 I2)).
          clear - Nd All. induction cs as [|c cs IHc]; constructor; inversion Nd as [|? ? Ni Nd']; subst; [|apply IHc; auto; intros; apply All; right; assumption].
          apply Forall_forall. intros d Id. destruct (All c d (or_introl eq_refl) (or_intror Id)) as [Q|Q]; auto. destruct Ni. rewrite Q. exact (in_map (fun c => fst (fst c)) _ _ Id). }
        destruct (fields_back t _ (VStruct l) cs ms Sf Kt T Hc Ap Bk _ _ Ff) as (A & B & C & D).
        { intros name params f y I Ry. eapply blank_at; [exact (proj1 (Wk _ _ _ (proj1 (Lc _ _ _) I)))|exact Bz|exact Ry]. }
        assert (exists l', v' = VStruct l') as (l' & ->).
        { eapply struct_stays; [exact Ff| |eexists; reflexivity]. intros name j I. destruct (From _ _ I) as (p & g & x & Ig & _). exists p, g. split; [apply (Hc _ _ _ Ig)|]. exact (proj2 (Wk _ _ _ (proj1 (Lc _ _ _) Ig))). }
        eapply ga_struct; [exact Kt|]. intros name params f L. split; [|apply (D name); apply Lc; exact L].
        intros y Ry. destruct (C (mpath f) y) as [(b & Rb)|Rb]; [| exact Ry| |exact Rb].
        * intros [[n1 p1] f1] I1. pose proof I1 as L1. apply Lc in L1. destruct (Lap _ _ _ _ _ _ L1 L) as [->|Q]; [left|right; exact Q]. cbn [snd]. f_equal. exact (proj2 (heads_det E G _ _ _ _ _ _ (Lh _ _ _ L1) (Lh _ _ _ L))).
        * eapply blank_any; eassumption.
  Qed.
End Back.

Lemma compact_rfc j w : compact j w -> rfc_value j w.
Proof. apply value_mono; auto. - intros s ->. constructor. - intros s (R & _). exact R. Qed.
Lemma C63_lem E G M M' t fs ca cu v z out : wf_types E -> paths_ok E M -> paths_ok E M' -> no_point_loop E -> ftoa_spec (ftoa E) -> walks_maps E -> methods_return E -> unmarshalers_return E M' ->
  names_json E G M t -> paired E G M M' t -> written_kind E t (KStruct fs) -> typed E t v -> gsurvives E G M M' t v -> blank E t z ->
  Appender E G M t = Ok (Some ca) -> compilesAppender M t ca = true -> Unmarshaler E G M' t = Ok (Some cu) -> compilesUnmarshaler M' t cu = true ->
  exists w, runAppender E ca out (Some v) = Ok (out ++ w, None) /\ forall W0 r, r < length W0 ->
    exists W' n v', Document_Parse W0 r w = Ok (W', (n, [], None)) /\ runUnmarshaler E M' W' cu z n = Ok (v', None) /\ gagree E G M t v v'.
Proof.
  intros W P P' NP S WM MR UR NJ PR Kt Tv Sv Bz Ha Ca Hu Cu. pose proof Ca as Cb. unfold compilesAppender in Cb. apply andb_true_iff in Cb as (_ & Cb). assert (Cc : compilesA ca = true) by (destruct ca; try discriminate; auto). clear Cb.
  rewrite (run_by_kind _ _ _ _ _ _ _ Ha) by (intros T ET; destruct Kt as (T' & ET' & (N1 & _) & _); congruence).
  assert (Inv : forall u k x, written_kind E u k -> undone E G M M' u x -> False) by (intros u k x (T & ET & Nm & _) (T' & ET' & Nn & _); assert (T' = T) as -> by congruence; contradiction).
  assert (Det : forall u k k', written_kind E u k -> written_kind E u k' -> k = k') by (intros u k k' (T & ET & _ & <-) (T' & ET' & _ & <-); congruence).
  destruct (runA_good E G M P S WM MR no_ws (fun w => rfc_chars w /\ plain_end w) eq_refl t (gsurvives E G M M')) with (fuel := Datatypes.S (length (types E))) (t := t) (raw := false) (c := ca) (v := v) (out := out) as [(o & er & Ra & u & raw & X & x & Su & EX & _ & Tx & Sx & Me)|(w & R & j & Jw & Sh)]; auto.
  - intros u f K Sf. inversion Sf; subst; auto. destruct K as [K|K]; destruct (Inv _ _ _ K ltac:(eassumption)).
  - intros u s w K Ss Es. inversion Ss; subst; [destruct (Inv _ _ _ K ltac:(eassumption))|]. destruct (string_back s false ltac:(assumption) ltac:(assumption) []) as (w' & Ew & Rw & Pw & _). destruct (encodeString_spec false [] s) as (w'' & Ew' & _ & Es').
    assert (w' = w'') by (rewrite Ew in Ew'; injection Ew' as Q; apply app_inv_tail in Q; exact Q). assert (w = w') by congruence. subst. auto.
  - intros u e x K Sp. inversion Sp; subst; [destruct (Inv _ _ _ K ltac:(eassumption))|]. match goal with A : written_kind E u (KPtr _) |- _ => pose proof (Det _ _ _ K A) as Q; injection Q as -> end. assumption.
  - intros u e l s x K Sl Ix. inversion Sl; subst; [destruct (Inv _ _ _ K ltac:(eassumption))|]. match goal with A : written_kind E u (KSlice _) |- _ => pose proof (Det _ _ _ K A) as Q; injection Q as -> end. match goal with A : Forall _ l |- _ => rewrite Forall_forall in A; auto end.
  - intros u k e m key x K Sm Ix. inversion Sm; subst; [destruct (Inv _ _ _ K ltac:(eassumption))|]. match goal with A : _ \/ _ |- _ => destruct A as [A|A]; [discriminate|injection A as ->; destruct Ix] end.
  - intros u gs l name params f x K _ Sl L Rx Nl. inversion Sl; subst; [destruct (Inv _ _ _ K ltac:(eassumption))|]. eauto.
  - constructor.
  - intros [u raw] Su. destruct (NJ u raw Su) as (-> & Nm). split; [reflexivity|]. split; [|exact Nm]. intros T ET. cbn [fst] in ET.
    assert (Un : forall x, ~ no_marshaler (tmeth T) -> gsurvives E G M M' u x -> undone E G M M' u x).
    { intros x Nn Sx. inversion Sx; subst; auto; match goal with A : written_kind E u _ |- _ => destruct A as (T' & ET' & Nm' & _) end; assert (T' = T) as -> by congruence; contradiction. }
    split; [|split]; cbn [fst].
    + intros Q x b o Sx C. destruct (Un x ltac:(intros (N1 & _); congruence) Sx) as (T' & ET' & _ & UA & _). assert (T' = T) as -> by congruence. destruct (UA Q b) as (w & j & C' & J). rewrite C in C'. injection C' as ->. exists w, j. split; auto. split; [apply compact_rfc; exact J|exact J].
    + intros Q Q' x r Sx C. destruct (Un x ltac:(intros (_ & N1 & _); congruence) Sx) as (T' & ET' & _ & _ & UJ & _). assert (T' = T) as -> by congruence. destruct (UJ Q Q') as (w & j & C' & J). rewrite C in C'. injection C' as ->. exists w, j. split; auto. split; [apply compact_rfc; exact J|exact J].
    + intros Q Q' Q'' x w Sx C. destruct (Un x ltac:(intros (_ & _ & N1); congruence) Sx) as (T' & ET' & _ & _ & _ & UT & _). assert (T' = T) as -> by congruence. destruct (UT Q Q' Q'') as (w' & C' & J). rewrite C in C'. injection C' as ->. exact J.
  - exfalso. assert (Un : ~ no_marshaler (tmeth X) -> undone E G M M' u x).
    { intro Nn. inversion Sx; subst; auto; match goal with A : written_kind E u _ |- _ => destruct A as (T' & ET' & Nm' & _) end; assert (T' = X) as -> by congruence; contradiction. }
    destruct Me as [(Q & b & o' & C)|[(Q & Q' & o' & C)|(Q & Q' & Q'' & o' & C)]].
    + destruct (Un ltac:(intros (N1 & _); congruence)) as (T' & ET' & _ & UA & _). assert (T' = X) as -> by congruence. destruct (UA Q b) as (w & j & C' & _). congruence.
    + destruct (Un ltac:(intros (_ & N1 & _); congruence)) as (T' & ET' & _ & _ & UJ & _). assert (T' = X) as -> by congruence. destruct (UJ Q Q') as (w & j & C' & _). congruence.
    + destruct (Un ltac:(intros (_ & _ & N1); congruence)) as (T' & ET' & _ & _ & _ & UT & _). assert (T' = X) as -> by congruence. destruct (UT Q Q' Q'') as (w & C' & _). congruence.
  - exists w. split; [exact R|]. intros W0 r Lr. destruct (proj2 (Parse_tree_iff W0 r w j [])) as (W2 & n2 & P2 & Tr).
    { split; [exact Lr|]. exists [], w. rewrite app_nil_r. split; [reflexivity|]. split; [constructor|]. split; [apply rfc_plain_lenient, tight_plain; exact Jw|]. intros _; exact I. }
    destruct (C62_lem E G M' W2 t cu z n2 j W P' NP UR (blank_typed _ W _ _ Bz) Tr Hu Cu) as (v' & err & Ru & _ & Q).
    destruct (shown_back E G M M' t W P NJ PR v t j (star_here _ _) Tv Sv Sh) as (Nr & Bk). pose proof (shown_by_kind E G M _ _ _ _ Kt Sh) as Sk. assert (exists ms, j = JObj ms) as (ms & ->) by (inversion Sk as [| | | |? ? ? ? [D|D]| | | | | | | |]; subst; eauto; discriminate). destruct err as [er|]; [destruct (Nr er Q)|].
    exists W2, n2, v'. split; [exact P2|]. split; [exact Ru|]. eapply Bk; eassumption.
Qed.
