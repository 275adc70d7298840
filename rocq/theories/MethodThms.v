(* User methods are called wherever their type occurs (C55). *)
From Verif Require Import Bytes Types JsonSpec Parser Doc DocSpec Options Wrap WrapThms Codec CodecSpec CodecMerge CodecBase CodecBuild DecodeSpec DecodeTree DecodeThms ParserThms OkThms MethodSpec.
Local Open Scope nat_scope.

Lemma slot_serves E O G x h p : sound E O G -> slot E G x h p -> serves E G p x h.
Proof.
  intros Sd Sl. destruct Sl as [q t fs c N Ic|q t fs c N Ic|q it h p e n N K|q it h p k e N K]; pose proof (Sd _ _ N) as Sc.
  - destruct Sc as (_ & _ & _ & _ & _ & _ & F). rewrite Forall_forall in F. exact (proj1 (F c Ic)).
  - destruct Sc as (_ & _ & _ & _ & _ & _ & F). rewrite Forall_forall in F. exact (proj2 (F c Ic)).
  - destruct Sc as (T & Ty & _ & Sk). unfold kindOf in K. rewrite Ty in K. cbn in K. destruct K as [K|[K|K]]; injection K as K; rewrite K in Sk; exact Sk.
  - destruct Sc as (T & Ty & _ & Sk). unfold kindOf in K. rewrite Ty in K. cbn in K. injection K as K. rewrite K in Sk. exact (proj2 Sk).
Qed.
Lemma serves_method E O G x h p T : sound E O G -> serves E G p x h -> typeOf E (itype x) = Some T -> handled x (tmeth T) = true -> (h = 0%N -> ~ half E (itype x)) -> nth_error G p = Some (CMethod x).
Proof.
  intros Sd Sv Ty Hd Nh. destruct (serves_cases E O G p x h Sd Sv) as (T' & Ty' & Cs). rewrite Ty in Ty'. injection Ty' as <-.
  destruct Cs as [[_ N]|[(l & fs & K & N & [->|Hf] & Sc)|(Hf & _)]]; [exact N| |congruence|congruence]. exfalso. apply (Nh eq_refl). exists T. split; [apply isStruct_iff; exists l; unfold kindOf; rewrite Ty; cbn; congruence|]. split; [exact Ty|].
  destruct Sc as (T' & _ & Ty' & _ & M & _). rewrite Ty in Ty'. injection Ty' as <-. unfold handled in Hd. destruct x; cbn in Hd; intro Eq; destruct M as [M|M]; congruence.
Qed.
Lemma serves_struct E O G x h p T : sound E O G -> serves E G p x h -> typeOf E (itype x) = Some T -> handled x (tmeth T) = false -> nth_error G p <> Some (CMethod x).
Proof.
  intros Sd Sv Ty Hd N. destruct (Sd _ _ N) as (T' & Ty' & Hd'). congruence.
Qed.
Lemma encode_method E G O p t T : typeOf E t = Some T -> marshals (tmeth T) = true -> nth_error G p = Some (CMethod (IEnc t)) ->
  forall fuel addr b v, marshalled E t (tmeth T) b v (encode (S fuel) E G O p addr b v).
Proof.
  intros Ty M N fuel addr b v. cbn [encode]. rewrite N, Ty. repeat split.
  - intros ->. reflexivity.
  - intros -> -> x e Cj. unfold encodeJSON. rewrite Cj. cbn [bind]. destruct x, e; reflexivity.
  - intros -> -> _ x e Ct. unfold encodeText. rewrite Ct. cbn [bind]. destruct e; [reflexivity|]. unfold append1. rewrite <- !app_assoc. reflexivity.
Qed.
Lemma decode_method E G w p t T n j : typeOf E t = Some T -> unmarshals (tmeth T) = true -> nth_error G p = Some (CMethod (IDec t)) -> tree_of w n j ->
  forall fuel v, unmarshalled E t (tmeth T) w n j v (decode (S fuel) E G w p v n).
Proof.
  intros Ty M N Tr fuel v. cbn [decode]. destruct (Node_Data w n) as [raw q]. rewrite N, Ty. repeat split.
  - intros ->. reflexivity.
  - intros -> ->. rewrite (wrap_json w n j Tr). reflexivity.
  - intros s ->. rewrite H, H0. destruct (Node_Type w n =? TypeString)%N eqn:Et; [rewrite (wrap_text w n s Tr); reflexivity|].
    exfalso. apply N.eqb_neq in Et. apply Et. rewrite (proj1 (tree_look w n _ Tr)). reflexivity.
  - intros Ns. rewrite H, H0. destruct (wrap_text_other w n j Tr Ns) as (ty & _ & -> & Nt). apply N.eqb_neq in Nt. rewrite Nt. unfold typeError. eauto.
Qed.
Lemma C55_encode_lem E O it o G x h p T : newCodec E O it = Ok (Some (o, G)) -> slot E G (IEnc x) h p -> typeOf E x = Some T -> marshals (tmeth T) = true -> (h = 0%N -> ~ half E x) ->
  forall fuel addr b v, marshalled E x (tmeth T) b v (encode (S fuel) E G O p addr b v).
Proof. intros Nc Sl Ty M Nh. destruct (newCodec_sound _ _ _ _ _ Nc) as [Sd _]. eapply encode_method; eauto. eapply serves_method; eauto. eapply slot_serves; eassumption. Qed.
Lemma C55_decode_lem E O it o G x h p T w n j : newCodec E O it = Ok (Some (o, G)) -> slot E G (IDec x) h p -> typeOf E x = Some T -> unmarshals (tmeth T) = true -> ~ half E x -> tree_of w n j ->
  forall fuel v, unmarshalled E x (tmeth T) w n j v (decode (S fuel) E G w p v n).
Proof. intros Nc Sl Ty M Nh Tr. destruct (newCodec_sound _ _ _ _ _ Nc) as [Sd _]. eapply decode_method; eauto. eapply serves_method; eauto. eapply slot_serves; eassumption. Qed.

(* ---- Marshal and Unmarshal themselves ---- *)
Lemma marshalled_eq E t m m' b v r : same_marshals m m' -> marshalled E t m b v r -> marshalled E t m' b v r.
Proof. intros (A & J & T). unfold marshalled. rewrite A, J, T. auto. Qed.
Lemma top_method E t m m' b v : same_marshals m' m -> marshals m = true ->
  marshalled E t m b v (if isAppender m' then if isAppender m then callAppend E t v b else Panic else if isJSON m' then if isJSON m then encodeJSON E t b v else Panic else if isText m then encodeText E t b v else Panic).
Proof.
  intros (A & J & _) M. rewrite A, J. repeat split.
  - intros ->. reflexivity.
  - intros -> -> x e Cj. unfold encodeJSON. rewrite Cj. cbn [bind]. destruct x, e; reflexivity.
  - intros -> -> -> x e Ct. unfold encodeText. rewrite Ct. cbn [bind]. destruct e; [reflexivity|]. unfold append1. rewrite <- !app_assoc. reflexivity.
Qed.
Lemma C55_marshal_lem E out t v T : typed E t v -> top_ok E t v -> typeOf E t = Some T ->
  match tkind T with
  | KPtr e => forall X x, typeOf E e = Some X -> v = VPtr (Some x) -> marshals (tmeth X) = true -> marshalled E e (tmeth X) out x (AppendJSON E out (Some (t, v)))
  | _ => marshals (tmeth T) = true -> marshalled E t (tmeth T) out v (AppendJSON E out (Some (t, v)))
  end.
Proof.
  intros _ [_ To] Ty. specialize (To T Ty). unfold AppendJSON, encodeTop. rewrite Ty.
  assert (Mm : forall a b, same_marshals a b -> marshals b = true -> marshals a = true) by (intros a b (A & J & X) M; unfold marshals in *; rewrite A, J, X; exact M).
  destruct (tkind T) as [| | | | | |m|e|e|n e|kt e|fs|] eqn:K;
    try (intro M; rewrite (Mm _ _ To M); cbn [bind]; rewrite Ty; apply top_method; assumption).
  intros X x Tx -> M. specialize (To X Tx). rewrite (Mm _ _ To M). cbn [bind]. rewrite Tx. apply top_method; assumption.
Qed.
Lemma C55_unmarshal_lem E rev s t T x e : typeOf E t = Some T -> tkind T = KPtr e -> unmarshals (tmeth T) = true ->
  (exists j w n, begins s j /\ tree_of w n j /\ unmarshalled E t (tmeth T) w n j x (Unmarshal E rev s t x)) \/
  ~ (exists j, begins s j) /\ exists pe, Unmarshal E rev s t x = Ok (x, Some (UParse pe)).
Proof.
  intros Ty K M. unfold Unmarshal, UnmarshalFromString. rewrite Ty, K, M. cbn [bind negb].
  destruct (Parse_total [mkDoc [] rev] 0 s ltac:(cbn; lia)) as (W' & n & tail & er & P). rewrite P. cbn [bind]. destruct er as [pe|].
  - right. split; eauto. intros (j & s1 & w & tl & Es & Hs & Hw & Hn). destruct (proj2 (Parse_tree_iff [mkDoc [] rev] 0 s j tl)) as (W2 & n2 & P2 & _); [split; [cbn; lia|]; exists s1, w; auto|]. congruence.
  - left. destruct (proj1 (Parse_ok_iff _ _ _ _ _ _) P) as (d & s1 & w & j & _ & Es & Hs & Hw & Hn & _ & _).
    destruct (proj2 (Parse_tree_iff [mkDoc [] rev] 0 s j tail)) as (W2 & n2 & P2 & Tr); [split; [cbn; lia|]; exists s1, w; auto|]. rewrite P in P2. injection P2 as <- <-.
    exists j, W', n. split; [exists s1, w, tail; auto|]. split; [exact Tr|]. unfold UnmarshalFromNode. rewrite Ty, K. repeat split.
    + intros ->. reflexivity.
    + intros -> ->. rewrite (wrap_json W' n j Tr). reflexivity.
    + intros q ->. rewrite H, H0, H1, (wrap_text W' n q Tr). reflexivity.
    + intros Ns. rewrite H, H0, H1. destruct (wrap_text_other W' n j Tr Ns) as (ty & -> & _). cbn [wrapped]. eauto.
Qed.
