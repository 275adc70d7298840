(* C42: the errors that Unmarshal returns before it decodes. *)
From Verif Require Import Bytes Types JsonSpec Parser Doc DocSpec DocProofs Strjson StrSpec StrThms Float Num Iface IfaceSpec IfaceThms Wrap WrapThms Options Codec CodecSpec CodecMerge CodecBase CodecBuild ParserThms DecodeSpec DecodeTree DecodeThms CodecExamples DecodeExamples MethodSpec MethodThms MethodExamples CoderExamples.
Local Open Scope nat_scope.

(* Unmarshal cannot decode into the type: it is no pointer, or the pointer type has no method and a type that is needed
   for what it points to has no codec (C54). *)
Definition no_decoder (E : env) (t : tid) : Prop :=
  forall T e, typeOf E t = Some T -> tkind T = KPtr e -> no_unmarshaler (tmeth T) /\ exists x, uses_star E decodeOptions (IDec e) x /\ lacks E x.
Lemma C42_first_lem E rev s t x : wf_types E -> (forall u, ~ cyclic E decodeOptions u) -> t < length (types E) ->
  (no_decoder E t -> Unmarshal E rev s t x = Ok (x, Some UInvalidType)) /\
  (~ no_decoder E t -> ~ (exists j, begins s j) -> exists pe, Unmarshal E rev s t x = Ok (x, Some (UParse pe))).
Proof.
  intros W NC Lt. unfold Unmarshal, UnmarshalFromString, no_decoder. destruct (typeOf E t) as [T|] eqn:ET; [|unfold typeOf in ET; apply nth_error_None in ET; lia].
  assert (Pr : ~ (exists j, begins s j) -> exists w n tail pe, Document_Parse [mkDoc [] rev] 0 s = Ok (w, (n, tail, Some pe))).
  { intro NB. destruct (Parse_total [mkDoc [] rev] 0 s ltac:(cbn; lia)) as (W' & n & tail & er & P). destruct er as [pe|]; [eauto|]. exfalso. apply NB.
    destruct (proj1 (Parse_ok_iff _ _ _ _ _ _) P) as (d & s1 & w & j & _ & Es & Hs & Hw & Hn & _ & _). exists j, s1, w, tail. auto. }
  assert (Go : ~ (exists j, begins s j) -> exists pe, (let! p := Document_Parse [mkDoc [] rev] 0 s in match p with (w, (n, _, None)) => UnmarshalFromNode E w n t x | (_, (_, _, Some e)) => Ok (x, Some (UParse e)) end) = Ok (x, Some (UParse pe))).
  { intro NB. destruct (Pr NB) as (w & n & tail & pe & P). rewrite P. cbn [bind]. eauto. }
  destruct (tkind T) as [| | | | | |m|e|e|n e|kt e|fs|] eqn:K; cbn [bind negb]; try (split; [reflexivity|intro N; exfalso; apply N; intros T0 e0 Q; injection Q as <-; congruence]).
  destruct (unmarshals (tmeth T)) eqn:U; cbn [bind negb].
  - split; [intro H; destruct (H T e eq_refl K) as ((A & B & C) & _); unfold unmarshals in U; rewrite A, B, C in U; discriminate|intros _; exact Go].
  - assert (Nu : no_unmarshaler (tmeth T)) by (unfold unmarshals in U; unfold no_unmarshaler; destruct (isNodeU (tmeth T)), (isJSONU (tmeth T)), (isTextU (tmeth T)); try discriminate; auto).
    destruct (C54_lem E decodeOptions (IDec e) W NC) as (r & Er & Hr); [cbn [itype]; eapply (proj1 W t); [rewrite (typeOf_kindOf _ _ _ ET), K; reflexivity|left; reflexivity]|].
    rewrite Er. cbn [bind]. split.
    + intro H. destruct (H T e eq_refl K) as (_ & L). rewrite (proj2 Hr L). reflexivity.
    + intros N NB. destruct r as [q|]; [exact (Go NB)|]. exfalso. apply N. intros T0 e0 Q K0. injection Q as <-. rewrite K in K0. injection K0 as <-. split; [exact Nu|]. apply Hr. reflexivity.
Qed.
Lemma ex42_first_lem : wf_types codE /\ (forall u, ~ cyclic codE decodeOptions u) /\
  (no_decoder codE 21 /\ Unmarshal codE 0 (str "{") 21 (VPtr None) = Ok (VPtr None, Some UInvalidType)) /\
  (~ no_decoder codE 8 /\ ~ (exists j, begins (str "{") j) /\ exists pe, Unmarshal codE 0 (str "{") 8 (VPtr None) = Ok (VPtr None, Some (UParse pe))).
Proof.
  assert (A : forall u, ~ cyclic codE decodeOptions u) by (apply check_acyclic; checked). split; [exact cod_wf|]. split; [exact A|]. split; [split; [|checked]|split; [|split]].
  - intros T e ET K. injection ET as <-. injection K as <-. split; [repeat split; reflexivity|]. exists (IDec 15). split; [|eexists; split; [repeat split; reflexivity|exact Logic.I]].
    eapply us_step; [|constructor]; eapply (us_field _ _ _ 16 _ _ _ (mkC (str "C") [0]%Z 15 0)); [auto|repeat split; reflexivity|reflexivity|vm_compute; reflexivity|left; reflexivity|auto].
  - intro H. destruct (H _ 7 eq_refl eq_refl) as (_ & x & U & L). destruct (C54_lem codE decodeOptions (IDec 7) cod_wf A) as (b & Bd & Iff); [cbn; lia|]. vm_compute in Bd. injection Bd as <-. destruct Iff as [_ Iff]. discriminate Iff. eauto.
  - intros (j & s1 & w & tl & Es & Hs & Hw & Hn). destruct (proj2 (Parse_tree_iff [mkDoc [] 0%N] 0 (str "{") j tl)) as (W2 & n2 & P2 & _); [split; [cbn; lia|]; exists s1, w; auto|]. vm_compute in P2. discriminate P2.
  - eexists. found.
Qed.
