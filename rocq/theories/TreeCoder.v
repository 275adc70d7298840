(* The tree that an encoder object writes (C56). *)
From Coq Require Import Permutation.
From Verif Require Import FloatSpec FmtSpec NumSpec StrSpec Bytes Types JsonSpec Parser Doc DocSpec Strjson Float Num FmtThms Iface IfaceSpec Options
  Codec CodecSpec CodecMerge CodecBase CodecBuild CodecOmit CodecEnc CodecJson DecodeSpec RoundSpec Coder CoderSpec CoderThms TreeSpec TreeThms.
Local Open Scope nat_scope.

Lemma C56_tree_lem E t O O' m out s v res : go_env E -> completed O O' -> tags_json E O' -> methods_write_json E -> oNaN O = false -> oInf O = false ->
  NewTypeEncoder E (Some t) O = Ok (Some m) -> own_methods E t -> accepts E t s -> typed E s v -> v <> VPtr None -> tops_ok E v -> floats_json v ->
  Encode E m out (Some (s, v)) = Ok (res, None) -> exists j w, res = out ++ w /\ rfc_value j w /\ top_tree_with E O' s v j.
Proof.
  intros (W & ES & FS & WM & TJ) Cm TO MW On Oi N Ow (u0 & St0 & St1) T Nv Tp Fl. apply completed_lem in Cm. subst O'.
  destruct (made_enc _ _ _ _ N) as (u & pm & (X & Tt & Pm) & St & Et & Eo & Me). destruct (opened _ _ _ T Nv) as (u' & y & Up & Ty).
  assert (u' = u). { rewrite <- (stands_det _ _ _ _ St0 St). apply (stands_det E s); [eapply unpointed_stands; exact Up|exact St1]. } subst u'.
  destruct (typed_typeOf _ _ _ Ty) as (U & Tu). pose proof (own_same E t X u U pm Ow Tt Pm St Tu) as (SA & SJ & SX). destruct (unpointed_inside _ _ _ _ _ Up) as (Iy & Dy).
  assert (Fin : forall addr, (addr = true /\ kindOf E s = Some (KPtr u) /\ v = VPtr (Some y) \/ addr = false /\ s = u /\ v = y /\ (forall e, kindOf E s <> Some (KPtr e))) ->
    forall r, part r out (shows (tree E (normalize O) addr 0%N u y)) -> r = Ok (res, None) -> exists j w, res = out ++ w /\ rfc_value j w /\ top_tree_with E (normalize O) s v j).
  { intros addr Ha r P Er. destruct (P res Er) as (w & -> & j & J & Tr). exists j, w. split; [reflexivity|]. split; [exact J|]. destruct Ha as [(-> & Ks & Ev)|(-> & Es & Ev & Nk)]; [left; eauto|right; subst; auto]. }
  assert (Ha : exists addr, (addr = true /\ kindOf E s = Some (KPtr u) /\ v = VPtr (Some y) \/ addr = false /\ s = u /\ v = y /\ (forall e, kindOf E s <> Some (KPtr e))) /\
    (match kindOf E s with Some (KPtr _) => true | _ => false end) = addr).
  { destruct Up as [(K & Ev)|(Es & Ev & k & K & Nk)]; [exists true; rewrite K; auto|exists false; split; [right; repeat split; auto; intros e C; rewrite K in C; injection C as ->; eapply Nk; reflexivity|]].
    rewrite K. destruct k; auto. exfalso. eapply Nk. reflexivity. }
  destruct Ha as (addr & Ha & Ea). rewrite (Encode_open _ _ _ _ _ _ _ Up), Et, Nat.eqb_refl, Tu. cbn [negb]. apply (Fin addr Ha). clear Fin.
  assert (Mp : forall r, marshals (tmeth U) = true -> r = (if isAppender (tmeth U) then callAppend E u y out else if isJSON (tmeth U) then encodeJSON E u out y else encodeText E u out y) -> part r out (shows (tree E (normalize O) addr 0%N u y)))
    by (intros r Ma ->; apply method_shows; assumption).
  destruct (teEncoder m) as [| | |o G].
  - rewrite SA in Me. apply Mp; [unfold marshals; rewrite Me; reflexivity|]. rewrite Me. reflexivity.
  - rewrite SA, SJ in Me. destruct Me as [Ma Mj]. apply Mp; [unfold marshals; rewrite Ma, Mj; reflexivity|]. rewrite Ma, Mj. reflexivity.
  - rewrite SA, SJ, SX in Me. destruct Me as (Ma & Mj & Mx). apply Mp; [unfold marshals; rewrite Ma, Mj, Mx; reflexivity|]. rewrite Ma, Mj, Mx. reflexivity.
  - destruct Me as (_ & Nc). destruct (newCodec_sound _ _ _ _ _ Nc) as (Sd & Sv). rewrite Eo in *.
    rewrite Ea. apply (encode_tree E) with (h := 0%N); auto; [split; assumption|eapply floats_inside; eassumption|eapply tops_inside; eassumption|discriminate].
Qed.
