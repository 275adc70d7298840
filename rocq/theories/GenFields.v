(* Proofs for C60: which fields take part, and the order of tags. *)
From Verif Require Import Bytes JsonSpec OptSpec Options OptThms Codec CodecSpec Gen GenSpec.
Local Open Scope nat_scope.

Lemma splitComma_join p ps : Forall no_comma (p :: ps) -> splitComma (join x2c (p :: ps)) = (p, ps).
Proof.
  intro F. rewrite join_rest. revert p F. induction ps as [|q ps IH]; intros p F.
  - change (OptThms.rest []) with (@nil byte). rewrite app_nil_r. inversion F as [|? ? Np _]; subst. clear F. induction p as [|c p IHp]; [reflexivity|]. cbn [splitComma]. rewrite IHp by (intro I; apply Np; right; exact I).
    destruct (beqb_spec c x2c) as [->|_]; [destruct Np; left; reflexivity|reflexivity].
  - inversion F as [|? ? Np F']; subst. clear F. change (OptThms.rest (q :: ps)) with (x2c :: (q ++ OptThms.rest ps)). induction p as [|c p IHp]; cbn [app splitComma].
    + rewrite (IH q F'). change (beqb x2c x2c) with true. reflexivity.
    + rewrite IHp by (intro I; apply Np; right; exact I). destruct (beqb_spec c x2c) as [->|_]; [destruct Np; left; reflexivity|reflexivity].
Qed.
Lemma C60_fields_lem G f name params : parseVar G f = Some (name, params) <-> field_part G f name params.
Proof.
  unfold parseVar, MatchField. split.
  - intro H. destruct (bseqb (mname f) (str "_")) eqn:E1; [discriminate|]. apply bseqb_false in E1. destruct (gMatch G (mname f)) eqn:E2; [|discriminate]. cbn [negb] in H.
    assert (Ex : gOnlyExported G = true -> mexported f = true) by (intro X; rewrite X in H; destruct (mexported f); [reflexivity|discriminate]).
    destruct (gOnlyExported G && negb (mexported f)); [discriminate|].
    assert (St : exists p ps, ((exists v, mlookup f (gTag G) = Some v /\ v = join x2c (p :: ps) /\ Forall (fun q => ~ In x2c q) (p :: ps)) \/ mlookup f (gTag G) = None /\ p = [] /\ ps = [] /\ gOnlyTagged G = false) /\
              (if bseqb p (str "-") then None else Some (match match p with [] => gName G (mname f) | _ => p end with [] => mname f | _ => match p with [] => gName G (mname f) | _ => p end end, if gForceOmit G then ps ++ [omitEmpty] else ps)) = Some (name, params)).
    { destruct (mlookup f (gTag G)) as [v|].
      - destruct (split_exists_unique v) as (p & ps & F & -> & _). rewrite (splitComma_join _ _ F) in H. exists p, ps. split; [left; exists (join x2c (p :: ps)); auto|]. rewrite andb_comm in H. exact H.
      - exists [], []. destruct (gOnlyTagged G); [discriminate|]. split; [right; auto|exact H]. }
    destruct St as (p & ps & St & H'). destruct (bseqb p (str "-")) eqn:E3; [discriminate|]. apply bseqb_false in E3. injection H' as <- <-.
    replace (match match p with [] => gName G (mname f) | _ => p end with [] => mname f | _ => match p with [] => gName G (mname f) | _ => p end end) with (match p with [] => match gName G (mname f) with [] => mname f | n => n end | _ => p end) by (destruct p; [destruct (gName G (mname f))|]; reflexivity).
    replace (if gForceOmit G then ps ++ [omitEmpty] else ps) with (ps ++ if gForceOmit G then [str "omitempty"] else []) by (destruct (gForceOmit G); [reflexivity|apply app_nil_r]). constructor; auto.
  - intros [p ps N1 M Ex St N2]. destruct (bseqb (mname f) (str "_")) eqn:E1; [apply bseqb_true in E1; contradiction|]. rewrite M. cbn [negb].
    assert (Ee : gOnlyExported G && negb (mexported f) = false) by (destruct (gOnlyExported G); [rewrite Ex by reflexivity; reflexivity|reflexivity]). rewrite Ee.
    assert (Ep : bseqb p (str "-") = false) by (apply bseqb_false; exact N2).
    assert (Fo : (if gForceOmit G then ps ++ [omitEmpty] else ps) = ps ++ if gForceOmit G then [str "omitempty"] else []) by (destruct (gForceOmit G); [reflexivity|symmetry; apply app_nil_r]).
    destruct St as [(v & -> & -> & F)|(-> & -> & -> & ->)].
    + rewrite (splitComma_join p ps F), andb_false_r, Ep, Fo. destruct p; [destruct (gName G (mname f))|]; reflexivity.
    + cbn [andb]. rewrite Ep. cbn [app] in *. rewrite Fo. destruct (gName G (mname f)); reflexivity.
Qed.
Lemma C60_order_lem a : forall b, less a b = true <-> before a b.
Proof.
  induction a as [|c a IH]; intros [|d b]; cbn [less]; try (split; [discriminate|intro H; inversion H; fail]); try (split; [constructor|reflexivity]).
  destruct (N.ltb_spec (bN c) (bN d)) as [L|L]; [split; [constructor; exact L|reflexivity]|]. destruct (N.ltb_spec (bN d) (bN c)) as [L'|L'].
  - split; [discriminate|]. intro H. inversion H; subst; lia.
  - assert (c = d) as <- by (rewrite <- (Nb_bN c), <- (Nb_bN d); f_equal; lia). rewrite IH. split; [apply be_rest|]. intro H. inversion H; subst; [lia|assumption].
Qed.
Lemma C60_words_lem : omitEmpty = str "omitempty" /\ rawParam = str "raw" /\ forall p ps, Gen.has p ps = true <-> In p ps.
Proof.
  split; [reflexivity|]. split; [reflexivity|]. intros p ps. unfold Gen.has. rewrite existsb_exists. split; [intros (q & I & Q); apply bseqb_true in Q; subst; exact I|intro I; exists p; split; [exact I|apply bseqb_refl]].
Qed.
