(* Lemmas about the lookup tables, each checked for all 256 bytes, and the refutation witnesses for
   C30-C32. *)
From Verif Require Import Bytes Tables Types JsonSpec Parser Doc Utf8 Strjson StrSpec LexProofs Utf8Proofs StrProofs StrThms Bytemaper.

Lemma mask_tbl t tr : t = mask tr -> forall c, tbl t c = tr c.
Proof. intros -> c. destruct c; reflexivity. Qed.

Lemma table_json c : json_class c (toJSON c).
Proof.
  destruct c; vm_compute;
    first [ solve [apply jc_self; cbn; tauto]
          | solve [apply jc_html; cbn; tauto]
          | solve [apply jc_high; vm_compute; discriminate]
          | solve [apply jc_plain; [split; [vm_compute; discriminate|reflexivity]|cbn; intuition discriminate]]
          | solve [apply jc_short; [constructor|cbn; intuition discriminate]]
          | solve [apply jc_control; [first [left; reflexivity|right; reflexivity]|intros e H; inversion H]] ].
Qed.
Lemma json_class_once c x : json_class c x -> x = toJSON c.
Proof.
  destruct 1 as [c I|e c E N|c L N|c I|c L|c L N].
  - cbn in I. repeat destruct I as [<-|I]; try reflexivity. destruct I.
  - destruct E; try reflexivity; cbn in N; tauto.
  - assert (X : forallb (fun c => implb (((bN c <? 32) || (bN c =? 127))%N && negb (existsb (beqb c) [x08; x09; x0a; x0c; x0d])) (beqb x00 (toJSON c))) all_bytes = true) by (vm_compute; reflexivity).
    pose proof (forall_bytes _ X c) as H. cbn beta in H. rewrite (proj2 (orb_true_iff _ _)) in H by (rewrite N.ltb_lt, N.eqb_eq; auto).
    destruct (existsb _ _) eqn:Q in H.
    + exfalso. apply existsb_exists in Q as (y & I & Q). apply beqb_true in Q. subst y. cbn in I. repeat destruct I as [<-|I]; try (eapply N; constructor). destruct I.
    + apply beqb_true. exact H.
  - cbn in I. repeat destruct I as [<-|I]; try reflexivity. destruct I.
  - assert (X : forallb (fun c => implb (128 <=? bN c)%N (beqb xff (toJSON c))) all_bytes = true) by (vm_compute; reflexivity).
    pose proof (forall_bytes _ X c) as H. cbn beta in H. rewrite (proj2 (N.leb_le _ _)) in H by auto. apply beqb_true. exact H.
  - assert (X : forallb (fun c => implb ((32 <=? bN c) && (bN c <? 127))%N (implb (negb (existsb (beqb c) [x22; x2f; x5c; x3c; x3e; x26])) (beqb x80 (toJSON c)))) all_bytes = true) by (vm_compute; reflexivity).
    pose proof (forall_bytes _ X c) as H. cbn beta in H. rewrite (proj2 (N.leb_le _ _)), (proj2 (N.ltb_lt _ _)) in H by tauto. cbn [andb implb] in H.
    destruct (existsb _ _) eqn:Q in H.
    + exfalso. apply existsb_exists in Q as (y & I & Q). apply beqb_true in Q. subst y. auto.
    + apply beqb_true. exact H.
Qed.
Lemma table_json_iff c x : toJSON c = x <-> json_class c x.
Proof. split; [intros <-; apply table_json|intro H; symmetry; apply json_class_once; auto]. Qed.

Lemma table_space c : (isSpace c = true <-> ws_byte c) /\ In (tbl bytemapIsSpace c) [x00; x01].
Proof.
  split; [|destruct c; vm_compute; auto].
  unfold isSpace. assert (X : forallb (fun c => Bool.eqb (beqb (tbl bytemapIsSpace c) x01) (wsb c)) all_bytes = true) by (vm_compute; reflexivity).
  pose proof (forall_bytes _ X c) as H. apply eqb_prop in H. rewrite H. apply wsb_iff.
Qed.
Lemma table_numend c : (isNumberEnd c = true <-> num_end c) /\ In (tbl bytemapIsNumberEnd c) [x00; x01].
Proof.
  split; [|destruct c; vm_compute; auto].
  unfold isNumberEnd. assert (X : forallb (fun c => Bool.eqb (beqb (tbl bytemapIsNumberEnd c) x01) (numendb c)) all_bytes = true) by (vm_compute; reflexivity).
  pose proof (forall_bytes _ X c) as H. apply eqb_prop in H. rewrite H. apply numendb_iff.
Qed.
Lemma table_digit c : (isDigit c = true <-> digit c) /\ In (tbl bytemapIsDigit c) [x00; x01].
Proof.
  split; [|destruct c; vm_compute; auto].
  unfold isDigit. rewrite tbl_digit. unfold digitb, digit. rewrite andb_true_iff, !N.leb_le. tauto.
Qed.
Lemma table_todigit c n : tbl bytemapToDigit c = Nb n /\ (n < 10)%N <-> digit c /\ n = (bN c - 48)%N.
Proof.
  assert (X : forallb (fun c => Bool.eqb (bN (tbl bytemapToDigit c) <? 10)%N (digitb c) && implb (digitb c) (beqb (tbl bytemapToDigit c) (Nb (bN c - 48)))) all_bytes = true) by (vm_compute; reflexivity).
  pose proof (forall_bytes _ X c) as H. cbn beta in H. apply andb_true_iff in H as [H1 H2]. apply eqb_prop in H1.
  assert (D : digitb c = true <-> digit c) by (unfold digitb, digit; rewrite andb_true_iff, !N.leb_le; tauto).
  split.
  - intros [E L]. rewrite E, bNb in H1 by lia. rewrite (proj2 (N.ltb_lt _ _)) in H1 by auto. symmetry in H1. split; [tauto|].
    rewrite H1 in H2. cbn [implb] in H2. apply beqb_true in H2. rewrite E in H2. apply (f_equal bN) in H2. apply D in H1. unfold digit in H1. rewrite !bNb in H2 by lia. auto.
  - intros [Hd ->]. pose proof (proj2 D Hd) as Hb. rewrite Hb in H2. cbn [implb] in H2. apply beqb_true in H2. split; auto. unfold digit in Hd. lia.
Qed.
Lemma table_todigit_else c : ~ digit c -> tbl bytemapToDigit c = xff.
Proof.
  intro N. assert (X : forallb (fun c => digitb c || beqb (tbl bytemapToDigit c) xff) all_bytes = true) by (vm_compute; reflexivity).
  pose proof (forall_bytes _ X c) as H. cbn beta in H. apply orb_true_iff in H as [H|H]; [|apply beqb_true; auto].
  exfalso. apply N. unfold digitb in H. unfold digit. rewrite andb_true_iff, !N.leb_le in H. tauto.
Qed.
Lemma table_tohex n : (n < 16)%N -> hexdigit (toHex (Nb n)) /\ hexval (toHex (Nb n)) = n.
Proof.
  intro L. assert (X : forallb (fun c => implb (bN c <? 16)%N (hexb (toHex c) && (hexval (toHex c) =? bN c)%N)) all_bytes = true) by (vm_compute; reflexivity).
  pose proof (forall_bytes _ X (Nb n)) as H. cbn beta in H. rewrite bNb in H by lia. rewrite (proj2 (N.ltb_lt _ _)) in H by auto. cbn [implb] in H.
  apply andb_true_iff in H as [H1 H2]. apply hexb_ok in H1. apply N.eqb_eq in H2. auto.
Qed.
Lemma table_fromhex c : hexdigit c -> bN (fromHex c) = hexval c.
Proof. intro H. apply (fromHex_ok c H). Qed.
Lemma table_fromhex_bad : exists c, ~ hexdigit c /\ fromHex c = x10.
Proof. exists x67. split; [|reflexivity]. intro H. apply hexb_ok in H. discriminate H. Qed.

Lemma tables_generated :
  bytemapToJSON = mask genToJSON /\ bytemapToHex = mask genToHex /\ bytemapFromHex = mask genFromHex /\
  bytemapIsSpace = mask (isOneOf [x20; x09; x0d; x0a]) /\ bytemapIsDigit = mask (isOneOf (str "0123456789")) /\
  bytemapIsNumberEnd = mask (isOneOf [x20; x09; x0d; x0a; x2c; x5d; x7d]).
Proof. repeat split; vm_compute; reflexivity. Qed.

(* ---- C30, C31 witnesses ---- *)

(* \ud834\u0041: a high surrogate and the letter A *)
Definition w30 : bytes := x5c :: str "ud834" ++ x5c :: str "u0041".
Lemma hd c : hexb c = true -> hexdigit c. Proof. apply hexb_ok. Qed.
Lemma C30_refuted_lemma : exists w o o', rfc_chars w /\ meaning w o /\ Unescaped w = Ok o' /\ o' <> o.
Proof.
  exists w30, (utf8 replacement ++ [x41]), (utf8 replacement). split; [|split; [|split]].
  - repeat first [apply chars_nil | apply chars_u; [apply hd; reflexivity..|]].
  - apply m_unpaired; [apply hd; reflexivity..| |].
    + right. split; [split; vm_compute; [discriminate|reflexivity]|]. intros (a & b & c & d & w' & E & _ & _ & _ & _ & L & _). injection E as <- <- <- <- <-. revert L. vm_compute. auto.
    + apply (m_u x30 x30 x34 x31); [apply hd; reflexivity..|left; reflexivity|constructor].
  - vm_compute. reflexivity.
  - vm_compute. discriminate.
Qed.
(* \u00g0 *)
Definition w31 : bytes := x5c :: str "u00g0".
Lemma C31_refuted_lemma : exists w o', ~ four_hex w /\ meaning (x5c :: x75 :: w) (x5c :: x75 :: w) /\
  Unescaped (x5c :: x75 :: w) = Ok o' /\ o' <> x5c :: x75 :: w.
Proof.
  exists (str "00g0"), (utf8 256). assert (N : ~ four_hex (str "00g0")).
  { intros (a & b & c & d & w' & E & _ & _ & H & _). injection E as <- <- <- <- <-. apply hexb_ok in H. discriminate H. }
  split; auto. split; [|split].
  - apply m_bad_u; auto. repeat (apply m_plain; [discriminate|]). constructor.
  - vm_compute. reflexivity.
  - vm_compute. discriminate.
Qed.
