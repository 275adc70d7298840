(* Byte strings.  A Go string or []byte is modelled as a list of bytes. *)
From Coq Require Export Bool Arith NArith ZArith Lia.
Require Coq.Strings.String.
Export Coq.Strings.String.StringSyntax.
Delimit Scope string_scope with string.
From Coq.Init Require Export Byte.
From Coq Require Export List.
From Coq.Strings Require Byte.
Export ListNotations.
Set Implicit Arguments.

Notation bytes := (list byte).

(* The bytes of a Go string literal made of ASCII characters. *)
Definition str (s : String.string) : bytes := String.list_byte_of_string s.
Arguments str s%string.

(* Go's == on byte. *)
Definition beqb (a b : byte) : bool := Byte.eqb a b.

Lemma beqb_true a b : beqb a b = true <-> a = b.
Proof.
  unfold beqb; split; intro H.
  - apply Byte.byte_dec_bl; exact H.
  - apply Byte.byte_dec_lb; exact H.
Qed.

Lemma beqb_refl a : beqb a a = true.
Proof. apply beqb_true; reflexivity. Qed.

Lemma beqb_false a b : beqb a b = false <-> a <> b.
Proof.
  rewrite <- beqb_true. destruct (beqb a b); split; intros; congruence.
Qed.

Lemma beqb_spec a b : reflect (a = b) (beqb a b).
Proof.
  destruct (beqb a b) eqn:E; constructor; [apply beqb_true | apply beqb_false]; exact E.
Qed.

Definition byte_eq_dec (a b : byte) : {a = b} + {a <> b} := Byte.byte_eq_dec a b.

(* Go's == on strings. *)
Fixpoint bseqb (a b : bytes) : bool :=
  match a, b with
  | [], [] => true
  | x :: a', y :: b' => beqb x y && bseqb a' b'
  | _, _ => false
  end.

Lemma bseqb_true a b : bseqb a b = true <-> a = b.
Proof.
  revert b; induction a as [|x a IH]; intros [|y b]; simpl; split; intro H; try congruence; auto.
  - apply andb_true_iff in H as [H1 H2]. apply beqb_true in H1. apply IH in H2. congruence.
  - injection H as -> ->. rewrite beqb_refl. apply IH. reflexivity.
Qed.

Lemma bseqb_refl a : bseqb a a = true.
Proof. apply bseqb_true; reflexivity. Qed.

Lemma bseqb_false a b : bseqb a b = false <-> a <> b.
Proof. rewrite <- bseqb_true. destruct (bseqb a b); split; intros; congruence. Qed.

Definition bytes_eq_dec (a b : bytes) : {a = b} + {a <> b} := list_eq_dec byte_eq_dec a b.

(* Numeric value of a byte. *)
Definition bN (c : byte) : N := Byte.to_N c.

Lemma bN_lt c : (bN c < 256)%N.
Proof. unfold bN. pose proof (Byte.to_N_bounded c). lia. Qed.

Lemma bN_inj a b : bN a = bN b -> a = b.
Proof.
  unfold bN; intro H.
  assert (Some a = Some b) as E; [|congruence].
  rewrite <- (Byte.of_to_N a), <- (Byte.of_to_N b), H. reflexivity.
Qed.

(* byte(n): conversion of an integer to byte, keeping the low eight bits. *)
Definition Nb (n : N) : byte :=
  match Byte.of_N (n mod 256) with Some b => b | None => x00 end.

Lemma bN_Nb n : bN (Nb n) = (n mod 256)%N.
Proof.
  unfold Nb, bN.
  destruct (Byte.of_N (n mod 256)) as [b|] eqn:E.
  - apply Byte.to_of_N in E. exact E.
  - apply Byte.of_N_None_iff in E. pose proof (N.mod_lt n 256). lia.
Qed.

Lemma Nb_bN b : Nb (bN b) = b.
Proof.
  apply bN_inj. rewrite bN_Nb. apply N.mod_small. apply bN_lt.
Qed.

(* Index a 256-entry lookup table with a byte. *)
Definition tbl (t : list byte) (c : byte) : byte := nth (N.to_nat (bN c)) t x00.

(* All 256 bytes, for exhaustive computation. *)
Definition all_bytes : list byte := map (fun n => Nb (N.of_nat n)) (seq 0 256).

Lemma all_bytes_complete c : In c all_bytes.
Proof.
  unfold all_bytes. apply in_map_iff. exists (N.to_nat (bN c)). split.
  - rewrite N2Nat.id. apply Nb_bN.
  - apply in_seq. pose proof (bN_lt c). lia.
Qed.

Lemma forall_bytes (P : byte -> bool) : forallb P all_bytes = true -> forall c, P c = true.
Proof. intros H c. rewrite forallb_forall in H. apply H, all_bytes_complete. Qed.

(* 64-bit unsigned wrap-around *)
Definition two64 : N := 18446744073709551616.
Definition maxUint : N := 18446744073709551615.   (* document.go:42  const maxUint = ^(uint(0)) *)
