(* Computing the tree of a node, for concrete examples. *)
From Verif Require Import Bytes Tables Types JsonSpec Parser Doc DocSpec DocProofs Api HistSpec OpThms.

Fixpoint mapM {A B} (f : A -> option B) (l : list A) : option (list B) :=
  match l with
  | [] => Some []
  | x :: r => match f x, mapM f r with Some y, Some ys => Some (y :: ys) | _, _ => None end
  end.

Fixpoint treeC (ns : list node) (fuel : nat) (id : N) : option jval :=
  match fuel with O => None | S f =>
  match getNode ns id with
  | None => None
  | Some n =>
      let t := info_Type (ninfo n) in
      match nvalues n with
      | [] =>
          if (t =? TypeString)%N then Some (JStr (nraw n))
          else if (t =? TypeNumber)%N then Some (JNum (nraw n))
          else if (t =? TypeBoolean)%N then
            if bseqb (nraw n) (str "true") then Some JTrue
            else if bseqb (nraw n) (str "false") then Some JFalse else None
          else if (t =? TypeNull)%N then if bseqb (nraw n) (str "null") then Some JNull else None
          else if (t =? TypeArray)%N then if bseqb (nraw n) [] then Some (JArr []) else None
          else if (t =? TypeObject)%N then if bseqb (nraw n) [] then Some (JObj []) else None
          else None
      | vs =>
          if (t =? TypeArray)%N then
            if bseqb (nraw n) [] && forallb (fun v => bseqb (vkey v) []) vs
            then option_map JArr (mapM (fun v => treeC ns f (vid v)) vs) else None
          else if (t =? TypeObject)%N then
            if bseqb (nraw n) []
            then option_map JObj (mapM (fun v => option_map (pair (vkey v)) (treeC ns f (vid v))) vs) else None
          else None
      end
  end
  end.

Lemma mapM_F2 {A B} (f : A -> option B) (R : A -> B -> Prop) l ys : (forall x y, In x l -> f x = Some y -> R x y) ->
  mapM f l = Some ys -> Forall2 R l ys.
Proof.
  revert ys. induction l as [|x l IH]; intros ys H; cbn.
  - injection 1 as <-. constructor.
  - destruct (f x) as [y|] eqn:E; [|discriminate]. destruct (mapM f l) as [zs|]; [|discriminate]. injection 1 as <-.
    constructor; [apply H; simpl; auto|]. apply IH; auto. intros; apply H; simpl; auto.
Qed.

Lemma treeC_sound ns : forall f id t, treeC ns f id = Some t -> denotes ns id t.
Proof.
  induction f as [|f IH]; intros id t; cbn [treeC]; [discriminate|].
  destruct (getNode ns id) as [n|] eqn:G; [|discriminate]. destruct (nvalues n) as [|v0 vs0] eqn:Ev.
  - destruct (N.eqb_spec (info_Type (ninfo n)) TypeString) as [T|_]; [injection 1 as <-; eapply d_str; eauto|].
    destruct (N.eqb_spec (info_Type (ninfo n)) TypeNumber) as [T|_]; [injection 1 as <-; eapply d_num; eauto|].
    destruct (N.eqb_spec (info_Type (ninfo n)) TypeBoolean) as [T|_].
    { destruct (bseqb (nraw n) (str "true")) eqn:E1; [injection 1 as <-; apply bseqb_true in E1; eapply d_true; eauto|].
      destruct (bseqb (nraw n) (str "false")) eqn:E2; [injection 1 as <-; apply bseqb_true in E2; eapply d_false; eauto|discriminate]. }
    destruct (N.eqb_spec (info_Type (ninfo n)) TypeNull) as [T|_].
    { destruct (bseqb (nraw n) (str "null")) eqn:E1; [injection 1 as <-; apply bseqb_true in E1; eapply d_null; eauto|discriminate]. }
    destruct (N.eqb_spec (info_Type (ninfo n)) TypeArray) as [T|_].
    { destruct (bseqb (nraw n) []) eqn:E1; [injection 1 as <-; apply bseqb_true in E1|discriminate]. eapply d_arr; eauto. rewrite Ev; constructor. }
    destruct (N.eqb_spec (info_Type (ninfo n)) TypeObject) as [T|_]; [|discriminate].
    { destruct (bseqb (nraw n) []) eqn:E1; [injection 1 as <-; apply bseqb_true in E1|discriminate]. eapply d_obj; eauto. rewrite Ev; constructor. }
  - rewrite <- Ev. destruct (N.eqb_spec (info_Type (ninfo n)) TypeArray) as [T|_].
    + destruct (bseqb (nraw n) []) eqn:E1; [|discriminate]. apply bseqb_true in E1. cbn [andb].
      destruct (forallb _ (nvalues n)) eqn:Fk; [|discriminate]. destruct (mapM _ (nvalues n)) as [ts|] eqn:M; [|cbn; discriminate].
      injection 1 as <-. eapply d_arr; eauto. apply list_F2. eapply mapM_F2; [|exact M]. intros v t' Hv Ht. split; [|eauto].
      rewrite forallb_forall in Fk. apply bseqb_true. auto.
    + destruct (N.eqb_spec (info_Type (ninfo n)) TypeObject) as [T|_]; [|discriminate].
      destruct (bseqb (nraw n) []) eqn:E1; [|discriminate]. apply bseqb_true in E1.
      destruct (mapM _ (nvalues n)) as [ms|] eqn:M; [|cbn; discriminate].
      injection 1 as <-. eapply d_obj; eauto. apply memb_F2. eapply mapM_F2; [|exact M]. intros v m Hv. cbn beta.
      destruct (treeC ns f (vid v)) as [t'|] eqn:Et; [|cbn; discriminate]. cbn [option_map]. injection 1 as <-. split; cbn; auto.
Qed.

Definition treeN (w : world) (n : Node) : option jval :=
  match getDoc w (ndoc n) with
  | Some d => if (drev d =? nrev n)%N then treeC (dnodes d) (S (length (dnodes d))) (nid n) else None
  | None => None
  end.

Lemma treeN_sound w n t : treeN w n = Some t -> tree_of w n t.
Proof.
  unfold treeN. destruct (ndoc n) as [r|] eqn:En; [|discriminate]. cbn [getDoc]. destruct (nth_error w r) as [d|] eqn:Ed; [|discriminate].
  destruct (N.eqb_spec (drev d) (nrev n)) as [Er|]; [|discriminate]. intro H. exists r, d. split; [exact En|]. split; [exact Ed|]. split; [exact Er|]. eapply treeC_sound; exact H.
Qed.

Definition fitsb (w : world) : bool := forallb (fun d => (lenN (dnodes d) <=? maxUint)%N) w.
Lemma fitsb_sound w : fitsb w = true -> fits w.
Proof. intros H r d E. unfold fitsb in H. rewrite forallb_forall in H. apply N.leb_le. apply H. eapply nth_error_In; eauto. Qed.

(* Run from nothing; the empty world when the run fails. *)
Definition made (cs : list call) : world := match run [] cs with Ok w => w | _ => [] end.
