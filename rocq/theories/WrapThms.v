(* Lemmas for C51 and C53. *)
From Verif Require Import Bytes Types JsonSpec Parser Doc DocSpec ParserThms DocDec Strjson StrSpec StrThms Wrap.

Lemma tree_get w n t : tree_of w n t -> exists r d x, ndoc n = Some r /\ nth_error w r = Some d /\ Node_get w n = Some x /\ getNode (dnodes d) (nid n) = Some x /\ denotes (dnodes d) (nid n) t.
Proof.
  intros (r & d & E & Ed & Er & D). assert (exists x, getNode (dnodes d) (nid n) = Some x) as (x & G) by (inversion D; eauto).
  exists r, d, x. do 2 (split; auto). split; auto. unfold Node_get, getDoc. rewrite E, Ed, Er, N.eqb_refl. exact G.
Qed.
Lemma wrap_json w n t : tree_of w n t -> Node_WrapUnmarshalJSON w n = Ok (Called (print t)).
Proof.
  intro T. pose proof (tree_AppendJSON w n t [] T) as A. destruct (tree_get w n t T) as (r & d & x & _ & _ & G & G' & D).
  unfold Node_WrapUnmarshalJSON. rewrite G. cbv zeta. rewrite A. cbn [app].
  inversion D as [i x' E|i x' E|i x' E|i x' E|i x' E|i x' vs E|i x' ms E]; subst; rewrite G' in E; injection E as <-;
    match goal with H : info_Type _ = _ |- _ => rewrite H end; cbn [N.eqb Pos.eqb TypeArray TypeObject TypeString TypeNumber TypeBoolean TypeNull TypeInvalid]; try reflexivity.
  - change (TypeString =? TypeArray)%N with false. change (TypeString =? TypeObject)%N with false. change (TypeString =? TypeString)%N with true. cbv iota. destruct (nraw x); reflexivity.
  - change (TypeArray =? TypeArray)%N with true. cbv iota. destruct (nvalues x) eqn:Ev; [|reflexivity]. inversion H1; subst. reflexivity.
  - change (TypeObject =? TypeArray)%N with false. change (TypeObject =? TypeObject)%N with true. cbv iota. destruct (nvalues x) eqn:Ev; [|reflexivity]. inversion H1; subst. reflexivity.
Qed.
Lemma print_json w n t : tree_of w n t -> Node_PrintJSON w n = Ok (Called (print t)).
Proof. intro T. unfold Node_PrintJSON. rewrite (tree_AppendJSON w n t [] T). reflexivity. Qed.
Lemma wrap_text w n s : tree_of w n (JStr s) -> Node_WrapUnmarshalText w n = Called s.
Proof.
  intro T. destruct (tree_get w n _ T) as (r & d & x & _ & _ & G & G' & D). unfold Node_WrapUnmarshalText. rewrite G. cbv zeta.
  inversion D; subst. rewrite G' in H0. injection H0 as <-. rewrite H1. reflexivity.
Qed.
Lemma wrap_text_other w n t : tree_of w n t -> (forall s, t <> JStr s) -> exists ty, Node_WrapUnmarshalText w n = Rejected (TypeErr ty TypeString) /\ ty = Node_Type w n /\ ty <> TypeString.
Proof.
  intros T N. destruct (tree_get w n _ T) as (r & d & x & _ & _ & G & G' & D). unfold Node_WrapUnmarshalText, Node_Type. rewrite G. cbv zeta.
  inversion D; subst; rewrite G' in H; injection H as <-; rewrite H0; try (eexists; split; [reflexivity|split; [reflexivity|discriminate]]). exfalso. eapply N. reflexivity.
Qed.
Lemma wrap_dead w n : Node_get w n = None ->
  Node_WrapUnmarshalJSON w n = Ok (Rejected (TypeErr TypeInvalid TypeAnyValue)) /\ Node_WrapUnmarshalText w n = Rejected (TypeErr TypeInvalid TypeString) /\
  Node_PrintJSON w n = Ok (Rejected (TypeErr TypeInvalid TypeAnyValue)).
Proof. intro G. unfold Node_WrapUnmarshalJSON, Node_WrapUnmarshalText, Node_PrintJSON, Node_AppendJSON. rewrite G. auto. Qed.
Lemma meaning_plain s : Forall (fun c => c <> x5c) s -> meaning s s.
Proof. induction 1; constructor; auto. Qed.
Lemma meaning_same s : meaning s s -> forall o, meaning s o -> o = s.
Proof. intros M o Mo. destruct (meaning_once s) as (o' & _ & U). rewrite (U _ M). auto. Qed.
Definition wtext : world := match Document_Parse [mkDoc [] 0] 0 ([x22; x61; x5c; x6e; x22]) with Ok (w, _) => w | _ => [] end.
Definition wn : Node := mkN 0 0 (Some O).
Lemma wtext_tree : tree_of wtext wn (JStr [x61; x5c; x6e]).
Proof. apply treeN_sound. vm_compute. reflexivity. Qed.
Lemma C51_refuted_lem : exists w n s o data, tree_of w n (JStr s) /\ meaning s o /\ Node_WrapUnmarshalText w n = Called data /\ data <> o.
Proof.
  exists wtext, wn, [x61; x5c; x6e], [x61; x0a], [x61; x5c; x6e]. split; [apply wtext_tree|]. split; [|split; [apply wrap_text, wtext_tree|discriminate]].
  apply m_plain; [discriminate|]. apply m_escape; [constructor|constructor].
Qed.
Lemma wrap_text_plain w n s : tree_of w n (JStr s) -> Forall (fun c => c <> x5c) s -> exists data, Node_WrapUnmarshalText w n = Called data /\ meaning s data.
Proof. intros T F. exists s. split; [apply wrap_text; auto|apply meaning_plain; auto]. Qed.
Lemma print_append w n out e : Node_AppendJSON w n [] = Ok (out, e) -> Node_PrintJSON w n = Ok (match e with None => Called out | Some e => Rejected e end).
Proof. intro A. unfold Node_PrintJSON. rewrite A. destruct e; reflexivity. Qed.
