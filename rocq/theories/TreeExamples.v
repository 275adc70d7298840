(* A concrete tree (C69). *)
From Coq Require Import Permutation.
From Verif Require Import FloatSpec FmtSpec Bytes Types JsonSpec Parser Doc DocSpec Strjson Float Num NumSpec FmtThms Options Iface IfaceSpec Codec CodecSpec DecodeSpec RoundSpec CodecMerge CodecBase CodecBuild CodecOmit CodecEnc CodecJson CodecExamples Coder CoderSpec CoderExamples TreeSpec TreeThms.
Local Open Scope nat_scope.

Definition ex69 : jval := JObj [(str "Name", JStr [x61; x5c; x22]);
  (str "Next", JObj [(str "Name", JStr (str "b")); (str "Next", JNull); (str "Tags", JArr []); (str "M", JNull)]);
  (str "Tags", JArr [JStr (str "x"); JStr []]);
  (str "M", JObj [(str "k", JArr [JNull; JNum (str "2." ++ repeat x30 22); JObj [(str "B", JTrue)]])])].
Lemma fields_of E O t cs : structFields E O t = Ok cs -> struct_fields E O t cs. Proof. apply C46_exact_lem. Qed.
Lemma not_omitted E O addr c x : N.land (chints c) hintOmitempty <> hintOmitempty -> ~ dropped E O addr c x.
Proof. intros H D. inversion D; subst; contradiction. Qed.
Lemma at_field l i n x path y : n = Z.of_nat i -> nth_error l i = Some x -> reaches x path y -> reaches (VStruct l) (n :: path) y.
Proof. intros -> H R. eapply rc_field; eassumption. Qed.
Lemma nil_unreachable l n path : n = Z.of_nat 0 -> nth_error l 0 = Some (VPtr None) -> forall x, ~ reaches (VStruct l) (n :: -1 :: path)%Z x.
Proof.
  intros -> H x R. inversion R as [|? i ? ? ? E1 R'|]; subst. assert (i = 0) by lia. subst i. rewrite H in E1. injection E1 as <-. inversion R'.
Qed.
Ltac reached := repeat (first [apply rc_here|eapply at_field; [instantiate (1 := 0); reflexivity|reflexivity|]|eapply at_field; [instantiate (1 := 1); reflexivity|reflexivity|]|eapply at_field; [instantiate (1 := 2); reflexivity|reflexivity|]|eapply at_field; [instantiate (1 := 3); reflexivity|reflexivity|]]).
Ltac a_tree := first
  [ eapply tt_ptr; [reflexivity|] | eapply tt_value; [intros ? K; cbv in K; discriminate K|]
  | eapply tr_kind; [reflexivity|repeat split; reflexivity|]
  | exact (kt_true _ _ _ _ _) | exact (kt_false _ _ _ _ _) | exact (kt_iface_nil _ _ _ _ _) | eapply kt_nil | eapply kt_slice_nil | eapply kt_map_nil
  | eapply kt_string; [vm_compute; discriminate|vm_compute; discriminate|vm_compute; reflexivity]
  | eapply kt_iface | eapply kt_ptr | eapply kt_slice | eapply kt_map; [apply Permutation_refl|]
  | eapply kt_struct; [apply fields_of; vm_compute; reflexivity|]
  | apply et_nil | eapply et_cons | apply en_nil
  | eapply en_cons; [eexists; split; [reflexivity|]; right; split; [reflexivity|eexists; split; [reflexivity|vm_compute; reflexivity]]| |]
  | apply ft_end | eapply ft_unreachable; [apply nil_unreachable; reflexivity|]
  | eapply ft_member; [reached|apply not_omitted; vm_compute; discriminate| |] ].
Lemma two_writes : writes exE two (str "2." ++ repeat x30 22).
Proof. split; [exact (proj1 two_json)|]. split; [exact (proj2 two_json Logic.I)|vm_compute; reflexivity]. Qed.
Lemma ex69_lem : no_marshalers exE /\ small_maps ex41 /\ top_tree exE 12 ex41 ex69.
Proof.
  split; [|split].
  - intros t T H. assert (K : kindOf exE t = Some (tkind T)) by (unfold kindOf; rewrite H; reflexivity). apply ex_kind in K. revert H.
    repeat (destruct K as [<-|K]; [intro H; injection H as <-; repeat split; reflexivity|]). destruct K.
  - assert (H : forall x, inside ex41 x -> match x with VMap (Some m) => length m <= 1 | _ => True end); [|intros m I; exact (H _ I)]. unfold ex41. parts. cbn. lia.
  - unfold ex41, ex69. repeat a_tree. apply kt_float; [right; reflexivity|exact two_writes].
Qed.
(* struct{ Inner; A string } with Inner struct{ A int } *)
Lemma ex46_exact : structFields exE defaultOptions 8 = Ok [cA1; cA2] /\ structFields exE defaultOptions 17 = Ok [mkC (str "A") [0]%Z tString 0] /\
  kept [] [cA1; cA2] [cA1; cA2] /\ kept [] [mkC (str "A") [0]%Z tString 0; mkC (str "A") [1; 0]%Z 6 0] [mkC (str "A") [0]%Z tString 0].
Proof.
  split; [vm_compute; reflexivity|]. split; [vm_compute; reflexivity|]. split.
  - apply kp_take; [intros d r H; discriminate H|]. apply kp_take; [|apply kp_end]. intros d r H. injection H as <- <-. cbn. lia.
  - apply kp_take; [intros d r H; discriminate H|]. eapply kp_leave; [vm_compute; reflexivity|cbn; lia|apply kp_end].
Qed.
Lemma ex56_tree : go_env codE /\ completed yamlO yamlF /\ tags_json codE yamlF /\ methods_write_json codE /\ oNaN yamlO = false /\ oInf yamlO = false /\
  NewTypeEncoder codE (Some 8) yamlO = Ok (Some enc8) /\ own_methods codE 8 /\ accepts codE 8 7 /\ typed codE 7 v56 /\ v56 <> VPtr None /\ tops_ok codE v56 /\ floats_json v56 /\
  Encode codE enc8 (str "x=") (Some (7, v56)) = Ok (str "x={""alpha"":5,""next"":{""b"":""x""}}", None).
Proof. pose proof ex56_lem as H. tauto. Qed.
