(* Worlds and numbers for the examples beside the properties in PropsNum.v. *)
From Verif Require Import Bytes Types JsonSpec Parser Doc DocSpec DocDec Strjson DocStr Float FloatSpec FloatProofs FloatOps Num NumSpec NumProofs NumThms NumClose NumInt NumFrac
  FmtSpec FmtThms SetThms Iface IfaceSpec IfaceThms.

Ltac byte_digits := apply Forall_forall; let c := fresh "c" in let I := fresh "I" in intros c I; repeat (destruct I as [<-|I]; [vm_compute; split; discriminate|]); destruct I.
Ltac parts_ok := unfold shape, integer_text, one_sign, some_signs; cbn [pint pfrac pexp]; repeat split; auto; try discriminate; try byte_digits; try (repeat constructor; auto; fail).

(* -12.50e-3 *)
Definition ex_parts : parts := mkParts true (str "12") (Some (str "50")) (Some (x65, [x2d], str "3")).
Lemma ex_parts_lem : text ex_parts = str "-12.50e-3" /\ shape one_sign ex_parts /\ (numval ex_parts == - (1#80))%Q.
Proof. split; [reflexivity|]. split; [parts_ok|reflexivity]. Qed.
Lemma ex_parts_small : shape some_signs ex_parts /\ small_text (text ex_parts) /\ short_exp ex_parts /\ small_digits ex_parts /\ (Z.abs (exp_val (pexp ex_parts)) <= 285)%Z /\ few_digits ex_parts.
Proof.
  split; [apply shape_one_some; apply ex_parts_lem|]. split; [vm_compute; reflexivity|]. split; [cbn; lia|]. split; [repeat split; vm_compute; congruence|].
  split; [vm_compute; discriminate|]. split; reflexivity.
Qed.
(* 123456789012345678901234 *)
Definition ex_int : parts := mkParts false (str "123456789012345678901234") None None.
Lemma ex_int_lem : integer_text ex_int /\ intval ex_int = 123456789012345678901234%Z /\
  ParseFloat (text ex_int) = FFin false 7358598054191213 24.
Proof. split; [parts_ok|]. split; vm_compute; reflexivity. Qed.
Definition ex_int2 : parts := mkParts true (str "9007199254740992") None None.
Lemma ex_int2_lem : integer_text ex_int2 /\ intval ex_int2 = (- 2 ^ 53)%Z /\ ParseInt (text ex_int2) = ((- 2 ^ 53)%Z, true).
Proof. split; [parts_ok|]. split; vm_compute; reflexivity. Qed.
Lemma ex_float_int : float_int (3 * 2 ^ 60) /\ ~ float_int (2 ^ 53 + 1).
Proof.
  split.
  - exists (FFin false (3 * 2 ^ 50) 10). split; [cbn; lia|reflexivity].
  - intros (y & R & V). assert (T : integer_text (int_parts (2 ^ 53 + 1)) /\ intval (int_parts (2 ^ 53 + 1)) = (2 ^ 53 + 1)%Z) by (destruct (FormatInt_text (2 ^ 53 + 1)); auto).
    destruct T as [T Ev]. assert (F : float_int (intval (int_parts (2 ^ 53 + 1)))) by (rewrite Ev; exists y; auto).
    assert (B : (- 2 ^ 63 <= intval (int_parts (2 ^ 53 + 1)) < 2 ^ 63)%Z) by (rewrite Ev; lia).
    pose proof (proj2 (C36_int_iff _ T) (conj F B)) as P. rewrite Ev in P. vm_compute in P. discriminate.
Qed.
(* long fraction, large exponent *)
Definition ex_long : parts := mkParts false (str "0") (Some (str "1000000000000000055511151231257827")) None.
Definition ex_big : parts := mkParts false (str "5") None (Some (x65, [x2d], str "324")).
Lemma ex_strconv : by_strconv ex_long /\ shape one_sign ex_long /\ by_strconv ex_big /\ shape one_sign ex_big /\ ParseFloat (text ex_long) = ParseFloat (str "0.1").
Proof.
  split; [vm_compute; lia|]. split; [parts_ok|]. split; [split; vm_compute; reflexivity|]. split; [parts_ok|vm_compute; reflexivity].
Qed.

(* {"a":[1,"x\ny"],"a":2.5} *)
Definition ex_json : bytes := str "{" ++ [x22; x61; x22] ++ str ":[1," ++ [x22; x78; x5c; x6e; x79; x22] ++ str "]," ++ [x22; x61; x22] ++ str ":2.5}".
Definition ex_world : world := match Document_Parse [mkDoc [] 0] 0 ex_json with Ok (w, _) => w | _ => [] end.
Definition ex_tree24 : jval := JObj [([x61], JArr [JNum (str "1"); JStr [x78; x5c; x6e; x79]]); ([x61], JNum (str "2.5"))].
(* 18446744073709551621.5e3 and 5.5e3 *)
Definition p35a : parts := mkParts false (str "18446744073709551621") (Some (str "5")) (Some (x65, [], str "3")).
Definition p35b : parts := mkParts false (str "5") (Some (str "5")) (Some (x65, [], str "3")).
Lemma ex35_wraps_lem : shape some_signs p35a /\ shape some_signs p35b /\ short_exp p35a /\ ~ by_strconv p35a /\ (dval (pint p35a) = dval (pint p35b) + 1 * 2 ^ 64)%Z /\
  text p35a = str "18446744073709551621.5e3" /\ text p35b = str "5.5e3" /\ ParseFloat (text p35a) = FFin false (5500 * 2 ^ 40) (-40).
Proof.
  split; [parts_ok|]. split; [parts_ok|]. split; [vm_compute; lia|]. split; [unfold by_strconv; cbn [pexp p35a]; vm_compute; intros [H _]; discriminate H|]. repeat split; vm_compute; reflexivity.
Qed.
(* a node of no type at all between others *)
Definition ex_world0 : world := [mkDoc [mkNode vArray [] [mkV 1 []]; mkNode 0 (str "12") []] 3].
Lemma ex24_invalid_lem : Node_get ex_world0 (mkN 1 3 (Some O)) <> None /\ Node_Type ex_world0 (mkN 1 3 (Some O)) = TypeInvalid /\ Node_ToInterface ex_world0 (mkN 1 3 (Some O)) = Ok None /\ Node_ToInterface ex_world0 (mkN 0 3 (Some O)) = Ok None.
Proof. repeat split; vm_compute; congruence. Qed.
Lemma ex24_lem : tree_of ex_world (mkN 0 0 (Some O)) ex_tree24 /\ numbers_parse ex_tree24 /\
  Node_ToInterface ex_world (mkN 0 0 (Some O)) = Ok (Some (GMap [([x61], GFloat (FFin false (5 * 2 ^ 50) (-51)))])) /\
  Node_ToInterface ex_world (mkN 1 0 (Some O)) = Ok (Some (GSlice [GFloat (FFin false (2 ^ 52) (-52)); GString [x78; x0a; x79]])).
Proof.
  split; [apply treeN_sound; vm_compute; reflexivity|]. split; [|split; vm_compute; reflexivity].
  repeat constructor; vm_compute; discriminate.
Qed.
(* {"a":null} *)
Definition key_json : bytes := str "{" ++ [x22; x5c] ++ str "u0061" ++ [x22] ++ str ":null}".
Definition key_world : world := match Document_Parse [mkDoc [] 0] 0 key_json with Ok (w, _) => w | _ => [] end.
Lemma C24_keys_lem : exists w n k k', tree_of w n (JObj [(k, JNull)]) /\ Unescaped k = Ok k' /\ k' <> k /\ Node_ToInterface w n = Ok (Some (GMap [(k, GNil)])).
Proof.
  exists key_world, (mkN 0 0 (Some O)), ([x5c] ++ str "u0061"), [x61]. split; [apply treeN_sound; vm_compute; reflexivity|].
  split; [vm_compute; reflexivity|]. split; [discriminate|vm_compute; reflexivity].
Qed.
Lemma ex25_lem : exists x, Node_get ex_world (mkN 1 0 (Some O)) = Some x /\ nvalues x <> [] /\
  Node_ToInt (Node_SetInt ex_world (mkN 1 0 (Some O)) (-42)) (mkN 1 0 (Some O)) = ((-42)%Z, true) /\
  Node_Raw (Node_SetInt ex_world (mkN 1 0 (Some O)) (-42)) (mkN 1 0 (Some O)) = str "-42".
Proof. eexists. split; [vm_compute; reflexivity|]. split; [discriminate|]. split; vm_compute; reflexivity. Qed.
Lemma ex38_special : ftoa_special exact_ftoa /\ FormatFloat exact_ftoa FNaN 64 = Ok (str "NaN") /\ narrow 64 FNaN FNaN /\
  canonical b64 (FFin false (2 ^ 52) 76) /\ narrow 32 (FFin false (2 ^ 52) 76) (FInf false) /\
  FormatFloat exact_ftoa (FFin false (2 ^ 52) 76) 32 = Ok (str "+Inf").
Proof.
  split; [apply exact_special|]. split; [vm_compute; reflexivity|]. split; [left; auto|].
  split; [vm_compute; repeat split; try discriminate; left; discriminate|]. split; [|vm_compute; reflexivity].
  right. split; [reflexivity|]. split; [reflexivity|]. right. split; [vm_compute; discriminate|reflexivity].
Qed.
Lemma ex38_lem : ftoa_spec exact_ftoa /\ canonical b64 (FFin false (25 * 2 ^ 48) (-49)) /\ narrow 64 (FFin false (25 * 2 ^ 48) (-49)) (FFin false (25 * 2 ^ 48) (-49)) /\
  AppendFloat exact_ftoa (str "x=") (FFin false (25 * 2 ^ 48) (-49)) 64 = Ok (str "x=12.5" ++ repeat x30 48) /\
  cleanup (str "1.5e-07") = str "1.5e-7".
Proof.
  split; [apply exact_spec|]. split; [vm_compute; repeat split; try discriminate; left; discriminate|]. split; [left; auto|].
  split; vm_compute; reflexivity.
Qed.
