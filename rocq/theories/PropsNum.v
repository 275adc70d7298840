(* Properties C24, C25 and C33-C38: numbers, scalar setters, generic values.  Only statements, each closed
   by [exact]. *)
From Verif Require Import Bytes Types JsonSpec Parser Doc DocSpec Strjson StrSpec DocStr Float FloatSpec Num NumSpec NumThms NumClose NumWide NumInt NumFrac NumExact
  FmtSpec FmtThms SetThms Iface IfaceSpec IfaceThms NumExamples FloatBack.

(* ---- C24 ---- *)

Theorem C24_value : forall w n t, tree_of w n t -> numbers_parse t -> exists v, Node_ToInterface w n = Ok (Some v) /\ go_of t v.
Proof. exact (fun w n t H => proj1 (C24_lem w n t H)). Qed.
Print Assumptions C24_value.
Theorem C24_fails : forall w n t, tree_of w n t -> ~ numbers_parse t -> Node_ToInterface w n = Ok None.
Proof. exact (fun w n t H => proj2 (C24_lem w n t H)). Qed.
Print Assumptions C24_fails.
Theorem C24_dead : forall w n, Node_get w n = None -> Node_ToInterface w n = Ok None.
Proof. exact C24_dead_lem. Qed.
Print Assumptions C24_dead.
(* So are nodes of no JSON type, whatever their text. *)
Theorem C24_invalid : forall w n, (forall t, In t [TypeObject; TypeArray; TypeString; TypeBoolean; TypeNull; TypeNumber] -> Node_Type w n <> t) -> Node_ToInterface w n = Ok None.
Proof. exact C24_invalid_lem. Qed.
Print Assumptions C24_invalid.
Example C24_invalid_example : Node_get ex_world0 (mkN 1 3 (Some O)) <> None /\ Node_Type ex_world0 (mkN 1 3 (Some O)) = TypeInvalid /\ Node_ToInterface ex_world0 (mkN 1 3 (Some O)) = Ok None /\ Node_ToInterface ex_world0 (mkN 0 3 (Some O)) = Ok None.
Proof. exact ex24_invalid_lem. Qed.
(* The keys of a map are not unescaped, unlike the strings. *)
Theorem C24_keys_refuted : exists w n k k', tree_of w n (JObj [(k, JNull)]) /\ Unescaped k = Ok k' /\ k' <> k /\
  Node_ToInterface w n = Ok (Some (GMap [(k, GNil)])).
Proof. exact C24_keys_lem. Qed.
Print Assumptions C24_keys_refuted.
(* An object with a repeated key and an array. *)
Example C24_example : tree_of ex_world (mkN 0 0 (Some O)) ex_tree24 /\ numbers_parse ex_tree24 /\
  Node_ToInterface ex_world (mkN 0 0 (Some O)) = Ok (Some (GMap [([x61], GFloat (FFin false (5 * 2 ^ 50) (-51)))])) /\
  Node_ToInterface ex_world (mkN 1 0 (Some O)) = Ok (Some (GSlice [GFloat (FFin false (2 ^ 52) (-52)); GString [x78; x0a; x79]])).
Proof. exact ex24_lem. Qed.

(* ---- C25 ---- *)

(* All setters are setScalar with a type and a text. *)
Theorem C25_data : forall w n x info raw, Node_get w n = Some x -> In info [vString; vNumber; vBoolean; vNull] ->
  Node_Data (setScalar w n info raw) n = (raw, info) /\ Node_Type (setScalar w n info raw) n = info /\
  exists y, Node_get (setScalar w n info raw) n = Some y /\ nvalues y = [] /\ info_IsRoot (ninfo y) = info_IsRoot (ninfo x).
Proof. exact C25_data_lem. Qed.
Print Assumptions C25_data.
(* Every other node is as it was, so that the node is found where it was. *)
Theorem C25_place : forall w n info raw m, (ndoc m, nid m) <> (ndoc n, nid n) ->
  let w' := setScalar w n info raw in
  Node_get w' m = Node_get w m /\ (forall k, Node_Get w' m k = Node_Get w m k) /\ (forall i, Node_Index w' m i = Node_Index w m i).
Proof. exact C25_place_lem. Qed.
Print Assumptions C25_place.
Theorem C25_raw : forall w n x s, Node_get w n = Some x -> tree_of (Node_SetStringRaw w n s) n (JStr s) /\ Node_Raw (Node_SetStringRaw w n s) n = s.
Proof. exact C25_raw_lem. Qed.
Print Assumptions C25_raw.
Theorem C25_string : forall w n x s, Node_get w n = Some x -> valid_utf8 s ->
  exists w' w'', Node_SetString w n s = Ok w' /\ Node_Unescaped w' n = Ok s /\ Node_SetStringHTML w n s = Ok w'' /\ Node_Unescaped w'' n = Ok s.
Proof. exact C25_valid_lem. Qed.
Print Assumptions C25_string.
(* Other strings read back with U+FFFD for each invalid byte. *)
Theorem C25_any_string : forall w n x s rs, Node_get w n = Some x -> runes s rs ->
  exists e e', Node_SetString w n s = Ok (Node_SetStringRaw w n e) /\ Node_Unescaped (Node_SetStringRaw w n e) n = Ok (utf8s rs) /\
    Node_SetStringHTML w n s = Ok (Node_SetStringRaw w n e') /\ Node_Unescaped (Node_SetStringRaw w n e') n = Ok (utf8s rs).
Proof. exact C25_string_lem. Qed.
Print Assumptions C25_any_string.
Theorem C25_bool : forall w n x, Node_get w n = Some x ->
  tree_of (Node_SetTrue w n) n JTrue /\ Node_ToBool (Node_SetTrue w n) n = (true, true) /\
  tree_of (Node_SetFalse w n) n JFalse /\ Node_ToBool (Node_SetFalse w n) n = (false, true) /\ tree_of (Node_SetNull w n) n JNull.
Proof. exact C25_bool_lem. Qed.
Print Assumptions C25_bool.
Theorem C25_number : forall w n x i, Node_get w n = Some x ->
  tree_of (Node_SetInt w n i) n (JNum (FormatInt i)) /\ tree_of (Node_SetUint w n i) n (JNum (FormatUint (Z.to_N i))).
Proof. exact (fun w n x i H => conj (SetInt_tree w n x i H) (SetUint_tree w n x i H)). Qed.
Print Assumptions C25_number.
(* SetInt and SetUint: what is read back is the subject of C37, where the full statement is refuted. *)
Theorem C25_int_partial : forall w n x i, Node_get w n = Some x -> (- 2 ^ 53 <= i <= 2 ^ 53)%Z -> Node_ToInt (Node_SetInt w n i) n = (i, true).
Proof. exact C37_int_lem. Qed.
Print Assumptions C25_int_partial.
(* An array set to an integer. *)
Example C25_example : exists x, Node_get ex_world (mkN 1 0 (Some O)) = Some x /\ nvalues x <> [] /\
  Node_ToInt (Node_SetInt ex_world (mkN 1 0 (Some O)) (-42)) (mkN 1 0 (Some O)) = ((-42)%Z, true) /\
  Node_Raw (Node_SetInt ex_world (mkN 1 0 (Some O)) (-42)) (mkN 1 0 (Some O)) = str "-42".
Proof. exact ex25_lem. Qed.

(* ---- C33 ---- *)

(* Both halves are false: an exponent of twenty digits wraps around, and several signs are accepted. *)
Theorem C33_refuted : exists s, rfc_number s /\ ParseFloat s = FNaN.
Proof. exact C33_refuted_lem. Qed.
Print Assumptions C33_refuted.
Theorem C33_signs_refuted : exists s, ~ decimal_text s /\ ParseFloat s <> FNaN.
Proof. exact C33_signs_refuted_lem. Qed.
Print Assumptions C33_signs_refuted.
(* Missing: exponents of more than 18 digits. *)
Theorem C33_number_partial : forall p, shape some_signs p -> short_exp p -> small_text (text p) -> ParseFloat (text p) <> FNaN.
Proof. exact C33_number. Qed.
Print Assumptions C33_number_partial.
(* Missing: texts with several exponent signs. *)
Theorem C33_nan_partial : forall s, (forall p, shape some_signs p -> s <> text p) -> ParseFloat s = FNaN.
Proof. exact C33_nan. Qed.
Print Assumptions C33_nan_partial.
Theorem C33_rfc : forall s, rfc_number s -> exists p, shape one_sign p /\ s = text p.
Proof. exact rfc_decimal. Qed.
Print Assumptions C33_rfc.
Example C33_example : shape some_signs ex_parts /\ small_text (text ex_parts) /\ short_exp ex_parts /\ small_digits ex_parts /\ (Z.abs (exp_val (pexp ex_parts)) <= 285)%Z /\ few_digits ex_parts.
Proof. exact ex_parts_small. Qed.

(* ---- C34 ---- *)

Theorem C34_nearest : forall p, integer_text p -> rounded b64 (pneg p) (inject_Z (intval p)) (ParseFloat (text p)).
Proof. exact C34_rounded. Qed.
Print Assumptions C34_nearest.
Theorem C34_exact : forall p, integer_text p -> (Z.abs (intval p) <= 2 ^ 53)%Z ->
  finite (ParseFloat (text p)) /\ (fval (ParseFloat (text p)) == inject_Z (intval p))%Q.
Proof. exact C34_exact_lem. Qed.
Print Assumptions C34_exact.
Example C34_example : integer_text ex_int /\ intval ex_int = 123456789012345678901234%Z /\
  ParseFloat (text ex_int) = FFin false 7358598054191213 24.
Proof. exact ex_int_lem. Qed.

(* ---- C35 ---- *)

(* The full statement is false: the digits of the integer and of the fraction are accumulated in 64 bits. *)
Theorem C35_refuted : exists p, rfc_number (text p) /\ finite (ParseFloat (text p)) /\
  ((9#10) * Qabs (numval p) <= Qabs (fval (ParseFloat (text p)) - numval p))%Q.
Proof. exact C35_refuted_lem. Qed.
Print Assumptions C35_refuted.
Theorem C35_int_refuted : exists p, pexp p = None /\ rfc_number (text p) /\ finite (ParseFloat (text p)) /\
  ((8#10) * Qabs (numval p) <= Qabs (fval (ParseFloat (text p)) - numval p))%Q.
Proof. exact C35_int_refuted_lem. Qed.
Print Assumptions C35_int_refuted.
(* What they are instead: with a fraction, the digits before and after the point count modulo 2^64. *)
Theorem C35_wraps : forall p q, shape some_signs p -> shape some_signs q -> short_exp p -> ~ by_strconv p -> pneg p = pneg q -> pexp p = pexp q -> same_places p q ->
  wraps_to (pint p) (pint q) -> wraps_to (frac_digits p) (frac_digits q) -> ParseFloat (text p) = ParseFloat (text q).
Proof. exact C35_wraps_lem. Qed.
Print Assumptions C35_wraps.
Example C35_wraps_example : shape some_signs p35a /\ shape some_signs p35b /\ short_exp p35a /\ ~ by_strconv p35a /\ (dval (pint p35a) = dval (pint p35b) + 1 * 2 ^ 64)%Z /\
  text p35a = str "18446744073709551621.5e3" /\ text p35b = str "5.5e3" /\ ParseFloat (text p35a) = FFin false (5500 * 2 ^ 40) (-40).
Proof. exact ex35_wraps_lem. Qed.
(* Missing: integer or fraction digits that do not fit in 64 bits, exponents beyond 285 in magnitude. *)
Theorem C35_partial : forall p, shape some_signs p -> small_text (text p) -> small_digits p -> (Z.abs (exp_val (pexp p)) <= 285)%Z ->
  representable b64 (ParseFloat (text p)) /\ (Qabs (fval (ParseFloat (text p)) - numval p) <= Qabs (numval p) * p2 (-49))%Q.
Proof. exact C35_close_lem. Qed.
Print Assumptions C35_partial.
(* All exponents: subnormal results are one unit off at most, results beyond the largest float are infinite.
   Missing: digits that do not fit in 64 bits, fractions of more than 307 digits with an exponent, exponents of
   more than 18 digits; between 2^1022 and 2^1026 the result may be finite or infinite. *)
Theorem C35_wide_partial : forall p, shape one_sign p -> small_text (text p) -> short_exp p -> by_strconv p \/ wide_digits p ->
  (Qabs (numval p) <= p2 1022)%Q ->
  representable b64 (ParseFloat (text p)) /\ (Qabs (fval (ParseFloat (text p)) - numval p) <= Qabs (numval p) * p2 (-49) + p2 (-1074))%Q.
Proof. exact C35_wide_lem. Qed.
Print Assumptions C35_wide_partial.
Theorem C35_over_partial : forall p, shape one_sign p -> small_text (text p) -> short_exp p -> by_strconv p \/ wide_digits p ->
  (p2 1026 <= Qabs (numval p))%Q -> ParseFloat (text p) = FInf (pneg p).
Proof. exact C35_over_lem. Qed.
Print Assumptions C35_over_partial.
(* The bound on the length of the fraction is needed: a normal number is read as zero. *)
Theorem C35_deep_refuted : exists p, rfc_number (text p) /\ (dval (pint p) < 2 ^ 64)%Z /\ (dval (frac_digits p) < 2 ^ 64)%Z /\
  (p2 (-1022) <= numval p)%Q /\ (fval (ParseFloat (text p)) == 0)%Q.
Proof. exact C35_deep_lem. Qed.
Print Assumptions C35_deep_refuted.
Example C35_wide_example :
  (text low = str "123.4E-300" /\ shape one_sign low /\ small_text (text low) /\ short_exp low /\ wide_digits low /\ (Qabs (numval low) <= p2 1022)%Q) /\
  (text high = str "98765432.1e+299" /\ shape one_sign high /\ small_text (text high) /\ short_exp high /\ wide_digits high /\ (Qabs (numval high) <= p2 1022)%Q) /\
  (text tiny = str "-4.9e-324" /\ shape one_sign tiny /\ by_strconv tiny /\ ParseFloat (text tiny) = FFin true 1 (-1074)) /\
  (text huge = str "-98765432109e299" /\ shape one_sign huge /\ wide_digits huge /\ (p2 1026 <= Qabs (numval huge))%Q).
Proof. exact wide_examples. Qed.
(* Long fractions without exponent and large exponents are correctly rounded. *)
Theorem C35_rounded_partial : forall p, shape one_sign p -> by_strconv p -> rounded b64 (pneg p) (numval p) (ParseFloat (text p)).
Proof. exact C35_rounded_lem. Qed.
Print Assumptions C35_rounded_partial.
(* Integers up to 2^53 written with a point or an exponent are exact.  Missing: negative exponents (C36_whole_refuted). *)
Theorem C35_exact_partial : forall p, shape one_sign p -> small_text (text p) -> short_exp p -> whole p -> (Qabs (numval p) <= inject_Z (2 ^ 53))%Q ->
  representable b64 (ParseFloat (text p)) /\ (fval (ParseFloat (text p)) == numval p)%Q.
Proof. exact C35_exact_lem. Qed.
Print Assumptions C35_exact_partial.
Example C35_example : text ex_parts = str "-12.50e-3" /\ shape one_sign ex_parts /\ (numval ex_parts == - (1#80))%Q.
Proof. exact ex_parts_lem. Qed.
Example C35_rounded_example : by_strconv ex_long /\ shape one_sign ex_long /\ by_strconv ex_big /\ shape one_sign ex_big /\ ParseFloat (text ex_long) = ParseFloat (str "0.1").
Proof. exact ex_strconv. Qed.

(* ---- C36 ---- *)

(* The full statement is false: wrong integers, integers out of range and fractions are reported as ok. *)
Theorem C36_refuted : exists p z, integer_text p /\ ParseInt (text p) = (z, true) /\ z <> intval p.
Proof. exact C36_refuted_lem. Qed.
Print Assumptions C36_refuted.
Theorem C36_range_refuted : exists p, integer_text p /\ (intval p < - 2 ^ 63)%Z /\ snd (ParseInt (text p)) = true.
Proof. exact C36_range_refuted_lem. Qed.
Print Assumptions C36_range_refuted.
Theorem C36_fraction_refuted : exists p, shape one_sign p /\ (forall z, ~ (numval p == inject_Z z)%Q) /\ snd (ParseInt (text p)) = true.
Proof. exact C36_fraction_refuted_lem. Qed.
Print Assumptions C36_fraction_refuted.
(* The accessors are these functions on the node's text. *)
Theorem C36_accessors : forall w n s, tree_of w n (JNum s) ->
  Node_ToInt w n = ParseInt s /\ Node_ToUint w n = ParseUint s /\ fst (Node_ToFloat w n) = ParseFloat s.
Proof. exact node_ToInt. Qed.
Print Assumptions C36_accessors.
(* A node that is gone has no number. *)
Theorem C36_dead : forall w n, Node_get w n = None -> Node_ToInt w n = (0%Z, false) /\ Node_ToUint w n = (0%Z, false) /\ Node_ToFloat w n = (zeroF, false).
Proof. exact node_dead. Qed.
Print Assumptions C36_dead.
Example C36_dead_example : Node_get [mkDoc [mkNode vNumber (str "7") []] 1] (mkN 0 0 (Some 0%nat)) = None /\
  Node_ToUint [mkDoc [mkNode vNumber (str "7") []] 1] (mkN 0 1 (Some 0%nat)) = (7%Z, true).
Proof. split; vm_compute; reflexivity. Qed.
(* Exactly which integers are returned: those in range for which there is a float64. *)
Theorem C36_int_exact : forall p, integer_text p ->
  (ParseInt (text p) = (intval p, true) <-> float_int (intval p) /\ (- 2 ^ 63 <= intval p < 2 ^ 63)%Z).
Proof. exact C36_int_iff. Qed.
Print Assumptions C36_int_exact.
Theorem C36_uint_exact : forall p, integer_text p ->
  (ParseUint (text p) = (intval p, true) <-> float_int (intval p) /\ (0 <= intval p < 2 ^ 64)%Z).
Proof. exact C36_uint_iff. Qed.
Print Assumptions C36_uint_exact.
(* Whatever is returned as ok for an integer text is the float64 nearest to it. *)
Theorem C36_nearest : forall p z, integer_text p -> ParseInt (text p) = (z, true) ->
  exists x, nearest b64 (inject_Z (intval p)) x /\ (fval x == inject_Z z)%Q.
Proof. exact C36_nearest_lem. Qed.
Print Assumptions C36_nearest.
(* Missing: integers beyond 2^53 that are not float64 values (C36_refuted). *)
Theorem C36_int_partial : forall p, integer_text p -> (Z.abs (intval p) <= 2 ^ 53)%Z -> ParseInt (text p) = (intval p, true).
Proof. exact C36_int_lem. Qed.
Print Assumptions C36_int_partial.
Theorem C36_uint_partial : forall p, integer_text p -> (0 <= intval p <= 2 ^ 53)%Z -> ParseUint (text p) = (intval p, true).
Proof. exact C36_uint_lem. Qed.
Print Assumptions C36_uint_partial.
(* Integers written with a point or an exponent, as 1.5e3 or 7.000.  Missing: negative exponents, where integers are
   missed (C36_whole_refuted). *)
Theorem C36_whole_partial : forall p, shape one_sign p -> small_text (text p) -> short_exp p -> whole p -> (Qabs (numval p) <= inject_Z (2 ^ 53))%Q ->
  exists z, (numval p == inject_Z z)%Q /\ ParseInt (text p) = (z, true) /\ ((0 <= z)%Z -> ParseUint (text p) = (z, true)).
Proof. exact C36_whole_lem. Qed.
Print Assumptions C36_whole_partial.
Theorem C36_whole_refuted : exists p, rfc_number (text p) /\ text p = str "300000e-5" /\ (numval p == 3)%Q /\
  snd (ParseInt (text p)) = false /\ snd (ParseUint (text p)) = false.
Proof. exact C36_whole_refuted_lem. Qed.
Print Assumptions C36_whole_refuted.
Example C36_whole_example :
  text thousand = str "1.5e+03" /\ shape one_sign thousand /\ small_text (text thousand) /\ short_exp thousand /\ whole thousand /\ ParseInt (text thousand) = (1500%Z, true) /\
  text point0 = str "-7.000" /\ shape one_sign point0 /\ whole point0 /\ ParseInt (text point0) = ((-7)%Z, true) /\ snd (ParseUint (text point0)) = false.
Proof. exact ex_whole. Qed.
(* Fractions and exponents.  Missing: more than 2^49 when the point is left out. *)
Theorem C36_sound_partial : forall p z, shape some_signs p -> small_text (text p) -> small_digits p -> (Z.abs (exp_val (pexp p)) <= 285)%Z -> few_digits p ->
  ParseInt (text p) = (z, true) \/ ParseUint (text p) = (z, true) -> (numval p == inject_Z z)%Q.
Proof. exact C36_sound_lem. Qed.
Print Assumptions C36_sound_partial.
Theorem C36_fraction_partial : forall p, shape some_signs p -> small_text (text p) -> small_digits p -> (Z.abs (exp_val (pexp p)) <= 285)%Z -> few_digits p ->
  (forall z, ~ (numval p == inject_Z z)%Q) -> snd (ParseInt (text p)) = false /\ snd (ParseUint (text p)) = false.
Proof. exact C36_fraction_lem. Qed.
Print Assumptions C36_fraction_partial.
(* Out of range.  Missing: from -2^63-2047 to -2^63-1 (C36_range_refuted). *)
Theorem C36_high : forall p, integer_text p -> (2 ^ 63 <= intval p)%Z -> snd (ParseInt (text p)) = false.
Proof. exact C36_int_high_lem. Qed.
Print Assumptions C36_high.
Theorem C36_low_partial : forall p, integer_text p -> (intval p <= - 2 ^ 63 - 2048)%Z -> snd (ParseInt (text p)) = false.
Proof. exact C36_int_low_lem. Qed.
Print Assumptions C36_low_partial.
Theorem C36_uint_high : forall p, integer_text p -> (2 ^ 64 <= intval p)%Z -> snd (ParseUint (text p)) = false.
Proof. exact C36_uint_high_lem. Qed.
Print Assumptions C36_uint_high.
Theorem C36_uint_negative : forall p, integer_text p -> (intval p < 0)%Z -> snd (ParseUint (text p)) = false.
Proof. exact C36_uint_neg_lem. Qed.
Print Assumptions C36_uint_negative.
Theorem C36_malformed : forall s, ParseFloat s = FNaN -> snd (ParseInt s) = false /\ snd (ParseUint s) = false.
Proof. exact C36_malformed_lem. Qed.
Print Assumptions C36_malformed.
Example C36_example : integer_text ex_int2 /\ intval ex_int2 = (- 2 ^ 53)%Z /\ ParseInt (text ex_int2) = ((- 2 ^ 53)%Z, true).
Proof. exact ex_int2_lem. Qed.
Example C36_example_float : float_int (3 * 2 ^ 60) /\ ~ float_int (2 ^ 53 + 1).
Proof. exact ex_float_int. Qed.

(* ---- C37 ---- *)

Theorem C37_refuted : exists w n x i, Node_get w n = Some x /\ (- 2 ^ 63 <= i < 2 ^ 63)%Z /\ Node_ToInt (Node_SetInt w n i) n = ((i - 1)%Z, true).
Proof. exact C37_refuted_lem. Qed.
Print Assumptions C37_refuted.
Theorem C37_max_refuted : exists w n x, Node_get w n = Some x /\ snd (Node_ToInt (Node_SetInt w n (2 ^ 63 - 1)) n) = false /\
  snd (Node_ToUint (Node_SetUint w n (2 ^ 64 - 1)) n) = false.
Proof. exact C37_max_refuted_lem. Qed.
Print Assumptions C37_max_refuted.
(* Exactly the integers for which there is a float64 are read back. *)
Theorem C37_int : forall w n x i, Node_get w n = Some x -> (- 2 ^ 63 <= i < 2 ^ 63)%Z -> (Node_ToInt (Node_SetInt w n i) n = (i, true) <-> float_int i).
Proof. exact C37_int_iff. Qed.
Print Assumptions C37_int.
Theorem C37_uint : forall w n x i, Node_get w n = Some x -> (0 <= i < 2 ^ 64)%Z -> (Node_ToUint (Node_SetUint w n i) n = (i, true) <-> float_int i).
Proof. exact C37_uint_iff. Qed.
Print Assumptions C37_uint.
(* Missing: integers beyond 2^53 that are not float64 values. *)
Theorem C37_int_partial : forall w n x i, Node_get w n = Some x -> (- 2 ^ 53 <= i <= 2 ^ 53)%Z -> Node_ToInt (Node_SetInt w n i) n = (i, true).
Proof. exact C37_int_lem. Qed.
Print Assumptions C37_int_partial.
Theorem C37_uint_partial : forall w n x i, Node_get w n = Some x -> (0 <= i <= 2 ^ 53)%Z -> Node_ToUint (Node_SetUint w n i) n = (i, true).
Proof. exact C37_uint_lem. Qed.
Print Assumptions C37_uint_partial.
(* The text itself is always right. *)
Theorem C37_text : forall z, exists p, FormatInt z = text p /\ integer_text p /\ intval p = z.
Proof. exact C37_text_lem. Qed.
Print Assumptions C37_text.
Example C37_example : exists x, Node_get ex_world (mkN 1 0 (Some O)) = Some x /\ nvalues x <> [] /\
  Node_ToInt (Node_SetInt ex_world (mkN 1 0 (Some O)) (-42)) (mkN 1 0 (Some O)) = ((-42)%Z, true) /\
  Node_Raw (Node_SetInt ex_world (mkN 1 0 (Some O)) (-42)) (mkN 1 0 (Some O)) = str "-42".
Proof. exact ex25_lem. Qed.

(* ---- C38 ---- *)

(* For NaN, the infinities and, with 32 bits, numbers beyond the float32 range no number is written. *)
Theorem C38_refuted : forall ftoa f g bits s, ftoa_special ftoa -> canonical b64 f -> narrow bits f g -> ~ finite g ->
  FormatFloat ftoa f bits = Ok s -> ~ rfc_number s.
Proof. exact C38_refuted_lem. Qed.
Print Assumptions C38_refuted.
Example C38_refuted_example : ftoa_special exact_ftoa /\ FormatFloat exact_ftoa FNaN 64 = Ok (str "NaN") /\ narrow 64 FNaN FNaN /\
  canonical b64 (FFin false (2 ^ 52) 76) /\ narrow 32 (FFin false (2 ^ 52) 76) (FInf false) /\
  FormatFloat exact_ftoa (FFin false (2 ^ 52) 76) 32 = Ok (str "+Inf").
Proof. exact ex38_special. Qed.
(* Missing: numbers that are not finite in the format asked for.  Rounding what is written gives the number again. *)
Theorem C38_partial : forall ftoa dst f g bits, ftoa_spec ftoa -> canonical b64 f -> narrow bits f g -> finite g ->
  exists p p', ftoa f (useExp f bits) bits = text p /\ AppendFloat ftoa dst f bits = Ok (dst ++ text p') /\
    cleaned p p' /\ rfc_number (text p') /\ (numval p' == numval p)%Q /\ shape one_sign p' /\
    rounded (fmt_of bits) (pneg p') (numval p') g.
Proof. exact C38_lem. Qed.
Print Assumptions C38_partial.
Theorem C38_append_partial : forall ftoa dst f g bits, ftoa_spec ftoa -> canonical b64 f -> narrow bits f g -> finite g ->
  exists s, FormatFloat ftoa f bits = Ok s /\ AppendFloat ftoa dst f bits = Ok (dst ++ s).
Proof. exact C38_dst_lem. Qed.
Print Assumptions C38_append_partial.
(* The limits are the float64 and float32 values nearest to 1e-6 and 1e21. *)
Theorem C38_limits : rounded b64 false (1#1000000) c6 /\ rounded b64 false (inject_Z (10 ^ 21)) c21 /\
  rounded b32 false (1#1000000) d6 /\ rounded b32 false (inject_Z (10 ^ 21)) d21.
Proof. exact consts. Qed.
Print Assumptions C38_limits.
Theorem C38_notation : forall f, finite f -> FloatOps.nonneg f ->
  (useExp f 64 = true <-> ~ (fval f == 0)%Q /\ ((Qabs (fval f) < fval c6)%Q \/ (fval c21 <= Qabs (fval f))%Q)).
Proof. exact C38_exp_lem. Qed.
Print Assumptions C38_notation.
Theorem C38_notation32 : forall f, representable b32 f ->
  (useExp f 32 = true <-> ~ (fval f == 0)%Q /\ ((Qabs (fval f) < fval d6)%Q \/ (fval d21 <= Qabs (fval f))%Q)).
Proof. exact C38_exp32_lem. Qed.
Print Assumptions C38_notation32.
Theorem C38_bits : forall ftoa dst f bits, bits <> 32%Z -> bits <> 64%Z ->
  AppendFloat ftoa dst f bits = Panic /\ FormatFloat ftoa f bits = Panic.
Proof. exact C38_bits_lem. Qed.
Print Assumptions C38_bits.
Example C38_example : ftoa_spec exact_ftoa /\ canonical b64 (FFin false (25 * 2 ^ 48) (-49)) /\ narrow 64 (FFin false (25 * 2 ^ 48) (-49)) (FFin false (25 * 2 ^ 48) (-49)) /\
  AppendFloat exact_ftoa (str "x=") (FFin false (25 * 2 ^ 48) (-49)) 64 = Ok (str "x=12.5" ++ repeat x30 48) /\ cleanup (str "1.5e-07") = str "1.5e-7".
Proof. exact ex38_lem. Qed.

(* ---- C52 ---- *)

(* 0.3 does not come back when it is written as 0.3, which is what strconv writes. *)
Theorem C52_refuted : forall ftoa w n x, Node_get w n = Some x -> ftoa three_tenths false 64%Z = str "0.3" ->
  exists w' g, Node_SetFloat ftoa w n three_tenths = Ok w' /\ Node_ToFloat w' n = (g, true) /\ finite g /\ ~ (fval g == fval three_tenths)%Q.
Proof. exact C52_refuted_lem. Qed.
Print Assumptions C52_refuted.
Theorem C52_three_tenths : rounded b64 false (3#10) three_tenths.
Proof. exact three_tenths_spec. Qed.
Print Assumptions C52_three_tenths.
(* Missing: fractions of up to 18 digits and exponents up to 300, which come back close but not equal. *)
Theorem C52_partial : forall ftoa w n x f, ftoa_spec ftoa -> Node_get w n = Some x -> canonical b64 f -> finite f ->
  exists p w', Node_SetFloat ftoa w n f = Ok w' /\ tree_of w' n (JNum (text p)) /\ rfc_number (text p) /\ rounded b64 (pneg p) (numval p) f /\
    (integer_text p \/ by_strconv p -> Node_ToFloat w' n = (f, true)) /\
    (small_text (text p) -> small_digits p -> (Z.abs (exp_val (pexp p)) <= 285)%Z ->
       exists g, Node_ToFloat w' n = (g, true) /\ (Qabs (fval g - numval p) <= Qabs (numval p) * p2 (-49))%Q) /\
    (small_text (text p) -> short_exp p -> wide_digits p -> (Qabs (numval p) <= p2 1022)%Q ->
       exists g, Node_ToFloat w' n = (g, true) /\ (Qabs (fval g - numval p) <= Qabs (numval p) * p2 (-49) + p2 (-1074))%Q).
Proof. exact C52_lem. Qed.
Print Assumptions C52_partial.
Example C52_example : ftoa_spec exact_ftoa /\ canonical b64 (FFin true (2 ^ 52) (-50)) /\
  (exists w', Node_SetFloat exact_ftoa ex_world (mkN 1 0 (Some O)) (FFin true (2 ^ 52) (-50)) = Ok w' /\
    Node_Raw w' (mkN 1 0 (Some O)) = str "-4." ++ repeat x30 50 /\ Node_ToFloat w' (mkN 1 0 (Some O)) = (FFin true (2 ^ 52) (-50), true)).
Proof. exact ex52_lem. Qed.
