(* Properties C26-C32: package strjson.  Only statements, each closed by [exact]. *)
From Verif Require Import Bytes Tables Types JsonSpec Parser Doc Strjson StrSpec Bytemaper StrThms TableThms StrExamples.

(* C26: every byte string has exactly one reading as characters (invalid bytes count as U+FFFD), and
   escaping followed by unescaping gives the UTF-8 text of that reading; for valid UTF-8 that is the
   string itself. *)
Theorem C26_roundtrip : forall s rs h,
  runes s rs -> exists e, Escaped s h false = Ok e /\ Unescaped e = Ok (utf8s rs).
Proof. exact C26_lem. Qed.
Print Assumptions C26_roundtrip.
Theorem C26_valid : forall s h,
  valid_utf8 s -> exists e, Escaped s h false = Ok e /\ Unescaped e = Ok s.
Proof. exact C26_valid_lem. Qed.
Print Assumptions C26_valid.
Theorem C26_runes : forall s,
  exists rs, runes s rs /\ (forall rs', runes s rs' -> rs' = rs) /\ Forall scalar rs /\ (valid_utf8 s -> s = utf8s rs).
Proof. exact runes_exist. Qed.
Print Assumptions C26_runes.
Example C26_example : runes ex26 [233; 34; 65533; 128512; 92]%N /\
  exists e, Escaped ex26 false false = Ok e /\ Unescaped e = Ok (utf8s [233; 34; 65533; 128512; 92]%N).
Proof. exact ex26_lem. Qed.

(* C27: the escaped text is valid JSON string content, valid UTF-8, without line or paragraph
   separators and, when asked, without HTML's special characters; quoted = true adds the quotes. *)
Theorem C27_safe : forall s h, exists out rs,
  Escaped s h false = Ok out /\ Escaped s h true = Ok (x22 :: out ++ [x22]) /\
  rfc_chars out /\ out = utf8s rs /\ Forall scalar rs /\ ~ In 8232%N rs /\ ~ In 8233%N rs /\
  (h = true -> ~ In x3c out /\ ~ In x3e out /\ ~ In x26 out).
Proof. exact C27_lem. Qed.
Print Assumptions C27_safe.
(* More exactly: each character is written as escape_of says. *)
Theorem C27_exact : forall s rs h,
  runes s rs -> Escaped s h false = Ok (concat (map (escape_of h) rs)).
Proof. exact C27_exact_lem. Qed.
Print Assumptions C27_exact.
Example C27_example : Escaped [x3c; x2f; x0a; x01; xe2; x80; xa8; xc3; xa9; xff] true true =
  Ok ([x22] ++ [x5c] ++ str "u003c" ++ [x5c; x2f; x5c; x6e; x5c] ++ str "u0001" ++ [x5c] ++ str "u2028" ++
      [xc3; xa9; x5c] ++ str "ufffd" ++ [x22]).
Proof. exact ex27_lem. Qed.

(* C28: AppendEscaped appends what Escaped returns. *)
Theorem C28_append : forall dst s h e,
  Escaped s h false = Ok e -> AppendEscaped dst s h = Ok (dst ++ e).
Proof. exact C28_lem. Qed.
Print Assumptions C28_append.
Example C28_example : Escaped [x22; x61; x0a] false false = Ok [x5c; x22; x61; x5c; x6e] /\
  AppendEscaped (str "xy") [x22; x61; x0a] false = Ok (str "xy" ++ [x5c; x22; x61; x5c; x6e]).
Proof. exact ex28_lem. Qed.

(* C29: Unescaped always returns, with no more bytes than it was given; in a buffer at least as long
   as the input Unescape does not panic, writes that result first and nothing else, and returns its
   length; AppendUnescaped appends it, whatever the capacity of the buffer. *)
Theorem C29_total : forall s, exists o, Unescaped s = Ok o /\ length o <= length s.
Proof. exact Unescaped_total. Qed.
Print Assumptions C29_total.
Theorem C29_buffer : forall dst s o,
  Unescaped s = Ok o -> length s <= length dst ->
  Unescape dst s = Ok (o ++ skipn (length o) dst, length o).
Proof. exact C29_lem. Qed.
Print Assumptions C29_buffer.
Theorem C29_append : forall dst spare s o,
  Unescaped s = Ok o -> AppendUnescaped dst spare s = Ok (Some (dst ++ o)).
Proof. exact C29_append_lem. Qed.
Print Assumptions C29_append.
(* Without the length condition Unescape can panic or lose text. *)
Theorem C29_short_buffer_refuted : exists dst s o,
  Unescaped s = Ok o /\ length o <= length dst + 1 /\ Unescape dst s = Panic.
Proof. exact ex29_short. Qed.
Print Assumptions C29_short_buffer_refuted.
Example C29_example : let s := str "a" ++ [x5c; x6e; x5c] ++ str "ud83d" ++ [x5c] ++ str "ude00" ++ [x5c] ++ str "u12" in
  Unescaped s = Ok ([x61; x0a; xf0; x9f; x98; x80; x5c] ++ str "u12") /\
  Unescape (repeat x7a 25) s = Ok ([x61; x0a; xf0; x9f; x98; x80; x5c] ++ str "u12" ++ repeat x7a 15, 10).
Proof. exact ex29_lem. Qed.

(* C30, full statement: forall w o, rfc_chars w -> meaning w o -> Unescaped w = Ok o.
   False: an unpaired surrogate swallows a following \u escape (unescape.go:222-238). *)
Theorem C30_refuted : exists w o o', rfc_chars w /\ meaning w o /\ Unescaped w = Ok o' /\ o' <> o.
Proof. exact C30_refuted_lemma. Qed.
Print Assumptions C30_refuted.
(* What holds: string contents in which no unpaired surrogate is followed by a \u escape (tame).
   Missing: the others. *)
Theorem C30_partial : forall w o, rfc_chars w -> tame w -> meaning w o -> Unescaped w = Ok o.
Proof. exact C30_lem. Qed.
Print Assumptions C30_partial.
(* Without escaped surrogates every content is tame. *)
Theorem C30_no_surrogates : forall w o, rfc_chars w ->
  (forall u a b c d v, w = u ++ x5c :: x75 :: a :: b :: c :: d :: v -> scalar (hex4 a b c d)) ->
  meaning w o -> Unescaped w = Ok o.
Proof. exact C30_scalar_lem. Qed.
Print Assumptions C30_no_surrogates.
Theorem C30_meaning_once : forall w, exists o, meaning w o /\ forall o', meaning w o' -> o' = o.
Proof. exact meaning_once. Qed.
Print Assumptions C30_meaning_once.
Example C30_example : let w := str "x" ++ [x5c; x74; x5c] ++ str "ud83d" ++ [x5c] ++ str "ude00" ++ [x5c] ++ str "ude00y" in
  rfc_chars w /\ tame w /\ meaning w ([x78; x09; xf0; x9f; x98; x80; xef; xbf; xbd; x79]).
Proof. exact ex30_lem. Qed.

(* C31, full statement: forall w o, meaning w o -> Unescaped w = Ok o; meaning keeps malformed escapes.
   False: letters beyond f, and any other byte, are taken for hexadecimal digits. *)
Theorem C31_refuted : exists w o', ~ four_hex w /\ meaning (x5c :: x75 :: w) (x5c :: x75 :: w) /\
  Unescaped (x5c :: x75 :: w) = Ok o' /\ o' <> x5c :: x75 :: w.
Proof. exact C31_refuted_lemma. Qed.
Print Assumptions C31_refuted.
(* What holds: contents in which each \u is followed by fewer than four bytes or by four hexadecimal
   digits (and surrogates are as in C30).  Missing: \u followed by four other bytes. *)
Theorem C31_partial : forall w o, tame w -> meaning w o -> Unescaped w = Ok o.
Proof. exact C31_lem. Qed.
Print Assumptions C31_partial.
Example C31_example : let w := [x5c; x78; x5c] ++ str "u0041" ++ [x5c] ++ str "u00" ++ [x5c] in
  tame w /\ meaning w ([x5c; x78; x41; x5c] ++ str "u00" ++ [x5c]).
Proof. exact ex31_lem. Qed.

(* C32: what the entries of the lookup tables mean. *)
Theorem C32_space : forall c, (isSpace c = true <-> ws_byte c) /\ In (tbl bytemapIsSpace c) [x00; x01].
Proof. exact table_space. Qed.
Print Assumptions C32_space.
Theorem C32_number_end : forall c, (isNumberEnd c = true <-> num_end c) /\ In (tbl bytemapIsNumberEnd c) [x00; x01].
Proof. exact table_numend. Qed.
Print Assumptions C32_number_end.
Theorem C32_digit : forall c, (isDigit c = true <-> digit c) /\ In (tbl bytemapIsDigit c) [x00; x01].
Proof. exact table_digit. Qed.
Print Assumptions C32_digit.
Theorem C32_to_digit : forall c n, tbl bytemapToDigit c = Nb n /\ (n < 10)%N <-> digit c /\ n = (bN c - 48)%N.
Proof. exact table_todigit. Qed.
Print Assumptions C32_to_digit.
Theorem C32_to_digit_else : forall c, ~ digit c -> tbl bytemapToDigit c = xff.
Proof. exact table_todigit_else. Qed.
Print Assumptions C32_to_digit_else.
Theorem C32_to_json : forall c x, toJSON c = x <-> json_class c x.
Proof. exact table_json_iff. Qed.
Print Assumptions C32_to_json.
Theorem C32_to_hex : forall n, (n < 16)%N -> hexdigit (toHex (Nb n)) /\ hexval (toHex (Nb n)) = n.
Proof. exact table_tohex. Qed.
Print Assumptions C32_to_hex.
(* The full statement for fromHex, that it is xff exactly on the bytes that are no hexadecimal digits,
   is false: it gives g-z and G-Z the values 16 to 35.  What holds is its value on the digits. *)
Theorem C32_from_hex_refuted : exists c, ~ hexdigit c /\ fromHex c = x10.
Proof. exact table_fromhex_bad. Qed.
Print Assumptions C32_from_hex_refuted.
Theorem C32_from_hex_partial : forall c, hexdigit c -> bN (fromHex c) = hexval c.
Proof. exact table_fromhex. Qed.
Print Assumptions C32_from_hex_partial.
(* The tables are what the generator program writes. *)
Theorem C32_generated :
  bytemapToJSON = mask genToJSON /\ bytemapToHex = mask genToHex /\ bytemapFromHex = mask genFromHex /\
  bytemapIsSpace = mask (isOneOf [x20; x09; x0d; x0a]) /\ bytemapIsDigit = mask (isOneOf (str "0123456789")) /\
  bytemapIsNumberEnd = mask (isOneOf [x20; x09; x0d; x0a; x2c; x5d; x7d]).
Proof. exact tables_generated. Qed.
Print Assumptions C32_generated.
Example C32_example : hexdigit x46 /\ fromHex x46 = x0f /\ toJSON x0a = x6e /\ isNumberEnd x7d = true.
Proof. exact ex32_lem. Qed.
