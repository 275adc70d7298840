(* Concrete instances for PropsStr.v. *)
From Verif Require Import Bytes Tables Types JsonSpec Parser Doc Utf8 Strjson StrSpec Utf8Proofs StrProofs StrThms TableThms.

Definition ex26 : bytes := [xc3; xa9; x22; x80; xf0; x9f; x98; x80; x5c].
Lemma ex26_lem : runes ex26 [233; 34; 65533; 128512; 92]%N /\
  exists e, Escaped ex26 false false = Ok e /\ Unescaped e = Ok (utf8s [233; 34; 65533; 128512; 92]%N).
Proof.
  assert (R : runes ex26 [233; 34; 65533; 128512; 92]%N); [|split; [exact R|exact (C26_lem _ _ false R)]].
  - apply (ru_char 233); [left; reflexivity|]. apply (ru_char 34); [left; reflexivity|].
    apply ru_bad.
    + intros r t S E. unfold utf8 in E. unfold scalar in S. destruct (N.ltb_spec r 128).
      * cbn [app] in E. injection E as E _. apply (f_equal bN) in E. rewrite bNb in E by lia. change (bN x80) with 128%N in E. lia.
      * destruct (N.ltb_spec r 2048); [|destruct (N.ltb_spec r 65536)]; apply (f_equal (fun l => bN (List.hd x00 l))) in E; cbn [app List.hd] in E; change (bN x80) with 128%N in E; rewrite bNb in E by (clear E; dm); clear - E; dm.
    + apply (ru_char 128512); [right; split; [discriminate|reflexivity]|]. apply (ru_char 92); [left; reflexivity|]. constructor.
Qed.

Lemma ex27_lem : Escaped [x3c; x2f; x0a; x01; xe2; x80; xa8; xc3; xa9; xff] true true =
  Ok ([x22] ++ [x5c] ++ str "u003c" ++ [x5c; x2f; x5c; x6e; x5c] ++ str "u0001" ++ [x5c] ++ str "u2028" ++
      [xc3; xa9; x5c] ++ str "ufffd" ++ [x22]).
Proof. vm_compute. reflexivity. Qed.

Lemma ex28_lem : Escaped [x22; x61; x0a] false false = Ok [x5c; x22; x61; x5c; x6e] /\
  AppendEscaped (str "xy") [x22; x61; x0a] false = Ok (str "xy" ++ [x5c; x22; x61; x5c; x6e]).
Proof. split; vm_compute; reflexivity. Qed.

Lemma ex29_short : exists dst s o, Unescaped s = Ok o /\ length o <= length dst + 1 /\ Unescape dst s = Panic.
Proof. exists [x00], (x5c :: str "u00e9"), [xc3; xa9]. split; [vm_compute; reflexivity|]. split; [cbn; lia|vm_compute; reflexivity]. Qed.
Lemma ex29_lem : let s := str "a" ++ [x5c; x6e; x5c] ++ str "ud83d" ++ [x5c] ++ str "ude00" ++ [x5c] ++ str "u12" in
  Unescaped s = Ok ([x61; x0a; xf0; x9f; x98; x80; x5c] ++ str "u12") /\
  Unescape (repeat x7a 25) s = Ok ([x61; x0a; xf0; x9f; x98; x80; x5c] ++ str "u12" ++ repeat x7a 15, 10).
Proof. split; vm_compute; reflexivity. Qed.

Lemma C30_lem w o : rfc_chars w -> tame w -> meaning w o -> Unescaped w = Ok o.
Proof. intros _. apply C31_lem. Qed.

Lemma rfc_tame w : rfc_chars w ->
  (forall u a b c d v, w = u ++ x5c :: x75 :: a :: b :: c :: d :: v -> scalar (hex4 a b c d)) -> tame w.
Proof.
  induction 1 as [|c w L N1 N2 H IH|c w I H IH|a b c d w Ha Hb Hc Hd H IH]; intro S.
  - constructor.
  - apply t_plain; auto. apply IH. intros u a b c' d v E. apply (S (c :: u) a b c' d v). cbn. f_equal. auto.
  - apply t_other; [intros ->; cbn in I; intuition discriminate|]. apply IH. intros u a b c' d v E. apply (S (x5c :: c :: u) a b c' d v). cbn. do 2 f_equal. auto.
  - apply t_u; auto; [left; exact (S [] a b c d w eq_refl)|]. apply IH. intros u a' b' c' d' v E. apply (S (x5c :: x75 :: a :: b :: c :: d :: u) a' b' c' d' v). cbn. do 6 f_equal. auto.
Qed.
Lemma C30_scalar_lem w o : rfc_chars w ->
  (forall u a b c d v, w = u ++ x5c :: x75 :: a :: b :: c :: d :: v -> scalar (hex4 a b c d)) ->
  meaning w o -> Unescaped w = Ok o.
Proof. intros H S. apply C31_lem, rfc_tame; auto. Qed.

Ltac hx := apply hd; reflexivity.
Lemma ex30_lem : let w := str "x" ++ [x5c; x74; x5c] ++ str "ud83d" ++ [x5c] ++ str "ude00" ++ [x5c] ++ str "ude00y" in
  rfc_chars w /\ tame w /\ meaning w ([x78; x09; xf0; x9f; x98; x80; xef; xbf; xbd; x79]).
Proof.
  intro w. subst w. split; [|split].
  - apply chars_plain; [vm_compute; discriminate|discriminate..|]. apply chars_esc; [cbn; tauto|].
    apply chars_u; [hx..|]. apply chars_u; [hx..|]. apply chars_u; [hx..|].
    apply chars_plain; [vm_compute; discriminate|discriminate..|]. constructor.
  - apply t_plain; [discriminate|]. apply t_other; [discriminate|]. apply t_pair; [hx..|split; vm_compute; (discriminate || reflexivity)|split; vm_compute; (discriminate || reflexivity)|].
    apply t_u; [hx..| |]. { right. intros (a & b & c & d & w' & E). discriminate E. }
    apply t_plain; [discriminate|]. constructor.
  - apply m_plain; [discriminate|]. apply m_escape; [constructor|].
    apply (m_pair x64 x38 x33 x64 x64 x65 x30 x30); [hx..|split; vm_compute; (discriminate || reflexivity)|split; vm_compute; (discriminate || reflexivity)|].
    apply m_unpaired; [hx..| |]. { left. split; vm_compute; (discriminate || reflexivity). }
    apply m_plain; [discriminate|]. constructor.
Qed.
Lemma ex31_lem : let w := [x5c; x78; x5c] ++ str "u0041" ++ [x5c] ++ str "u00" ++ [x5c] in
  tame w /\ meaning w ([x5c; x78; x41; x5c] ++ str "u00" ++ [x5c]).
Proof.
  intro w. subst w. split.
  - apply t_other; [discriminate|]. apply t_u; [hx..|left; left; reflexivity|]. apply t_short; [cbn; lia|].
    apply t_plain; [discriminate|]. apply t_plain; [discriminate|]. apply t_last.
  - apply m_bad; [intros c H; inversion H|discriminate|]. apply (m_u x30 x30 x34 x31); [hx..|left; reflexivity|].
    apply m_bad_u. { intros (a & b & c & d & w' & E & _). discriminate E. }
    apply m_plain; [discriminate|]. apply m_plain; [discriminate|]. apply m_last.
Qed.
Lemma ex32_lem : hexdigit x46 /\ fromHex x46 = x0f /\ toJSON x0a = x6e /\ isNumberEnd x7d = true.
Proof. repeat split; try reflexivity. hx. Qed.
