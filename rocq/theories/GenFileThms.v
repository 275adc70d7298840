(* Lemmas for C65 and C66: the files and the command of the code generator. *)
From Coq Require Import Permutation.
From Verif Require Import Bytes StrSpec Utf8Proofs ErrText ErrSpec ErrThms GenFile GenFileSpec.

(* ---- prefixes and suffixes ---- *)
Lemma HasPrefix_iff p : forall s, HasPrefix s p = true <-> exists r, s = p ++ r.
Proof.
  induction p as [|a p IH]; intro s; cbn [HasPrefix app].
  - split; [intros _; exists s; reflexivity|destruct s; reflexivity].
  - destruct s as [|b s]; cbn [HasPrefix]; [split; [discriminate|intros (r & H); discriminate]|]. rewrite andb_true_iff, beqb_true, IH. split.
    + intros (-> & r & ->). exists r. reflexivity.
    + intros (r & H). injection H as -> ->. split; eauto.
Qed.
Lemma HasSuffix_iff s suf : HasSuffix s suf = true <-> ends s suf.
Proof.
  unfold HasSuffix, ends. rewrite HasPrefix_iff. split; intros (r & H).
  - exists (rev r). rewrite <- (rev_involutive s), H, rev_app_distr, rev_involutive. reflexivity.
  - exists (rev r). rewrite H, rev_app_distr. reflexivity.
Qed.
Lemma TrimSuffix_app a suf : TrimSuffix (a ++ suf) suf = a.
Proof.
  unfold TrimSuffix. assert (H : HasSuffix (a ++ suf) suf = true) by (apply HasSuffix_iff; exists a; reflexivity). rewrite H, app_length.
  replace (length a + length suf - length suf)%nat with (length a) by lia. rewrite firstn_app, Nat.sub_diag, firstn_all. cbn [firstn]. apply app_nil_r.
Qed.
Lemma Filename_cases name : (exists a, name = a ++ str "_test" /\ Filename name = a ++ str "_njson_test.go") \/ (~ ends name (str "_test") /\ Filename name = name ++ str "_njson.go").
Proof.
  unfold Filename. destruct (HasSuffix name (str "_test")) eqn:H.
  - left. apply HasSuffix_iff in H as (a & ->). exists a. rewrite TrimSuffix_app. auto.
  - right. split; auto. rewrite <- HasSuffix_iff. congruence.
Qed.
Lemma app_end {A} (a b : list A) x y : a ++ [x] = b ++ [y] -> a = b /\ x = y.
Proof. apply app_inj_tail. Qed.
Lemma ends_eq s a b : ends s a -> ends s b -> length a = length b -> a = b.
Proof.
  intros (x & ->) (y & H) L. assert (length x = length y) by (apply (f_equal (@length byte)) in H; rewrite !app_length in H; lia).
  revert y H H0. induction x as [|c x IH]; intros [|d y] H E; try discriminate; [exact H|]. injection H as _ H. injection E as E. apply (IH y); auto.
Qed.
Lemma C65_filename_lem name : ends (Filename name) (str ".go") /\ (ends (Filename name) (str "_test.go") <-> ends name (str "_test")).
Proof.
  destruct (Filename_cases name) as [(a & -> & ->)|(N & ->)]; (split; [|split]).
  - exists (a ++ str "_njson_test"). rewrite <- app_assoc. reflexivity.
  - intros _. exists a. reflexivity.
  - intros _. exists (a ++ str "_njson"). rewrite <- app_assoc. reflexivity.
  - exists (name ++ str "_njson"). rewrite <- app_assoc. reflexivity.
  - intro E. exfalso. assert (E2 : ends (name ++ str "_njson.go") (str "njson.go")) by (exists (name ++ str "_"); rewrite <- app_assoc; reflexivity).
    discriminate (ends_eq _ _ _ E E2 eq_refl).
  - intro E. contradiction.
Qed.
Lemma C65_filename_inj_lem n n' : Filename n = Filename n' -> n = n'.
Proof.
  intro E. destruct (Filename_cases n) as [(a & -> & F)|(N & F)], (Filename_cases n') as [(a' & -> & F')|(N' & F')]; rewrite F, F' in E.
  - apply app_inv_tail in E as ->. reflexivity.
  - exfalso. assert (E1 : ends (n' ++ str "_njson.go") (str "_test.go")) by (rewrite <- E; exists (a ++ str "_njson"); rewrite <- app_assoc; reflexivity).
    assert (E2 : ends (n' ++ str "_njson.go") (str "njson.go")) by (exists (n' ++ str "_"); rewrite <- app_assoc; reflexivity). discriminate (ends_eq _ _ _ E1 E2 eq_refl).
  - exfalso. assert (E1 : ends (n ++ str "_njson.go") (str "_test.go")) by (rewrite E; exists (a' ++ str "_njson"); rewrite <- app_assoc; reflexivity).
    assert (E2 : ends (n ++ str "_njson.go") (str "njson.go")) by (exists (n ++ str "_"); rewrite <- app_assoc; reflexivity). discriminate (ends_eq _ _ _ E1 E2 eq_refl).
  - apply app_inv_tail in E. exact E.
Qed.

(* ---- lines ---- *)
Definition noLF (s : bytes) : Prop := ~ In x0a s.
Lemma lines_cons l s : noLF l -> lines (l ++ x0a :: s) = l :: lines s.
Proof.
  induction l as [|c l IH]; intro H; cbn [app lines]; [reflexivity|]. destruct (beqb_spec c x0a) as [->|_]; [elim H; left; reflexivity|].
  rewrite IH; [reflexivity|]. intro I. apply H. right. exact I.
Qed.
Lemma lines_one l : noLF l -> lines l = [l].
Proof.
  induction l as [|c l IH]; intro H; cbn [lines]; [reflexivity|]. destruct (beqb_spec c x0a) as [->|_]; [elim H; left; reflexivity|].
  rewrite IH; [reflexivity|]. intro I. apply H. right. exact I.
Qed.
Lemma lines_join ls : ls <> [] -> Forall noLF ls -> lines (joinLines ls) = ls.
Proof.
  intros N F. induction F as [|l r H F IH]; [congruence|]. destruct r as [|l' r]; cbn [joinLines]; [apply lines_one, H|]. rewrite lines_cons by auto. f_equal. apply IH. discriminate.
Qed.
Lemma lines_join_app ls b : ls <> [] -> Forall noLF ls -> lines (joinLines ls ++ x0a :: b) = ls ++ lines b.
Proof.
  intros N F. induction F as [|l r H F IH]; [congruence|]. destruct r as [|l' r]; cbn [joinLines]; [apply lines_cons, H|]. rewrite <- app_assoc. cbn [app]. rewrite lines_cons by auto. f_equal. apply IH. discriminate.
Qed.
Lemma noLF_app a b : noLF a -> noLF b -> noLF (a ++ b).
Proof. intros A B I. apply in_app_or in I as [I|I]; auto. Qed.
Lemma noLF_dec s : forallb (fun c => negb (beqb c x0a)) s = true -> noLF s.
Proof. intros H I. rewrite forallb_forall in H. specialize (H _ I). discriminate. Qed.
Lemma ident_noLF s : ident s -> noLF s.
Proof.
  destruct s as [|c r]; [contradiction|]. intros (L & F) I. assert (K : forall c, letter c \/ (48 <= bN c <= 57)%N -> c <> x0a).
  { intros d D ->. destruct D as [[D|[D|[D|D]]]|D]; try discriminate D; change (bN x0a) with 10%N in D; lia. }
  destruct I as [I|I]; [apply (K c); auto|]. rewrite Forall_forall in F. apply (K x0a (F _ I)). reflexivity.
Qed.
Lemma Nb_notLF n : (128 <= n < 256)%N -> Nb n <> x0a.
Proof. intros H E. apply (f_equal bN) in E. rewrite bN_Nb, N.mod_small in E by lia. change (bN x0a) with 10%N in E. lia. Qed.
Lemma utf8_noLF r : scalar r -> ~ control r -> noLF (utf8 r).
Proof.
  intros Sc Nc. assert (L : (r < 1114112)%N) by (unfold scalar in Sc; lia). unfold noLF, utf8.
  assert (M : forall x, (128 <= 128 + x mod 64 < 256)%N) by (intro x; assert (x mod 64 < 64)%N by (apply N.mod_lt; discriminate); generalize dependent (x mod 64)%N; intros; lia).
  destruct (N.ltb_spec r 128) as [A|A]; [|destruct (N.ltb_spec r 2048) as [B|B]; [|destruct (N.ltb_spec r 65536) as [C|C]]].
  - intros [I|[]]. apply (f_equal bN) in I. rewrite bN_Nb, N.mod_small in I by lia. change (bN x0a) with 10%N in I. apply Nc. left. lia.
  - assert (r / 64 < 32)%N by (apply N.div_lt_upper_bound; lia). intros [I|[I|[]]]; revert I; apply Nb_notLF; first [apply M|generalize dependent (r / 64)%N; generalize dependent (r / 4096)%N; generalize dependent (r / 262144)%N; clear; intros; lia].
  - assert (r / 4096 < 16)%N by (apply N.div_lt_upper_bound; lia). intros [I|[I|[I|[]]]]; revert I; apply Nb_notLF; first [apply M|generalize dependent (r / 64)%N; generalize dependent (r / 4096)%N; generalize dependent (r / 262144)%N; clear; intros; lia].
  - assert (r / 262144 < 8)%N by (apply N.div_lt_upper_bound; lia). intros [I|[I|[I|[I|[]]]]]; revert I; apply Nb_notLF; first [apply M|generalize dependent (r / 64)%N; generalize dependent (r / 4096)%N; generalize dependent (r / 262144)%N; clear; intros; lia].
Qed.
Lemma line_noLF s : one_line s -> noLF s.
Proof.
  intros (rs & F & ->). induction F as [|r rs (Sc & Nc) F IH]; [intros []|]. cbn [utf8s map concat]. apply noLF_app; [apply utf8_noLF; auto|exact IH].
Qed.

(* ---- imports ---- *)
Lemma setPkg_keys m k p : forall x, In x (map fst (setPkg m k p)) <-> In x (map fst m) \/ x = k.
Proof.
  induction m as [|(k', p') r IH]; intro x; cbn [setPkg map fst].
  - cbn. split; [intros [<-|[]]; auto|intros [[]|<-]; auto].
  - destruct (bseqb k' k) eqn:E.
    + apply bseqb_true in E as ->. cbn. split; [tauto|]. intros [H|H]; auto.
    + cbn. rewrite IH. tauto.
Qed.
Lemma setPkg_nodup m k p : NoDup (map fst m) -> NoDup (map fst (setPkg m k p)).
Proof.
  induction m as [|(k', p') r IH]; intro N; cbn [setPkg]; [repeat constructor; intros []|]. inversion N as [|? ? N1 N2]. subst.
  destruct (bseqb k' k) eqn:E; [exact N|]. apply bseqb_false in E. cbn [map fst]. constructor; auto. rewrite setPkg_keys. intros [H|H]; contradiction.
Qed.
Lemma setPkg_path m k p : (forall x q, In (x, q) m -> ppath q = x) -> ppath p = k -> forall x q, In (x, q) (setPkg m k p) -> ppath q = x.
Proof.
  intros H E. induction m as [|(k', p') r IH]; intros x q; cbn [setPkg].
  - intros [I|[]]. injection I as <- <-. exact E.
  - destruct (bseqb k' k) eqn:B.
    + apply bseqb_true in B as ->. intros [I|I]; [injection I as <- <-; exact E|apply H; right; exact I].
    + intros [I|I]; [apply H; left; exact I|apply IH; auto]. intros y z J. apply H. right. exact J.
Qed.
(* what holds of the map *)
Definition goodMap (g : gen) (ps : list pkg) : Prop :=
  NoDup (map fst (gimports g)) /\ (forall x q, In (x, q) (gimports g) -> ppath q = x /\ In q ps) /\ forall x, In x (map fst (gimports g)) <-> x <> gpath g /\ In x (map ppath ps).
Lemma setPkg_in m k p : forall x q, In (x, q) (setPkg m k p) -> In (x, q) m \/ q = p.
Proof.
  induction m as [|(k', p') r IH]; intros x q; cbn [setPkg].
  - intros [I|[]]. injection I as _ <-. auto.
  - destruct (bseqb k' k); intros [I|I]; [injection I as _ <-; auto|left; right; auto|left; left; auto|]. destruct (IH _ _ I); auto. left. right. auto.
Qed.
Lemma import1_good g ps p : goodMap g ps -> goodMap (import1 g p) (ps ++ [p]) /\ gpath (import1 g p) = gpath g /\ gname (import1 g p) = gname g /\ gbuffer (import1 g p) = gbuffer g.
Proof.
  intros (N & P & K). unfold import1. destruct (bseqb (ppath p) (gpath g)) eqn:E.
  - apply bseqb_true in E. split; [|auto]. split; [exact N|]. split.
    + intros x q I. destruct (P x q I). split; auto. apply in_or_app. auto.
    + intro x. rewrite K, map_app, in_app_iff. cbn. split; [tauto|]. intros (A & [B|[B|[]]]); auto. congruence.
  - apply bseqb_false in E. split; [|auto]. cbn [gimports gpath]. split; [apply setPkg_nodup, N|]. split.
    + intros x q I. split; [eapply (setPkg_path (gimports g) (ppath p) p); [intros y z J; apply (P y z J)|reflexivity|exact I]|]. apply in_or_app. destruct (setPkg_in _ _ _ _ _ I) as [J| ->]; [left; apply (P _ _ J)|right; left; auto].
    + intro x. cbn [gimports gpath]. rewrite setPkg_keys, K, map_app, in_app_iff. cbn. split; [intros [H|H]; [tauto|split; [congruence|auto]]|intros (A & [B|[B|[]]]); auto].
Qed.
Lemma Import_good l : forall g ps, goodMap g ps -> goodMap (Import g l) (ps ++ l) /\ gpath (Import g l) = gpath g /\ gname (Import g l) = gname g /\ gbuffer (Import g l) = gbuffer g.
Proof.
  induction l as [|p l IH]; intros g ps H; cbn [Import fold_left]; [rewrite app_nil_r; auto|]. destruct (import1_good g ps p H) as (H1 & A & B & C).
  destruct (IH _ _ H1) as (H2 & A2 & B2 & C2). unfold Import in *. rewrite <- app_assoc in H2. cbn [app] in H2. split; [exact H2|]. rewrite A2, B2, C2. auto.
Qed.
Lemma Reset_good g : goodMap (Reset g) [].
Proof. split; [constructor|]. split; [intros x q []|]. intro x. cbn. tauto. Qed.

(* ---- the last element of a path ---- *)
Lemma dropSlashes_spec s : exists sl, s = sl ++ dropSlashes s /\ Forall (eq x2f) sl.
Proof.
  induction s as [|c r (sl & E & F)]; cbn [dropSlashes]; [exists []; auto|]. destruct (beqb_spec c x2f) as [->|_]; [|exists []; auto].
  exists (x2f :: sl). split; [cbn [app]; f_equal; exact E|constructor; auto].
Qed.
Lemma upToSlash_spec s : exists r, s = upToSlash s ++ r /\ (r = [] \/ exists r', r = x2f :: r').
Proof.
  induction s as [|c s (r & E & H)]; cbn [upToSlash]; [exists []; auto|]. destruct (beqb_spec c x2f) as [->|_]; [exists (x2f :: s); eauto|].
  exists r. split; [cbn [app]; f_equal; exact E|exact H].
Qed.
Definition letterb (c : byte) : bool := ((65 <=? bN c) && (bN c <=? 90) || (97 <=? bN c) && (bN c <=? 122) || beqb c x5f || (128 <=? bN c))%N%bool.
Lemma letter_b c : letter c -> letterb c = true.
Proof.
  unfold letter, letterb. rewrite !orb_true_iff, !andb_true_iff, !N.leb_le, beqb_true. tauto.
Qed.
Lemma Base_spec path name : ident name -> Base path = name -> exists dir sl, path = dir ++ name ++ sl /\ (dir = [] \/ ends dir [x2f]) /\ Forall (eq x2f) sl.
Proof.
  intros I E. unfold Base in E. destruct path as [|c0 p0].
  { subst name. destruct I as (L & _). apply letter_b in L. discriminate L. }
  set (path := c0 :: p0) in *. destruct (dropSlashes_spec (rev path)) as (sl & E1 & F1). destruct (dropSlashes (rev path)) as [|c r] eqn:D.
  { subst name. destruct I as (L & _). apply letter_b in L. discriminate L. }
  destruct (upToSlash_spec (c :: r)) as (rest & E2 & H). rewrite E2 in E1. apply (f_equal (@rev byte)) in E1. rewrite rev_involutive, !rev_app_distr, E in E1.
  exists (rev rest), (rev sl). split; [rewrite E1, app_assoc; reflexivity|]. split; [|apply Forall_rev, F1].
  destruct H as [->|(r' & ->)]; [left; reflexivity|right]. exists (rev r'). reflexivity.
Qed.
Lemma importLine_declares isPrint path p : ident (pname p) -> declares isPrint (importLine isPrint (path, p)) path (pname p).
Proof.
  intro I. unfold importLine, declares. destruct (bseqb (Base path) (pname p)) eqn:E; [|right; reflexivity]. apply bseqb_true in E. left. split; [reflexivity|]. apply Base_spec; auto.
Qed.
Lemma importLine_noLF isPrint e : prints isPrint -> ident (pname (snd e)) -> noLF (importLine isPrint e).
Proof.
  intros P I. destruct e as [path p]. cbn [snd] in I. unfold importLine. pose proof (line_noLF _ (quoteString_line isPrint path P)) as Q.
  destruct (bseqb _ _); (apply noLF_app; [apply noLF_dec; reflexivity|]); [exact Q|]. apply noLF_app; [apply ident_noLF, I|]. intros [H|H]; [discriminate|contradiction].
Qed.

(* ---- the file ---- *)
Definition headLines (isPrint : N -> bool) (g : gen) (ts : bytes) (order : list (bytes * pkg)) : list bytes :=
  (str "// Code generated by njson on " ++ ts ++ str "; DO NOT EDIT.") :: (str "package " ++ gname g) :: map (importLine isPrint) order.
Lemma headLines_noLF isPrint g ts order : prints isPrint -> one_line ts -> ident (gname g) -> Forall (fun e => ident (pname (snd e))) order -> Forall noLF (headLines isPrint g ts order).
Proof.
  intros P T I F. constructor; [|constructor].
  - apply noLF_app; [apply noLF_dec; reflexivity|]. apply noLF_app; [apply line_noLF, T|apply noLF_dec; reflexivity].
  - apply noLF_app; [apply noLF_dec; reflexivity|apply ident_noLF, I].
  - apply Forall_map. eapply Forall_impl; [|exact F]. intros e. apply importLine_noLF, P.
Qed.
(* the code written begins with a line end, as the templates do *)
Lemma C65_file_lem isPrint g0 ps ts order body :
  prints isPrint -> one_line ts -> ident (gname g0) -> Forall (fun p => ident (pname p)) ps -> body = [] \/ (exists b, body = x0a :: b) ->
  let g := Import (Reset g0) ps in Permutation order (gimports g) ->
  exists decls rest,
    lines (DumpTo isPrint (mkGen (gname g) (gpath g) (gimports g) body) ts order) = (str "// Code generated by njson on " ++ ts ++ str "; DO NOT EDIT.") :: (str "package " ++ gname g0) :: decls ++ rest /\
    Forall2 (fun d e => declares isPrint d (fst e) (pname (snd e))) decls order /\
    NoDup (map fst order) /\ (forall x, In x (map fst order) <-> x <> gpath g0 /\ In x (map ppath ps)) /\ (forall x q, In (x, q) order -> ppath q = x /\ In q ps) /\
    (forall b, body = x0a :: b -> rest = lines b) /\ (body = [] -> rest = []).
Proof.
  intros P T I F B g Pm. destruct (Import_good ps (Reset g0) [] (Reset_good g0)) as ((N & Q & K) & Gp & Gn & Gb). fold g in N, Q, K, Gp, Gn, Gb. cbn [app gpath gname Reset] in *.
  assert (Fo : Forall (fun e => ident (pname (snd e))) order).
  { apply Forall_forall. intros [x q] J. apply (Permutation_in _ Pm) in J. destruct (Q _ _ J) as [_ J2]. rewrite Forall_forall in F. apply F, J2. }
  pose proof (headLines_noLF isPrint (mkGen (gname g) (gpath g) (gimports g) body) ts order P T ltac:(cbn; rewrite Gn; exact I) Fo) as NL.
  exists (map (importLine isPrint) order), (match body with [] => [] | _ :: b => lines b end).
  split; [|split; [|split; [|split; [|split; [|split]]]]].
  - unfold DumpTo. cbn [gbuffer]. change (Header _ _ _ _) with (joinLines (headLines isPrint (mkGen (gname g) (gpath g) (gimports g) body) ts order)).
    destruct B as [->|(b & ->)].
    + rewrite app_nil_r, lines_join by (auto; discriminate). unfold headLines. cbn [gname]. rewrite Gn, app_nil_r. reflexivity.
    + rewrite lines_join_app by (auto; discriminate). unfold headLines. cbn [gname]. rewrite Gn. reflexivity.
  - clear -Fo. induction Fo as [|[x q] o H Fo IH]; cbn [map]; constructor; auto. apply importLine_declares. exact H.
  - eapply Permutation_NoDup; [|exact N]. apply Permutation_map, Permutation_sym, Pm.
  - intro x. rewrite Gp in K. rewrite <- K. split; apply Permutation_in; [apply Permutation_map, Pm|apply Permutation_map, Permutation_sym, Pm].
  - intros x q J. apply Q. eapply Permutation_in; eauto.
  - intros b ->. reflexivity.
  - intros ->. reflexivity.
Qed.
Lemma firstLine_app l s : noLF l -> firstLine (l ++ x0a :: s) = (l, Some s).
Proof.
  induction l as [|c l IH]; intro H; cbn [app firstLine]; [reflexivity|]. destruct (beqb_spec c x0a) as [->|_]; [elim H; left; reflexivity|].
  rewrite IH; [reflexivity|]. intro J. apply H. right. exact J.
Qed.
Lemma firstLine_cases s : exists l, noLF l /\ (firstLine s = (l, None) /\ s = l \/ exists r, firstLine s = (l, Some r) /\ s = l ++ x0a :: r).
Proof.
  induction s as [|c s (l & N & H)]; [exists []; split; [intros []|left; auto]|]. cbn [firstLine]. destruct (beqb_spec c x0a) as [->|Nc]; [exists []; split; [intros []|right; eauto]|].
  exists (c :: l). split; [intros [J|J]; [congruence|exact (N J)]|]. destruct H as [(-> & ->)|(r & -> & ->)]; [left; auto|right; exists r; auto].
Qed.
Lemma blank_iff c : blank c = true <-> c = x20 \/ c = x09 \/ c = x0d.
Proof. unfold blank. rewrite !orb_true_iff, !beqb_true. tauto. Qed.
Lemma blanks_iff w : forallb blank w = true <-> Forall (fun c => c = x20 \/ c = x09 \/ c = x0d) w.
Proof. rewrite forallb_forall, Forall_forall. split; intros H c I; apply blank_iff, H, I. Qed.
Lemma HasPrefix_comment l : HasPrefix l (str "//") = true -> exists w, l = str "//" ++ w /\ uncomment l = match w with c :: r => if beqb c x20 then r else c :: r | [] => [] end.
Proof. intro H. apply HasPrefix_iff in H as (w & ->). exists w. split; [reflexivity|]. destruct w; reflexivity. Qed.
Lemma comment_blank w : forallb blank (match w with c :: r => if beqb c x20 then r else c :: r | [] => [] end) = forallb blank w.
Proof. destruct w as [|c r]; [reflexivity|]. destruct (beqb_spec c x20) as [->|]; reflexivity. Qed.
Definition Blank (c : byte) : Prop := c = x20 \/ c = x09 \/ c = x0d.
Lemma cut_line T w t r : noLF T -> (t = [] \/ exists u, t = x0a :: u) -> w ++ t = T ++ r -> exists r', w = T ++ r'.
Proof.
  revert w. induction T as [|c T IH]; intros w N Ht E; [exists w; reflexivity|]. destruct w as [|d w]; cbn in E.
  - exfalso. destruct Ht as [->|(u & ->)]; [discriminate E|]. injection E as <- _. apply N. left. reflexivity.
  - injection E as -> E. destruct (IH w) as (r' & ->); [intro J; apply N; right; exact J|exact Ht|exact E|]. exists r'. reflexivity.
Qed.
Lemma same_line a b t u : noLF a -> noLF b -> a ++ x0a :: t = b ++ x0a :: u -> a = b /\ t = u.
Proof.
  revert b. induction a as [|c a IH]; intros [|d b] Na Nb E; cbn in E.
  - injection E as E. auto.
  - injection E as <- _. elim Nb. left. reflexivity.
  - injection E as -> _. elim Na. left. reflexivity.
  - injection E as -> E. destruct (IH b) as [-> ->]; auto; intro J; [apply Na|apply Nb]; right; exact J.
Qed.
Lemma Blank_noLF w : Forall Blank w -> noLF w.
Proof. intros F I. rewrite Forall_forall in F. destruct (F _ I) as [C|[C|C]]; discriminate C. Qed.
Lemma njson_marks file : IsGeneratedByNJSON file = true <-> comment_starts file (str "Code generated by njson").
Proof.
  unfold IsGeneratedByNJSON. set (T := str "Code generated by njson"). assert (NT : noLF T) by (apply noLF_dec; reflexivity).
  assert (H : forall k s, length s <= k -> HasPrefix (commentText k s) T = true <-> comment_starts s T); [|apply H; lia].
  induction k as [|k IH]; intros s L.
  { destruct s; [|cbn in L; lia]. cbn [commentText]. split; [discriminate|]. intros (bs & sp & r & Es & _). destruct bs; discriminate Es. }
  cbn [commentText]. destruct (firstLine_cases s) as (l & N & H).
  assert (Es : exists rest t, firstLine s = (l, rest) /\ s = l ++ t /\ (rest = None /\ t = [] \/ exists r, rest = Some r /\ t = x0a :: r)) by (destruct H as [(F & ->)|(r & F & ->)]; [exists None, []; rewrite app_nil_r; auto|exists (Some r), (x0a :: r); eauto 6]).
  destruct Es as (rest & t & -> & Es & Ht). assert (Ht' : t = [] \/ exists u, t = x0a :: u) by (destruct Ht as [[_ ->]|(r & _ & ->)]; eauto). clear H.
  assert (NP : comment_starts s T -> HasPrefix l (str "//") = true).
  { intros (bs & sp & r & Ec & _). assert (Q : exists u, l ++ t = str "//" ++ u) by (rewrite <- Es, Ec; destruct bs as [|b bs]; cbn [map List.concat app]; eexists; reflexivity).
    destruct Q as (u & Q). destruct (cut_line (str "//") l t u) as (r' & ->); [apply noLF_dec; reflexivity|exact Ht'|exact Q|apply HasPrefix_iff; eauto]. }
  destruct (HasPrefix l (str "//")) eqn:Hp; [clear NP|split; [discriminate|intro C; discriminate (NP C)]].
  destruct (HasPrefix_comment l Hp) as (w & El & Eu). rewrite Eu, comment_blank. assert (Nw : noLF w) by (intro J; apply N; rewrite El; right; right; exact J). clear Eu.
  assert (Sw : forall sp r, (sp = [] \/ sp = [x20]) -> w ++ t = sp ++ T ++ r -> exists r', w = sp ++ T ++ r').
  { intros sp r Sp E. rewrite app_assoc in E. destruct (cut_line (sp ++ T) w t r) as (r' & ->); [destruct Sp as [->| ->]; apply noLF_dec; reflexivity|exact Ht'|exact E|]. exists r'. apply app_assoc_reverse. }
  destruct (forallb blank w) eqn:Bw.
  - assert (Fw : Forall Blank w) by exact (proj1 (blanks_iff w) Bw).
    assert (Go : comment_starts s T -> exists bs sp r u, s = str "//" ++ w ++ x0a :: u /\ u = List.concat (map (fun w => str "//" ++ w ++ [x0a]) bs) ++ str "//" ++ sp ++ T ++ r /\ Forall (Forall Blank) bs /\ (sp = [] \/ sp = [x20])).
    { intros (bs & sp & r & Ec & Fb & Sp). rewrite Es, El, <- app_assoc in Ec. destruct bs as [|b bs]; cbn [map List.concat] in Ec.
      - cbn [app] in Ec. injection Ec as Ec. destruct (Sw sp r Sp Ec) as (r' & ->). exfalso. rewrite Forall_forall in Fw. destruct (Fw x43) as [C|[C|C]]; [apply in_app_iff; right; left; reflexivity|discriminate C..].
      - rewrite <- !app_assoc in Ec. apply app_inv_head in Ec. inversion Fb as [|? ? Fb1 Fb2]; subst. cbn [app] in Ec. destruct Ht' as [->|(u & ->)].
        + exfalso. rewrite app_nil_r in Ec. apply Nw. rewrite Ec. apply in_app_iff. right. left. reflexivity.
        + apply same_line in Ec as [-> ->]; [|exact Nw|apply Blank_noLF; exact Fb1]. eexists bs, sp, r, _. rewrite <- app_assoc. split; [reflexivity|]. split; [reflexivity|auto]. }
    destruct Ht as [[-> Et]|(r0 & -> & Et)].
    + split; [discriminate|]. intro C. destruct (Go C) as (bs & sp & r & u & Eq & _). exfalso. rewrite Es, El, Et, app_nil_r in Eq. apply app_inv_head in Eq. rewrite <- (app_nil_r w) in Eq at 1. apply app_inv_head in Eq. discriminate Eq.
    + rewrite IH by (rewrite Es, Et, app_length in L; cbn in L; lia). split.
      * intros (bs & sp & r & E0 & Fb & Sp). exists (w :: bs), sp, r. split; [|split; [constructor; assumption|exact Sp]]. rewrite Es, El, Et, E0. cbn [map List.concat]. rewrite <- !app_assoc. reflexivity.
      * intro C. destruct (Go C) as (bs & sp & r & u & Eq & Eu & Fb & Sp). rewrite Es, El, Et, <- app_assoc in Eq. apply app_inv_head in Eq. apply app_inv_head in Eq. injection Eq as ->. exists bs, sp, r. auto.
  - assert (Nb : ~ Forall Blank w) by (intro F; apply blanks_iff in F; congruence). split.
    + intro P. apply HasPrefix_iff in P as (r & P). destruct w as [|c w]; [discriminate P|]. destruct (beqb_spec c x20) as [->|Nc].
      * exists [], [x20], (r ++ t). split; [|split; [constructor|auto]]. rewrite Es, El, P. cbn [map List.concat app]. rewrite <- app_assoc. reflexivity.
      * exists [], [], (r ++ t). split; [|split; [constructor|auto]]. rewrite Es, El, P. cbn [map List.concat app]. rewrite <- app_assoc. reflexivity.
    + intros (bs & sp & r & Ec & Fb & Sp). rewrite Es, El, <- app_assoc in Ec. destruct bs as [|b bs]; cbn [map List.concat] in Ec.
      * cbn [app] in Ec. injection Ec as Ec. destruct (Sw sp r Sp Ec) as (r' & ->). apply HasPrefix_iff. exists r'. destruct Sp as [->| ->]; reflexivity.
      * exfalso. apply Nb. rewrite <- !app_assoc in Ec. apply app_inv_head in Ec. inversion Fb as [|? ? Fb1 Fb2]; subst. cbn [app] in Ec. destruct Ht' as [->|(u & ->)].
        -- exfalso. rewrite app_nil_r in Ec. apply Nw. rewrite Ec. apply in_app_iff. right. left. reflexivity.
        -- apply same_line in Ec as [-> _]; [exact Fb1|exact Nw|apply Blank_noLF; exact Fb1].
Qed.
Lemma C65_recognised_lem isPrint g ts order : one_line ts -> IsGeneratedByNJSON (DumpTo isPrint g ts order) = true.
Proof.
  intro T. unfold IsGeneratedByNJSON, DumpTo, Header. cbn [joinLines].
  set (l := str "// Code generated by njson on " ++ ts ++ str "; DO NOT EDIT.").
  assert (N : noLF l) by (apply noLF_app; [apply noLF_dec; reflexivity|]; apply noLF_app; [apply line_noLF, T|apply noLF_dec; reflexivity]).
  assert (E : exists s, (l ++ x0a :: match map (importLine isPrint) order with [] => str "package " ++ gname g | _ :: _ => (str "package " ++ gname g) ++ x0a :: joinLines (map (importLine isPrint) order) end) ++ gbuffer g = l ++ x0a :: s) by (rewrite <- app_assoc; eexists; reflexivity).
  destruct E as (s & ->). assert (L : exists k, length (l ++ x0a :: s) = S k) by (exists (length (skipn 1 l ++ x0a :: s)); reflexivity). destruct L as (k & ->).
  cbn [commentText]. rewrite firstLine_app by exact N. reflexivity.
Qed.
Lemma C65_generated_lem ts : generated_line (str "// Code generated by njson on " ++ ts ++ str "; DO NOT EDIT.").
Proof. exists (str "by njson on " ++ ts ++ str ";"). rewrite <- !app_assoc. reflexivity. Qed.

(* two packages of one name *)
Definition pkgA : pkg := mkPkg (str "example.com/a/model") (str "model").
Definition pkgB : pkg := mkPkg (str "example.com/b/model") (str "model").
Definition pkgY : pkg := mkPkg (str "gopkg.in/yaml.v2") (str "yaml").
Definition pkgN : pkg := mkPkg (str "github.com/alxarch/njson") (str "njson").
Definition gen0 : gen := mkGen (str "foo_test") (str "foo_test") [] [].
Definition stamp : bytes := str "Mon, 02 Jan 2006 15:04:05 UTC".
Lemma C65_clash_lem isPrint : exists g ps d d', Permutation (gimports (Import g ps)) [(ppath pkgA, pkgA); (ppath pkgB, pkgB)] /\
  Forall (fun p => ident (pname p)) ps /\ declares isPrint d (ppath pkgA) (str "model") /\ declares isPrint d' (ppath pkgB) (str "model") /\
  forall ts, exists c, Header isPrint (Import g ps) ts (gimports (Import g ps)) = c ++ x0a :: d ++ x0a :: d'.
Proof.
  assert (I : ident (str "model")).
  { split; [right; left; vm_compute; split; discriminate|]. apply Forall_forall. intros c H. left. right. left. repeat (destruct H as [<-|H]; [vm_compute; split; discriminate|]). destruct H. }
  exists gen0, [pkgA; pkgB], (importLine isPrint (ppath pkgA, pkgA)), (importLine isPrint (ppath pkgB, pkgB)).
  split; [apply Permutation_refl|]. split; [exact (Forall_cons pkgA I (Forall_cons pkgB I (Forall_nil _)))|]. split; [apply (importLine_declares isPrint _ pkgA I)|]. split; [apply (importLine_declares isPrint _ pkgB I)|].
  intro ts. exists ((str "// Code generated by njson on " ++ ts ++ str "; DO NOT EDIT.") ++ x0a :: str "package foo_test").
  unfold Header. change (gimports (Import gen0 [pkgA; pkgB])) with [(ppath pkgA, pkgA); (ppath pkgB, pkgB)]. change (gname (Import gen0 [pkgA; pkgB])) with (str "foo_test"). cbn [map].
  generalize (importLine isPrint (ppath pkgA, pkgA)) (importLine isPrint (ppath pkgB, pkgB)). intros d d'. cbn [joinLines]. rewrite <- !app_assoc. reflexivity.
Qed.

(* ---- the command ---- *)
Lemma special_iff c : special c = true <-> In c (str "\.+*?()|[]{}^$").
Proof.
  unfold special. rewrite existsb_exists. split.
  - intros (x & I & E). apply beqb_true in E as ->. exact I.
  - intro I. exists c. split; [exact I|apply beqb_refl].
Qed.
Lemma QuoteMeta_len s : (length s <= length (QuoteMeta s))%nat.
Proof. induction s as [|c s IH]; [auto|]. unfold QuoteMeta in *. cbn [flat_map length]. rewrite app_length. destruct (special c); cbn [length]; lia. Qed.
Lemma QuoteMeta_iff s : bseqb (QuoteMeta s) s = true <-> plain_name s.
Proof.
  rewrite bseqb_true. induction s as [|c s IH]; [split; [constructor|reflexivity]|]. unfold QuoteMeta in *. cbn [flat_map]. split.
  - intro E. destruct (special c) eqn:S.
    + exfalso. apply (f_equal (@length byte)) in E. cbn [length app] in E. pose proof (QuoteMeta_len s). unfold QuoteMeta in *. lia.
    + injection E as E. constructor; [rewrite <- special_iff; congruence|apply IH, E].
  - intro F. inversion F as [|? ? H F']. subst. rewrite <- special_iff in H. apply not_true_is_false in H. rewrite H. cbn [app]. f_equal. apply IH, F'.
Qed.
Section Run.
  Variable compile : bytes -> option (bytes -> bool).
  Variable structs : option (list bytes).
  Variables unmarshaler appender : bytes -> option (list pkg * bytes).
  Variable printTo : gen -> option bytes.
  Variable create : bool.
  Notation run := (run compile structs unmarshaler appender printTo create).

  Lemma typeFilter_wanted m keep : typeFilter compile m = Some keep -> forall t, keep t = true <-> wanted compile m t.
  Proof.
    unfold typeFilter, wanted. destruct (bseqb m [] || bseqb m (str "*")) eqn:E.
    - apply orb_true_iff in E. rewrite !bseqb_true in E. intros H t. injection H as <-. tauto.
    - apply orb_false_iff in E as [E1 E2]. rewrite bseqb_false in E1, E2. destruct (bseqb (QuoteMeta m) m) eqn:Q.
      + apply QuoteMeta_iff in Q. intros H t. injection H as <-. rewrite bseqb_true. split; [auto|]. intros [?|[?|[[_ ?]|(? & _)]]]; try contradiction; auto.
      + assert (N : ~ plain_name m) by (rewrite <- QuoteMeta_iff; congruence). intros H t. split; [intro K; right; right; right; eauto|].
        intros [?|[?|[[? _]|(_ & f & C & K)]]]; try contradiction. rewrite H in C. injection C as ->. exact K.
  Qed.
  Lemma writeCode_spec g c g' : writeCode g c = Some g' -> exists ps s, c = Some (ps, s) /\ gbuffer g' = gbuffer g ++ s /\ gname g' = gname g /\ gpath g' = gpath g.
  Proof.
    unfold writeCode. destruct c as [(ps & s)|]; [|discriminate]. intro H. injection H as <-. cbn. exists ps, s. split; auto.
    assert (K : forall l h, gbuffer (Import h l) = gbuffer h /\ gname (Import h l) = gname h /\ gpath (Import h l) = gpath h).
    { induction l as [|p l IH]; intro h; [auto|]. cbn [Import fold_left]. destruct (IH (import1 h p)) as (A & B & C). unfold Import in *. rewrite A, B, C. unfold import1. destruct (bseqb _ _); auto. }
    destruct (K ps g) as (-> & -> & ->). auto.
  Qed.
  Lemma writeType_spec u a g t g' : writeType unmarshaler appender u a g t = Some g' ->
    gbuffer g' = gbuffer g ++ codeOf u (unmarshaler t) ++ codeOf a (appender t) /\ madeOf u (unmarshaler t) /\ madeOf a (appender t).
  Proof.
    unfold writeType, codeOf, madeOf. destruct u.
    - destruct (writeCode g (unmarshaler t)) as [g1|] eqn:E; [|discriminate]. apply writeCode_spec in E as (ps & s & -> & B & _). destruct a.
      + intro H. apply writeCode_spec in H as (ps' & s' & -> & B' & _). rewrite B', B, app_assoc. repeat split; intros; discriminate.
      + intro H. injection H as <-. rewrite B, app_nil_r. repeat split; intros; discriminate.
    - destruct a.
      + intro H. apply writeCode_spec in H as (ps' & s' & -> & B' & _). rewrite B'. repeat split; intros; discriminate.
      + intro H. injection H as <-. rewrite app_nil_r. repeat split; intros; discriminate.
  Qed.
  Lemma writeTypes_spec u a ts : forall g g', writeTypes unmarshaler appender u a g ts = Some g' ->
    gbuffer g' = gbuffer g ++ flat_map (fun t => codeOf u (unmarshaler t) ++ codeOf a (appender t)) ts /\ Forall (fun t => madeOf u (unmarshaler t) /\ madeOf a (appender t)) ts.
  Proof.
    induction ts as [|t ts IH]; intros g g'; cbn [writeTypes flat_map].
    - intro H. injection H as <-. rewrite app_nil_r. auto.
    - destruct (writeType _ _ u a g t) as [g1|] eqn:E; [|discriminate]. intro H. apply writeType_spec in E as (B & M). apply IH in H as (B' & F). rewrite B', B, <- app_assoc. auto.
  Qed.
  Lemma writeCode_total g c : c <> None -> exists g', writeCode g c = Some g'.
  Proof. destruct c as [(ps & s)|]; [|congruence]. intros _. eexists. reflexivity. Qed.
  Lemma writeTypes_total u a ts : Forall (fun t => madeOf u (unmarshaler t) /\ madeOf a (appender t)) ts -> forall g, exists g', writeTypes unmarshaler appender u a g ts = Some g'.
  Proof.
    induction 1 as [|t ts (U & A) F IH]; intro g; [eexists; reflexivity|]. cbn [writeTypes]. unfold writeType.
    assert (X : exists g1, (if u then writeCode g (unmarshaler t) else Some g) = Some g1) by (destruct u; [apply writeCode_total, U; reflexivity|eauto]). destruct X as (g1 & ->).
    assert (X : exists g2, (if a then writeCode g1 (appender t) else Some g1) = Some g2) by (destruct a; [apply writeCode_total, A; reflexivity|eauto]). destruct X as (g2 & ->). apply IH.
  Qed.
  Lemma generates_spec F : generates F = (fUnmarshal F || negb (fAppend F), fAppend F || negb (fUnmarshal F))%bool.
  Proof. unfold generates. destruct (fAppend F), (fUnmarshal F); reflexivity. Qed.

  (* what a run that ends well has done *)
  Lemma C66_run_lem F args g0 old o : run F args g0 old = o -> oOk o = true ->
    exists all types g, structs = Some all /\ types <> [] /\ incl types all /\ (forall t, In t types <-> In t all /\ wanted compile (nth 1 args []) t) /\
      (NoDup all -> NoDup types) /\
      gbuffer g = flat_map (fun t => codeOf (fUnmarshal F || negb (fAppend F)) (unmarshaler t) ++ codeOf (fAppend F || negb (fUnmarshal F)) (appender t)) types /\
      Forall (fun t => madeOf (fUnmarshal F || negb (fAppend F)) (unmarshaler t) /\ madeOf (fAppend F || negb (fUnmarshal F)) (appender t)) types /\
      (fDebug F = true -> oFile o = old /\ oStdout o = []) /\
      (fDebug F = false -> exists s, printTo g = Some s /\ if fWrite F then oFile o = Some s /\ oStdout o = [] else oFile o = old /\ oStdout o = s).
  Proof.
    intros <- K. unfold GenFile.run in *. destruct (matchOk compile F); [|discriminate]. cbn [negb] in *. rewrite generates_spec in *.
    destruct structs as [all|]; [|discriminate]. destruct (typeFilter compile (Arg args 1)) as [keep|] eqn:T; [|discriminate]. pose proof (typeFilter_wanted _ _ T) as W. unfold Arg in W.
    destruct (filter keep all) as [|t0 ts0] eqn:Ft; [discriminate|]. destruct (writeTypes _ _ _ _ _ (t0 :: ts0)) as [g|] eqn:Wt; [|discriminate]. pose proof (writeTypes_spec _ _ _ _ _ Wt) as (B & Md).
    exists all, (t0 :: ts0), g. split; [reflexivity|]. split; [discriminate|]. rewrite <- Ft in *. split; [intros t I; apply filter_In in I; tauto|]. split; [intro t; rewrite filter_In, W; tauto|].
    split; [apply NoDup_filter|]. split; [exact B|]. split; [exact Md|].
    destruct (fDebug F); [split; [auto|discriminate]|]. split; [discriminate|]. intros _.
    destruct (fWrite F); [destruct create; [|discriminate]|]; destruct (printTo g) as [s|]; try discriminate; exists s; auto.
  Qed.
  (* a run that does not end well leaves the file alone, unless the code could not be formatted *)
  Lemma C66_kept_lem F args g0 old o : run F args g0 old = o -> oOk o = false ->
    oStdout o = [] /\ (oFile o = old \/ fWrite F = true /\ oFile o = Some [] /\ exists g, printTo g = None).
  Proof.
    intros <- K. unfold GenFile.run in *. destruct (matchOk compile F); [|auto]. cbn [negb] in *. destruct (generates F) as [u a].
    destruct structs as [all|]; [|auto]. destruct (typeFilter compile (Arg args 1)) as [keep|]; [|auto].
    destruct (filter keep all) as [|t0 ts0]; [auto|]. destruct (writeTypes _ _ _ _ _ (t0 :: ts0)) as [g|]; [|auto].
    destruct (fDebug F); [discriminate|]. destruct (fWrite F) eqn:Fw; [destruct create; [|auto]|]; destruct (printTo g) as [s|] eqn:Pg; try discriminate; auto. split; [reflexivity|]. right. eauto.
  Qed.
  (* a type that is named *)
  Lemma C66_named_lem F args g0 old all name : structs = Some all -> NoDup all -> nth 1 args [] = name -> name <> [] -> plain_name name -> matchOk compile F = true ->
    (In name all -> (fUnmarshal F = true \/ fAppend F = false -> unmarshaler name <> None) -> (fAppend F = true \/ fUnmarshal F = false -> appender name <> None) -> (forall g, printTo g <> None) -> create = true ->
       oOk (run F args g0 old) = true) /\
    (~ In name all -> run F args g0 old = mkOut false old []).
  Proof.
    intros E N A Ne P M. unfold GenFile.run. rewrite M. cbn [negb]. rewrite generates_spec, E. unfold Arg. rewrite A.
    assert (T : typeFilter compile name = Some (fun t => bseqb t name)).
    { unfold typeFilter. assert (X : bseqb name [] || bseqb name (str "*") = false). { apply orb_false_iff. rewrite !bseqb_false. split; auto. intros ->. inversion P as [|? ? H]. apply H. vm_compute. tauto. }
      rewrite X. apply QuoteMeta_iff in P. rewrite P. reflexivity. }
    rewrite T. split.
    - intros I U Ap Pr C. assert (X : exists t0 ts0, filter (fun t => bseqb t name) all = t0 :: ts0 /\ Forall (eq name) (t0 :: ts0)).
      { destruct (filter (fun t => bseqb t name) all) as [|t0 ts0] eqn:Ft.
        - exfalso. assert (J : In name (filter (fun t => bseqb t name) all)) by (apply filter_In; split; [exact I|apply bseqb_refl]). rewrite Ft in J. destruct J.
        - exists t0, ts0. split; auto. rewrite <- Ft. apply Forall_forall. intros x J. apply filter_In in J as [_ J]. apply bseqb_true in J. auto. }
      destruct X as (t0 & ts0 & -> & Fa).
      destruct (writeTypes_total (fUnmarshal F || negb (fAppend F)) (fAppend F || negb (fUnmarshal F)) (t0 :: ts0)) with (g := Reset g0) as (g & ->).
      { eapply Forall_impl; [|exact Fa]. intros t <-. unfold madeOf. split; intro H; [apply U|apply Ap]; apply orb_true_iff in H as [H|H]; auto; apply negb_true_iff in H; auto. }
      destruct (fDebug F); [reflexivity|]. rewrite C. pose proof (Pr g) as Pg. destruct (printTo g) as [s|]; [|congruence]. destruct (fWrite F); reflexivity.
    - intro I. destruct (filter (fun t => bseqb t name) all) as [|t0 ts0] eqn:Ft; [reflexivity|]. exfalso. assert (J : In t0 (filter (fun t => bseqb t name) all)) by (rewrite Ft; left; reflexivity).
      apply filter_In in J as [J1 J2]. apply bseqb_true in J2 as ->. contradiction.
  Qed.
  (* the arguments behind the first type are not used *)
  Lemma C66_args_lem F p t more g0 old : run F (p :: t :: more) g0 old = run F [p; t] g0 old.
  Proof. reflexivity. Qed.
End Run.

(* instances *)
Definition exCode (t : bytes) : option (list pkg * bytes) := Some ([pkgN], x0a :: str "func " ++ t).
Definition exPrint (g : gen) : option bytes := Some (gbuffer g).
Definition exFlags : flags := mkFlags true false (str ".*") false true.
Lemma C66_more_lem : exists o, run (fun _ => None) (Some [str "A"; str "B"]) exCode exCode exPrint true exFlags [str "p"; str "A"; str "B"] gen0 None = o /\
  oOk o = true /\ oFile o = Some (x0a :: str "func A").
Proof. eexists. split; [reflexivity|]. split; reflexivity. Qed.
Lemma C66_lost_lem : exists printTo old o, old <> [] /\ run (fun _ => None) (Some [str "A"; str "B"]) exCode exCode printTo true exFlags [str "p"; str "A"] gen0 (Some old) = o /\
  oOk o = false /\ oFile o = Some [].
Proof. exists (fun _ => None), (str "package p"). eexists. split; [discriminate|]. split; [reflexivity|]. split; reflexivity. Qed.

(* ---- receivers ---- *)
Lemma C66_receiver_lem c r : (65 <= bN c <= 90 \/ 97 <= bN c <= 122)%N -> exists d, receiverName (c :: r) = [d] /\ (97 <= bN d <= 122)%N.
Proof.
  intro H. cbn [receiverName]. destruct ((65 <=? bN c) && (bN c <=? 90))%N eqn:E.
  - apply andb_prop in E as [E1 E2]. apply N.leb_le in E1, E2. eexists. split; [reflexivity|]. rewrite bN_Nb, N.mod_small by lia. lia.
  - apply andb_false_iff in E. rewrite !N.leb_gt in E. assert (L : (bN c <? 128)%N = true) by (apply N.ltb_lt; lia). rewrite L. exists c. split; [reflexivity|lia].
Qed.
Lemma C66_receiver_bad_lem : (exists t, ident t /\ receiverName t = str "_") /\ (exists t, valid_utf8 t /\ ident t /\ receiverName t = utf8 65533).
Proof.
  split.
  - exists (str "_T"). split; [|reflexivity]. split; [right; right; left; reflexivity|]. constructor; [|constructor]. left. left. vm_compute. split; discriminate.
  - exists (utf8 196). split; [exists [196%N]; split; [constructor; [left; reflexivity|constructor]|reflexivity]|]. split; [|vm_compute; reflexivity].
    split; [right; right; right; vm_compute; discriminate|]. constructor; [|constructor]. left. right. right. right. vm_compute. discriminate.
Qed.
