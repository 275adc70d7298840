(* Proofs for C67: test cases of njsontest. *)
From Verif Require Import Bytes Types JsonSpec Parser Doc DocSpec ParserThms NjTest NjTestSpec.
Local Open Scope nat_scope.

Section Last.
  Context {V A : Type}.
  Variable f : given V -> option A.
  Lemma last_cons o l a : last_of f (o :: l) a <-> last_of f l a \/ f o = Some a /\ none_of f l.
  Proof.
    split.
    - intros (p & o' & q & E & F & N). destruct p as [|o0 p]; cbn [app] in E; injection E as -> ->; [right; split; auto|]. left. exists p, o', q. auto.
    - intros [(p & o' & q & -> & F & N)|(F & N)]; [exists (o :: p), o', q; auto|]. exists [], o, l. auto.
  Qed.
  Lemma none_cons o l : none_of f (o :: l) <-> f o = None /\ none_of f l.
  Proof. unfold none_of. split; [intro H; split; [apply H; left; reflexivity|intros; apply H; right; assumption]|intros (A0 & B) o' [<-|I]; auto]. Qed.
  Lemma last_not_none l a : last_of f l a -> none_of f l -> False.
  Proof. intros (p & o & q & -> & F & _) N. rewrite (N o) in F; [discriminate|]. apply in_elt. Qed.
  Lemma last_det l a b : last_of f l a -> last_of f l b -> a = b.
  Proof.
    induction l as [|o l IH]; intros H H'; [destruct H as (p & ? & ? & E & _); destruct p; discriminate|]. apply last_cons in H, H'. destruct H as [H|(H & N)], H' as [H'|(H' & N')]; auto.
    - destruct (last_not_none _ _ H N').
    - destruct (last_not_none _ _ H' N).
    - congruence.
  Qed.
  (* a field of the test that options of this sort set *)
  Lemma folded (U : universe V) {B} (get : T V -> B) (val : A -> B) :
    (forall o t o', make U o = Ok o' -> get (match o' with Some o' => set t o' | None => t end) = match f o with Some a => val a | None => get t end) ->
    forall l os t, makeAll U l = Ok os ->
      (exists a, last_of f l a /\ get (fold_left (fun t o => match o with Some o => set t o | None => t end) os t) = val a) \/
      none_of f l /\ get (fold_left (fun t o => match o with Some o => set t o | None => t end) os t) = get t.
  Proof.
    intro S. induction l as [|o l IH]; intros os t H; cbn [makeAll] in H.
    - injection H as <-. right. split; [intros ? []|reflexivity].
    - destruct (make U o) as [o'| |] eqn:Mo; try discriminate. cbn [bind] in H. destruct (makeAll U l) as [os'| |] eqn:Ml; try discriminate. cbn [bind] in H. injection H as <-. cbn [fold_left].
      destruct (IH _ (match o' with Some o' => set t o' | None => t end) eq_refl) as [(a & L & Q)|(N & Q)]; [left; exists a; split; [apply last_cons; auto|exact Q]|].
      rewrite Q, (S o t o' Mo). destruct (f o) as [a|] eqn:Fo; [left; exists a; split; [apply last_cons; auto|reflexivity]|right; split; [apply none_cons; auto|reflexivity]].
  Qed.
End Last.

Section Case.
  Context {V : Type}.
  Variables (U : universe V) (x : subject V) (l : list (given V)) (os : list (option (toption V))).
  Hypothesis Mk : makeAll U l = Ok os.
  Definition checkOf (a : errorArg) : option checks := match Error a with Ok c => c | _ => None end.
  Lemma test_check : (exists a, last_of anError l a /\ tcheck (newT U x os) = checkOf a) \/ none_of anError l /\ tcheck (newT U x os) = None.
  Proof.
    unfold newT. apply (folded anError U tcheck checkOf); [|exact Mk]. intros o t o' H. destruct o as [n|a|y|a|]; cbn [make anError] in *; try (injection H as <-; reflexivity).
    unfold checkOf. destruct (Error a); try discriminate. injection H as <-. reflexivity.
  Qed.
  Lemma test_method : (exists a, last_of aMethod l a /\ tmethod (newT U x os) = a) \/ none_of aMethod l /\ tmethod (newT U x os) = [].
  Proof.
    unfold newT. apply (folded aMethod U tmethod (fun a => a)); [|exact Mk]. intros o t o' H. destruct o as [n|a|y|a|]; cbn [make aMethod] in *; try (injection H as <-; reflexivity).
    destruct (Error a); try discriminate. injection H as <-. reflexivity.
  Qed.
  Lemma test_value : (exists a, last_of aValue l a /\ tvalue (newT U x os) = a) \/ none_of aValue l /\ tvalue (newT U x os) = SNil.
  Proof.
    unfold newT. apply (folded aValue U tvalue (fun a => a)); [|exact Mk]. intros o t o' H. destruct o as [n|a|y|a|]; cbn [make aValue] in *; try (injection H as <-; reflexivity).
    destruct (Error a); try discriminate. injection H as <-. reflexivity.
  Qed.
  Lemma test_json : (exists a, last_of aJSON l a /\ tjson (newT U x os) = JSON U a) \/ none_of aJSON l /\ tjson (newT U x os) = fun _ m => Ok (marshal U x m).
  Proof.
    unfold newT. apply (folded aJSON U (fun t => tjson t) (JSON U)); [|exact Mk]. intros o t o' H. destruct o as [n|a|y|a|]; cbn [make aJSON] in *; try (injection H as <-; reflexivity).
    destruct (Error a); try discriminate. injection H as <-. reflexivity.
  Qed.
  Lemma name_of default name : named l default name -> match tmethod (newT U x os) with [] => default | n => n end = name.
  Proof.
    intros [(L & N)|(L & ->)]; destruct test_method as [(a & L' & ->)|(L' & ->)].
    - rewrite (last_det _ _ _ _ L' L). destruct name; congruence.
    - destruct (last_not_none _ _ _ L L').
    - destruct L as [L|L]; [rewrite (last_det _ _ _ _ L' L); reflexivity|destruct (last_not_none _ _ _ L' L)].
    - reflexivity.
  Qed.
  Lemma yields_iff k m a b e : yields U k m a b e <-> JSON U a k m = Ok (b, e).
  Proof.
    split.
    - intros [f b' e' F|b'|b'|b' e' K|b' e' K| |y b' e' F]; cbn [JSON]; try reflexivity; [exact F|subst k; reflexivity|destruct k; [congruence|reflexivity]|rewrite F; reflexivity].
    - destruct a as [[f|]|b'|b'|b' e'| |y]; cbn [JSON]; intro H; try discriminate; try (injection H as <- <-); try (constructor; fail).
      + constructor. exact H.
      + destruct k; injection H as <- <-; constructor; auto.
      + injection H as H. constructor. exact H.
  Qed.
  Lemma data_iff k m b e : data_for U x l k m b e <-> tjson (newT U x os) k m = Ok (b, e).
  Proof.
    destruct test_json as [(a & L & ->)|(N & ->)].
    - rewrite <- yields_iff. split; [intros [a' b' e' L' Y|b' e' N' _]; [rewrite (last_det _ _ _ _ L L'); exact Y|destruct (last_not_none _ _ _ L N')]|intro Y; eapply df_given; eauto].
    - split; [intros [a' b' e' L' Y|b' e' _ Y]; [destruct (last_not_none _ _ _ L' N)|rewrite Y; reflexivity]|intro Y; injection Y as Y; apply df_default; auto].
  Qed.
  Lemma data_det k m b e b' e' : data_for U x l k m b e -> data_for U x l k m b' e' -> b = b' /\ e = e'.
  Proof. rewrite !data_iff. intros -> H. injection H; auto. Qed.
  Lemma hasPrefix_iff s p : hasPrefix s p = true <-> exists r, s = p ++ r.
  Proof.
    revert s. induction p as [|c p IH]; intro s; [destruct s; split; [eexists; reflexivity|reflexivity|eexists; reflexivity|reflexivity]|]. destruct s as [|d s]; cbn [hasPrefix app]; [split; [discriminate|intros (r & Q); discriminate Q]|]. rewrite andb_true_iff, IH. split.
    - intros (A & r & ->). exists r. destruct (beqb_spec c d); [subst; reflexivity|discriminate].
    - intros (r & Q). injection Q as -> ->. split; [destruct (beqb_spec c c); congruence|eauto].
  Qed.
  Lemma contains_iff s p : contains s p = true <-> exists a b, s = a ++ p ++ b.
  Proof.
    induction s as [|d s IH]; cbn [contains]; rewrite orb_true_iff, hasPrefix_iff; split.
    - intros [(r & Q)|Q]; [exists [], r; exact Q|discriminate].
    - intros (a & b & Q). left. destruct a; [|discriminate]. exists b. exact Q.
    - intros [(r & Q)|Q]; [exists [], r; exact Q|]. apply IH in Q as (a & b & ->). exists (d :: a), b. reflexivity.
    - intros (a & b & Q). destruct a as [|c a]; cbn [app] in Q; [left; exists b; exact Q|]. injection Q as -> ->. right. apply IH. eauto.
  Qed.
  Lemma orNil_iff e b : orNil e b = None <-> b = true.
  Proof. destruct b; cbn; split; congruence. Qed.
  (* the check of an argument *)
  Lemma check_cases a : a <> EAOther -> (~ wants a /\ checkOf a = None) \/ wants a /\ exists c, checkOf a = Some c /\ forall e, asks a e -> exists r, c e = Ok r /\ (r = None <-> takes a e).
  Proof.
    intros Na. destruct a as [|e'|[f|]|[|c s]|[r|]|[]|]; unfold checkOf; cbn [Error]; try congruence; try (left; split; [intro W; inversion W|reflexivity]); right; (split; [constructor|]); eexists; (split; [reflexivity|]); intros e A; cbn [asks] in A.
    - unfold sameErr. destruct (Nat.eqb_spec (etype e) (etype e')) as [Et|Et].
      + rewrite (A Et). cbn [bind]. eexists. split; [reflexivity|]. rewrite orNil_iff, Nat.eqb_eq. split; [intro; constructor; auto|intro Q; inversion Q; auto].
      + cbn [bind]. eexists. split; [reflexivity|]. rewrite orNil_iff. split; [discriminate|]. intro Q. inversion Q; contradiction.
    - destruct A as (r & A). exists r. split; [exact A|]. split; [intros ->; constructor; exact A|]. intro Q. inversion Q as [|f0 e0 Q'| | |]; subst. congruence.
    - eexists. split; [reflexivity|]. rewrite orNil_iff, contains_iff. split; [intros (p & q & Q); econstructor; exact Q|]. intro Q. inversion Q as [| |s0 e0 p q Q'| |]; subst. eauto.
    - eexists. split; [reflexivity|]. rewrite orNil_iff. split; [constructor; assumption|]. intro Q. inversion Q. assumption.
    - eexists. split; [reflexivity|]. split; [constructor|reflexivity].
  Qed.
  Hypothesis As : forall a e, last_of anError l a -> asks a e.
  Lemma not_other a : last_of anError l a -> a <> EAOther.
  Proof. intros L ->. exact (As _ (mkErr 0 0 true []) L). Qed.
  Lemma check_met (err : option gerr) : exists r, checkError (err_result err) (tcheck (newT U x os)) = Ok r /\
    match tcheck (newT U x os) with
    | None => ~ wanted l /\ (r = None <-> err = None)
    | Some _ => wanted l /\ (r = None <-> error_met l err)
    end.
  Proof.
    assert (No : ~ wanted l -> tcheck (newT U x os) = None -> exists r, checkError (err_result err) None = Ok r /\ ~ wanted l /\ (r = None <-> err = None)).
    { intros N _. destruct err as [e|]; cbn [err_result checkError]; eexists; (split; [reflexivity|]); (split; [exact N|]); split; congruence. }
    destruct test_check as [(a & L & Q)|(N & Q)].
    - destruct (check_cases a (not_other a L)) as [(Nw & Cn)|(Wa & c & Cs & Tc)].
      + rewrite Q, Cn in *. apply No; auto. intros (a' & L' & W'). rewrite (last_det _ _ _ _ L' L) in W'. contradiction.
      + rewrite Q, Cs. assert (Wd : wanted l) by (exists a; auto). destruct err as [e|]; cbn [err_result checkError].
        * destruct (Tc e (As a e L)) as (r & -> & Tk). cbn [bind]. eexists. split; [reflexivity|]. split; [exact Wd|]. split.
          -- intro R. destruct r; [discriminate|]. exists a, e. split; auto. split; auto. split; auto. apply Tk. reflexivity.
          -- intros (a' & e' & L' & _ & E' & T'). rewrite (last_det _ _ _ _ L' L) in T'. injection E' as <-. apply Tk in T'. subst r. reflexivity.
        * eexists. split; [reflexivity|]. split; [exact Wd|]. split; [discriminate|]. intros (a' & e' & _ & _ & E' & _). discriminate.
    - rewrite Q in *. apply No; auto. intros (a & L & _). exact (last_not_none _ _ _ L N).
  Qed.
  Lemma C67_append_core name f k m v b err m' data derr : x <> SNil -> named l (str "AppendJSON") name -> methodOf U x name = Some f -> fits f = true ->
    call f ANil m = Ok (m', [v; err_result err]) -> bytes_result v b -> data_for U x l k m data derr ->
    exists run m2 rep, AppendJSON U x os = Some run /\ run k m = Ok (m2, rep) /\
      (rep = [] <-> derr = None /\ (error_met l err \/ ~ wanted l /\ err = None /\ b = data)).
  Proof.
    intros Nx Nm Mf Fi Ca Br Da. assert (Ex : exists run, AppendJSON U x os = Some run) by (destruct x; [congruence|eexists; reflexivity..]). destruct Ex as (run & Er).
    assert (Run : run k m = (let! data := tjson (newT U x os) k m in
          match data with
          | (_, Some e) => Ok (m, [CData e])
          | (expect, None) => let! e := checkError (err_result err) (tcheck (newT U x os)) in
                  match e with
                  | Some e => Ok (m', [CError e])
                  | None => match tcheck (newT U x os) with Some _ => Ok (m', []) | None => Ok (m', if bseqb (match v with RBytes b => b | _ => [] end) expect then [] else [CBytes expect (match v with RBytes b => b | _ => [] end)]) end
                  end
          end)).
    { pose proof (name_of _ _ Nm) as Nn. unfold AppendJSON in Er. destruct x as [|t p|t y]; [congruence|..]; injection Er as <-; cbv zeta; rewrite Nn; unfold callMethod; rewrite !Mf, Fi, Ca; cbn [bind app]; reflexivity. }
    apply data_iff in Da. rewrite Da in Run. cbn [bind] in Run. exists run. destruct derr as [de|].
    - exists m, [CData de]. split; auto. split; auto. split; [discriminate|]. intros (Q & _). discriminate.
    - destruct (check_met err) as (r & Cr & R). rewrite Cr in Run. cbn [bind] in Run. assert (Bv : match v with RBytes b => b | _ => [] end = b) by (destruct Br as [->|(-> & ->)]; reflexivity). rewrite Bv in Run.
      destruct (tcheck (newT U x os)) as [c|]; destruct R as (W & R).
      + destruct r as [r|]; do 2 eexists; (split; [exact Er|]); (split; [exact Run|]).
        * split; [discriminate|]. intros (_ & [Q|(Q & _)]); [apply R in Q; discriminate|contradiction].
        * split; [|reflexivity]. intros _. split; auto. left. apply R. reflexivity.
      + destruct r as [r|]; do 2 eexists; (split; [exact Er|]); (split; [exact Run|]).
        * split; [discriminate|]. intros (_ & [Q|(_ & Q & _)]); [destruct W; destruct Q as (a & e & L & Wa & _); exists a; auto|apply R in Q; discriminate].
        * assert (err = None) as -> by (apply R; reflexivity). destruct (bseqb b data) eqn:Bd.
          -- apply bseqb_true in Bd. split; auto.
          -- split; [discriminate|]. intros (_ & [Q|(_ & _ & ->)]); [destruct W; destruct Q as (a & e & L & Wa & _); exists a; auto|rewrite bseqb_refl in Bd; discriminate].
  Qed.
  Lemma C67_panics_core name f k m m' vs data : x <> SNil -> named l (str "AppendJSON") name -> methodOf U x name = Some f ->
    data_for U x l k m data None -> call f ANil m = Ok (m', vs) -> results_panic l vs ->
    exists run, AppendJSON U x os = Some run /\ run k m = Panic.
  Proof.
    intros Nx Nm Mf Da Ca Rp. assert (Ex : exists run, AppendJSON U x os = Some run) by (destruct x; [congruence|eexists; reflexivity..]). destruct Ex as (run & Er).
    exists run. split; [exact Er|]. apply data_iff in Da. pose proof (name_of _ _ Nm) as Nn.
    assert (Ch : forall v0 e e' q, vs = v0 :: RErr e :: q -> last_of anError l (EAError e') -> etype e = etype e' -> ecomp e = false -> checkError (RErr e) (tcheck (newT U x os)) = Panic).
    { intros v0 e e' q _ L Ht Hc. destruct test_check as [(a & L' & ->)|(N & _)]; [|destruct (last_not_none _ _ _ L N)].
      rewrite <- (last_det _ _ _ _ L L'). unfold checkOf, Error, checkError, sameErr. rewrite Ht, Nat.eqb_refl, Hc. reflexivity. }
    unfold AppendJSON in Er. destruct x as [|t p|t y]; [congruence|..]; injection Er as <-; cbv zeta; rewrite Nn, Da; cbn [bind]; unfold callMethod; rewrite Mf, Ca; cbn [bind];
      (destruct Rp as [vs Hl|v0 q|v0 e e' q L Ht Hc]; [destruct vs as [|? [|? ?]]; cbn [length] in Hl; [reflexivity|reflexivity|lia]|reflexivity|rewrite (Ch _ _ _ _ eq_refl L Ht Hc); reflexivity]).
  Qed.
  Lemma target_of m v m1 : target U x l m v m1 ->
    (match tvalue (newT U x os) with SNil => (SPtr (elemType x) (Some (length m)), m ++ [zeroV U (elemType x)]) | v => (v, m) end) = (v, m1) /\ v <> SNil.
  Proof.
    intros [v' L Nv|t L Tx].
    - destruct test_value as [(a & L' & ->)|(N & _)]; [|destruct (last_not_none _ _ _ L N)]. rewrite (last_det _ _ _ _ L' L). destruct v'; [congruence|split; [reflexivity|discriminate]..].
    - assert (Q : tvalue (newT U x os) = SNil). { destruct test_value as [(a & L' & ->)|(N & Q)]; [|exact Q]. destruct L as [L|L]; [rewrite (last_det _ _ _ _ L' L); reflexivity|destruct (last_not_none _ _ _ L' L)]. }
      rewrite Q. assert (Et : elemType x = t) by (destruct Tx as [(p & ->)|(y & ->)]; reflexivity). rewrite Et. split; [reflexivity|discriminate].
  Qed.
  Lemma expected_in m t v : value_in m x t v -> expected m x = Ok (t, v).
  Proof. intros [t0 v0|t0 p v0 H]; cbn [expected load]; [reflexivity|rewrite H; reflexivity]. Qed.
  Lemma C67_unmarshal_core name f rev k m v m1 data derr h : x <> SNil -> target U x l m v m1 -> named l (str "UnmarshalNodeJSON") name -> methodOf U v name = Some f -> fits f = true ->
    data_for U x l k m1 data derr ->
    (forall W n j, tree_of W n j -> call f (ANode W n) m1 = Ok (fst (h j), [err_result (snd (h j))])) ->
    (forall j, exists t y t' p y', v = SPtr t' (Some p) /\ nth_error (fst (h j)) p = Some y' /\ value_in (fst (h j)) x t y) ->
    exists run m2 rep, Unmarshal U x os = Some run /\ run rev k m = Ok (m2, rep) /\
      (rep = [] <-> derr = None /\ exists j, text_of data j /\
        (error_met l (snd (h j)) \/
         ~ wanted l /\ snd (h j) = None /\ exists t y t' y', value_in (fst (h j)) x t y /\ value_in (fst (h j)) v t' y' /\ deepEqual U t y t' y' = true)).
  Proof.
    intros Nx Tg Nm Mf Fi Da Hc Hv. assert (Ex : exists run, Unmarshal U x os = Some run) by (destruct x; [congruence|eexists; reflexivity..]). destruct Ex as (run & Er).
    destruct (target_of _ _ _ Tg) as (Tq & Nv).
    assert (Run : run rev k m = (let! data := tjson (newT U x os) k m1 in
            match data with
            | (_, Some e) => Ok (m1, [CData e])
            | (data, None) =>
                let! p := Document_Parse [mkDoc [] rev] 0 data in
                match p with
                | (_, (_, _, Some e)) => Ok (m1, [CParse e])
                | (w, (n, _, None)) =>
                    let! r := call f (ANode w n) m1 in
                    let (m, results) := r in
                    match results with
                    | v0 :: _ =>
                        let! e := checkError v0 (tcheck (newT U x os)) in
                        match e with
                        | Some e => Ok (m, [CError e])
                        | None =>
                            match tcheck (newT U x os) with
                            | Some _ => Ok (m, [])
                            | None =>
                                let! a := expected m x in
                                let! b := load m v in
                                Ok (m, if deepEqual U (fst a) (snd a) (fst b) (snd b) then [] else [CValue])
                            end
                        end
                    | [] => Panic
                    end
                end
            end)).
    { pose proof (name_of _ _ Nm) as Nn. assert (Cm : checkMethod U v name = true) by (unfold checkMethod; destruct v; [congruence|rewrite Mf; exact Fi..]).
      assert (Q : Unmarshal U x os = match x with SNil => None | _ => Some (fun rev k m =>
          let (v, m) := match tvalue (newT U x os) with SNil => (SPtr (elemType x) (Some (length m)), m ++ [zeroV U (elemType x)]) | v => (v, m) end in
          if negb (checkMethod U v (match tmethod (newT U x os) with [] => str "UnmarshalNodeJSON" | n => n end)) then Ok (m, [CMethod])
          else let! data := tjson (newT U x os) k m in
            match data with
            | (_, Some e) => Ok (m, [CData e])
            | (data, None) =>
                let! p := Document_Parse [mkDoc [] rev] 0 data in
                match p with
                | (_, (_, _, Some e)) => Ok (m, [CParse e])
                | (w, (n, _, None)) =>
                    let! r := callMethod U v (match tmethod (newT U x os) with [] => str "UnmarshalNodeJSON" | n => n end) (ANode w n) m in
                    let (m, results) := r in
                    match results with
                    | v0 :: _ =>
                        let! e := checkError v0 (tcheck (newT U x os)) in
                        match e with
                        | Some e => Ok (m, [CError e])
                        | None =>
                            match tcheck (newT U x os) with
                            | Some _ => Ok (m, [])
                            | None =>
                                let! a := expected m x in
                                let! b := load m v in
                                Ok (m, if deepEqual U (fst a) (snd a) (fst b) (snd b) then [] else [CValue])
                            end
                        end
                    | [] => Panic
                    end
                end
            end) end) by (destruct x; reflexivity).
      rewrite Er in Q. assert (Q' := Q). clear Q. rewrite Nn in Q'. assert (R : match x with SNil => None | _ => Some run end = Some run) by (destruct x; [congruence|reflexivity..]).
      
      assert (Mx : forall F, Some run = match x with SNil => None | _ => Some F end -> run = F) by (destruct x; intros F HF; [discriminate|injection HF as ->; reflexivity..]).
      apply Mx in Q'. rewrite Q'. cbv beta. destruct (tvalue (newT U x os)); injection Tq as -> ->; rewrite Cm; unfold callMethod; rewrite Mf; reflexivity. }
    clear Tq. apply data_iff in Da. rewrite Da in Run. cbn [bind] in Run. exists run. destruct derr as [de|].
    { exists m1, [CData de]. split; auto. split; auto. split; [discriminate|]. intros (Q & _). discriminate. }
    destruct (Parse_total [mkDoc [] rev] 0 data) as (W & n & tail & e & P); [cbn; lia|]. rewrite P in Run. cbn [bind] in Run. destruct e as [e|].
    { exists m1, [CParse e]. split; auto. split; auto. split; [discriminate|]. intros (_ & j & (s & w & tl & E & Ws & Lv & St) & _).
      destruct (proj2 (Parse_tree_iff [mkDoc [] rev] 0 data j tl)) as (W' & n' & P' & _); [split; [cbn; lia|exists s, w; auto]|]. rewrite P in P'. discriminate. }
    assert (Tj : exists j, tree_of W n j /\ text_of data j /\ forall j', text_of data j' -> j' = j).
    { destruct (proj1 (Parse_ok_iff _ _ _ _ _ _) P) as (d & s1 & w & j & E0 & E1 & E2 & E3 & E4 & En & Ew). exists j.
      assert (Tr : tree_of W n j) by (rewrite Ew, En; eapply parsed_tree; exact E0). split; [exact Tr|]. split; [exists s1, w, tail; auto|]. intros j' (s2 & w2 & t2 & Q1 & Q2 & Q3 & Q4).
      destruct (proj2 (Parse_tree_iff [mkDoc [] rev] 0 data j' t2)) as (W' & n' & P' & Tr'); [split; [cbn; lia|exists s2, w2; auto]|]. exact (proj1 (Parse_tree_unique _ _ _ _ _ _ _ _ _ _ _ P' Tr' P Tr)). }
    destruct Tj as (j & Tr & Tx & Un). rewrite (Hc W n j Tr) in Run. cbn [bind] in Run. destruct (check_met (snd (h j))) as (r & Cr & R). rewrite Cr in Run. cbn [bind] in Run.
    destruct (tcheck (newT U x os)) as [c|]; destruct R as (Wd & R).
    - destruct r as [r|]; do 2 eexists; (split; [exact Er|]); (split; [exact Run|]).
      + split; [discriminate|]. intros (_ & j' & Tj' & [Q|(Q & _)]); [rewrite (Un _ Tj') in Q; apply R in Q; discriminate|contradiction].
      + split; [|reflexivity]. intros _. split; auto. exists j. split; auto. left. apply R. reflexivity.
    - destruct r as [r|].
      + do 2 eexists; (split; [exact Er|]); (split; [exact Run|]).
        split; [discriminate|]. intros (_ & j' & Tj' & [Q|(_ & Q & _)]); [destruct Wd; destruct Q as (a & e & L & Wa & _); exists a; auto|rewrite (Un _ Tj') in Q; apply R in Q; discriminate].
      + destruct (Hv j) as (t & y & t' & p & y' & Ev & Np & Vx). rewrite (expected_in _ _ _ Vx), Ev in Run. cbn [load bind] in Run. rewrite Np in Run. cbn [bind fst snd] in Run.
        do 2 eexists; (split; [exact Er|]); (split; [exact Run|]). destruct (deepEqual U t y t' y') eqn:De.
        * split; [|reflexivity]. intros _. split; auto. exists j. split; auto. right. split; auto. split; [apply R; reflexivity|]. exists t, y, t', y'. split; auto. split; auto. rewrite Ev. constructor. exact Np.
        * split; [discriminate|]. intros (_ & j' & Tj' & [Q|(_ & _ & t1 & y1 & t2 & y2 & V1 & V2 & D)]); [destruct Wd; destruct Q as (a & e & L & Wa & _); exists a; auto|].
          rewrite (Un _ Tj') in V1, V2. apply expected_in in V1. rewrite (expected_in _ _ _ Vx) in V1. injection V1 as <- <-. rewrite Ev in V2. inversion V2 as [|t0 p0 v0 Np' A B C]; subst. rewrite Np in Np'. injection Np' as <-. congruence.
  Qed.
End Case.
Lemma C67_made_core (V : Type) (U : universe V) l : (In (GError EAOther) l -> makeAll U l = Panic) /\ (~ In (GError EAOther) l -> exists os, makeAll U l = Ok os).
Proof.
  induction l as [|g l (IH1 & IH2)]; [split; [intros []|eexists; reflexivity]|]. cbn [makeAll]. split.
  - intros [->|I]; [reflexivity|]. rewrite (IH1 I). destruct g as [n|a|y|a|]; try reflexivity. destruct a; reflexivity.
  - intro N. destruct IH2 as (os & ->); [intro I; apply N; right; exact I|]. destruct g as [n|a|y|a|]; try (eexists; reflexivity). destruct a; try (eexists; reflexivity). elim N. left. reflexivity.
Qed.
