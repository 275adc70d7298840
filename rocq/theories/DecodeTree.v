(* The decoders of Codec.v on trees: what [decode] does with a node depends only on the tree of the node. *)
From Verif Require Import Bytes Types JsonSpec Parser Doc DocSpec DocProofs Strjson StrSpec StrThms Float Num Iface IfaceSpec IfaceThms Wrap WrapThms Options Codec CodecSpec CodecBuild DecodeSpec.
Local Open Scope nat_scope.

Definition jtype (j : jval) : N :=
  match j with JStr _ => TypeString | JNum _ => TypeNumber | JTrue | JFalse => TypeBoolean | JNull => TypeNull | JArr _ => TypeArray | JObj _ => TypeObject end.
Definition tErr (j : jval) (want : N) : option uerr := Some (UType (TypeErr (jtype j) want)).

Section ToGo.
  Variable rec : jval -> option goval.
  Fixpoint goSlice (ts : list jval) (acc : list goval) : option goval :=
    match ts with [] => Some (GSlice acc) | t :: r => match rec t with Some x => goSlice r (acc ++ [x]) | None => None end end.
  Fixpoint goMap (ms : list (bytes * jval)) (acc : list (bytes * goval)) : option goval :=
    match ms with [] => Some (GMap acc) | (k, t) :: r => match rec t with Some x => goMap r (assign k x acc) | None => None end end.
End ToGo.
Fixpoint toGo (j : jval) : option goval :=
  match j with
  | JNull => Some GNil | JTrue => Some (GBool true) | JFalse => Some (GBool false)
  | JStr s => match Unescaped s with Ok o => Some (GString o) | _ => None end
  | JNum s => let f := ParseFloat s in if feq f f then Some (GFloat f) else None
  | JArr ts => goSlice toGo ts []
  | JObj ms => goMap toGo ms []
  end.

Definition udecodes := gv -> jval -> res (gv * option uerr).
Fixpoint unMembers (dec : codec -> udecodes) (E : env) (t : tid) (cs : list codec) (ms : list (bytes * jval)) (v : gv) : res (gv * option uerr) :=
  match ms with
  | [] => Ok (v, None)
  | (k, x) :: r =>
      match Get cs k with
      | None => unMembers dec E t cs r v
      | Some fc =>
          match cindex fc with
          | [] => unMembers dec E t cs r v
          | index =>
              let! y := atIndex E index t v (fun f => dec fc f x) in
              match y with
              | (v, None) => unMembers dec E t cs r v
              | _ => Ok y
              end
          end
      end
  end.
Fixpoint unElems (dec : udecodes) (js : list jval) (done rest spare : list gv) : res (list gv * list gv) :=
  match js, rest with
  | x :: js, e :: rest =>
      let! y := dec e x in
      match y with
      | (e, None) => unElems dec js (done ++ [e]) rest spare
      | (e, Some _) => Ok (done, e :: rest ++ spare)
      end
  | _, _ => Ok (done ++ rest, spare)
  end.
Fixpoint unArray (dec : udecodes) (z : gv) (js : list jval) (l : list gv) : res (list gv) :=
  match l with
  | [] => Ok []
  | e :: l =>
      match js with
      | x :: js => let! y := dec e x in let! r := unArray dec z js l in Ok (fst y :: r)
      | [] => Ok (z :: map (fun _ => z) l)
      end
  end.
Fixpoint unMap (dec : udecodes) (z : gv) (kt : tid) (ms : list (bytes * jval)) (v : gv) : res (gv * option uerr) :=
  match ms with
  | [] => Ok (v, None)
  | (k, x) :: r =>
      let! y := dec z x in
      match y with
      | (y, None) =>
          if negb (kt =? tString)%nat then Panic else
          match v with
          | VMap (Some m) => unMap dec z kt r (VMap (Some (setKey k y m)))
          | _ => Panic
          end
      | (_, e) => Ok (v, e)
      end
  end.

(* [U] is what an UnmarshalNodeJSON method makes of a tree *)
Fixpoint un (fuel : nat) (E : env) (U : tid -> gv -> jval -> res (gv * option uerr)) (O : opts) (t : tid) (v : gv) (j : jval) : res (gv * option uerr) :=
  match fuel with O => Diverge | S k =>
  match typeOf E t with
  | None => Panic
  | Some T =>
      if isNodeU (tmeth T) then U t v j
      else if isJSONU (tmeth T) then callJSONU E t v (print j)
      else if isTextU (tmeth T) then match j with JStr s => callTextU E t v s | _ => Ok (v, tErr j TypeString) end
      else
      match tkind T, v with
      | KPtr e, VPtr x =>
          match j with
          | JNull => Ok (VPtr None, None)
          | _ => let! y := un k E U O e (match x with Some x => x | None => zero E e end) j in Ok (VPtr (Some (fst y)), snd y)
          end
      | KStruct _, VStruct _ =>
          match j with
          | JNull => Ok (zero E t, None)
          | JObj ms => let! cs := structFields E O t in unMembers (fun c => un k E U O (ctype c)) E t cs ms v
          | _ => Ok (v, tErr j (N.lor TypeObject TypeNull))
          end
      | KSlice e, VSlice x =>
          match j with
          | JNull => Ok (VSlice match x with None => None | Some (l, s) => Some ([], l ++ s) end, None)
          | JArr js =>
              let size := length js in
              let fresh := (repeat (zero E e) size, []) in
              let (l, s) := match x with
                            | None => fresh
                            | Some (l, s) => if (length (l ++ s) <? size)%nat then fresh else (firstn size (l ++ s), skipn size (l ++ s))
                            end in
              let! r := unElems (un k E U O e) js [] l s in
              Ok (VSlice (Some r), None)
          | _ => Ok (v, tErr j (N.lor TypeArray TypeNull))
          end
      | KArray size e, VArray l =>
          if negb (length l =? size)%nat then Panic else
          match j with
          | JNull => Ok (VArray (repeat (zero E e) size), None)
          | JArr js => let! r := unArray (un k E U O e) (zero E e) js l in Ok (VArray r, None)
          | _ => Ok (v, tErr j TypeArray)
          end
      | KMap kt e, VMap _ =>
          match j with
          | JNull => Ok (v, None)
          | JObj ms => unMap (un k E U O e) (zero E e) kt ms v
          | _ => Ok (v, tErr j (N.lor TypeObject TypeNull))
          end
      | KIface false, VIface _ =>
          match toGo j with
          | Some g => if (t =? tIface)%nat then Ok (VIface (ofGo g), None) else Panic
          | None => Ok (v, tErr j TypeAnyValue)
          end
      | KString, VString _ =>
          match j with
          | JStr s => let! o := Unescaped s in Ok (VString o, None)
          | JNull => Ok (VString [], None)
          | _ => Ok (v, tErr j TypeString)
          end
      | KBool, VBool _ =>
          match j with
          | JTrue => Ok (VBool true, None)
          | JFalse | JNull => Ok (VBool false, None)
          | _ => Ok (v, tErr j TypeBoolean)
          end
      | KInt bits, VInt _ =>
          match j with
          | JNum s =>
              let (z, ok) := ParseInt s in
              if ok then Ok (setInt bits z, None)
              else match scParseInt s with Some z => Ok (setInt bits z, None) | None => Ok (v, Some UStrconv) end
          | JNull => Ok (VInt 0, None)
          | _ => Ok (v, tErr j TypeNumber)
          end
      | KUint bits, VUint _ =>
          match j with
          | JNum s =>
              let (z, ok) := ParseUint s in
              if ok then Ok (setUint bits z, None)
              else match scParseUint s with Some z => Ok (setUint bits z, None) | None => Ok (v, Some UStrconv) end
          | JNull => Ok (VUint 0, None)
          | _ => Ok (v, tErr j TypeNumber)
          end
      | (KFloat32 | KFloat64) as kd, VFloat _ =>
          match j with
          | JNum s =>
              let f := ParseFloat s in
              if feq f f then Ok (setFloat kd f, None)
              else match scParseFloat E s with Some f => Ok (setFloat kd f, None) | None => Ok (v, Some UStrconv) end
          | JNull => Ok (VFloat zeroF, None)
          | _ => Ok (v, tErr j TypeNumber)
          end
      | _, _ => Panic
      end
  end
  end.

(* The UnmarshalNodeJSON methods used for type t look at the tree of the node only. *)
Definition sees_trees (E : env) (U : tid -> gv -> jval -> res (gv * option uerr)) (O : opts) (w : world) (t : tid) : Prop :=
  forall u T v n j, reads E O t u -> typeOf E u = Some T -> isNodeU (tmeth T) = true -> tree_of w n j -> callNodeU E u v w n = U u v j.

Lemma toGo_lem ns : forall t fuel, jdepth t <= fuel -> forall id, denotes ns id t -> toInterface fuel ns id = Ok (toGo t).
Proof.
  induction t using jval_ind'; intros fuel Hf id Hd; (destruct fuel as [|f]; [simpl in Hf; lia|]); inversion Hd; subst;
    match goal with E : getNode _ _ = Some _ |- _ => cbn [toInterface]; rewrite E end;
    match goal with T : info_Type _ = _ |- _ => rewrite T end; cbn [toGo].
  - cbn -[Unescaped]. destruct (Unescaped_total (nraw n)) as (o & U & _). rewrite U. reflexivity.
  - cbn -[ParseFloat feq]. reflexivity.
  - cbn. match goal with R : nraw _ = _ |- _ => rewrite R end. reflexivity.
  - cbn. match goal with R : nraw _ = _ |- _ => rewrite R end. reflexivity.
  - reflexivity.
  - change (TypeArray =? TypeObject)%N with false. change (TypeArray =? TypeArray)%N with true. cbv iota.
    cbn in Hf. assert (Hm : Forall (fun t => jdepth t <= f) vs) by (apply (proj1 (Forall_map jdepth (fun d => d <= f) vs)); apply list_max_le; lia).
    match goal with L : denotes_list _ _ _ |- _ => revert L end. generalize (nvalues n). generalize (@nil goval). clear Hd Hf.
    induction H as [|t vs Ht Hvs IH]; intros acc l L; inversion L; subst; cbn [toInterfaceSlice goSlice]; [reflexivity|].
    apply Forall_cons_iff in Hm as [Hm1 Hm]. rewrite (Ht f Hm1 _ ltac:(eassumption)). cbn [bind]. destruct (toGo t); [apply IH; auto|auto].
  - change (TypeObject =? TypeObject)%N with true. cbv iota.
    cbn in Hf. assert (Hm : Forall (fun m => jdepth (snd m) <= f) ms) by (apply (proj1 (Forall_map (fun m => jdepth (snd m)) (fun d => d <= f) ms)); apply list_max_le; lia).
    match goal with L : denotes_members _ _ _ |- _ => revert L end. generalize (nvalues n). generalize (@nil (bytes * goval)). clear Hd Hf.
    induction H as [|[k t] vs Ht Hvs IH]; intros acc l L; inversion L; subst; cbn [toInterfaceMap goMap]; [reflexivity|].
    apply Forall_cons_iff in Hm as [Hm1 Hm]. cbn [snd] in *. rewrite (Ht f Hm1 _ ltac:(eassumption)). cbn [bind]. destruct (toGo t); [apply IH; auto|auto].
Qed.
Lemma toGo_node w n j : tree_of w n j -> Node_ToInterface w n = Ok (toGo j).
Proof.
  intros (r & d & E & Ed & Er & D). unfold Node_ToInterface, Node_Document. rewrite E. cbn [getDoc]. rewrite Ed, (proj2 (N.eqb_eq _ _) Er). cbn [getDoc]. rewrite Ed.
  apply toGo_lem; auto. apply denotes_depth in D. unfold depthFuel. lia.
Qed.
(* What the node functions tell about a node with tree j. *)
Definition member_trees (w : world) (n : Node) (vs : list V) (ms : list (bytes * jval)) : Prop :=
  Forall2 (fun v m => vkey v = fst m /\ tree_of w (Node_With n (vid v)) (snd m)) vs ms.
Definition elem_trees (w : world) (n : Node) (vs : list V) (js : list jval) : Prop := Forall2 (fun v x => tree_of w (Node_With n (vid v)) x) vs js.
Lemma tree_look w n j : tree_of w n j ->
  Node_Type w n = jtype j /\
  match j with
  | JStr s | JNum s => Node_Data w n = (s, jtype j)
  | JArr js => elem_trees w n (ivalues (Node_Values w n)) js
  | JObj ms => member_trees w n (ivalues (Node_Values w n)) ms
  | _ => True
  end /\
  Node_ToBool w n = match j with JTrue => (true, true) | JFalse => (false, true) | _ => (false, false) end.
Proof.
  intro T. pose proof T as (r & d & En & Ed & Er & D). destruct (tree_get w n j T) as (r' & d' & x & Er' & Ed' & G & G' & D').
  rewrite En in Er'. injection Er' as <-. rewrite Ed in Ed'. injection Ed' as <-.
  assert (Sub : forall id t, denotes (dnodes d) id t -> tree_of w (Node_With n id) t) by (intros id t H; exists r, d; auto).
  unfold Node_Type, Node_Data, Node_Values, Node_ToBool. rewrite G. cbn [ivalues]. unfold info_IsBoolean.
  inversion D'; subst; rewrite G' in H; injection H as <-; rewrite H0; (split; [reflexivity|]).
  - split; [reflexivity|]. reflexivity.
  - split; reflexivity.
  - split; [exact Logic.I|]. rewrite H2. reflexivity.
  - split; [exact Logic.I|]. rewrite H2. reflexivity.
  - split; [exact Logic.I|]. reflexivity.
  - split; [|reflexivity]. unfold elem_trees. clear - H2 Sub. induction H2; constructor; auto.
  - split; [|reflexivity]. unfold member_trees. clear - H2 Sub. induction H2; constructor; auto.
Qed.

Lemma Get_in cs k c : Get cs k = Some c -> In c cs.
Proof. induction cs as [|x cs IH]; cbn [Get]; [discriminate|]. destruct (bseqb (ckey x) k); [intro H; injection H as <-; left; reflexivity|right; auto]. Qed.
Lemma getField_get fs k : match getField fs k with Some f => Get (map fst fs) k = Some (fst f) /\ In f fs | None => Get (map fst fs) k = None end.
Proof. induction fs as [|f fs IH]; cbn [getField Get map]; [reflexivity|]. destruct (bseqb (ckey (fst f)) k); [split; [reflexivity|left; reflexivity]|]. destruct (getField fs k) as [g|]; [split; [apply IH|right; apply IH]|exact IH]. Qed.
Lemma unMembers_bridge w n (dec : nat -> decodes) (dec' : codec -> udecodes) E t fs : (forall c v m j, In c fs -> tree_of w m j -> dec (fst (snd c)) v m = dec' (fst c) v j) ->
  forall vs ms, member_trees w n vs ms -> forall v, decodeMembers dec E t fs n vs v = unMembers dec' E t (map fst fs) ms v.
Proof.
  intros D vs ms M. induction M as [|x [k j] vs ms [K Tr] M IH]; intro v; [reflexivity|]. cbn [decodeMembers unMembers fst snd] in *. rewrite K.
  pose proof (getField_get fs k) as Gf. destruct (getField fs k) as [c|]; [destruct Gf as [-> Gc]|rewrite Gf; apply IH]. destruct (cindex (fst c)) as [|i p] eqn:Ei; [apply IH|].
  assert (A : forall q u y, atIndex E q u y (fun f => dec (fst (snd c)) f (Node_With n (vid x))) = atIndex E q u y (fun f => dec' (fst c) f j)).
  { induction q as [|i' q IHq]; intros u y; cbn [atIndex]; [apply D; assumption|]. destruct (i' =? -1)%Z.
    - destruct (elemType E u), y as [| | | | | |[y|]| | | | |]; auto; rewrite IHq; reflexivity.
    - destruct y; auto. destruct (fieldType E u (Z.to_nat i')); auto. destruct (fieldAt l i'); auto. rewrite IHq. reflexivity. }
  rewrite A. destruct (atIndex E (i :: p) t v (fun f => dec' (fst c) f j)) as [[y [e|]]| |]; cbn [bind]; auto.
Qed.
Lemma unElems_bridge w n (dec : decodes) (dec' : udecodes) : (forall v m j, tree_of w m j -> dec v m = dec' v j) ->
  forall vs js, elem_trees w n vs js -> forall done rest spare, decodeElems dec n vs done rest spare = unElems dec' js done rest spare.
Proof.
  intros D vs js M. induction M as [|x j vs js Tr M IH]; intros done rest spare; [reflexivity|]. cbn [decodeElems unElems]. destruct rest; auto.
  rewrite (D _ _ _ Tr). destruct (dec' g j) as [[y [e|]]| |]; cbn [bind]; auto.
Qed.
Lemma unArray_bridge w n (dec : decodes) (dec' : udecodes) z : (forall v m j, tree_of w m j -> dec v m = dec' v j) ->
  forall l vs js, elem_trees w n vs js -> decodeArray dec z n vs l = unArray dec' z js l.
Proof.
  intros D. induction l as [|e l IH]; intros vs js M; (destruct M as [|x j vs js Tr M]; [reflexivity|]); [reflexivity|]. cbn [decodeArray unArray].
  rewrite (D _ _ _ Tr). destruct (dec' e j) as [y| |]; cbn [bind]; auto. rewrite (IH _ _ M). reflexivity.
Qed.
Lemma unMap_bridge w n (dec : decodes) (dec' : udecodes) z kt : (forall v m j, tree_of w m j -> dec v m = dec' v j) ->
  forall vs ms, member_trees w n vs ms -> forall v, decodeMap dec z kt n vs v = unMap dec' z kt ms v.
Proof.
  intros D vs ms M. induction M as [|x [k j] vs ms [K Tr] M IH]; intro v; [reflexivity|]. cbn [decodeMap unMap fst snd] in *. rewrite (D _ _ _ Tr), K.
  destruct (dec' z j) as [[y [e|]]| |]; cbn [bind]; auto. destruct (negb (kt =? tString)); auto. destruct v as [| | | | | | | | |[m|]| |]; auto.
Qed.
(* A struct that has methods to unmarshal has some to marshal; otherwise its codec may be used in place of them (C55). *)
Definition two_way (E : env) (O : opts) (t : tid) : Prop := forall u T l, reads E O t u -> typeOf E u = Some T -> tkind T = KStruct l -> marshals (tmeth T) = false -> unmarshals (tmeth T) = false.
Lemma un_bridge E U O w G : sound E O G -> forall fuel o t v n j, serves E G o (IDec t) 0 -> two_way E O t -> sees_trees E U O w t -> tree_of w n j -> decode fuel E G w o v n = un fuel E U O t v j.
Proof.
  intro Sd. induction fuel as [|k IH]; intros o t v n j Sv Tw Se Tr; [reflexivity|]. cbn [decode un]. destruct (serves_cases E O G o _ _ Sd Sv) as (T & ET & Cs). cbn [itype] in *. rewrite ET.
  destruct (tree_look w n j Tr) as (Ty & Look & Bo). assert (Gn := toGo_node _ _ _ Tr). unfold handled, unmarshals in Cs. cbn [idec] in Cs.
  destruct Cs as [[Hd No]|Cs].
  { rewrite No, ET. destruct (isNodeU (tmeth T)) eqn:Nu; [destruct (Node_Data w n); eapply Se; eauto using rd_here|]. destruct (isJSONU (tmeth T)); [rewrite (wrap_json _ _ _ Tr); destruct (Node_Data w n); reflexivity|].
    cbn [orb] in Hd. rewrite Hd. unfold typeError, Node_TypeError. rewrite Ty. destruct j; cbn [jtype]; try (destruct (Node_Data w n); reflexivity). rewrite (wrap_text _ _ _ Tr). destruct (Node_Data w n); reflexivity. }
  assert (Hd : (isNodeU (tmeth T) || isJSONU (tmeth T) || isTextU (tmeth T))%bool = false).
  { destruct Cs as [(l & fs & K & _ & _ & Sc)|(Hd & _)]; [|exact Hd]. destruct Sc as (T' & l' & ET' & K' & M & _). rewrite ET in ET'. injection ET' as <-. destruct M as [M|M]; [exact M|]. exact (Tw t T l (rd_here _ _ _) ET K M). }
  apply orb_false_elim in Hd as [Hd H3]. apply orb_false_elim in Hd as [H1 H2]. rewrite H1, H2, H3.
  assert (Kd : kindOf E t = Some (tkind T)) by (unfold kindOf; rewrite ET; reflexivity). unfold typeError, Node_TypeError. rewrite Ty. fold (tErr j).
  destruct Cs as [(l & fs & K & No & _ & Sc)|(_ & Ns & h' & p & Hh & No & Sc)]; rewrite No.
  { rewrite K in *. destruct Sc as (_ & _ & _ & _ & _ & Sf & F). rewrite Forall_forall in F.
    destruct (Node_Data w n) as [raw ty] eqn:Dt; destruct v; try reflexivity. destruct j; try reflexivity. cbn [jtype].
    change (TypeObject =? TypeNull)%N with false. change (TypeObject =? TypeObject)%N with true. cbv iota. rewrite Sf. cbn [bind].
    apply (unMembers_bridge w n _ (fun c => un k E U O (ctype c)) E t fs); [|exact Look]. intros c v m j Ic H. apply IH; [exact (proj1 (F c Ic))| | |exact H].
    - intros u T' l1 R. apply Tw. exact (rd_field _ _ _ _ _ _ _ Kd Sf (in_map fst _ _ Ic) R).
    - intros u T' v' n' j' R. apply Se. exact (rd_field _ _ _ _ _ _ _ Kd Sf (in_map fst _ _ Ic) R). }
  rewrite ET, Gn, Bo. destruct Sc as (T' & ET' & _ & Sk). cbn [itype] in ET'. rewrite ET in ET'. injection ET' as <-.
  assert (Sub : forall e, In e (elems (tkind T)) -> serves E G p (IDec e) 0).
  { destruct Hh as [->|(kt & e & K)]; [destruct (tkind T) as [| | | | | |[]| | | | | |]; intros e0 Ie; cbn [elems In] in Ie; try contradiction; destruct Ie as [<-|[]]; try exact Sk; exact (proj2 Sk)|]. rewrite K in *. intros e' [<-|[]]. apply Sk. }
  assert (DownT : forall e, In e (elems (tkind T)) -> two_way E O e) by (intros e Ie u T' l R; apply Tw; eapply rd_elem; eauto).
  assert (Down : forall e, In e (elems (tkind T)) -> sees_trees E U O w e) by (intros e Ie u T' v' n' j' R; apply Se; eapply rd_elem; eauto).
  destruct (tkind T) as [|bits|bits| | | |[|]|e|e|size e|kt e|fs|] eqn:K.
  all: try (destruct (Node_Data w n) as [raw ty]; destruct v; reflexivity).
  - destruct (Node_Data w n) as [raw ty] eqn:Dt; destruct v; try reflexivity; destruct j; reflexivity.
  - destruct (Node_Data w n) as [raw ty] eqn:Dt; destruct v; try reflexivity; destruct j; try reflexivity. injection Look as -> ->. reflexivity.
  - destruct (Node_Data w n) as [raw ty] eqn:Dt; destruct v; try reflexivity; destruct j; try reflexivity. injection Look as -> ->. reflexivity.
  - destruct (Node_Data w n) as [raw ty] eqn:Dt; destruct v; try reflexivity; destruct j; try reflexivity. injection Look as -> ->. reflexivity.
  - destruct (Node_Data w n) as [raw ty] eqn:Dt; destruct v; try reflexivity; destruct j; try reflexivity. injection Look as -> ->. reflexivity.
  - destruct (Node_Data w n) as [raw ty] eqn:Dt; destruct v; try reflexivity; destruct j; try reflexivity. injection Look as -> ->. reflexivity.
  - destruct (Node_Data w n) as [raw ty] eqn:Dt; destruct v; try reflexivity. destruct j; try reflexivity; cbn [jtype]; rewrite (IH p e _ _ _ (Sub e (or_introl eq_refl)) (DownT e (or_introl eq_refl)) (Down e (or_introl eq_refl)) Tr); reflexivity.
  - destruct (Node_Data w n) as [raw ty] eqn:Dt; destruct v as [| | | | | | |x| | | |]; try reflexivity. destruct j as [| | | | |js|]; try reflexivity. cbn [jtype].
    change (TypeArray =? TypeNull)%N with false. change (TypeArray =? TypeArray)%N with true. cbv iota zeta.
    assert (Ln : length (ivalues (Node_Values w n)) = length js) by (clear - Look; unfold elem_trees in Look; induction Look; cbn; auto). rewrite Ln. destruct (match x with None => _ | Some _ => _ end) as [l s]. rewrite (unElems_bridge w n _ (un k E U O e) (fun v m j H => IH p e v m j (Sub e (or_introl eq_refl)) (DownT e (or_introl eq_refl)) (Down e (or_introl eq_refl)) H) _ _ Look). reflexivity.
  - destruct (Node_Data w n) as [raw ty] eqn:Dt; destruct v; try reflexivity. destruct (negb (length l =? size)); [reflexivity|]. destruct j; try reflexivity. cbn [jtype].
    change (TypeArray =? TypeArray)%N with true. cbv iota. rewrite (unArray_bridge w n _ (un k E U O e) _ (fun v m j H => IH p e v m j (Sub e (or_introl eq_refl)) (DownT e (or_introl eq_refl)) (Down e (or_introl eq_refl)) H) _ _ _ Look). reflexivity.
  - destruct (Node_Data w n) as [raw ty] eqn:Dt; destruct v; try reflexivity. destruct j; try reflexivity. cbn [jtype].
    change (TypeObject =? TypeNull)%N with false. change (TypeObject =? TypeObject)%N with true. cbv iota. apply (unMap_bridge w n _ (un k E U O e) _ _ (fun v m j H => IH p e v m j (Sub e (or_introl eq_refl)) (DownT e (or_introl eq_refl)) (Down e (or_introl eq_refl)) H) _ _ Look).
  - exfalso. exact (Ns fs eq_refl).
Qed.
