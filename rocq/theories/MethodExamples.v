(* Concrete types with methods, for C55. *)
From Verif Require Import FloatSpec FmtSpec Bytes Types JsonSpec Parser Doc DocSpec Strjson Float Num NumSpec FmtThms Options Codec CodecSpec CodecMerge CodecBase CodecBuild CodecExamples DecodeSpec MethodSpec MethodThms.
Local Open Scope nat_scope.

Definition jsonM : mset := mkM false true false false false false (fun _ => false).
Definition jsonU : mset := mkM false false false false true false (fun _ => false).
Definition textMU : mset := mkM false false true false false true (fun _ => false).
(* 6 struct{} with MarshalJSON, 7 struct{F T6}, 8 struct{F T6} with omitempty, 9 int with MarshalText and UnmarshalText,
   10 struct{A T9; B []T9; C map[string]T9}, 11 []T9, 12 map[string]T9, 13 struct{} with UnmarshalJSON,
   14 struct{A T13; B T13}, 15 *T14, 16 *T9, 17 *T6 *)
Definition mE : env :=
  mkEnv [mkT (KStruct []) jsonM jsonM; plainT (KStruct [fld (str "F") 6]); plainT (KStruct [tagged (str "F") 6 (str ",omitempty")]);
      mkT (KInt 64) textMU textMU; plainT (KStruct [fld (str "A") 9; fld (str "B") 11; fld (str "C") 12]); plainT (KSlice 9); plainT (KMap tString 9);
      mkT (KStruct []) jsonU jsonU; plainT (KStruct [fld (str "A") 13; fld (str "B") 13]); plainT (KPtr 14); mkT (KPtr 9) textMU noMethods; mkT (KPtr 6) jsonM noMethods]
    (fun _ _ b => Ok (b, Some UValue)) (fun _ _ => Ok (Some (str "[1]"), None))
    (fun _ v => match v with VInt z => Ok (x23 :: FormatInt z, None) | _ => Ok ([], Some UValue) end) (fun _ _ => Ok false) (fun _ _ => Ok false)
    (fun _ v _ _ => Ok (v, Some UValue)) (fun _ v _ => Ok (v, Some UValue))
    (fun t v s => match t, v with 16, VPtr _ => Ok (VPtr (Some (VInt (Z.of_nat (length s)))), None) | _, _ => Ok (VInt (Z.of_nat (length s)), None) end)
    (fun _ => None) exact_ftoa (fun _ m => m).

Lemma C55_refuted_lem : exists E s t t' v, half E s /\ typed E s v /\ typed E t (VStruct [v]) /\ typed E t' (VStruct [v]) /\
  (exists f, kindOf E t = Some (KStruct [f]) /\ ftype f = s) /\ (exists f, kindOf E t' = Some (KStruct [f]) /\ ftype f = s) /\
  Marshal E (Some (s, v)) = Ok (str "[1]", None) /\ Marshal E (Some (t, VStruct [v])) = Ok (str "{""F"":{}}", None) /\ Marshal E (Some (t', VStruct [v])) = Ok (str "{""F"":[1]}", None).
Proof.
  exists mE, 6, 7, 8, (VStruct []). split; [eexists; split; [reflexivity|]; split; [reflexivity|discriminate]|]. do 3 (split; [ty|]). do 2 (split; [eexists; split; reflexivity|]). split; [|split]; vm_compute; reflexivity.
Qed.
Lemma C55_decode_refuted_lem : exists E d t pt rev v, half E d /\ kindOf E pt = Some (KPtr t) /\ typed E pt v /\ (exists f g, kindOf E t = Some (KStruct [f; g]) /\ ftype f = d /\ ftype g = d) /\
  (forall x s, callJSONU E d x s = Ok (x, Some UValue)) /\
  Unmarshal E rev (str "{""A"":{}}") pt v = Ok (v, Some UValue) /\ Unmarshal E rev (str "{""B"":{}}") pt v = Ok (v, None).
Proof.
  exists mE, 13, 14, 15, 0%N, (VPtr (Some (VStruct [VStruct []; VStruct []]))). split; [eexists; split; [reflexivity|]; split; [reflexivity|discriminate]|]. split; [reflexivity|]. split; [ty|].
  split; [do 2 eexists; split; [reflexivity|split; reflexivity]|]. split; [reflexivity|]. split; vm_compute; reflexivity.
Qed.
Definition built10 := match newCodec mE defaultOptions (IEnc 10) with Ok (Some r) => r | _ => (0, []) end.
Lemma ex55_lem : newCodec mE defaultOptions (IEnc 10) = Ok (Some built10) /\ ~ half mE 9 /\
  (exists p, slot mE (snd built10) (IEnc 9) 0 p /\ exists q t fs c, nth_error (snd built10) q = Some (CStruct t fs) /\ In c fs /\ ckey (fst c) = str "A" /\ snd (snd c) = p) /\
  (exists p q h, slot mE (snd built10) (IEnc 9) 0 p /\ nth_error (snd built10) q = Some (CKind (IEnc 11) h p)) /\
  (exists p, slot mE (snd built10) (IDec 9) 0 p) /\
  Marshal mE (Some (10, VStruct [VInt 1; VSlice (Some ([VInt 2], [])); VMap (Some [(VString (str "k"), VInt 3)])])) = Ok (str "{""A"":""#1"",""B"":[""#2""],""C"":{""k"":""#3""}}", None) /\
  Marshal mE (Some (17, VPtr (Some (VStruct [])))) = Ok (str "[1]", None) /\
  Unmarshal mE 0 (str """abc""") 16 (VPtr (Some (VInt 0))) = Ok (VPtr (Some (VInt 3)), None).
Proof.
  split; [vm_compute; reflexivity|]. split; [intros (T & Sx & _); vm_compute in Sx; discriminate|].
  assert (Ex : exists q fs, nth_error (snd built10) q = Some (CStruct 10 fs) /\ exists c d r, fs = c :: d :: r /\ ctype (fst c) = 9 /\ chints (fst c) = 0%N /\ ckey (fst c) = str "A").
  { exists 0. eexists. split; [vm_compute; reflexivity|]. do 3 eexists. split; [reflexivity|]. split; [|split]; reflexivity. }
  destruct Ex as (q & fs & N & c & d & r & -> & Ct & Ch & Ck).
  split; [|split; [|split]].
  - exists (snd (snd c)). split; [rewrite <- Ct, <- Ch; apply (slot_encoder mE _ q 10 (c :: d :: r) c N); left; reflexivity|]. exists q, 10, (c :: d :: r), c. repeat split; auto. left. reflexivity.
  - assert (Ex : exists q p, nth_error (snd built10) q = Some (CKind (IEnc 11) 0 p)).
    { assert (X : existsb (fun o => match o with CKind (IEnc 11) 0 _ => true | _ => false end) (snd built10) = true) by (vm_compute; reflexivity).
      apply existsb_exists in X as (o & I & X). apply In_nth_error in I as (q' & N'). destruct o as [|[|t] h p|]; try discriminate. exists q', p. rewrite N'. do 11 (destruct t as [|t]; [discriminate|]). destruct t; [|discriminate]. destruct h; [reflexivity|discriminate]. }
    destruct Ex as (q' & p & N'). exists p, q', 0%N. split; [|exact N']. apply (slot_elem mE _ q' (IEnc 11) 0 p 9 0 N'). right. left. reflexivity.
  - exists (fst (snd c)). rewrite <- Ct. apply (slot_decoder mE _ q 10 (c :: d :: r) c N). left. reflexivity.
  - split; [|split]; vm_compute; reflexivity.
Qed.
