(* Property C55: user methods.  Only statements, each closed by [exact]. *)
From Verif Require Import FloatSpec FmtSpec Bytes Types JsonSpec Parser Doc DocSpec Options Codec CodecSpec CodecMerge DecodeSpec MethodSpec MethodThms MethodExamples.
Local Open Scope nat_scope.

(* ---- C55 ---- *)

(* Every field and element whose type has a method for encoding is encoded by it, except that of a struct type without
   a method for decoding, in a place without hints; see C55_refuted for that. *)
Theorem C55_partial : forall E O it o G x h p T, newCodec E O it = Ok (Some (o, G)) -> slot E G (IEnc x) h p -> typeOf E x = Some T -> marshals (tmeth T) = true -> (h = 0%N -> ~ half E x) ->
  forall fuel addr b v, marshalled E x (tmeth T) b v (encode (S fuel) E G O p addr b v).
Proof. exact C55_encode_lem. Qed.
Print Assumptions C55_partial.
(* The same for decoding. *)
Theorem C55_decode_partial : forall E O it o G x h p T w n j, newCodec E O it = Ok (Some (o, G)) -> slot E G (IDec x) h p -> typeOf E x = Some T -> unmarshals (tmeth T) = true -> ~ half E x -> tree_of w n j ->
  forall fuel v, unmarshalled E x (tmeth T) w n j v (decode (S fuel) E G w p v n).
Proof. exact C55_decode_lem. Qed.
Print Assumptions C55_decode_partial.
(* Marshal with a value, or a pointer to one, whose type has such a method (and not only the pointer to it, which is a
   panic: C41_panic_refuted). *)
Theorem C55_marshal_partial : forall E out t v T, typed E t v -> top_ok E t v -> typeOf E t = Some T ->
  match tkind T with
  | KPtr e => forall X x, typeOf E e = Some X -> v = VPtr (Some x) -> marshals (tmeth X) = true -> marshalled E e (tmeth X) out x (AppendJSON E out (Some (t, v)))
  | _ => marshals (tmeth T) = true -> marshalled E t (tmeth T) out v (AppendJSON E out (Some (t, v)))
  end.
Proof. exact C55_marshal_lem. Qed.
Print Assumptions C55_marshal_partial.
(* Unmarshal with a pointer whose type has a method for decoding: it is called with the value at the start of the text,
   or the text is not JSON and there is an error. *)
Theorem C55_unmarshal : forall E rev s t T x e, typeOf E t = Some T -> tkind T = KPtr e -> unmarshals (tmeth T) = true ->
  (exists j w n, begins s j /\ tree_of w n j /\ unmarshalled E t (tmeth T) w n j x (Unmarshal E rev s t x)) \/
  ~ (exists j, begins s j) /\ exists pe, Unmarshal E rev s t x = Ok (x, Some (UParse pe)).
Proof. exact C55_unmarshal_lem. Qed.
Print Assumptions C55_unmarshal.
(* A struct type with MarshalJSON and no method for decoding (as time.Time without UnmarshalJSON on the value): Marshal
   calls the method, for the field of a struct it does not, and for one with omitempty it does. *)
Theorem C55_refuted : exists E s t t' v, half E s /\ typed E s v /\ typed E t (VStruct [v]) /\ typed E t' (VStruct [v]) /\
  (exists f, kindOf E t = Some (KStruct [f]) /\ ftype f = s) /\ (exists f, kindOf E t' = Some (KStruct [f]) /\ ftype f = s) /\
  Marshal E (Some (s, v)) = Ok (str "[1]", None) /\ Marshal E (Some (t, VStruct [v])) = Ok (str "{""F"":{}}", None) /\ Marshal E (Some (t', VStruct [v])) = Ok (str "{""F"":[1]}", None).
Proof. exact C55_refuted_lem. Qed.
Print Assumptions C55_refuted.
(* A struct type with UnmarshalJSON and no method for encoding, for two fields: the method is called for the first
   only. *)
Theorem C55_decode_refuted : exists E d t pt rev v, half E d /\ kindOf E pt = Some (KPtr t) /\ typed E pt v /\ (exists f g, kindOf E t = Some (KStruct [f; g]) /\ ftype f = d /\ ftype g = d) /\
  (forall x s, callJSONU E d x s = Ok (x, Some UValue)) /\
  Unmarshal E rev (str "{""A"":{}}") pt v = Ok (v, Some UValue) /\ Unmarshal E rev (str "{""B"":{}}") pt v = Ok (v, None).
Proof. exact C55_decode_refuted_lem. Qed.
Print Assumptions C55_decode_refuted.
Example C55_example : newCodec mE defaultOptions (IEnc 10) = Ok (Some built10) /\ ~ half mE 9 /\
  (exists p, slot mE (snd built10) (IEnc 9) 0 p /\ exists q t fs c, nth_error (snd built10) q = Some (CStruct t fs) /\ In c fs /\ ckey (fst c) = str "A" /\ snd (snd c) = p) /\
  (exists p q h, slot mE (snd built10) (IEnc 9) 0 p /\ nth_error (snd built10) q = Some (CKind (IEnc 11) h p)) /\
  (exists p, slot mE (snd built10) (IDec 9) 0 p) /\
  Marshal mE (Some (10, VStruct [VInt 1; VSlice (Some ([VInt 2], [])); VMap (Some [(VString (str "k"), VInt 3)])])) = Ok (str "{""A"":""#1"",""B"":[""#2""],""C"":{""k"":""#3""}}", None) /\
  Marshal mE (Some (17, VPtr (Some (VStruct [])))) = Ok (str "[1]", None) /\
  Unmarshal mE 0 (str """abc""") 16 (VPtr (Some (VInt 0))) = Ok (VPtr (Some (VInt 3)), None).
Proof. exact ex55_lem. Qed.
