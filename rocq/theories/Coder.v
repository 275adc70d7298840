(* Model of the encoder and decoder objects of unjson: NewTypeEncoder and NewTypeDecoder with any options, and the
   methods Encode and Decode of what they return.

   Simplifications: those of Codec.v.  A dynamic type and a value of it stand for an interface{}; None is nil. *)
From Verif Require Import Bytes Types Parser Doc DocSpec Strjson Float Num Iface Wrap Options Codec.

(* options.go:37-45 *)
Definition normalize (o : opts) : opts :=
  mkO (match oTag o with [] => str "json" | t => t end) (oOmitEmpty o) (match oOmitMethod o with [] => str "Omit" | m => m end) (oNaN o) (oInf o).

(* ---- encode.go ---- *)

(* encode.go:24-31: one of njsonEncoder, jsonEncoder and textEncoder, or an object that newEncoder made, with its
   heap; the type, and the options that the object points to *)
Inductive encoder := EAppend | EJSON | EText | EMade (o : nat) (G : list cobj).
Record typeEncoder := mkTE { teEncoder : encoder; teTyp : tid; teOptions : opts }.
(* encode.go:71-97; None is errInvalidType *)
Definition newTypeEncoder (E : env) (typ : option tid) (O : opts) : res (option typeEncoder) :=
  match typ with
  | None => Ok None
  | Some t =>
      match typeOf E t with
      | None => Panic
      | Some T =>
          let (mt, pm) := match tkind T with KPtr e => (e, tmeth T) | _ => (t, tptr T) end in
          if isAppender pm then Ok (Some (mkTE EAppend mt O))
          else if isJSON pm then Ok (Some (mkTE EJSON mt O))
          else if isText pm then Ok (Some (mkTE EText mt O))
          else let! r := newCodec E O (IEnc mt) in Ok match r with Some (o, G) => Some (mkTE (EMade o G) mt O) | None => None end
      end
  end.
(* encode.go:66-69 *)
Definition NewTypeEncoder (E : env) (typ : option tid) (options : opts) : res (option typeEncoder) := newTypeEncoder E typ (normalize options).
(* encode.go:39-51.  The njson, json and text encoders convert v to the interface (encode.go:146-158, 209-217). *)
Definition Encode (E : env) (m : typeEncoder) (out : bytes) (x : option (tid * gv)) : res (bytes * option uerr) :=
  match x with
  | None => Ok (out, Some UInvalidValue)
  | Some (t, v) =>
      match typeOf E t with
      | None => Panic
      | Some T =>
          let! y := match tkind T with
                    | KPtr e => match v with VPtr (Some x) => Ok (e, x, true) | _ => Panic end
                    | _ => Ok (t, v, false)
                    end in
          let '(t, y, addr) := y in
          if negb (t =? teTyp m)%nat then Ok (out, Some UInvalidValue) else
          match typeOf E t with
          | None => Panic
          | Some M =>
              match teEncoder m with
              | EAppend => if isAppender (tmeth M) then callAppend E t y out else Panic
              | EJSON => if isJSON (tmeth M) then encodeJSON E t out y else Panic
              | EText => if isText (tmeth M) then encodeText E t out y else Panic
              | EMade o G => encode (vdepth v) E G (teOptions m) o addr out y
              end
          end
      end
  end.

(* ---- decode.go ---- *)

(* decode.go:33-36: interfaceDecoder, njsonDecoder, jsonDecoder, textDecoder or a typeDecoder *)
Inductive decoder := DIface | DNode | DJSON | DText | DType (o : nat) (G : list cobj) (t : tid).
(* decode.go:112-115 *)
Definition tagOptions (tag : bytes) : opts := mkO (match tag with [] => str "json" | t => t end) false [] false false.
(* decode.go:94-124; None is errInvalidType *)
Definition NewTypeDecoder (E : env) (typ : option tid) (tag : bytes) : res (option decoder) :=
  match typ with
  | None => Ok (Some DIface)
  | Some t =>
      match typeOf E t with
      | None => Panic
      | Some T =>
          match tkind T with
          | KIface false => Ok (Some DIface)
          | KPtr e =>
              if isNodeU (tmeth T) then Ok (Some DNode)
              else if isJSONU (tmeth T) then Ok (Some DJSON)
              else if isTextU (tmeth T) then Ok (Some DText)
              else let! r := newCodec E (tagOptions tag) (IDec e) in Ok match r with Some (o, G) => Some (DType o G t) | None => None end
          | _ => Ok None
          end
      end
  end.
(* document.go:192-249: what toInterface returns next to false.  An array that fails gives a nil slice in the
   interface, a number that fails NaN. *)
Definition failedInterface (w : world) (n : Node) : option (tid * gv) :=
  if (Node_Type w n =? TypeArray)%N then Some (tSliceI, VSlice None)
  else if (Node_Type w n =? TypeNumber)%N then Some (tFloat64, VFloat FNaN)
  else None.
(* decode.go:40-55, 67-72, 81-87, 374-382 and 486-491; pi is the type *interface{}.  The result has the new value
   of x, which is changed only through a pointer (the Set of line 52 panics). *)
Definition Decode (E : env) (pi : tid) (w : world) (d : decoder) (x : option (tid * gv)) (n : Node) : res (option (tid * gv) * option uerr) :=
  let typed_ (t : tid) (r : res (gv * option uerr)) : res (option (tid * gv) * option uerr) := let! y := r in Ok (Some (t, fst y), snd y) in
  match x with
  | None => Ok (x, match d with DIface => typeError w n TypeAnyValue | _ => Some UInvalidValue end)
  | Some (t, v) =>
      match typeOf E t with
      | None => Panic
      | Some T =>
          match d with
          | DIface =>
              if (t =? pi)%nat then
                let! g := Node_ToInterface w n in
                match v, g with
                | VPtr (Some _), Some g => Ok (Some (t, VPtr (Some (VIface (ofGo g)))), None)
                | VPtr (Some _), None => Ok (Some (t, VPtr (Some (VIface (failedInterface w n)))), typeError w n TypeAnyValue)
                | _, _ => Panic
                end
              else Ok (x, typeError w n TypeAnyValue)
          | DNode => if isNodeU (tmeth T) then typed_ t (callNodeU E t v w n) else Ok (x, Some UInvalidValue)
          | DJSON => if isJSONU (tmeth T) then typed_ t (let! o := Node_WrapUnmarshalJSON w n in wrapped o (callJSONU E t v) v) else Ok (x, Some UInvalidValue)
          | DText => if isTextU (tmeth T) then typed_ t (wrapped (Node_WrapUnmarshalText w n) (callTextU E t v) v) else Ok (x, Some UInvalidValue)
          | DType o G typ =>
              if negb (t =? typ)%nat then Ok (x, Some UInvalidValue) else
              match v with
              | VPtr None => if (Node_Type w n =? TypeNull)%N then Ok (x, None) else Panic
              | VPtr (Some e) => typed_ t (let! y := decode (decodeFuel E w n) E G w o e n in Ok (VPtr (Some (fst y)), snd y))
              | _ => Panic
              end
          end
      end
  end.
