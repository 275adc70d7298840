(* Model of the callback helpers of node.go: WrapUnmarshalJSON, WrapUnmarshalText and PrintJSON.
   A callback is an argument u; what the helper does is either to call it once with some bytes and return
   its error, or to return an error itself.  bufferpool only recycles the memory of the bytes passed; a
   callback that keeps them after it returns is outside the model, as the interfaces forbid it. *)
From Verif Require Import Bytes Types Parser Doc.

Inductive outcome := Called (data : bytes) | Rejected (e : terr).

(* node.go:192-221 *)
Definition Node_WrapUnmarshalJSON (w : world) (n : Node) : res outcome :=
  match Node_get w n with
  | None => Ok (Rejected (TypeErr TypeInvalid TypeAnyValue))
  | Some x =>
      let t := info_Type (ninfo x) in
      let rest :=
        let! r := Node_AppendJSON w n [] in
        match r with
        | (data, None) => Ok (Called data)
        | (_, Some e) => Ok (Rejected e)
        end in
      if (t =? TypeArray)%N then match nvalues x with [] => Ok (Called [delimBeginArray; delimEndArray]) | _ => rest end
      else if (t =? TypeObject)%N then match nvalues x with [] => Ok (Called [delimBeginObject; delimEndObject]) | _ => rest end
      else if (t =? TypeString)%N then match nraw x with [] => Ok (Called [delimString; delimString]) | _ => rest end
      else if (t =? TypeInvalid)%N then Ok (Rejected (TypeErr TypeInvalid TypeAnyValue))
      else rest
  end.

(* node.go:224-239 *)
Definition Node_WrapUnmarshalText (w : world) (n : Node) : outcome :=
  match Node_get w n with
  | Some x =>
      let t := info_Type (ninfo x) in
      if (t =? TypeString)%N then Called (nraw x) else Rejected (TypeErr t TypeString)
  | None => Rejected (TypeErr TypeInvalid TypeString)
  end.

(* node.go:177-189: Called is the call of w.Write, whose results are returned; otherwise 0 is returned with the error *)
Definition Node_PrintJSON (w : world) (n : Node) : res outcome :=
  let! r := Node_AppendJSON w n [] in
  match r with
  | (data, None) => Ok (Called data)
  | (_, Some e) => Ok (Rejected e)
  end.
