(* Model of types.go: Type, info. *)
From Verif Require Import Bytes.
Local Open Scope N_scope.

(* types.go:12-21.  TypeInvalid = iota = 0; TypeString = 1 << iota with iota = 1, and so on. *)
Definition TypeInvalid : N := 0.
Definition TypeString  : N := 2.
Definition TypeObject  : N := 4.
Definition TypeArray   : N := 8.
Definition TypeNumber  : N := 16.
Definition TypeBoolean : N := 32.
Definition TypeNull    : N := 64.
(* types.go:20 *)
Definition TypeAnyValue : N :=
  N.lor TypeString (N.lor TypeNumber (N.lor TypeBoolean (N.lor TypeObject (N.lor TypeArray TypeNull)))).

(* types.go:41-45 *)
Definition strFalse : bytes := str "false".
Definition strTrue  : bytes := str "true".
Definition strNull  : bytes := str "null".

(* types.go:77-84: vString = info(TypeString), ... *)
Definition vString  : N := TypeString.
Definition vNumber  : N := TypeNumber.
Definition vNull    : N := TypeNull.
Definition vBoolean : N := TypeBoolean.
Definition vArray   : N := TypeArray.
Definition vObject  : N := TypeObject.

(* types.go:87-90: _ info = 1 << (iota + 8) with iota = 0; infRoot with iota = 1 *)
Definition infRoot : N := 512.

(* types.go:93-95 *)
Definition info_IsRoot (i : N) : bool := N.land i infRoot =? infRoot.
(* types.go:97-99 *)
Definition info_Flags (i : N) : N := N.land i 65280.
(* types.go:102-104: Type(i) converts uint16 to uint8 *)
Definition info_Type (i : N) : N := i mod 256.
(* types.go:107-146 *)
Definition info_IsNull (i : N) : bool := info_Type i =? TypeNull.
Definition info_IsBoolean (i : N) : bool := info_Type i =? TypeBoolean.
Definition info_IsArray (i : N) : bool := info_Type i =? TypeArray.
Definition info_IsString (i : N) : bool := info_Type i =? TypeString.
Definition info_IsNumber (i : N) : bool := info_Type i =? TypeNumber.
Definition info_IsObject (i : N) : bool := info_Type i =? TypeObject.
(* types.go:122-131 *)
Definition Type_IsValue (t : N) : bool := negb (N.land t TypeAnyValue =? 0).
Definition info_IsValue (i : N) : bool := negb (N.land i TypeAnyValue =? 0).

(* math/bits.OnesCount restricted to 8-bit arguments *)
Definition onesCount8 (t : N) : nat :=
  length (filter (fun i => N.testbit t (N.of_nat i)) (seq 0 8)).

(* types.go:24-39  func (t Type) Types() *)
Definition Type_Types (t : N) : list N :=
  if t =? 0 then []
  else if Nat.eqb (onesCount8 t) 1 then [t]
  else filter (fun tt => negb (N.land t tt =? 0))
              (map (fun i => (2 ^ N.of_nat i) mod 256) (seq 0 8)).
