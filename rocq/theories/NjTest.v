(* njsontest: the test cases that the package makes, and what a run of one reports; model.
   Values are those of an arbitrary type V, held in cells of a memory; pointers are numbers of cells.  What reflect says of a
   value (its methods), json.Marshal and reflect.DeepEqual are inputs. *)
From Verif Require Import Bytes Types Parser Doc.
Local Open Scope nat_scope.

(* A value of type error that is not nil: an identity, its dynamic type, whether values of that type can be compared, and
   what Error returns. *)
Record gerr := mkErr { eid : nat; etype : nat; ecomp : bool; etext : bytes }.
(* a == b; Go panics if the type is the same and cannot be compared *)
Definition sameErr (a b : gerr) : res bool := if etype a =? etype b then if ecomp a then Ok (eid a =? eid b) else Panic else Ok false.
(* strings.HasPrefix, strings.Contains *)
Fixpoint hasPrefix (s p : bytes) : bool := match p, s with [], _ => true | c :: p, d :: s => beqb c d && hasPrefix s p | _, [] => false end.
Fixpoint contains (s p : bytes) : bool := hasPrefix s p || match s with [] => false | _ :: s => contains s p end.

(* A result of a call: a nil of some type with nils; a value of type error; a []byte; another value of a type with nils; a
   value of a type without (reflect.Value.IsNil panics). *)
Inductive rval := RNil | RErr (e : gerr) | RBytes (b : bytes) | ROther | RPlain.
(* What the function is called with: a nil []byte, or a node. *)
Inductive arg := ANil | ANode (w : world) (n : Node).

Section Case.
  Variable V : Type.
  Definition memory := list V.
  (* An interface{}: nil; a pointer, with the type of its element; any other value. *)
  Inductive subject := SNil | SPtr (t : nat) (p : option nat) | SVal (t : nat) (v : V).
  (* A method: has it the type of the method of the interface, and what a call does. *)
  Record method := mkMeth { fits : bool; call : arg -> memory -> res (memory * list rval) }.
  Record universe := mkU {
    methodOf : subject -> bytes -> option method;       (* reflect.Value.MethodByName; None is the zero Value *)
    zeroV : nat -> V;                                   (* reflect.New *)
    marshal : subject -> memory -> bytes * option gerr; (* json.Marshal *)
    deepEqual : nat -> V -> nat -> V -> bool }.         (* reflect.DeepEqual, of values of two types *)

  Definition checks := gerr -> res (option gerr).
  (* option.go:84-90, 99-128: where the JSON data come from; the number is how often it was asked before *)
  Definition source := nat -> memory -> res (bytes * option gerr).
  (* t.go:18-23 *)
  Record T := mkT { tvalue : subject; tcheck : option checks; tjson : source; tmethod : bytes }.

  (* option.go:31-82: the argument of Error by its type, nil functions and regexps included *)
  Inductive errorArg :=
  | EANil | EAError (e : gerr) | EAFunc (f : option checks) | EAString (s : bytes) | EARegexp (r : option (bytes -> bool)) | EABool (b : bool) | EAOther.
  Definition orNil (e : gerr) (b : bool) : option gerr := if b then None else Some e.
  Definition Error (a : errorArg) : res (option checks) :=
    match a with
    | EANil => Ok None
    | EAError e => Ok (Some (fun err => let! b := sameErr err e in Ok (orNil err b)))
    | EAFunc f => Ok f
    | EAString s => Ok (match s with [] => None | _ => Some (fun err => Ok (orNil err (contains (etext err) s))) end)
    | EARegexp r => Ok (match r with None => None | Some r => Some (fun err => Ok (orNil err (r (etext err)))) end)
    | EABool b => Ok (if b then Some (fun _ => Ok None) else None)
    | EAOther => Panic
    end.
  (* option.go:99-128: the argument of JSON by its type; a reader gives its data, with an error or not, and then nothing *)
  Inductive jsonArg :=
  | JAFunc (f : option source) | JABytes (b : bytes) | JAString (s : bytes) | JAReader (b : bytes) (e : option gerr) | JANil | JAOther (x : subject).
  Definition JSON (U : universe) (a : jsonArg) : source :=
    match a with
    | JAFunc f => fun k m => match f with Some f => f k m | None => Panic end
    | JABytes b | JAString b => fun _ _ => Ok (b, None)
    | JAReader b e => fun k _ => Ok (match k with O => (b, e) | _ => ([], None) end)
    | JANil => fun _ _ => Ok (strNull, None)
    | JAOther x => fun _ m => Ok (marshal U x m)
    end.
  (* option.go:24-28, 78-81, 92-96, 125-127 *)
  Inductive toption := OMethod (name : bytes) | OError (c : option checks) | OValue (x : subject) | OJSON (s : source).
  Definition set (t : T) (o : toption) : T :=
    match o with
    | OMethod name => mkT (tvalue t) (tcheck t) (tjson t) name
    | OError c => mkT (tvalue t) c (tjson t) (tmethod t)
    | OValue x => mkT x (tcheck t) (tjson t) (tmethod t)
    | OJSON s => mkT (tvalue t) (tcheck t) s (tmethod t)
    end.
  (* The options as they are written: Method(name), Error(a), Value(x), JSON(a), nil; making one may panic. *)
  Inductive given := GMethod (name : bytes) | GError (a : errorArg) | GValue (x : subject) | GJSON (a : jsonArg) | GNil.
  Definition make (U : universe) (g : given) : res (option toption) :=
    match g with
    | GMethod name => Ok (Some (OMethod name))
    | GError a => let! c := Error a in Ok (Some (OError c))
    | GValue x => Ok (Some (OValue x))
    | GJSON a => Ok (Some (OJSON (JSON U a)))
    | GNil => Ok None
    end.
  Fixpoint makeAll (U : universe) (l : list given) : res (list (option toption)) :=
    match l with [] => Ok [] | g :: l => let! o := make U g in let! os := makeAll U l in Ok (o :: os) end.
  (* t.go:25-35; options that are nil are skipped *)
  Definition newT (U : universe) (x : subject) (options : list (option toption)) : T :=
    fold_left (fun t o => match o with Some o => set t o | None => t end) options (mkT SNil None (fun _ m => Ok (marshal U x m)) []).

  (* What a run reports with Errorf: t.go:51, 55; 62, 125; 68, 133; 105; 109; 113; 129.  An error made by the package is None. *)
  Inductive complaint := CMethod | CData (e : gerr) | CError (e : option gerr) | CBytes (expect actual : bytes) | CParse (e : perror) | CValue.

  (* t.go:137-156; a result of a call can be turned into an interface *)
  Definition checkError (v : rval) (check : option checks) : res (option (option gerr)) :=
    match v, check with
    | RPlain, _ => Panic
    | RErr e, None => Ok (Some (Some e))
    | RErr e, Some check => let! r := check e in Ok (option_map Some r)
    | _, None => Ok None
    | _, Some _ => Ok (Some None)
    end.
  (* t.go:158-171 *)
  Definition checkMethod (U : universe) (v : subject) (name : bytes) : bool :=
    match v, methodOf U v name with SNil, _ => false | _, Some m => fits m | _, None => false end.
  (* Call of the zero Value panics *)
  Definition callMethod (U : universe) (v : subject) (name : bytes) (a : arg) (m : memory) : res (memory * list rval) :=
    match methodOf U v name with Some f => call f a m | None => Panic end.

  (* t.go:37-73: None is the nil function; k is how often the JSON data were asked for before *)
  Definition AppendJSON (U : universe) (x : subject) (options : list (option toption)) : option (nat -> memory -> res (memory * list complaint)) :=
    match x with
    | SNil => None
    | _ =>
        let test := newT U x options in
        let name := match tmethod test with [] => str "AppendJSON" | n => n end in
        Some (fun k m =>
          let wrong := if checkMethod U x name then [] else [CMethod] in
          let! data := tjson test k m in
          match data with
          | (_, Some e) => Ok (m, wrong ++ [CData e])
          | (expect, None) =>
              let! r := callMethod U x name ANil m in
              let (m, results) := r in
              match results with
              | v0 :: v1 :: _ =>
                  let! e := checkError v1 (tcheck test) in
                  match e with
                  | Some e => Ok (m, wrong ++ [CError e])
                  | None =>
                      match tcheck test with
                      | Some _ => Ok (m, wrong)
                      | None =>
                          let actual := match v0 with RBytes b => b | _ => [] end in
                          Ok (m, wrong ++ (if bseqb actual expect then [] else [CBytes expect actual]))
                      end
                  end
              | _ => Panic
              end
          end)
    end.

  (* reflect.Value.Elem and Interface: the value at the pointer *)
  Definition load (m : memory) (x : subject) : res (nat * V) :=
    match x with
    | SPtr t (Some p) => match nth_error m p with Some v => Ok (t, v) | None => Panic end
    | _ => Panic
    end.
  (* t.go:87-92, 127: what the result is compared with; a value is kept as it is, a pointer is followed later *)
  Definition expected (m : memory) (x : subject) : res (nat * V) := match x with SVal t v => Ok (t, v) | _ => load m x end.
  Definition elemType (x : subject) : nat := match x with SPtr t _ | SVal t _ => t | SNil => 0 end.
  (* t.go:75-135; rev is the revision of the document from the pool *)
  Definition Unmarshal (U : universe) (x : subject) (options : list (option toption)) : option (N -> nat -> memory -> res (memory * list complaint)) :=
    match x with
    | SNil => None
    | _ =>
        let test := newT U x options in
        let name := match tmethod test with [] => str "UnmarshalNodeJSON" | n => n end in
        let typ := elemType x in
        Some (fun rev k m =>
          let (v, m) := match tvalue test with SNil => (SPtr typ (Some (length m)), m ++ [zeroV U typ]) | v => (v, m) end in
          if negb (checkMethod U v name) then Ok (m, [CMethod])
          else
            let! data := tjson test k m in
            match data with
            | (_, Some e) => Ok (m, [CData e])
            | (data, None) =>
                let! p := Document_Parse [mkDoc [] rev] 0 data in
                match p with
                | (_, (_, _, Some e)) => Ok (m, [CParse e])
                | (w, (n, _, None)) =>
                    let! r := callMethod U v name (ANode w n) m in
                    let (m, results) := r in
                    match results with
                    | v0 :: _ =>
                        let! e := checkError v0 (tcheck test) in
                        match e with
                        | Some e => Ok (m, [CError e])
                        | None =>
                            match tcheck test with
                            | Some _ => Ok (m, [])
                            | None =>
                                let! a := expected m x in
                                let! b := load m v in
                                Ok (m, if deepEqual U (fst a) (snd a) (fst b) (snd b) then [] else [CValue])
                            end
                        end
                    | [] => Panic
                    end
                end
            end)
    end.
End Case.
Arguments SNil {V}. Arguments SPtr {V} t p. Arguments SVal {V} t v. Arguments mkMeth {V} fits call. Arguments fits {V} m. Arguments call {V} m _ _.
Arguments mkU {V} _ _ _ _. Arguments methodOf {V} _ _ _. Arguments zeroV {V} _ _. Arguments marshal {V} _ _ _. Arguments deepEqual {V} _ _ _ _ _.
Arguments GMethod {V} name. Arguments GError {V} a. Arguments GValue {V} x. Arguments GJSON {V} a. Arguments GNil {V}.
Arguments OMethod {V} name. Arguments OError {V} c. Arguments OValue {V} x. Arguments OJSON {V} s.
Arguments JAFunc {V} f. Arguments JABytes {V} b. Arguments JAString {V} s. Arguments JAReader {V} b e. Arguments JANil {V}. Arguments JAOther {V} x.
Arguments JSON {V} _ _ _ _. Arguments make {V} _ _. Arguments makeAll {V} _ _. Arguments newT {V} _ _ _. Arguments mkT {V} _ _ _ _. Arguments set {V} _ _.
Arguments tvalue {V} _. Arguments tcheck {V} _. Arguments tjson {V} _ _ _. Arguments tmethod {V} _.
Arguments checkMethod {V} _ _ _. Arguments callMethod {V} _ _ _ _ _. Arguments load {V} _ _. Arguments expected {V} _ _. Arguments elemType {V} _.
Arguments AppendJSON {V} _ _ _. Arguments Unmarshal {V} _ _ _.
