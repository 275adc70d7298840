(* Specification vocabulary for the files and the command of the code generator: C65, C66. *)
From Verif Require Import Bytes ErrText.

Definition ends (s suffix : bytes) : Prop := exists a, s = a ++ suffix.
(* The lines of a file; the last one is what is behind the last line end. *)
Fixpoint lines (s : bytes) : list bytes :=
  match s with
  | [] => [[]]
  | c :: r => if beqb c x0a then [] :: lines r else match lines r with l :: t => (c :: l) :: t | [] => [[c]] end
  end.
(* Go identifiers: letters, digits, underscores; of other characters than ASCII only the bytes are looked at. *)
Definition letter (c : byte) : Prop := (65 <= bN c <= 90 \/ 97 <= bN c <= 122 \/ c = x5f \/ 128 <= bN c)%N.
Definition ident (s : bytes) : Prop :=
  match s with c :: r => letter c /\ Forall (fun c => letter c \/ (48 <= bN c <= 57)%N) r | [] => False end.
(* A line by which tools know generated files: ^// Code generated .* DO NOT EDIT\.$ *)
Definition generated_line (l : bytes) : Prop := exists t, l = str "// Code generated " ++ t ++ str " DO NOT EDIT.".
(* The text begins with blank line comments and then one that begins so, directly or behind a space. *)
Definition comment_starts (file t : bytes) : Prop :=
  exists blanks sp r, file = List.concat (map (fun w => str "//" ++ w ++ [x0a]) blanks) ++ str "//" ++ sp ++ t ++ r /\
    Forall (Forall (fun c => c = x20 \/ c = x09 \/ c = x0d)) blanks /\ (sp = [] \/ sp = [x20]).
(* An import declaration that binds the name of the package: the name is left out only if it is the last element of the
   path. *)
Definition declares (isPrint : N -> bool) (l path name : bytes) : Prop :=
  (l = str "import " ++ quoteString isPrint path /\
     exists dir slashes, path = dir ++ name ++ slashes /\ (dir = [] \/ ends dir [x2f]) /\ Forall (eq x2f) slashes) \/
  l = str "import " ++ name ++ x20 :: quoteString isPrint path.
(* The characters that mean something in a regular expression. *)
Definition plain_name (s : bytes) : Prop := Forall (fun c => ~ In c (str "\.+*?()|[]{}^$")) s.
(* The types an argument of the command stands for: all, the one of that name, or those that match. *)
Definition wanted (compile : bytes -> option (bytes -> bool)) (arg t : bytes) : Prop :=
  arg = [] \/ arg = str "*" \/ (plain_name arg /\ t = arg) \/ (~ plain_name arg /\ exists f, compile arg = Some f /\ f t = true).
(* The text of a method if it is asked for; a method that is asked for is there. *)
Definition codeOf {A} (asked : bool) (code : option (A * bytes)) : bytes := if asked then match code with Some (_, s) => s | None => [] end else [].
Definition madeOf {A} (asked : bool) (code : option (A * bytes)) : Prop := asked = true -> code <> None.
