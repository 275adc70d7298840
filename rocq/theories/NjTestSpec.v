(* Specification vocabulary for the test cases of njsontest. *)
From Verif Require Import Bytes Types JsonSpec Parser Doc DocSpec NjTest.
Local Open Scope nat_scope.

(* The last option of a sort. *)
Definition last_of {V A} (f : given V -> option A) (l : list (given V)) (a : A) : Prop := exists p o q, l = p ++ o :: q /\ f o = Some a /\ forall o', In o' q -> f o' = None.
Definition none_of {V A} (f : given V -> option A) (l : list (given V)) : Prop := forall o, In o l -> f o = None.
Definition aMethod {V} (o : given V) : option bytes := match o with GMethod n => Some n | _ => None end.
Definition anError {V} (o : given V) : option errorArg := match o with GError a => Some a | _ => None end.
Definition aValue {V} (o : given V) : option (subject V) := match o with GValue x => Some x | _ => None end.
Definition aJSON {V} (o : given V) : option (jsonArg V) := match o with GJSON a => Some a | _ => None end.
(* The name of the method: the one said last, or else the default. *)
Definition named {V} (l : list (given V)) (default name : bytes) : Prop :=
  (last_of aMethod l name /\ name <> []) \/ ((last_of aMethod l [] \/ none_of aMethod l) /\ name = default).

(* Does the argument of Error ask for an error, and does it take this one? *)
Inductive wants : errorArg -> Prop :=
| wt_error e : wants (EAError e) | wt_func f : wants (EAFunc (Some f)) | wt_string c s : wants (EAString (c :: s)) | wt_regexp r : wants (EARegexp (Some r)) | wt_bool : wants (EABool true).
Inductive takes : errorArg -> gerr -> Prop :=
| tk_error e e' : etype e' = etype e -> eid e' = eid e -> takes (EAError e) e'
| tk_func f e : f e = Ok None -> takes (EAFunc (Some f)) e
| tk_string s e a b : etext e = a ++ s ++ b -> takes (EAString s) e
| tk_regexp r e : r (etext e) = true -> takes (EARegexp (Some r)) e
| tk_bool e : takes (EABool true) e.
Definition wanted {V} (l : list (given V)) : Prop := exists a, last_of anError l a /\ wants a.
(* What the method returned as an error is what the options ask for. *)
Definition error_met {V} (l : list (given V)) (err : option gerr) : Prop := exists a e, last_of anError l a /\ wants a /\ err = Some e /\ takes a e.
(* Asking the argument does not panic. *)
Definition asks (a : errorArg) (e : gerr) : Prop :=
  match a with EAError e' => etype e = etype e' -> ecomp e = true | EAFunc (Some f) => exists r, f e = Ok r | EAOther => False | _ => True end.

(* The JSON data at the k-th run. *)
Inductive yields {V} (U : universe V) (k : nat) (m : memory V) : jsonArg V -> bytes -> option gerr -> Prop :=
| yl_func f b e : f k m = Ok (b, e) -> yields U k m (JAFunc (Some f)) b e
| yl_bytes b : yields U k m (JABytes b) b None
| yl_string b : yields U k m (JAString b) b None
| yl_reader b e : k = 0 -> yields U k m (JAReader b e) b e
| yl_read b e : k <> 0 -> yields U k m (JAReader b e) [] None
| yl_nil : yields U k m JANil (str "null") None
| yl_other x b e : marshal U x m = (b, e) -> yields U k m (JAOther x) b e.
Inductive data_for {V} (U : universe V) (x : subject V) (l : list (given V)) (k : nat) (m : memory V) : bytes -> option gerr -> Prop :=
| df_given a b e : last_of aJSON l a -> yields U k m a b e -> data_for U x l k m b e
| df_default b e : none_of aJSON l -> marshal U x m = (b, e) -> data_for U x l k m b e.

(* The results of a method. *)
Definition err_result (e : option gerr) : rval := match e with Some e => RErr e | None => RNil end.
Definition bytes_result (v : rval) (b : bytes) : Prop := v = RBytes b \/ v = RNil /\ b = [].
(* Results that make the run of a test panic: too few; a value for the error that cannot be nil; an error that has the
   type of the one asked for and cannot be compared. *)
Inductive results_panic {V} (l : list (given V)) : list rval -> Prop :=
| rp_few vs : length vs < 2 -> results_panic l vs
| rp_plain v q : results_panic l (v :: RPlain :: q)
| rp_compare v e e' q : last_of anError l (EAError e') -> etype e = etype e' -> ecomp e = false -> results_panic l (v :: RErr e :: q).
(* The data begin with the text of the tree. *)
Definition text_of (data : bytes) (j : jval) : Prop := exists s w tail, data = s ++ w ++ tail /\ ws s /\ lenient_value j w /\ (is_num j = true -> num_stop tail).
(* [target U x l m v m1]: what the method reads into: the value said last, or a new one. *)
Inductive target {V} (U : universe V) (x : subject V) (l : list (given V)) (m : memory V) : subject V -> memory V -> Prop :=
| tg_given v : last_of aValue l v -> v <> SNil -> target U x l m v m
| tg_new t : last_of aValue l SNil \/ none_of aValue l -> (exists p, x = SPtr t p) \/ (exists y, x = SVal t y) -> target U x l m (SPtr t (Some (length m))) (m ++ [zeroV U t]).
(* The value itself, or the one pointed at. *)
Inductive value_in {V} (m : memory V) : subject V -> nat -> V -> Prop :=
| vi_val t v : value_in m (SVal t v) t v
| vi_ptr t p v : nth_error m p = Some v -> value_in m (SPtr t (Some p)) t v.
