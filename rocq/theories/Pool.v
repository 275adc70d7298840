(* Model of document.go:366-412, a Pool shared by any number of users (goroutines).  An execution is a list of
   events in the order in which they happen.  sync.Pool is modelled by what it documents: Get may return any
   stored item, or none at all, and stored items may disappear. *)
From Verif Require Import Bytes Types Parser Doc Api.

Definition uid := nat.
Record pstate := mkP {
  pworld : world;
  pooled : list ref;            (* what sync.Pool stores *)
  owned : list (uid * ref);     (* who uses which document *)
  closing : list (uid * ref)    (* between the two statements of Put *)
}.
Inductive event :=
| PGet (u : uid) (k : option nat)   (* document.go:374-382; the item number k, or the new document when Get gives nil *)
| PCall (u : uid) (c : call)        (* any other call *)
| PReset (u : uid) (r : ref)        (* document.go:397, in Put *)
| PPut (u : uid) (r : ref)          (* document.go:398, in Put *)
| PDrop (k : nat).                  (* the runtime discards a stored item *)

Fixpoint removeNth {A} (l : list A) (k : nat) : list A :=
  match l, k with [], _ => [] | _ :: l, O => l | x :: l, S k => x :: removeNth l k end.
Definition pair_eqb (a b : uid * ref) : bool := Nat.eqb (fst a) (fst b) && Nat.eqb (snd a) (snd b).
Fixpoint remove1 (x : uid * ref) (l : list (uid * ref)) : list (uid * ref) :=
  match l with [] => [] | y :: l => if pair_eqb x y then l else y :: remove1 x l end.

(* What an event does, whether or not the user may do it.  None: the event cannot happen. *)
Definition pstep (st : pstate) (e : event) : option (res pstate) :=
  match e with
  | PGet u None => Some (let! w := step (pworld st) CNewDoc in Ok (mkP w (pooled st) ((u, length (pworld st)) :: owned st) (closing st)))
  | PGet u (Some k) =>
      match nth_error (pooled st) k with
      | Some r => Some (Ok (mkP (pworld st) (removeNth (pooled st) k) ((u, r) :: owned st) (closing st)))
      | None => None
      end
  | PCall u CNewDoc => Some (let! w := step (pworld st) CNewDoc in Ok (mkP w (pooled st) ((u, length (pworld st)) :: owned st) (closing st)))
  | PCall u c => Some (let! w := step (pworld st) c in Ok (mkP w (pooled st) (owned st) (closing st)))
  | PReset u r => Some (let! w := step (pworld st) (CReset r) in Ok (mkP w (pooled st) (remove1 (u, r) (owned st)) ((u, r) :: closing st)))
  | PPut u r => Some (Ok (mkP (pworld st) (r :: pooled st) (owned st) (remove1 (u, r) (closing st))))
  | PDrop k => match nth_error (pooled st) k with Some _ => Some (Ok (mkP (pworld st) (removeNth (pooled st) k) (owned st) (closing st))) | None => None end
  end.
Inductive pruns : pstate -> list event -> pstate -> Prop :=
| pr_nil st : pruns st [] st
| pr_cons st e st1 es st2 : pstep st e = Some (Ok st1) -> pruns st1 es st2 -> pruns st (e :: es) st2.

Definition pstart : pstate := mkP [] [] [] [].

(* The calls an execution makes. *)
Definition calls_of (e : event) : list call :=
  match e with PGet _ None => [CNewDoc] | PCall _ c => [c] | PReset _ r => [CReset r] | _ => [] end.
Definition calls (es : list event) : list call := concat (map calls_of es).
