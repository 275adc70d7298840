(* Model of unjson/cache.go:9-66: a Cache used by any number of goroutines.  A state holds the two maps, the
   RWMutex and what each goroutine is doing; a step is one access to the maps or the lock, or the building of
   a codec.  Encoder (lines 44-66) is the same code as Decoder (lines 19-41) on the other map.
   Codecs are names (nat); which one NewTypeDecoder and NewTypeEncoder return, or whether they fail, is
   an input of the step. *)
From Verif Require Import Bytes.

Definition inst := nat.
Definition tid := nat.
Inductive kind := KDec | KEnc.
Definition request := (kind * nat)%type.     (* the method and the type *)
Inductive outcome := RGot (i : inst) | RErr.

(* sync.RWMutex after its documentation: a waiting Lock keeps new readers out; one writer at a time. *)
Inductive writer := WFree | WWaits (t : tid) | WHolds (t : tid).
Record rwmutex := mkL { readers : nat; wstate : writer }.

(* where a goroutine is in a call *)
Inductive pc :=
| Outside
| Started (q : request)                      (* cache.go:20, before RLock *)
| Reading (q : request)                      (* 21 *)
| Read (q : request) (d : option inst)       (* 22, before RUnlock *)
| Unlocked (q : request) (d : option inst)   (* 23-29: return, or build *)
| Built (q : request) (i : inst)             (* 30, before Lock *)
| Waiting (q : request) (i : inst)           (* 30, Lock called *)
| Checking (q : request) (i : inst)          (* 31 *)
| Making (q : request) (i : inst)            (* 35-37 *)
| Storing (q : request) (i : inst)           (* 38 *)
| Leaving (q : request) (i : inst).          (* 32-33 or 39-40, before Unlock *)
Record thread := mkT { todo : list request; at_ : pc }.
(* a nil map is None *)
Record cstate := mkC { cdec : option (list (nat * inst)); cenc : option (list (nat * inst)); clock : rwmutex; threads : list thread; log : list (request * outcome) }.

Definition cmap (st : cstate) (k : kind) := match k with KDec => cdec st | KEnc => cenc st end.
Fixpoint find (l : list (nat * inst)) (t : nat) : option inst :=
  match l with [] => None | (t', i) :: l => if Nat.eqb t t' then Some i else find l t end.
(* m[typ] *)
Definition look (st : cstate) (q : request) : option inst := match cmap st (fst q) with Some l => find l (snd q) | None => None end.

Definition setMap (st : cstate) (k : kind) (m : option (list (nat * inst))) : cstate :=
  match k with KDec => mkC m (cenc st) (clock st) (threads st) (log st) | KEnc => mkC (cdec st) m (clock st) (threads st) (log st) end.
Definition setLock (st : cstate) (l : rwmutex) : cstate := mkC (cdec st) (cenc st) l (threads st) (log st).
Fixpoint replace (l : list thread) (t : tid) (x : thread) : list thread :=
  match l, t with [], _ => [] | _ :: l, O => x :: l | y :: l, S t => y :: replace l t x end.
Definition setThread (st : cstate) (t : tid) (x : thread) : cstate := mkC (cdec st) (cenc st) (clock st) (replace (threads st) t x) (log st).
Definition addLog (st : cstate) (q : request) (o : outcome) : cstate := mkC (cdec st) (cenc st) (clock st) (threads st) (log st ++ [(q, o)]).

(* the result of letting goroutine t run: nothing to do, must wait, a fatal error, or a step *)
Inductive move := Done | Blocked | Crash | Next (st : cstate).
Definition cstep (st : cstate) (t : tid) (b : outcome) : move :=
  match nth_error (threads st) t with
  | None => Done
  | Some th =>
      let go p := mkT (todo th) p in
      let l := clock st in
      match at_ th with
      | Outside => match todo th with [] => Done | q :: r => Next (setThread st t (mkT r (Started q))) end
      | Started q => match wstate l with WFree => Next (setThread (setLock st (mkL (S (readers l)) WFree)) t (go (Reading q))) | _ => Blocked end
      | Reading q => Next (setThread st t (go (Read q (look st q))))
      | Read q d => match readers l with O => Crash | S n => Next (setThread (setLock st (mkL n (wstate l))) t (go (Unlocked q d))) end
      | Unlocked q (Some i) => Next (addLog (setThread st t (go Outside)) q (RGot i))
      | Unlocked q None =>
          match b with
          | RErr => Next (addLog (setThread st t (go Outside)) q RErr)
          | RGot i => Next (setThread st t (go (Built q i)))
          end
      | Built q i => match wstate l with WFree => Next (setThread (setLock st (mkL (readers l) (WWaits t))) t (go (Waiting q i))) | _ => Blocked end
      | Waiting q i => match readers l with O => Next (setThread (setLock st (mkL O (WHolds t))) t (go (Checking q i))) | _ => Blocked end
      | Checking q i => match look st q with Some j => Next (setThread st t (go (Leaving q j))) | None => Next (setThread st t (go (Making q i))) end
      | Making q i => match cmap st (fst q) with Some _ => Next (setThread st t (go (Storing q i))) | None => Next (setThread (setMap st (fst q) (Some [])) t (go (Storing q i))) end
      | Storing q i => match cmap st (fst q) with Some m => Next (setThread (setMap st (fst q) (Some ((snd q, i) :: m))) t (go (Leaving q i))) | None => Crash end
      | Leaving q i => match wstate l with WHolds _ => Next (addLog (setThread (setLock st (mkL (readers l) WFree)) t (go Outside)) q (RGot i)) | _ => Crash end
      end
  end.

Inductive cruns : cstate -> list (tid * outcome) -> cstate -> Prop :=
| cr_nil st : cruns st [] st
| cr_cons st t b st1 s st2 : cstep st t b = Next st1 -> cruns st1 s st2 -> cruns st ((t, b) :: s) st2.
(* a new Cache and goroutines that make these calls *)
Definition cstart (calls : list (list request)) : cstate := mkC None None (mkL 0 WFree) (map (fun c => mkT c Outside) calls) [].
