(* String literals of Go, as the generator writes names into its code: model by the language specification. *)
From Verif Require Import Bytes Utf8.

(* Source text: UTF-8 without NUL and without a byte order mark. *)
Fixpoint goSource (fuel : nat) (s : bytes) : bool :=
  match s with
  | [] => true
  | _ =>
      match fuel with
      | O => false
      | S k =>
          let (r, n) := DecodeRune s in
          negb ((r =? RuneError)%N && (n =? 1)%nat) && negb (r =? 0)%N && negb (r =? 65279)%N && goSource k (skipn n s)
      end
  end.
(* a, b, f, n, r, t, v, \ and the quote after a backslash *)
Definition simpleEscape (c : byte) : option byte :=
  if beqb c x61 then Some x07 else if beqb c x62 then Some x08 else if beqb c x66 then Some x0c else if beqb c x6e then Some x0a
  else if beqb c x72 then Some x0d else if beqb c x74 then Some x09 else if beqb c x76 then Some x0b
  else if beqb c x5c then Some x5c else if beqb c x22 then Some x22 else None.
Definition digitVal (c : byte) : N :=
  let n := bN c in
  if ((48 <=? n) && (n <=? 57))%N then (n - 48)%N
  else if ((65 <=? n) && (n <=? 70))%N then (n - 55)%N
  else if ((97 <=? n) && (n <=? 102))%N then (n - 87)%N else 16%N.
(* the number written with the digits, all of them below the base *)
Fixpoint numberIn (base : N) (ds : bytes) (acc : N) : option N :=
  match ds with
  | [] => Some acc
  | c :: r => if (digitVal c <? base)%N then numberIn base r (acc * base + digitVal c)%N else None
  end.
Definition byteEscape (base : N) (ds : bytes) : option bytes :=
  match numberIn base ds 0 with Some n => if (n <? 256)%N then Some [Nb n] else None | None => None end.
Definition runeEscape (ds : bytes) : option bytes :=
  match numberIn 16 ds 0 with Some n => if ((n <? 55296) || ((57344 <=? n) && (n <? 1114112)))%N then Some (EncodeRune n) else None | None => None end.
Definition joinLit (a b : option bytes) : option bytes := match a, b with Some a, Some b => Some (a ++ b) | _, _ => None end.
(* the value of an interpreted string with these bytes between its quotes; None if there is none *)
Fixpoint goLit (s : bytes) : option bytes :=
  match s with
  | [] => Some []
  | c :: r =>
      if beqb c x22 || beqb c x0a then None
      else if negb (beqb c x5c) then joinLit (Some [c]) (goLit r)
      else
        match r with
        | [] => None
        | e :: r =>
            match simpleEscape e with
            | Some b => joinLit (Some [b]) (goLit r)
            | None =>
                if beqb e x78 then match r with a :: b :: r => joinLit (byteEscape 16 [a; b]) (goLit r) | _ => None end
                else if beqb e x75 then match r with a :: b :: c :: d :: r => joinLit (runeEscape [a; b; c; d]) (goLit r) | _ => None end
                else if beqb e x55 then
                  match r with a :: b :: c :: d :: a' :: b' :: c' :: d' :: r => joinLit (runeEscape [a; b; c; d; a'; b'; c'; d']) (goLit r) | _ => None end
                else match r with a :: b :: r => joinLit (byteEscape 8 [e; a; b]) (goLit r) | _ => None end
            end
        end
  end.
(* can the name stand in an interpreted string, and what does it stand for there? *)
Definition goodName (s : bytes) : bool := goSource (length s) s && match goLit s with Some _ => true | None => false end.
Definition litText (s : bytes) : bytes := match goLit s with Some v => v | None => [] end.
(* In a raw string.  A name with a carriage return, which Go drops there, counts as wrong. *)
Definition goodRaw (s : bytes) : bool := goSource (length s) s && forallb (fun c => negb (beqb c x60 || beqb c x0d)) s.
