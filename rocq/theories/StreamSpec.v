(* Specification for streams of lines.  Nothing in this file refers to the model. *)
From Verif Require Import Bytes JsonSpec StrSpec.

(* The characters with the Unicode property White_Space. *)
Definition white_space (r : N) : Prop :=
  In r [9; 10; 11; 12; 13; 32; 133; 160; 5760; 8192; 8193; 8194; 8195; 8196; 8197; 8198; 8199; 8200; 8201; 8202; 8232; 8233; 8239; 8287; 12288]%N.
Definition spaces (s : bytes) : Prop := exists rs, Forall white_space rs /\ s = utf8s rs.

Definition no_newline (s : bytes) : Prop := ~ In x0a s.
Definition ends_cr (s : bytes) : Prop := exists u, s = u ++ [x0d].
(* the line t as it stands before its newline, with or without a carriage return *)
Definition line_text (line t : bytes) : Prop := line = t ++ [x0d] \/ line = t /\ ~ ends_cr t.

(* one value in a line: optional whitespace, the value, optional Unicode whitespace *)
Definition line_value (v : jval) (t : bytes) : Prop :=
  exists s1 w tail, t = s1 ++ w ++ tail /\ ws s1 /\ lenient_value v w /\ (is_num v = true -> num_stop tail) /\ spaces tail.

(* the stream that has these lines *)
Definition stream (ts : list bytes) : bytes := concat (map (fun t => t ++ [x0a]) ts).
