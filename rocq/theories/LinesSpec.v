(* Specification vocabulary for C59. *)
From Verif Require Import Bytes Types JsonSpec Parser Doc DocSpec Codec CodecSpec DecodeSpec RoundSpec Coder CoderSpec.

(* The encoder of a stream of values of type t: one that was made with the options O, or none, which stands for the
   default options. *)
Definition encoder_for (E : env) (t : tid) (O : opts) (m : option typeEncoder) : Prop :=
  exists m', NewTypeEncoder E (Some t) O = Ok (Some m') /\ (m = Some m' \/ m = None /\ O = noOptions).
Definition decoder_for (E : env) (pt : tid) (tag : bytes) (d : option decoder) : Prop :=
  exists d', NewTypeDecoder E (Some pt) tag = Ok (Some d') /\ (d = Some d' \/ d = None /\ tag = []).
