(* Specification vocabulary for C71: the flags of the command. *)
From Verif Require Import Bytes JsonSpec Gen GenFile CmdOpts.

Definition or_default (s d : bytes) : bytes := match s with [] => d | _ => s end.
(* The name of a field without one in its tag: by -case; a mode of another name is none. *)
Inductive cased (snake lower lowerCamel camel : bytes -> bytes) : bytes -> bytes -> bytes -> Prop :=
| ca_snake n : cased snake lower lowerCamel camel (str "snake") n (snake n)
| ca_lower n : cased snake lower lowerCamel camel (str "lower") n (lower n)
| ca_camel n : cased snake lower lowerCamel camel (str "camel") n (lowerCamel n)
| ca_Camel n : cased snake lower lowerCamel camel (str "Camel") n (camel n)
| ca_other mode n : ~ In mode [str "snake"; str "lower"; str "camel"; str "Camel"] -> cased snake lower lowerCamel camel mode n n.
(* [cmd_field ... F f name params]: with the flags F the field takes part, under this name and with these parameters. *)
Inductive cmd_field (snake lower lowerCamel camel : bytes -> bytes) (compile : bytes -> Datatypes.option (bytes -> bool)) (F : optFlags) (f : mfield) : bytes -> list bytes -> Prop :=
| cf_intro p ps n :
    mname f <> str "_" -> (ofMatch F = str ".*" \/ exists m, compile (ofMatch F) = Some m /\ m (mname f) = true) ->
    (ofExported F = true -> mexported f = true) ->
    (exists v, mlookup f (or_default (ofKey F) (str "json")) = Some v /\ v = join x2c (p :: ps) /\ Forall (fun q => ~ In x2c q) (p :: ps)) \/
      mlookup f (or_default (ofKey F) (str "json")) = None /\ p = [] /\ ps = [] /\ ofTagged F = false ->
    p <> str "-" -> cased snake lower lowerCamel camel (ofCase F) (mname f) n ->
    cmd_field snake lower lowerCamel camel compile F f (or_default p (or_default n (mname f))) (ps ++ if ofForce F then [str "omitempty"] else []).

(* What the options are, seen from outside. *)
Definition seen (o : options) : bytes * bytes * bytes * bytes * bool * bool * bool :=
  (options_TagKey o, options_AppendMethod o, options_UnmarshalMethod o, OmiterName o, oexported o, otagged o, oforce o).
