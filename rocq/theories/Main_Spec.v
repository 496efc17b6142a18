(** Which tool a call means, and what the options in FILECHECK_OPTS are to do. *)
From Coq Require Import String.
From Verif Require Import Base Cli_Model Cli_Spec Main_Model.
Open Scope string_scope. Open Scope list_scope. Open Scope nat_scope.

(** The program is called by this name: the last part of the path, with or without an extension. *)
Definition called (path name : str) : Prop :=
  exists dir file, path = dir ++ file /\ (dir = [] \/ exists d, dir = d ++ of_string "/") /\ ~ In 47%N file /\ name <> [] /\
    ((file = name /\ (forall c r, name = c :: r -> ~ In 46%N r)) \/ exists ext, ~ In 46%N ext /\ file = name ++ of_string "." ++ ext).
Definition tool_name (t : tool) : str := of_string (match t with Main_Model.Lit => "lit" | FileCheck => "filecheck" | Main_Model.Not => "not" end).
(** The texts that LITCHECK_TRACE_TIMING may have *)
Definition timing_ok (timing : option str) : Prop := forall p, timing = Some p -> In p (map of_string ["s"; "ms"; "us"; "ns"]).

(** ** filecheck *)
(** The values of options that are refused before anything is done *)
Definition well_formed (alnum : N -> bool) (a : args) : Prop :=
  (forall p, check_asked a p -> prefix_form alnum p) /\ (forall p, comment_asked a p -> prefix_form alnum p) /\ forall s, In s (a_define a) -> definition_form s.
(** The call is one that can be understood. *)
Definition understood (alnum : N -> bool) (env : opts) (i : invocation) : Prop :=
  well_formed alnum (i_args i) /\ i_match i <> of_string "help" /\ env <> Refused /\ (forall e d, env = Opts e d -> well_formed alnum e).
(** The options in force, and whether the help about dumps is asked for.  With FILECHECK_OPTS, those of the command line are
    replaced, whether FILECHECK_OPTS gives them or not; only definitions and implicit patterns stay if it gives none. *)
Inductive in_force (env : opts) (i : invocation) : args -> bool -> Prop :=
| f_line : env = NoOpts -> in_force env i (i_args i) (i_dump_help i)
| f_opts e d a : env = Opts e d -> a_check a = a_check e -> a_comment a = a_comment e ->
    (a_define e = [] -> a_define a = a_define (i_args i)) -> (a_define e <> [] -> a_define a = a_define e) ->
    (a_implicit e = [] -> a_implicit a = a_implicit (i_args i)) -> (a_implicit e <> [] -> a_implicit a = a_implicit e) ->
    a_unused a = a_unused e -> a_strict a = a_strict e -> a_full a = a_full e -> a_ci a = a_ci e -> a_scoped a = a_scoped e -> a_empty a = a_empty e ->
    in_force env i a d.
