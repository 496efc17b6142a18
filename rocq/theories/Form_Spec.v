(** What it is for a check file to ask for a numeric format. *)
From Coq Require Import String.
From Verif Require Import Base Num_Model Env_Model Gram_Model Parse_Model.
Open Scope string_scope.
Open Scope list_scope.

(** A format that can be stored: its precision is a byte. *)
Definition precision_of (f : format) : nat := match f with Unsigned p | Signed p | Hex p _ _ => p end.
Definition stored (f : format) : Prop := precision_of f < 256.

(** One check whose pattern is one numeric block: nothing but the format, or a capture, or a value. *)
Inductive block := BOnly | BCapture | BValue.
Definition block_text (b : block) : str := of_string (match b with BOnly => "" | BCapture => "X:" | BValue => "X" end).
Definition block_match (f : format) (b : block) : pmatch :=
  match b with
  | BOnly => MNumeric (Some f) None None
  | BCapture => MNumeric (Some f) (Some (User (of_string "X"))) None
  | BValue => MNumeric (Some f) None (Some (PVar (User (of_string "X"))))
  end.
(** The check file "CHECK: [[#notation,...]]" *)
Definition asking (notation : str) (b : block) : str :=
  of_string "CHECK: [[#" ++ notation ++ of_string "," ++ block_text b ++ of_string "]]".
(** [notation] asks for [f], whatever the block is used for *)
Definition asks_for (cfg : config) (notation : str) (f : format) : Prop :=
  forall b, parse_file cfg (asking notation b) = Some [mkCLine CPlain false (PParts [QMatch (block_match f b)])].

(** The formats a check file asks for. *)
Definition formats_of_part (q : part) : list format :=
  match q with QMatch (MNumeric (Some f) _ _) => [f] | _ => [] end.
Definition formats_of (c : cline) : list format :=
  match cl_pat c with PParts l => flat_map formats_of_part l | _ => [] end.
