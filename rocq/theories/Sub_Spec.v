(** What substitutions mean, independently of the code's helpers. *)
From Coq Require Import String.
From Verif Require Import Base Script_Model Sub_Model.
Notation length := List.length.
Open Scope string_scope. Open Scope list_scope.

(** the test's substitutions hide those of the configuration *)
Definition visible (s : scoped) (k v : str) : Prop :=
  In (k, v) (own s) \/ (forall w, ~ In (k, w) (own s)) /\ In (k, v) (parent s).
Definition seen (s : scoped) (k : str) : Prop := exists v, visible s k v.
Definition occurs (p s : str) : Prop := exists a b, s = a ++ p ++ b.
(** another visible substitution's key has this one inside *)
Definition ambiguous (s : scoped) (k : str) : Prop := exists k', seen s k' /\ k' <> k /\ occurs k k'.

(** [t] is [s] with every occurrence of [p], from the left, replaced by [v] *)
Inductive replaced (p v : str) : str -> str -> Prop :=
| rp_nil : replaced p v [] []
| rp_hit s t : replaced p v s t -> replaced p v (p ++ s) (v ++ t)
| rp_miss c s t : (forall r, c :: s <> p ++ r) -> replaced p v s t -> replaced p v (c :: s) (c :: t).
(** one substitution after the other *)
Inductive replaced_all : list (str * str) -> str -> str -> Prop :=
| ra_nil s : replaced_all [] s s
| ra_cons p v l s t u : replaced p v s t -> replaced_all l t u -> replaced_all ((p, v) :: l) s u.
(** the pattern is plain text to the regular expression engine *)
Definition plain_text (rx : str -> str -> str -> option (option str)) (p v : str) : Prop :=
  forall s, (occurs p s /\ exists t, rx p v s = Some (Some t) /\ replaced p v s t) \/ (~ occurs p s /\ rx p v s = Some None).
(** the text between the escaped percent signs *)
Inductive escapes : str -> list str -> Prop :=
| es_last c : ~ occurs (of_string "%%") c -> escapes c [c]
| es_more c r cs : ~ occurs (of_string "%%") c -> (forall t, c <> t ++ of_string "%") -> escapes r cs ->
    escapes (c ++ of_string "%%" ++ r) (c :: cs).
(** the substitutions in the order in which they are tried: those of the configuration, with the value
    the test gives them, then those of the test *)
Definition in_order (s : scoped) (l : list (str * str)) : Prop :=
  exists vs, length vs = length (parent s) /\ l = combine (map fst (parent s)) vs ++ own s /\
  Forall (fun kv => visible s (fst kv) (snd kv)) l.
(** what is visible after some commands: the last definition, or what was visible before *)
Inductive defined (s : scoped) (k v : str) : list command -> Prop :=
| d_start : visible s k v -> defined s k v []
| d_here l n b : defined s k v (l ++ [Subst n k v b])
| d_other l n k' v' b : k' <> k -> defined s k v l -> defined s k v (l ++ [Subst n k' v' b])
| d_run l n t : defined s k v l -> defined s k v (l ++ [Run n t]).
(** the pieces with something between them *)
Fixpoint joined (sep : str) (cs : list str) : str :=
  match cs with [] => [] | [c] => c | c :: r => c ++ sep ++ joined sep r end.
(** a substitution that cannot make or break an escaped percent sign: its pattern begins with a percent
    sign, neither its pattern nor its value has a hash sign, and its value has no doubled percent sign
    and no percent sign at its end; or it is the one for the doubled percent sign *)
Definition harmless (kv : str * str) : Prop :=
  fst kv = of_string "%%" \/
  (exists r, fst kv = of_string "%" ++ r) /\ ~ occurs (of_string "#") (fst kv) /\ ~ occurs (of_string "#") (snd kv) /\
  ~ occurs (of_string "%%") (snd kv) /\ (forall t, snd kv <> t ++ of_string "%").
