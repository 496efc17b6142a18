(** What the listing of suites says.  Uses only the record of the model. *)
From Coq Require Import String.
From Verif Require Import Base Report_Spec Input_Spec Suites_Model.
Notation length := List.length.
Open Scope string_scope. Open Scope list_scope. Open Scope nat_scope.

Section Widths.
(** What the keys are measured by *)
Variable len : str -> nat.
(** A table of keys and values: the values in a column, behind keys that are filled with spaces up to the measure [w] *)
Inductive table (w : nat) : list (str * str) -> str -> Prop :=
| tb_nil : table w [] []
| tb_row k v i l t : len k + i = w -> table w l t ->
    table w ((k, v) :: l) (line (of_string "        - " ++ k ++ repeat 32%N i ++ of_string ": " ++ v) ++ t).
(** [w] is the measure of the widest key. *)
Definition widest (l : list (str * str)) (w : nat) : Prop :=
  (forall k v, In (k, v) l -> len k <= w) /\ (l = [] \/ exists k v, In (k, v) l /\ len k = w).
(** What is said about one suite *)
Inductive entry (s : suite) : str -> Prop :=
| en_text d w ts v te : decimal (su_tests s) d -> widest (su_substitutions s) w -> table w (su_substitutions s) ts ->
    widest (su_env s) v -> table v (su_env s) te ->
    entry s (line (of_string "  * " ++ su_name s ++ of_string " - " ++ d ++ of_string " tests")
      ++ line (of_string "    Source Root  : " ++ su_source s)
      ++ line (of_string "    Exec Root    : " ++ su_exec s)
      ++ line (of_string "    Test Format  : " ++ su_format s)
      ++ line (of_string "    Available Features:")
      ++ concat (map (fun f => line (of_string "        - " ++ f)) (su_features s))
      ++ line (of_string "    Available Substitutions:") ++ ts
      ++ line (of_string "    Environment Variables:") ++ te).
Inductive entries : list suite -> str -> Prop :=
| es_nil : entries [] []
| es_cons s l t r : entry s t -> entries l r -> entries (s :: l) (t ++ r).
Definition listing_by (l : list suite) (t : str) : Prop := exists r, entries l r /\ t = line (of_string "-- Test Suites --") ++ r.
End Widths.
(** Columns are as wide as the number of characters of the longest key. *)
Definition listing : list suite -> str -> Prop := listing_by (fun k => length k).
(** Columns are as wide as the UTF-8 encoding of the longest key, in bytes. *)
Definition listing_bytes : list suite -> str -> Prop := listing_by (fun k => length (concat (map encode k))).

(** Texts of one line *)
Definition one_line (s : str) : Prop := ~ In 10%N s.
(** Texts of which a reader can see where they end: of one line, without a colon and without a space at the end *)
Definition delimited (k : str) : Prop := one_line k /\ ~ In 58%N k /\ forall k', k <> k' ++ [32%N].
Definition readable (s : suite) : Prop :=
  one_line (su_name s) /\ one_line (su_source s) /\ one_line (su_exec s) /\ one_line (su_format s) /\ Forall one_line (su_features s) /\
  Forall (fun e => delimited (fst e) /\ one_line (snd e)) (su_substitutions s) /\ Forall (fun e => delimited (fst e) /\ one_line (snd e)) (su_env s).
(** Keys written in ASCII *)
Definition ascii (k : str) : Prop := forall c, In c k -> (c < 128)%N.
Definition ascii_keys (s : suite) : Prop :=
  (forall k v, In (k, v) (su_substitutions s) -> ascii k) /\ (forall k v, In (k, v) (su_env s) -> ascii k).
