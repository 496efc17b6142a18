(** Which of the matches that begin at a place a search takes: the preferred one.  A match is a sequence of choices; that of
    the first alternative is preferred to that of the second, going on with a repetition to stopping (the other way round
    if the repetition is lazy), and an earlier choice counts more than a later one. *)
From Coq Require Import String.
From Verif Require Import Base Text_Model Cursor_Model Check_Model Lit_Model Lit_Spec Env_Model Num_Model Gram_Model Parse_Model Regex_Model Smart_Model Smart_Spec.
Open Scope list_scope.
Open Scope nat_scope.
Notation length := List.length.

(** Choices: [false] is the preferred one *)
Definition choices := list bool.
(** At the first choice that is not the same, the first takes the preferred alternative. *)
Definition sooner (t u : choices) : Prop := exists p x y, t = p ++ false :: x /\ u = p ++ true :: y.

Section Takes.
Context (ci : bool) (b : bytes) (e : nat).
Inductive takes : re -> nat -> nat -> choices -> Prop :=
| tk_eps i : takes REps i i []
| tk_set s i c : i < e -> nth_error b i = Some c -> in_set ci s c = true -> takes (RSet s) i (S i) []
| tk_look l i : look_ok b l i = true -> takes (RLook l) i i []
| tk_cat x y i k j t u : takes x i k t -> takes y k j u -> takes (RCat x y) i j (t ++ u)
| tk_left x y i j t : takes x i j t -> takes (RAlt x y) i j (false :: t)
| tk_right x y i j t : takes y i j t -> takes (RAlt x y) i j (true :: t)
| tk_rep lo hi g x i k j t u : takes_n lo x i k t -> takes_more (option_map (fun h => h - lo) hi) g x k j u -> takes (RRep lo hi g x) i j (t ++ u)
| tk_group n name x i j t : takes x i j t -> takes (RGroup n name x) i j t
(** the repetitions that must be *)
with takes_n : nat -> re -> nat -> nat -> choices -> Prop :=
| tn_none x i : takes_n 0 x i i []
| tn_more n x i k j t u : takes x i k t -> takes_n n x k j u -> takes_n (S n) x i j (t ++ u)
(** the repetitions that may be; an empty one is the last one, if their number is not bounded *)
with takes_more : option nat -> bool -> re -> nat -> nat -> choices -> Prop :=
| tm_full g x i : takes_more (Some 0) g x i i []
| tm_stop hi g x i : hi <> Some 0 -> takes_more hi g x i i [g]
| tm_bounded n g x i k j t u : takes x i k t -> takes_more (Some n) g x k j u -> takes_more (Some (S n)) g x i j (negb g :: t ++ u)
| tm_more g x i k j t u : takes x i k t -> i < k -> takes_more None g x k j u -> takes_more None g x i j (negb g :: t ++ u)
| tm_empty g x i t : takes x i i t -> takes_more None g x i i (negb g :: t).

(** The choices of a piece for a part: a text has none; of numbers, the longer one is preferred. *)
Inductive chosen_piece : part -> nat -> nat -> choices -> Prop :=
| cp_lit t i j : chosen_piece (QLit t) i j []
| cp_regex s x i j t : build ci s = Some x -> takes (x_re x) i j t -> chosen_piece (QRegex s) i j t
| cp_def v s x i j t : build ci s = Some x -> takes (x_re x) i j t -> chosen_piece (QMatch (MSubst v (Some s))) i j t
| cp_num f v i j : chosen_piece (QMatch (MNumeric f v None)) i j (repeat false (j - i) ++ [true]).
(** A text made of pieces, with the choices *)
Inductive chosen_pieces : list part -> nat -> nat -> list (capt * str) -> choices -> Prop :=
| cps_nil i : chosen_pieces [] i i [] []
| cps_cons q l i k j cs ds t u : piece ci b e q i k cs -> chosen_piece q i k t -> chosen_pieces l k j ds u -> chosen_pieces (q :: l) i j (cs ++ ds) (t ++ u).
(** The preferred one of those that begin at [i] *)
Definition preferred (l : list part) (i j : nat) (cs : list (capt * str)) : Prop :=
  exists t, chosen_pieces l i j cs t /\ forall j' cs' t', chosen_pieces l i j' cs' t' -> ~ sooner t' t.
End Takes.

(** What a search of the range from [s] to [e] returns *)
Inductive choice (ci : bool) (b : bytes) (l : list part) (s e at_ : nat) (env0 : @bindings value) : mresult * @bindings value -> Prop :=
| ch_none : (forall i j cs, s <= i <= e -> ~ pieces ci b e l i j cs) -> choice ci b l s e at_ env0 (failed ENone, env0)
| ch_found i j cs vs : first_pieces ci b l s e i j cs -> preferred ci b e l i j cs -> values_for cs vs ->
    choice ci b l s e at_ env0 (mkRes Good (Some (mkInfo (mkRange i j) 0 at_)), defined env0 vs)
| ch_bad i j cs : first_pieces ci b l s e i j cs -> preferred ci b e l i j cs -> ~ (exists vs, values_for cs vs) ->
    choice ci b l s e at_ env0 (failed (EMatch true), env0).
