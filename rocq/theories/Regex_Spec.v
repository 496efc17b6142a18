(** What a regular expression matches, stated without the search: its language, with the text around it
    for anchors. *)
From Verif Require Import Base Text_Model Regex_Model.
Open Scope list_scope.

Section Lang.
Context (ci : bool) (b : bytes) (e : nat).
(** [lang r i j]: the bytes of [b] from [i] to [j] (not beyond [e]) are in the language of [r];
    [lang_n r n i j]: they are [n] words of it in a row *)
Inductive lang : re -> nat -> nat -> Prop :=
| lg_eps i : lang REps i i
| lg_set s i c : i < e -> nth_error b i = Some c -> in_set ci s c = true -> lang (RSet s) i (S i)
| lg_look l i : look_ok b l i = true -> lang (RLook l) i i
| lg_cat x y i k j : lang x i k -> lang y k j -> lang (RCat x y) i j
| lg_left x y i j : lang x i j -> lang (RAlt x y) i j
| lg_right x y i j : lang y i j -> lang (RAlt x y) i j
| lg_rep lo hi g x n i j : lo <= n -> (forall h, hi = Some h -> n <= h) -> lang_n x n i j -> lang (RRep lo hi g x) i j
| lg_group k n x i j : lang x i j -> lang (RGroup k n x) i j
with lang_n : re -> nat -> nat -> nat -> Prop :=
| ln_none x i : lang_n x 0 i i
| ln_more x n i k j : lang x i k -> lang_n x n k j -> lang_n x (S n) i j.

(** ... and with the spans of the groups before and after *)
Inductive run : re -> nat -> caps -> nat -> caps -> Prop :=
| ru_eps i g : run REps i g i g
| ru_set s i g c : i < e -> nth_error b i = Some c -> in_set ci s c = true -> run (RSet s) i g (S i) g
| ru_look l i g : look_ok b l i = true -> run (RLook l) i g i g
| ru_cat x y i g k h j l : run x i g k h -> run y k h j l -> run (RCat x y) i g j l
| ru_left x y i g j h : run x i g j h -> run (RAlt x y) i g j h
| ru_right x y i g j h : run y i g j h -> run (RAlt x y) i g j h
| ru_rep lo hi gr x n i g j h : lo <= n -> (forall m, hi = Some m -> n <= m) -> run_n x n i g j h -> run (RRep lo hi gr x) i g j h
| ru_group k n x i g j h : run x i g j h -> run (RGroup k n x) i g j (set_cap h k (mkRange i j))
with run_n : re -> nat -> nat -> caps -> nat -> caps -> Prop :=
| rn_none x i g : run_n x 0 i g i g
| rn_more x n i g k h j l : run x i g k h -> run_n x n k h j l -> run_n x (S n) i g j l.
End Lang.
Scheme lang_mut := Induction for lang Sort Prop with lang_n_mut := Induction for lang_n Sort Prop.
Combined Scheme lang_mutind from lang_mut, lang_n_mut.
Scheme run_mut := Induction for run Sort Prop with run_n_mut := Induction for run_n Sort Prop.
Combined Scheme run_mutind from run_mut, run_n_mut.

(** repetitions [{n,m}] have n <= m in every compiled expression *)
Inductive proper : re -> Prop :=
| pr_eps : proper REps
| pr_set s : proper (RSet s)
| pr_look l : proper (RLook l)
| pr_cat x y : proper x -> proper y -> proper (RCat x y)
| pr_alt x y : proper x -> proper y -> proper (RAlt x y)
| pr_rep lo hi g x : (forall h, hi = Some h -> lo <= h) -> proper x -> proper (RRep lo hi g x)
| pr_group k n x : proper x -> proper (RGroup k n x).

(** What the matchers rely on, for every expression that was compiled: a search returns the span of
    every group; the match lies in the range, at its start if the search is anchored; the other groups
    lie in the match; an unanchored search finds the first position where an anchored one succeeds. *)
Definition made (E : engine) (x : rx E) : Prop := exists ci s, rx_build E ci s = Some x.
Record engine_ok (E : engine) : Prop := {
  eo_shape x b r a l : made E x -> rx_search E x b r a = Some l -> List.length l = List.length (rx_groups E x);
  eo_head x b r a l : made E x -> rx_search E x b r a = Some l ->
    exists i j t, l = Some (mkRange i j) :: t /\ rstart r <= i /\ i <= j /\ j <= rend r /\ (a = true -> i = rstart r) /\
      forall g, In (Some g) t -> i <= rstart g /\ rstart g <= rend g /\ rend g <= j;
  eo_leftmost x b s e i j t : made E x -> rx_search E x b (mkRange s e) false = Some (Some (mkRange i j) :: t) ->
    rx_search E x b (mkRange i e) true = Some (Some (mkRange i j) :: t) /\
    forall k, s <= k < i -> rx_search E x b (mkRange k e) true = None;
  eo_none x b s e k : made E x -> rx_search E x b (mkRange s e) false = None -> s <= k <= e -> rx_search E x b (mkRange k e) true = None }.
