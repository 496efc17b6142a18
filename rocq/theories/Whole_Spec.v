(** What the lines of a check file say, down to their texts, and what the texts require of the input. *)
From Coq Require Import String.
From Verif Require Import Base Text_Model Cursor_Model Check_Model Program_Model Lit_Model Lit_Spec Gram_Model Parse_Model Parse_Spec Pat_Spec Whole_Model.
Open Scope list_scope.
Open Scope nat_scope.

(** The directive a suffix of the prefix stands for *)
Definition directive (k : ckind) : kind :=
  match k with
  | CPlain => KPlain | CCount n => KCount n | CNext => KNext | CSame => KSame | CEmpty => KEmpty | CNot => KNot | CDag => KDag | CLabel => KLabel
  end.
(** The directive a line gives, if it has one whose pattern is a text: without "{{" and "[[" unless it is marked
    {LITERAL}.  The text is what follows the colon, without the white space before it. *)
Inductive gives (cfg : config) (l : str) : list (kind * str) -> Prop :=
| gives_nothing o : says cfg l o -> (forall p sh b r, o <> Some (FCheck p sh b, r)) -> gives cfg l []
| gives_empty p r s : says cfg l (Some (FCheck p (ShKind CEmpty) false, r)) ->
    pattern_text (strict_whitespace cfg || match_full_lines cfg) r s -> blank s -> gives cfg l [(KEmpty, [])]
| gives_text p sh k r t : says cfg l (Some (FCheck p sh false, r)) -> kind_is sh k -> k <> CEmpty ->
    pattern_text (strict_whitespace cfg || match_full_lines cfg) r t -> ~ blank t -> (forall a u, t = a ++ u -> ~ opens u) ->
    gives cfg l [(directive k, t)]
| gives_literal p sh k r t : says cfg l (Some (FCheck p sh true, r)) -> kind_is sh k -> k <> CEmpty ->
    keeps (strict_whitespace cfg || match_full_lines cfg) r t -> t <> [] -> gives cfg l [(directive k, t)].
(** Every configured prefix is used, unless --allow-unused-prefixes is given. *)
Definition prefixes_used (cfg : config) (ls : list str) : Prop :=
  allow_unused cfg = true \/
  NoDup (check_prefixes cfg) /\ forall p, In p (check_prefixes cfg) -> exists l sh b r, In l ls /\ says cfg l (Some (FCheck p sh b, r)).

(** Tabs count as spaces unless --strict-whitespace is given. *)
Definition as_seen (strict : bool) (t : str) : str := canonicalize_horizontal_whitespace t strict.
(** Neighbouring CHECK-NOT (CHECK-DAG) directives have different texts. *)
Definition neighbours_differ (strict : bool) (k : kind) (ds : list (kind * str)) : Prop :=
  forall pre run post, ds = pre ++ run ++ post -> Forall (fun d => fst d = k) run -> NoDup (map (fun d => as_seen strict (snd d)) run).

(** The literals of Lit_Model; [n]: the number of the first directive *)
Definition as_lit (strict : bool) (at_ : nat) (t : str) : lit :=
  match as_seen strict t with c :: r => mkLit c r at_ | [] => mkLit 0 [] at_ end.
Fixpoint literal_lines (ci strict : bool) (pos : nat -> nat * Z) (n : nat) (ds : list (kind * str)) : list (line (lit_lang ci)) :=
  match ds with
  | [] => []
  | (k, t) :: r => mkLine (L:=lit_lang ci) k (as_lit strict (fst (pos n)) t) :: literal_lines ci strict pos (S n) r
  end.

(** The texts stand in the input one after the other, at these offsets. *)
Fixpoint one_after_the_other (ci : bool) (b : bytes) (ts : list str) (from : nat) (is : list nat) : Prop :=
  match ts, is with
  | [], [] => True
  | t :: ts', i :: is' => from <= i /\ i + length t <= length b /\ text_at ci b t i /\ one_after_the_other ci b ts' (i + length t) is'
  | _, _ => False
  end.

(** The check file is accepted, the input passes, and these matches are reported. *)
Definition reports (r : res test_result) (out : list minfo) : Prop := exists t, r = Val t /\ into_result t = Some out.
(** The matches of the texts: their places in the input, and those of their patterns in the check file. *)
Fixpoint found_at (pos : nat -> nat * Z) (n : nat) (ts : list str) (is : list nat) : list minfo :=
  match ts, is with
  | t :: ts', i :: is' => mkInfo (mkRange i (i + length t)) 0 (fst (pos n)) :: found_at pos (S n) ts' is'
  | _, _ => []
  end.
