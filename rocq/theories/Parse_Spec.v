(** What the documentation says about the lines of a check file, stated on the text alone. *)
From Coq Require Import String.
From Verif Require Import Base Gram_Model Parse_Model.
From Verif Require BoolExpr_Spec.
Open Scope string_scope.
Open Scope list_scope.

Definition ws (c : N) : Prop := BoolExpr_Spec.white c.
Definition blank (s : str) : Prop := Forall ws s.
(** space, tab, form feed, carriage return: what an indentation is made of *)
Definition indent_char (c : N) : Prop := c = 32%N \/ c = 9%N \/ c = 12%N \/ c = 13%N.

(** ** Which prefixes may be configured (a letter, then letters, digits, '-' and '_') *)
Definition prefix_char (c : N) : Prop := ~ ws c /\ c <> 58%N /\ c <> 123%N /\ c <> 0%N.
Definition good_prefix (p : str) : Prop := p <> [] /\ Forall prefix_char p.
Definition good_config (cfg : config) : Prop :=
  check_prefixes cfg <> [] /\ comment_prefixes cfg <> [] /\
  Forall good_prefix (check_prefixes cfg) /\ Forall good_prefix (comment_prefixes cfg).

(** ** The directives *)
Definition suffix_of (k : ckind) : option str :=
  match k with
  | CPlain => Some (of_string "")
  | CNext => Some (of_string "-NEXT")
  | CSame => Some (of_string "-SAME")
  | CNot => Some (of_string "-NOT")
  | CDag => Some (of_string "-DAG")
  | CLabel => Some (of_string "-LABEL")
  | CEmpty => Some (of_string "-EMPTY")
  | CCount _ => None
  end.
Definition digit (c : N) : Prop := (48 <= c <= 57)%N.
(** the words that make a directive *)
Inductive keyword (cfg : config) : found -> str -> Prop :=
| kw_kind p k s b : In p (check_prefixes cfg) -> suffix_of k = Some s -> keyword cfg (FCheck p (ShKind k) b) (p ++ s)
| kw_count p ds b : In p (check_prefixes cfg) -> ds <> [] -> Forall digit ds ->
    keyword cfg (FCheck p (ShCount ds) b) (p ++ of_string "-COUNT-" ++ ds).
(** ... possibly with {LITERAL} *)
Inductive more_modifiers : str -> Prop :=
| mm_none : more_modifiers []
| mm_more a b c m : blank a -> blank b -> blank c -> more_modifiers m ->
    more_modifiers (a ++ of_string "," ++ b ++ of_string "LITERAL" ++ c ++ m).
Inductive modifiers : bool -> str -> Prop :=
| mo_none : modifiers false []
| mo_some a m : blank a -> more_modifiers m ->
    modifiers true (of_string "{" ++ a ++ of_string "LITERAL" ++ m ++ of_string "}").

(** A text that begins with a directive or a comment, and what follows it (the rest of the line for a
    comment). *)
Definition eol (s : str) : Prop := s = [] \/ exists r, s = 10%N :: r.
Inductive heads (cfg : config) : str -> found -> str -> Prop :=
| hd_comment p t u : In p (comment_prefixes cfg) -> ~ In 10%N t -> eol u ->
    heads cfg (p ++ of_string ":" ++ t ++ u) (FComment t) u
| hd_check p sh b w m t : keyword cfg (FCheck p sh b) w -> modifiers b m ->
    heads cfg (w ++ m ++ of_string ":" ++ t) (FCheck p sh b) t.

(** No word can be read as a directive in two ways. *)
Definition unambiguous (cfg : config) : Prop :=
  (forall p sh b p' sh' b' w, keyword cfg (FCheck p sh b) w -> keyword cfg (FCheck p' sh' b') w -> p = p' /\ sh = sh') /\
  (forall p f, In p (comment_prefixes cfg) -> ~ keyword cfg f p).

(** ** Lines: the first word of a line that begins a directive or a comment *)
Definition word_start (before : str) : Prop := before = [] \/ exists b c, before = b ++ [c] /\ ws c.
Inductive says (cfg : config) (line : str) : option (found * str) -> Prop :=
| says_some a t f r : line = a ++ t -> word_start a -> heads cfg t f r ->
    (forall a' t' f' r', line = a' ++ t' -> word_start a' -> heads cfg t' f' r' -> (List.length a <= List.length a')%nat) ->
    says cfg line (Some (f, r))
| says_none : (forall a t f r, line = a ++ t -> word_start a -> ~ heads cfg t f r) -> says cfg line None.

(** ** The lines the lexer is faithful to *)
(** Not a directive or comment with nothing but blanks before it on its line. *)
Definition not_indented (cfg : config) (line : str) : Prop :=
  forall a t f r, line = a ++ t -> a <> [] -> Forall indent_char a -> ~ heads cfg t f r.
(** The brace after a directive is closed on the same line. *)
Definition closed (cfg : config) (line : str) : Prop :=
  forall a t f, line = a ++ t -> forall w u, t = w ++ of_string "{" ++ u -> keyword cfg f w -> In 125%N u.
Definition file (ls : list str) : str := join (of_string (String (Ascii.ascii_of_nat 10) "")) ls.
(** Lines that stand for themselves in a check file. *)
Definition plain_line (cfg : config) (line : str) : Prop :=
  ~ In 10%N line /\ closed cfg line /\ not_indented cfg line /\ forall r, line <> 0%N :: r.

(** ** Patterns without blocks *)
(** the white space around and before a text *)
Definition starts_solid (s : str) : Prop := forall c r, s = c :: r -> ~ ws c.
Definition ascii_blank (s : str) : Prop := Forall (fun c => c = 32 \/ c = 9 \/ c = 10 \/ c = 12 \/ c = 13)%N s.
Definition ascii_solid (s : str) : Prop := forall c r, s = c :: r -> ~ ascii_blank [c].
(** what a directive keeps of the text after its colon: everything from the first character that is not
    white space; with --strict-whitespace or --match-full-lines everything but one space *)
Inductive keeps (strict : bool) : str -> str -> Prop :=
| keeps_lax w t : strict = false -> blank w -> starts_solid t -> keeps strict (w ++ t) t
| keeps_space t : strict = true -> keeps strict (of_string " " ++ t) t
| keeps_all t : strict = true -> (forall r, t <> of_string " " ++ r) -> keeps strict t t.
Inductive keeps_ascii : str -> str -> Prop :=
| keeps_lax_ascii w t : ascii_blank w -> ascii_solid t -> keeps_ascii (w ++ t) t.
Definition infix (x s : str) : Prop := exists a b, s = a ++ x ++ b.
