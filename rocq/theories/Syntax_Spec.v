(** The syntax of the regular expressions that a pattern may use ({{...}} and [[X:...]]), and what they describe (C98).  It is
    the part of the syntax of the regex crate that Regex_Model covers, told from its documentation, on ASCII texts. *)
From Coq Require Import String.
From Verif Require Import Base Text_Model Text_Spec.
Open Scope list_scope.
Open Scope nat_scope.
Notation length := List.length.

(** * Expressions *)
Inductive rexp :=
| XEmpty                                                          (** nothing *)
| XOne (P : N -> Prop)                                            (** one character of a set *)
| XHere (Q : bytes -> nat -> Prop)                                (** a condition on the place *)
| XCat (x y : rexp) | XAlt (x y : rexp)
| XRep (lo : nat) (hi : option nat) (greedy : bool) (x : rexp)
| XGroup (index : nat) (name : option str) (x : rexp).            (** a capturing group *)

(** The bytes of [b] from [i] to [j], not beyond [e], are a text that the expression describes; [in_a_row n]: [n] of them. *)
Section Means.
Context (b : bytes) (e : nat).
Inductive means : rexp -> nat -> nat -> Prop :=
| mn_empty i : means XEmpty i i
| mn_one (P : N -> Prop) i c : i < e -> byte_at b i c -> P c -> means (XOne P) i (S i)
| mn_here (Q : bytes -> nat -> Prop) i : Q b i -> means (XHere Q) i i
| mn_cat x y i k j : means x i k -> means y k j -> means (XCat x y) i j
| mn_left x y i j : means x i j -> means (XAlt x y) i j
| mn_right x y i j : means y i j -> means (XAlt x y) i j
| mn_rep lo hi g x n i j : lo <= n -> (forall h, hi = Some h -> n <= h) -> in_a_row x n i j -> means (XRep lo hi g x) i j
| mn_group k n x i j : means x i j -> means (XGroup k n x) i j
with in_a_row : rexp -> nat -> nat -> nat -> Prop :=
| ir_none x i : in_a_row x 0 i i
| ir_more x n i k j : means x i k -> in_a_row x n k j -> in_a_row x (S n) i j.
End Means.
Scheme means_mut := Induction for means Sort Prop with in_a_row_mut := Induction for in_a_row Sort Prop.
Combined Scheme means_mutind from means_mut, in_a_row_mut.

(** The choices that such a text is a result of: [false] is the preferred one.  The first alternative is preferred to the second, going
    on with a repetition to stopping, or the other way round if it is lazy. *)
Section Chooses.
Context (b : bytes) (e : nat).
Inductive chooses : rexp -> nat -> nat -> list bool -> Prop :=
| cx_empty i : chooses XEmpty i i []
| cx_one (P : N -> Prop) i c : i < e -> byte_at b i c -> P c -> chooses (XOne P) i (S i) []
| cx_here (Q : bytes -> nat -> Prop) i : Q b i -> chooses (XHere Q) i i []
| cx_cat x y i k j t u : chooses x i k t -> chooses y k j u -> chooses (XCat x y) i j (t ++ u)
| cx_left x y i j t : chooses x i j t -> chooses (XAlt x y) i j (false :: t)
| cx_right x y i j t : chooses y i j t -> chooses (XAlt x y) i j (true :: t)
| cx_rep lo hi g x i k j t u : chooses_n lo x i k t -> chooses_more (option_map (fun h => h - lo) hi) g x k j u -> chooses (XRep lo hi g x) i j (t ++ u)
| cx_group n name x i j t : chooses x i j t -> chooses (XGroup n name x) i j t
(** the repetitions that must be *)
with chooses_n : nat -> rexp -> nat -> nat -> list bool -> Prop :=
| cn_none x i : chooses_n 0 x i i []
| cn_more n x i k j t u : chooses x i k t -> chooses_n n x k j u -> chooses_n (S n) x i j (t ++ u)
(** the repetitions that may be; an empty one is the last one, if their number is not bounded *)
with chooses_more : option nat -> bool -> rexp -> nat -> nat -> list bool -> Prop :=
| cm_full g x i : chooses_more (Some 0) g x i i []
| cm_stop hi g x i : hi <> Some 0 -> chooses_more hi g x i i [g]
| cm_bounded n g x i k j t u : chooses x i k t -> chooses_more (Some n) g x k j u -> chooses_more (Some (S n)) g x i j (negb g :: t ++ u)
| cm_more g x i k j t u : chooses x i k t -> i < k -> chooses_more None g x k j u -> chooses_more None g x i j (negb g :: t ++ u)
| cm_empty g x i t : chooses x i i t -> chooses_more None g x i i (negb g :: t).
(** [t] is preferred to [u]: at the first choice that is not the same, it takes the preferred one. *)
Definition preferred_to (t u : list bool) : Prop := exists p v w, t = p ++ false :: v /\ u = p ++ true :: w.
(** The bytes from [i] to [j] are the preferred text that begins at [i]. *)
Definition best (x : rexp) (i j : nat) : Prop := exists t, chooses x i j t /\ forall j' t', chooses x i j' t' -> ~ preferred_to t' t.
End Chooses.

(** * Characters *)
Definition span_of (lo hi c : N) : Prop := (lo <= c <= hi)%N.
Definition digit (c : N) : Prop := span_of 48 57 c.
Definition upper (c : N) : Prop := span_of 65 90 c.
Definition lower (c : N) : Prop := span_of 97 122 c.
Definition word (c : N) : Prop := digit c \/ upper c \/ lower c \/ c = 95%N.
Definition space (c : N) : Prop := c = 32%N \/ span_of 9 13 c.
(** the other case of a letter *)
Definition other_case (c d : N) : Prop := upper c /\ d = (c + 32)%N \/ lower c /\ c = (d + 32)%N.
(** a set of characters, or all others; with --ignore-case, a letter stands for both cases *)
Definition one_of_set (ci neg : bool) (S : N -> Prop) (c : N) : Prop :=
  let is_in := S c \/ ci = true /\ exists d, other_case c d /\ S d in if neg then ~ is_in else is_in.

(** The characters that may be written with a backslash for themselves, and those that must *)
Definition punctuation (c : N) : Prop := In c (of_string "\.+*?()|[]{}^$#&-~").
Definition special (c : N) : Prop := In c (of_string "\.[()|^$*+?{").
(** \n \t \r \f \v \a *)
Definition control (letter c : N) : Prop := In (letter, c) [(110, 10); (116, 9); (114, 13); (102, 12); (118, 11); (97, 7)]%N.
(** \d \s \w and \D \S \W *)
Inductive class_letter : N -> bool -> (N -> Prop) -> Prop :=
| cl_d : class_letter 100 false digit | cl_s : class_letter 115 false space | cl_w : class_letter 119 false word
| cl_D : class_letter 68 true digit | cl_S : class_letter 83 true space | cl_W : class_letter 87 true word.
(** [:name:] *)
Inductive named_class : string -> (N -> Prop) -> Prop :=
| nc_alnum : named_class "alnum" (fun c => digit c \/ upper c \/ lower c)
| nc_alpha : named_class "alpha" (fun c => upper c \/ lower c)
| nc_blank : named_class "blank" (fun c => c = 32%N \/ c = 9%N)
| nc_digit : named_class "digit" digit
| nc_lower : named_class "lower" lower
| nc_punct : named_class "punct" (fun c => span_of 33 47 c \/ span_of 58 64 c \/ span_of 91 96 c \/ span_of 123 126 c)
| nc_space : named_class "space" space
| nc_upper : named_class "upper" upper
| nc_word : named_class "word" word
| nc_xdigit : named_class "xdigit" (fun c => digit c \/ span_of 65 70 c \/ span_of 97 102 c).

(** ** Bracket expressions *)
(** one character in brackets *)
Inductive bracket_char : str -> N -> Prop :=
| bc_plain c : c <> 92%N -> c <> 91%N -> c <> 93%N -> bracket_char [c] c
| bc_escaped c : punctuation c -> bracket_char [92%N; c] c
| bc_control l c : control l c -> bracket_char [92%N; l] c.
(** [begins_range s]: what follows a character would make it the start of a range *)
Definition begins_range (s : str) : Prop := exists y r, s = 45%N :: y :: r /\ y <> 93%N /\ y <> 45%N.
(** the operators &&, -- and ~~ are not used *)
Definition doubled (c : N) (s : str) : Prop := In c [38; 45; 126]%N /\ exists r, s = c :: r.
(** The items, up to the closing bracket; [S]: the characters; the first one may be a closing bracket. *)
Inductive bracket : bool -> str -> (N -> Prop) -> Prop :=
| br_end : bracket false [93%N] (fun _ => False)
| br_first rest S : ~ begins_range rest -> bracket false rest S -> bracket true (93%N :: rest) (fun c => c = 93%N \/ S c)
| br_char first t x rest S : bracket_char t x -> ~ begins_range rest -> ~ (exists c, t = [c] /\ doubled c rest) -> bracket false rest S ->
    bracket first (t ++ rest) (fun c => c = x \/ S c)
| br_range first t x u y rest S : bracket_char t x -> bracket_char u y -> (x <= y)%N -> u <> [45%N] -> t <> [45%N] -> bracket false rest S ->
    bracket first (t ++ 45%N :: u ++ rest) (fun c => span_of x y c \/ S c)
| br_class first l P rest S : class_letter l false P -> bracket false rest S -> bracket first (92%N :: l :: rest) (fun c => P c \/ S c)
| br_named first name P rest S : named_class name P -> bracket false rest S ->
    bracket first (of_string "[:" ++ of_string name ++ of_string ":]" ++ rest) (fun c => P c \/ S c).

(** ** Places *)
Definition word_at (b : bytes) (i : nat) : Prop := exists c, byte_at b i c /\ word c.
Definition word_before_ (b : bytes) (i : nat) : Prop := exists k, i = S k /\ word_at b k.
Definition boundary (b : bytes) (i : nat) : Prop := word_at b i /\ ~ word_before_ b i \/ ~ word_at b i /\ word_before_ b i.
Definition line_begins (b : bytes) (i : nat) : Prop := i = 0 \/ exists k, i = S k /\ byte_at b k 10%N.
Definition line_ends (b : bytes) (i : nat) : Prop := length b <= i \/ byte_at b i 10%N.

(** * Words of the syntax *)
Inductive xtok :=
| TOne (P : N -> Prop) | THere (Q : bytes -> nat -> Prop) | TOpen (name : option str) | TOpenPlain | TClose | TBar
| TRep (lo : nat) (hi : option nat) (greedy : bool).
Inductive decimal : str -> nat -> Prop :=
| de_first d : digit d -> decimal [d] (N.to_nat (d - 48))
| de_more s n d : decimal s n -> digit d -> decimal (s ++ [d]) (10 * n + N.to_nat (d - 48)).
Definition name_ok (n : str) : Prop :=
  exists c r, n = c :: r /\ (upper c \/ lower c \/ c = 95%N) /\ Forall word r.
(** how often: *, +, ?, {n}, {n,}, {n,m} *)
Inductive times : str -> nat -> option nat -> Prop :=
| ti_star : times (of_string "*") 0 None
| ti_plus : times (of_string "+") 1 None
| ti_opt : times (of_string "?") 0 (Some 1)
| ti_exact s n : decimal s n -> times (of_string "{" ++ s ++ of_string "}") n (Some n)
| ti_from s n : decimal s n -> times (of_string "{" ++ s ++ of_string ",}") n None
| ti_between s n t m : decimal s n -> decimal t m -> n <= m -> times (of_string "{" ++ s ++ of_string "," ++ t ++ of_string "}") n (Some m).
(** [open_end]: a '?' that follows would belong to the word *)
Inductive spells (ci : bool) : str -> xtok -> bool -> Prop :=
| sp_char c : ~ special c -> spells ci [c] (TOne (one_of_set ci false (fun x => x = c))) false
| sp_escaped c : punctuation c -> spells ci [92%N; c] (TOne (one_of_set ci false (fun x => x = c))) false
| sp_control l c : control l c -> spells ci [92%N; l] (TOne (one_of_set ci false (fun x => x = c))) false
| sp_any : spells ci (of_string ".") (TOne (fun c => c <> 10%N)) false
| sp_class l neg P : class_letter l neg P -> spells ci [92%N; l] (TOne (one_of_set ci neg P)) false
| sp_bracket s S : bracket true s S -> (forall r, s <> 94%N :: r) -> spells ci (91%N :: s) (TOne (one_of_set ci false S)) false
| sp_bracket_not s S : bracket true s S -> spells ci (91%N :: 94%N :: s) (TOne (one_of_set ci true S)) false
| sp_bol : spells ci (of_string "^") (THere line_begins) false
| sp_eol : spells ci (of_string "$") (THere line_ends) false
| sp_start : spells ci (of_string "\A") (THere (fun _ i => i = 0)) false
| sp_end : spells ci (of_string "\z") (THere (fun b i => i = length b)) false
| sp_boundary : spells ci (of_string "\b") (THere boundary) false
| sp_no_boundary : spells ci (of_string "\B") (THere (fun b i => ~ boundary b i)) false
| sp_group : spells ci (of_string "(") (TOpen None) true
| sp_plain : spells ci (of_string "(?:") TOpenPlain false
| sp_named n : name_ok n -> spells ci (of_string "(?P<" ++ n ++ of_string ">") (TOpen (Some n)) false
| sp_named' n : name_ok n -> spells ci (of_string "(?<" ++ n ++ of_string ">") (TOpen (Some n)) false
| sp_close : spells ci (of_string ")") TClose false
| sp_bar : spells ci (of_string "|") TBar false
| sp_times s lo hi : times s lo hi -> spells ci s (TRep lo hi true) true
| sp_times_lazy s lo hi : times s lo hi -> spells ci (s ++ of_string "?") (TRep lo hi false) false.
Inductive words (ci : bool) : str -> list xtok -> Prop :=
| wo_nil : words ci [] []
| wo_cons t k open_end rest ks : spells ci t k open_end -> (open_end = true -> forall r, rest <> 63%N :: r) -> words ci rest ks -> words ci (t ++ rest) (k :: ks).

(** * Grammar: alternatives of sequences of repeated atoms.  [n], [n']: how many capturing groups come before, and with it *)
Inductive level := Item | Sequence | Choice.
Inductive forms : level -> nat -> list xtok -> rexp -> nat -> Prop :=
| fm_one P n : forms Item n [TOne P] (XOne P) n
| fm_here Q n : forms Item n [THere Q] (XHere Q) n
| fm_group name n ts x n' : forms Choice (S n) ts x n' -> forms Item n (TOpen name :: ts ++ [TClose]) (XGroup (S n) name x) n'
| fm_plain n ts x n' : forms Choice n ts x n' -> forms Item n (TOpenPlain :: ts ++ [TClose]) x n'
| fm_rep lo hi g n ts x n' : forms Item n ts x n' -> forms Item n (ts ++ [TRep lo hi g]) (XRep lo hi g x) n'
| fm_nothing n : forms Sequence n [] XEmpty n
| fm_then n ts x n1 us y n2 : forms Item n ts x n1 -> forms Sequence n1 us y n2 -> forms Sequence n (ts ++ us) (XCat x y) n2
| fm_only n ts x n' : forms Sequence n ts x n' -> forms Choice n ts x n'
| fm_or n ts x n1 us y n2 : forms Sequence n ts x n1 -> forms Choice n1 us y n2 -> forms Choice n (ts ++ TBar :: us) (XAlt x y) n2.
(** The names of the groups of an expression, in the order of their numbers *)
Fixpoint groups_in (x : rexp) : list (option str) :=
  match x with
  | XCat x y | XAlt x y => groups_in x ++ groups_in y
  | XRep _ _ _ x => groups_in x
  | XGroup _ n x => n :: groups_in x
  | _ => []
  end.
Definition names_in (x : rexp) : list str := flat_map (fun n => match n with Some s => [s] | None => [] end) (groups_in x).
(** The text [s] is a way to write the expression [x]. *)
Definition written_as (ci : bool) (s : str) (x : rexp) : Prop := exists ks n, words ci s ks /\ forms Choice 0 ks x n.
