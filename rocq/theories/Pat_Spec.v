(** How a pattern is cut into text, regular expressions and blocks, stated on the text alone. *)
From Coq Require Import String.
From Verif Require Import Base Num_Model Num_Spec Gram_Model Parse_Model Parse_Spec.
From Verif Require Script_Spec.
Open Scope string_scope.
Open Scope list_scope.

Definition starts (x s : str) : Prop := exists r, s = x ++ r.
(** A regular expression opens with "{{", a block with "[[" that no third '[' follows. *)
Definition opens (s : str) : Prop :=
  starts (of_string "{{") s \/ starts (of_string "[[") s /\ ~ starts (of_string "[[[") s.
(** the first position of [a ++ t] where something opens is after [a] *)
Definition first_open (a t : str) : Prop :=
  opens t /\ forall a' t', a ++ t = a' ++ t' -> opens t' -> (List.length a <= List.length a')%nat.
(** A bracket expression that is still open at the end of [b]: some '[', then at least one item and no
    unescaped ']'. *)
Inductive items : str -> Prop :=
| it_nil : items []
| it_plain c s : c <> 93%N -> c <> 92%N -> items s -> items (c :: s)
| it_escaped c s : items s -> items (92%N :: c :: s).
Definition inside (b : str) : Prop := exists x y, b = x ++ of_string "[" ++ y /\ y <> [] /\ items y.
(** [b] is what stands before the closing braces *)
Definition regex_ends (b t : str) : Prop :=
  forall b' t', b ++ of_string "}}" ++ t = b' ++ of_string "}}" ++ t' -> (List.length b <= List.length b')%nat.
(** ... and before the closing brackets *)
Definition block_ends (b t : str) : Prop :=
  ~ inside b /\ forall b' t', b ++ of_string "]]" ++ t = b' ++ of_string "]]" ++ t' -> ~ inside b' -> (List.length b <= List.length b')%nat.

Inductive piece := Text (s : str) | Regex (s : str) | Block (s : str).
Definition text (s : str) : list piece := match s with [] => [] | _ => [Text s] end.
Inductive cut : str -> list piece -> Prop :=
| cut_text s : (forall a t, s = a ++ t -> ~ opens t) -> cut s (text s)
| cut_regex a b t ps : first_open a (of_string "{{" ++ b ++ of_string "}}" ++ t) -> regex_ends b t -> cut t ps ->
    cut (a ++ of_string "{{" ++ b ++ of_string "}}" ++ t) (text a ++ Regex b :: ps)
| cut_block a b t ps : first_open a (of_string "[[" ++ b ++ of_string "]]" ++ t) -> block_ends b t -> cut t ps ->
    cut (a ++ of_string "[[" ++ b ++ of_string "]]" ++ t) (text a ++ Block b :: ps).
(** the text a cut stands for *)
Definition piece_text (p : piece) : str :=
  match p with
  | Text s => s
  | Regex s => of_string "{{" ++ s ++ of_string "}}"
  | Block s => of_string "[[" ++ s ++ of_string "]]"
  end.

(** * The words of a block *)
Definition letter (c : N) : Prop := (65 <= c <= 90 \/ 97 <= c <= 122)%N \/ c = 95%N.
Definition word_char (c : N) : Prop := letter c \/ digit c.
Definition word (w : str) : Prop := exists c r, w = c :: r /\ letter c /\ Forall word_char r.
Definition hex_digit (c : N) : Prop := digit c \/ (65 <= c <= 70 \/ 97 <= c <= 102)%N.
Definition bin_digit (c : N) : Prop := (48 <= c <= 49)%N.
Definition not_next (p : N -> Prop) (s : str) : Prop := forall c r, s = c :: r -> ~ p c.
(** the punctuation, and whether white space may follow it ([None]: as before it) *)
Definition punctuation : list (string * (token * option bool)) :=
  [("#", (THash, Some false)); ("%", (TPercent, Some false)); (".", (TDot, Some false)); (",", (TComma, None));
   ("+", (TPlus, Some true)); ("-", (TMinus, Some true)); ("@", (TAt, Some false)); ("$", (TDollar, Some false));
   ("==", (TEquals, Some true)); ("(", (TLParen, Some true)); (")", (TRParen, Some true))].
(** the words with a meaning of their own; any other is a name *)
Definition keywords : list (string * token) :=
  [("LITERAL", TLiteral); ("LINE", TLine); ("add", TAdd); ("sub", TSub); ("mul", TMul); ("div", TDiv); ("min", TMin); ("max", TMax)].
Inductive word_is (w : str) : token -> Prop :=
| wi_keyword x t : In (x, t) keywords -> w = of_string x -> word_is w t
| wi_name : (forall x t, In (x, t) keywords -> w <> of_string x) -> word_is w (TIdent w).
(** [spelt numeric gap s ts]: the text [s] spells the words [ts]; [gap]: white space may stand here *)
Inductive spelt (numeric : bool) : bool -> str -> list token -> Prop :=
| sp_end gap : spelt numeric gap [] []
| sp_gap c s ts : indent_char c \/ c = 10%N -> spelt numeric true s ts -> spelt numeric true (c :: s) ts
| sp_punct gap x t g s ts : In (x, (t, g)) punctuation ->
    spelt numeric (match g with Some b => b | None => gap end) s ts -> spelt numeric gap (of_string x ++ s) (t :: ts)
| sp_colon gap s ts : numeric = true -> spelt numeric true s ts -> spelt numeric gap (of_string ":" ++ s) (TColon :: ts)
| sp_pattern gap s : numeric = false -> spelt numeric gap (of_string ":" ++ s) [TColon; TRaw s]
| sp_word gap w t s ts : word w -> word_is w t -> not_next word_char s -> spelt numeric true s ts -> spelt numeric gap (w ++ s) (t :: ts)
| sp_dec gap ds n s ts : ds <> [] -> value_is 10 ds n -> (n < 2 ^ 127)%Z ->
    ~ starts (of_string "0x") (ds ++ s) -> ~ starts (of_string "0b") (ds ++ s) -> not_next digit s ->
    spelt numeric true s ts -> spelt numeric gap (ds ++ s) (TNum n :: ts)
| sp_hex gap ds n s ts : ds <> [] -> value_is 16 ds n -> (n < 2 ^ 127)%Z -> not_next hex_digit s ->
    spelt numeric true s ts -> spelt numeric gap (of_string "0x" ++ ds ++ s) (TNum n :: ts)
| sp_bin gap ds n s ts : ds <> [] -> value_is 2 ds n -> (n < 2 ^ 127)%Z -> not_next bin_digit s ->
    spelt numeric true s ts -> spelt numeric gap (of_string "0b" ++ ds ++ s) (TNum n :: ts).
(** a block that begins with '#' is numeric: its ':' is a word of its own; in another block ':' is
    followed by a regular expression *)
Inductive block_says : str -> pmatch -> Prop :=
| bs_numeric s ts m : spelt true true s ts -> d_match (TMatchStart :: THash :: ts ++ [TMatchEnd]) m ->
    block_says (of_string "#" ++ s) m
| bs_other s ts m : ~ starts (of_string "#") s -> spelt false true s ts ->
    d_match (TMatchStart :: ts ++ [TMatchEnd]) m -> block_says s m.
(** what the pieces of a pattern become: a regular expression loses the white space around it *)
Inductive piece_is : piece -> part -> Prop :=
| pi_text s : piece_is (Text s) (QLit s)
| pi_regex s t : Script_Spec.trimmed s t -> piece_is (Regex s) (QRegex t)
| pi_block s m : block_says s m -> piece_is (Block s) (QMatch m).
(** a last piece of blank text is dropped *)
Inductive drop_blank : list piece -> list piece -> Prop :=
| dbl_blank ps s : blank s -> drop_blank (ps ++ [Text s]) ps
| dbl_keep ps : (forall qs s, ps = qs ++ [Text s] -> ~ blank s) -> drop_blank ps ps.
Inductive pattern_is : list part -> cpat -> Prop :=
| pa_lit s : pattern_is [QLit s] (PLit s)
| pa_regex s : pattern_is [QRegex s] (PRegex s)
| pa_match m : pattern_is [QMatch m] (PParts [QMatch m])
| pa_many p q l : pattern_is (p :: q :: l) (PParts (p :: q :: l)).
(** what directive a keyword stands for; CHECK-COUNT-n is a directive for n from 1 to 255 *)
Inductive kind_is : shape -> ckind -> Prop :=
| ki_kind k : suffix_of k <> None -> kind_is (ShKind k) k
| ki_count ds n : value_is 10 ds n -> (1 <= n <= 255)%Z -> kind_is (ShCount ds) (CCount (Z.to_nat n)).
(** the pattern text among what follows the colon: white space before it does not belong to it; with
    --strict-whitespace or --match-full-lines one space is left out (and here there is no more) *)
Inductive pattern_text (strict : bool) : str -> str -> Prop :=
| pt_lax r s : strict = false -> keeps_ascii r s -> pattern_text strict r s
| pt_strict r s : strict = true -> keeps strict r s -> ascii_solid s -> pattern_text strict r s.
(** the pattern a text stands for *)
Definition pattern (s : str) (pat : cpat) : Prop :=
  exists ps ps' qs, cut s ps /\ drop_blank ps ps' /\ Forall2 piece_is ps' qs /\ pattern_is qs pat.
