(** What the command line of filecheck says, stated on the text of its options. *)
From Coq Require Import String Sorted.
From Verif Require Import Base Num_Model Num_Spec Env_Model Gram_Model Parse_Model Parse_Spec Pat_Spec Sum_Spec Cli_Model.
Open Scope string_scope.
Open Scope list_scope.

(** * Definitions of text: NAME=TEXT *)
Definition defines_text (s x t : str) : Prop := word x /\ s = x ++ of_string "=" ++ t.

(** * Definitions of numbers: #NAME=EXPR *)
(** ** The words of a definition *)
Definition marks : list (string * token) :=
  [("(", TLParen); (")", TRParen); ("#", THash); ("$", TDollar); ("%", TPercent); ("@", TAt); (",", TComma); (".", TDot);
   (":", TColon); ("+", TPlus); ("==", TEquals)].
Definition functions : list (string * token) :=
  [("add", TAdd); ("sub", TSub); ("mul", TMul); ("div", TDiv); ("min", TMin); ("max", TMax)].
Inductive reads_as (w : str) : token -> Prop :=
| ra_function x t : In (x, t) functions -> w = of_string x -> reads_as w t
| ra_name : (forall x t, In (x, t) functions -> w <> of_string x) -> reads_as w (TIdent w).
(** [spelled s ts]: the text [s] spells the words [ts].  A '-' before a digit belongs to the number. *)
Inductive spelled : str -> list ctoken -> Prop :=
| sl_end : spelled [] []
| sl_gap c s ts : c = 32%N \/ c = 9%N -> spelled s ts -> spelled (c :: s) ts
| sl_mark x t s ts : In (x, t) marks -> spelled s ts -> spelled (of_string x ++ s) (CT t :: ts)
| sl_minus s ts : not_next digit s -> spelled s ts -> spelled (of_string "-" ++ s) (CT TMinus :: ts)
| sl_equal s ts : not_next (fun c => c = 61%N) s -> spelled s ts -> spelled (of_string "=" ++ s) (CEqual :: ts)
| sl_word w t s ts : word w -> reads_as w t -> not_next word_char s -> spelled s ts -> spelled (w ++ s) (CT t :: ts)
| sl_num ds n s ts : ds <> [] -> value_is 10 ds n -> (n < 2 ^ 127)%Z -> not_next digit s -> spelled s ts ->
    spelled (ds ++ s) (CT (TNum n) :: ts)
| sl_neg ds n s ts : ds <> [] -> value_is 10 ds n -> (n <= 2 ^ 127)%Z -> not_next digit s -> spelled s ts ->
    spelled (of_string "-" ++ ds ++ s) (CT (TNum (- n)) :: ts).
(** ** The form of an expression, whatever its value *)
Inductive term_form : list token -> Prop :=
| tf_num n : term_form [TNum n]
| tf_neg n : term_form [TMinus; TNum n]
| tf_name ws v : names ws v -> term_form ws
| tf_paren ws : sum_form ws -> term_form (TLParen :: ws ++ [TRParen])
| tf_fun f op a b : function f op -> sum_form a -> sum_form b ->
    term_form (f :: TLParen :: a ++ TComma :: b ++ [TRParen])
with sum_form : list token -> Prop :=
| sf_one t : term_form t -> sum_form t
| sf_plus a t : sum_form a -> term_form t -> sum_form (a ++ TPlus :: t)
| sf_minus a t : sum_form a -> term_form t -> sum_form (a ++ TMinus :: t).
(** what may stand before the name: a format and a comma *)
Definition format_words (ws : list token) : Prop :=
  exists h p t, ws = TPercent :: h ++ p ++ t ++ [TComma] /\
    (h = [] \/ h = [THash]) /\ (p = [] \/ exists n, p = [TDot; TNum n] /\ (0 <= n <= 255)%Z) /\
    (t = [] \/ exists x, In x ["u"; "d"; "x"; "X"] /\ t = [TIdent (of_string x)]).
Definition defines_number (s x : str) (ws : list token) : Prop :=
  exists f, spelled s (map CT f ++ CT (TIdent x) :: CEqual :: map CT ws) /\ (f = [] \/ format_words f) /\ sum_form ws.
(** the value of a variable where the expression is evaluated *)
Definition value_of (env : str -> option value) (line : Z) (v : vname) (z : Z) : Prop :=
  let is x := exists d, env x = Some (VNum d) /\ expr_means env d z in
  match v with
  | User x => is x
  | Global x => is (of_string "$" ++ x)
  | Pseudo x => (x = of_string "LINE" /\ z = line) \/ (x <> of_string "LINE" /\ is (of_string "@" ++ x))
  end.

(** * Prefixes *)
(** [p] is one of the parts of [v], which commas separate *)
Definition comma_part (p v : str) : Prop :=
  exists a b, v = a ++ p ++ b /\ ~ In 44%N p /\
    (a = [] \/ exists a', a = a' ++ of_string ",") /\ (b = [] \/ exists b', b = of_string "," ++ b').
(** the prefixes an option names; without it, those of its default *)
Definition asked (default : list string) (given : list str) (p : str) : Prop :=
  (given = [] /\ In p (map of_string default)) \/ exists v, In v given /\ comma_part p v.
Definition ascii_letter (c : N) : Prop := (65 <= c <= 90 \/ 97 <= c <= 122)%N.
(** [alnum]: which characters are alphanumeric; below 128 letters and digits, and none of them is white *)
Definition alnum_ok (alnum : N -> bool) : Prop :=
  (forall c, (c < 128)%N -> alnum c = true <-> ascii_letter c \/ digit c) /\ forall c, alnum c = true -> ~ ws c.
Definition prefix_form (alnum : N -> bool) (p : str) : Prop :=
  exists c r, p = c :: r /\ ascii_letter c /\ Forall (fun d => alnum d = true \/ d = 95%N \/ d = 45%N) r.
(** the order of texts *)
Inductive text_before : str -> str -> Prop :=
| tb_end c s : text_before [] (c :: s)
| tb_char c d s t : (c < d)%N -> text_before (c :: s) (d :: t)
| tb_same c s t : text_before s t -> text_before (c :: s) (c :: t).
(** [l] lists what [P] holds of: in order, and each once *)
Definition enumerates (P : str -> Prop) (l : list str) : Prop :=
  (forall p, In p l <-> P p) /\ StronglySorted text_before l.
(** * What is accepted, and the options that follow *)
(** a definition that is accepted *)
Definition definition_form (s : str) : Prop :=
  (exists x t, defines_text s x t) \/ exists r x ws, s = of_string "#" ++ r /\ defines_number r x ws.
Definition check_asked (a : args) : str -> Prop := asked ["CHECK"] (a_check a).
Definition comment_asked (a : args) : str -> Prop := asked ["COM"; "RUN"] (a_comment a).
Definition acceptable (alnum : N -> bool) (a : args) : Prop :=
  (forall p, check_asked a p -> prefix_form alnum p) /\ (forall p, comment_asked a p -> prefix_form alnum p) /\
  (forall p, check_asked a p -> ~ comment_asked a p) /\ forall s, In s (a_define a) -> definition_form s.
