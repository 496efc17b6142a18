(** What the numeric properties mean, independently of the code's helpers. *)
From Verif Require Import Base Num_Model.
From Coq Require Import String.
Local Open Scope Z_scope.

(** Numerals: a character stands for a digit, a text for a value, most significant digit first. *)
Inductive digit_is : N -> Z -> Prop :=
| di_dec c : (48 <= c <= 57)%N -> digit_is c (Z.of_N c - 48)
| di_lower c : (97 <= c <= 102)%N -> digit_is c (Z.of_N c - 87)
| di_upper c : (65 <= c <= 70)%N -> digit_is c (Z.of_N c - 55).

Inductive value_is (base : Z) : str -> Z -> Prop :=
| vi_nil : value_is base [] 0
| vi_snoc s v c d : value_is base s v -> digit_is c d -> d < base ->
    value_is base (s ++ [c]) (v * base + d).

(** A numeral without superfluous zeros. *)
Definition canonical (s : str) : Prop :=
  s = [48%N] \/ (s <> [] /\ hd 48%N s <> 48%N).

Definition decimal_char (c : N) : Prop := (48 <= c <= 57)%N.
Definition hex_char (k : casing) (c : N) : Prop :=
  decimal_char c \/
  match k with
  | Any => (97 <= c <= 102 \/ 65 <= c <= 70)%N
  | Lower => (97 <= c <= 102)%N
  | Upper => (65 <= c <= 70)%N
  end.

(** The values a format can show without losing information. *)
Definition representable (f : format) (v : Z) : Prop :=
  match f with
  | Unsigned _ => 0 <= v < 2 ^ 64
  | Signed _ => - 2 ^ 127 <= v < 2 ^ 127
  | Hex _ _ _ => 0 <= v < 2 ^ 127
  end.
Definition is_i128 (v : Z) : Prop := - 2 ^ 127 <= v < 2 ^ 127.

Definition precision_of (f : format) : nat :=
  match f with Unsigned p | Signed p | Hex p _ _ => p end.
Definition base_of (f : format) : Z := match f with Hex _ _ _ => 16 | _ => 10 end.
Definition digit_of (f : format) : N -> Prop :=
  match f with Hex _ _ k => hex_char k | _ => decimal_char end.
(** What precedes the digits when the value [v] is printed. *)
Definition lead (f : format) (v : Z) : str :=
  match f with
  | Unsigned _ => []
  | Signed _ => if v <? 0 then of_string "-" else []
  | Hex _ true _ => of_string "0x"
  | Hex _ false _ => []
  end.

(** The text [s] is written in the format [f] and stands for [v]: what the documentation of the
    format promises to accept. *)
Inductive written (f : format) : str -> Z -> Prop :=
| wr_unsigned p ds v : f = Unsigned p ->
    ds <> [] -> Forall decimal_char ds -> (p <= List.length ds)%nat -> value_is 10 ds v ->
    written f ds v
| wr_signed_pos p sg ds v : f = Signed p -> (sg = [] \/ sg = of_string "+") ->
    ds <> [] -> Forall decimal_char ds -> (p <= List.length ds)%nat -> value_is 10 ds v ->
    written f (sg ++ ds) v
| wr_signed_neg p ds v : f = Signed p ->
    ds <> [] -> Forall decimal_char ds -> (p <= List.length ds)%nat -> value_is 10 ds v ->
    written f (of_string "-" ++ ds) (- v)
| wr_hex p (b : bool) k ds v : f = Hex p b k ->
    ds <> [] -> Forall (hex_char k) ds -> (p <= List.length ds)%nat -> value_is 16 ds v ->
    written f ((if b then of_string "0x" else []) ++ ds) v.

(** Meaning of expressions over the integers, the variables being bound to expressions. *)
Inductive op_means : binop -> Z -> Z -> Z -> Prop :=
| om_add a b : op_means OAdd a b (a + b)
| om_sub a b : op_means OSub a b (a - b)
| om_mul a b : op_means OMul a b (a * b)
| om_div a b q r : b <> 0 -> a = b * q + r -> Z.abs r < Z.abs b -> 0 <= r * a ->
    op_means ODiv a b q
| om_min a b : op_means OMin a b (Z.min a b)
| om_max a b : op_means OMax a b (Z.max a b)
| om_eq a b : op_means OEq a b (if a =? b then 1 else 0).
Inductive expr_means (env : str -> option value) : nexpr -> Z -> Prop :=
| em_num n : expr_means env (ENum n) (nvalue n)
| em_line l : expr_means env (ELine l) l
| em_var x e v : env x = Some (VNum e) -> expr_means env e v -> expr_means env (EVar x) v
| em_bin op a b x y z : expr_means env a x -> expr_means env b y -> op_means op x y z ->
    expr_means env (EBin op a b) z.

(** Why a text is no number of the base [base]: there is nothing in it, or a character that is no digit where one must stand, or the
    digits up to some place go beyond 128 bits. *)
Inductive no_number (base : Z) : str -> int_err -> Prop :=
| nn_empty : no_number base [] IEmpty
| nn_digit sg ds c r : (sg = [] \/ sg = of_string "+" \/ sg = of_string "-") ->
    Forall (fun d => exists x, digit_is d x /\ x < base) ds -> ~ (exists x, digit_is c x /\ x < base) ->
    no_number base (sg ++ ds ++ c :: r) IInvalidDigit
| nn_large sg ds r v : (sg = [] \/ sg = of_string "+") -> value_is base ds v -> 2 ^ 127 <= v ->
    no_number base (sg ++ ds ++ r) IPosOverflow
| nn_small ds r v : value_is base ds v -> - v < - 2 ^ 127 -> no_number base (of_string "-" ++ ds ++ r) INegOverflow.
