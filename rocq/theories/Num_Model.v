(** Model of filecheck's numbers and numeric expressions.
    Source: /repo/filecheck/src/expr/num.rs, expr/mod.rs, expr/value.rs and
    [evaluate_expr] in pattern/matcher/matchers/smart/searcher.rs.
    Source spans are dropped.  [i128] values are [Z] with explicit bounds. *)
From Verif Require Import Base.
From Coq Require Import String.
Local Open Scope Z_scope.

Definition i128_max : Z := 2 ^ 127 - 1.
Definition i128_min : Z := - 2 ^ 127.
Definition in_i128 (v : Z) : bool := (i128_min <=? v) && (v <=? i128_max).

(** num.rs:363-369 [CasingStyle] *)
Inductive casing := Any | Upper | Lower.
(** num.rs:346-360 [NumberFormat]; the [u8] precision is a [nat] (its values are below 256) *)
Inductive format :=
| Unsigned (precision : nat)
| Signed (precision : nat)
| Hex (precision : nat) (require_prefix : bool) (c : casing).

(** num.rs:595-599 *)
Definition default_format : format := Unsigned 0.

(** num.rs:41-46 *)
Record number := mkNum { nformat : option format; nvalue : Z }.

(** core::num::IntErrorKind, and num.rs:3-39 [ParseNumberError] *)
Inductive int_err := IEmpty | IInvalidDigit | IPosOverflow | INegOverflow.
Inductive parse_err :=
| UnexpectedSign | MissingPrefix | PrecisionMismatch | InvalidFormat (k : int_err) | InvalidCasing.
Inductive presult := POk (v : Z) | PErr (e : parse_err).

(** [char::to_digit] for radix 10 and 16 *)
Definition to_digit (radix : Z) (c : N) : option Z :=
  let c := Z.of_N c in
  let d :=
    if (48 <=? c) && (c <=? 57) then c - 48
    else if (97 <=? c) && (c <=? 122) then c - 97 + 10
    else if (65 <=? c) && (c <=? 90) then c - 65 + 10
    else radix in
  if d <? radix then Some d else None.

(** core [i128::from_str_radix]: checked accumulation, adding for a positive number and
    subtracting for a negative one; the overflow of the multiplication is reported only after
    the digit has been validated. *)
Fixpoint accumulate (radix : Z) (neg : bool) (acc : Z) (s : str) : Z + int_err :=
  match s with
  | [] => inl acc
  | c :: r =>
      let ovf := if neg then INegOverflow else IPosOverflow in
      let mul := acc * radix in
      match to_digit radix c with
      | None => inr IInvalidDigit
      | Some d =>
          if in_i128 mul then
            let acc' := if neg then mul - d else mul + d in
            if in_i128 acc' then accumulate radix neg acc' r else inr ovf
          else inr ovf
      end
  end.

Definition from_str_radix (radix : Z) (s : str) : Z + int_err :=
  match s with
  | [] => inr IEmpty
  | [c] => if (N.eqb c 43 || N.eqb c 45)%bool then inr IInvalidDigit
           else accumulate radix false 0 s
  | c :: r =>
      if N.eqb c 43 then accumulate radix false 0 r
      else if N.eqb c 45 then accumulate radix true 0 r
      else accumulate radix false 0 s
  end.

Definition starts_with_sign (s : str) : bool :=
  match s with c :: _ => (N.eqb c 43 || N.eqb c 45)%bool | [] => false end.
Definition strip_sign (s : str) : str := if starts_with_sign s then tl s else s.

(** [str::strip_prefix("0x")] *)
Definition strip_0x (s : str) : option str :=
  match s with
  | a :: b :: r => if (N.eqb a 48 && N.eqb b 120)%bool then Some r else None
  | _ => None
  end.

Definition lower_hex (c : N) : bool :=
  (((97 <=? c) && (c <=? 102)) || ((48 <=? c) && (c <=? 57)))%N.
Definition upper_hex (c : N) : bool :=
  (((65 <=? c) && (c <=? 70)) || ((48 <=? c) && (c <=? 57)))%N.
Definition valid_casing (c : casing) (s : str) : bool :=
  match c with
  | Any => true
  | Lower => forallb lower_hex s
  | Upper => forallb upper_hex s
  end.

Definition check_precision (p len : nat) (v : Z) : presult :=
  if Nat.eqb p 0 then POk v
  else if Nat.ltb len p then PErr PrecisionMismatch else POk v.

(** num.rs:138-244 [parse_with_format].  Lengths are byte lengths of text that has already been
    accepted as digits, hence ASCII, so they are character counts. *)
Definition parse_with_format (input : str) (f : format) : presult :=
  match f with
  | Unsigned p =>
      if starts_with_sign input then PErr UnexpectedSign
      else match from_str_radix 10 input with
           | inr k => PErr (InvalidFormat k)
           | inl v => check_precision p (List.length input) v
           end
  | Signed p =>
      match from_str_radix 10 input with
      | inr k => PErr (InvalidFormat k)
      | inl v => check_precision p (List.length (strip_sign input)) v
      end
  | Hex p prefix c =>
      match strip_0x input, prefix with
      | None, true => PErr MissingPrefix
      | o, _ =>
          let input := match o with Some r => r | None => input end in
          match from_str_radix 16 input with
          | inr k => PErr (InvalidFormat k)
          | inl v =>
              if negb (valid_casing c input) then PErr InvalidCasing
              else check_precision p (List.length input) v
          end
      end
  end.

(** Positional digits, most significant first (the standard integer formatting). *)
Fixpoint digs (fuel : nat) (base n : Z) : list Z :=
  match fuel with
  | O => []
  | S k => if n <? base then [n] else digs k base (n / base) ++ [n mod base]
  end.
Definition digits (base n : Z) : list Z := digs (S (Z.to_nat (Z.log2 n))) base n.
Definition digit_char (upper : bool) (d : Z) : N :=
  Z.to_N (if d <? 10 then 48 + d else if upper then 55 + d else 87 + d).
Definition show_digits (base : Z) (upper : bool) (n : Z) : str :=
  map (digit_char upper) (digits base n).

(** core [Formatter::pad_integral] with the zero flag: sign/prefix, then zeros up to the width. *)
Definition pad_integral (prefix : str) (width : nat) (body : str) : str :=
  prefix ++ repeat 48%N (width - (List.length prefix + List.length body)) ++ body.

Definition is_upper (c : casing) : bool := match c with Upper => true | _ => false end.

(** num.rs:268-343 [Display].  [value as u64] is reduction modulo 2^64 and the hexadecimal
    formatting of an [i128] shows its two's complement.  Without the zero flag the width is 0. *)
Definition display (n : number) : str :=
  let v := nvalue n in
  let neg := v <? 0 in
  match match nformat n with Some f => f | None => default_format end with
  | Unsigned p =>
      pad_integral [] p (show_digits 10 false (v mod 2 ^ 64))
  | Signed p =>
      let padding := ((if neg then 1 else 0) + p)%nat in
      pad_integral (if neg then [45%N] else []) (if Nat.eqb p 0 then 0 else padding)
                   (show_digits 10 false (Z.abs v))
  | Hex p prefix c =>
      let padding := ((if prefix then 2 else 0) + p)%nat in
      pad_integral (if prefix then [48%N; 120%N] else []) (if Nat.eqb p 0 then 0 else padding)
                   (show_digits 16 (is_upper c) (v mod 2 ^ 128))
  end.

Definition casing_eqb (a b : casing) : bool :=
  match a, b with Any, Any | Upper, Upper | Lower, Lower => true | _, _ => false end.
Definition prec_compatible (a b : nat) : bool :=
  (Nat.eqb a b || Nat.eqb a 0 || Nat.eqb b 0)%bool.

(** num.rs:82-136 [infer_expression_format] *)
Definition infer_format (l r : option format) : option format :=
  match l, r with
  | Some f, None | None, Some f => Some f
  | None, None => Some default_format
  | Some (Hex lp lx lc), Some (Hex rp rx rc) =>
      if (Bool.eqb lx rx && prec_compatible lp rp
          && (casing_eqb lc rc || casing_eqb lc Any || casing_eqb rc Any))%bool
      then Some (Hex (Nat.max lp rp) lx lc) else None
  | Some (Signed lp), Some (Signed rp) =>
      if prec_compatible lp rp then Some (Signed (Nat.max lp rp)) else None
  | Some (Unsigned lp), Some (Unsigned rp) =>
      if prec_compatible lp rp then Some (Unsigned (Nat.max lp rp)) else None
  | _, _ => None
  end.

(** expr/mod.rs:24-34 [Expr], 161-170 [BinaryOp]; variable names are texts *)
Inductive binop := OEq | OAdd | OSub | OMul | ODiv | OMin | OMax.
Inductive nexpr :=
| ENum (n : number)
| EVar (x : str)            (** user and global variables *)
| ELine (line : Z)          (** the pseudo variable @LINE at a given offset *)
| EBin (op : binop) (l r : nexpr).
(** expr/value.rs:5-10 [Value] *)
Inductive value := VUndef | VStr (s : str) | VNum (e : nexpr).

(** [Overflow] stands for the panic of checked arithmetic (debug build) and of division. *)
Inductive eval_result :=
| RNum (n : number)
| RStr (s : str)
| RUndefined (x : str)
| RFormatConflict
| RInvalidCast
| RPanic
| RFuel.

(** searcher.rs:670-684: the arithmetic, [None] when it panics *)
Definition apply_op (op : binop) (a b : Z) : option Z :=
  let chk v := if in_i128 v then Some v else None in
  match op with
  | OAdd => chk (a + b)
  | OSub => chk (a - b)
  | OMul => chk (a * b)
  | ODiv => if b =? 0 then None else chk (Z.quot a b)
  | OMin => Some (Z.min a b)
  | OMax => Some (Z.max a b)
  | OEq => Some (if a =? b then 1 else 0)
  end.

(** searcher.rs:601-734 [evaluate_expr]; [explicit] is the format in [ty] when it is a number
    type.  Fuel bounds the chain of variables bound to expressions. *)
Fixpoint evaluate_expr (fuel : nat) (env : str -> option value) (explicit : option format)
  (e : nexpr) : eval_result :=
  match fuel with
  | O => RFuel
  | S k =>
      match e with
      | ENum n => RNum n
      | ELine l => RNum (mkNum None l)
      | EVar x =>
          match env x with
          | None | Some VUndef => RUndefined x
          | Some (VNum e') => evaluate_expr k env explicit e'
          | Some (VStr s) => RStr s
          end
      | EBin op a b =>
          match evaluate_expr k env explicit a with
          | RNum l =>
              match evaluate_expr k env explicit b with
              | RNum r =>
                  match match infer_format (nformat l) (nformat r) with
                        | Some f => Some f | None => explicit end with
                  | None => RFormatConflict
                  | Some f =>
                      match apply_op op (nvalue l) (nvalue r) with
                      | None => RPanic
                      | Some v =>
                          RNum (mkNum (match nformat l, nformat r, explicit with
                                       | None, None, None => None
                                       | _, _, _ => Some f end) v)
                      end
                  end
              | RStr _ => RInvalidCast
              | other => other
              end
          | RStr _ =>
              (* both operands are evaluated before the kinds are looked at *)
              match evaluate_expr k env explicit b with
              | RNum _ | RStr _ => RInvalidCast
              | other => other
              end
          | other => other
          end
      end
  end.

(** searcher.rs:556-570: the text searched for by a numeric substitution *)
Definition substitution_text (explicit : option format) (r : eval_result) : option str :=
  match r with
  | RNum n => Some (display (match explicit with
                             | Some f => mkNum (Some f) (nvalue n) | None => n end))
  | RStr s => Some s
  | _ => None
  end.

(** num.rs:450-485 [pattern_nocapture]: the language of the format's regex, read off the regex
    text: optional sign, prefix, and between lo and hi digits of a class. [None]: the repetition
    {lo,hi} has lo > hi, which the regex compiler rejects. *)
Record numlang := mkLang { sign_ok : bool; lprefix : str; dclass : N -> bool; lo : nat; hi : nat }.
Definition is_dec (c : N) : bool := ((48 <=? c) && (c <=? 57))%N.
Definition hex_class (c : casing) (x : N) : bool :=
  match c with Any => (lower_hex x || upper_hex x)%bool | Upper => upper_hex x | Lower => lower_hex x end.
Definition format_lang (f : format) : numlang :=
  match f with
  | Signed p => mkLang true [] is_dec (if Nat.eqb p 0 then 1 else p) 39
  | Unsigned p => mkLang false [] is_dec (if Nat.eqb p 0 then 1 else p) 39
  | Hex p true c => mkLang false [48%N;120%N] (hex_class c) (if Nat.eqb p 0 then 1 else p) 32
  | Hex p false c => mkLang false [] (hex_class c) (if Nat.eqb p 0 then 1 else p) 32
  end.
Definition compiles (l : numlang) : Prop := (lo l <= hi l)%nat.
Definition in_lang (l : numlang) (s : str) : Prop :=
  exists sg ds, s = sg ++ lprefix l ++ ds /\
    (sg = [] \/ (sign_ok l = true /\ (sg = [43%N] \/ sg = [45%N]))) /\
    Forall (fun c => dclass l c = true) ds /\
    (lo l <= List.length ds <= hi l)%nat.
