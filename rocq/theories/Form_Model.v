(** Model of how messages name numeric formats: filecheck/src/expr/num.rs. *)
From Coq Require Import String.
From Verif Require Import Base Num_Model.
Open Scope string_scope.
Open Scope list_scope.

(** num.rs:550, 552, 573-592: the precision, a [u8], in decimal *)
Definition precision_text (p : nat) : str := show_digits 10 false (Z.of_nat p).

(** num.rs:544-595 [Display for NumberFormat] *)
Definition shown (f : format) : str :=
  match f with
  | Unsigned 0 => of_string "%u"
  | Unsigned p => of_string "%." ++ precision_text p ++ of_string "u"
  | Signed 0 => of_string "d"
  | Signed p => of_string "%." ++ precision_text p ++ of_string "d"
  | Hex 0 false Upper => of_string "%X"
  | Hex 0 false _ => of_string "%x"
  | Hex 0 true Upper => of_string "%#X"
  | Hex 0 true _ => of_string "%#x"
  | Hex p false Upper => of_string "%." ++ precision_text p ++ of_string "X"
  | Hex p false _ => of_string "%." ++ precision_text p ++ of_string "x"
  | Hex p true Upper => of_string "%#." ++ precision_text p ++ of_string "X"
  | Hex p true _ => of_string "%#." ++ precision_text p ++ of_string "x"
  end.

(** num.rs:379-387 [Display for CasingStyle] *)
Definition casing_text (c : casing) : str :=
  of_string (match c with Any => "either upper or lowercase" | Upper => "uppercase" | Lower => "lowercase" end).

(** num.rs:390-421 [describe] *)
Definition describe (f : format) : str :=
  match f with
  | Unsigned 0 => of_string "any unsigned 128-bit integer"
  | Unsigned p => of_string "an unsigned " ++ precision_text p ++ of_string "-digit 128-bit integer"
  | Signed 0 => of_string "any signed 128-bit integer"
  | Signed p => of_string "a signed " ++ precision_text p ++ of_string "-digit 128-bit integer"
  | Hex 0 true c => of_string "any 128-bit integer in " ++ casing_text c ++ of_string " hex format, prefixed with 0x"
  | Hex 0 false c => of_string "any 128-bit integer in " ++ casing_text c ++ of_string " hex format"
  | Hex p true c => of_string "a " ++ precision_text p ++ of_string "-digit 12864-bit integer in " ++ casing_text c ++ of_string " hex format, prefixed with 0x"
  | Hex p false c => of_string "a " ++ precision_text p ++ of_string "-digit 128-bit integer in " ++ casing_text c ++ of_string " hex format"
  end.

(** value.rs:40-47 [Display for ValueType]; [None] is a string *)
Definition type_text (t : option (option format)) : str :=
  match t with
  | None => of_string "string"
  | Some None => of_string "any number"
  | Some (Some f) => describe f
  end.
