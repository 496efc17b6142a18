(** Model of the comparisons and hashes of the values of litcheck-core: diagnostics/filename.rs, diagnostics/source_file.rs,
    diagnostics/span.rs, range.rs, symbol/mod.rs, variables/mod.rs; and of the map of variables of variables/mod.rs.
    A hash is what a value writes into the hasher. *)
From Coq Require Import String.
From Verif Require Import Base Cursor_Model Env_Model Num_Model Gram_Model Ord_Model.
Open Scope string_scope.
Open Scope list_scope.
Open Scope nat_scope.

(** What is written into a hasher: a text ([write_str]), a number ([write_u32]), the discriminant of a variant ([write_isize]), the
    components of a path *)
Inductive fed := FeedText (s : str) | FeedNumber (n : N) | FeedRank (n : nat) | FeedPath (p : bool * list str).

(** * Paths: std::path, Unix.  Equal if the components are: a root, and the parts between slashes; empty parts and "." are skipped,
    but for a "." that a relative path begins with. *)
Definition slash : N := 47.
Definition absolute (s : str) : bool := match s with c :: _ => N.eqb c slash | [] => false end.
Fixpoint pieces (cur : str) (s : str) : list str :=
  match s with
  | [] => [cur]
  | c :: r => if N.eqb c slash then cur :: pieces [] r else pieces (cur ++ [c]) r
  end.
Definition is_dot (s : str) : bool := str_eqb s (of_string ".").
Definition plain_piece (s : str) : bool := match s with [] => false | _ => negb (is_dot s) end.
Definition parts (s : str) : list str :=
  match pieces [] s with
  | [] => []
  | x :: r => (if plain_piece x || (negb (absolute s) && is_dot x) then [x] else []) ++ filter plain_piece r
  end.
Definition components (s : str) : bool * list str := (absolute s, parts s).
Fixpoint list_eqb {A} (e : A -> A -> bool) (l m : list A) : bool :=
  match l, m with
  | [], [] => true
  | x :: l, y :: m => (e x y && list_eqb e l m)%bool
  | _, _ => false
  end.
Definition path_eq (a b : str) : bool :=
  (Bool.eqb (absolute a) (absolute b) && list_eqb str_eqb (parts a) (parts b))%bool.

(** * Names of files *)
(** filename.rs:5-10; a path is text, or bytes that are no text *)
Inductive fpath := Clean (s : str) | Garbled (b : str).
Inductive fname := Stdin | Path (p : fpath) | Virtual (s : str).
(** filename.rs:17-23 *)
Definition shown_as (n : fname) : str :=
  match n with Stdin => of_string "stdin" | Path (Clean s) => s | Path (Garbled _) => of_string "<invalid>" | Virtual s => s end.
(** filename.rs:5, derived *)
Definition fname_eq (a b : fname) : bool :=
  match a, b with
  | Stdin, Stdin => true
  | Path (Clean p), Path (Clean q) | Path (Garbled p), Path (Garbled q) => path_eq p q
  | Virtual s, Virtual t => str_eqb s t
  | _, _ => false
  end.
Definition fname_feed (n : fname) : list fed :=
  match n with
  | Stdin => [FeedRank 0]
  | Path (Clean s) | Path (Garbled s) => [FeedRank 1; FeedPath (components s)]
  | Virtual s => [FeedRank 2; FeedText s]
  end.
(** filename.rs:34-44 *)
Definition fname_cmp (a b : fname) : comparison := text_cmp (shown_as a) (shown_as b).

(** * Sources *)
(** source_file.rs:428-440; the starts of lines are made from the text *)
Record content := mkContent { c_language : str; c_uri : fname; c_text : str; c_version : Z }.
(** source_file.rs:464-469 *)
Definition content_eq (a b : content) : bool :=
  (str_eqb (c_language a) (c_language b) && fname_eq (c_uri a) (c_uri b) && str_eqb (c_text a) (c_text b))%bool.
(** source_file.rs:471-485 *)
Definition content_cmp (a b : content) : comparison := and_then (fname_cmp (c_uri a) (c_uri b)) (text_cmp (c_text a) (c_text b)).
(** source_file.rs:487-493 *)
Definition content_feed (a : content) : list fed := FeedText (c_language a) :: fname_feed (c_uri a) ++ [FeedText (c_text a)].
(** source_file.rs:59-65, derived; source_manager.rs:19, derived *)
Record file := mkFile { f_id : N; f_content : content }.
Definition file_eq (a b : file) : bool := (N.eqb (f_id a) (f_id b) && content_eq (f_content a) (f_content b))%bool.
Definition file_cmp (a b : file) : comparison := and_then (N.compare (f_id a) (f_id b)) (content_cmp (f_content a) (f_content b)).
Definition file_feed (a : file) : list fed := FeedNumber (f_id a) :: content_feed (f_content a).
(** source_file.rs:256-272, 289-293: a part of a file *)
Record fref := mkRef { r_file : file; r_from : nat; r_upto : nat }.
Definition ref_new (f : file) (from upto : nat) : fref := mkRef f from (Nat.min upto (List.length (c_text (f_content f)))).
Definition ref_text (r : fref) : str := firstn (r_upto r - r_from r) (skipn (r_from r) (c_text (f_content (r_file r)))).
(** source_file.rs:312-337 *)
Definition ref_eq (a b : fref) : bool := str_eqb (ref_text a) (ref_text b).
Definition ref_cmp (a b : fref) : comparison := text_cmp (ref_text a) (ref_text b).
Definition ref_feed (a : fref) : list fed := [FeedText (ref_text a)].

(** * Ranges, spanned values, symbols *)
(** range.rs:153-173 *)
Definition range := (N * N)%type.
Definition range_eq (a b : range) : bool := (N.eqb (fst a) (fst b) && N.eqb (snd a) (snd b))%bool.
Definition range_cmp (a b : range) : comparison := and_then (N.compare (fst a) (fst b)) (N.compare (snd a) (snd b)).
(** span.rs:219-222, 281-312: a value with its place *)
Record spanned (T : Type) := mkSpanned { s_place : N * range; s_value : T }.
Arguments mkSpanned {T}. Arguments s_place {T}. Arguments s_value {T}.
Definition spanned_eq {T} (e : T -> T -> bool) (a b : spanned T) : bool := e (s_value a) (s_value b).
Definition spanned_cmp {T} (c : T -> T -> comparison) (a b : spanned T) : comparison := c (s_value a) (s_value b).
Definition spanned_feed {T} (h : T -> list fed) (a : spanned T) : list fed := h (s_value a).
Definition spanned_borrow {T} (a : spanned T) : T := s_value a.
(** symbol/mod.rs:67-73, 101-128, and derived; [names] is the table of the texts, a symbol its number there *)
Definition symbol := nat.
Definition symbol_text (names : list str) (x : symbol) : str := nth x names [].
Definition symbol_eq (x y : symbol) : bool := Nat.eqb x y.
Definition symbol_cmp (names : list str) (x y : symbol) : comparison := text_cmp (symbol_text names x) (symbol_text names y).
Definition symbol_feed (x : symbol) : list fed := [FeedNumber (N.of_nat x)].
(** the hash and the order of [str] *)
Definition str_feed (s : str) : list fed := [FeedText s].

(** * The map of variables: variables/mod.rs:358-399, keys as in Ord_Model.  [get], [contains_key] and [remove_entry] of [BTreeMap]
    compare what they look for with the borrowed forms of the keys; up to eleven keys are in one node, which is searched from its
    beginning; larger maps are modelled as one node. *)
Section Variables.
Context {Q V : Type} (c : Q -> vname -> comparison).
Fixpoint var_get (k : Q) (m : list (vname * V)) : option V :=
  match m with
  | [] => None
  | (x, v) :: r => match c k x with Gt => var_get k r | Eq => Some v | Lt => None end
  end.
Fixpoint var_delete (k : Q) (m : list (vname * V)) : list (vname * V) :=
  match m with
  | [] => []
  | (x, v) :: r => match c k x with Gt => (x, v) :: var_delete k r | Eq => r | Lt => m end
  end.
Definition var_defined (k : Q) (m : list (vname * V)) : bool := match var_get k m with Some _ => true | None => false end.
End Variables.
Definition var_define {V} (k : vname) (v : V) (m : list (vname * V)) : list (vname * V) := map_insert name_cmp k v m.
(** variables/mod.rs:177-186: looked for by the whole name, or by its text alone *)
Definition by_name : vname -> vname -> comparison := name_cmp.
Definition by_text (s : str) (x : vname) : comparison := text_cmp s (name_text x).
(** What a program does with the map: with [from_iter], a row of definitions (variables/mod.rs:360-370) *)
Inductive vop (V : Type) := Define (k : vname) (v : V) | DeleteName (k : vname) | DeleteText (s : str).
Arguments Define {V}. Arguments DeleteName {V}. Arguments DeleteText {V}.
Definition var_step {V} (m : list (vname * V)) (o : vop V) : list (vname * V) :=
  match o with
  | Define k v => var_define k v m
  | DeleteName k => var_delete by_name k m
  | DeleteText s => var_delete by_text s m
  end.
Definition var_run {V} (l : list (vop V)) : list (vname * V) := fold_left var_step l [].
