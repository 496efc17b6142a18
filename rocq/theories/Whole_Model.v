(** Model of a whole run: test/mod.rs:94-113 (Test::verify).  The check file is parsed (Parse_Model), its
    patterns are compiled (Smart_Model, PatSet_Model), its directives are arranged (Program_Model), and the
    input is checked (Check_Model).

    The check file is of ASCII characters.  Parse_Model has no spans: where the pattern of a directive begins
    and on which line it stands is a parameter, [pos], by the number of the directive.  If several patterns
    cannot be compiled, the order in which they are compiled decides which error is reported and whether
    the run ends with an error or with a panic; here single patterns are compiled before sets. *)
From Coq Require Import String.
From Verif Require Import Base Text_Model Cursor_Model Check_Model Program_Model Env_Model Num_Model Gram_Model Parse_Model
  Regex_Model Smart_Model PatSet_Model.
Open Scope string_scope.
Open Scope list_scope.
Open Scope nat_scope.

(** lib.rs:125-310: the options.  [o_parse] has the prefixes, --strict-whitespace, --match-full-lines and
    --allow-unused-prefixes; then --ignore-case, --enable-var-scope, --allow-empty, --implicit-check-not and
    the variables defined by -D. *)
Record options := mkOptions {
  o_parse : config; o_ci : bool; o_scoped : bool; o_allow : bool; o_imp : list str; o_defs : list (vname * value) }.
Definition o_strict (o : options) : bool := strict_whitespace (o_parse o).

Section Whole.
Context (E : engine) (T : set_engine) (fuel rounds : nat) (o : options).

(** A directive's pattern, and the matcher made of it if it is not part of a set *)
Record wpat := mkW { w_pat : spat; w_matcher : matcher E }.
(** A search that does not end within [rounds] rounds (see C72 and C74) is put down as a panic. *)
Definition settled {A} (x : option (res A)) : res A := match x with Some r => r | None => Panic end.
(** all.rs:42-205, once for every run of CHECK-NOT or CHECK-DAG directives (program.rs:334, 384) *)
Definition set_of (ps : list wpat) : res (mset E T) := compile_set E T (o_ci o) (o_strict o) (map w_pat ps).
Definition whole_lang : lang :=
  Check_Model.mkLang wpat (@bindings value)
    (fun p b r e => settled (try_match E (o_ci o) fuel b (sp_line (w_pat p)) (sp_at (w_pat p)) (w_matcher p) r e))
    (fun ps b r e => do m <- set_of ps; settled (any_match E T (o_ci o) fuel b rounds m r e))
    (fun ps b r e => do m <- set_of ps; settled (dag_match E T (o_ci o) (o_scoped o) fuel b rounds m r e))
    (* context.rs:205-213 *)
    (fun e => if o_scoped o then b_clear e else e).

(** ast/check.rs *)
Definition kind_of (k : ckind) : kind :=
  match k with
  | CPlain => KPlain | CNext => KNext | CSame => KSame | CNot => KNot | CDag => KDag | CLabel => KLabel | CEmpty => KEmpty
  | CCount n => KCount n
  end.
(** program.rs:508-511 for labels, 524-533 for the others; the patterns of CHECK-NOT and CHECK-DAG are compiled
    in sets, that of CHECK-EMPTY is not used *)
Definition compile_one (at_ : nat * Z) (c : cline) : res (line whole_lang) :=
  let k := kind_of (cl_kind c) in
  let p := mkPat (fst at_) (snd at_) (cl_pat c) in
  do m <- match k with
          | KNot | KDag | KEmpty => Val (MAlways E)
          | KLabel => compile_static E (o_ci o) (o_strict o) (cl_pat c)
          | _ => if cl_literal c then compile_literal E (o_strict o) (cl_pat c) else compile_pattern E (o_ci o) (o_strict o) (cl_pat c)
          end;
  Val (mkLine (L:=whole_lang) k (mkW p m)).
Fixpoint compile_each (pos : nat -> nat * Z) (n : nat) (cs : list cline) : res (list (line whole_lang)) :=
  match cs with
  | [] => Val []
  | c :: r => do l <- compile_one (pos n) c; do ls <- compile_each pos (S n) r; Val (l :: ls)
  end.
(** program.rs:213-241: --implicit-check-not is one regular expression, with a source of its own *)
Definition implicit_text (l : list str) : str := join (of_string "|") (map (fun s => of_string "(" ++ s ++ of_string ")") l).
Definition implicit_pat : option wpat :=
  match o_imp o with
  | [] => None
  | l => Some (mkW (mkPat 0 1 (PRegex (implicit_text l))) (MAlways E))
  end.
(** The sets of a program *)
Fixpoint group_sets (g : group whole_lang) : list (list wpat) :=
  match g with
  | GNever ps => [ps]
  | GUnordered ds => [ds]
  | GBounded ds g' => ds :: group_sets g'
  | GOrdered _ | GRepeated _ _ => []
  | GTree t => tree_sets t
  end
with tree_sets (t : tree whole_lang) : list (list wpat) :=
  match t with
  | TAll g => group_sets g
  | TAround ps l r => ps :: tree_sets l ++ tree_sets r
  | TBefore ps l => ps :: tree_sets l
  | TAfter ps r => ps :: tree_sets r
  end.
Definition section_sets (x : section whole_lang) : list (list wpat) :=
  match x with SBlock _ gs => flat_map group_sets gs | SGroup g => group_sets g end.
(** program.rs:189-522: compile every pattern and every set *)
Definition compile_file (pos : nat -> nat * Z) (cs : list cline) : res (list (section whole_lang)) :=
  do ls <- compile_each pos 0 cs;
  do secs <- compile (L:=whole_lang) implicit_pat ls;
  do _ <- map_res set_of (flat_map section_sets secs);
  Val secs.
(** test/mod.rs:94-113; [Err]: the check file is refused.  context.rs:188-203: the bindings at the start *)
Definition verify (pos : nat -> nat * Z) (check_file : str) (input : bytes) : res test_result :=
  match parse_file (o_parse o) check_file with
  | None => Err
  | Some cs =>
      do secs <- compile_file pos cs;
      check_input (L:=whole_lang) (o_allow o) secs input (env_from_config (o_defs o))
  end.
End Whole.

(** test/result.rs:89-99 (into_result): the matches, in the order of their patterns.  (Check_Model gives the
    matches of CHECK-EMPTY no place in the check file.) *)
Fixpoint insert_match (i : minfo) (l : list minfo) : list minfo :=
  match l with
  | [] => [i]
  | j :: r => if i_pspan j <=? i_pspan i then j :: insert_match i r else i :: l
  end.
Definition sort_matches (l : list minfo) : list minfo := fold_left (fun acc i => insert_match i acc) l [].
Definition into_result (t : test_result) : option (list minfo) :=
  if t_is_ok t then Some (sort_matches (t_matches t)) else None.
