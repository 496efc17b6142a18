(** Model of filecheck/src/check/program.rs: compiling check lines to sections. *)
From Verif Require Import Base Text_Model Cursor_Model Check_Model.

(** ast/check.rs (Check): the kinds of directive that survive parsing.  COM lines are dropped by the
    parser; the modifiers are part of the pattern. *)
Inductive kind := KPlain | KCount (n : nat) | KNext | KSame | KEmpty | KNot | KDag | KLabel.

Section Compile.
Context {L : lang}.

(** ast/mod.rs (CheckLine).  The pattern stands for the compiled pattern: the compilation of a
    single pattern (program.rs:524-544), which may be refused, is not part of this model.  The
    pattern of a CHECK-EMPTY is never used. *)
Record line := mkLine { l_kind : kind; l_pat : pat L }.

Definition is_kind_not (l : line) : bool := match l_kind l with KNot => true | _ => false end.
Definition is_kind_dag (l : line) : bool := match l_kind l with KDag => true | _ => false end.
(** program.rs:547-567, the block part *)
Definition independent (l : line) : bool :=
  match l_kind l with KLabel | KPlain | KCount _ | KDag => true | _ => false end.
Definition dependent (l : line) : bool :=
  match l_kind l with KEmpty | KSame | KNext => true | _ => false end.

Definition implicit_line (imp : option (pat L)) : list line :=
  match imp with Some p => [mkLine KNot p] | None => [] end.

(** program.rs:203-308.  [Err] is InvalidFirstCheck.  The inner loop at program.rs:262-271, which
    takes the lines after a label up to the next label, is folded into the outer one: once a label
    is set, lines are pushed as they are. *)
Fixpoint compile_lines (imp : option (pat L)) (lines : list line) (label : option line) (block : list line)
  (blocks : list (option line * list line)) : res (list (option line * list line)) :=
  match lines with
  | [] =>
      Val (match label, block with
           | None, [] => blocks
           | _, _ => blocks ++ [(label, block)]
           end)
  | l :: r =>
      match l_kind l, label with
      | KLabel, _ =>
          match label, block with
          | None, [] => compile_lines imp r (Some l) block blocks
          | _, _ => compile_lines imp r (Some l) (implicit_line imp) (blocks ++ [(label, block)])
          end
      | _, Some _ => compile_lines imp r label (block ++ [l]) blocks
      | KNot, None => compile_lines imp r label (block ++ [l]) blocks
      | _, None =>
          if (dependent l && negb (existsb independent block))%bool then Err
          else compile_lines imp r label (block ++ l :: implicit_line imp) blocks
      end
  end.

(** Split off the longest prefix satisfying a test: the loops at program.rs:325-333, 375-383 *)
Fixpoint take_while {A} (f : A -> bool) (l : list A) : list A * list A :=
  match l with
  | [] => ([], [])
  | x :: r => if f x then let (a, b) := take_while f r in (x :: a, b) else ([], l)
  end.

(** program.rs:524-544 and 472-474; a Not, Dag or Label here is [unreachable!] *)
Definition compile_rule (l : line) : res (rule L) :=
  match l_kind l with
  | KPlain | KCount _ => Val (RPlain (l_pat l))
  | KSame => Val (RSame (l_pat l))
  | KNext => Val (RNext (l_pat l))
  | KEmpty => Val REmpty
  | _ => Panic
  end.
Fixpoint compile_rules (ls : list line) : res (list (rule L)) :=
  match ls with
  | [] => Val []
  | l :: r => do x <- compile_rule l; do xs <- compile_rules r; Val (x :: xs)
  end.
(** program.rs:463-479: what an ordered group takes *)
Definition in_ordered (l : line) : bool :=
  match l_kind l with KNot | KDag | KCount _ => false | _ => true end.

(** program.rs:317: [pending_tree] *)
Definition pending := option (option (tree L) * list (pat L)).
(** program.rs:410-432 and its copies at 439-461, 481-503: push a group, closing a pending tree.
    [groups] is kept in reverse. *)
Definition push_group (g : group L) (pend : pending) (groups : list (group L)) : list (group L) :=
  match pend with
  | Some (Some l, root) => GTree (TAround root l (TAll g)) :: groups
  | Some (None, root) => GTree (TAfter root (TAll g)) :: groups
  | None => g :: groups
  end.

(** program.rs:319-506; [fuel] bounds the number of iterations of the loop, each of which takes at
    least one line *)
Fixpoint compile_body (fuel : nat) (body : list line) (pend : pending) (groups : list (group L))
  : res (pending * list (group L)) :=
  match fuel, body with
  | _, [] => Val (pend, groups)
  | 0, _ :: _ => Panic
  | S fuel', l :: body1 =>
      match l_kind l with
      | KNot =>
          do _ <- assert (match pend with None => true | Some _ => false end);
          let (more, rest) := take_while is_kind_not body1 in
          let nots := map l_pat (l :: more) in
          match rest with
          | [] =>
              compile_body fuel' rest None
                match groups with
                | GTree t :: gs => GTree (TBefore nots t) :: gs
                | GUnordered ds :: gs => GTree (TBefore nots (TAll (GUnordered ds))) :: gs
                | g :: gs => GNever nots :: g :: gs
                | [] => [GNever nots]
                end
          | _ :: _ =>
              match groups with
              | GTree t :: gs => compile_body fuel' rest (Some (Some t, nots)) gs
              | GUnordered ds :: gs => compile_body fuel' rest (Some (Some (TAll (GUnordered ds)), nots)) gs
              | gs => compile_body fuel' rest (Some (None, nots)) gs
              end
          end
      | KDag =>
          let (more, rest) := take_while is_kind_dag body1 in
          let dags := map l_pat (l :: more) in
          match rest with
          | l2 :: rest2 =>
              match l_kind l2 with
              | KPlain =>
                  do r <- compile_rule l2;
                  compile_body fuel' rest2 None (push_group (GBounded dags (GOrdered [r])) pend groups)
              | KCount n =>
                  do r <- compile_rule l2;
                  compile_body fuel' rest2 None (push_group (GBounded dags (GRepeated r n)) pend groups)
              | _ => compile_body fuel' rest None (push_group (GUnordered dags) pend groups)
              end
          | [] => compile_body fuel' rest None (push_group (GUnordered dags) pend groups)
          end
      | KCount n =>
          do r <- compile_rule l;
          compile_body fuel' body1 None (push_group (GRepeated r n) pend groups)
      | _ =>
          let (now, rest) := take_while in_ordered body in
          do rs <- compile_rules now;
          compile_body fuel' rest None (push_group (GOrdered rs) pend groups)
      end
  end.

(** program.rs:310-522, for one block *)
Definition compile_block (b : option line * list line) : res (list (section L)) :=
  let (label, body) := b in
  do (pend, groups) <- compile_body (length body) body None [];
  do _ <- assert (match pend with None => true | Some _ => false end);
  Val (match label with
       | Some l => [SBlock (l_pat l) (rev groups)]
       | None => map SGroup (rev groups)
       end).
Fixpoint compile_blocks (bs : list (option line * list line)) : res (list (section L)) :=
  match bs with
  | [] => Val []
  | b :: r => do x <- compile_block b; do y <- compile_blocks r; Val (x ++ y)
  end.

(** program.rs:189-201.  [Err] is a refused check file. *)
Definition compile (imp : option (pat L)) (lines : list line) : res (list (section L)) :=
  match lines, imp with
  | [], None => Err
  | _, _ => do bs <- compile_lines imp lines None (implicit_line imp) []; compile_blocks bs
  end.

(** Test::verify (test/mod.rs): compile the check file, check the input.  [None]: refused. *)
Definition filecheck (allow_empty : bool) (imp : option (pat L)) (lines : list line) (b : bytes) (e : env L)
  : res test_result :=
  do secs <- compile imp lines; check_input allow_empty secs b e.

End Compile.
Arguments line L : clear implicits.
