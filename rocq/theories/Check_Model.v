(** Model of the checking engine: filecheck/src/check/mod.rs, check/program.rs, rules/*.rs,
    pattern/matches.rs, pattern/matcher/mod.rs and test/result.rs.

    The engine is modelled over an arbitrary pattern language [lang]: what a single pattern, a set
    of CHECK-NOT patterns and a set of CHECK-DAG patterns do on a range of the buffer under an
    environment of variable bindings.  Diagnostics (spans, labels, notes, input dumps, remarks on
    stderr) are dropped, except for what decides control flow. *)
From Verif Require Import Base Text_Model Cursor_Model.

(** errors.rs: the kinds of failure the engine tells apart.  [EMatch lab] is a failure reported by
    a matcher although something was found (MatchError, MatchFoundErrorNote,
    MatchFoundConstraintFailed); [lab] says whether [related_labels_for] (errors.rs:363-447)
    yields a label for the rule that was applied. *)
Inductive err :=
| ENone | EWrongLine | EExcluded | EDiscarded | EMatch (lab : bool)
| EGroup | ERepeated | ENote | EInvalid | EEmptyInput.
(** errors.rs:363-447 as used by CHECK-COUNT; MatchNoneButExpected always yields a label *)
Definition labelled (e : err) : bool := match e with EMatch lab => lab | _ => true end.

(** pattern/matcher/result.rs:143-: span in the input, id in its set, start of the pattern in the
    check file *)
Record minfo := mkInfo { i_span : range; i_id : nat; i_pspan : nat }.
(** pattern/matcher/result.rs:107-123 *)
Inductive mtype := Good | NoneExcluded | Failed (e : err).
Record mresult := mkRes { m_ty : mtype; m_info : option minfo }.
Definition ty_is_ok (t : mtype) : bool := match t with Failed _ => false | _ => true end.
Definition m_is_ok (m : mresult) : bool := ty_is_ok (m_ty m).
Definition failed (e : err) : mresult := mkRes (Failed e) None.

(** pattern/matches.rs: a list of results *)
Definition matches := list mresult.
(** matches.rs:28-30 *)
Definition ms_ok (ms : matches) : bool := forallb m_is_ok ms.
(** matches.rs:62-67 *)
Definition info_cmp (a b : minfo) : comparison :=
  match Nat.compare (rstart (i_span a)) (rstart (i_span b)) with
  | Eq => match Nat.compare (rend (i_span a)) (rend (i_span b)) with
          | Eq => Nat.compare (i_pspan a) (i_pspan b)
          | c => c end
  | c => c end.
(** matches.rs:57-68: is the probe ordered before the new result? *)
Definition before (probe new : mresult) : bool :=
  match m_info probe, m_info new with
  | _, None => true
  | None, Some _ => false
  | Some a, Some b => match info_cmp a b with Lt => true | _ => false end
  end.
(** matches.rs:52-73; the binary search is modelled by its result, the first position whose
    occupant is not ordered before the new result *)
Fixpoint ms_push (ms : matches) (r : mresult) : matches :=
  match ms with
  | [] => [r]
  | x :: t => if before x r then x :: ms_push t r else r :: x :: t
  end.

Fixpoint first_info (ms : matches) : option minfo :=
  match ms with
  | [] => None
  | m :: t => match m_info m with Some i => Some i | None => first_info t end
  end.
Definition last_info (ms : matches) : option minfo := first_info (rev ms).
(** matches.rs:92-128; [Panic] is the assertion of [Range::new] *)
Definition ms_range (ms : matches) : res (option range) :=
  let fallback :=
    match first_info ms, last_info ms with
    | Some a, Some z =>
        do r <- unwrap (range_new (rstart (i_span a)) (rend (i_span z))); Val (Some r)
    | _, _ => Val None
    end in
  match ms with
  | [m] => match m_info m with
           | Some i => if m_is_ok m then Val (Some (i_span i)) else fallback
           | None => fallback
           end
  | m :: _ :: _ =>
      match m_info m, m_info (last ms m) with
      | Some a, Some z =>
          if (m_is_ok m && m_is_ok (last ms m))%bool
          then do r <- unwrap (range_new (rstart (i_span a)) (rend (i_span z))); Val (Some r)
          else fallback
      | _, _ => fallback
      end
  | [] => fallback
  end.

(** test/result.rs:7-16 *)
Record test_result := mkTest { t_matches : list minfo; t_passed : nat; t_errors : list err }.
Definition test_new : test_result := mkTest [] 0 [].
(** test/result.rs:52-66 *)
Definition t_matched (t : test_result) (i : minfo) := mkTest (t_matches t ++ [i]) (S (t_passed t)) (t_errors t).
Definition t_pass (t : test_result) (n : nat) := mkTest (t_matches t) (t_passed t + n) (t_errors t).
Definition t_fail (t : test_result) (e : err) := mkTest (t_matches t) (t_passed t) (t_errors t ++ [e]).
(** test/result.rs:42-50 with result.rs:73-86 *)
Definition append_one (t : test_result) (m : mresult) : test_result :=
  match m_ty m with
  | Failed e => t_fail t e
  | _ => match m_info m with Some i => t_matched t i | None => t_pass t 1 end
  end.
Definition append_matches (t : test_result) (ms : matches) : test_result := fold_left append_one ms t.
(** test/result.rs:65-67 *)
Definition t_is_ok (t : test_result) : bool := match t_errors t with [] => true | _ => false end.

(** A pattern language.  [pm] is [MatcherMut::try_match_mut] of a compiled pattern, [nm] the
    matcher compiled from the patterns of consecutive CHECK-NOT directives (MatchAll::compile and
    MatchAny), [dm] the visitor compiled from consecutive CHECK-DAG directives: its results, the
    bindings, and the offset it moves the cursor to, if it does.  [enter] is what entering a block
    does to the bindings (context.rs:205-213). *)
Record lang := mkLang {
  pat : Type; env : Type;
  pm : pat -> bytes -> range -> env -> res (mresult * env);
  nm : list pat -> bytes -> range -> env -> res (mresult * env);
  dm : list pat -> bytes -> range -> env -> res (matches * env * option nat);
  enter : env -> env
}.
Arguments pm {l}. Arguments nm {l}. Arguments dm {l}. Arguments enter {l}.

Section Engine.
Context {L : lang}.

(** context.rs:179-186: the cursor and the bindings *)
Record state := mkState { s_cur : cursor; s_env : env L }.
Definition buf (s : state) : bytes := c_buf (s_cur s).

(** matcher/mod.rs:143-161 (try_match_mut of [dyn DynMatcherMut]): the matcher runs on a protected
    context that is saved only if the match succeeded *)
Definition match_mut (p : pat L) (r : range) (s : state) : res (mresult * state) :=
  do (m, e) <- pm p (buf s) r (s_env s);
  Val (m, if m_is_ok m then mkState (s_cur s) e else s).

(** rules: program.rs:69-105 boxes these four *)
Inductive rule := RPlain (p : pat L) | RNext (p : pat L) | RSame (p : pat L) | REmpty.

Definition move_start (s : state) (n : nat) : res state :=
  do c <- set_start (s_cur s) n; Val (mkState c (s_env s)).
(** plain.rs:40-48, next.rs:59-67: advance to the end of a successful match *)
Definition advance (m : mresult) (s : state) : res state :=
  match m_info m with
  | Some i => if m_is_ok m then move_start s (rend (i_span i)) else Val s
  | None => Val s
  end.
(** plain.rs:33-50 *)
Definition apply_plain (p : pat L) (s : state) : res (matches * state) :=
  do r <- search_block (s_cur s);
  do (m, s1) <- match_mut p r s;
  do s2 <- advance m s1;
  Val ([m], s2).
(** next.rs:31-69 *)
Definition apply_next (p : pat L) (s : state) : res (matches * state) :=
  let c := s_cur s in
  do start <- start_of_next_line c;
  let block_end := c_end c in
  do o <- next_newline_from c start;
  let next_eol := unwrap_or o block_end in
  if block_end <=? start then
    do _ <- search_range c start block_end;
    Val ([failed ENone], s)
  else
    do r <- search_range c start next_eol;
    do (m, s1) <- match_mut p r s;
    do s2 <- advance m s1;
    Val ([m], s2).
(** same.rs:31-73 *)
Definition apply_same (p : pat L) (s : state) : res (matches * state) :=
  do r <- search_line (s_cur s);
  do (m, s1) <- match_mut p r s;
  match m_info m with
  | Some i =>
      if m_is_ok m then
        do _ <- assert (rstart (i_span i) <? end_of_line (s_cur s1));
        do s2 <- move_start s1 (rend (i_span i));
        Val ([m], s2)
      else Val ([m], s1)
  | None =>
      do r' <- search_block (s_cur s1);
      do (m', s2) <- match_mut p r' s1;
      match m_info m' with
      | Some i' => Val ([mkRes (Failed EWrongLine) (Some i')], s2)
      | None => Val ([m], s2)
      end
  end.
(** empty.rs:22-60 *)
Definition apply_empty (s : state) : res (matches * state) :=
  let c := s_cur s in
  do nls <- start_of_next_line c;
  do o <- next_newline_from c nls;
  let next_eol := unwrap_or o (end_of_file c) in
  do at_eol <- at_end_of_line c;
  if (at_eol && (next_eol <=? nls))%bool then
    do s' <- move_start s next_eol;
    Val ([mkRes Good (Some (mkInfo (mkRange nls next_eol) 0 0))], s')
  else
    do _ <- search_range c (Nat.min (c_start c) nls) next_eol;
    Val ([failed ENone], s).
(** rules/mod.rs:58-75: a boxed rule runs on a protected context, saved unless it errs *)
Definition apply_rule (r : rule) (s : state) : res (matches * state) :=
  match r with
  | RPlain p => apply_plain p s
  | RNext p => apply_next p s
  | RSame p => apply_same p s
  | REmpty => apply_empty s
  end.
(** dag.rs:30-80: the visitor runs on a protected context, saved only if every result is ok *)
Definition apply_dag (ds : list (pat L)) (s : state) : res (matches * state) :=
  do r <- search_block (s_cur s);
  do (ms, e, pos) <- dm ds (buf s) r (s_env s);
  do c <- match pos with Some n => set_start (s_cur s) n | None => Val (s_cur s) end;
  Val (ms, if ms_ok ms then mkState c e else s).

(** program.rs:16-42, 69-105 *)
Inductive group :=
| GNever (ps : list (pat L))
| GUnordered (ds : list (pat L))
| GBounded (ds : list (pat L)) (right : group)
| GOrdered (rs : list rule)
| GRepeated (r : rule) (count : nat)
| GTree (t : tree)
with tree :=
| TAll (g : group)
| TAround (root : list (pat L)) (left right : tree)
| TBefore (root : list (pat L)) (left : tree)
| TAfter (root : list (pat L)) (right : tree).
(** program.rs:160-182 *)
Inductive section := SBlock (label : pat L) (body : list group) | SGroup (g : group).

(** The type [Result<Result<Vec<Matches>, Vec<Matches>>, CheckFailedError>] *)
Inductive gres := GOk (mss : list matches) | GErr (mss : list matches) | GFail (e : err).

(** check/mod.rs:999-1014: [inl] the pattern found, [inr] nothing found.  The bindings made by a
    set matcher that then reports an error are not modelled (it reports none in this code). *)
Definition check_not (ps : list (pat L)) (r : range) (s : state) : res ((minfo + unit) * state) :=
  do (m, e) <- nm ps (buf s) r (s_env s);
  let s' := mkState (s_cur s) e in
  match m_info m with
  | Some i => if m_is_ok m then Val (inl i, s')
              else do _ <- assert (negb (m_is_ok m)); Val (inr tt, s')
  | None => do _ <- assert (negb (m_is_ok m)); Val (inr tt, s')
  end.
(** check/mod.rs:739-779 and its four copies: run [check_not] in a tree.  The extra result is
    pushed; a successful run counts the patterns as passed ([pattern_len] is taken to be the number
    of directives; de-duplication is modelled in PatSet_Model). *)
Definition tree_not (ps : list (pat L)) (r : range) (t : test_result) (s : state)
  : res (list matches * test_result * state) :=
  match check_not ps r s with
  | Val (inr _, s') => Val ([], t_pass t (length ps), s')
  | Val (inl _, s') => Val ([[failed EExcluded]], t, s')
  | Err => Val ([[failed ENote]], t, s)
  | Panic => Panic
  end.

(** check/mod.rs:337-412 *)
Fixpoint check_ordered (rs : list rule) (matched : list matches) (t : test_result) (s : state)
  : res (gres * test_result * state) :=
  match rs with
  | [] =>
      do some <- (fix go l := match l with
                   | [] => Val false
                   | ms :: l' => do r <- ms_range ms;
                                 match r with Some _ => Val true | None => go l' end
                   end) matched;
      Val (if some then GOk matched else GErr matched, t, s)
  | r :: rs' =>
      match apply_rule r s with
      | Val (ms, s') =>
          if ms_ok ms then check_ordered rs' (matched ++ [ms]) t s'
          else
            (* one cause and nothing skipped: that error; otherwise the group error *)
            let cause := flat_map (fun m => match m_ty m with Failed e => [e] | _ => [] end) ms in
            let e := match cause, rs' with [e], [] => e | _, _ => EGroup end in
            Val (GErr matched, t_fail t e, s')
      | Err => check_ordered rs' matched (t_fail t ENote) s
      | Panic => Panic
      end
  end.
(** check/mod.rs:413-465; [n] rounds remain *)
Fixpoint check_repeated (r : rule) (n : nat) (matched : list matches) (t : test_result) (s : state)
  : res (gres * test_result * state) :=
  match n with
  | 0 => Val (GOk matched, t, s)
  | S n' =>
      match apply_rule r s with
      | Val (ms, s') =>
          let good := fold_left (fun acc m => if m_is_ok m then ms_push acc m else acc) ms [] in
          let related := existsb (fun m => match m_ty m with Failed e => labelled e | _ => false end) ms in
          if related then Val (GErr matched, t_fail t ERepeated, s')
          else check_repeated r n' (matched ++ [good]) t s'
      | Err => Val (GErr matched, t_fail t ENote, s)
      | Panic => Panic
      end
  end.
(** check/mod.rs:503-626: rewrite the results that reach the start of the right-hand match *)
Definition rewrite_left (right_start : nat) (m : mresult) : mresult :=
  match m_info m with
  | Some i =>
      if ((right_start <=? rstart (i_span i)) || (right_start <=? rend (i_span i)))%bool then
        match m_ty m with
        | Failed (EMatch _) | Failed EDiscarded => failed EDiscarded
        | Failed _ => m
        | _ => failed EDiscarded
        end
      else m
  | None => m
  end.

(** Folding [Matches::range] over a list of results: the maximal end (check/mod.rs:716-720) and
    the minimal start (check/mod.rs:732-736), unwrapped. *)
Fixpoint ranges (mss : list matches) : res (list range) :=
  match mss with
  | [] => Val []
  | ms :: l => do o <- ms_range ms; do rs <- ranges l;
               Val (match o with Some r => r :: rs | None => rs end)
  end.
Definition max_end (mss : list matches) : res nat :=
  do rs <- ranges mss;
  match rs with [] => Panic | r :: l => Val (fold_left (fun a x => Nat.max a (rend x)) l (rend r)) end.
Definition min_start (mss : list matches) : res nat :=
  do rs <- ranges mss;
  match rs with [] => Panic | r :: l => Val (fold_left (fun a x => Nat.min a (rstart x)) l (rstart r)) end.
Definition nonempty {A} (l : list A) : bool := match l with [] => false | _ => true end.

(** [check_tree(..).expect("unexpected check-not error")] *)
Definition expect_tree (x : res (gres * test_result * state)) : res (gres * test_result * state) :=
  do (g, t, s) <- x; match g with GFail _ => Panic | _ => Val (g, t, s) end.

(** check/mod.rs:295-696 and 699-997 *)
Fixpoint check_group (g : group) (t : test_result) (s : state) {struct g} : res (gres * test_result * state) :=
  match g with
  | GNever ps =>
      do r <- search_block (s_cur s);
      match check_not ps r s with
      | Val (inr _, s') => Val (GOk [], t_pass t (length ps), s')
      | Val (inl _, s') => Val (GErr [[failed EExcluded]], t, s')
      | Err => Val (GFail ENote, t, s)
      | Panic => Panic
      end
  | GOrdered rs => check_ordered rs [] t s
  | GRepeated r n => check_repeated r n [] t s
  | GUnordered ds =>
      match apply_dag ds s with
      | Val (ms, s') =>
          do o <- ms_range ms;
          Val (match o with None => GErr [ms] | Some _ => GOk [ms] end, t, s')
      | Err => Val (GErr [], t_fail t ENote, s)
      | Panic => Panic
      end
  | GBounded ds rt =>
      match apply_dag ds s with
      | Panic => Panic
      | initial =>
          let s1 := match initial with Val (_, s') => s' | _ => s end in
          do (g, t1, s2) <- check_group rt t s1;
          match g with
          | GOk rm =>
              match rm with
              | [] => Panic
              | r0 :: _ =>
                  do o <- ms_range r0;
                  do rr <- unwrap o;
                  match initial with
                  | Val (lm, _) =>
                      do lo <- ms_range lm;
                      let lm' :=
                        match lo with
                        | Some lr => if ((rstart rr <=? rstart lr) || (rstart rr <=? rend lr))%bool
                                     then map (rewrite_left (rstart rr)) lm else lm
                        | None => lm
                        end in
                      Val (GOk (lm' :: rm), t1, s2)
                  | _ => Val (GOk rm, t_fail t1 ENote, s2)
                  end
              end
          | GErr rm =>
              match initial with
              | Val (lm, _) =>
                  do lo <- ms_range lm;
                  Val (match lo with None => GErr (lm :: rm) | Some _ => GOk (lm :: rm) end, t1, s2)
              | _ => Val (GErr rm, t_fail t1 ENote, s2)
              end
          | GFail _ =>
              match initial with
              | Val (lm, _) =>
                  do lo <- ms_range lm;
                  Val (match lo with None => GErr [lm] | Some _ => GOk [lm] end, t_fail t1 ENote, s2)
              | _ => Val (GErr [], t_fail (t_fail t1 ENote) ENote, s2)
              end
          end
      end
  | GTree tr => check_tree tr t s
  end
with check_tree (tr : tree) (t : test_result) (s : state) {struct tr} : res (gres * test_result * state) :=
  match tr with
  | TAll g => check_group g t s
  | TAround root lt rt =>
      do (gl, t1, s1) <- expect_tree (check_tree lt t s);
      match gl with
      | GOk lm =>
          do _ <- assert (nonempty lm);
          do left_end <- max_end lm;
          do (gr, t2, s2) <- expect_tree (check_tree rt t1 s1);
          match gr with
          | GOk rm =>
              do _ <- assert (nonempty rm);
              do right_start <- min_start rm;
              do ex <- search_range (s_cur s2) left_end right_start;
              do (extra, t3, s3) <- tree_not root ex t2 s2;
              Val (GOk (lm ++ extra ++ rm), t3, s3)
          | GErr rm => Val (GOk (lm ++ rm), t_pass t2 (length root), s2)
          | GFail _ => Panic
          end
      | GErr lm =>
          let left_end := c_start (s_cur s1) in
          do (gr, t2, s2) <- expect_tree (check_tree rt t1 s1);
          match gr with
          | GOk rm =>
              do _ <- assert (nonempty rm);
              do right_start <- min_start rm;
              do ex <- search_range (s_cur s2) left_end right_start;
              do (extra, t3, s3) <- tree_not root ex t2 s2;
              Val (GOk (lm ++ extra ++ rm), t3, s3)
          | GErr rm => Val (GErr (lm ++ rm), t_pass t2 (length root), s2)
          | GFail _ => Panic
          end
      | GFail _ => Panic
      end
  | TBefore root lt =>
      let left_end := c_start (s_cur s) in
      do (gl, t1, s1) <- expect_tree (check_tree lt t s);
      match gl with
      | GOk lm =>
          do _ <- assert (nonempty lm);
          do ex <- search_block (s_cur s1);
          do (extra, t2, s2) <- tree_not root ex t1 s1;
          Val (GOk (lm ++ extra), t2, s2)
      | GErr lm =>
          do ex <- search_range (s_cur s1) left_end (c_end (s_cur s1));
          do (extra, t2, s2) <- tree_not root ex t1 s1;
          Val (GErr (lm ++ extra), t2, s2)
      | GFail _ => Panic
      end
  | TAfter root rt =>
      let left_end := c_start (s_cur s) in
      do (gr, t1, s1) <- expect_tree (check_tree rt t s);
      match gr with
      | GOk rm =>
          do _ <- assert (nonempty rm);
          do right_start <- min_start rm;
          do ex <- search_range (s_cur s1) left_end right_start;
          do (extra, t2, s2) <- tree_not root ex t1 s1;
          Val (GOk (rm ++ extra), t2, s2)
      | GErr rm => Val (GErr rm, t_pass t1 (length root), s1)
      | GFail _ => Panic
      end
  end.

(** check/mod.rs:253-270, and 272-292 for the groups of an implicit block *)
Fixpoint check_groups (gs : list group) (t : test_result) (s : state) : res (test_result * state) :=
  match gs with
  | [] => Val (t, s)
  | g :: r =>
      do (x, t1, s1) <- check_group g t s;
      let t2 := match x with
                | GOk mss | GErr mss => fold_left append_matches mss t1
                | GFail e => t_fail t1 e
                end in
      check_groups r t2 s1
  end.

(** check/mod.rs:1017-1045 *)
Record block := mkBlock {
  b_label : option minfo; b_secs : nat * nat; b_start : option nat; b_end : option nat }.
Definition set_end (e : nat) (b : block) : block := mkBlock (b_label b) (b_secs b) (b_start b) (Some e).
(** check/mod.rs:138-144, on the blocks in reverse order *)
Fixpoint end_latest (e : nat) (rblocks : list block) : list block :=
  match rblocks with
  | [] => []
  | b :: l => match b_start b with Some _ => set_end e b :: l | None => b :: end_latest e l end
  end.
Definition is_block (x : section) : bool := match x with SBlock _ _ => true | _ => false end.
Fixpoint count_while {A} (f : A -> bool) (l : list A) : nat :=
  match l with [] => 0 | x :: r => if f x then S (count_while f r) else 0 end.

(** check/mod.rs:97-179; blocks are accumulated in reverse.  A label is matched by
    [Matcher::try_match], which binds nothing. *)
Fixpoint discover (i : nat) (secs : list section) (s : state) (rblocks : list block) (errors : list err)
  : res (list block * list err * state) :=
  match secs with
  | [] => Val (rblocks, errors, s)
  | SGroup _ :: r => discover (S i) r s rblocks errors
  | SBlock label _ :: r =>
      do range <- search_to_eof (s_cur s);
      let eof := end_of_file (s_cur s) in
      match pm label (buf s) range (s_env s) with
      | Val (m, _) =>
          match m_info m with
          | Some info =>
              let match_start := rstart (i_span info) in
              do o <- next_newline_from (s_cur s) match_start;
              do p <- prev_newline_from (s_cur s) match_start;
              do c <- set_start (s_cur s) (unwrap_or o eof);
              let s' := mkState c (s_env s) in
              let b := mkBlock (Some info) (i, i + 1) (Some (c_start c)) None in
              discover (S i) r s' (b :: end_latest (unwrap_or p 0) rblocks) errors
          | None => discover (S i) r s (mkBlock None (i, i + 1) None None :: rblocks) (errors ++ [ENone])
          end
      | Err => discover (S i) r s (mkBlock None (i, i + 1) None None :: rblocks) (errors ++ [EInvalid])
      | Panic => Panic
      end
  end.
(** check/mod.rs:67-189; [inr] is [TestFailed] *)
Definition discover_blocks (secs : list section) (s : state) : res ((list block + list err) * state) :=
  let first :=
    match secs with
    | SBlock _ _ :: _ => []
    | _ => [mkBlock None (0, count_while (fun x => negb (is_block x)) secs) (Some 0) None]
    end in
  do (rblocks, errors, s1) <- discover 0 secs s first [];
  do c <- reset (s_cur s1);
  let s2 := mkState c (s_env s1) in
  Val (match errors with [] => inl (rev rblocks) | _ => inr errors end, s2).

Definition groups_of (secs : list section) : res (list group) :=
  fold_right (fun x acc => do l <- acc; match x with SGroup g => Val (g :: l) | SBlock _ _ => Panic end)
    (Val []) secs.
(** check/mod.rs:209-246 *)
Definition check_block (secs : list section) (b : block) (t : test_result) (s : state) : res (test_result * state) :=
  let t := match b_label b with Some i => t_matched t i | None => t end in
  match b_start b with
  | None => Val (t, s)
  | Some st =>
      do r <- unwrap (range_new st (unwrap_or (b_end b) (length (buf s))));
      do c <- set_bounds (s_cur s) (Included (rstart r)) (Excluded (rend r));
      let s' := mkState c (enter (s_env s)) in
      let (lo, hi) := b_secs b in
      if hi <=? lo then Val (t, s')
      else if 1 <? hi - lo then
        do gs <- groups_of (firstn (hi - lo) (skipn lo secs));
        check_groups gs t s'
      else
        match nth_error secs lo with
        | Some (SBlock _ body) => check_groups body t s'
        | Some (SGroup g) => check_groups [g] t s'
        | None => Panic
        end
  end.
Fixpoint check_blocks (secs : list section) (bs : list block) (t : test_result) (s : state) : res (test_result * state) :=
  match bs with
  | [] => Val (t, s)
  | b :: r => do (t', s') <- check_block secs b t s; check_blocks secs r t' s'
  end.
(** check/mod.rs:40-58 *)
Definition check_input (allow_empty : bool) (secs : list section) (b : bytes) (e : env L) : res test_result :=
  do c <- cursor_new b;
  if (negb allow_empty && match b with [] => true | _ => false end)%bool
  then Val (mkTest [] 0 [EEmptyInput])
  else
    do (bs, s) <- discover_blocks secs (mkState c e);
    match bs with
    | inl blocks => do (t, _) <- check_blocks secs blocks test_new s; Val t
    | inr errors => Val (mkTest [] 0 errors)
    end.

End Engine.
Arguments rule L : clear implicits.
Arguments group L : clear implicits.
Arguments tree L : clear implicits.
Arguments section L : clear implicits.
Arguments state L : clear implicits.
