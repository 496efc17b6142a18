(** Model of where errors about groups of checks point: check/program.rs:70-156, matchers/all.rs:47-205, 210-345, matchers/any.rs:62-160,
    substring_set.rs:57-68, 100-117, regex_set.rs:294-305, 328-345.  Offsets are not truncated to 32 bits. *)
From Coq Require Import String.
From Verif Require Import Base Cursor_Model Num_Model Gram_Model Parse_Model Smart_Model PatSet_Model.
Open Scope list_scope. Open Scope nat_scope.

(** A place in a source ([SourceSpan], span.rs:326-343) *)
Record place := mkPlace { p_source : nat; p_from : nat; p_upto : nat }.
(** [min_by_key] of the starts, [max_by_key] of the ends: the first of the least, the last of the greatest *)
Fixpoint first_start (a : place) (l : list place) : place :=
  match l with [] => a | x :: r => first_start (if p_from x <? p_from a then x else a) r end.
Fixpoint last_end (a : place) (l : list place) : place :=
  match l with [] => a | x :: r => last_end (if p_upto a <=? p_upto x then x else a) r end.
Definition min_by_start (l : list place) : res place := match l with [] => Panic | a :: r => Val (first_start a r) end.
Definition max_by_end (l : list place) : res place := match l with [] => Panic | a :: r => Val (last_end a r) end.
(** span.rs:382-390 [from_range_unchecked], with the source of the first *)
Definition join (a b : place) : place := mkPlace (p_source a) (p_from a) (p_upto b).
(** [SourceSpan::new] with [Range::new] (span.rs:351-360, range.rs:64-72) *)
Definition join_checked (a b : place) : res place := do _ <- assert (p_from a <=? p_upto b); Val (join a b).

(** A pattern of a set: its prefix, whether something is left when the prefix is taken off, where it is and where its prefix
    ends.  A prefix that is everything has the place of the pattern (pattern.rs:321-394), as has the suffix of a pattern with more
    than a prefix (pattern.rs:338-389, 429-605) and the [AlwaysMatch] of one without (all.rs:58, 65, 102). *)
Record placed := mkPlaced { pl_prefix : prefix; pl_more : bool; pl_place : place; pl_mid : nat }.
(** all.rs:47-55 *)
Definition read (c : cpat) (p : place) (mid : nat) : placed :=
  let '(x, r) := pop_prefix (compact c) in mkPlaced x (match r with KpEmpty => false | _ => true end) p mid.
(** pattern.rs:163-171 *)
Definition prefix_place (c : placed) : place :=
  if pl_more c then mkPlace (p_source (pl_place c)) (p_from (pl_place c)) (pl_mid c) else pl_place c.

(** all.rs:57-103: the prefixes that are kept, and for every one the patterns that are entered with it: the places of their suffixes,
    and whether there is more than the prefix *)
Definition enter {A} (k : nat) (s : A) (l : list (list A)) : res (list (list A)) :=
  match nth_error l k with
  | Some x => Val (firstn k l ++ (x ++ [s]) :: skipn (S k) l)
  | None => Panic
  end.
Fixpoint gather (id : nat) (l : list placed) (unique : list (prefix * nat)) (ps : list placed) (ss : list (list (place * bool)))
  : res (list placed * list (list (place * bool))) :=
  match l with
  | [] => Val (ps, ss)
  | c :: r =>
      match find_prefix (pl_prefix c) unique with
      | Some k => do ss' <- enter k (pl_place c, pl_more c) ss; gather (S id) r unique ps ss'
      | None =>
          if not_empty (pl_prefix c) then
            gather (S id) r (unique ++ [(pl_prefix c, id)]) (ps ++ [c]) (ss ++ [[(pl_place c, pl_more c)]])
          else Err
      end
  end.
(** [Flat]: all.rs:10-15; [Prefixed]: all.rs:16-39 *)
Inductive wset := Flat (ps : list place) | Any (ps : list place) (ss : list (list place)) | Prefixed (ps : list place) (ss : list (list place)).
(** all.rs:105-205.  That a text, a regular expression or a variable cannot be compiled is not part of this model. *)
Definition arrange (l : list placed) : res wset :=
  do (ps, ss) <- gather 0 l [] [] [];
  let single := forallb (forallb (fun s : place * bool => negb (snd s))) ss in
  let prefixes := map prefix_place ps in
  let suffixes := map (map (@fst place bool)) ss in
  if forallb (fun c => is_lit (pl_prefix c)) ps then if single then Val (Flat prefixes) else Panic
  else if forallb (fun c => is_sub (pl_prefix c)) ps then if single then Panic else Val (Prefixed prefixes suffixes)
  else if forallb (fun c => is_regex (pl_prefix c)) ps then Val (if single then Flat prefixes else Prefixed prefixes suffixes)
  else Val (Any prefixes suffixes).

(** The number of the first of the prefixes that start first, and its place (all.rs:215-220, regex_set.rs:294-301,
    substring_set.rs:57-64) *)
Fixpoint first_numbered (k n : nat) (a : place) (l : list place) : nat * place :=
  match l with [] => (k, a) | x :: r => if p_from x <? p_from a then first_numbered n (S n) x r else first_numbered k (S n) a r end.
(** all.rs:210-274, any.rs:62-126 *)
Definition first_of_set (w : wset) : res place :=
  match w with
  | Flat ps => min_by_start ps
  | Any ps ss | Prefixed ps ss =>
      match ps with
      | [] => Panic
      | a :: r =>
          let '(k, start) := first_numbered 0 1 a r in
          match nth_error ss k with
          | Some s => do e <- max_by_end s; Val (join start e)
          | None => Panic
          end
      end
  end.
(** all.rs:281-294: the suffixes of a prefix, or the prefix if there are none *)
Definition group_end (d : place) (s : list place) : place := match s with [] => d | a :: r => last_end a r end.
(** all.rs:277-345, any.rs:128-197, substring_set.rs:100-117, regex_set.rs:328-345 *)
Definition place_of_set (w : wset) : res place :=
  match w with
  | Flat ps => do a <- min_by_start ps; do e <- max_by_end ps; Val (join a e)
  | Any ps ss =>
      do a <- min_by_start ps;
      do e <- max_by_end (map (fun x => group_end (fst x) (snd x)) (combine ps ss));
      Val (join a e)
  | Prefixed ps ss =>
      do a <- min_by_start ps; do b <- max_by_end ps;
      do e <- max_by_end (map (group_end (join a b)) ss);
      Val (mkPlace (p_source a) (p_from a) (Nat.max (p_upto b) (p_upto e)))
  end.

(** program.rs:16-42, 70-104, with the patterns of the sets and the places of the rules *)
Inductive wgroup :=
| WNever (l : list placed)
| WUnordered (l : list placed)
| WBounded (l : list placed) (g : wgroup)
| WOrdered (rules : list place)
| WRepeated (rule : place)
| WTree (t : wtree)
with wtree :=
| WAll (g : wgroup)
| WAround (root : list placed) (left right : wtree)
| WBefore (root : list placed) (left : wtree)
| WAfter (root : list placed) (right : wtree).
Definition set_first (l : list placed) : res place := do w <- arrange l; first_of_set w.
Definition set_place (l : list placed) : res place := do w <- arrange l; place_of_set w.
(** program.rs:107-123 with 48-54 *)
Fixpoint first_pattern_span (g : wgroup) : res place :=
  match g with
  | WNever l | WUnordered l | WBounded l _ => set_first l
  | WOrdered rules => min_by_start rules
  | WRepeated rule => Val rule
  | WTree t => tree_first_span t
  end
with tree_first_span (t : wtree) : res place :=
  match t with
  | WAll g => first_pattern_span g
  | WAround _ l _ | WBefore _ l => tree_first_span l
  | WAfter root _ => set_first root
  end.
(** program.rs:125-156 with 48-66 *)
Fixpoint group_place (g : wgroup) : res place :=
  match g with
  | WNever l | WUnordered l => set_place l
  | WBounded l g' => do a <- set_place l; do b <- group_place g'; join_checked a b
  | WOrdered rules =>
      match rules with
      | [] => Panic
      | a :: r => join_checked a (last r a)
      end
  | WRepeated rule => Val rule
  | WTree t => do a <- tree_start t; do b <- tree_stop t; join_checked a b
  end
with tree_start (t : wtree) : res place :=
  match t with
  | WAll g => group_place g
  | WAround _ l _ | WBefore _ l => tree_start l
  | WAfter root _ => set_place root
  end
with tree_stop (t : wtree) : res place :=
  match t with
  | WAll g => group_place g
  | WAround _ _ r | WAfter _ r => tree_stop r
  | WBefore root _ => set_place root
  end.
