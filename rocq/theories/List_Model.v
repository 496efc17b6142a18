(** Model of the test list (lit/src/test/list.rs).  The intrusive linked list of the
    [intrusive_collections] crate is its sequence of elements; a cursor into it is the index of the
    element it points at, or nothing for the null position between the back and the front.  Counters
    are [nat]; a subtraction that would wrap aborts. *)
From Verif Require Import Base Text_Model Cursor_Model.

Section L.
Context {A : Type}.

(** ** The linked list's own operations (crate [intrusive_collections], as documented) *)
Definition at_ (items : list A) (c : option nat) : option A := match c with Some i => nth_error items i | None => None end.
Definition ll_front (items : list A) : option nat := match items with [] => None | _ => Some 0 end.
Definition ll_back (items : list A) : option nat := match items with [] => None | _ => Some (length items - 1) end.
Definition ll_next (items : list A) (c : option nat) : option nat :=
  match c with None => ll_front items | Some i => if S i <? length items then Some (S i) else None end.
Definition ll_prev (items : list A) (c : option nat) : option nat :=
  match c with None => ll_back items | Some 0 => None | Some (S i) => Some i end.
(** removing moves the cursor to the next element *)
Definition ll_remove (items : list A) (c : option nat) : option A * list A * option nat :=
  match c with
  | None => (None, items, None)
  | Some i => let items' := firstn i items ++ skipn (S i) items in
      (nth_error items i, items', if i <? length items' then Some i else None)
  end.
(** inserting after the null position is inserting at the front, before it at the back *)
Definition ll_splice_after (items : list A) (c : option nat) (l : list A) : list A * option nat :=
  match c with
  | None => (l ++ items, None)
  | Some i => (firstn (S i) items ++ l ++ skipn (S i) items, Some i)
  end.
Definition ll_splice_before (items : list A) (c : option nat) (l : list A) : list A * option nat :=
  match c with
  | None => (items ++ l, None)
  | Some i => (firstn i items ++ l ++ skipn i items, Some (i + length l))
  end.
(** splitting after the null position takes everything *)
Definition ll_split_after (items : list A) (c : option nat) : list A * list A :=
  match c with None => (items, []) | Some i => (skipn (S i) items, firstn (S i) items) end.

Definition dec (n : nat) : res nat := match n with 0 => Panic | S m => Val m end.

(** list.rs:11-15 *)
Record tlist := mkT { t_len : nat; t_items : list A }.
Definition empty : tlist := mkT 0 [].
(** list.rs:17-23 *)
Definition is_empty (t : tlist) : bool := match t_items t with [] => true | _ => false end.
(** list.rs:52-58 *)
Definition pop_front (t : tlist) : res (option A * tlist) :=
  match t_items t with
  | [] => Val (None, t)
  | x :: r => do n <- dec (t_len t); Val (Some x, mkT n r)
  end.
(** list.rs:60-66 *)
Definition pop_back (t : tlist) : res (option A * tlist) :=
  match rev (t_items t) with
  | [] => Val (None, t)
  | x :: r => do n <- dec (t_len t); Val (Some x, mkT n (rev r))
  end.
(** list.rs:68-71 *)
Definition clear (t : tlist) : tlist := empty.
(** list.rs:77-80 *)
Definition push_back (t : tlist) (x : A) : tlist := mkT (t_len t + 1) (t_items t ++ [x]).
(** list.rs:82-85 *)
Definition append (t u : tlist) : tlist :=
  mkT (t_len t + t_len u) (fst (ll_splice_after (t_items t) (ll_back (t_items t)) (t_items u))).

(** list.rs:88-92; the length and the items belong to the list the cursor was made from *)
Record cur := mkC { c_len : nat; c_pos : nat; c_items : list A; c_at : option nat }.
(** list.rs:35-41 *)
Definition front_mut (t : tlist) : cur := mkC (t_len t) 0 (t_items t) (ll_front (t_items t)).
(** list.rs:44-50 *)
Definition back_mut (t : tlist) : cur := mkC (t_len t) 0 (t_items t) (ll_back (t_items t)).
(** the list after the cursor is dropped *)
Definition release (c : cur) : tlist := mkT (c_len c) (c_items c).
(** list.rs:94-101 *)
Definition is_null (c : cur) : bool := match c_at c with None => true | Some _ => false end.
Definition get (c : cur) : option A := at_ (c_items c) (c_at c).
(** list.rs:103-112 *)
Definition move_next (c : cur) : res cur :=
  if c_pos c =? c_len c then
    if is_null c then Val (mkC (c_len c) 0 (c_items c) (ll_next (c_items c) (c_at c))) else Panic
  else Val (mkC (c_len c) (c_pos c + 1) (c_items c) (ll_next (c_items c) (c_at c))).
(** list.rs:115-127 *)
Definition move_prev (c : cur) : res cur :=
  if c_pos c =? c_len c then
    if is_null c then Val (mkC (c_len c) (c_len c - 1) (c_items c) (ll_prev (c_items c) (c_at c))) else Panic
  else if c_pos c =? 0 then Val (mkC (c_len c) (c_len c) (c_items c) (ll_prev (c_items c) (c_at c)))
  else Val (mkC (c_len c) (c_pos c - 1) (c_items c) (ll_prev (c_items c) (c_at c))).
(** list.rs:130-136 *)
Definition remove (c : cur) : res (option A * cur) :=
  let '(x, items, a) := ll_remove (c_items c) (c_at c) in
  match x with
  | Some _ => do n <- dec (c_len c); Val (x, mkC n (c_pos c) items a)
  | None => Val (x, mkC (c_len c) (c_pos c) items a)
  end.
(** list.rs:139-145 *)
Definition insert_after (c : cur) (x : A) : cur :=
  let '(items, a) := ll_splice_after (c_items c) (c_at c) [x] in
  mkC (c_len c + 1) (if c_pos c =? c_len c then c_pos c + 1 else c_pos c) items a.
(** list.rs:148-152 *)
Definition insert_before (c : cur) (x : A) : cur :=
  let '(items, a) := ll_splice_before (c_items c) (c_at c) [x] in
  mkC (c_len c + 1) (c_pos c + 1) items a.
(** list.rs:154-172 *)
Definition split_after (c : cur) : res (tlist * cur) :=
  if c_len c =? 0 then Val (empty, c)
  else if c_pos c =? c_len c then
    let '(taken, rest) := ll_split_after (c_items c) (c_at c) in
    Val (mkT (c_len c) taken, mkC 0 0 rest (c_at c))
  else
    let '(taken, rest) := ll_split_after (c_items c) (c_at c) in
    let new_len := c_pos c + 1 in
    if new_len <=? c_len c then Val (mkT (c_len c - new_len) taken, mkC new_len (c_pos c) rest (c_at c)) else Panic.
(** list.rs:175-181 *)
Definition splice_after (c : cur) (t : tlist) : cur :=
  let '(items, a) := ll_splice_after (c_items c) (c_at c) (t_items t) in
  mkC (c_len c + t_len t) (if c_pos c =? c_len c then c_pos c + 1 else c_pos c) items a.
(** list.rs:184-188 *)
Definition splice_before (c : cur) (t : tlist) : cur :=
  let '(items, a) := ll_splice_before (c_items c) (c_at c) (t_items t) in
  mkC (c_len c + t_len t) (c_pos c + 1) items a.

(** list.rs:209-245: the iterator holds the remaining range and a cursor *)
Record iter := mkI { i_lo : nat; i_hi : nat; i_items : list A; i_at : option nat }.
Definition list_iter (t : tlist) : iter := mkI 0 (t_len t) (t_items t) (ll_front (t_items t)).
Definition iter_next (i : iter) : option A * iter :=
  if i_lo i <? i_hi i then (at_ (i_items i) (i_at i), mkI (i_lo i + 1) (i_hi i) (i_items i) (ll_next (i_items i) (i_at i)))
  else (None, i).
Definition iter_next_back (i : iter) : option A * iter :=
  if i_lo i <? i_hi i then (at_ (i_items i) (i_at i), mkI (i_lo i) (i_hi i - 1) (i_items i) (ll_prev (i_items i) (i_at i)))
  else (None, i).
Fixpoint iter_collect (fuel : nat) (i : iter) : list A :=
  match fuel with
  | 0 => []
  | S f => match iter_next i with (Some x, i') => x :: iter_collect f i' | (None, _) => [] end
  end.
Fixpoint iter_collect_back (fuel : nat) (i : iter) : list A :=
  match fuel with
  | 0 => []
  | S f => match iter_next_back i with (Some x, i') => x :: iter_collect_back f i' | (None, _) => [] end
  end.

(** list.rs:247-275: draining is popping; the fuel is the number of calls *)
Fixpoint drain (fuel : nat) (t : tlist) : res (list A) :=
  match fuel with
  | 0 => Val []
  | S f => do p <- pop_front t; match p with (Some x, t') => do r <- drain f t'; Val (x :: r) | (None, _) => Val [] end
  end.
Fixpoint moves (n : nat) (c : cur) : res cur :=
  match n with 0 => Val c | S m => do c' <- move_next c; moves m c' end.
(** list.rs:285-297 *)
Definition split_at (t : tlist) (index : nat) : res (tlist * tlist) :=
  if is_empty t then Val (t, empty)
  else if index <? t_len t then
    do c <- moves index (front_mut t);
    if is_null c then Panic
    else do p <- split_after c; Val (release (snd p), fst p)
  else Panic.
(** list.rs:302-311 *)
Definition unindexed_split (t : tlist) : res (tlist * option tlist) :=
  if t_len t <? 2 then Val (t, None)
  else do p <- split_at t (t_len t / 2); Val (fst p, Some (snd p)).

(** rayon's [bridge_producer_consumer] (crate rayon 1.x, iter/plumbing/mod.rs): while the splitter asks
    for it and the claimed length allows, split in the middle of the claimed length; otherwise consume
    sequentially.  The tree says what the splitter asks for. *)
Inductive tree := Leaf | Split (l r : tree).
Fixpoint bridge (len : nat) (t : tlist) (s : tree) : res (list (list A)) :=
  match s with
  | Leaf => do r <- drain (S (t_len t)) t; Val [r]
  | Split sl sr =>
      if 1 <=? len / 2 then
        do p <- split_at t (len / 2);
        do a <- bridge (len / 2) (fst p) sl; do b <- bridge (len - len / 2) (snd p) sr; Val (a ++ b)
      else do r <- drain (S (t_len t)) t; Val [r]
  end.
(** rayon's [bridge_unindexed] (same file) *)
Fixpoint bridge_unindexed (t : tlist) (s : tree) : res (list (list A)) :=
  match s with
  | Leaf => do r <- drain (S (t_len t)) t; Val [r]
  | Split sl sr =>
      do p <- unindexed_split t;
      match snd p with
      | Some u => do a <- bridge_unindexed (fst p) sl; do b <- bridge_unindexed u sr; Val (a ++ b)
      | None => do r <- drain (S (t_len (fst p))) (fst p); Val [r]
      end
  end.
End L.
Arguments tlist A : clear implicits.
Arguments cur A : clear implicits.
Arguments iter A : clear implicits.
