(** Model of core/src/fs/path_tree.rs: the index of paths.  A path is the list of its components; what
    the operating system answers when a path is made canonical, and whether it names a file or a
    directory, is part of each operation's input (path_tree.rs:345-367), the textual fallback for paths that do
    not exist is [fallback].  The assertions against the empty path (484-489, 527-531) are not
    modelled: canonical paths are absolute. *)
From Verif Require Import Base Map_Model.

(** [std::path::Component] without the Windows prefix; [.] never occurs in a canonical path *)
Inductive comp := Root | Parent | Name (s : str).
Definition path := list comp.
Definition comp_eqb (a b : comp) : bool :=
  match a, b with Root, Root | Parent, Parent => true | Name s, Name t => str_eqb s t | _, _ => false end.
(** the derived order of [Component] *)
Definition comp_cmp (a b : comp) : comparison :=
  match a, b with
  | Root, Root => Eq | Root, _ => Lt | _, Root => Gt
  | Parent, Parent => Eq | Parent, _ => Lt | _, Parent => Gt
  | Name s, Name t => str_cmp s t
  end.
(** [Ord for Path] *)
Fixpoint path_cmp (a b : path) : comparison :=
  match a, b with
  | [], [] => Eq | [], _ :: _ => Lt | _ :: _, [] => Gt
  | x :: a', y :: b' => match comp_cmp x y with Eq => path_cmp a' b' | c => c end
  end.
Fixpoint path_eqb (a b : path) : bool :=
  match a, b with [], [] => true | x :: a', y :: b' => comp_eqb x y && path_eqb a' b' | _, _ => false end.
(** [Path::strip_prefix] *)
Fixpoint strip (pre p : path) : option path :=
  match pre, p with
  | [], _ => Some p
  | x :: pre', y :: p' => if comp_eqb x y then strip pre' p' else None
  | _ :: _, [] => None
  end.
(** [PathBuf::push] / [Path::join]: an absolute path replaces *)
Definition pjoin (a b : path) : path := match b with Root :: _ => b | _ => a ++ b end.

(** path_tree.rs:213-223 *)
Inductive ptype := Unknown | File | Dir.
(** path_tree.rs:435-449; data keys are positions in the table of values *)
Inductive node :=
| Leaf (c : path) (ty : ptype) (d : option nat)
| Branch (c : path) (ch : list node) (d : option nat).
(** path_tree.rs:463-476 *)
Definition component (n : node) : path := match n with Leaf c _ _ | Branch c _ _ => c end.
Definition ndata (n : node) : option nat := match n with Leaf _ _ d | Branch _ _ d => d end.

(** path_tree.rs:421-433 *)
Inductive prefix := Exact | Ancestor | Child | Partial (common : path).
(** path_tree.rs:478-522 *)
Fixpoint common_prefix_go (acc a b : path) : option prefix :=
  match a, b with
  | [], [] => Some Exact
  | [], _ :: _ => Some Child
  | x :: a', y :: b' => if comp_eqb x y then common_prefix_go (acc ++ [x]) a' b'
                        else match acc with [] => None | _ => Some (Partial acc) end
  | _ :: _, [] => Some Ancestor
  end.
Definition common_prefix (n : node) (p : path) : option prefix := common_prefix_go [] (component n) p.
(** path_tree.rs:524-545 *)
Fixpoint has_common_prefix_go (has : bool) (a b : path) : bool :=
  match a, b with
  | [], _ => true
  | x :: a', y :: b' => if comp_eqb x y then has_common_prefix_go true a' b' else has
  | _ :: _, [] => true
  end.
Definition has_common_prefix (n : node) (p : path) : bool := has_common_prefix_go false (component n) p.

(** path_tree.rs:547-595 *)
Fixpoint node_contains (n : node) (p : path) : bool :=
  match n with
  | Branch c ch d =>
      match strip c p with
      | None => false
      | Some [] => match d with Some _ => true | None => false end
      | Some rest => (fix go l := match l with [] => false | x :: r => if has_common_prefix x rest then node_contains x rest else go r end) ch
      end
  | Leaf c _ d => path_eqb p c && match d with Some _ => true | None => false end
  end.
(** path_tree.rs:597-632 *)
Fixpoint node_get (n : node) (p : path) : option node :=
  match n with
  | Branch c ch d =>
      match strip c p with
      | None => None
      | Some [] => Some n
      | Some rest => (fix go l := match l with [] => None | x :: r => if has_common_prefix x rest then node_get x rest else go r end) ch
      end
  | Leaf c _ _ => if path_eqb p c then Some n else None
  end.
(** path_tree.rs:634-710; [cand] is the top of the stack of candidates: only it is ever taken *)
Fixpoint nearest_go (n : node) (p anc : path) (cand : option (path * nat)) : option (path * nat) :=
  match n with
  | Branch c ch d =>
      match strip c p with
      | None => cand
      | Some [] => cand
      | Some rest =>
          let anc' := pjoin anc c in
          (fix go l := match l with
             | [] => match d with Some k => Some (anc', k) | None => cand end
             | x :: r => if has_common_prefix x rest
                         then nearest_go x rest anc' (match d with Some k => Some (anc', k) | None => cand end)
                         else go r
             end) ch
      end
  | Leaf _ _ _ => cand
  end.
Definition node_nearest (n : node) (p : path) : option (path * nat) :=
  if negb (has_common_prefix n p) then None else nearest_go n p [] None.

(** [<[Node]>::sort] by component (449-459): a stable sort *)
Fixpoint insert_sorted (x : node) (l : list node) : list node :=
  match l with
  | [] => [x]
  | y :: r => match path_cmp (component y) (component x) with Gt => x :: l | _ => y :: insert_sorted x r end
  end.
Definition sort (l : list node) : list node := fold_left (fun acc x => insert_sorted x acc) l [].

(** path_tree.rs:712-748 *)
Definition stripped (pre p : path) : path := match strip pre p with Some r => r | None => p end.
Definition take (n : node) (pre : path) : node :=
  match n with
  | Branch c ch d => Branch (stripped pre c) ch d
  | Leaf c ty d => Leaf (stripped pre c) ty d
  end.
(** path_tree.rs:750-776 *)
Definition set_type (n : node) (ty : ptype) : option node :=
  match n, ty with
  | Leaf c _ d, Dir => Some (Branch c [] d)
  | Leaf c _ d, _ => Some (Leaf c ty d)
  | Branch _ _ _, Dir => Some n
  | Branch _ _ _, _ => None
  end.
(** path_tree.rs:778-789 *)
Definition set_data (n : node) (k : nat) : node :=
  match n with Branch c ch _ => Branch c ch (Some k) | Leaf c ty _ => Leaf c ty (Some k) end.
(** path_tree.rs:791-832, 847-858, 872-883 *)
Definition new_node (c : path) (ty : ptype) (k : nat) : node :=
  match ty with Dir => Branch c [] (Some k) | _ => Leaf c ty (Some k) end.

(** path_tree.rs:38-44, and the abort of [Option::unwrap] at 913 *)
Inductive insert_error := PathTypeConflict | Unreachable | Abort_.
(** path_tree.rs:834-949: [insert_into_prefix] with [try_insert_new]; answers the changed node and the
    depth of the change *)
Fixpoint insert_into (n : node) (p : path) (ty : ptype) (k : nat) : (node * nat) + insert_error :=
  match common_prefix n p with
  | None => inr Abort_
  | Some Exact => match set_type n ty with Some n' => inl (set_data n' k, 0) | None => inr PathTypeConflict end
  | Some Child =>
      let rest := stripped (component n) p in
      match n with
      | Branch c ch d =>
          match (fix go l := match l with
                   | [] => None
                   | x :: r => if has_common_prefix x rest
                               then Some (match insert_into x rest ty k with inl (x', i) => inl (x' :: r, i) | inr e => inr e end)
                               else match go r with Some (inl (r', i)) => Some (inl (x :: r', i)) | o => o end
                   end) ch with
          | Some (inl (ch', i)) => inl (Branch c ch' d, S i)
          | Some (inr e) => inr e
          | None => inl (Branch c (sort (ch ++ [new_node rest ty k])) d, 1)
          end
      | Leaf c File d => inr Unreachable
      | Leaf c _ d => inl (Branch c [new_node rest ty k] d, 1)
      end
  | Some Ancestor => inl (Branch p [take n p] (Some k), 0)
  | Some (Partial common) => inl (Branch common (sort [take n common; new_node (stripped common p) ty k]) None, 0)
  end.

(** path_tree.rs:272-300 *)
Definition new_root (p : path) (ty : ptype) (k : nat) : node :=
  match ty with
  | Dir => Branch p [] (Some k)
  | _ => let file := match rev p with [] => [] | x :: _ => [x] end in
         let parent := match p with [Root] => p | _ => removelast p end in
         Branch parent [Leaf file ty (Some k)] None
  end.
(** path_tree.rs:239-270 *)
Fixpoint insert_roots (l : list node) (p : path) (ty : ptype) (k : nat) : option ((list node * nat) + insert_error) :=
  match l with
  | [] => None
  | x :: r => if has_common_prefix x p
              then Some (match insert_into x p ty k with inl (x', i) => inl (x' :: r, i) | inr e => inr e end)
              else match insert_roots r p ty k with Some (inl (r', i)) => Some (inl (x :: r', i)) | o => o end
  end.
Definition tree_insert (roots : list node) (p : path) (ty : ptype) (k : nat) : list node + insert_error :=
  match insert_roots roots p ty k with
  | Some (inl (roots', i)) => inl (if Nat.eqb i 0 then sort roots' else roots')
  | Some (inr e) => inr e
  | None => inl (sort (roots ++ [new_root p ty k]))
  end.
(** path_tree.rs:307-328 *)
Definition tree_contains (roots : list node) (p : path) : bool := existsb (fun r => node_contains r p) roots.
Fixpoint find_map {A B} (f : A -> option B) (l : list A) : option B :=
  match l with [] => None | x :: r => match f x with Some b => Some b | None => find_map f r end end.
Definition tree_get (roots : list node) (p : path) : option nat :=
  find_map (fun r => if has_common_prefix r p then match node_get r p with Some n => ndata n | None => None end else None) roots.
Definition tree_nearest (roots : list node) (p : path) : option (path * nat) := find_map (fun r => node_nearest r p) roots.

(** path_tree.rs:951-1081, 1204-1231: the sequence of entries a visitor goes through, the suspended visitors of the
    stack being the pending calls.  [cpre] is stripped from the components of this visitor's own nodes;
    [depth] counts components, if a limit was given.  [only_leaves] is never looked at. *)
Fixpoint dfs (max : option nat) (pre cpre : path) (depth : nat) (n : node) : list (path * nat) :=
  let suffix := stripped cpre (component n) in
  let relative := depth + length suffix in
  let exceeds := match max with None => false | Some m => m <? relative end in
  if exceeds then [] else
  match n with
  | Leaf c _ None => []
  | Leaf c _ (Some k) => [(pjoin pre suffix, k)]
  | Branch c [] _ => []
  | Branch c ch d =>
      match d with Some k => [(pjoin pre suffix, k)] | None => [] end ++
      flat_map (dfs max (pjoin pre suffix) [] (match max with None => 0 | Some _ => relative end)) ch
  end.
(** path_tree.rs:181-192, 1099-1106 *)
Definition tree_iter (roots : list node) : list (path * nat) := flat_map (dfs None [] [] 0) roots.
Definition tree_files (roots : list node) : list (path * nat) := flat_map (dfs None [] [] 0) roots.
(** path_tree.rs:1108-1192 *)
Fixpoint dfs_at (max : option nat) (pre : path) (n : node) (p : path) : list (path * nat) :=
  match common_prefix n p with
  | None => []
  | Some Exact => dfs max pre [] 0 n
  | Some Ancestor => dfs max (pjoin pre p) p 0 n
  | Some Child =>
      match n with
      | Leaf _ _ _ => []
      | Branch c ch _ =>
          let rest := stripped c p in
          (fix go l := match l with
             | [] => []
             | x :: r => if has_common_prefix x rest then dfs_at max (pjoin pre c) x rest else go r
             end) ch
      end
  | Some (Partial _) => []
  end.
Fixpoint tree_children (roots : list node) (p : path) (max : option nat) : list (path * nat) :=
  match roots with
  | [] => []
  | x :: r => if has_common_prefix x p then dfs_at max [] x p else tree_children r p max
  end.

(** path_tree.rs:58-62, 123-211: the tree with its table of values *)
Record ptree (V : Type) := mkTree { roots : list node; values : list V }.
Arguments mkTree {V}. Arguments roots {V}. Arguments values {V}.
Section Tree.
Context {V : Type}.
Definition new_tree : ptree V := mkTree [] [].
Definition try_insert (t : ptree V) (p : path) (ty : ptype) (v : V) : ptree V * option insert_error :=
  let k := length (values t) in
  match tree_insert (roots t) p ty k with
  | inl r => (mkTree r (values t ++ [v]), None)
  | inr e => (mkTree (roots t) (values t ++ [v]), Some e)
  end.
(** outer [None]: the index panic *)
Definition fetch (t : ptree V) (o : option nat) : option (option V) :=
  match o with None => Some None | Some k => option_map Some (nth_error (values t) k) end.
Definition get (t : ptree V) (p : path) := fetch t (tree_get (roots t) p).
Definition contains (t : ptree V) (p : path) : bool := tree_contains (roots t) p.
Definition entry (t : ptree V) (e : path * nat) : option (path * V) := option_map (pair (fst e)) (nth_error (values t) (snd e)).
Definition nearest_ancestor (t : ptree V) (p : path) : option (option (path * V)) :=
  match tree_nearest (roots t) p with None => Some None | Some e => option_map Some (entry t e) end.
(** an iteration: each entry, or the index panic *)
Definition iter (t : ptree V) : list (option (path * V)) := map (entry t) (tree_iter (roots t)).
Definition files (t : ptree V) : list (option (path * V)) := map (entry t) (tree_files (roots t)).
Definition children (t : ptree V) (p : path) (max : option nat) := map (entry t) (tree_children (roots t) p max).
End Tree.

(** path_tree.rs:368-411: the fallback for a path that cannot be made canonical; its components may
    begin with [.] ([None]) *)
Fixpoint fallback_go (acc : path) (cs : list (option comp)) : path :=
  match cs with
  | [] => rev acc
  | None :: r => fallback_go acc r
  | Some Parent :: r => match acc with
                        | [] | Parent :: _ => fallback_go (Parent :: acc) r
                        | _ :: acc' => fallback_go acc' r
                        end
  | Some c :: r => fallback_go (c :: acc) r
  end.
Definition fallback (cs : list (option comp)) : path := fallback_go [] cs.
