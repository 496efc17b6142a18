(** What is expected of variables, without maps, copies or merging: the value of a variable is the
    one bound last among the bindings that still count. *)
From Verif Require Import Base Text_Model Cursor_Model Env_Model.
Section Spec.
Context {V : Type}.

(** What a run of the checks does, with its structure: bind a variable, move the cursor, attempt
    something and then commit or abandon it, or try several things one after the other from the same
    situation and commit at most one of them (visitors/dynamic.rs:118-191). *)
Inductive action :=
| Bind (n : vname) (v : V)
| Move (p : range * nat)
| Attempt (body : list action) (commit : bool)
| Choose (bodies : list (list action * bool)) (choice : option nat).

(** The operations that carry it out.  The bindings of a body that succeeded are taken out; those of
    one that failed are cleared; the ones of the chosen body are merged. *)
Fixpoint ops (a : action) : list (op V) :=
  match a with
  | Bind n v => [OBind n v]
  | Move p => [OMove p]
  | Attempt body commit => OProtect :: flat_map ops body ++ [if commit then OSave else ODrop]
  | Choose bodies choice =>
      OProtect :: flat_map (fun bk : list action * bool => flat_map ops (fst bk) ++ [if snd bk then OTake else OClear]) bodies ++
      ODrop :: match choice with Some k => [OMerge (length (filter snd bodies) - S k)] | None => [] end ++
      [OForget (length (filter snd bodies))]
  end.

(** The bindings an action leaves behind: what was abandoned or not chosen does not count. *)
Fixpoint kept (a : action) : list (vname * V) :=
  match a with
  | Bind n v => [(n, v)]
  | Move _ => []
  | Attempt body commit => if commit then flat_map kept body else []
  | Choose bodies choice =>
      match choice with
      | Some k => nth k (flat_map (fun bk : list action * bool => if snd bk then [flat_map kept (fst bk)] else []) bodies) []
      | None => []
      end
  end.
(** The positions the cursor was moved to for good. *)
Fixpoint moves (a : action) : list (range * nat) :=
  match a with
  | Bind _ _ => []
  | Move p => [p]
  | Attempt body commit => if commit then flat_map moves body else []
  | Choose _ _ => []
  end.
(** A choice is made inside an attempt, between bodies that succeeded; a body that failed has left
    nothing behind. *)
Fixpoint proper (inside : bool) (a : action) : Prop :=
  match a with
  | Bind _ _ | Move _ => True
  | Attempt body _ => fold_right and True (map (proper true) body)
  | Choose bodies choice =>
      inside = true /\
      fold_right and True (map (fun bk : list action * bool => fold_right and True (map (proper true) (fst bk)) /\
                                          (snd bk = false -> flat_map kept (fst bk) = [])) bodies) /\
      match choice with Some k => k < length (filter snd bodies) | None => True end
  end.

(** A whole run: actions, and the beginnings of blocks. *)
Inductive event := Do (a : action) | Block (s e : bound).
Definition event_ops (t : event) : list (op V) := match t with Do a => ops a | Block s e => [OEnter s e] end.
Definition event_kept (t : event) : list (vname * V) := match t with Do a => kept a | Block _ _ => [] end.
Definition is_block (t : event) : bool := match t with Block _ _ => true | _ => false end.
(** The part of a run after the last block was entered. *)
Fixpoint since_block (l : list event) : list event :=
  match l with
  | [] => []
  | t :: r => if existsb is_block r then since_block r else if is_block t then r else t :: r
  end.
(** A run that is still in the middle of nested attempts: [outer], then the actions of each open
    attempt so far. *)
Definition open_ops (outer : list event) (nested : list (list action)) : list (op V) :=
  flat_map event_ops outer ++ flat_map (fun l => OProtect :: flat_map ops l) nested.
Definition events (outer : list event) (nested : list (list action)) : list event :=
  outer ++ map Do (concat nested).
Definition proper_run (outer : list event) (nested : list (list action)) : Prop :=
  (forall a, In (Do a) outer -> proper false a) /\ (forall l a, In l nested -> In a l -> proper true a).

(** The value bound last to a name. *)
Inductive bound_last : list (vname * V) -> vname -> option V -> Prop :=
| Bl_some before n v after : (forall v', ~ In (n, v') after) -> bound_last (before ++ (n, v) :: after) n (Some v)
| Bl_none l n : (forall v', ~ In (n, v') l) -> bound_last l n None.
(** The value the -D options give to a name, whatever its kind. *)
Inductive defined_last : list (vname * V) -> str -> option V -> Prop :=
| Dl_some before n v after : (forall n' v', In (n', v') after -> v_text n' <> v_text n) ->
    defined_last (before ++ (n, v) :: after) (v_text n) (Some v)
| Dl_none l s : (forall n' v', In (n', v') l -> v_text n' <> s) -> defined_last l s None.
(** The expected value of a variable after a run. *)
Definition expected (scoped : bool) (defs : list (vname * V)) (l : list event) (n : vname) (r : option V) : Prop :=
  exists own sys,
    bound_last (flat_map event_kept (match n with User _ => if scoped then since_block l else l | _ => l end)) n own /\
    defined_last defs (v_text n) sys /\ r = match own with Some v => Some v | None => sys end.

(** Two machines that cannot be told apart: the same values for all variables, and the same position,
    in the context and in every open guard. *)
Definition same_ctx (x y : ctx V) : Prop :=
  (forall n, b_get (x_env x) n = b_get (x_env y) n) /\
  (forall s, b_get_local (x_env x) s = b_get_local (x_env y) s /\ b_get_global (x_env x) s = b_get_global (x_env y) s) /\
  x_cur x = x_cur y.
Definition same_machine (x y : machine V) : Prop :=
  same_ctx (m_base x) (m_base y) /\ Forall2 same_ctx (m_guards x) (m_guards y).
End Spec.
Arguments action : clear implicits.
Arguments event : clear implicits.
