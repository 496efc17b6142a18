(** Model of filecheck/src/env.rs, of the environment part of filecheck/src/context.rs and of
    [VariableName] (core/src/variables/mod.rs).  The persistent ordered maps of [im_rc] are modelled
    by the functions they represent (only get, insert, union and clear are used on them); a symbol is
    its text. *)
From Verif Require Import Base Text_Model Cursor_Model.

(** core/src/variables/mod.rs:96-101.  Names compare by kind and text only
    (core/src/diagnostics/span.rs:281-306), so the span is left out. *)
Inductive vname := Pseudo (s : str) | Global (s : str) | User (s : str).
Definition vname_eqb (a b : vname) : bool :=
  match a, b with
  | Pseudo x, Pseudo y | Global x, Global y | User x, User y => str_eqb x y
  | _, _ => false
  end.

Section Env.
Context {V : Type}.

(** A map, and [OrdMap::insert], [union] (the values of the receiver win), [new] *)
Definition smap := str -> option V.
Definition vmap := vname -> option V.
Definition s_insert (m : smap) (k : str) (v : V) : smap := fun k' => if str_eqb k k' then Some v else m k'.
Definition v_insert (m : vmap) (k : vname) (v : V) : vmap := fun k' => if vname_eqb k k' then Some v else m k'.
Definition union {K} (a b : K -> option V) : K -> option V :=
  fun k => match a k with Some v => Some v | None => b k end.
Definition none {K} : K -> option V := fun _ => None.

(** env.rs:5-9 *)
Record bindings := mkB { b_system : smap; b_global : smap; b_bound : vmap }.
(** env.rs:19-27 *)
Definition b_default : bindings := mkB none none none.
Definition or_else (a b : option V) : option V := match a with Some v => Some v | None => b end.
(** env.rs:50-74; [LexicalScope::get] (env.rs:126-144) dispatches to the same two lookups *)
Definition b_get_local (b : bindings) (s : str) : option V := or_else (b_bound b (User s)) (b_system b s).
Definition b_get_global (b : bindings) (s : str) : option V := or_else (b_global b s) (b_system b s).
Definition b_get (b : bindings) (n : vname) : res (option V) :=
  match n with
  | User s => Val (or_else (b_bound b n) (b_system b s))
  | Global s => Val (or_else (b_global b s) (b_system b s))
  | Pseudo _ => Panic
  end.
(** env.rs:76-85 *)
Definition b_insert (b : bindings) (n : vname) (v : V) : bindings :=
  match n with
  | Global s => mkB (b_system b) (s_insert (b_global b) s v) (b_bound b)
  | _ => mkB (b_system b) (b_global b) (v_insert (b_bound b) n v)
  end.
(** env.rs:96-99 *)
Definition b_merge (b other : bindings) : bindings :=
  mkB (b_system b) (union (b_global other) (b_global b)) (union (b_bound other) (b_bound b)).
(** env.rs:101-104 *)
Definition b_clear (b : bindings) : bindings := mkB (b_system b) (b_global b) none.

(** env.rs:275-287, 42-48: the -D variables, later ones replacing earlier ones; their kind is dropped *)
Definition v_text (n : vname) : str := match n with Pseudo s | Global s | User s => s end.
Definition system_of (defs : list (vname * V)) : smap :=
  fold_left (fun m d => s_insert m (v_text (fst d)) (snd d)) defs none.
Definition env_from_config (defs : list (vname * V)) : bindings := mkB (system_of defs) none none.

(** context.rs:94-100, 179-186: a context holds bindings and a cursor. *)
Record ctx := mkCtx { x_env : bindings; x_cur : cursor }.
(** A context and the guards that are open on it, the innermost first.  A guard borrows what it
    guards mutably, so only the innermost one can be used.  The bindings taken out of guards are kept
    in [taken], the latest first (visitors/dynamic.rs:142-147). *)
Record machine := mkM { m_guards : list ctx; m_base : ctx; m_taken : list bindings }.
Definition top (m : machine) : ctx := match m_guards m with g :: _ => g | [] => m_base m end.
Definition set_top (m : machine) (x : ctx) : machine :=
  match m_guards m with
  | _ :: r => mkM (x :: r) (m_base m) (m_taken m)
  | [] => mkM [] x (m_taken m)
  end.

Inductive op :=
| OBind (n : vname) (v : V) (* env.rs:333-336, 424-427 *)
| OMove (p : range * nat)   (* context.rs:31-33, cursor.rs:156-159 *)
| OProtect                  (* context.rs:114-124, 216-224, env.rs:293-306, 378-391, cursor.rs:327-330 *)
| OSave                     (* context.rs:102-105, env.rs:370-376, cursor.rs:333-336 *)
| ODrop                     (* a guard going out of scope *)
| OTake                     (* env.rs:430-432 *)
| OClear                    (* env.rs:434-439 *)
| OMerge (k : nat)          (* context.rs:107-109, env.rs:393-395: the k-th of the bindings taken *)
| OForget (k : nat)         (* the k latest bindings taken go out of scope (dynamic.rs:128, 333) *)
| OEnter (s e : bound).     (* context.rs:205-213 *)

(** [None]: not a program the borrow checker accepts; [Some Panic]: an abort. *)
Definition step (scoped : bool) (o : op) (m : machine) : option (res machine) :=
  match o with
  | OBind n v => Some (Val (set_top m (mkCtx (b_insert (x_env (top m)) n v) (x_cur (top m)))))
  | OMove p => Some (Val (set_top m (mkCtx (x_env (top m)) (move_to (x_cur (top m)) p))))
  | OProtect => Some (Val (mkM (top m :: m_guards m) (m_base m) (m_taken m)))
  | OSave =>
      match m_guards m with
      | [] => None
      | g :: r =>
          let below := mkM r (m_base m) (m_taken m) in
          let p := top below in
          Some (Val (set_top below
            (mkCtx (b_merge (x_env p) (x_env g))
                   (mkCursor (c_buf (x_cur p)) (c_block (x_cur g)) (c_eol (x_cur g)) (c_crlf (x_cur p))))))
      end
  | ODrop => match m_guards m with [] => None | _ :: r => Some (Val (mkM r (m_base m) (m_taken m))) end
  | OTake =>
      match m_guards m with
      | [] => None
      | g :: r =>
          let p := top (mkM r (m_base m) (m_taken m)) in
          Some (Val (mkM (mkCtx (x_env p) (x_cur g) :: r) (m_base m) (x_env g :: m_taken m)))
      end
  | OClear =>
      match m_guards m with
      | [] => None
      | g :: r => Some (Val (if scoped then mkM (mkCtx (b_clear (x_env g)) (x_cur g) :: r) (m_base m) (m_taken m) else m))
      end
  | OMerge k =>
      match m_guards m, nth_error (m_taken m) k with
      | g :: r, Some b => Some (Val (mkM (mkCtx (b_merge (x_env g) b) (x_cur g) :: r) (m_base m) (m_taken m)))
      | _, _ => None
      end
  | OForget k => Some (Val (mkM (m_guards m) (m_base m) (skipn k (m_taken m))))
  | OEnter s e =>
      match m_guards m with
      | [] => Some (do c <- set_bounds (x_cur (m_base m)) s e;
                    Val (mkM [] (mkCtx (if scoped then b_clear (x_env (m_base m)) else x_env (m_base m)) c) (m_taken m)))
      | _ => None
      end
  end.
Fixpoint run (scoped : bool) (l : list op) (m : machine) : option (res machine) :=
  match l with
  | [] => Some (Val m)
  | o :: r =>
      match step scoped o m with
      | None => None
      | Some (Val m') => run scoped r m'
      | Some Err => Some Err
      | Some Panic => Some Panic
      end
  end.
(** context.rs:188-203 *)
Definition start (defs : list (vname * V)) (c : cursor) : machine := mkM [] (mkCtx (env_from_config defs) c) [].
End Env.
Arguments bindings : clear implicits.
Arguments ctx : clear implicits.
Arguments op : clear implicits.
Arguments machine : clear implicits.
