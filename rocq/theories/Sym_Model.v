(** Model of the symbol table (core/src/symbol/mod.rs) and of the numbering of the symbols that are known from the start
    (core/build.rs, core/src/symbol/symbols.toml).  Texts are lists of code points.  The lock makes every call atomic: a
    history is a list of calls, in the order in which they got the lock. *)
From Coq Require Import String.
From Verif Require Import Base Text_Model Cursor_Model Map_Model.
Open Scope list_scope.
Open Scope nat_scope.

(** symbol/mod.rs:56-59, 160-169: the largest number; a panic beyond *)
Definition max_index : N := 4294967040.
Definition symbol_new (n : N) : res N := if (n <=? max_index)%N then Val n else Panic.
(** [len as u32] *)
Definition as_u32 (n : nat) : N := (N.of_nat n mod 4294967296)%N.
(** symbol/mod.rs:194-197: [BTreeMap] and [Vec] *)
Record interner := mkInterner { n_names : list (str * N); n_strings : list str }.
(** symbol/mod.rs:199-211: the table made from the symbols known from the start *)
Definition interner_default (syms : list (N * str)) : interner :=
  fold_left (fun i x => mkInterner (bt_insert (snd x) (fst x) (n_names i)) (n_strings i ++ [snd x])) syms (mkInterner [] []).
(** symbol/mod.rs:214-226; a panic leaves the table as it is, and parking_lot's lock is not poisoned *)
Definition intern (i : interner) (s : str) : res (interner * N) :=
  match lookup s (n_names i) with
  | Some n => Val (i, n)
  | None =>
      do n <- symbol_new (as_u32 (length (n_strings i)));
      Val (mkInterner (bt_insert s n (n_names i)) (n_strings i ++ [s]), n)
  end.
(** symbol/mod.rs:228-236: for texts that live as long as the program *)
Definition insert (i : interner) (s : str) : res (interner * N) :=
  match lookup s (n_names i) with
  | Some n => Val (i, n)
  | None =>
      do n <- symbol_new (as_u32 (length (n_strings i)));
      Val (mkInterner (bt_insert s n (n_names i)) (n_strings i ++ [s]), n)
  end.
(** symbol/mod.rs:238-240 *)
Definition get (i : interner) (n : N) : res str :=
  match nth_error (n_strings i) (N.to_nat n) with Some s => Val s | None => Panic end.

(** What a program may do with symbols: make one from a text (symbol/mod.rs:62-65, 128-156; [OStatic]: from a static text), read it
    (67-73), compare two (106-110). *)
Inductive op := OIntern (s : str) | OStatic (s : str) | ORead (n : N) | OCompare (n m : N).
Inductive answer := ASymbol (n : N) | AText (s : str) | AOrder (c : comparison) | APanic.
Definition call (i : interner) (o : op) : interner * answer :=
  match o with
  | OIntern s => match intern i s with Val (i', n) => (i', ASymbol n) | _ => (i, APanic) end
  | OStatic s => match insert i s with Val (i', n) => (i', ASymbol n) | _ => (i, APanic) end
  | ORead n => match get i n with Val s => (i, AText s) | _ => (i, APanic) end
  | OCompare n m => match get i n, get i m with Val s, Val t => (i, AOrder (str_cmp s t)) | _, _ => (i, APanic) end
  end.
(** the answers of a history *)
Fixpoint answers (i : interner) (os : list op) : list answer :=
  match os with [] => [] | o :: r => snd (call i o) :: answers (fst (call i o)) r end.

(** * The symbols known from the start *)
(** build.rs:20-26, 54-83: a declaration; [y_id]: the number it asks for.  (Its name in the program is left out.) *)
Record decl := mkDecl { y_id : option N; y_value : str }.
(** build.rs:38-53 *)
Definition decl_cmp (a b : decl) : comparison :=
  if str_eqb (y_value a) (y_value b) then Eq
  else match y_id a, y_id b with
       | None, None => str_cmp (y_value a) (y_value b)
       | Some _, None => Lt
       | Some x, Some y => N.compare x y
       | None, Some _ => Gt
       end.
(** build.rs:96-104: a [BTreeSet], that must not have the symbol already.  (Modelled as a sorted list that is searched from its
    start; the order of build.rs is one only if the values differ.) *)
Fixpoint set_insert (d : decl) (l : list decl) : res (list decl) :=
  match l with
  | [] => Val [d]
  | x :: r => match decl_cmp d x with
              | Lt => Val (d :: l)
              | Eq => Panic
              | Gt => do r' <- set_insert d r; Val (x :: r')
              end
  end.
Fixpoint section_of (ds : list decl) (acc : list decl) : res (list decl) :=
  match ds with [] => Val acc | d :: r => do acc' <- set_insert d acc; section_of r acc' end.
(** build.rs:131-143: no number is asked for twice *)
Definition declared (l : list decl) : list N := flat_map (fun d => match y_id d with Some n => [n] | None => [] end) l.
Fixpoint no_repeats (l : list N) : bool := match l with [] => true | x :: r => negb (existsb (N.eqb x) r) && no_repeats r end.
(** build.rs:149-151: [while reserved.contains(&next_id)]; at most as many rounds as there are reserved numbers *)
Fixpoint skip (fuel : nat) (reserved : list N) (n : N) : N :=
  match fuel with
  | 0 => n
  | S k => if existsb (N.eqb n) reserved then skip k reserved (n + 1)%N else n
  end.
(** build.rs:145-159 *)
Fixpoint assign (reserved : list N) (next : N) (l : list decl) : list (N * str) :=
  match l with
  | [] => []
  | d :: r =>
      let n := skip (length reserved) reserved next in
      match y_id d with
      | None => (n, y_value d) :: assign reserved (n + 1)%N r
      | Some k => (k, y_value d) :: assign reserved n r
      end
  end.
(** build.rs:119-159: the sections in the order of the file ([preserve_order]) *)
Fixpoint sections_of (secs : list (list decl)) : res (list decl) :=
  match secs with [] => Val [] | s :: r => do s' <- section_of s []; do r' <- sections_of r; Val (s' ++ r') end.
Definition known_symbols (secs : list (list decl)) : res (list (N * str)) :=
  do l <- sections_of secs;
  if no_repeats (declared l) then Val (assign (declared l) 0 l) else Panic.
(** core/src/symbol/symbols.toml *)
Definition symbols_toml : list (list decl) :=
  [[mkDecl (Some 0%N) "false"%string; mkDecl (Some 1%N) "true"%string; mkDecl None ""%string];
   [mkDecl None "LINE"%string; mkDecl None "add"%string; mkDecl None "sub"%string; mkDecl None "mul"%string; mkDecl None "div"%string; mkDecl None "min"%string; mkDecl None "max"%string];
   [mkDecl None "CHECK"%string; mkDecl None "COM"%string; mkDecl None "RUN"%string]].
