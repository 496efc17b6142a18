(** Model of test discovery: lit/src/suite/registry/default.rs, lit/src/test/registry/default.rs,
    lit/src/suite/mod.rs, lit/src/suite/set.rs and core/src/fs/filesearch.rs.

    A path is the list of the names below the root directory; paths are canonical (the tree of the file
    system has no symbolic links, and does not change during discovery).  What the configuration files
    say, once parsed, and what a glob pattern matches are inputs.  The order of the entries of a
    directory is the one the system reports.  Suites are told apart by the directory of their
    configuration file; the order of the tests of different suites is not modelled.  All formats use the
    same registry (formats/sh/mod.rs:60, formats/executable.rs:28, format.rs:54-60). *)
From Coq Require Import String.
From Verif Require Import Base Text_Model Cursor_Model Map_Model Tree_Model Config_Model.
Notation length := List.length.
Open Scope string_scope. Open Scope list_scope.

Definition dpath := list str.
(** the file system *)
Inductive entry := EFile | EDir (l : list (str * entry)).
Fixpoint at_ (e : entry) (p : dpath) : option entry :=
  match p with
  | [] => Some e
  | x :: r => match e with
              | EFile => None
              | EDir l => match lookup x l with Some e' => at_ e' r | None => None end
              end
  end.
(** the path as a path of the index *)
Definition abs (p : dpath) : path := Root :: map Name p.
Fixpoint names (p : path) : dpath := match p with [] => [] | Name s :: r => s :: names r | _ :: r => names r end.
Fixpoint dpath_eqb (a b : dpath) : bool :=
  match a, b with [], [] => true | x :: a', y :: b' => str_eqb x y && dpath_eqb a' b' | _, _ => false end.
(** [Path::strip_prefix], [Path::starts_with] *)
Fixpoint dstrip (pre p : dpath) : option dpath :=
  match pre, p with
  | [], _ => Some p
  | x :: pre', y :: p' => if str_eqb x y then dstrip pre' p' else None
  | _ :: _, [] => None
  end.
Definition starts_with (p pre : dpath) : bool := match dstrip pre p with Some _ => true | None => false end.
(** [Ord for Path], for the sets of search paths *)
Fixpoint dpath_cmp (a b : dpath) : comparison :=
  match a, b with
  | [], [] => Eq | [], _ :: _ => Lt | _ :: _, [] => Gt
  | x :: a', y :: b' => match str_cmp x y with Eq => dpath_cmp a' b' | c => c end
  end.
(** [BTreeSet::insert] *)
Fixpoint set_insert (x : dpath) (l : list dpath) : list dpath :=
  match l with
  | [] => [x]
  | y :: r => match dpath_cmp x y with Lt => x :: l | Eq => l | Gt => y :: set_insert x r end
  end.
(** [Path::ancestors], from the path itself to the root *)
Definition ancestors (p : dpath) : list dpath := map (fun n => firstn n p) (rev (seq 0 (S (length p)))).

Definition SUITE : str := of_string "lit.suite.toml".
Definition LOCAL : str := of_string "lit.local.toml".

(** suite/mod.rs:26-67: what a [lit.suite.toml] says; [sf_source] is the canonical source directory if
    one is given (suite/mod.rs:135-173) *)
Record suite_file := mkFile { sf_source : option dpath; sf_config : config }.
(** the circumstances of a run *)
Record world := mkWorld {
  w_root : entry;
  w_cwd : dpath;
  w_suite : dpath -> option suite_file;   (** by directory; nothing: it cannot be read or is refused *)
  w_local : dpath -> option config;       (** by file *)
  w_glob : str -> dpath -> bool;
  w_defaults : dpath -> config;           (** suite/mod.rs:224-227, by suite *)
  w_local_defaults : dpath -> dpath -> config -> config }.  (** default.rs:444-445, by suite and directory *)
(** a loaded suite; [su_arc] tells apart the objects made by loading a configuration twice *)
Record suite := mkSuite { su_arc : nat; su_dir : dpath; su_source : dpath; su_config : config }.
(** test/mod.rs:22-60 *)
Record test := mkTest { te_suite : dpath; te_rel : dpath; te_abs : dpath; te_config : config }.
Definition new_test (su : suite) (rel : dpath) (c : config) : test := mkTest (su_dir su) rel (su_source su ++ rel) c.

(** default.rs:17-28; [r_search] are the search paths of each suite object *)
Record registry := mkReg {
  r_next : nat;
  r_suites : list (dpath * suite);
  r_tests : list (dpath * list test);
  r_cache : ptree dpath;
  r_local : ptree config;
  r_search : nat -> list dpath }.
Definition empty_registry : registry := mkReg 0 [] [] new_tree new_tree (fun _ => []).

Fixpoint dget {A} (k : dpath) (m : list (dpath * A)) : option A :=
  match m with [] => None | (k', v) :: r => if dpath_eqb k' k then Some v else dget k r end.
Fixpoint dput {A} (k : dpath) (v : A) (m : list (dpath * A)) : list (dpath * A) :=
  match m with [] => [(k, v)] | (k', v') :: r => if dpath_eqb k' k then (k', v) :: r else (k', v') :: dput k v r end.
Definition set_tests (st : registry) (t : list (dpath * list test)) : registry :=
  mkReg (r_next st) (r_suites st) t (r_cache st) (r_local st) (r_search st).
Definition set_search (st : registry) (a : nat) (l : list dpath) : registry :=
  mkReg (r_next st) (r_suites st) (r_tests st) (r_cache st) (r_local st) (fun b => if Nat.eqb b a then l else r_search st b).
Definition set_local (st : registry) (t : ptree config) : registry :=
  mkReg (r_next st) (r_suites st) (r_tests st) (r_cache st) t (r_search st).
(** path_tree.rs:129-135 *)
Definition insert_or_panic {V} (t : ptree V) (p : dpath) (ty : ptype) (v : V) : res (ptree V) :=
  match try_insert t (abs p) ty v with (t', None) => Val t' | _ => Panic end.
(** path_tree.rs:159-179, an index panic being possible in principle *)
Definition cache_get {V} (t : ptree V) (p : dpath) : res (option V) :=
  match get t (abs p) with Some o => Val o | None => Panic end.
Definition cache_nearest {V} (t : ptree V) (p : dpath) : res (option (dpath * V)) :=
  match nearest_ancestor t (abs p) with
  | Some (Some (q, v)) => Val (Some (names q, v))
  | Some None => Val None
  | None => Panic
  end.

Section Disc.
Context (w : world).
Definition is_dir (p : dpath) : bool := match at_ (w_root w) p with Some (EDir _) => true | _ => false end.
Definition is_file (p : dpath) : bool := match at_ (w_root w) p with Some EFile => true | _ => false end.
Definition path_type (p : dpath) : ptype := if is_dir p then Dir else if is_file p then File else Unknown.
(** filesearch.rs:9-82 with a search for one file name, not recursive: a file of that name in the
    directory, or the path itself if it is such a file.  [Err]: the path does not exist. *)
Definition search_name (p : dpath) (name : str) : res (option dpath) :=
  match at_ (w_root w) p with
  | Some (EDir l) => Val (match lookup name l with Some EFile => Some (p ++ [name]) | _ => None end)
  | Some EFile => Val (if str_eqb (last p []) name then Some p else None)
  | None => Err
  end.

(** test/registry/default.rs:152-175 *)
Definition hidden (p : dpath) : bool := match last p [] with c :: _ => N.eqb c 46 | [] => false end.
Definition is_test (p : dpath) (su : suite) (c : config) : bool :=
  if hidden p || negb (is_file p) then false
  else
    let rel := match dstrip (su_source su) p with Some r => r | None => p end in
    let is_match := existsb (fun g => w_glob w g rel) (cf_patterns c) in
    if is_match && negb (Config_Model.empty (cf_exclude c))
    then negb (existsb (fun g => w_glob w g rel) (cf_exclude c))
    else is_match.
(** test/registry/default.rs:97-120, with walkdir's traversal: the files accepted and the directories
    of nested suites *)
Fixpoint walk (search : dpath) (su : suite) (c : config) (p : dpath) (e : entry) : list dpath * list dpath :=
  match e with
  | EFile => if is_test p su c then ([p], []) else ([], [])
  | EDir l =>
      if dpath_eqb p search || dpath_eqb p (su_source su) || match lookup SUITE l with Some _ => false | None => true end
      then (fix go l := match l with
              | [] => ([], [])
              | (x, e') :: r => let '(a, b) := walk search su c (p ++ [x]) e' in let '(a', b') := go r in (a ++ a', b ++ b')
              end) l
      else ([], [p])
  end.

(** suite/registry/default.rs:324-334 and suite/mod.rs:103-231, suite/set.rs:39-56 *)
Definition load_without_cache (d : dpath) (st : registry) : res (suite * registry) :=
  match w_suite w d with
  | None => Err
  | Some sf =>
      let source := match sf_source sf with Some s => s | None => d end in
      if negb (is_dir source) then Err
      else
        let su := mkSuite (r_next st) d source (inherit (sf_config sf) (w_defaults w d)) in
        let suites := match dget d (r_suites st) with Some _ => r_suites st | None => r_suites st ++ [(d, su)] end in
        do c1 <- insert_or_panic (r_cache st) (d ++ [SUITE]) (path_type (d ++ [SUITE])) d;
        do c2 <- insert_or_panic c1 source (path_type source) d;
        Val (su, mkReg (S (r_next st)) suites (dput d [] (r_tests st)) c2 (r_local st) (r_search st))
  end.
(** suite/registry/default.rs:177-180 *)
Definition get_suite (st : registry) (d : dpath) : res suite := unwrap (dget d (r_suites st)).
(** suite/registry/default.rs:296-321; [dir] is where the search began *)
Fixpoint search_ancestors (dir : dpath) (l : list dpath) (st : registry) : res (option suite * registry) :=
  match l with
  | [] => Val (None, st)
  | a :: r =>
      do found <- search_name a SUITE;
      match found with
      | Some _ =>
          do (su, st') <- load_without_cache a st;
          if starts_with dir (su_source su) then Val (Some su, st')
          else if dpath_eqb a (w_cwd w) then Val (None, st') else search_ancestors dir r st'
      | None => if dpath_eqb a (w_cwd w) then Val (None, st) else search_ancestors dir r st
      end
  end.
(** suite/registry/default.rs:271-322 *)
Definition find_containing (p : dpath) (st : registry) : res (option suite * registry) :=
  do near <- cache_nearest (r_cache st) p;
  match near with
  | Some (_, d) => do su <- get_suite st d; Val (Some su, st)
  | None => let dir := if is_dir p then p else removelast p in search_ancestors dir (ancestors dir) st
  end.
(** suite/registry/default.rs:238-269 *)
Definition find_nearest_suite (p : dpath) (st : registry) : res (option suite * registry) :=
  if is_dir p then
    do c <- cache_get (r_cache st) p;
    match c with
    | Some d => do su <- get_suite st d; Val (Some su, st)
    | None =>
        do found <- search_name p SUITE;
        match found with
        | Some _ => do (su, st') <- load_without_cache p st; Val (Some su, st')
        | None => find_containing p st
        end
    end
  else find_containing p st.

(** suite/registry/default.rs:433-450: descend along [rest] *)
Fixpoint descend (su : suite) (p : dpath) (rest : dpath) (c : config) (cache : ptree config) : res (config * dpath * ptree config) :=
  match rest with
  | [] => Val (c, p, cache)
  | x :: r =>
      let p' := p ++ [x] in
      do found <- search_name p' LOCAL;
      match found with
      | Some f =>
          match w_local w f with
          | None => Err
          | Some cfg =>
              let c' := w_local_defaults w (su_dir su) p' (inherit cfg c) in
              do cache' <- insert_or_panic cache p' (path_type p') c';
              descend su p' r c' cache'
          end
      | None => descend su p' r c cache
      end
  end.
(** suite/registry/default.rs:400-455 *)
Definition get_local_config (su : suite) (rel : dpath) (cache : ptree config) : res (config * ptree config) :=
  let p := su_source su ++ rel in
  let p := if is_dir p then p else removelast p in
  do hit <- cache_get cache p;
  match hit with
  | Some c => Val (c, cache)
  | None =>
      do near <- cache_nearest cache p;
      do (c, root) <- match near with
                      | Some (q, c) => do r <- unwrap (dstrip (su_source su) q); Val (c, r)
                      | None => Val (su_config su, rel)
                      end;
      do (c', p', cache') <- descend su (su_source su) root c cache;
      do cache'' <- insert_or_panic cache' p' (path_type p') c';
      Val (c', cache'')
  end.

Definition append_tests (d : dpath) (l : list test) (st : registry) : res registry :=
  do old <- unwrap (dget d (r_tests st)); Val (set_tests st (dput d (old ++ l) (r_tests st))).

(** The recursion between loading a path and visiting the nested suites found on the way; [fuel] bounds
    its depth. *)
Section Rec.
Context (load : dpath -> registry -> res registry).
Fixpoint load_all (l : list dpath) (st : registry) : res registry :=
  match l with [] => Val st | p :: r => do st' <- load p st; load_all r st' end.
(** test/registry/default.rs:81-150 *)
Definition get_tests (search : dpath) (su : suite) (c : config) (st : registry) : res (list test * registry) :=
  match at_ (w_root w) search with
  | None => Err
  | Some e =>
      let '(files, nested) := walk search su c search e in
      let fix relative l := match l with
        | [] => Val []
        | f :: r => do x <- unwrap (dstrip search f); do y <- relative r; Val (new_test su x c :: y)
        end in
      do tests <- relative files;
      do st' <- load_all (filter (fun d => negb (dpath_eqb d search || dpath_eqb d (su_source su))) nested) st;
      Val (tests, st')
  end.
(** test/registry/default.rs:44-78 *)
Definition find_tests (rel : dpath) (su : suite) (c : config) (st : registry) : res (list test * registry) :=
  let p := su_source su ++ rel in
  if is_dir p then get_tests p su c st
  else Val (if is_test p su c then [new_test su rel c] else [], st).
(** suite/registry/default.rs:75-93 *)
Fixpoint search_paths (su : suite) (l : list dpath) (st : registry) : res registry :=
  match l with
  | [] => Val st
  | rel :: r =>
      do (c, cache) <- get_local_config su rel (r_local st);
      do (found, st1) <- find_tests rel su c (set_local st cache);
      do st2 <- append_tests (su_dir su) found st1;
      search_paths su r st2
  end.
(** suite/registry/default.rs:31-101 *)
Definition load_tests (su : suite) (st : registry) : res registry :=
  do _ <- unwrap (dget (su_dir su) (r_tests st));
  let st := set_tests st (dput (su_dir su) [] (r_tests st)) in
  let sp := r_search st (su_arc su) in
  let st := set_search st (su_arc su) [] in
  do st' <- match sp with
            | [] => do (found, st1) <- get_tests (su_source su) su (su_config su) st; append_tests (su_dir su) found st1
            | _ => search_paths su sp st
            end;
  Val (set_search st' (su_arc su) sp).
End Rec.
(** suite/registry/default.rs:124-159 *)
Fixpoint load_from_path (fuel : nat) (input : dpath) (st : registry) : res registry :=
  match fuel with
  | 0 => Err
  | S f =>
      match at_ (w_root w) input with
      | None => Err
      | Some _ =>
          if negb (starts_with input (w_cwd w)) then Err
          else
            do (found, st1) <- find_nearest_suite input st;
            match found with
            | None => Val st1
            | Some su =>
                do rel <- unwrap (dstrip (su_source su) input);
                let st2 := match rel with [] => st1 | _ => set_search st1 (su_arc su) (set_insert rel (r_search st1 (su_arc su))) end in
                load_tests (load_from_path f) su st2
            end
      end
  end.
(** suite/registry/default.rs:105-122 *)
Definition load (fuel : nat) (inputs : list dpath) : res registry := load_all (load_from_path fuel) inputs empty_registry.
(** suite/registry/default.rs:189-192 *)
Definition tests_of (st : registry) : list test := flat_map snd (r_tests st).
End Disc.
