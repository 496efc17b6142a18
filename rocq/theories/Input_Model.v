(** Model of core/src/input.rs: reading a file or the standard input as text, and looking for files under a directory.  What the
    system answers (whether a path can be opened, which bytes reading gives and whether it fails after them, what a directory holds)
    is an input.  Texts of files are bytes. *)
From Coq Require Import String.
From Verif Require Import Base Text_Model Cursor_Model Source_Model Mgr_Model.
Open Scope list_scope.
Open Scope nat_scope.
Definition CR : N := 13.

(** std::str::from_utf8 (used by [read_to_string] and [lines], input.rs:146, 150): the width table and the ranges of the bytes *)
Definition within (a b x : N) : bool := (a <=? x)%N && (x <=? b)%N.
Definition continues (x : N) : bool := within 128 191 x.
Definition second_of_3 (x y : N) : bool :=
  (N.eqb x 224 && within 160 191 y) || (within 225 236 x && within 128 191 y) || (N.eqb x 237 && within 128 159 y) || (within 238 239 x && within 128 191 y).
Definition second_of_4 (x y : N) : bool :=
  (N.eqb x 240 && within 144 191 y) || (within 241 243 x && within 128 191 y) || (N.eqb x 244 && within 128 143 y).
Fixpoint from_utf8 (b : bytes) : bool :=
  match b with
  | [] => true
  | x :: r =>
    if (x <? 128)%N then from_utf8 r
    else if within 194 223 x then match r with y :: r => continues y && from_utf8 r | _ => false end
    else if within 224 239 x then match r with y :: z :: r => second_of_3 x y && continues z && from_utf8 r | _ => false end
    else if within 240 244 x then match r with y :: z :: t :: r => second_of_4 x y && continues z && continues t && from_utf8 r | _ => false end
    else false
  end.

(** What reading an opened file gives: all its bytes, or a failure after some of them *)
Record stream := mkStream { st_bytes : bytes; st_fails : bool }.
(** The system: the paths that can be opened after [canonicalize], and the standard input *)
Record system := mkSystem { sys_open : path -> option stream; sys_stdin : stream }.

(** input.rs:47-53 *)
Definition input_name (p : path) : fname := match p with Utf8 s => if str_eqb s "-"%string then FStdin else from_path p | Raw _ => from_path p end.
(** input.rs:123-138.  Whether a path is absolute makes no difference to what [File::open] opens: the canonical form of a path that
    can be opened names the same file. *)
Definition input_open (y : system) (p : path) : res stream :=
  match p with
  | Utf8 s => if str_eqb s "-"%string then Val (sys_stdin y) else match sys_open y p with Some t => Val t | None => Err end
  | Raw _ => match sys_open y p with Some t => Val t | None => Err end
  end.

(** [BufRead::read_line] over and over (input.rs:150): a line with its line feed, the last one may have none *)
Fixpoint raw_lines (b : bytes) : list bytes :=
  match b with
  | [] => []
  | x :: r => if N.eqb x LF then [x] :: raw_lines r else match raw_lines r with [] => [[x]] | l :: ls => (x :: l) :: ls end
  end.
Definition ends_with (x : N) (b : bytes) : bool := match rev b with y :: _ => N.eqb x y | [] => false end.
(** [Lines::next]: a final line feed is dropped, and then a final carriage return *)
Definition chomp (l : bytes) : bytes :=
  if ends_with LF l then let l := removelast l in if ends_with CR l then removelast l else l else l.
(** [Lines::next], [read_line]: a line that is not UTF-8 is an error.  Reading may fail in the last line. *)
Fixpoint next_lines (ls : list bytes) (fails : bool) : list (res bytes) :=
  match ls with
  | [] => if fails then [Err] else []
  | [l] => if ends_with LF l then (if from_utf8 l then Val (chomp l) else Err) :: (if fails then [Err] else [])
           else if fails then [Err] else [if from_utf8 l then Val (chomp l) else Err]
  | l :: ls => (if from_utf8 l then Val (chomp l) else Err) :: next_lines ls fails
  end.
(** input.rs:149-166 *)
Fixpoint join_lines (i : nat) (content : bytes) (ls : list (res bytes)) : res bytes :=
  match ls with
  | [] => Val content
  | l :: ls => do line <- l; join_lines (S i) ((if 0 <? i then content ++ [LF] else content) ++ line) ls
  end.
(** input.rs:140-168 *)
Definition read_to_string (y : system) (p : path) (strict : bool) : res bytes :=
  do buf <- input_open y p;
  if strict then (if st_fails buf then Err else if from_utf8 (st_bytes buf) then Val (st_bytes buf) else Err)
  else join_lines 0 [] (next_lines (raw_lines (st_bytes buf)) (st_fails buf)).

(** * Looking for files: input.rs:66-121 *)
(** What is under a path: a file with the extension of its name, or a directory *)
Inductive node := NFile (p : path) (ext : option str) | NDir (p : path) (below : list node).
(** walkdir: a directory comes before what it holds; [filter_entry] (input.rs:71, 110) keeps the directories (input.rs:171-189) *)
Fixpoint walk (keep : path -> option str -> bool) (n : node) : list node :=
  match n with
  | NFile p e => if keep p e then [n] else []
  | NDir p below => n :: (fix each l := match l with [] => [] | m :: l => walk keep m ++ each l end) below
  end.
(** input.rs:66-82 and 105-121, which differ in the files they keep; [None]: not done after [fuel] nested calls *)
Fixpoint listing (fuel : nat) (keep : path -> option str -> bool) (n : node) : option (list path) :=
  match fuel with
  | 0 => None
  | S fuel =>
    (fix each l := match l with
       | [] => Some []
       | NFile p _ :: l => option_map (cons p) (each l)
       | NDir p below :: l => match listing fuel keep (NDir p below) with Some c => option_map (app c) (each l) | None => None end
       end) (walk keep n)
  end.
(** input.rs:171-181 *)
Definition of_type (types : list str) (p : path) (e : option str) : bool := match e with Some x => existsb (str_eqb x) types | None => false end.
Definition get_file_types (fuel : nat) (types : list str) (n : node) : option (list path) := listing fuel (of_type types) n.
