(** Model of the source manager (core/src/diagnostics/source_manager.rs) with its shared files: [Arc<SourceFile>] is an address in a
    heap, and [Arc::make_mut] writes in place if its pointer is the only one.  The lock makes every call atomic (a panic does not
    poison it): a history is a list of calls, by any threads, in the order in which they got the lock.  Weak pointers are not used.
    The language of a file is left out.  Texts of files are bytes, names are code points. *)
From Coq Require Import String.
From Verif Require Import Base Text_Model Cursor_Model Map_Model Source_Model.
Open Scope list_scope.
Open Scope nat_scope.

(** filename.rs:5-10; a path is text, or bytes that are not UTF-8 *)
Inductive path := Utf8 (s : str) | Raw (b : bytes).
Inductive fname := FStdin | FPath (p : path) | FVirtual (s : str).
(** filename.rs:17-23 *)
Definition as_str (n : fname) : str :=
  match n with FStdin => "stdin"%string | FPath (Utf8 s) => s | FPath (Raw _) => "<invalid>"%string | FVirtual s => s end.
(** filename.rs:46-55, 71-79 *)
Definition from_path (p : path) : fname := match p with Utf8 s => if str_eqb s "-"%string then FStdin else FPath p | Raw _ => FPath p end.
Definition from_text (s : str) : fname := if str_eqb s "-"%string then FStdin else FVirtual s.

(** * Identifiers: source_manager.rs:9-22, 37-93 *)
Definition group_mask : N := 4278190080.
Definition index_mask : N := 16777215.
Definition g_file : N := 0.
Definition g_argument : N := 4261412864.
Definition g_unknown : N := 4278190080.
Definition id_file (n : N) : res N := if (n <=? index_mask)%N then Val (N.lor n g_file) else Panic.
Definition id_argument (n : N) : res N := if (n <=? index_mask)%N then Val (N.lor n g_argument) else Panic.
Definition to_index (id : N) : nat := N.to_nat (N.land id index_mask).
Definition group (id : N) : N := N.land id group_mask.
Definition is_cli_argument (id : N) : bool := N.eqb (group id) g_argument.

(** * Files and managers *)
(** source_file.rs:57-62, 428-440 *)
Record file := mkFile { f_id : N; f_name : fname; f_src : source }.
Definition addr := nat.
Definition heap := list file.
(** source_manager.rs:367-372; the map is ordered by [as_str] (filename.rs:34-44), and an insertion of an equal name keeps the key *)
Record manager := mkManager { m_files : list addr; m_args : list addr; m_uris : list (str * N) }.
(** A pointer that is held: to a file and, if it is a [SourceFileRef] (source_file.rs:254-274), a span of it *)
Record handle := mkHandle { h_addr : addr; h_start : nat; h_end : nat }.
(** All managers and all the pointers that calls have returned; [None]: dropped *)
Record world := mkWorld { w_heap : heap; w_mgrs : list (option manager); w_handles : list (option handle) }.

(** the strong count of a pointer *)
Definition count (a : addr) (l : list addr) : nat := List.count_occ Nat.eq_dec l a.
Definition mgr_addrs (m : option manager) : list addr := match m with Some m => m_files m ++ m_args m | None => [] end.
Definition handle_addrs (h : option handle) : list addr := match h with Some h => [h_addr h] | None => [] end.
Definition pointers (w : world) : list addr := flat_map mgr_addrs (w_mgrs w) ++ flat_map handle_addrs (w_handles w).
Definition strong_count (w : world) (a : addr) : nat := count a (pointers w).

Fixpoint set_nth {A} (l : list A) (k : nat) (x : A) : list A :=
  match l, k with [], _ => [] | _ :: r, 0 => x :: r | y :: r, S k => y :: set_nth r k x end.
Definition set_mgr (w : world) (m : nat) (x : manager) : world := mkWorld (w_heap w) (set_nth (w_mgrs w) m (Some x)) (w_handles w).

(** source_manager.rs:424-436 *)
Definition mgr_get (x : manager) (id : N) : option addr := if is_cli_argument id then nth_error (m_args x) (to_index id) else nth_error (m_files x) (to_index id).
(** source_manager.rs:442-444 *)
Definition mgr_find (x : manager) (n : fname) : option N := lookup (as_str n) (m_uris x).
(** source_manager.rs:438-440 *)
Definition mgr_by_uri (x : manager) (n : fname) : option addr := match mgr_find x n with Some id => mgr_get x id | None => None end.
(** source_manager.rs:375-422: [Val]: the heap, the manager and the pointer; the indexing of 384-388 panics if there is no such file *)
Definition file_text (h : heap) (a : addr) : bytes := match nth_error h a with Some f => s_text (f_src f) | None => [] end.
Definition mgr_insert (h : heap) (x : manager) (grp : N) (uri : fname) (name : fname) (src : source) : res (heap * manager * addr) :=
  do same <- match lookup (as_str uri) (m_uris x) with
             | Some id => match mgr_get x id with
                          | Some a => Val (if str_eqb (file_text h a) (s_text src) then Some a else None)
                          | None => Panic
                          end
             | None => Val None
             end;
  match same with
  | Some a => Val (h, x, a)
  | None =>
      if N.eqb grp g_file then
        do id <- id_file (N.of_nat (length (m_files x)));
        Val (h ++ [mkFile id name src], mkManager (m_files x ++ [length h]) (m_args x) (bt_insert (as_str uri) id (m_uris x)), length h)
      else if N.eqb grp g_argument then
        do id <- id_argument (N.of_nat (length (m_args x)));
        Val (h ++ [mkFile id name src], mkManager (m_files x) (m_args x ++ [length h]) (bt_insert (as_str uri) id (m_uris x)), length h)
      else Panic
  end.
(** [Arc::make_mut] of the file number [k] of a manager: the world after it, and the address that may be written *)
Definition slots (x : manager) (arg : bool) : list addr := if arg then m_args x else m_files x.
Definition set_slots (x : manager) (arg : bool) (l : list addr) : manager :=
  if arg then mkManager (m_files x) l (m_uris x) else mkManager l (m_args x) (m_uris x).
Definition make_mut (w : world) (m : nat) (x : manager) (arg : bool) (k : nat) (a : addr) : world * addr :=
  if Nat.eqb (strong_count w a) 1 then (w, a)
  else match nth_error (w_heap w) a with
       | Some f => (mkWorld (w_heap w ++ [f]) (set_nth (w_mgrs w) m (Some (set_slots x arg (set_nth (slots x arg) k (length (w_heap w)))))) (w_handles w), length (w_heap w))
       | None => (w, a)
       end.
(** source_manager.rs:501-529: the world after an update of an existing file, and its outcome.  An error or a panic of
    [SourceContent::update] leaves the content as it was (its panics come before it is changed), but [make_mut] has been called. *)
Definition write (w : world) (m : nat) (x : manager) (arg : bool) (k : nat) (a : addr) (text : bytes) (range : option selection) (version : Z) : world * res (unit + update_error) :=
  let '(w', a') := make_mut w m x arg k a in
  match nth_error (w_heap w') a' with
  | None => (w', Panic)
  | Some f =>
      match update (f_src f) text range version with
      | Val (inl src) => (mkWorld (set_nth (w_heap w') a' (mkFile (f_id f) (f_name f) src)) (w_mgrs w') (w_handles w'), Val (inl tt))
      | Val (inr e) => (w', Val (inr e))
      | Err => (w', Err)
      | Panic => (w', Panic)
      end
  end.

(** * Calls *)
Inductive call :=
| CNew                                                                       (* source_manager.rs:347-348 *)
| CClone (m : nat)                                                           (* 350-365 *)
| CDropManager (m : nat)
| CLoad (m : nat) (name : fname) (text : bytes)                              (* 181-185, 491-499 *)
| CLoadArgument (m : nat) (name : str) (text : bytes)                        (* 172-179 *)
| CLoadRaw (m : nat) (grp : N) (uri name : fname) (text : bytes)             (* 186-192 with a new content *)
| CUpdate (m : nat) (id : N) (text : bytes) (range : option selection) (version : Z) (* 501-529 *)
| CGet (m : nat) (id : N)                                                    (* 531-534 *)
| CByUri (m : nat) (n : fname)                                               (* 536-539 *)
| CFind (m : nat) (n : fname)                                                (* 541-544 *)
| CSlice (m : nat) (id : N) (s e : nat)                                      (* 234-240 *)
| CSource (m : nat) (id : N)                                                 (* 226-230 *)
| CLocation (m : nat) (id : N) (s e : nat)                                   (* 479-482 *)
| CToSpan (m : nat) (n : fname) (s e : nat)                                  (* 464-477 *)
| CManages (m : nat) (h : nat)                                               (* 152-157 *)
| CCopyInto (m : nat) (h : nat)                                              (* 161-171 *)
| CLoadFile (m : nat) (p : path) (found : option bytes)                      (* 313-331; [found]: what reading the file gives *)
| CRead (h : nat)                                                            (* source_file.rs:145-178, 291-293: everything a pointer shows *)
| CCopy (h : nat)                                                            (* [Arc::clone] *)
| CDrop (h : nat).
(** What is seen of a file through a pointer: its identifier, its name, its content, and the text of the span *)
Inductive answer :=
| ADone
| AFile (h : nat) (id : N) (name : fname) (src : source) (text : option bytes)  (* [h]: the number of the pointer returned *)
| ANone
| AId (id : N)
| ALocation (name : fname) (s e : nat)
| ASpan (id : N) (s e : nat)
| ABool (b : bool)
| AInvalidId | AInvalidBounds | AInvalidUpdate (e : update_error) | AIoError
| APanic
| AMisuse.   (* no such manager or pointer: not a program *)

Definition shown (h : heap) (n : nat) (x : handle) : answer :=
  match nth_error h (h_addr x) with
  | Some f => AFile n (f_id f) (f_name f) (f_src f) (str_get (s_text (f_src f)) (h_start x) (h_end x))
  | None => APanic
  end.
(** a call returns a pointer *)
Definition give (w : world) (x : handle) : world * answer :=
  (mkWorld (w_heap w) (w_mgrs w) (w_handles w ++ [Some x]), shown (w_heap w) (length (w_handles w)) x).
Definition give_file (w : world) (a : addr) : world * answer := give w (mkHandle a 0 (length (file_text (w_heap w) a))).
Definition with_mgr (w : world) (m : nat) (f : manager -> world * answer) : world * answer :=
  match nth_error (w_mgrs w) m with Some (Some x) => f x | _ => (w, AMisuse) end.
Definition with_handle (w : world) (h : nat) (f : handle -> world * answer) : world * answer :=
  match nth_error (w_handles w) h with Some (Some x) => f x | _ => (w, AMisuse) end.
(** load_from_raw_parts, source_manager.rs:491-499 *)
Definition load_raw (w : world) (m : nat) (grp : N) (uri name : fname) (src : source) : world * answer :=
  with_mgr w m (fun x =>
    match mgr_insert (w_heap w) x grp uri name src with
    | Val (h, x', a) => give_file (mkWorld h (set_nth (w_mgrs w) m (Some x')) (w_handles w)) a
    | _ => (w, APanic)
    end).
Definition step (w : world) (c : call) : world * answer :=
  match c with
  | CNew => (mkWorld (w_heap w) (w_mgrs w ++ [Some (mkManager [] [] [])]) (w_handles w), ADone)
  | CClone m => with_mgr w m (fun x => (mkWorld (w_heap w) (w_mgrs w ++ [Some x]) (w_handles w), ADone))
  | CDropManager m => with_mgr w m (fun x => (mkWorld (w_heap w) (set_nth (w_mgrs w) m None) (w_handles w), ADone))
  | CLoad m name text => load_raw w m g_file name name (source_new text)
  | CLoadArgument m name text => load_raw w m g_argument (FVirtual name) (from_text name) (source_new text)
  | CLoadRaw m grp uri name text => load_raw w m grp uri name (source_new text)
  | CUpdate m id text range version =>
      with_mgr w m (fun x =>
        if N.eqb (group id) g_unknown then (w, AInvalidId)
        else
          let arg := N.eqb (group id) g_argument in
          match nth_error (slots x arg) (to_index id) with
          | None => (w, APanic)
          | Some a =>
              let '(w', r) := write w m x arg (to_index id) a text range version in
              (w', match r with Val (inl _) => ADone | Val (inr e) => AInvalidUpdate e | _ => APanic end)
          end)
  | CGet m id => with_mgr w m (fun x => match mgr_get x id with Some a => give_file w a | None => (w, AInvalidId) end)
  | CByUri m n => with_mgr w m (fun x => match mgr_by_uri x n with Some a => give_file w a | None => (w, ANone) end)
  | CFind m n => with_mgr w m (fun x => (w, match mgr_find x n with Some id => AId id | None => ANone end))
  | CSlice m id s e =>
      with_mgr w m (fun x =>
        match mgr_get x id with
        | None => (w, AInvalidId)
        | Some a =>
            if s <=? e then
              match str_get (file_text (w_heap w) a) s e with
              | None => (w, AInvalidBounds)
              | Some _ =>
                  let e' := Nat.min e (length (file_text (w_heap w) a)) in
                  if s <=? e' then give w (mkHandle a s e') else (w, APanic)
              end
            else (w, APanic)
        end)
  | CSource m id => with_mgr w m (fun x => match mgr_get x id with Some a => give_file w a | None => (w, AInvalidId) end)
  | CLocation m id s e =>
      with_mgr w m (fun x => (w, match mgr_get x id with
                                 | Some a => match nth_error (w_heap w) a with Some f => ALocation (f_name f) s e | None => APanic end
                                 | None => AInvalidId
                                 end))
  | CToSpan m n s e =>
      with_mgr w m (fun x => (w,
        match mgr_by_uri x n with
        | None => ANone
        | Some a =>
            match nth_error (w_heap w) a with
            | None => APanic
            | Some f => if (length (s_text (f_src f)) <=? s) || (length (s_text (f_src f)) <? e) then ANone
                        else if s <=? e then ASpan (f_id f) s e else APanic
            end
        end))
  | CManages m h =>
      with_mgr w m (fun x => with_handle w h (fun y => (w,
        match nth_error (w_heap w) (h_addr y) with
        | None => APanic
        | Some f => match mgr_get x (f_id f) with Some a => ABool (Nat.eqb a (h_addr y)) | None => ABool false end
        end)))
  | CCopyInto m h =>
      with_mgr w m (fun x => with_handle w h (fun y =>
        match nth_error (w_heap w) (h_addr y) with
        | None => (w, APanic)
        | Some f =>
            match mgr_get x (f_id f) with
            | Some a => if Nat.eqb a (h_addr y) then give_file w a else load_raw w m (group (f_id f)) (f_name f) (f_name f) (f_src f)
            | None => load_raw w m (group (f_id f)) (f_name f) (f_name f) (f_src f)
            end
        end))
  | CLoadFile m p found =>
      with_mgr w m (fun x =>
        match mgr_by_uri x (from_path p) with
        | Some a => give_file w a
        | None => match found with Some text => load_raw w m g_file (from_path p) (from_path p) (source_new text) | None => (w, AIoError) end
        end)
  | CRead h => with_handle w h (fun y => (w, shown (w_heap w) h y))
  | CCopy h => with_handle w h (fun y => give w y)
  | CDrop h => with_handle w h (fun y => (mkWorld (w_heap w) (w_mgrs w) (set_nth (w_handles w) h None), ADone))
  end.
(** the answers of a history, from nothing *)
Fixpoint run (w : world) (cs : list call) : list answer := match cs with [] => [] | c :: r => snd (step w c) :: run (fst (step w c)) r end.
Definition answers (cs : list call) : list answer := run (mkWorld [] [] []) cs.
