(** C85: what a program sees of source managers, as if every manager had its own copy of every document and every pointer were a copy
    of what it showed when it was returned: nothing is shared, and nothing that was returned is ever written. *)
From Coq Require Import String.
From Verif Require Import Base Text_Model Cursor_Model Map_Model Source_Model Mgr_Model.
Open Scope list_scope.
Open Scope nat_scope.

(** A document; the mark stands for its identity: every document that is loaded or written gets one that is new. *)
Record doc := mkDoc { d_mark : nat; d_id : N; d_name : fname; d_src : source }.
(** A manager: its files, its arguments, and under which names they were loaded, the latest first *)
Record keeper := mkKeeper { k_files : list doc; k_args : list doc; k_log : list (str * N) }.
(** A pointer: the document as it was, and a span of it *)
Record view := mkView { v_doc : doc; v_start : nat; v_end : nat }.
Record state := mkState { t_keepers : list (option keeper); t_views : list (option view); t_mark : nat }.

(** The identifiers: files are 0, 1, ...; arguments begin at [254 * 2^24]; there is room for [2^24] of each, and one number for
    something unknown. *)
Definition room : N := 16777216.
Definition no_file (k : nat) : N := N.of_nat k.
Definition no_argument (k : nat) : N := (254 * room + N.of_nat k)%N.
Definition no_unknown : N := 4294967295.
Definition an_id (id : N) : Prop := id = no_unknown \/ exists k, (N.of_nat k < room)%N /\ (id = no_file k \/ id = no_argument k).
(** The document with an identifier.  (The unknown one is taken for the last file, should there be so many.) *)
Definition doc_of (x : keeper) (id : N) : option doc :=
  if (id <? room)%N then nth_error (k_files x) (N.to_nat id)
  else if N.eqb id no_unknown then nth_error (k_files x) (N.to_nat (room - 1))
  else nth_error (k_args x) (N.to_nat (id - 254 * room)).
(** The document loaded last under a name *)
Definition latest (x : keeper) (n : fname) : option doc := match lookup (as_str n) (k_log x) with Some id => doc_of x id | None => None end.
Definition text_of (d : doc) : bytes := s_text (d_src d).
Definition replaced {A} (l : list A) (k : nat) (x : A) : list A := firstn k l ++ x :: skipn (S k) l.

(** a pointer is returned *)
Definition seen (n : nat) (v : view) : answer := AFile n (d_id (v_doc v)) (d_name (v_doc v)) (d_src (v_doc v)) (str_get (text_of (v_doc v)) (v_start v) (v_end v)).
Definition returns (t : state) (v : view) : state * answer := (mkState (t_keepers t) (t_views t ++ [Some v]) (t_mark t), seen (length (t_views t)) v).
Definition returns_doc (t : state) (d : doc) : state * answer := returns t (mkView d 0 (length (text_of d))).
Definition keeps (t : state) (m : nat) (x : option keeper) : state := mkState (replaced (t_keepers t) m x) (t_views t) (t_mark t).
Definition on (t : state) (m : nat) (f : keeper -> state * answer) : state * answer := match nth_error (t_keepers t) m with Some (Some x) => f x | _ => (t, AMisuse) end.
Definition on_view (t : state) (h : nat) (f : view -> state * answer) : state * answer := match nth_error (t_views t) h with Some (Some v) => f v | _ => (t, AMisuse) end.

(** What a single dash stands for: the standard input *)
Definition path_name (p : path) : fname := match p with Utf8 s => if list_eq_dec N.eq_dec s [45%N] then FStdin else FPath p | Raw _ => FPath p end.
Definition text_name (s : str) : fname := if list_eq_dec N.eq_dec s [45%N] then FStdin else FVirtual s.

(** A text is loaded under a name, as a file or as an argument: if it is the text of the document loaded last under that name, as it is
    now, that document is returned; otherwise a new one is. *)
Definition already (x : keeper) (under : fname) (text : bytes) : option doc :=
  match latest x under with Some d => if list_eq_dec N.eq_dec (text_of d) text then Some d else None | None => None end.
Definition loads (t : state) (m : nat) (arg : bool) (under name : fname) (src : source) : state * answer :=
  on t m (fun x =>
    match already x under (s_text src) with
    | Some d => returns_doc t d
    | None =>
        let k := length (if arg then k_args x else k_files x) in
        if (N.of_nat k <? room)%N then
          let d := mkDoc (t_mark t) (if arg then no_argument k else no_file k) name src in
          let x' := mkKeeper (if arg then k_files x else k_files x ++ [d]) (if arg then k_args x ++ [d] else k_args x) ((as_str under, d_id d) :: k_log x) in
          returns_doc (mkState (replaced (t_keepers t) m (Some x')) (t_views t) (S (t_mark t))) d
        else (t, APanic)
    end).
(** A document is written; if that fails it is another document with the same content. *)
Definition writes (t : state) (m : nat) (x : keeper) (arg : bool) (k : nat) (d : doc) (src : source) : state :=
  let d' := mkDoc (t_mark t) (d_id d) (d_name d) src in
  let x' := if arg then mkKeeper (k_files x) (replaced (k_args x) k d') (k_log x) else mkKeeper (replaced (k_files x) k d') (k_args x) (k_log x) in
  mkState (replaced (t_keepers t) m (Some x')) (t_views t) (S (t_mark t)).
Definition is_argument (id : N) : bool := (room <=? id)%N.

Definition does (t : state) (c : call) : state * answer :=
  match c with
  | CNew => (mkState (t_keepers t ++ [Some (mkKeeper [] [] [])]) (t_views t) (t_mark t), ADone)
  | CClone m => on t m (fun x => (mkState (t_keepers t ++ [Some x]) (t_views t) (t_mark t), ADone))
  | CDropManager m => on t m (fun _ => (keeps t m None, ADone))
  | CLoad m name text => loads t m false name name (source_new text)
  | CLoadArgument m name text => loads t m true (FVirtual name) (text_name name) (source_new text)
  | CLoadRaw m grp uri name text => if N.eqb grp (no_file 0) then loads t m false uri name (source_new text)
                                    else if N.eqb grp (no_argument 0) then loads t m true uri name (source_new text)
                                    else on t m (fun x => match already x uri text with Some d => returns_doc t d | None => (t, APanic) end)
  | CUpdate m id text range version =>
      on t m (fun x =>
        if N.eqb id no_unknown then (t, AInvalidId)
        else match doc_of x id with
             | None => (t, APanic)
             | Some d =>
                 let k := N.to_nat (if is_argument id then id - 254 * room else id)%N in
                 match update (d_src d) text range version with
                 | Val (inl src) => (writes t m x (is_argument id) k d src, ADone)
                 | Val (inr e) => (writes t m x (is_argument id) k d (d_src d), AInvalidUpdate e)
                 | _ => (writes t m x (is_argument id) k d (d_src d), APanic)
                 end
             end)
  | CGet m id | CSource m id => on t m (fun x => match doc_of x id with Some d => returns_doc t d | None => (t, AInvalidId) end)
  | CByUri m n => on t m (fun x => match latest x n with Some d => returns_doc t d | None => (t, ANone) end)
  | CFind m n => on t m (fun x => (t, match lookup (as_str n) (k_log x) with Some id => AId id | None => ANone end))
  | CSlice m id s e =>
      on t m (fun x => match doc_of x id with
                       | None => (t, AInvalidId)
                       | Some d => if s <=? e then match str_get (text_of d) s e with Some _ => returns t (mkView d s e) | None => (t, AInvalidBounds) end
                                   else (t, APanic)
                       end)
  | CLocation m id s e => on t m (fun x => (t, match doc_of x id with Some d => ALocation (d_name d) s e | None => AInvalidId end))
  | CToSpan m n s e =>
      on t m (fun x => (t, match latest x n with
                           | None => ANone
                           | Some d => if (length (text_of d) <=? s) || (length (text_of d) <? e) then ANone
                                       else if s <=? e then ASpan (d_id d) s e else APanic
                           end))
  | CManages m h => on t m (fun x => on_view t h (fun v => (t, ABool (match doc_of x (d_id (v_doc v)) with Some d => Nat.eqb (d_mark d) (d_mark (v_doc v)) | None => false end))))
  | CCopyInto m h =>
      on t m (fun x => on_view t h (fun v =>
        let d0 := v_doc v in
        let copied := loads t m (is_argument (d_id d0)) (d_name d0) (d_name d0) (d_src d0) in
        match doc_of x (d_id d0) with
        | Some d => if Nat.eqb (d_mark d) (d_mark d0) then returns_doc t d else copied
        | None => copied
        end))
  | CLoadFile m p found =>
      on t m (fun x => match latest x (path_name p) with
                       | Some d => returns_doc t d
                       | None => match found with Some text => loads t m false (path_name p) (path_name p) (source_new text) | None => (t, AIoError) end
                       end)
  | CRead h => on_view t h (fun v => (t, seen h v))
  | CCopy h => on_view t h (fun v => returns t v)
  | CDrop h => on_view t h (fun v => (mkState (t_keepers t) (replaced (t_views t) h None) (t_mark t), ADone))
  end.
Fixpoint seen_by (t : state) (cs : list call) : list answer := match cs with [] => [] | c :: r => snd (does t c) :: seen_by (fst (does t c)) r end.
Definition unshared (cs : list call) : list answer := seen_by (mkState [] [] 0) cs.
(** The identifiers a program can have *)
Definition ids_of (c : call) : list N := match c with CUpdate _ id _ _ _ | CGet _ id | CSource _ id | CSlice _ id _ _ | CLocation _ id _ _ => [id] | _ => [] end.
Definition well_formed (cs : list call) : Prop := forall c id, In c cs -> In id (ids_of c) -> an_id id.
