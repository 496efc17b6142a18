(** Model of what a failed check tells about the input: filecheck/src/errors.rs (the region that was searched, the removal of
    repeated regions, the dump of the input) and filecheck/src/test/result.rs (how a run ends).  How miette prints these
    diagnostics is not modelled.  Offsets are [nat]: the casts to 32 bits (files of 4 GiB and more) are left out. *)
From Coq Require Import String.
From Verif Require Import Base Text_Model Cursor_Model Source_Model Check_Model.
From Verif Require Report_Model.
Notation length := List.length.
Open Scope string_scope. Open Scope list_scope. Open Scope nat_scope.

(** core/src/diagnostics/span.rs:313-323: a region of a source file *)
Record span := mkSpan { sp_file : nat; sp_start : nat; sp_end : nat }.
(** span.rs:363-371 *)
Definition span_at (id x : nat) : span := mkSpan id x x.
(** span.rs:430-438; the length of a span that ends before it starts underflows, and is not 0 *)
Definition span_is_empty (s : span) : bool := sp_end s =? sp_start s.
(** A file of the source manager: its id and its text *)
Record file := mkFile { f_id : nat; f_text : bytes }.
Definition content (f : file) : source := source_new (f_text f).

(** source_file.rs:224-230: the line of [location]; an offset that is not in the text, or inside a character, aborts *)
Definition line_at (f : file) (x : nat) : res nat :=
  do o <- location (content f) x;
  do p <- unwrap o;
  Val (fst p).

(** errors.rs:586-606 *)
Inductive searched := Marker (s : span) (message : option str) (label : str) | Note (s : str).
(** errors.rs:577 *)
Definition MAX_INLINE_SEARCHED_LINES : nat := 10.
(** errors.rs:614-688 *)
Definition describe (range : Text_Model.range) (input_file : file) (always_inline : bool) : res (list searched) :=
  let id := f_id input_file in
  let eof := length (f_text input_file) in
  let start := Nat.min (rstart range) eof in
  let end_ := Nat.min (Nat.max (rend range) start) eof in
  if start =? end_ then
    Val [Note (of_string (if eof <=? start
      then "the search began at the end of the input, so no input remained to be searched"
      else "the region of input available to be searched was empty"))]
  else
    do first_line <- line_at input_file start;
    do last_line <- line_at input_file (end_ - 1);
    let num_lines := (last_line - first_line) + 1 in
    if (always_inline || (num_lines <=? MAX_INLINE_SEARCHED_LINES))%bool then
      let message :=
        if num_lines =? 1
        then of_string "searched this region of the input (line " ++ Report_Model.number_text first_line ++ of_string ")"
        else of_string "searched this region of the input (lines " ++ Report_Model.number_text first_line ++ of_string "-" ++ Report_Model.number_text last_line ++ of_string ")" in
      Val [Marker (mkSpan id start end_) (Some message) (of_string "no match anywhere in this region")]
    else
      do l <- line_index (content input_file) (end_ - 1);
      let last_line_start := unwrap_or (line_start (content input_file) l) (end_ - 1) in
      let reached_eof := end_ =? eof in
      Val [Marker (span_at id start)
             (Some (of_string "searched " ++ Report_Model.number_text num_lines ++ of_string " lines of input without a match (lines " ++
                    Report_Model.number_text first_line ++ of_string "-" ++ Report_Model.number_text last_line ++ of_string ")"))
             (of_string "search began here");
           Marker (span_at id last_line_start)
             (Some (of_string (if reached_eof then "...and ran to the end of the input" else "...and ran to here")))
             (of_string "no match was found in any of the intervening lines")].
(** errors.rs:693-698 *)
Definition region (s : searched) : option span := match s with Marker sp _ _ => Some sp | Note _ => None end.

(** errors.rs:132-312: the variants that carry regions or other errors; every other one is [Other], with its text *)
Inductive failure :=
| NoMatch (sp : span) (regions : list searched) (note : option str)
| GroupFailed (sp : span) (cause : list failure) (skipped : option span)
| AllFailed (failed : list failure)
| Other (text : str).
(** errors.rs:318-345; [dump]: --dump-input is fail or always, [verbose]: -vv.  [context.source_file(..).unwrap()] is taken to
    succeed: the span is that of a pattern. *)
Definition match_none (dump verbose : bool) (pattern_span : span) (bounds : Text_Model.range) (input_file : file) : res failure :=
  do regions <- (if dump then describe bounds input_file verbose else Val []);
  Val (NoMatch pattern_span regions None).
(** errors.rs:350-355 *)
Definition with_note (e : failure) (note : str) : failure :=
  match e with NoMatch sp r _ => NoMatch sp r (Some note) | e => e end.

(** errors.rs:57-81: [seen.contains(&key)] *)
Definition span_eqb (a b : span) : bool := (sp_file a =? sp_file b) && (sp_start a =? sp_start b) && (sp_end a =? sp_end b).
Fixpoint spans_eqb (a b : list span) : bool :=
  match a, b with
  | [], [] => true
  | x :: a', y :: b' => span_eqb x y && spans_eqb a' b'
  | _, _ => false
  end.
Definition key (regions : list searched) : list span := flat_map (fun s => match region s with Some sp => [sp] | None => [] end) regions.
Definition SAME : str := of_string "searched the same region of the input as an earlier failure".
(** errors.rs:57-81: one error; the second component is [seen] *)
Fixpoint visit_one (e : failure) (seen : list (list span)) : failure * list (list span) :=
  match e with
  | NoMatch sp regions note =>
      let k := key regions in
      match k with
      | [] => (e, seen)
      | _ => if existsb (spans_eqb k) seen then (NoMatch sp [Note SAME] note, seen) else (e, seen ++ [k])
      end
  | GroupFailed sp cause skipped =>
      let (c, seen') := (fix go l seen := match l with [] => ([], seen) | x :: r => let (x', s1) := visit_one x seen in let (r', s2) := go r s1 in (x' :: r', s2) end) cause seen in
      (GroupFailed sp c skipped, seen')
  | AllFailed failed =>
      let (c, seen') := (fix go l seen := match l with [] => ([], seen) | x :: r => let (x', s1) := visit_one x seen in let (r', s2) := go r s1 in (x' :: r', s2) end) failed seen in
      (AllFailed c, seen')
  | Other _ => (e, seen)
  end.
Fixpoint visit (l : list failure) (seen : list (list span)) : list failure * list (list span) :=
  match l with [] => ([], seen) | x :: r => let (x', s1) := visit_one x seen in let (r', s2) := visit r s1 in (x' :: r', s2) end.
(** errors.rs:56-84 *)
Definition dedup_searched_regions (errors : list failure) : list failure := fst (visit errors []).

(** A match: where in the input, and the span of its pattern (matcher/result.rs:143-) *)
Record match_info := mkMatch { m_span : span; m_pattern : span }.
(** errors.rs:462-466 *)
Record dump := mkDump { d_summary : str; d_labels : list (span * str) }.
(** errors.rs:532-538 *)
Definition line_of (f : file) (s : span) : res (option nat) :=
  if sp_file s =? f_id f then do l <- line_at f (sp_start s); Val (Some l) else Val None.
(** errors.rs:508-521 *)
Fixpoint match_labels (match_file : file) (matched : list match_info) : res (list (span * str)) :=
  match matched with
  | [] => Val []
  | i :: r =>
      if span_is_empty (m_span i) then match_labels match_file r
      else
        do o <- line_of match_file (m_pattern i);
        let label := match o with
          | Some line => of_string "matched by the check on line " ++ Report_Model.number_text line
          | None => of_string "matched by an implicit check"
          end in
        do l <- match_labels match_file r;
        Val ((m_span i, label) :: l)
  end.
(** errors.rs:474-529 *)
Definition dump_new (input_file match_file : file) (matched : list match_info) (num_failed : nat) : res dump :=
  let id := f_id input_file in
  let eof := length (f_text input_file) in
  do num_lines <- (if eof =? 0 then Val 0 else line_at input_file (eof - 1));
  let whole := (mkSpan id 0 eof,
    match matched with
    | [] => of_string "no checks matched anywhere in this input"
    | _ => Report_Model.number_text (length matched) ++ of_string " check(s) matched, as annotated above"
    end) in
  do labels <- match_labels match_file matched;
  Val (mkDump (of_string "the input that was checked (" ++ Report_Model.number_text num_lines ++ of_string " line(s), " ++ Report_Model.number_text num_failed ++ of_string " failed check(s))")
         (whole :: labels)).

(** errors.rs:6-13 *)
Record test_failed := mkFailed { tf_errors : list failure; tf_dump : option dump }.
(** [sort_by_key], a stable sort *)
Fixpoint insert_match (i : match_info) (l : list match_info) : list match_info :=
  match l with
  | [] => [i]
  | j :: r => if sp_start (m_pattern i) <=? sp_start (m_pattern j) then i :: l else j :: insert_match i r
  end.
Definition sort_matches (l : list match_info) : list match_info := fold_right insert_match [] l.
(** check/mod.rs:40-59 with test/result.rs:85-96, 103-120: [run] is what the checks give, the matches and the errors *)
Definition check_report (allow_empty dump : bool) (input_file match_file : file) (run : res (list match_info * list failure)) : res (list match_info + test_failed) :=
  if (negb allow_empty && (length (f_text input_file) =? 0))%bool then Val (inr (mkFailed [Other (of_string "empty input")] None))
  else
    do (matches, errors) <- run;
    do d <- (match errors with
             | [] => Val None
             | _ => if dump then do d <- dump_new input_file match_file matches (length errors); Val (Some d) else Val None
             end);
    match errors with
    | [] => Val (inl (sort_matches matches))
    | _ => Val (inr (mkFailed (dedup_searched_regions errors) d))
    end.

(** ** The engine with its reports *)
(** A failed search builds its report at once, whether it is wanted or not: substring.rs:95-99, substring_set.rs:150-155,
    static.rs:148-152, regex.rs:160-164, regex_set.rs:537-541.  Only the reports of the matchers are added to the engine;
    those of CHECK-NEXT at the end of a block (next.rs:43-47), of CHECK-EMPTY (empty.rs:50-54) and of a label that is not found
    (check/mod.rs:155-159) are not. *)
Definition tell (dump verbose : bool) (b : bytes) (r : Text_Model.range) : res unit :=
  do _ <- match_none dump verbose (mkSpan 0 0 0) r (mkFile 1 b); Val tt.
Definition not_found (m : mresult) : bool := match m_ty m with Failed ENone => true | _ => false end.
Definition tell_all (dump verbose : bool) (b : bytes) (r : Text_Model.range) (ms : list mresult) : res unit :=
  if existsb not_found ms then tell dump verbose b r else Val tt.
Definition reporting (dump verbose : bool) (L : lang) : lang :=
  mkLang (pat L) (env L)
    (fun p b r e => do x <- pm p b r e; do _ <- tell_all dump verbose b r [fst x]; Val x)
    (fun ps b r e => do x <- nm ps b r e; do _ <- tell_all dump verbose b r [fst x]; Val x)
    (fun ds b r e => do x <- dm ds b r e; do _ <- tell_all dump verbose b r (fst (fst x)); Val x)
    enter.
