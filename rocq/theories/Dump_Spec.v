(** What a failed check is to tell about the input, by looking at the text only. *)
From Coq Require Import String Sorted Permutation.
From Verif Require Import Base Text_Model Text_Spec Source_Model Source_Spec Dump_Model.
From Verif Require Export Report_Spec.
Notation length := List.length.
Open Scope string_scope. Open Scope list_scope. Open Scope nat_scope.

(** The line, counted from 1, of an offset: one more than the newlines before it *)
Definition on_line (b : bytes) (x l : nat) : Prop := exists n, newlines_before b x n /\ l = n + 1.
(** A line begins here. *)
Definition begins_line (b : bytes) (x : nat) : Prop := x = 0 \/ byte_at b (x - 1) LF.
(** The bytes of the text that are in a range are those from [s] to [e]; there are some. *)
Definition bytes_in (b : bytes) (r : Text_Model.range) (s e : nat) : Prop :=
  s < e /\ forall x, s <= x < e <-> rstart r <= x < rend r /\ x < length b.
Definition no_bytes_in (b : bytes) (r : Text_Model.range) : Prop := forall x, ~ (rstart r <= x < rend r /\ x < length b).

Definition numbers (words : list (str + nat)) (t : str) : Prop :=
  exists ts, Forall2 (fun w t => match w with inl s => t = s | inr n => decimal n t end) words ts /\ t = concat ts.

(** What is told about a search of a range that found nothing: [full]: regions of any size are shown. *)
Inductive tells (id : nat) (b : bytes) (r : Text_Model.range) (full : bool) : list searched -> Prop :=
| t_end : no_bytes_in b r -> length b <= rstart r ->
    tells id b r full [Note (of_string "the search began at the end of the input, so no input remained to be searched")]
| t_empty : no_bytes_in b r -> rstart r < length b ->
    tells id b r full [Note (of_string "the region of input available to be searched was empty")]
| t_line s e l m : bytes_in b r s e -> on_line b s l -> on_line b (e - 1) l ->
    numbers [inl (of_string "searched this region of the input (line "); inr l; inl (of_string ")")] m ->
    tells id b r full [Marker (mkSpan id s e) (Some m) (of_string "no match anywhere in this region")]
| t_lines s e l k m : bytes_in b r s e -> on_line b s l -> on_line b (e - 1) k -> l < k -> full = true \/ k - l < 10 ->
    numbers [inl (of_string "searched this region of the input (lines "); inr l; inl (of_string "-"); inr k; inl (of_string ")")] m ->
    tells id b r full [Marker (mkSpan id s e) (Some m) (of_string "no match anywhere in this region")]
| t_long s e l k m first_of_last : bytes_in b r s e -> on_line b s l -> on_line b (e - 1) k -> full = false -> 10 <= k - l ->
    begins_line b first_of_last -> on_line b first_of_last k ->
    numbers [inl (of_string "searched "); inr (k - l + 1); inl (of_string " lines of input without a match (lines "); inr l; inl (of_string "-"); inr k; inl (of_string ")")] m ->
    tells id b r full
      [Marker (mkSpan id s s) (Some m) (of_string "search began here");
       Marker (mkSpan id first_of_last first_of_last)
         (Some (of_string (if e =? length b then "...and ran to the end of the input" else "...and ran to here")))
         (of_string "no match was found in any of the intervening lines")].
(** The offset is inside a character: its byte continues one. *)
Definition inside_char (b : bytes) (x : nat) : Prop := exists c, byte_at b x c /\ (128 <= c < 192)%N.

(** The bytes of a range neither begin nor end inside a character. *)
Definition plain_ends (b : bytes) (r : Text_Model.range) : Prop := forall s e, bytes_in b r s e -> ~ inside_char b s /\ ~ inside_char b (e - 1).

(** ** Errors in the order in which they are reported *)
(** What a report shows of an error that has regions: its pattern, the regions, a note *)
Fixpoint shown (e : failure) : list (span * list searched * option str) :=
  match e with
  | NoMatch sp r n => [(sp, r, n)]
  | GroupFailed _ c _ => flat_map shown c
  | AllFailed c => flat_map shown c
  | Other _ => []
  end.
(** The errors apart from their regions *)
Fixpoint outline (e : failure) : failure :=
  match e with
  | NoMatch sp _ n => NoMatch sp [] n
  | GroupFailed sp c k => GroupFailed sp (map outline c) k
  | AllFailed c => AllFailed (map outline c)
  | Other t => Other t
  end.
(** The places that are marked in the input *)
Fixpoint places_of (l : list searched) : list span :=
  match l with [] => [] | Marker sp _ _ :: r => sp :: places_of r | Note _ :: r => places_of r end.
(** Each mark is shown once: an error whose places were all marked, in this order, by an earlier one refers to that. *)
Definition shown_once (before after : list (span * list searched * option str)) : Prop :=
  length before = length after /\
  forall i p r n, nth_error before i = Some (p, r, n) ->
    ((places_of r <> [] /\ exists j p' r' n', j < i /\ nth_error before j = Some (p', r', n') /\ places_of r' = places_of r) ->
       nth_error after i = Some (p, [Note (of_string "searched the same region of the input as an earlier failure")], n)) /\
    (~ (places_of r <> [] /\ exists j p' r' n', j < i /\ nth_error before j = Some (p', r', n') /\ places_of r' = places_of r) ->
       nth_error after i = Some (p, r, n)).

(** ** The dump of the input *)
(** The number of lines; a newline at the end of the text does not begin another one *)
Definition line_total (b : bytes) (n : nat) : Prop :=
  (b = [] /\ n = 0) \/ (exists c, byte_at b (length b - 1) c /\ exists k, newlines_before b (length b) k /\ ((c = LF /\ n = k) \/ (c <> LF /\ n = k + 1))).
(** The labels of the matches that are not empty, in their order *)
Inductive labelled (checks : file) : list match_info -> list (span * str) -> Prop :=
| l_nil : labelled checks [] []
| l_skip i r l : sp_start (m_span i) = sp_end (m_span i) -> labelled checks r l -> labelled checks (i :: r) l
| l_line i r l n m : sp_start (m_span i) <> sp_end (m_span i) -> sp_file (m_pattern i) = f_id checks -> on_line (f_text checks) (sp_start (m_pattern i)) n ->
    numbers [inl (of_string "matched by the check on line "); inr n] m -> labelled checks r l -> labelled checks (i :: r) ((m_span i, m) :: l)
| l_implicit i r l : sp_start (m_span i) <> sp_end (m_span i) -> sp_file (m_pattern i) <> f_id checks -> labelled checks r l ->
    labelled checks (i :: r) ((m_span i, of_string "matched by an implicit check") :: l).
Definition dumped (input checks : file) (matched : list match_info) (failed : nat) (d : dump) : Prop :=
  exists n whole labels,
    line_total (f_text input) n /\
    numbers [inl (of_string "the input that was checked ("); inr n; inl (of_string " line(s), "); inr failed; inl (of_string " failed check(s))")] (d_summary d) /\
    d_labels d = (mkSpan (f_id input) 0 (length (f_text input)), whole) :: labels /\
    ((matched = [] /\ whole = of_string "no checks matched anywhere in this input") \/
     (matched <> [] /\ numbers [inr (length matched); inl (of_string " check(s) matched, as annotated above")] whole)) /\
    labelled checks matched labels.
(** The spans of the patterns of the matches stand in the check file or in another one. *)
Definition in_checks (checks : file) (matched : list match_info) : Prop :=
  forall i, In i matched -> sp_file (m_pattern i) = f_id checks -> sp_start (m_pattern i) <= length (f_text checks) /\ ~ inside_char (f_text checks) (sp_start (m_pattern i)).

(** The matches in the order of their patterns; those of one pattern stay in the order in which they were found. *)
Definition by_pattern (found out : list match_info) : Prop :=
  Permutation found out /\ StronglySorted (fun i j => sp_start (m_pattern i) <= sp_start (m_pattern j)) out /\
  forall k, filter (fun i => sp_start (m_pattern i) =? k) out = filter (fun i => sp_start (m_pattern i) =? k) found.
