(** Model of [SourceContent] and of [SourceFile::read_span] (core/src/diagnostics/source_file.rs,
    selection.rs).  Text is its UTF-8 bytes.  Indices are [nat]: the 32-bit limits (files of 2 GiB
    and more) are not modelled. *)
From Verif Require Import Base Text_Model Cursor_Model.

(** [str::is_char_boundary]: an end of the text, or a byte that does not continue a character *)
Definition continues (x : N) : bool := (128 <=? x)%N && (x <? 192)%N.
Definition is_boundary (b : bytes) (i : nat) : bool :=
  (i =? length b) || match nth_error b i with Some x => negb (continues x) | None => false end.
(** [str::get] of a byte range *)
Definition str_get (b : bytes) (s e : nat) : option bytes :=
  if (s <=? e) && (e <=? length b) && is_boundary b s && is_boundary b e then Some (firstn (e - s) (skipn s b)) else None.
(** [chars().count()] *)
Definition char_count (b : bytes) : nat := length (filter (fun x => negb (continues x)) b).

(** source_file.rs:784-799 *)
Fixpoint lf_offsets (b : bytes) (at_ : nat) : list nat :=
  match b with
  | [] => []
  | x :: r => if N.eqb x LF then at_ :: lf_offsets r (S at_) else lf_offsets r (S at_)
  end.
Definition compute_line_starts (text : bytes) (text_offset : option nat) : list nat :=
  match text_offset with None => [0] | Some _ => [] end ++
  map (fun o => match text_offset with Some k => k | None => 0 end + (o + 1)) (lf_offsets text 0).

(** source_file.rs:428-440; language and name are left out *)
Record source := mkSource { s_text : bytes; s_starts : list nat; s_version : Z }.
(** source_file.rs:509-532 *)
Definition source_new (text : bytes) : source := mkSource text (compute_line_starts text None) 0.

(** source_file.rs:620-630 *)
Definition line_count (f : source) : nat := length (s_starts f).
Definition line_start (f : source) (l : nat) : option nat := nth_error (s_starts f) l.
(** source_file.rs:632-640 *)
Definition last_line_index (f : source) : nat := line_count f - 1.
(** source_file.rs:642-649 *)
Definition line_range (f : source) (l : nat) : option range :=
  match line_start f l with
  | None => None
  | Some s => Some (mkRange s (match line_start f (l + 1) with Some e => e | None => length (s_text f) end))
  end.
(** [slice::binary_search] on a sorted slice without repetitions, from its documentation: [inl i]
    when the i-th entry is [x], otherwise [inr] of the place where [x] belongs *)
Fixpoint binary_search (t : list nat) (x : nat) : nat + nat :=
  match t with
  | [] => inr 0
  | y :: r => if y =? x then inl 0 else if x <? y then inr 0
              else match binary_search r x with inl i => inl (S i) | inr i => inr (S i) end
  end.
(** source_file.rs:651-657 *)
Definition line_index (f : source) (x : nat) : res nat :=
  match binary_search (s_starts f) x with
  | inl l => Val l
  | inr 0 => Panic
  | inr (S l) => Val l
  end.
(** source_file.rs:659-679 *)
Definition line_column_to_offset (f : source) (l c : nat) : res (option nat) :=
  match line_range f l with
  | None => Val None
  | Some r =>
      do src <- unwrap (str_get (s_text f) (rstart r) (rend r));
      if length src <? c then Val None
      else if is_boundary src c then Val (Some (rstart r + c)) else Panic
  end.
(** source_file.rs:681-695: line and column numbers, counted from 1 *)
Definition location (f : source) (x : nat) : res (option (nat * nat)) :=
  do l <- line_index f x;
  match line_start f l with
  | None => Val None
  | Some s =>
      match str_get (s_text f) s x with
      | None => Val None
      | Some src => Val (Some (l + 1, char_count src + 1))
      end
  end.

(** selection.rs:7-10, 46-113; positions compare by line, then column *)
Record position := mkPos { p_line : nat; p_char : nat }.
Record selection := mkSel { sel_start : position; sel_end : position }.
Definition pos_ltb (a b : position) : bool :=
  (p_line a <? p_line b) || ((p_line a =? p_line b) && (p_char a <? p_char b)).
(** selection.rs:14-23 *)
Definition sel_new (a b : position) : selection := if pos_ltb b a then mkSel b a else mkSel a b.
(** selection.rs:25-29 *)
Definition canonical (s : selection) : selection :=
  if pos_ltb (sel_end s) (sel_start s) then mkSel (sel_end s) (sel_start s) else s.
(** source_file.rs:607-618 *)
Definition select (f : source) (s : selection) : res (option bytes) :=
  let s := canonical s in
  do a <- line_column_to_offset f (p_line (sel_start s)) (p_char (sel_start s));
  match a with
  | None => Val None
  | Some a =>
      do b <- line_column_to_offset f (p_line (sel_end s)) (p_char (sel_end s));
      match b with
      | None => Val None
      | Some b => do t <- unwrap (str_get (s_text f) a b); Val (Some t)
      end
  end.

(** [Vec::splice(from..to, with)] *)
Definition splice {A} (t : list A) (from to : nat) (with_ : list A) : res (list A) :=
  if (from <=? to) && (to <=? length t) then Val (firstn from t ++ with_ ++ skipn to t) else Panic.
(** [u32::saturating_add_signed] *)
Definition saturating_add_signed (x : nat) (d : Z) : nat := Z.to_nat (Z.of_nat x + d).
(** source_file.rs:494-501 *)
Inductive update_error := InvalidStart (p : position) | InvalidEnd (p : position).
(** source_file.rs:697-782; [inr] is an error, which leaves the document unchanged *)
Definition update (f : source) (text : bytes) (range : option selection) (version : Z) : res (source + update_error) :=
  match range with
  | None => Val (inl (mkSource text (compute_line_starts text None) version))
  | Some sel =>
      do s <- line_column_to_offset f (p_line (sel_start sel)) (p_char (sel_start sel));
      match s with
      | None => Val (inr (InvalidStart (sel_start sel)))
      | Some s =>
          do e <- line_column_to_offset f (p_line (sel_end sel)) (p_char (sel_end sel));
          match e with
          | None => Val (inr (InvalidEnd (sel_end sel)))
          | Some e =>
              do _ <- assert (s <=? e);
              (* [String::replace_range] *)
              do _ <- assert (is_boundary (s_text f) s && is_boundary (s_text f) e);
              let content := firstn s (s_text f) ++ text ++ skipn e (s_text f) in
              let added := compute_line_starts text (Some s) in
              let splice_start := p_line (sel_start sel) + 1 in
              let splice_end :=
                if p_line (sel_start sel) =? p_line (sel_end sel) then splice_start
                else
                  let end_line :=
                    match s_starts f with
                    | [] => p_line (sel_end sel)
                    | _ => Nat.min (p_line (sel_end sel)) (length (s_starts f) - 1)
                    end in
                  if splice_start <=? end_line then end_line + 1 else splice_start in
              do t <- splice (s_starts f) splice_start splice_end added;
              let diff := (Z.of_nat (length text) - Z.of_nat (e - s))%Z in
              let k := splice_start + length added in
              let t' := if Z.eqb diff 0 then t else firstn k t ++ map (fun x => saturating_add_signed x diff) (skipn k t) in
              Val (inl (mkSource content t' version))
          end
      end
  end.

(** source_file.rs:67-105: the excerpt shown for a span, and [data()] (366-371) *)
Definition read_span (f : source) (offset len before after : nat) : res range :=
  do s <- (if before =? 0 then Val offset
           else do l <- line_index f offset;
                Val (match line_start f (l - before) with Some x => x | None => 0 end));
  do e <- (if after =? 0 then Val (offset + len)
           else do l <- line_index f (offset + len);
                Val (match line_range f (l + after) with Some r => rend r | None => length (s_text f) end));
  (* the span of the excerpt is built from its start and [end.abs_diff(start)] *)
  Val (mkRange s (s + ((e - s) + (s - e)))).
Definition excerpt (f : source) (r : range) : res bytes := unwrap (slice (s_text f) r).
