(** Model of the literal matchers: pattern/matcher/matchers/substring.rs, substring_set.rs, the
    literal case of any.rs and all.rs, search/substring_set.rs, search/default.rs and
    visitors/static.rs.  They form a pattern language for [Check_Model].

    The Aho-Corasick automata are modelled from the documentation of their configuration: the
    leftmost match, the longest one there, and the first pattern of the set among equals.
    Canonicalisation of white space (modelled in Text_Model) is taken to have been applied. *)
From Verif Require Import Base Text_Model Cursor_Model Check_Model.

(** substring.rs:7-15: a literal, never empty (substring.rs:37-40), and where it stands in the
    check file *)
Record lit := mkLit { lit_hd : N; lit_tl : bytes; lit_span : nat }.
Definition lit_text (p : lit) : bytes := lit_hd p :: lit_tl p.

(** ascii_case_insensitive *)
Definition lower (c : N) : N := if ((65 <=? c) && (c <=? 90))%N then (c + 32)%N else c.
Definition same (ci : bool) (x y : N) : bool := N.eqb (if ci then lower x else x) (if ci then lower y else y).

(** does the text [t] stand at the beginning of [b]? *)
Fixpoint starts (ci : bool) (t b : bytes) : bool :=
  match t, b with
  | [], _ => true
  | x :: t', y :: b' => (same ci x y && starts ci t' b')%bool
  | _ :: _, [] => false
  end.
(** does [t] occur at offset [i], ending at [e] or before? *)
Definition occurs (ci : bool) (b : bytes) (e i : nat) (t : bytes) : bool :=
  ((i + length t <=? e) && starts ci t (skipn i b))%bool.

(** leftmost occurrence at [i], [i+1], ..., [i+n-1] *)
Fixpoint leftmost (ci : bool) (b t : bytes) (e : nat) (n i : nat) : option nat :=
  match n with
  | 0 => None
  | S n' => if occurs ci b e i t then Some i else leftmost ci b t e n' (S i)
  end.
(** substring.rs:83-101 *)
Definition lit_match (ci : bool) (p : lit) (b : bytes) (r : range) : mresult :=
  match leftmost ci b (lit_text p) (rend r) (rend r - rstart r) (rstart r) with
  | Some i => mkRes Good (Some (mkInfo (mkRange i (i + length (lit_text p))) 0 (lit_span p)))
  | None => failed ENone
  end.

(** The longest pattern of the set that stands at [i], the first of them if several do; [k] is the
    number of the first pattern of the list. *)
Fixpoint longest (ci : bool) (b : bytes) (e i : nat) (ps : list lit) (k : nat) : option (nat * lit) :=
  match ps with
  | [] => None
  | p :: r =>
      if occurs ci b e i (lit_text p) then
        match longest ci b e i r (S k) with
        | Some (k', q) => if length (lit_text p) <? length (lit_text q) then Some (k', q) else Some (k, p)
        | None => Some (k, p)
        end
      else longest ci b e i r (S k)
  end.
Fixpoint leftmost_set (ci : bool) (b : bytes) (ps : list lit) (e n i : nat) : option (nat * nat * lit) :=
  match n with
  | 0 => None
  | S n' => match longest ci b e i ps 0 with
            | Some (k, p) => Some (i, k, p)
            | None => leftmost_set ci b ps e n' (S i)
            end
  end.

(** all.rs:57-102, on literals: a pattern whose text has been seen before is dropped.  The index
    error at all.rs:63, a panic while compiling (set_panics_refuted), is not part of this model; nor are
    texts that differ in the kinds of their spaces only, which the code keeps apart (dag_texts_refuted). *)
Fixpoint dedup (seen : list bytes) (ps : list lit) : list lit :=
  match ps with
  | [] => []
  | p :: r => if existsb (str_eqb (lit_text p)) seen then dedup seen r
              else p :: dedup (seen ++ [lit_text p]) r
  end.

(** any.rs:211 with matchers/substring_set.rs:131-157 *)
Definition lit_any (ci : bool) (ps : list lit) (b : bytes) (r : range) : mresult :=
  match leftmost_set ci b (dedup [] ps) (rend r) (rend r - rstart r) (rstart r) with
  | Some (i, k, p) => mkRes Good (Some (mkInfo (mkRange i (i + length (lit_text p))) k (lit_span p)))
  | None => failed ENone
  end.

(** visitors/static.rs:49-167.  The searcher (search/substring_set.rs) is always case sensitive
    (line 32).  [got] are the results so far; a literal is never empty, so that search/default.rs
    only moves its start.  The test at static.rs:79-86 (a match inside an earlier one) is kept.
    [fuel] bounds the number of matches in the range. *)
Definition same_id (k : nat) (m : mresult) : bool :=
  match m_info m with Some i => i_id i =? k | None => false end.
Definition inside (s e : nat) (m : mresult) : bool :=
  match m_info m with
  | Some i => (range_contains (i_span i) s || range_contains (i_span i) e)%bool
  | None => false
  end.
Fixpoint missing (n : nat) (k : nat) (got acc : matches) : matches :=
  match n with
  | 0 => acc
  | S n' => missing n' (S k) got (if existsb (same_id k) got then acc else ms_push acc (failed ENone))
  end.
Fixpoint visit (fuel : nat) (b : bytes) (ps : list lit) (e start : nat) (got : matches) : res (matches * option nat) :=
  match fuel with
  | 0 => Panic
  | S fuel' =>
      match leftmost_set false b ps e (e - start) start with
      | Some (i, k, p) =>
          let stop := i + length (lit_text p) in
          if (existsb (same_id k) got || existsb (inside i stop) got)%bool
          then visit fuel' b ps e stop got
          else
            let got' := ms_push got (mkRes Good (Some (mkInfo (mkRange i stop) k (lit_span p)))) in
            if length ps =? length got' then Val (got', Some stop)
            else visit fuel' b ps e stop got'
      | None => Val (if length ps =? length got then got else missing (length ps) 0 got got, None)
      end
  end.
(** rules/dag.rs:36-41 with all.rs:114-130 *)
Definition lit_dag (ps : list lit) (b : bytes) (r : range) : res (matches * option nat) :=
  visit (S (rend r - rstart r)) b (dedup [] ps) (rend r) (rstart r) [].

(** The pattern language of literals; there are no variables. *)
Definition lit_lang (ci : bool) : lang :=
  mkLang lit unit
    (fun p b r e => Val (lit_match ci p b r, e))
    (fun ps b r e => Val (lit_any ci ps b r, e))
    (fun ps b r e => do (ms, pos) <- lit_dag ps b r; Val (ms, e, pos))
    (fun e => e).
