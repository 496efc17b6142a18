(** Model of the sets of patterns of CHECK-NOT and CHECK-DAG: ast/pattern.rs (pop_prefix, the order on
    prefixes), pattern/prefix.rs, matchers/all.rs, any.rs, substring_set.rs, regex_set.rs,
    search/substring_set.rs, search/pattern_set.rs, visitors/static.rs and visitors/dynamic.rs.

    Texts are of ASCII characters, as in Smart_Model.  Of the span of a pattern only its start is kept,
    and the suffix of a pattern has that of the pattern.  The automaton of a set of literals is that of
    Lit_Model; that of a set of regular expressions is a parameter.  Variables that begin with '@' are
    never defined by a pattern (Parse_Model). *)
From Coq Require Import String.
From Verif Require Import Base Text_Model Cursor_Model Check_Model Lit_Model Env_Model Num_Model Gram_Model Parse_Model Regex_Model Smart_Model.
Open Scope string_scope.
Open Scope list_scope.
Open Scope nat_scope.
Notation length := List.length.

(** A pattern of the set: where it begins in the check file, and on which line *)
Record spat := mkPat { sp_at : nat; sp_line : Z; sp_pat : cpat }.

(** * Prefixes *)
(** ast/pattern.rs:149-161 *)
Inductive prefix := FEmpty | FLit (s : str) | FSub (s : str) | FRegex (s : str) (cs : list capt) | FMatch (m : pmatch).
(** ast/pattern.rs:321-394.  A definition without an expression is never left in a compacted pattern; its
    cases are those of Smart_Model.compact_one. *)
Definition pop_prefix (k : kpat) : prefix * kpat :=
  match k with
  | KpEmpty => (FEmpty, KpEmpty)
  | KpLit s => (FLit s, KpEmpty)
  | KpRegex s cs => (FRegex s cs, KpEmpty)
  | KpParts [] => (FEmpty, KpEmpty)
  | KpParts (q :: r) =>
      (match q with KLit s => FSub s | KRegex s cs => FRegex s cs | KMatch m => FMatch m end,
       match r with [] => KpEmpty | _ => KpParts r end)
  end.

(** The equality that the order on prefixes amounts to: ast/pattern.rs:46-68, 825-940, expr/value.rs:56-84,
    expr/mod.rs:117-143, expr/num.rs:257-261, core/src/variables/mod.rs:96-101 *)
Definition precision (f : format) : nat := match f with Unsigned p | Signed p | Hex p _ _ => p end.
Definition same_kind (f g : format) : bool :=
  match f, g with Unsigned _, Unsigned _ | Signed _, Signed _ | Hex _ _ _, Hex _ _ _ => true | _, _ => false end.
Definition or_default (f : option format) : format := match f with Some f => f | None => default_format end.
Definition vtype_eqb (a b : vtype) : bool :=
  match a, b with
  | TyStr, TyStr => true
  | TyNum f, TyNum g => (Nat.eqb (precision (or_default f)) (precision (or_default g)) && same_kind (or_default f) (or_default g))%bool
  | _, _ => false
  end.
Definition capt_eqb (a b : capt) : bool := (vname_eqb (k_name a) (k_name b) && vtype_eqb (k_ty a) (k_ty b))%bool.
Fixpoint list_eqb {A} (f : A -> A -> bool) (l m : list A) : bool :=
  match l, m with [], [] => true | a :: l, b :: m => (f a b && list_eqb f l m)%bool | _, _ => false end.
Definition option_eqb {A} (f : A -> A -> bool) (a b : option A) : bool :=
  match a, b with None, None => true | Some a, Some b => f a b | _, _ => false end.
Definition binop_eqb (a b : binop) : bool :=
  match a, b with OEq, OEq | OAdd, OAdd | Num_Model.OSub, Num_Model.OSub | OMul, OMul | ODiv, ODiv | OMin, OMin | OMax, OMax => true | _, _ => false end.
Fixpoint pexpr_eqb (a b : pexpr) : bool :=
  match a, b with
  | PNum x, PNum y => Z.eqb x y
  | PVar x, PVar y => vname_eqb x y
  | PBin o x y, PBin p z w => (binop_eqb o p && pexpr_eqb x z && pexpr_eqb y w)%bool
  | _, _ => false
  end.
Definition match_eqb (a b : pmatch) : bool :=
  match a, b with
  | MSubst n p, MSubst m q => (vname_eqb n m && option_eqb str_eqb p q)%bool
  | MNumeric f c e, MNumeric g d h =>
      (str_eqb (format_pattern f None) (format_pattern g None) && option_eqb vname_eqb c d && option_eqb pexpr_eqb e h)%bool
  | _, _ => false
  end.
(** ast/pattern.rs:174-181 *)
Definition prefix_text (p : prefix) : str := match p with FLit s | FSub s | FRegex s _ => s | FEmpty | FMatch _ => [] end.
(** ast/pattern.rs:194-230 *)
Definition prefix_eqb (p q : prefix) : bool :=
  match p, q with
  | FMatch a, FMatch b => match_eqb a b
  | FMatch _, _ | _, FMatch _ => false
  | FRegex s (_ :: _ as cs), FRegex t (_ :: _ as ds) => (str_eqb s t && list_eqb capt_eqb cs ds)%bool
  | FRegex _ (_ :: _), _ | _, FRegex _ (_ :: _) => false
  | _, _ => str_eqb (prefix_text p) (prefix_text q)
  end.

(** * Sets of regular expressions *)
(** The automata that regex_set.rs builds (dfa::regex::Regex with [MatchKind::All], and the one that finds the
    groups): for every pattern the names of its groups, the group of the whole match first; the matches in the
    order in which the overlapping search reports them; the groups of a match. *)
Record set_engine := mkSetEngine {
  rset : Type;
  rs_build : bool -> list str -> option rset;
  rs_names : rset -> nat -> list (option str);
  rs_matches : rset -> bytes -> range -> list (nat * range);
  rs_groups : rset -> bytes -> nat -> range -> option (list (option range)) }.

Section Sets.
Context (E : engine) (T : set_engine).
(** lib.rs:125-180: --ignore-case, --strict-whitespace and --enable-var-scope; [fuel] as in Smart_Model *)
Context (ci strict scoped : bool) (fuel : nat).
Notation matcher := (matcher E).

(** regex_set.rs:156-173: the groups that define variables, for every pattern, if any pattern has some *)
Record rmatcher := mkRm { rm_set : rset T; rm_defs : option (list (list (nat * capt))) }.
(** regex_set.rs:175-283 *)
Fixpoint set_defs (x : rset T) (k : nat) (l : list (str * list capt)) : res (list (list (nat * capt))) :=
  match l with
  | [] => Val []
  | (_, cs) :: r => do g <- groups_of (rs_names T x k) cs; do gs <- set_defs x (S k) r; Val (g :: gs)
  end.
Definition new_rmatcher (l : list (str * list capt)) : res rmatcher :=
  match rs_build T ci (map fst l) with
  | None => Err
  | Some x =>
      if forallb (fun p => match snd p with [] => true | _ => false end) l then Val (mkRm x None)
      else do gs <- set_defs x 0 l; Val (mkRm x (Some gs))
  end.

(** matchers/substring_set.rs:29-44.  An empty literal ({LITERAL} with an empty text) is not modelled. *)
Fixpoint new_lits (l : list (nat * str)) : res (list lit) :=
  match l with
  | [] => Val []
  | (at_, s) :: r =>
      match canonical strict s with
      | [] => Panic
      | c :: t => do ls <- new_lits r; Val (mkLit c t at_ :: ls)
      end
  end.

(** * Compilation *)
(** ast/pattern.rs:409-605 on the parts that are left after the prefix: they are compacted again *)
Definition compact_again_one (st : list kpart * pending) (q : kpart) : list kpart * pending :=
  let '(out, p) := st in
  match q with
  | KLit s => compact_one st (QLit s)
  | KRegex s cs => (out, add_regex p s cs)
  | KMatch m => compact_one st (QMatch m)
  end.
Definition compact_again (k : kpat) : kpat :=
  match k with
  | KpParts [] => KpEmpty
  | KpParts l =>
      match fold_left compact_again_one l ([], nothing_pending) with
      | ([], p) => if p_lit p then KpLit (p_text p) else KpRegex (p_text p) (p_caps p)
      | (out, p) => KpParts (out ++ pending_part p)
      end
  | _ => k
  end.
(** pattern/mod.rs:83-114 *)
Definition compile_compact (k : kpat) : res matcher :=
  match k with
  | KpEmpty => Val (MAlways E)
  | KpLit s => from_literal E ci strict s
  | KpRegex s cs => regex_matcher E ci s cs
  | KpParts l => do ops <- lower_parts E ci strict l; Val (MSmart E ops)
  end.
(** all.rs:60-66, 95-100 *)
Definition compile_suffix (k : kpat) : res matcher :=
  match k with
  | KpEmpty => Val (MAlways E)
  | _ => compile_compact (compact_again k)
  end.
(** pattern/mod.rs:46-81 *)
Definition from_prefix (p : prefix) : res matcher :=
  match p with
  | FEmpty => Err
  | FLit s | FSub s => from_literal E ci strict s
  | FRegex s cs => regex_matcher E ci s cs
  | FMatch m => do ops <- lower_match E ci m; Val (MSmart E ops)
  end.

(** a suffix, and where its pattern stands *)
Definition suffix := (nat * Z * matcher)%type.
(** all.rs:57-102.  [unique]: the prefixes seen with the number that was noted for them, which is that of
    the pattern; [suffixes] is indexed with it (all.rs:63, 65). *)
Definition find_prefix (p : prefix) (unique : list (prefix * nat)) : option nat :=
  option_map snd (find (fun u => prefix_eqb p (fst u)) unique).
Definition push_at (k : nat) (s : suffix) (l : list (list suffix)) : res (list (list suffix)) :=
  match nth_error l k with
  | Some x => Val (firstn k l ++ (x ++ [s]) :: skipn (S k) l)
  | None => Panic
  end.
Definition not_empty (p : prefix) : bool := match p with FEmpty => false | _ => true end.
Fixpoint group_prefixes (id : nat) (l : list spat) (unique : list (prefix * nat)) (ps : list (spat * prefix)) (ss : list (list suffix))
  : res (list (spat * prefix) * list (list suffix)) :=
  match l with
  | [] => Val (ps, ss)
  | c :: r =>
      let '(p, rest) := pop_prefix (compact (sp_pat c)) in
      match find_prefix p unique with
      | Some k =>
          match compile_suffix rest with
          | Err => Err
          | Panic => Panic
          | Val m => do ss' <- push_at k (sp_at c, sp_line c, m) ss; group_prefixes (S id) r unique ps ss'
          end
      | None =>
          if not_empty p then
            do m <- compile_suffix rest;
            group_prefixes (S id) r (unique ++ [(p, id)]) (ps ++ [(c, p)]) (ss ++ [[(sp_at c, sp_line c, m)]])
          else Err
      end
  end.

Inductive mset :=
| SLit (ls : list lit)
| SRegex (ats : list nat) (m : rmatcher)
| SSubPrefix (ls : list lit) (ss : list (list suffix))
| SRegexPrefix (ats : list nat) (m : rmatcher) (ss : list (list suffix))
| SAnyPrefix (ps : list suffix) (ss : list (list suffix)).
Definition is_always (s : suffix) : bool := match snd s with MAlways _ => true | _ => false end.
Definition is_lit (p : prefix) : bool := match p with FLit _ => true | _ => false end.
Definition is_sub (p : prefix) : bool := match p with FLit _ | FSub _ => true | _ => false end.
Definition is_regex (p : prefix) : bool := match p with FLit _ | FSub _ | FRegex _ _ => true | _ => false end.
(** prefix.rs:67-75 *)
Definition into_regex (p : prefix) : str * list capt :=
  match p with
  | FLit s | FSub s => (escape s, [])
  | FRegex s cs => (s, cs)
  | _ => ([], [])
  end.
Fixpoint map_res {A B} (f : A -> res B) (l : list A) : res (list B) :=
  match l with [] => Val [] | a :: r => do b <- f a; do bs <- map_res f r; Val (b :: bs) end.
(** all.rs:42-205 *)
Definition compile_set (l : list spat) : res mset :=
  do (ps, ss) <- group_prefixes 0 l [] [] [];
  let single := forallb (forallb is_always) ss in
  let lits := new_lits (map (fun p => (sp_at (fst p), prefix_text (snd p))) ps) in
  let regexes := new_rmatcher (map (fun p => into_regex (snd p)) ps) in
  let ats := map (fun p => sp_at (fst p)) ps in
  if forallb (fun p => is_lit (snd p)) ps then
    if single then do ls <- lits; Val (SLit ls) else Panic
  else if forallb (fun p => is_sub (snd p)) ps then
    if single then Panic else do ls <- lits; Val (SSubPrefix ls ss)
  else if forallb (fun p => is_regex (snd p)) ps then
    do m <- regexes; Val (if single then SRegex ats m else SRegexPrefix ats m ss)
  else
    do ms <- map_res (fun p => do m <- from_prefix (snd p); Val (sp_at (fst p), sp_line (fst p), m)) ps;
    Val (SAnyPrefix ms ss).

(** * Searching *)
Section Search.
Context (b : bytes).
(** a result with the variables it defines *)
Definition item := (mresult * list (vname * value))%type.
Definition no_item : item := (failed ENone, []).
Definition found_at (r : range) (id at_ : nat) : mresult := mkRes Good (Some (mkInfo r id at_)).

(** regex_set.rs:388-546: a match of the overlapping search with its groups *)
Definition regex_item (ats : list nat) (m : rmatcher) (h : nat * range) : res item :=
  let '(k, r) := h in
  match rm_defs m with
  | None => Val (found_at r k (nth k ats 0), [])
  | Some defs =>
      match rs_groups T (rm_set m) b k r with
      | Some ((Some s :: _) as l) =>
          match convert_groups b (capture_spans (nth k defs []) l) with
          | Some vs => Val (found_at s k (nth k ats 0), vs)
          | None => Val (failed (EMatch true), [])
          end
      | _ => Err
      end
  end.

(** * The parts of a pattern *)
(** [try_match_mut] of [Pattern] (pattern/mod.rs:161-180): the result with the variables it defines, and the
    bindings after it, which only a smart matcher changes.  An anchored search for a literal panics: the
    automaton (substring.rs:45-60) is built for unanchored searches. *)
Definition pattern_match (s : suffix) (r : range) (anchored : bool) (e : env) : option (res (item * env)) :=
  let '(at_, line, m) := s in
  match m with
  | MSub _ t =>
      if anchored then Some Panic
      else Some (Val ((match leftmost ci b t (rend r) (rend r - rstart r) (rstart r) with
                       | Some i => found_at (mkRange i (i + length t)) 0 at_
                       | None => failed ENone
                       end, []), e))
  | MRegex _ x gs =>
      Some (Val (match rx_search E x b r anchored with
                 | Some ((Some s :: _) as l) =>
                     match convert_groups b (capture_spans gs l) with
                     | Some vs => (found_at s 0 at_, vs)
                     | None => (failed (EMatch true), [])
                     end
                 | _ => (failed ENone, [])
                 end, e))
  | MSmart _ [] => Some Panic
  | MSmart _ (o :: rest) =>
      match search_rounds E ci fuel b line (smart_rounds b) o rest (rstart r) (rend r) anchored e with
      | None => None
      | Some x =>
          Some (do h <- x;
                match h with
                | None => Val ((failed ENone, []), e)
                | Some (s, m) =>
                    match convert_groups b (x_got m) with
                    | Some vs => Val ((found_at s 0 at_, vs), x_env m)
                    | None => Val ((failed (EMatch true), []), x_env m)
                    end
                end)
      end
  | MWhite _ => Some (do m <- white_match b at_ r; Val ((m, []), e))
  | MAlways _ => Some (Val ((found_at (mkRange (rstart r) (rstart r)) 0 at_, []), e))
  end.

(** * The searchers for the prefixes *)
Inductive searcher :=
| XLit (ls : list lit) (start : nat) (last : option nat)
| XRegex (ats : list nat) (m : rmatcher) (rest : list (nat * range)) (last : option nat)
| XAny (ps : list suffix) (start : nat) (excluded : list nat) (found : list item) (last : option nat).
(** [last_match_end] *)
Definition last_end (x : searcher) : option nat :=
  match x with XLit _ _ l | XRegex _ _ _ l | XAny _ _ _ _ l => l end.
(** search/pattern_set.rs:99-164: the next match of every pattern; [self.input] and not [input] is searched *)
Fixpoint search_all (k : nat) (ps : list suffix) (start e : nat) (excluded : list nat) (env0 : env)
  : option (res (list nat * list item)) :=
  match ps with
  | [] => Some (Val (excluded, []))
  | p :: r =>
      if existsb (Nat.eqb k) excluded then search_all (S k) r start e excluded env0
      else
        match pattern_match p (mkRange start e) false env0 with
        | None => None
        | Some Err => Some Err
        | Some Panic => Some Panic
        | Some (Val ((m, vs), _)) =>
            match m_info m with
            | None => search_all (S k) r start e (excluded ++ [k]) env0
            | Some i =>
                match search_all (S k) r start e excluded env0 with
                | Some (Val (ex, l)) => Some (Val (ex, (mkRes (m_ty m) (Some (mkInfo (i_span i) k (i_pspan i))), vs) :: l))
                | other => other
                end
            end
        end
  end.
(** search/pattern_set.rs:169-216: errors first, then by the length of the match, by its start, and by the
    number of the pattern, which no two results share *)
Definition rank (x : item) : bool * nat * nat * nat :=
  match m_info (fst x) with
  | Some i => (negb (m_is_ok (fst x)), rend (i_span i) - rstart (i_span i), rstart (i_span i), i_id i)
  | None => (false, 0, 0, 0)
  end.
Definition goes_first (x y : item) : bool :=
  let '(f, n, s, k) := rank x in
  let '(g, m, t, l) := rank y in
  if xorb f g then f
  else if Nat.eqb n m then (if Nat.eqb s t then k <? l else s <? t) else n <? m.
Fixpoint insert_item (x : item) (l : list item) : list item :=
  match l with [] => [x] | y :: r => if goes_first x y then x :: l else y :: insert_item x r end.
Definition sort_items (l : list item) : list item := fold_right insert_item [] l.
Definition smallest_end (start : nat) (l : list item) : nat :=
  fold_left (fun s x => match m_info (fst x) with Some i => Nat.min (rend (i_span i)) s | None => s end) l start.
Definition pop_found (ps : list suffix) (start : nat) (ex : list nat) (l : list item) (last : option nat) : item * searcher :=
  match l with
  | [] => (no_item, XAny ps start ex [] last)
  | x :: r =>
      (x, XAny ps start ex r
            match m_info (fst x) with
            | Some i => Some match last with Some z => Nat.max z (rend (i_span i)) | None => rend (i_span i) end
            | None => last
            end)
  end.
(** [try_match_next]: search/substring_set.rs:126-154 (case sensitive: line 32) with search/default.rs:48-66,
    regex_set.rs:388-546, search/pattern_set.rs:86-232 *)
Definition next (e : nat) (x : searcher) (env0 : env) : option (res (item * searcher)) :=
  match x with
  | XLit ls start last =>
      match leftmost_set false b ls e (e - start) start with
      | Some (i, k, p) =>
          let stop := i + length (lit_text p) in
          Some (Val ((found_at (mkRange i stop) k (lit_span p), []), XLit ls stop (Some stop)))
      | None => Some (Val (no_item, x))
      end
  | XRegex ats m rest last =>
      match rest with
      | [] => Some (Val (no_item, x))
      | h :: rest' => Some (do i <- regex_item ats m h; Val (i, XRegex ats m rest' (Some (rend (snd h)))))
      end
  | XAny ps start ex (_ :: _ as l) last => Some (Val (pop_found ps start ex l last))
  | XAny ps start ex [] last =>
      match search_all 0 ps start e ex env0 with
      | None => None
      | Some r => Some (do (ex', l) <- r; Val (pop_found ps (smallest_end start l) ex' (sort_items l) last))
      end
  end.

(** * CHECK-NOT *)
(** any.rs:260-307: [inl]: no suffix was found *)
Fixpoint any_suffix (p : minfo) (id : nat) (ss : list suffix) (r : range) (e : env) : option (res (env + mresult * env)) :=
  match ss with
  | [] => Some (Val (inl e))
  | s :: rest =>
      match pattern_match s r true e with
      | None => None
      | Some Err => Some Err
      | Some Panic => Some Panic
      | Some (Val ((m, _), e')) =>
          match m_info m with
          | Some i =>
              Some (Val (inr (match m_ty m with
                              | Good => found_at (mkRange (rstart (i_span p)) (rend (i_span i))) id (i_pspan i)
                              | ty => mkRes ty (Some (mkInfo (i_span i) id (i_pspan i)))
                              end, e')))
          | None => any_suffix p (S id) rest r e'
          end
      end
  end.
(** any.rs:225-258; [None]: [n] rounds were not enough *)
Fixpoint any_loop (n : nat) (x : searcher) (ss : list (list suffix)) (end_ : nat) (e : env) : option (res (mresult * env)) :=
  match n with
  | 0 => None
  | S n' =>
      match next end_ x e with
      | None => None
      | Some Err => Some Err
      | Some Panic => Some Panic
      | Some (Val ((m, _), x')) =>
          match m_info m with
          | None => Some (Val (m, e))
          | Some i =>
              match m_ty m with
              | Good =>
                  match last_end x', nth_error ss (i_id i) with
                  | Some stop, Some l =>
                      match any_suffix i (i_id i) l (mkRange stop end_) e with
                      | None => None
                      | Some Err => Some Err
                      | Some Panic => Some Panic
                      | Some (Val (inr r)) => Some (Val r)
                      | Some (Val (inl e')) => any_loop n' x' ss end_ e'
                      end
                  | _, _ => Some Panic
                  end
              | _ => any_loop n' x' ss end_ e
              end
          end
      end
  end.
(** any.rs:195-223, matchers/substring_set.rs:131-157, regex_set.rs:349-362 *)
Definition any_match (n : nat) (s : mset) (r : range) (e : env) : option (res (mresult * env)) :=
  match s with
  | SLit ls =>
      Some (Val (match leftmost_set ci b ls (rend r) (rend r - rstart r) (rstart r) with
                 | Some (i, k, p) => found_at (mkRange i (i + length (lit_text p))) k (lit_span p)
                 | None => failed ENone
                 end, e))
  | SRegex ats m =>
      match rs_matches T (rm_set m) b r with
      | [] => Some (Val (failed ENone, e))
      | h :: _ => Some (do x <- regex_item ats m h; Val (fst x, bind_all e (snd x)))
      end
  | SSubPrefix ls ss => any_loop n (XLit ls (rstart r) None) ss (rend r) e
  | SRegexPrefix ats m ss => any_loop n (XRegex ats m (rs_matches T (rm_set m) b r) None) ss (rend r) e
  | SAnyPrefix ps ss => any_loop n (XAny ps (rstart r) [] [] None) ss (rend r) e
  end.

(** * CHECK-DAG *)
(** visitors/static.rs:49-167 on the matches of a set of regular expressions; [k] is the number of patterns.
    A result that failed has no span, and ends the visit (static.rs:159-162). *)
Fixpoint visit_regex (k : nat) (ats : list nat) (m : rmatcher) (hs : list (nat * range)) (got : matches) (e : env)
  : res (matches * env * option nat) :=
  match hs with
  | [] => Val (if k =? length got then got else missing k 0 got got, e, None)
  | h :: rest =>
      do (x, vs) <- regex_item ats m h;
      match m_info x with
      | None => Val (ms_push got x, e, None)
      | Some i =>
          if (existsb (same_id (i_id i)) got || existsb (inside (rstart (i_span i)) (rend (i_span i))) got)%bool
          then visit_regex k ats m rest got e
          else
            let got' := ms_push got x in
            let e' := bind_all e vs in
            if k =? length got' then Val (got', e', Some (rend (snd h)))
            else visit_regex k ats m rest got' e'
      end
  end.

(** visitors/dynamic.rs:38-46: the suffixes that were found, for every prefix; the last error of every suffix *)
Record dyn := mkDyn { d_search : searcher; d_matched : list (list (range * nat)); d_errors : list (list (option err)) }.
Definition set_nth {A} (k : nat) (x : A) (l : list A) : list A := firstn k l ++ x :: skipn (S k) l.
Definition row {A} (k : nat) (l : list (list A)) : list A := nth k l [].
(** visitors/dynamic.rs:245-306: [inl]: no prefix was found *)
Fixpoint next_prefix (n : nat) (end_ : nat) (ss : list (list suffix)) (matched : list (list (range * nat))) (x : searcher) (e : env)
  : option (res ((searcher + nat * searcher) * env)) :=
  match n with
  | 0 => None
  | S n' =>
      match next end_ x e with
      | None => None
      | Some Err => Some Err
      | Some Panic => Some Panic
      | Some (Val ((m, vs), x')) =>
          match m_info m with
          | None => Some (Val (inl x', e))
          | Some i =>
              (* a failed result with a span: the loop of dynamic.rs:119 goes on *)
              if negb (m_is_ok m) then next_prefix n' end_ ss matched x' e
              else
                let k := i_id i in
                let '(s, t) := (rstart (i_span i), rend (i_span i)) in
                if Nat.eqb (length (row k matched)) (length (row k ss)) then next_prefix n' end_ ss matched x' e
                else if existsb (fun q => range_contains (fst q) s || range_contains (fst q) t)%bool (row k matched)
                then next_prefix n' end_ ss matched x' e
                else Some (Val (inr (k, x'), bind_all e vs))
          end
      end
  end.
(** visitors/dynamic.rs:128-163, 216-243: the suffixes of the prefix; [penv] are the bindings of the prefix, [e]
    those of the guard in which the suffixes are matched *)
Fixpoint try_suffixes (k : nat) (ss : list suffix) (done : list (range * nat)) (errs : list (option err)) (r : range) (penv e : env)
  : option (res (list (option (minfo * env)) * list (option err))) :=
  match ss, errs with
  | s :: ss', er :: errs' =>
      let later er' st e' :=
        match try_suffixes (S k) ss' done errs' r penv e' with
        | Some (Val (sts, ers)) => Some (Val (st :: sts, er' :: ers))
        | other => other
        end in
      if existsb (fun q => Nat.eqb (snd q) k) done then later er None e
      else
        match pattern_match s r true e with
        | None => None
        | Some Err => Some Err
        | Some Panic => Some Panic
        | Some (Val ((m, _), e')) =>
            match m_ty m, m_info m with
            | Failed x, _ => later (Some x) None (if scoped then b_clear e' else e')
            | _, Some i => later None (Some (i, e')) penv
            | _, None => Some Panic
            end
        end
  | _, _ => Some (Val ([], []))
  end.
(** visitors/dynamic.rs:308-340: the longest, the last of them if several are ([max_by]) *)
Fixpoint select (k : nat) (l : list (option (minfo * env))) : option (nat * minfo * env) :=
  match l with
  | [] => None
  | x :: r =>
      let best := select (S k) r in
      match x, best with
      | None, _ => best
      | Some (i, e), None => Some (k, i, e)
      | Some (i, e), Some (_, j, _) =>
          if rend (i_span j) - rstart (i_span j) <? rend (i_span i) - rstart (i_span i) then Some (k, i, e) else best
      end
  end.
Definition all_found (ss : list (list suffix)) (matched : list (list (range * nat))) : bool :=
  forallb (fun p => Nat.eqb (length (fst p)) (length (snd p))) (combine ss matched).
(** visitors/dynamic.rs:187-213 *)
Fixpoint unmatched (k : nat) (errs : list (option err)) (done : list (range * nat)) : list mresult :=
  match errs with
  | [] => []
  | Some x :: r => failed x :: unmatched (S k) r done
  | None :: r => (if existsb (fun q => Nat.eqb (snd q) k) done then [] else [failed ENone]) ++ unmatched (S k) r done
  end.
(** visitors/dynamic.rs:96-214 *)
Fixpoint dyn_loop (n : nat) (end_ start : nat) (ss : list (list suffix)) (d : dyn) (got : matches) (e : env)
  : option (res (matches * env)) :=
  match n with
  | 0 => None
  | S n' =>
      match next_prefix n end_ ss (d_matched d) (d_search d) e with
      | None => None
      | Some Err => Some Err
      | Some Panic => Some Panic
      | Some (Val (inl x', _)) =>
          Some (Val (fold_left ms_push (flat_map (fun p => unmatched 0 (fst p) (snd p)) (combine (d_errors d) (d_matched d))) got, e))
      | Some (Val (inr (k, x'), penv)) =>
          let at_ := match last_end x' with Some z => z | None => start end in
          match try_suffixes 0 (row k ss) (row k (d_matched d)) (row k (d_errors d)) (mkRange at_ end_) penv penv with
          | None => None
          | Some Err => Some Err
          | Some Panic => Some Panic
          | Some (Val (sts, ers)) =>
              let errors := set_nth k ers (d_errors d) in
              match select 0 sts with
              | None => dyn_loop n' end_ start ss (mkDyn x' (d_matched d) errors) got e
              | Some (j, i, se) =>
                  let matched := set_nth k (row k (d_matched d) ++ [(i_span i, j)]) (d_matched d) in
                  let e' := b_merge e (b_merge penv se) in
                  let got' := ms_push got (mkRes Good (Some i)) in
                  if all_found ss matched then Some (Val (got', e'))
                  else dyn_loop n' end_ start ss (mkDyn x' matched errors) got' e'
              end
          end
      end
  end.
Definition dyn_visit (n : nat) (x : searcher) (r : range) (ss : list (list suffix)) (e : env) : option (res (matches * env * option nat)) :=
  match dyn_loop n (rend r) (rstart r) ss (mkDyn x (map (fun _ => []) ss) (map (map (fun _ => None)) ss)) [] e with
  | None => None
  | Some x => Some (do (ms, e') <- x; Val (ms, e', None))
  end.
(** rules/dag.rs:31-85: where the cursor is put, if it is moved *)
Definition dag_match (n : nat) (s : mset) (r : range) (e : env) : option (res (matches * env * option nat)) :=
  match s with
  | SLit ls => Some (do (ms, pos) <- visit (S (rend r - rstart r)) b ls (rend r) (rstart r) []; Val (ms, e, pos))
  | SRegex ats m => Some (visit_regex (length ats) ats m (rs_matches T (rm_set m) b r) [] e)
  | SSubPrefix ls ss => dyn_visit n (XLit ls (rstart r) None) r ss e
  | SRegexPrefix ats m ss => dyn_visit n (XRegex ats m (rs_matches T (rm_set m) b r) None) r ss e
  | SAnyPrefix ps ss => dyn_visit n (XAny ps (rstart r) [] [] None) r ss e
  end.
End Search.
End Sets.

(** * The sets of Regex_Model *)
(** The matches by their ends; at an end, by the number of the pattern; then the shortest first.  (The order of
    the patterns at the same end depends on how the automaton was built; see PatSet_Spec.) *)
Definition lang_b (ci : bool) (b : bytes) (e : nat) (r : re) (i j : nat) : bool :=
  existsb (fun p => Nat.eqb (fst p) j) (ends ci b e r i no_caps).
Definition down (s j : nat) : list nat := rev (seq s (S j - s)).
Definition set_matches (l : list compiled) (b : bytes) (r : range) : list (nat * range) :=
  flat_map (fun j => flat_map (fun p => map (fun i => (fst p, mkRange i j))
                                            (filter (fun i => lang_b (x_ci (snd p)) b (rend r) (x_re (snd p)) i j) (down (rstart r) j)))
                              (combine (seq 0 (length l)) l))
           (seq (rstart r) (S (rend r) - rstart r)).
Fixpoint build_all (ci : bool) (l : list str) : option (list compiled) :=
  match l with
  | [] => Some []
  | s :: r => match build ci s, build_all ci r with Some x, Some xs => Some (x :: xs) | _, _ => None end
  end.
(** The groups are those of the preferred match in the span. *)
Definition ascii_set : set_engine :=
  mkSetEngine (list compiled) build_all
    (fun l k => match nth_error l k with Some x => x_names x | None => [] end)
    set_matches
    (fun l b k r => match nth_error l k with Some x => re_search x b r true | None => None end).
