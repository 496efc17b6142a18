(** Model of the lexer and the parser of check files: filecheck/src/parse/lexer/mod.rs, patterns.rs,
    delimiter.rs and filecheck/src/parse/parser.rs.

    The source is a Rust string and is modelled by its code points: every boundary the lexer cuts at
    lies next to an ASCII character.  Spans are left out, and errors are only known to be errors
    ([None]).  The lexer never looks at the parser, so its tokens are modelled as one list, although the
    parser pulls them lazily (a parser that stops early ignores the rest of the list).  The regular
    expressions of patterns.rs:17-43 are modelled by the functions they stand for: the command line
    restricts prefixes to a letter followed by letters, digits, '-' and '_' (lib.rs:395-419), so they
    stand for themselves.  The match order is that of regex-automata: the leftmost match, there the
    first pattern of the set, there the first alternative. *)
From Coq Require Import String.
From Verif Require Import Base Num_Model Env_Model Gram_Model Script_Model.
From Verif Require BoolExpr_Model.
Open Scope string_scope.
Open Scope list_scope.
Notation length := List.length.
Notation is_ws := BoolExpr_Model.is_whitespace.

(** lib.rs:125-180, the options the parser uses *)
Record config := mkConfig {
  check_prefixes : list str;
  comment_prefixes : list str;
  strict_whitespace : bool;
  match_full_lines : bool;
  allow_unused : bool }.

(** [u8::is_ascii_whitespace]: space, \t, \n, form feed, \r (not the vertical tab) *)
Definition is_ascii_ws (c : N) : bool :=
  (N.eqb c 32 || N.eqb c 9 || N.eqb c 10 || N.eqb c 12 || N.eqb c 13)%N.
Fixpoint skip_ascii (s : str) : str :=
  match s with c :: r => if is_ascii_ws c then skip_ascii r else s | [] => [] end.
(** [strip_prefix(' ').unwrap_or] *)
Definition strip_space (s : str) : str := match s with c :: r => if N.eqb c 32 then r else s | [] => [] end.

(** the text up to the next line feed, and the rest from there on *)
Fixpoint to_eol (s : str) : str * str :=
  match s with
  | [] => ([], [])
  | c :: r => if N.eqb c 10 then ([], s) else let '(a, b) := to_eol r in (c :: a, b)
  end.

(** * Directives: patterns.rs *)
Fixpoint first_some {A B} (f : A -> option B) (l : list A) : option B :=
  match l with [] => None | x :: r => match f x with Some y => Some y | None => first_some f r end end.

Fixpoint span (p : N -> bool) (s : str) : str * str :=
  match s with
  | [] => ([], [])
  | c :: r => if p c then let '(a, b) := span p r in (c :: a, b) else ([], s)
  end.

(** patterns.rs:20, MODIFIERS: what follows the first or a later LITERAL; white space before the
    closing brace is allowed after a later one only *)
Fixpoint mods_tail (fuel : nat) (blank_ok : bool) (s : str) : option str :=
  match fuel with
  | O => None
  | S k =>
      match strip_prefix (of_string "}") (if blank_ok then trim_start s else s) with
      | Some r => Some r
      | None =>
          match strip_prefix (of_string ",") (trim_start s) with
          | Some r =>
              match strip_prefix (of_string "LITERAL") (trim_start r) with
              | Some r' => mods_tail k true r'
              | None => None
              end
          | None => None
          end
      end
  end.
(** an optional modifier block and the colon: whether there is one, and what follows *)
Definition mods_colon (s : str) : option (bool * str) :=
  let colon (b : bool) s := option_map (pair b) (strip_prefix (of_string ":") s) in
  match strip_prefix (of_string "{") s with
  | Some r =>
      match strip_prefix (of_string "LITERAL") (trim_start r) with
      | Some r' => match mods_tail (S (length r')) false r' with Some r'' => colon true r'' | None => None end
      | None => None
      end
  | None => colon false s
  end.

(** what was found: a comment with its text, or a directive with its prefix, whether it is LITERAL
    and, for CHECK-COUNT, the digits of its count; and what follows *)
Inductive shape := ShKind (k : ckind) | ShCount (digits : str).
Inductive found :=
| FComment (text : str)
| FCheck (prefix : str) (k : shape) (literal : bool).

(** patterns.rs:135-159: the directives in the order of the pattern set *)
Definition suffixes : list (option ckind * str) :=
  [(None, of_string "-COUNT-"); (Some CEmpty, of_string "-EMPTY"); (Some CLabel, of_string "-LABEL");
   (Some CPlain, []); (Some CNext, of_string "-NEXT"); (Some CSame, of_string "-SAME");
   (Some CDag, of_string "-DAG"); (Some CNot, of_string "-NOT")].

(** patterns.rs:75-97: the prefixes, with the defaults *)
Definition comments_of (cfg : config) : list str :=
  match comment_prefixes cfg with [] => [of_string "COM"; of_string "RUN"] | l => l end.
Definition checks_of (cfg : config) : list str :=
  match check_prefixes cfg with [] => [of_string "CHECK"] | l => l end.
(** patterns.rs:23-26: a comment prefix at [s] *)
Definition comment_at (cfg : config) (s : str) : option (found * str) :=
  first_some (fun p =>
    match strip_prefix (p ++ of_string ":") s with
    | Some r => let '(t, rest) := to_eol r in Some (FComment t, rest)
    | None => None
    end) (comments_of cfg).
(** patterns.rs:27-43: the directive with the given suffix at [s] *)
Definition suffix_at (cfg : config) (sfx : option ckind * str) (s : str) : option (found * str) :=
  first_some (fun p =>
    match strip_prefix (p ++ snd sfx) s with
    | None => None
    | Some r =>
        match fst sfx with
        | Some k => option_map (fun m => (FCheck p (ShKind k) (fst m), snd m)) (mods_colon r)
        | None =>
            match span is_dec r with
            | ([], _) => None
            | (ds, r') => option_map (fun m => (FCheck p (ShCount ds) (fst m), snd m)) (mods_colon r')
            end
        end
    end) (checks_of cfg).

(** patterns.rs:19, WORD_BOUNDARY: one pattern tried at a position; [prev] is the character before it *)
Definition boundary {A} (at_ : str -> option A) (prev : option N) (s : str) : option A :=
  match (if match prev with None => true | Some c => N.eqb c 10 end then at_ s else None) with
  | Some x => Some x
  | None => match s with c :: r => if is_ws c then at_ r else None | [] => None end
  end.
(** lexer/mod.rs:88-94: the whole pattern set at a position *)
Definition match_at (cfg : config) (prev : option N) (s : str) : option (found * str) :=
  match boundary (comment_at cfg) prev s with
  | Some x => Some x
  | None => first_some (fun sfx => boundary (suffix_at cfg sfx) prev s) suffixes
  end.
(** the leftmost match *)
Fixpoint search (cfg : config) (prev : option N) (s : str) : option (found * str) :=
  match match_at cfg prev s with
  | Some x => Some x
  | None => match s with [] => None | c :: r => search cfg (Some c) r end
  end.

(** * Match blocks: lexer/mod.rs:586-766 *)
Definition is_alpha (c : N) : bool := (((65 <=? c) && (c <=? 90)) || ((97 <=? c) && (c <=? 122)))%N.
Definition is_ident_start (c : N) : bool := is_alpha c || N.eqb c 95.
Definition is_ident_char (c : N) : bool := is_ident_start c || is_dec c.
Definition is_hex (c : N) : bool := (is_dec c || ((65 <=? c) && (c <=? 70)) || ((97 <=? c) && (c <=? 102)))%N.
Definition is_bin (c : N) : bool := N.eqb c 48 || N.eqb c 49.
(** lexer/mod.rs:686-742: a number; its first character is a decimal digit *)
Definition lex_number (s : str) : token * str :=
  let '(radix, (ds, r)) :=
    match strip_prefix (of_string "0x") s, strip_prefix (of_string "0b") s with
    | Some r, _ => (16%Z, span is_hex r)
    | _, Some r => (2%Z, span is_bin r)
    | _, _ => (10%Z, span is_dec s)
    end in
  (match from_str_radix radix ds with inl v => TNum v | inr _ => TBad end, r).
(** lexer/mod.rs:586-766.  [strip]: white space is allowed here *)
Fixpoint lex_block (fuel : nat) (numeric strip : bool) (s : str) : list token :=
  match fuel with
  | O => []
  | S k =>
      match s with
      | [] => []
      | c :: r =>
          let one t st := t :: lex_block k numeric st r in
          if N.eqb c 35 then one THash false
          else if N.eqb c 37 then one TPercent false
          else if N.eqb c 46 then one TDot false
          else if N.eqb c 44 then one TComma strip
          else if N.eqb c 43 then one TPlus true
          else if N.eqb c 45 then one TMinus true
          else if N.eqb c 64 then one TAt false
          else if N.eqb c 36 then one TDollar false
          else if N.eqb c 61 && match r with d :: _ => N.eqb d 61 | [] => false end
          then TEquals :: lex_block k numeric true (tl r)
          else if N.eqb c 40 then one TLParen true
          else if N.eqb c 41 then one TRParen true
          else if N.eqb c 58 then (if numeric then one TColon true else [TColon; TRaw r])
          else if is_ident_start c then
            let '(w, r') := span is_ident_char s in keyword_or_ident w :: lex_block k numeric true r'
          else if is_dec c then
            let '(t, r') := lex_number s in t :: lex_block k numeric true r'
          else if is_ascii_ws c && strip then lex_block k numeric strip r
          else [TBad; TRaw r]
      end
  end.

(** * Patterns: lexer/mod.rs:355-584 *)
(** delimiter.rs, with the leftmost-longest search of lexer/mod.rs:100-107 *)
Inductive delim := DNum | DMatch | DEndMatch | DRegex | DEndRegex.
Definition delim_text (d : delim) : str :=
  of_string (match d with DNum => "[[#" | DMatch => "[[" | DEndMatch => "]]" | DRegex => "{{" | DEndRegex => "}}" end).
Definition delim_at (s : str) : option (delim * str) :=
  first_some (fun d => option_map (pair d) (strip_prefix (delim_text d) s)) [DNum; DMatch; DEndMatch; DRegex; DEndRegex].

(** lexer/mod.rs:24-48, FALSE_MATCH_END_PATTERN, on the text [s] between the start of the block and a
    "]]": some '[' of it is followed by one or more characters, none of them an unescaped ']'.  The
    alternative for named classes adds nothing to this one. *)
Fixpoint class_items (s : str) : bool :=
  match s with
  | [] => true
  | c :: r =>
      if N.eqb c 93 then false
      else if N.eqb c 92 then match r with [] => false | _ :: r' => class_items r' end
      else class_items r
  end.
Fixpoint false_end (s : str) : bool :=
  match s with
  | [] => false
  | c :: r => (N.eqb c 91 && negb (Nat.eqb (length r) 0) && class_items r) || false_end r
  end.

(** lexer/mod.rs:422-438, 467-483: the literal text before a block *)
Definition literal_before (first : bool) (s : str) : list token :=
  match s with
  | [] => []
  | _ => if forallb is_ascii_ws s && first then [] else [TRaw (if first then strip_space s else s)]
  end.
(** lexer/mod.rs:551-566: the literal text at the end of the line *)
Definition literal_after (first : bool) (s : str) : list token :=
  match trim s with
  | [] => []
  | _ => [TRaw (if first then strip_space s else s)]
  end.
(** lexer/mod.rs:388-583.  [acc] is, reversed, the text since the end of the last block or since the
    start of the current one *)
Inductive mode := Outside | InMatch (numeric : bool) | InRegex.
Fixpoint lex_parts (fuel : nat) (m : mode) (first : bool) (acc s : str) : list token :=
  match fuel with
  | O => []
  | S k =>
      match s with
      | [] =>
          match m with
          | Outside => literal_after first (rev acc)
          | _ => [TErr]
          end
      | c :: r =>
          let advance := lex_parts k m first (c :: acc) r in
          match delim_at s with
          | None => advance
          | Some (d, rest) =>
              let skip := lex_parts k m first (rev (delim_text d) ++ acc) rest in
              match m, d with
              | Outside, DNum =>
                  literal_before first (rev acc) ++ TMatchStart :: THash :: lex_parts k (InMatch true) false [] rest
              | Outside, DMatch =>
                  if match rest with b :: _ => N.eqb b 91 | [] => false end then advance
                  else literal_before first (rev acc) ++ TMatchStart :: lex_parts k (InMatch false) false [] rest
              | Outside, DRegex =>
                  literal_before first (rev acc) ++ TRegexStart :: lex_parts k InRegex false [] rest
              | InMatch numeric, DEndMatch =>
                  if false_end (rev acc) then advance
                  else lex_block (S (length acc)) numeric true (rev acc) ++ TMatchEnd :: lex_parts k Outside first [] rest
              | InRegex, DEndRegex =>
                  TRaw (trim (rev acc)) :: TRegexEnd :: lex_parts k Outside first [] rest
              | _, _ => skip
              end
          end
      end
  end.
(** lexer/mod.rs:355-386: the pattern of a directive, given the rest of its line *)
Definition lex_pattern (cfg : config) (literal : bool) (line : str) : list token :=
  let strict := strict_whitespace cfg || match_full_lines cfg in
  if literal then [TRaw (if strict then strip_space line else trim_start line)]
  else
    let s := if strict then strip_space line else skip_ascii line in
    lex_parts (S (length s)) Outside true [] s.

(** * The file: lexer/mod.rs:173-353, 768-792 *)
(** [u8::from_str] on decimal digits *)
Definition dec_value (ds : str) : Z := fold_left (fun v c => (v * 10 + (Z.of_N c - 48))%Z) ds 0%Z.
(** lexer/mod.rs:173-353: the tokens from a position on, with the prefixes seen.  Every search starts at
    the beginning of a line or at its end.  The character before the end of a line is never looked at. *)
Fixpoint lex_file (cfg : config) (fuel : nat) (prev : option N) (s : str) : list token * list str :=
  match fuel with
  | O => ([], [])
  | S k =>
      match s with
      | [] => ([], [])
      | c :: r =>
          if N.eqb c 0 then ([], []) else
          let '(lf, (prev1, s1)) := if N.eqb c 10 then ([TLf], (Some 10%N, r)) else ([], (prev, s)) in
          let s2 := skip_ascii s1 in
          let prev2 := if Nat.eqb (length s2) (length s1) then prev1
                       else nth_error s1 (length s1 - length s2 - 1) in
          match search cfg prev2 s2 with
          | None => (lf, [])
          | Some (FComment t, rest) =>
              let '(ts, seen) := lex_file cfg k (Some 58%N) rest in
              (lf ++ TComment (strip_space t) :: ts, seen)
          | Some (FCheck p sh literal, rest) =>
              let '(line, rest') := to_eol rest in
              let '(ts, seen) := lex_file cfg k (Some 58%N) rest' in
              let mods := if literal then [TModifier] else [] in
              match sh with
              | ShCount ds =>
                  if (dec_value ds <=? 255)%Z
                  then (lf ++ TCheck (CCount (Z.to_nat (dec_value ds))) :: mods ++ TColon :: lex_pattern cfg literal line ++ ts, p :: seen)
                  else (lf ++ TBad :: ts, p :: seen)
              | ShKind kd => (lf ++ TCheck kd :: mods ++ TColon :: lex_pattern cfg literal line ++ ts, p :: seen)
              end
          end
      end
  end.
(** lexer/mod.rs:129-135: the configured prefixes that were not seen; only the first of two equal ones
    is ever marked *)
Fixpoint unused_prefixes (earlier prefixes seen : list str) : list str :=
  match prefixes with
  | [] => []
  | p :: r =>
      let rest := unused_prefixes (p :: earlier) r seen in
      if existsb (str_eqb p) seen && negb (existsb (str_eqb p) earlier) then rest else p :: rest
  end.

(** * The parser: parser.rs *)
(** ast/pattern.rs [CheckPatternPart], [CheckPattern]; ast/file.rs [CheckLine] (the comments kept with a
    line are left out) *)
Inductive part := QLit (s : str) | QRegex (s : str) | QMatch (m : pmatch).
Inductive cpat := PEmpty | PLit (s : str) | PRegex (s : str) | PParts (l : list part).
Record cline := mkCLine { cl_kind : ckind; cl_literal : bool; cl_pat : cpat }.

(** parser.rs:331-383: the tokens of a block, with its "]]", and what follows *)
Fixpoint block_tokens (ts : list token) : option (list token * list token) :=
  match ts with
  | [] | TLf :: _ | TErr :: _ | TBad :: _ => None
  | TMatchEnd :: r => Some ([TMatchEnd], r)
  | t :: r => match block_tokens r with Some (b, r') => Some (t :: b, r') | None => None end
  end.
(** parser.rs:229-277: the parts of a pattern *)
Fixpoint parse_parts (fuel : nat) (ts : list token) : option (list part * list token) :=
  let add q (o : option (list part * list token)) := match o with Some (l, r) => Some (q :: l, r) | None => None end in
  match fuel with
  | O => None
  | S k =>
      match ts with
      | [] => Some ([], [])
      | TErr :: _ => Some ([], ts)
      | TLf :: r => Some ([], r)
      | TRaw s :: r => add (QLit s) (parse_parts k r)
      | TRegexStart :: TRaw s :: TRegexEnd :: r => add (QRegex s) (parse_parts k r)
      | TMatchStart :: r =>
          match block_tokens r with
          | Some (b, r') => match parse_match (TMatchStart :: b) with Some m => add (QMatch m) (parse_parts k r') | None => None end
          | None => None
          end
      | _ => None
      end
  end.
(** parser.rs:174-186: the modifiers and the colon *)
Fixpoint parse_mods (ts : list token) : option (bool * list token) :=
  match ts with
  | TModifier :: r => match parse_mods r with Some (_, r') => Some (true, r') | None => None end
  | TColon :: r => Some (false, r)
  | _ => None
  end.
(** parser.rs:162-329 *)
Definition parse_check (k : ckind) (ts : list token) : option (cline * list token) :=
  match parse_mods ts with
  | None => None
  | Some (literal, r) =>
      match k with
      | CCount 0 => None
      | _ =>
          if literal then
            match r with
            | TRaw s :: r' => match k with CEmpty => None | _ => Some (mkCLine k true (PLit s), r') end
            | TLf :: r' => match k with CEmpty => Some (mkCLine k true PEmpty, r') | _ => None end
            | _ => None
            end
          else
            match parse_parts (S (length r)) r with
            | None => None
            | Some (parts, r') =>
                match k, parts with
                | CEmpty, [] => Some (mkCLine k false PEmpty, r')
                | CEmpty, _ | _, [] => None
                | _, [QLit s] => Some (mkCLine k false (PLit s), r')
                | _, [QRegex s] => Some (mkCLine k false (PRegex s), r')
                | _, _ => Some (mkCLine k false (PParts parts), r')
                end
            end
      end
  end.
(** parser.rs:127-146 *)
Fixpoint parse_lines (fuel : nat) (ts : list token) : option (list cline) :=
  match fuel with
  | O => None
  | S k =>
      match ts with
      | [] => Some []
      | (TComment _ | TLf) :: r => parse_lines k r
      | TCheck c :: r =>
          match parse_check c r with
          | Some (l, r') => option_map (cons l) (parse_lines k r')
          | None => None
          end
      | _ => None
      end
  end.
(** parser.rs:119-160 *)
Definition parse_file (cfg : config) (s : str) : option (list cline) :=
  let '(ts, seen) := lex_file cfg (S (length s)) None s in
  match parse_lines (S (length ts)) ts with
  | None => None
  | Some l =>
      match unused_prefixes [] (check_prefixes cfg) seen with
      | _ :: _ => if allow_unused cfg then Some l else None
      | [] => Some l
      end
  end.
