(** The regular expressions of the [regex-automata] and [regex-syntax] crates, as far as filecheck
    uses them (pattern/matcher/matchers/regex.rs:33-43, smart/builder.rs:109-117, 223-231,
    smart/searcher.rs:412, 574-585): multi-line, optionally case insensitive, leftmost-first.

    The crates are not part of /repo; they are modelled from their documentation.  Characters are
    those of ASCII, where a character is a byte.  [engine] is what the matchers use of them;
    [ascii_engine] is an engine for a part of their syntax: literals, escapes, '.', bracket
    expressions with ranges and POSIX classes, groups, alternation, repetition, anchors and word
    boundaries.  A text outside of that part (flags, Unicode classes, set operations, ...) is not
    compiled by [ascii_engine]; nothing is claimed about it. *)
From Coq Require Import String.
From Verif Require Import Base Text_Model Lit_Model.
Open Scope list_scope.

(** What the matchers use of a regex engine: compiling (with or without case), the names of the
    groups (group 0 is the whole match), and searching a range of a buffer, anchored or not; a search
    returns the span of every group, that of group 0 first. *)
Record engine := mkEngine {
  rx : Type;
  rx_build : bool -> str -> option rx;
  rx_groups : rx -> list (option str);
  rx_search : rx -> bytes -> range -> bool -> option (list (option range)) }.

(** * Syntax *)
Record cset := mkSet { negated : bool; ranges : list (N * N) }.
Inductive look := LBol | LEol | LStart | LEnd | LWord | LNotWord.
Inductive re :=
| REps | RSet (s : cset) | RLook (l : look) | RCat (a b : re) | RAlt (a b : re)
| RRep (lo : nat) (hi : option nat) (greedy : bool) (r : re)
| RGroup (index : nat) (name : option str) (r : re).
Inductive rtok :=
| KSet (s : cset) | KLook (l : look) | KOpen (group : option (option str)) | KClose | KBar
| KPost (lo : nat) (hi : option nat) (greedy : bool).

Definition chr (c : N) : cset := mkSet false [(c, c)].
(** regex_syntax::is_meta_character *)
Definition meta : str := of_string "\.+*?()|[]{}^$#&-~".
Definition is_meta (c : N) : bool := existsb (N.eqb c) meta.
(** regex_syntax::escape_into *)
Definition escape (s : str) : str := flat_map (fun c => if is_meta c then [92%N; c] else [c]) s.

Definition digits_ : list (N * N) := [(48, 57)]%N.
Definition word_ : list (N * N) := [(48, 57); (65, 90); (95, 95); (97, 122)]%N.
Definition space_ : list (N * N) := [(9, 13); (32, 32)]%N.
(** the named classes of a bracket expression *)
Definition posix (name : str) : option (list (N * N)) :=
  let is s := str_eqb name (of_string s) in
  if is "alnum"%string then Some [(48, 57); (65, 90); (97, 122)]%N
  else if is "alpha"%string then Some [(65, 90); (97, 122)]%N
  else if is "blank"%string then Some [(9, 9); (32, 32)]%N
  else if is "digit"%string then Some digits_
  else if is "lower"%string then Some [(97, 122)]%N
  else if is "punct"%string then Some [(33, 47); (58, 64); (91, 96); (123, 126)]%N
  else if is "space"%string then Some space_
  else if is "upper"%string then Some [(65, 90)]%N
  else if is "word"%string then Some word_
  else if is "xdigit"%string then Some [(48, 57); (65, 70); (97, 102)]%N
  else None.
(** the escapes for one character *)
Definition escaped_char (c : N) : option N :=
  if is_meta c then Some c
  else if N.eqb c 110 then Some 10%N else if N.eqb c 116 then Some 9%N else if N.eqb c 114 then Some 13%N
  else if N.eqb c 102 then Some 12%N else if N.eqb c 118 then Some 11%N else if N.eqb c 97 then Some 7%N
  else None.
(** ... and for classes *)
Definition escaped_class (c : N) : option (list (N * N)) :=
  if N.eqb c 100 then Some digits_ else if N.eqb c 115 then Some space_ else if N.eqb c 119 then Some word_ else None.
Definition escaped_not_class (c : N) : option (list (N * N)) :=
  if N.eqb c 68 then Some digits_ else if N.eqb c 83 then Some space_ else if N.eqb c 87 then Some word_ else None.
Definition escaped_look (c : N) : option look :=
  if N.eqb c 98 then Some LWord else if N.eqb c 66 then Some LNotWord
  else if N.eqb c 65 then Some LStart else if N.eqb c 122 then Some LEnd else None.

Definition is_digit (c : N) : bool := ((48 <=? c) && (c <=? 57))%N.
Definition is_letter (c : N) : bool := ((65 <=? c) && (c <=? 90) || (97 <=? c) && (c <=? 122) || N.eqb c 95)%N%bool.
Fixpoint take_while (p : N -> bool) (s : str) : str * str :=
  match s with
  | c :: r => if p c then let '(a, b) := take_while p r in (c :: a, b) else ([], s)
  | [] => ([], [])
  end.
Definition number_of (ds : str) : nat := fold_left (fun n c => 10 * n + N.to_nat (c - 48)) ds 0.

(** One character of a bracket expression. *)
Definition class_char (s : str) : option (N * str) :=
  match s with
  | c :: r =>
      if N.eqb c 92 then match r with d :: r' => option_map (fun x => (x, r')) (escaped_char d) | [] => None end
      else Some (c, r)
  | [] => None
  end.
(** The items of a bracket expression up to its ']'; [first]: a ']' here is an ordinary character.  Set
    operations and nested brackets are outside of the part that is modelled. *)
Fixpoint class_items (fuel : nat) (first : bool) (s : str) (acc : list (N * N)) : option (list (N * N) * str) :=
  match fuel with
  | 0 => None
  | S k =>
      match s with
      | [] => None
      | c :: r =>
          if (N.eqb c 93 && negb first)%bool then Some (acc, r)
          else if N.eqb c 91 then
            match r with
            | d :: r' =>
                if N.eqb d 58 then
                  let '(name, r2) := take_while is_letter r' in
                  match posix name, r2 with
                  | Some l, x :: y :: r3 => if (N.eqb x 58 && N.eqb y 93)%bool then class_items k false r3 (acc ++ l) else None
                  | _, _ => None
                  end
                else None
            | [] => None
            end
          else if match r with d :: _ => (N.eqb c d && (N.eqb c 38 || N.eqb c 45 || N.eqb c 126))%bool | [] => false end then None
          else
            match (if N.eqb c 92 then match r with d :: r' => option_map (fun l => (l, r')) (escaped_class d) | [] => None end else None) with
            | Some (l, r') => class_items k false r' (acc ++ l)
            | None =>
                match class_char s with
                | None => None
                | Some (x, r1) =>
                    match r1 with
                    | d :: r2 =>
                        if (N.eqb d 45 && match r2 with y :: _ => negb (N.eqb y 93) && negb (N.eqb y 45) | [] => false end)%bool then
                          match class_char r2 with
                          | Some (y, r3) => if (x <=? y)%N then class_items k false r3 (acc ++ [(x, y)]) else None
                          | None => None
                          end
                        else class_items k false r1 (acc ++ [(x, x)])
                    | [] => None
                    end
                end
            end
      end
  end.
Definition lex_class (s : str) : option (cset * str) :=
  let '(neg, s1) := match s with c :: r => if N.eqb c 94 then (true, r) else (false, s) | [] => (false, s) end in
  option_map (fun p => (mkSet neg (fst p), snd p)) (class_items (S (List.length s1)) true s1 []).

(** after a repetition operator: '?' makes it lazy *)
Definition lazy_mark (s : str) : bool * str :=
  match s with c :: r => if N.eqb c 63 then (false, r) else (true, s) | [] => (true, s) end.
(** {n}, {n,}, {n,m}; [s] is what follows the '{' *)
Definition lex_count (s : str) : option (nat * option nat * str) :=
  let '(a, s1) := take_while is_digit s in
  match a, s1 with
  | _ :: _, c :: r =>
      if N.eqb c 125 then Some (number_of a, Some (number_of a), r)
      else if N.eqb c 44 then
        let '(b, s2) := take_while is_digit r in
        match s2 with
        | d :: r2 =>
            if N.eqb d 125 then
              match b with
              | [] => Some (number_of a, None, r2)
              | _ => if number_of a <=? number_of b then Some (number_of a, Some (number_of b), r2) else None
              end
            else None
        | [] => None
        end
      else None
  | _, _ => None
  end.
(** what follows a '(': a plain group, (?:, (?P<name> or (?<name> *)
Definition lex_name (s : str) : option (str * str) :=
  let '(n, r) := take_while (fun c => is_letter c || is_digit c)%bool s in
  match n, r with
  | c :: _, d :: r' => if (N.eqb d 62 && is_letter c)%bool then Some (n, r') else None
  | _, _ => None
  end.
Definition lex_open (s : str) : option (option (option str) * str) :=
  match s with
  | c :: r =>
      if N.eqb c 63 then
        match r with
        | d :: r1 =>
            if N.eqb d 58 then Some (None, r1)
            else if N.eqb d 60 then option_map (fun p => (Some (Some (fst p)), snd p)) (lex_name r1)
            else if N.eqb d 80 then
              match r1 with
              | f :: r2 => if N.eqb f 60 then option_map (fun p => (Some (Some (fst p)), snd p)) (lex_name r2) else None
              | [] => None
              end
            else None
        | [] => None
        end
      else Some (Some None, s)
  | [] => Some (Some None, s)
  end.
(** The next token. *)
Definition lex_one (c : N) (r : str) : option (rtok * str) :=
  if N.eqb c 92 then
    match r with
    | d :: r' =>
        match escaped_char d with
        | Some x => Some (KSet (chr x), r')
        | None =>
            match escaped_class d with
            | Some l => Some (KSet (mkSet false l), r')
            | None =>
                match escaped_not_class d with
                | Some l => Some (KSet (mkSet true l), r')
                | None => option_map (fun l => (KLook l, r')) (escaped_look d)
                end
            end
        end
    | [] => None
    end
  else if N.eqb c 46 then Some (KSet (mkSet true [(10, 10)]%N), r)
  else if N.eqb c 91 then option_map (fun p => (KSet (fst p), snd p)) (lex_class r)
  else if N.eqb c 40 then option_map (fun p => (KOpen (fst p), snd p)) (lex_open r)
  else if N.eqb c 41 then Some (KClose, r)
  else if N.eqb c 124 then Some (KBar, r)
  else if N.eqb c 94 then Some (KLook LBol, r)
  else if N.eqb c 36 then Some (KLook LEol, r)
  else if N.eqb c 42 then let '(g, r') := lazy_mark r in Some (KPost 0 None g, r')
  else if N.eqb c 43 then let '(g, r') := lazy_mark r in Some (KPost 1 None g, r')
  else if N.eqb c 63 then let '(g, r') := lazy_mark r in Some (KPost 0 (Some 1) g, r')
  else if N.eqb c 123 then
    match lex_count r with Some (lo, hi, r') => let '(g, r2) := lazy_mark r' in Some (KPost lo hi g, r2) | None => None end
  else Some (KSet (chr c), r).
Fixpoint lex (fuel : nat) (s : str) : option (list rtok) :=
  match s with
  | [] => Some []
  | c :: r =>
      match fuel with
      | 0 => None
      | S k => match lex_one c r with Some (t, r') => option_map (cons t) (lex k r') | None => None end
      end
  end.

(** Groups are numbered from 1 in the order of their opening; a frame is a group that is open: its
    number, its name, the alternatives so far and the current one, both in reverse. *)
Record frame := mkFrame { f_group : option (nat * option str); f_alts : list re; f_cur : list re }.
Definition cat (rs : list re) : re := fold_right RCat REps rs.
Definition alt (f : frame) : re := fold_left (fun r a => RAlt a r) (f_alts f) (cat (rev (f_cur f))).
Definition push (r : re) (f : frame) : frame := mkFrame (f_group f) (f_alts f) (r :: f_cur f).
Definition close_frame (f : frame) : re :=
  match f_group f with Some (k, n) => RGroup k n (alt f) | None => alt f end.
(** [n]: the number of groups so far *)
Definition step (st : nat * list frame) (t : rtok) : option (nat * list frame) :=
  let '(n, fs) := st in
  match fs with
  | [] => None
  | f :: fs' =>
      match t with
      | KSet s => Some (n, push (RSet s) f :: fs')
      | KLook l => Some (n, push (RLook l) f :: fs')
      | KOpen None => Some (n, mkFrame None [] [] :: fs)
      | KOpen (Some name) => Some (S n, mkFrame (Some (S n, name)) [] [] :: fs)
      | KClose => match fs' with g :: fs2 => Some (n, push (close_frame f) g :: fs2) | [] => None end
      | KBar => Some (n, mkFrame (f_group f) (cat (rev (f_cur f)) :: f_alts f) [] :: fs')
      | KPost lo hi g =>
          match f_cur f with
          | r :: rs => Some (n, mkFrame (f_group f) (f_alts f) (RRep lo hi g r :: rs) :: fs')
          | [] => None
          end
      end
  end.
Fixpoint steps (ts : list rtok) (st : nat * list frame) : option (nat * list frame) :=
  match ts with
  | [] => Some st
  | t :: r => match step st t with Some st' => steps r st' | None => None end
  end.
(** the names of the groups, in order *)
Definition open_names (ts : list rtok) : list (option str) :=
  flat_map (fun t => match t with KOpen (Some n) => [n] | _ => [] end) ts.
Definition some_names (l : list (option str)) : list str :=
  flat_map (fun n => match n with Some s => [s] | None => [] end) l.
Fixpoint distinct (l : list str) : bool :=
  match l with [] => true | x :: r => (negb (existsb (str_eqb x) r) && distinct r)%bool end.
Definition lex_all (s : str) : option (list rtok) := lex (List.length s) s.
Definition parse_tokens (ts : list rtok) : option re :=
  match steps ts (0, [mkFrame None [] []]) with
  | Some (_, [f]) => if distinct (some_names (open_names ts)) then Some (alt f) else None
  | _ => None
  end.

(** * Matching *)
Record compiled := mkRx { x_ci : bool; x_re : re; x_names : list (option str) }.
Definition build (ci : bool) (s : str) : option compiled :=
  match lex_all s with
  | Some ts => option_map (fun r => mkRx ci r (None :: open_names ts)) (parse_tokens ts)
  | None => None
  end.

Definition swap_case (c : N) : N :=
  if ((65 <=? c) && (c <=? 90))%N then (c + 32)%N else if ((97 <=? c) && (c <=? 122))%N then (c - 32)%N else c.
Definition in_ranges (l : list (N * N)) (c : N) : bool := existsb (fun p => (fst p <=? c) && (c <=? snd p))%N%bool l.
Definition in_set (ci : bool) (s : cset) (c : N) : bool :=
  xorb (negated s) (in_ranges (ranges s) c || ci && in_ranges (ranges s) (swap_case c))%bool.
Definition is_word_at (b : bytes) (i : nat) : bool := match nth_error b i with Some c => in_ranges word_ c | None => false end.
Definition word_before (b : bytes) (i : nat) : bool := match i with 0 => false | S k => is_word_at b k end.
Definition look_ok (b : bytes) (l : look) (i : nat) : bool :=
  match l with
  | LBol => match i with 0 => true | S k => match nth_error b k with Some c => N.eqb c 10 | None => false end end
  | LEol => match nth_error b i with Some c => N.eqb c 10 | None => true end
  | LStart => i =? 0
  | LEnd => i =? List.length b
  | LWord => xorb (word_before b i) (is_word_at b i)
  | LNotWord => negb (xorb (word_before b i) (is_word_at b i))
  end.

(** The spans of the groups; [None]: the group took no part in the match. *)
Definition caps := nat -> option range.
Definition no_caps : caps := fun _ => None.
Definition set_cap (g : caps) (k : nat) (r : range) : caps := fun k' => if k' =? k then Some r else g k'.

(** The matches of an expression that begin at a position, the preferred ones first. *)
Section Repeat.
Context (f : nat -> caps -> list (nat * caps)).
Fixpoint power (n : nat) (i : nat) (g : caps) : list (nat * caps) :=
  match n with
  | 0 => [(i, g)]
  | S k => flat_map (fun p => power k (fst p) (snd p)) (f i g)
  end.
(** no iteration follows an empty one *)
Fixpoint star (fuel : nat) (greedy : bool) (i : nat) (g : caps) : list (nat * caps) :=
  match fuel with
  | 0 => [(i, g)]
  | S k =>
      let more := flat_map (fun p => if fst p =? i then [p] else star k greedy (fst p) (snd p)) (f i g) in
      if greedy then more ++ [(i, g)] else (i, g) :: more
  end.
Fixpoint upto (n : nat) (greedy : bool) (i : nat) (g : caps) : list (nat * caps) :=
  match n with
  | 0 => [(i, g)]
  | S k =>
      let more := flat_map (fun p => upto k greedy (fst p) (snd p)) (f i g) in
      if greedy then more ++ [(i, g)] else (i, g) :: more
  end.
End Repeat.
Section Match.
Context (ci : bool) (b : bytes) (e : nat).
Fixpoint ends (r : re) (i : nat) (g : caps) : list (nat * caps) :=
  match r with
  | REps => [(i, g)]
  | RSet s => if ((i <? e) && match nth_error b i with Some c => in_set ci s c | None => false end)%bool then [(S i, g)] else []
  | RLook l => if look_ok b l i then [(i, g)] else []
  | RCat x y => flat_map (fun p => ends y (fst p) (snd p)) (ends x i g)
  | RAlt x y => ends x i g ++ ends y i g
  | RRep lo hi greedy x =>
      flat_map (fun p => match hi with
                         | None => star (ends x) (S (e - fst p)) greedy (fst p) (snd p)
                         | Some h => upto (ends x) (h - lo) greedy (fst p) (snd p)
                         end) (power (ends x) lo i g)
  | RGroup k _ x => map (fun p => (fst p, set_cap (snd p) k (mkRange i (fst p)))) (ends x i g)
  end.
Fixpoint leftmost_re (n : nat) (r : re) (i : nat) : option (nat * nat * caps) :=
  match ends r i no_caps with
  | (j, g) :: _ => Some (i, j, g)
  | [] => match n with 0 => None | S k => leftmost_re k r (S i) end
  end.
End Match.
(** A search whose range is reversed finds nothing ([Input::is_done]). *)
Definition re_search (x : compiled) (b : bytes) (r : range) (anchored : bool) : option (list (option range)) :=
  if rend r <? rstart r then None
  else
    match leftmost_re (x_ci x) b (rend r) (if anchored then 0 else rend r - rstart r) (x_re x) (rstart r) with
    | Some (i, j, g) => Some (Some (mkRange i j) :: map g (seq 1 (List.length (x_names x) - 1)))
    | None => None
    end.
Definition ascii_engine : engine := mkEngine compiled build x_names re_search.
