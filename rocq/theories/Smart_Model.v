(** Model of the compilation and matching of a pattern with regular expressions and variables:
    ast/pattern.rs (compact), pattern/mod.rs, pattern/matcher/matchers/smart.rs, smart/builder.rs,
    smart/instruction.rs, smart/operand.rs, smart/searcher.rs, regex.rs, whitespace.rs, always.rs,
    simple.rs and the patterns of expr/num.rs.

    Texts are of ASCII characters, so that a code point is a byte; [Input::as_str], which panics on
    invalid UTF-8, is taking a slice.  Spans in the check file are left out, except the start of the
    pattern.  The automaton of a literal is that of Lit_Model; the regex engine is a parameter. *)
From Coq Require Import String.
From Verif Require Import Base Text_Model Cursor_Model Check_Model Lit_Model Env_Model Num_Model Gram_Model Parse_Model Regex_Model.
Open Scope string_scope.
Open Scope list_scope.
Open Scope nat_scope.
Notation length := List.length.

(** expr/mod.rs [ValueType]; ast/pattern.rs:9-20 [Capture]: of its variants only [Explicit] is built from
    a check file *)
Inductive vtype := TyStr | TyNum (f : option format).
Record capt := mkCapt { k_name : vname; k_ty : vtype }.

(** * The text of a numeric pattern *)
(** expr/num.rs:371-376 *)
Definition hex_text (c : casing) : str :=
  of_string match c with Any => "[A-Fa-f0-9]" | Upper => "[A-F0-9]" | Lower => "[a-f0-9]" end.
(** expr/num.rs:450-541 [pattern_nocapture] and [pattern]: they differ in how the group is opened *)
Definition number_text (f : format) : str :=
  let count p m := of_string "{" ++ show_digits 10 false (Z.of_nat (if Nat.eqb p 0 then 1 else p)) ++ of_string "," ++ of_string m ++ of_string "}" in
  match f with
  | Signed p => of_string "[-+]?[0-9]" ++ count p "39"
  | Unsigned p => of_string "[0-9]" ++ count p "39"
  | Hex p prefix c => (if prefix then of_string "0x" else []) ++ hex_text c ++ count p "32"
  end.
Definition named (name text : str) : str := of_string "(?P<" ++ name ++ of_string ">" ++ text ++ of_string ")".
Definition format_pattern (f : option format) (name : option str) : str :=
  let text := number_text match f with Some f => f | None => default_format end in
  match name with
  | None => of_string "(?:" ++ text ++ of_string ")"
  | Some n => named n text
  end.

(** * Compaction *)
(** ast/pattern.rs [CheckPatternPart] and [CheckPattern] after compaction *)
Inductive kpart := KLit (s : str) | KRegex (s : str) (cs : list capt) | KMatch (m : pmatch).
Inductive kpat := KpEmpty | KpLit (s : str) | KpRegex (s : str) (cs : list capt) | KpParts (l : list kpart).
(** the part being built: its text, a literal or a regular expression, and the captures so far *)
Record pending := mkPend { p_text : str; p_caps : list capt; p_lit : bool }.
Definition nothing_pending : pending := mkPend [] [] true.
Definition pending_part (p : pending) : list kpart :=
  match p_text p with
  | [] => []
  | _ => [if p_lit p then KLit (p_text p) else KRegex (p_text p) (p_caps p)]
  end.
(** pattern.rs:413-427 [convert_to_regex] *)
Definition as_regex (p : pending) : str := if p_lit p then escape (p_text p) else p_text p.
Definition add_regex (p : pending) (text : str) (cs : list capt) : pending :=
  mkPend (as_regex p ++ text) (p_caps p ++ cs) false.
(** pattern.rs:440-557, one part.  The captures of a pending part whose text is empty are cleared
    (pattern.rs:535-543); those of a literal are none. *)
Definition compact_one (st : list kpart * pending) (q : part) : list kpart * pending :=
  let '(out, p) := st in
  match q with
  | QLit s => (out, if p_lit p then mkPend (p_text p ++ s) (p_caps p) true else mkPend (p_text p ++ escape s) (p_caps p) false)
  | QRegex s => (out, add_regex p s [])
  | QMatch (MSubst name (Some re)) => (out, add_regex p (named (v_text name) re) [mkCapt name TyStr])
  | QMatch (MNumeric f None None) => (out, add_regex p (format_pattern f None) [])
  | QMatch (MNumeric f (Some name) None) => (out, add_regex p (format_pattern f (Some (v_text name))) [mkCapt name (TyNum f)])
  | QMatch m => (out ++ pending_part p ++ [KMatch m], nothing_pending)
  end.
(** pattern.rs:409-605 *)
Definition compact (c : cpat) : kpat :=
  match c with
  | PEmpty => KpEmpty
  | PLit s => KpLit s
  | PRegex s => KpRegex s []
  | PParts [] => KpEmpty
  | PParts l =>
      match fold_left compact_one l ([], nothing_pending) with
      | ([], p) => if p_lit p then KpLit (p_text p) else KpRegex (p_text p) (p_caps p)
      | (out, p) => KpParts (out ++ pending_part p)
      end
  end.

Section Smart.
Context (E : engine).
(** lib.rs:125-180: --ignore-case and --strict-whitespace; [fuel] bounds the nesting of variables that
    are bound to expressions over variables *)
Context (ci strict : bool) (fuel : nat).

(** * Compilation *)
(** smart/instruction.rs:13-72; [Drop] is never built.  The type of a substitution is absent or a
    number. *)
Inductive op :=
| OLit (t : str)
| ORegex (x : rx E) (groups : list (nat * capt))
| ONum (f : option format) (capture : option capt)
| OSub (e : pexpr) (ty : option (option format))
| OBind (v : vname) (ty : option vtype)
| OCons (e : pexpr).

(** [GroupInfo::to_index] *)
Fixpoint index_of (name : str) (l : list (option str)) (k : nat) : option nat :=
  match l with
  | [] => None
  | Some n :: r => if str_eqb name n then Some k else index_of name r (S k)
  | None :: r => index_of name r (S k)
  end.
Fixpoint groups_of (names : list (option str)) (cs : list capt) : res (list (nat * capt)) :=
  match cs with
  | [] => Val []
  | c :: r => do k <- unwrap (index_of (v_text (k_name c)) names 0); do l <- groups_of names r; Val ((k, c) :: l)
  end.
(** substring.rs:32-43 *)
Definition canonical (s : str) : str := canonicalize_horizontal_whitespace s strict.
Definition literal_text (s : str) : res str := do _ <- assert (nonempty s); Val (canonical s).
(** a regex of the check file *)
Definition regex_of (s : str) : res (rx E) := match rx_build E ci s with Some x => Val x | None => Err end.
(** smart/builder.rs:104-165 *)
Definition regex_ops (s : str) (cs : list capt) : res (list op) :=
  do x <- regex_of s;
  do gs <- groups_of (rx_groups E x) cs;
  Val (ORegex x gs :: map (fun g => OBind (k_name (snd g)) (Some (k_ty (snd g)))) (rev gs)).
(** smart/builder.rs:35-76 *)
Definition lower_match (m : pmatch) : res (list op) :=
  match m with
  | MSubst name None => Val [OSub (PVar name) None]
  | MSubst name (Some re) =>
      do x <- regex_of (named (v_text name) re);
      do gs <- groups_of (rx_groups E x) [mkCapt name TyStr];
      Val [ORegex x gs; OBind name None]
  | MNumeric f None None => Val [ONum f None]
  | MNumeric f None (Some e) => Val [OSub e (Some f)]
  | MNumeric f (Some name) None => Val [ONum f (Some (mkCapt name (TyNum f))); OBind name (Some (TyNum f))]
  | MNumeric f (Some name) (Some e) =>
      Val [ONum f (Some (mkCapt name (TyNum f))); OCons e; OBind name (Some (TyNum f))]
  end.
Definition lower_part (q : kpart) : res (list op) :=
  match q with
  | KLit s => do t <- literal_text s; Val [OLit t]
  | KRegex s cs => regex_ops s cs
  | KMatch m => lower_match m
  end.
Fixpoint lower_parts (l : list kpart) : res (list op) :=
  match l with
  | [] => Val []
  | q :: r => do a <- lower_part q; do b <- lower_parts r; Val (a ++ b)
  end.

(** pattern/mod.rs:23-34 *)
Inductive matcher :=
| MAlways | MSub (t : str) | MRegex (x : rx E) (groups : list (nat * capt)) | MSmart (ops : list op) | MWhite.
(** regex.rs:33-72: one capture for every group that a variable names *)
Definition regex_matcher (s : str) (cs : list capt) : res matcher :=
  do x <- regex_of s; do gs <- groups_of (rx_groups E x) cs; Val (MRegex x gs).
(** pattern/mod.rs:46-68, for a literal *)
Definition from_literal (s : str) : res matcher :=
  match s with
  | [] => Err
  | _ => if forallb is_ws s then
           (if forallb is_ascii_ws s then Val MWhite else regex_matcher (of_string "\s+") [])
         else do t <- literal_text s; Val (MSub t)
  end.
(** pattern/mod.rs:83-114 *)
Definition compile_pattern (c : cpat) : res matcher :=
  match compact c with
  | KpEmpty => Val MAlways
  | KpLit s => from_literal s
  | KpRegex s cs => regex_matcher s cs
  | KpParts l => do ops <- lower_parts l; Val (MSmart ops)
  end.
(** pattern/mod.rs:116-145, for CHECK-LABEL *)
Definition compile_static (c : cpat) : res matcher :=
  match compact c with
  | KpLit s => do t <- literal_text s; Val (MSub t)
  | KpRegex s [] => regex_matcher s []
  | KpRegex _ _ | KpParts _ => Err
  | KpEmpty => Panic
  end.
(** pattern/mod.rs:147-159, for {LITERAL} *)
Definition compile_literal (c : cpat) : res matcher :=
  match c with PLit s => do t <- literal_text s; Val (MSub t) | _ => Panic end.

(** * Matching *)
Definition env := @bindings value.
(** searcher.rs:601-653: the variables of an expression; the text of a global variable begins with '$',
    that of a pseudo variable other than @LINE with '@' (it is never defined) *)
Definition look_up (e : env) (x : str) : option value :=
  match x with
  | c :: r => if N.eqb c 36 then b_get_global e r else if N.eqb c 64 then None else b_get_local e x
  | [] => b_get_local e x
  end.
(** [line]: context.rs:45-49, the line of the pattern in the check file *)
Fixpoint eval_of (line : Z) (e : pexpr) : nexpr :=
  match e with
  | PNum n => ENum (mkNum None n)
  | PVar (User x) => EVar x
  | PVar (Global x) => EVar (of_string "$" ++ x)
  | PVar (Pseudo x) => if str_eqb x (of_string "LINE") then ELine line else EVar (of_string "@" ++ x)
  | PBin o a b => EBin o (eval_of line a) (eval_of line b)
  end.
Definition evaluate (line : Z) (e : env) (explicit : option format) (x : pexpr) : res (number + str) :=
  match evaluate_expr fuel (look_up e) explicit (eval_of line x) with
  | RNum n => Val (inl n)
  | RStr s => Val (inr s)
  | RPanic | RFuel => Panic
  | _ => Err
  end.

Definition text_of (b : bytes) (r : range) : str := firstn (rend r - rstart r) (skipn (rstart r) b).
Definition trim_white (s : str) : str :=
  let drop := fix drop s := match s with c :: r => if is_ws c then drop r else s | [] => [] end in
  rev (drop (rev (drop s))).
Fixpoint drop_zeros (s : str) : str := match s with c :: r => if N.eqb c 48 then drop_zeros r else s | [] => [] end.
(** smart/operand.rs:113-153 *)
Definition operand_number (s : str) (p : nat) (signed : bool) : option Z :=
  let check s := match from_str_radix 10 s with
                 | inl v => if (negb signed && (v <? 0)%Z)%bool then None else Some v
                 | inr _ => None
                 end in
  if 0 <? p then
    if p <? length s then None
    else match drop_zeros s with [] => Some 0%Z | t => check t end
  else check s.
(** smart/operand.rs:23-109 *)
Definition as_numeric (v : value) (f : option format) : res number :=
  let of x := match x with Some z => Val (mkNum f z) | None => Err end in
  match v with
  | VUndef => Err
  | VStr s =>
      match match f with Some f => f | None => default_format end with
      | Unsigned p => of (operand_number (trim_white s) p false)
      | Signed p => of (operand_number (trim_white s) p true)
      | Hex p prefix _ =>
          match (if prefix then strip_0x (trim_white s) else Some (trim_white s)) with
          | None => Err
          | Some t =>
              if p <? length t then Err
              else match drop_zeros t with
                   | [] => Val (mkNum f 0)
                   | d => match from_str_radix 16 d with inl z => Val (mkNum f z) | inr _ => Err end
                   end
          end
      end
  | VNum (ENum n) => Val n
  | VNum _ => Panic
  end.
(** regex.rs:175-236 *)
Definition convert (s : str) (ty : vtype) : option value :=
  match ty with
  | TyStr => Some (VStr s)
  | TyNum f =>
      let f := match f with Some f => f | None => default_format end in
      match parse_with_format s f with POk v => Some (VNum (ENum (mkNum (Some f) v))) | PErr _ => None end
  end.

(** a group of a match *)
Definition group_span (l : list (option range)) (k : nat) : option range :=
  match nth_error l k with Some (Some r) => Some r | _ => None end.
Definition capture_spans (gs : list (nat * capt)) (l : list (option range)) : list (range * capt) :=
  flat_map (fun g => match group_span l (fst g) with Some r => [(r, snd g)] | None => [] end) gs.

(** searcher.rs:19-31: the operand stack (top first), the spans captured so far, the bindings *)
Record mach := mkMach { x_stack : list value; x_got : list (range * capt); x_env : env }.
(** The end of a search for one part: where it was found *)
Definition hit := option (range * mach).

Section Search.
Context (b : bytes) (line : Z).
(** searcher.rs:209-244 and its callees, 246-502, 548-585.  [None]: the result carries no match. *)
Definition match_part (o : op) (r : range) (anchored : bool) (m : mach) : res hit :=
  let found x k :=
    match rx_search E x b r anchored with
    | Some ((Some s :: _) as l) => Val (Some (s, k l))
    | _ => Val None
    end in
  match o with
  | OLit t =>
      match leftmost ci b t (rend r) (if anchored then 1 else rend r - rstart r) (rstart r) with
      | Some i => Val (Some (mkRange i (i + length t), m))
      | None => Val None
      end
  | ORegex x gs =>
      found x (fun l => let cs := capture_spans gs l in
                        mkMach (rev (map (fun c => VStr (text_of b (fst c))) cs) ++ x_stack m) (x_got m ++ cs) (x_env m))
  | ONum f capture =>
      do s <- unwrap (slice b r);
      match s with
      | [] => Val None
      | _ =>
          do x <- unwrap (rx_build E false (format_pattern f (option_map (fun c => v_text (k_name c)) capture)));
          match rx_search E x b r anchored with
          | Some (Some s :: _) =>
              match capture with
              | None => Val (Some (s, m))
              | Some c =>
                  let f := match f with Some f => f | None => default_format end in
                  match parse_with_format (text_of b s) f with
                  | POk v => Val (Some (s, mkMach (VNum (ENum (mkNum (Some f) v)) :: x_stack m) (x_got m ++ [(s, c)]) (x_env m)))
                  | PErr _ => Val None
                  end
              end
          | _ => Val None
          end
      end
  | OSub e ty =>
      let explicit := match ty with Some f => f | None => None end in
      do v <- evaluate line (x_env m) explicit e;
      let text := match v with
                  | inl n => display match explicit with Some f => mkNum (Some f) (nvalue n) | None => n end
                  | inr s => s
                  end in
      do x <- regex_of text;
      found x (fun _ => m)
  | OBind _ _ | OCons _ => Panic
  end.
(** searcher.rs:130-207: [cur] is where the next part must begin, [inl] where it failed *)
Fixpoint match_parts (ops : list op) (cur e : nat) (m : mach) : res (nat + nat * mach) :=
  match ops with
  | [] => Val (inr (cur, m))
  | o :: rest =>
      if e <=? cur then Val (inl cur)
      else
        match o with
        | OCons x =>
            match x_stack m with
            | [] => Panic
            | lhs :: _ =>
                do v <- evaluate line (x_env m) None x;
                match v with
                | inl rhs => do _ <- as_numeric lhs (nformat rhs); match_parts rest cur e m
                | inr _ => Val (inl cur)
                end
            end
        | OBind v ty =>
            match x_stack m with
            | [] => Panic
            | top :: stack =>
                do w <- match ty with
                        | Some (TyNum f) => do n <- as_numeric top f; Val (VNum (ENum n))
                        | _ => Val top
                        end;
                match_parts rest cur e (mkMach stack (x_got m) (b_insert (x_env m) v w))
            end
        | _ =>
            do h <- match_part o (mkRange cur e) true m;
            match h with
            | Some (s, m') => match_parts rest (rend s) e m'
            | None => Val (inl cur)
            end
        end
  end.
(** searcher.rs:57-128.  [None]: [n] rounds were not enough.  [set_start] (input.rs:68-70) does not go
    beyond the end of the buffer. *)
Fixpoint search_rounds (n : nat) (o : op) (rest : list op) (start e : nat) (anchored : bool) (env0 : env)
  : option (res (option (range * mach))) :=
  match n with
  | 0 => None
  | S k =>
      match match_part o (mkRange start e) anchored (mkMach [] [] env0) with
      | Err => Some Err
      | Panic => Some Panic
      | Val None => Some (Val None)
      | Val (Some (s, m)) =>
          match match_parts rest (rend s) e m with
          | Err => Some Err
          | Panic => Some Panic
          | Val (inr (stop, m')) => Some (Val (Some (mkRange (rstart s) stop, m')))
          | Val (inl stop) =>
              if anchored then Some (Val None)
              else search_rounds k o rest (Nat.min (Nat.max stop (S start)) (length b)) e anchored env0
          end
      end
  end.
End Search.

(** smart.rs:81-226: the captured texts are converted again, into the captures of the result *)
Definition smart_result (b : bytes) (at_ : nat) (env0 : env) (r : option (range * mach)) : mresult * env :=
  match r with
  | None => (failed ENone, env0)
  | Some (s, m) =>
      if forallb (fun c => match convert (text_of b (fst c)) (k_ty (snd c)) with Some _ => true | None => false end) (x_got m)
      then (mkRes Good (Some (mkInfo s 0 at_)), x_env m)
      else (failed (EMatch true), x_env m)
  end.
(** Enough rounds for every search that ends (Chain_Props.search_unending). *)
Definition smart_rounds (b : bytes) : nat := S (S (length b)).
(** smart.rs:81-103; a search that does not end is [None] *)
Definition smart_match (b : bytes) (line : Z) (at_ : nat) (ops : list op) (r : range) (anchored : bool) (env0 : env)
  : option (res (mresult * env)) :=
  match ops with
  | [] => Some Panic
  | o :: rest =>
      match search_rounds b line (smart_rounds b) o rest (rstart r) (rend r) anchored env0 with
      | None => None
      | Some x => Some (do h <- x; Val (smart_result b at_ env0 h))
      end
  end.

(** regex.rs:97-167 with result.rs:91-104; the captures are bound in the order of
    their groups, which is that in which they are written *)
Fixpoint convert_groups (b : bytes) (cs : list (range * capt)) : option (list (vname * value)) :=
  match cs with
  | [] => Some []
  | (r, c) :: rest =>
      match convert (text_of b r) (k_ty c), convert_groups b rest with
      | Some v, Some l => Some ((k_name c, v) :: l)
      | _, _ => None
      end
  end.
Definition bind_all (e : env) (l : list (vname * value)) : env := fold_left (fun e p => b_insert e (fst p) (snd p)) l e.
Definition regex_match (b : bytes) (at_ : nat) (x : rx E) (gs : list (nat * capt)) (r : range) (anchored : bool) (e : env)
  : mresult * env :=
  match rx_search E x b r anchored with
  | Some ((Some s :: _) as l) =>
      match convert_groups b (capture_spans gs l) with
      | Some vs => (mkRes Good (Some (mkInfo s 0 at_)), bind_all e vs)
      | None => (failed (EMatch true), e)
      end
  | _ => (failed ENone, e)
  end.
(** whitespace.rs:28-61 *)
Fixpoint blank_length (s : bytes) : nat :=
  match s with c :: r => if N.eqb c 10 then 0 else if is_ascii_ws c then S (blank_length r) else 0 | [] => 0 end.
Definition white_match (b : bytes) (at_ : nat) (r : range) : res mresult :=
  do s <- unwrap (slice b r);
  match s with
  | c :: _ => if is_ascii_ws c then Val (mkRes Good (Some (mkInfo (mkRange (rstart r) (rstart r + blank_length s)) 0 at_)))
              else Val (failed ENone)
  | [] => Val (failed ENone)
  end.
(** [try_match_mut] of the boxed matchers (pattern/mod.rs:36-44), which the rules CHECK, CHECK-NEXT and
    CHECK-SAME apply, unanchored *)
Definition try_match (b : bytes) (line : Z) (at_ : nat) (m : matcher) (r : range) (e : env) : option (res (mresult * env)) :=
  match m with
  | MAlways => Some (Val (mkRes Good (Some (mkInfo (mkRange (rstart r) (rstart r)) 0 at_)), e))
  | MSub t =>
      Some (Val (match leftmost ci b t (rend r) (rend r - rstart r) (rstart r) with
                 | Some i => mkRes Good (Some (mkInfo (mkRange i (i + length t)) 0 at_))
                 | None => failed ENone
                 end, e))
  | MRegex x gs => Some (Val (regex_match b at_ x gs r false e))
  | MSmart ops => smart_match b line at_ ops r false e
  | MWhite => Some (do m <- white_match b at_ r; Val (m, e))
  end.
End Smart.
