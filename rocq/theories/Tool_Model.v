(** Model of the substitutions that every test has (lit/src/test/config.rs:171-234), of where they are added (suite/mod.rs:222-227,
    suite/registry/default.rs:440-449), of the features that every test has (test/config.rs:124-169), and of what
    [Regex::replace_all] does (config/substitutions.rs:129-132) with patterns that are plain text and with those of the two tools. *)
From Coq Require Import String.
From Verif Require Import Base Cursor_Model Map_Model Script_Model Sub_Model Config_Model.
From Verif Require BoolExpr_Model.
Notation length := List.length.
Open Scope string_scope. Open Scope list_scope. Open Scope nat_scope.
Definition white (c : N) : bool := BoolExpr_Model.is_whitespace c.
Definition DOLLAR : N := 36.

(** * Replacements.  [regex_automata::util::interpolate::string], which [Regex::replace_all] uses for a replacement given as text
    (substitutions.rs:129) *)
Definition cap_letter (c : N) : bool :=
  ((48 <=? c) && (c <=? 57))%N || ((65 <=? c) && (c <=? 90))%N || ((97 <=? c) && (c <=? 122))%N || N.eqb c 95.
Fixpoint letters (s : str) : str * str :=
  match s with c :: r => if cap_letter c then let (a, b) := letters r in (c :: a, b) else ([], s) | [] => ([], []) end.
Fixpoint to_brace (s : str) : option (str * str) :=
  match s with [] => None | c :: r => if N.eqb c 125 then Some ([], r) else option_map (fun ab => (c :: fst ab, snd ab)) (to_brace r) end.
(** [find_cap_ref]: the name after a dollar sign, and what follows it *)
Definition find_ref (s : str) : option (str * str) :=
  match s with
  | [] => None
  | c :: r => if N.eqb c 123 then to_brace r else match letters s with ([], _) => None | ab => Some ab end
  end.
(** [str::parse::<usize>] *)
Definition digits_of (s : str) : option N :=
  let s := match s with c :: (_ :: _) as r => if N.eqb c 43 then r else s | _ => s end in
  match s with
  | [] => None
  | _ => if forallb (fun c => (48 <=? c) && (c <=? 57))%N s
         then let n := fold_left (fun n c => (n * 10 + (c - 48))%N) s 0%N in if (n <? 18446744073709551616)%N then Some n else None
         else None
  end.
(** The groups of a match, with their names; the first is the match *)
Definition groups := list (option str * str).
Definition group_text (g : groups) (name : str) : str :=
  match digits_of name with
  | Some n => match nth_error g (N.to_nat n) with Some (_, t) => t | None => [] end
  | None => match find (fun x => match fst x with Some n => str_eqb n name | None => false end) g with Some (_, t) => t | None => [] end
  end.
Fixpoint expand_from (fuel : nat) (g : groups) (r : str) : str :=
  match fuel, r with
  | S f, c :: t =>
      if N.eqb c DOLLAR then
        match t with
        | d :: u => if N.eqb d DOLLAR then DOLLAR :: expand_from f g u
                    else match find_ref t with
                         | Some (name, rest) => group_text g name ++ expand_from f g rest
                         | None => DOLLAR :: expand_from f g t
                         end
        | [] => [DOLLAR]
        end
      else c :: expand_from f g t
  | _, _ => []
  end.
Definition expand (g : groups) (r : str) : str := expand_from (S (length r)) g r.

(** * Patterns *)
(** A pattern that stands for a text, or one of those of the tools (test/config.rs:209, 213): the characters of the tool's name *)
Inductive key := KText (t : str) | KTool (w : list (list N)).
Definition FILECHECK_KEY : str := of_string "(?<before>^|\s)[Ff]ile[Cc]heck(?<after>$|\s)".
Definition NOT_KEY : str := of_string "(?<before>^|\s)not(?<after>$|\s)".
Definition filecheck_word : list (list N) := map of_string ["Ff"; "i"; "l"; "e"; "Cc"; "h"; "e"; "c"; "k"].
Definition not_word : list (list N) := map of_string ["n"; "o"; "t"].
Definition special (c : N) : bool := existsb (N.eqb c) (of_string "\.+*?()|[]{}^$").
Fixpoint literal (s : str) : option str :=
  match s with
  | [] => Some []
  | c :: r =>
      if N.eqb c 92 then match r with d :: r' => if special d then option_map (cons d) (literal r') else None | [] => None end
      else if special c then None else option_map (cons c) (literal r)
  end.
Definition key_of (p : str) : option key :=
  if str_eqb p FILECHECK_KEY then Some (KTool filecheck_word)
  else if str_eqb p NOT_KEY then Some (KTool not_word)
  else match literal p with Some (c :: t) => Some (KText (c :: t)) | _ => None end.
Fixpoint word_at (w : list (list N)) (s : str) : option (str * str) :=
  match w, s with
  | [], _ => Some ([], s)
  | cs :: w, c :: s => if existsb (N.eqb c) cs then option_map (fun ab => (c :: fst ab, snd ab)) (word_at w s) else None
  | _, [] => None
  end.
(** A match at the start of the rest [s] of the text; [start]: this is the start of the text.  The alternatives in the order in which
    they are tried. *)
Definition word_after (w : list (list N)) (s : str) : option (str * str * str) :=
  match word_at w s with
  | Some (x, []) => Some (x, [], [])
  | Some (x, c :: r) => if white c then Some (x, [c], r) else None
  | None => None
  end.
Definition tool_groups (before word after : str) : groups :=
  [(None, before ++ word ++ after); (Some (of_string "before"), before); (Some (of_string "after"), after)].
Definition match_at (k : key) (start : bool) (s : str) : option (groups * str) :=
  match k with
  | KText t => match strip_prefix t s with Some r => Some ([(None, t)], r) | None => None end
  | KTool w =>
      match (if start then word_after w s else None) with
      | Some (x, after, r) => Some (tool_groups [] x after, r)
      | None => match s with
                | c :: s' => if white c then match word_after w s' with
                                             | Some (x, after, r) => Some (tool_groups [c] x after, r)
                                             | None => None
                                             end
                             else None
                | [] => None
                end
      end
  end.
(** [Regex::replace_all]: matches from the left, each after the end of the one before; and whether there was one *)
Fixpoint replace_key (fuel : nat) (k : key) (r : str) (start : bool) (s : str) : bool * str :=
  match fuel with
  | 0 => (false, s)
  | S f =>
      match match_at k start s with
      | Some (g, rest) => (true, expand g r ++ snd (replace_key f k r false rest))
      | None => match s with
                | [] => (false, [])
                | c :: t => let (b, t') := replace_key f k r false t in (b, c :: t')
                end
      end
  end.
(** The oracle of Sub_Model, which is asked only for other patterns *)
Definition rx_known (rx : str -> str -> str -> option (option str)) (p r s : str) : option (option str) :=
  match key_of p with
  | Some k => Some (let (b, t) := replace_key (S (length s)) k r true s in if b then Some t else None)
  | None => rx p r s
  end.

(** * The substitutions that every test has *)
(** test/config.rs:171-207: the program is at [dir]/[file]; its path is UTF-8.  (Unix.) *)
Definition tool_values (dir file : str) : str * str :=
  if str_eqb file (of_string "litcheck") then (dir ++ of_string "/litcheck filecheck", dir ++ of_string "/litcheck not")
  else if str_eqb file (of_string "lit") then (dir ++ of_string "/filecheck", dir ++ of_string "/not")
  else (of_string "filecheck", of_string "not").
Definition tool_template (v : str) : str := of_string "$before" ++ v ++ of_string "$after".
(** test/config.rs:208-234; [src], [tmp]: the first component of the source directory, and of the working directory *)
Definition set_default_substitutions (dir file src tmp : str) (m : list (str * str)) : list (str * str) :=
  let (filecheck, not) := tool_values dir file in
  im_extend m
    [(FILECHECK_KEY, tool_template filecheck); (NOT_KEY, tool_template not); (of_string "%\{pathsep\}", of_string ":");
     (of_string "%\{fs-src-root\}", src); (of_string "%\{fs-tmp-root\}", tmp); (of_string "%\{fs-sep\}", of_string "/")].

(** * The features that every test has: test/config.rs:124-169 *)
Inductive architecture := X86_64 | X86_64h | X86_32 | Aarch64 | Arm | OtherArch.
Inductive system := Darwin | MacOSX | Linux | OtherSystem.
(** A target triple: its text, the texts of its architecture and its system *)
Record triple := mkTriple { t_text : str; t_arch : architecture; t_arch_text : str; t_os : system; t_os_text : str }.
Scheme Equality for architecture.
Scheme Equality for system.
Definition triple_eqb (a b : triple) : bool :=
  str_eqb (t_text a) (t_text b) && architecture_beq (t_arch a) (t_arch b) && str_eqb (t_arch_text a) (t_arch_text b)
  && system_beq (t_os a) (t_os b) && str_eqb (t_os_text a) (t_os_text b).
Definition set_default_features (host target : triple) (m : list (str * unit)) : list (str * unit) :=
  let add s m := bt_insert s tt m in
  let m := add (of_string "system-" ++ t_os_text host) m in
  let m := add (of_string "host=" ++ t_text host) m in
  let m := add (of_string "target=" ++ t_text target) m in
  let m := if triple_eqb host target then add (of_string "native") m else m in
  let m := match t_arch target with
           | X86_64 | X86_64h =>
               let m := add (of_string "target-x86_64") m in
               match t_os target with
               | Darwin => add (of_string "x86_64-apple") m
               | Linux => add (of_string "x86_64-linux") m
               | _ => m
               end
           | X86_32 => add (of_string "target-x86") m
           | Aarch64 => add (of_string "target-aarch64") m
           | Arm => add (of_string "target-arm") m
           | OtherArch => add (of_string "target-" ++ t_arch_text target) m
           end in
  match t_os target with Darwin | MacOSX => add (of_string "system-linker-mach-o") m | _ => m end.

Section Defaults.
Context (dir file src tmp : str) (host target : triple).
Definition defaults (c : config) : config :=
  mkConfig (cf_format c) (cf_patterns c) (cf_exclude c) (cf_env c) (set_default_substitutions dir file src tmp (cf_subst c))
    (set_default_features host target (cf_features c)).
(** suite/mod.rs:222-227 *)
Definition suite_config (c : config) : config := inherit c (defaults default_config).
(** suite/registry/default.rs:440-449: the configuration of a directory below one whose configuration is [above] *)
Definition local_config (above c : config) : config := defaults (inherit c above).
End Defaults.
