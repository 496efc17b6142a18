(** Model of substitutions in test scripts: lit/src/config/substitutions.rs, the application of DEFINE
    and REDEFINE (sh/script/directives.rs:240-274) and TestScript::apply_substitutions
    (sh/script/mod.rs:130-150).

    Regular expressions are an input: [rx p r s] is [Regex::new(p)?.replace_all(s, r)], nothing if the
    pattern is refused, and an unchanged text told apart from a rewritten one (Cow). *)
From Coq Require Import String.
From Verif Require Import Base Cursor_Model Map_Model Script_Model.
Notation length := List.length.
Open Scope string_scope. Open Scope list_scope.

(** substitutions.rs:22-25: the substitutions of the configuration, and those of the test *)
Record scoped := mkScoped { parent : list (str * str); own : list (str * str) }.
(** substitutions.rs:40-54 *)
Definition sget (k : str) (s : scoped) : option str :=
  match lookup k (own s) with Some v => Some v | None => lookup k (parent s) end.
Definition scontains (k : str) (s : scoped) : bool := match sget k s with Some _ => true | None => false end.
(** substitutions.rs:57-63, 150-173 *)
Definition siter (s : scoped) : list (str * str) :=
  map (fun kv => (fst kv, match lookup (fst kv) (own s) with Some v => v | None => snd kv end)) (parent s) ++ own s.
(** substitutions.rs:85-104 *)
Definition sinsert (k v : str) (s : scoped) : scoped := mkScoped (parent s) (im_insert k v (own s)).
Definition sextend (l : list (str * str)) (s : scoped) : scoped := mkScoped (parent s) (im_extend (own s) l).
(** [str::contains] *)
Fixpoint contains (p s : str) : bool :=
  match strip_prefix p s with
  | Some _ => true
  | None => match s with [] => false | _ :: r => contains p r end
  end.
(** substitutions.rs:66-83 *)
Inductive matches := MEmpty | MExact | MFuzzy.
Definition find_matching (k : str) (s : scoped) : matches :=
  if scontains k s then
    if existsb (fun kv => negb (str_eqb (fst kv) k) && contains k (fst kv)) (siter s) then MFuzzy else MExact
  else MEmpty.
(** [Regex::replace_all] of a text that has no special characters, without expansion; [p] is not empty *)
Fixpoint replace_from (fuel : nat) (p r s : str) : str :=
  match fuel with
  | 0 => s
  | S f =>
      match strip_prefix p s with
      | Some rest => r ++ replace_from f p r rest
      | None => match s with [] => [] | c :: t => c :: replace_from f p r t end
      end
  end.
Definition replace_text (p r s : str) : str := replace_from (S (length s)) p r s.

(** the errors of InvalidSubstitutionError, and that of a pattern *)
Inductive suberror := NotDefined | AlreadyExists | Conflicts | InvalidPattern.
(** directives.rs:240-274 *)
Definition define (k v : str) (replace : bool) (s : scoped) : scoped + suberror :=
  match find_matching k s, replace with
  | MEmpty, false => inl (sinsert k v s)
  | MEmpty, true => inr NotDefined
  | MExact, true => inl (sinsert k v s)
  | MExact, false => inr AlreadyExists
  | MFuzzy, _ => inr Conflicts
  end.

Section Sub.
Context (rx : str -> str -> str -> option (option str)).
Definition MARKER : str := of_string "#_MARKER_#".
Definition PP : str := of_string "%%".
(** substitutions.rs:106-147; the flags are [needs_escaping] and [needs_unescape] *)
Fixpoint apply_all (l : list (str * str)) (buf : str) (escaping unescape : bool) : (str * bool) + suberror :=
  match l with
  | [] => inl (buf, unescape)
  | (p, r) :: l' =>
      let '(buf, escaping, unescape) :=
        if escaping then if contains PP buf then (replace_text PP MARKER buf, true, true) else (buf, false, unescape)
        else (buf, false, unescape) in
      match rx p r buf with
      | None => inr InvalidPattern
      | Some (Some buf') => apply_all l' buf' true unescape
      | Some None => apply_all l' buf escaping unescape
      end
  end.
Definition apply (s : scoped) (text : str) : str + suberror :=
  match apply_all (siter s) text true false with
  | inr e => inr e
  | inl (buf, unescape) => inl (if unescape then replace_text MARKER (of_string "%") buf else buf)
  end.
(** sh/script/mod.rs:130-150 *)
Fixpoint apply_commands (l : list command) (s : scoped) : (list command * scoped) + suberror :=
  match l with
  | [] => inl ([], s)
  | Run n t :: r =>
      match apply s t with
      | inr e => inr e
      | inl t' => match apply_commands r s with inr e => inr e | inl (r', s') => inl (Run n t' :: r', s') end
      end
  | Subst n k v b :: r =>
      match define k v b s with
      | inr e => inr e
      | inl s1 => match apply_commands r s1 with inr e => inr e | inl (r', s') => inl (Subst n k v b :: r', s') end
      end
  end.
(** sh/mod.rs:116-143: the substitutions of a test *)
Definition test_substitutions (config extra : list (str * str)) (s S_ t basename_t : str) : scoped :=
  sinsert (of_string "%%") (of_string "%")
    (sextend [(of_string "%s", s); (of_string "%S", S_); (of_string "%t", t); (of_string "%basename_t", basename_t)]
      (sextend extra (mkScoped config []))).
End Sub.
