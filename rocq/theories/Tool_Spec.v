(** What the commands of a test are, when nothing but the substitutions that every test has are defined.  Independent of the
    model. *)
From Coq Require Import String.
From Verif Require Import Base.
Open Scope string_scope. Open Scope list_scope. Open Scope nat_scope.

(** The names *)
Inductive name := Source | SourceDir | Temp | TempBase | PathSep | SourceRoot | TempRoot | Sep.
Definition spelling (n : name) : str :=
  match n with
  | Source => of_string "%s" | SourceDir => of_string "%S" | Temp => of_string "%t" | TempBase => of_string "%basename_t"
  | PathSep => of_string "%{pathsep}" | SourceRoot => of_string "%{fs-src-root}" | TempRoot => of_string "%{fs-tmp-root}" | Sep => of_string "%{fs-sep}"
  end.
(** What a command is written with: characters, doubled percent signs, names, and percent signs that are none of these *)
Inductive tok := Plain (c : N) | Escaped | Named (n : name) | Lone.
Definition written (t : tok) : str :=
  match t with Plain c => [c] | Escaped => of_string "%%" | Named n => spelling n | Lone => of_string "%" end.
Definition meant (value : name -> str) (t : tok) : str :=
  match t with Plain c => [c] | Escaped => of_string "%" | Named n => value n | Lone => of_string "%" end.
(** A word: characters are not white space (Unicode's White_Space), and no percent or hash sign; a percent sign of its own is the last
    of the word, or a character that cannot follow in a name comes after it *)
Definition is_white (c : N) : Prop :=
  (9 <= c <= 13 \/ c = 32 \/ c = 133 \/ c = 160 \/ c = 5760 \/ 8192 <= c <= 8202 \/ c = 8232 \/ c = 8233 \/ c = 8239 \/ c = 8287 \/ c = 12288)%N.
Inductive word : list tok -> Prop :=
| w_nil : word []
| w_plain c w : ~ is_white c -> ~ In c (of_string "%#") -> word w -> word (Plain c :: w)
| w_escaped w : word w -> word (Escaped :: w)
| w_named n w : word w -> word (Named n :: w)
| w_last : word [Lone]
| w_lone c w : ~ In c (of_string "sStb{") -> word (Plain c :: w) -> word (Lone :: Plain c :: w).
(** A command: words with white space between them, one character each (words may be empty) *)
Record command := mkCommand { first : list tok; others : list (N * list tok) }.
Definition words (c : command) : list (list tok) := first c :: map snd (others c).
Definition proper_command (c : command) : Prop := Forall word (words c) /\ Forall (fun x => is_white (fst x)) (others c).
Definition text (w : list tok) : str := flat_map written w.
Definition command_text (c : command) : str := text (first c) ++ flat_map (fun x => fst x :: text (snd x)) (others c).
(** The tools *)
Inductive tool := FileCheck | Not.
Definition calls (t : tool) (w : list tok) : Prop :=
  match t with
  | FileCheck => In (text w) (map of_string ["FileCheck"; "Filecheck"; "fileCheck"; "filecheck"])
  | Not => text w = of_string "not"
  end.
(** The word as it is run *)
Inductive run_word (tools : tool -> str) (value : name -> str) (w : list tok) : str -> Prop :=
| rw_tool t : calls t w -> run_word tools value w (tools t)
| rw_other : (forall t, ~ calls t w) -> run_word tools value w (flat_map (meant value) w).
Inductive run_command (tools : tool -> str) (value : name -> str) (c : command) : str -> Prop :=
| rc_all w ws : run_word tools value (first c) w -> Forall2 (run_word tools value) (map snd (others c)) ws ->
    run_command tools value c (w ++ flat_map (fun x => fst x :: snd x) (combine (map fst (others c)) ws)).
(** The same tool is not called by two words next to each other. *)
Inductive spread : list (list tok) -> Prop :=
| sp_nil : spread []
| sp_one w : spread [w]
| sp_two w v r : (forall t, ~ (calls t w /\ calls t v)) -> spread (v :: r) -> spread (w :: v :: r).
(** A text that the substitutions leave as it is *)
Definition inert (s : str) : Prop := forall c, In c s -> ~ In c (of_string "%$#").
(** A path of a program: absolute, and without the characters that break it *)
Definition clean_dir (d : str) : Prop := (d = [] \/ exists r, d = of_string "/" ++ r) /\ inert d /\ forall c, In c d -> ~ is_white c.
(** The tools of a program called [file] that is in the directory [dir] *)
Definition tools_of (dir file : str) (t : tool) : str :=
  if str_eqb file (of_string "litcheck") then dir ++ match t with FileCheck => of_string "/litcheck filecheck" | Not => of_string "/litcheck not" end
  else dir ++ match t with FileCheck => of_string "/filecheck" | Not => of_string "/not" end.
