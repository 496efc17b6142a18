(** What a user of lit means by the tests of a directory.  Nothing here mentions the registry. *)
From Coq Require Import String.
From Verif Require Import Base Map_Model Config_Model Disc_Model.
Notation length := List.length.

(** the names in every directory are different *)
Inductive tidy : entry -> Prop :=
| tidy_file : tidy EFile
| tidy_dir l : NoDup (map fst l) -> Forall (fun x => tidy (snd x)) l -> tidy (EDir l).
Fixpoint height (e : entry) : nat :=
  match e with EFile => 0 | EDir l => S (fold_right (fun x n => Nat.max (height (snd x)) n) 0 l) end.

(** the directory [d] has a suite configuration *)
Definition suite_dir (w : world) (d : dpath) : Prop := exists l e, at_ (w_root w) d = Some (EDir l) /\ lookup SUITE l = Some e.
(** [d] is the innermost directory around the file [d ++ rel] that has one *)
Definition innermost (w : world) (d rel : dpath) : Prop :=
  suite_dir w d /\ rel <> [] /\ forall a b, rel = a ++ b -> a <> [] -> b <> [] -> ~ suite_dir w (d ++ a).
(** a configuration takes the file at [rel] of its suite to be a test *)
Definition accepts (w : world) (c : config) (rel : dpath) : Prop :=
  (forall t, last rel [] <> 46%N :: t) /\
  (exists g, In g (cf_patterns c) /\ w_glob w g rel = true) /\
  (forall g, In g (cf_exclude c) -> w_glob w g rel = false).
(** the configuration of the suite at [d] *)
Definition suite_config (w : world) (d : dpath) : config :=
  match w_suite w d with Some sf => inherit (sf_config sf) (w_defaults w d) | None => default_config end.
(** the tests of the directory [dir]: the files that the suite around them accepts *)
Definition test_below (w : world) (dir : dpath) (t : test) : Prop :=
  exists x rel, let d := dir ++ x in
  at_ (w_root w) (d ++ rel) = Some EFile /\ innermost w d rel /\ accepts w (suite_config w d) rel /\
  t = mkTest d rel (d ++ rel) (suite_config w d).
(** every suite configuration can be read, and none moves its source directory *)
Definition in_place (w : world) : Prop :=
  forall d l e, at_ (w_root w) d = Some (EDir l) -> lookup SUITE l = Some e ->
    e = EFile /\ exists sf, w_suite w d = Some sf /\ sf_source sf = None.

(** what the [lit.local.toml] of a directory says, if there is one *)
Definition local_file (w : world) (p : dpath) : option config :=
  match at_ (w_root w) p with
  | Some (EDir l) => match lookup LOCAL l with Some EFile => w_local w (p ++ [LOCAL]) | _ => None end
  | _ => None
  end.
Definition readable (w : world) : Prop :=
  forall p l, at_ (w_root w) p = Some (EDir l) -> lookup LOCAL l = Some EFile -> w_local w (p ++ [LOCAL]) <> None.
(** [c] as seen from [p], where a local file may override it *)
Definition overridden (w : world) (suite : dpath) (c : config) (p : dpath) : config :=
  match local_file w p with Some cfg => w_local_defaults w suite p (inherit cfg c) | None => c end.
(** the configuration for [d ++ rel] in the suite at [d]: that of the suite, overridden by every
    directory on the way from below [d] to [d ++ rel] *)
Definition effective (w : world) (d rel : dpath) : config :=
  fold_left (overridden w d) (map (fun n => d ++ firstn n rel) (seq 1 (length rel))) (suite_config w d).
