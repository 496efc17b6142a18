(** Model of lit/src/test/config.rs: what a directory's configuration takes over from the one above. *)
From Verif Require Import Base Map_Model.

(** format.rs:22-35; the two configurable formats are told apart by an arbitrary description *)
Inductive format := FDefault | FShTest (options : str) | FExecutable (options : str).
(** config.rs:28-66; the pattern sets are [BTreeSet]s of glob patterns, only ever copied whole here *)
Record config := mkConfig {
  cf_format : format;
  cf_patterns : list str;
  cf_exclude : list str;
  cf_env : list (str * str);           (** [BTreeMap] *)
  cf_subst : list (str * str);         (** [IndexMap] *)
  cf_features : list (str * unit) }.   (** [BTreeSet] *)
Definition empty {A} (l : list A) : bool := match l with [] => true | _ => false end.
(** config.rs:91-122 *)
Definition inherit (self parent : config) : config := mkConfig
  (match cf_format self with FDefault => cf_format parent | f => f end)
  (if empty (cf_patterns self) then cf_patterns parent else cf_patterns self)
  (if empty (cf_exclude self) then cf_exclude parent else cf_exclude self)
  (if negb (empty (cf_env parent)) then bt_extend (cf_env parent) (cf_env self) else cf_env self)
  (if negb (empty (cf_subst parent)) then im_extend (cf_subst parent) (cf_subst self) else cf_subst self)
  (if negb (empty (cf_features parent)) then bt_extend (cf_features parent) (cf_features self) else cf_features self).
(** [TestConfig::default] *)
Definition default_config : config := mkConfig FDefault [] [] [] [] [].
