(** The features that every test has.  Uses only the description of machines ([triple]) of the model. *)
From Coq Require Import String.
From Verif Require Import Base Tool_Model.
Open Scope string_scope. Open Scope list_scope. Open Scope nat_scope.
Definition arch_name (t : triple) : str :=
  match t_arch t with
  | X86_64 => of_string "x86_64" | X86_64h => of_string "x86_64" | X86_32 => of_string "x86" | Aarch64 => of_string "aarch64" | Arm => of_string "arm"
  | OtherArch => t_arch_text t
  end.
Definition is_x86_64 (t : triple) : Prop := t_arch t = X86_64 \/ t_arch t = X86_64h.
Definition is_apple (t : triple) : Prop := t_os t = Darwin \/ t_os t = MacOSX.
Inductive builtin (host target : triple) : str -> Prop :=
| f_system : builtin host target (of_string "system-" ++ t_os_text host)
| f_host : builtin host target (of_string "host=" ++ t_text host)
| f_target : builtin host target (of_string "target=" ++ t_text target)
| f_native : host = target -> builtin host target (of_string "native")
| f_arch : builtin host target (of_string "target-" ++ arch_name target)
| f_linux : is_x86_64 target -> t_os target = Linux -> builtin host target (of_string "x86_64-linux")
| f_darwin : is_x86_64 target -> t_os target = Darwin -> builtin host target (of_string "x86_64-apple")
| f_linker : is_apple target -> builtin host target (of_string "system-linker-mach-o").
