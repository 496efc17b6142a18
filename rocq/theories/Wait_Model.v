(** Model of waiting for a child process: [ShellCommand::wait_with_timeout] (lit/src/utils.rs:66-156).
    Time is a natural number of ticks since the process was spawned.  The operating system's scheduling
    is the sequence of moments at which the waiting loop looks: any non-decreasing one.  Failures of the
    system call that asks for the child's state are not modelled; what the child wrote is left out. *)
From Verif Require Import Base Text_Model Cursor_Model Run_Model.

(** What a child does when nobody kills it. *)
Record child := mkChild {
  ch_takes : option nat;                  (** when it has read its whole input (or closed it); never *)
  ch_exits : option (nat * option Z);     (** when and how it exits; never *)
  ch_closes : option nat }.               (** when both its outputs are closed; never *)
Inductive spawned := NoSpawn | Spawned (c : child).

(** The [i]-th look: when the child's state is asked for, and when the clock is read after that. *)
Definition looks := nat -> nat * nat.

Definition exited_by (c : child) (t : nat) : option (option Z) :=
  match ch_exits c with Some (e, code) => if e <=? t then Some code else None | None => None end.

Inductive ending := Ends (s : status) (at_ : nat) (killed : bool) | Aborts.

(** utils.rs:89-151: the loop.  Joining the readers takes until the outputs are closed, and comes
    before the kill. *)
Inductive loop (c : child) (timeout : nat) (l : looks) : nat -> ending -> Prop :=
| L_exit i code e : exited_by c (fst (l i)) = Some code -> ch_closes c = Some e ->
    loop c timeout l i (Ends (of_exit code) (Nat.max (snd (l i)) e) false)
| L_again i r : exited_by c (fst (l i)) = None -> (timeout = 0 \/ snd (l i) < timeout) -> loop c timeout l (S i) r ->
    loop c timeout l i r
| L_timeout i e : exited_by c (fst (l i)) = None -> timeout <> 0 -> timeout <= snd (l i) -> ch_closes c = Some e ->
    loop c timeout l i (Ends Timeout (Nat.max (snd (l i)) e) true).
(** utils.rs:66-88, 152-155: spawning; [piped] says whether input was given (then the child's end is
    a pipe; otherwise there is none to take, and the code aborts); writing it ends when the child has
    read it *)
Inductive wait (s : spawned) (piped : bool) (timeout : nat) (l : looks) : ending -> Prop :=
| W_spawn : s = NoSpawn -> wait s piped timeout l (Ends Unresolved 0 false)
| W_stdin c : s = Spawned c -> piped = false -> wait s piped timeout l Aborts
| W_loop c t r : s = Spawned c -> piped = true -> ch_takes c = Some t -> t <= fst (l 0) -> loop c timeout l 0 r ->
    wait s piped timeout l r.
(** engine.rs:41-61: a shell test pipes its script *)
Definition sh_wait s := wait s true.
(** executable.rs:32-58: an executable test is given no input *)
Definition exe_wait s := wait s false.
