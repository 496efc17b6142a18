(** C12: the cursor. *)
From Coq Require Import String. Open Scope string_scope.
From Verif Require Import Base Text_Model Text_Spec Text_Proofs Cursor_Model Cursor_Spec Cursor_Proofs.

(** In a file whose first line ends with a line feed alone, whatever sequence of legal operations
    is performed on a new cursor: none aborts, and the resulting position lies inside the block,
    the block inside the buffer, and the reported line end is the true end of the current line,
    or the end of the block if that comes first. *)
Theorem C12_cursor_invariant_partial b c l :
  cursor_new b = Val c -> c_crlf c = false -> Forall (valid_op b) l ->
  exists c' p, run_ops (c, position c) l = Val (c', p) /\ cursor_ok b c'.
Proof.
  intros N C V. destruct (cursor_new_ok b c N C) as (OK & _ & _ & X).
  destruct (run_ops_ok b l (c, position c)) as ([c' p] & E & ? & _); auto.
  - unfold pos_ok. simpl. destruct OK as (B & R). destruct c; simpl in *; subst. split; auto.
  - eauto.
Qed.

(** Moving the start never moves the end of the block and never passes it, and lands on the
    requested offset whenever that is inside the block. *)
Theorem C12_set_start b c n : cursor_ok b c -> c_crlf c = false ->
  exists c', set_start c n = Val c' /\ c_end c' = c_end c /\ c_start c' <= c_end c /\
    (n <= c_end c -> c_start c' = n) /\ cursor_ok b c'.
Proof.
  intros OK C. destruct (set_start_ok b c n OK C) as (c'&->&?&?&?&E).
  exists c'. rewrite E. repeat match goal with |- _ /\ _ => split end; auto; try apply Nat.le_min_r.
  intros; lia.
Qed.

(** The searchable current line exists (does not abort) and stops at or before the line's end. *)
Theorem C12_search_line b c : cursor_ok b c ->
  exists i, line_end b (c_start c) i /\
    ((i <= c_end c -> search_line c = Val (mkRange (c_start c) i)) /\
     exists e, search_line c = Val (mkRange (c_start c) e) /\ e <= i).
Proof.
  intros (B & L & i & I & E). exists i. split; auto. destruct I as [Li _]. unfold search_line, end_of_line in *.
  split.
  - intros Q. rewrite search_range_ok by (rewrite B; lia). f_equal. f_equal. lia.
  - exists (c_eol c). rewrite search_range_ok by (rewrite B; lia). split; auto. lia.
Qed.

(** With CRLF line ends, entering a block that does not start at offset 0 puts the line end
    before the block, and searching the current line aborts. *)
Theorem C12_crlf_refuted : exists b c c',
  cursor_new b = Val c /\ c_crlf c = true /\ set_bounds c (Included 3) Unbounded = Val c' /\
  end_of_line c' < c_start c' /\ search_line c' = Panic.
Proof.
  exists [97; 13; 10; 98; 13; 10; 99]%N. eexists. eexists.
  split; [vm_compute; reflexivity|]. split; [reflexivity|]. split; [vm_compute; reflexivity|].
  split; [cbn; lia|vm_compute; reflexivity].
Qed.

(** Consuming a newline moves the start to the beginning of the next line, and the block's end stays. *)
Theorem C12_consume_newline_partial b c : cursor_ok b c -> c_crlf c = false -> c_start c < c_end c -> byte_at b (c_start c) LF ->
  exists c', consume_newline c = Val c' /\ c_start c' = S (c_start c) /\ c_end c' = c_end c /\ c_buf c' = b.
Proof.
  intros (B & L & _) C S A. unfold consume_newline, at_end_of_line, is_end_of_line, is_end_lf, start_of_next_line. rewrite C, B.
  replace (Nat.eqb (c_start c) (List.length b)) with false by (symmetry; apply Nat.eqb_neq; lia).
  unfold byte_at in A. rewrite A. cbn [unwrap bind]. rewrite N.eqb_refl. cbn [assert bind].
  destruct (newline_next_from b (c_start c)) as [n|] eqn:N.
  - cbn [unwrap bind]. apply next_from_spec in N as (_ & [(i & (I1 & I2 & I3) & E & _)|(X & _)]).
    + assert (i = c_start c) by (destruct (Nat.eq_dec i (c_start c)); auto; exfalso; apply (I3 (c_start c)); [lia|exact A]). subst i.
      eexists. split; [reflexivity|]. cbn. rewrite E. repeat split; auto. lia.
    + exfalso. apply (X (c_start c)); [lia|exact A].
  - exfalso. unfold newline_next_from in N. destruct (slice_ok b (mkRange (c_start c) (List.length b))) as [t T]; cbn; try lia. now rewrite T in N.
Qed.
Print Assumptions C12_consume_newline_partial.
(** Consuming a newline leaves the old line end in place, behind the cursor. *)
Theorem C12_consume_newline_refuted : exists b c c' c'',
  cursor_new b = Val c /\ c_crlf c = false /\ set_start c 1 = Val c' /\ consume_newline c' = Val c'' /\
  end_of_line c'' < c_start c'' /\ search_line c'' = Panic.
Proof.
  exists [97; 10; 98; 10]%N. eexists. eexists. eexists.
  split; [vm_compute; reflexivity|]. split; [reflexivity|]. split; [vm_compute; reflexivity|].
  split; [vm_compute; reflexivity|]. split; [cbn; lia|vm_compute; reflexivity].
Qed.

(** A non-trivial run: two blocks, moving forwards, backwards and past the end. *)
Example C12_example : exists c p,
  (do c <- cursor_new [97; 10; 98; 99; 10; 100]%N;
   run_ops (c, position c) [SetBounds (Included 1) (Excluded 5); Save; SetStart 4; SetStart 9; SetStart 2; MoveToEnd; Restore; SetStart 2])
  = Val (c, p) /\ c_start c = 2 /\ c_end c = 5 /\ end_of_line c = 4.
Proof. eexists. eexists. split; [vm_compute; reflexivity|]. split; [reflexivity|]. split; reflexivity. Qed.

Print Assumptions C12_cursor_invariant_partial.
Print Assumptions C12_set_start.
Print Assumptions C12_search_line.
Print Assumptions C12_crlf_refuted.
Print Assumptions C12_consume_newline_refuted.
