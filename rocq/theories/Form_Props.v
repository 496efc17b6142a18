(** C101: the formats that messages name. *)
From Coq Require Import String.
From Verif Require Import Base Num_Model Env_Model Gram_Model Parse_Model Parse_Props Form_Model Form_Spec Form_Proofs.
Open Scope string_scope.
Open Scope list_scope.

(** The claim - what a message shows for a format is the notation that asks for it - fails for a signed
    number without precision: a check file can ask for it, by "%d", but the message shows "d", which is
    not accepted. *)
Theorem C101_refuted : exists f, (exists n, asks_for check_cfg n f) /\ ~ asks_for check_cfg (shown f) f /\
  forall b, parse_file check_cfg (asking (shown f) b) = None.
Proof.
  exists (Signed 0). split; [exists (of_string "%d"); apply asks_b_asks; vm_compute; reflexivity|].
  assert (A : forall b, parse_file check_cfg (asking (shown (Signed 0)) b) = None) by (intros []; vm_compute; reflexivity).
  split; [|exact A]. intros H. specialize (H BOnly). rewrite A in H. discriminate.
Qed.
Print Assumptions C101_refuted.

Lemma writable_check : forallb (fun f => implb (writable f) (asks_b check_cfg (shown f) f)) formats = true.
Proof. vm_cast_no_check (eq_refl true). Qed.

(** Every other format a check file can ask for is shown by a notation that asks for it.  Missing for the
    full claim: the signed format without precision. *)
Theorem C101_read_back_partial f : stored f -> (exists n, asks_for check_cfg n f) -> f <> Signed 0 ->
  asks_for check_cfg (shown f) f.
Proof.
  intros A (n & H) N. pose proof writable_check as C. rewrite forallb_forall in C. specialize (C f (formats_all f A)). cbn beta in C.
  apply asks_b_asks. destruct (writable f) eqn:W; [exact C|]. exfalso. specialize (H BOnly). apply parse_file_fine in H.
  apply Forall_inv in H. unfold line_fine in H. cbn [cl_pat] in H. apply Forall_inv in H. cbn in H. destruct H as [H _].
  destruct f as [p|[|p]|p b []]; cbn in W, H; try discriminate; auto.
Qed.
Print Assumptions C101_read_back_partial.
(** ... and these are all but the lower case hexadecimal ones. *)
Theorem C101_which f : stored f -> (exists n, asks_for check_cfg n f) <-> forall p b, f <> Hex p b Lower.
Proof.
  intros A. split.
  - intros (n & H) p b ->. specialize (H BOnly). apply parse_file_fine in H.
    apply Forall_inv in H. unfold line_fine in H. cbn [cl_pat] in H. apply Forall_inv in H. cbn in H. tauto.
  - intros H. pose proof writable_check as C. rewrite forallb_forall in C. specialize (C f (formats_all f A)). cbn beta in C.
    destruct (writable f) eqn:W; [exists (shown f); now apply asks_b_asks|].
    destruct f as [p|[|p]|p b []]; try discriminate; [|now destruct (H p b)].
    exists (of_string "%d"). apply asks_b_asks. vm_compute. reflexivity.
Qed.
Print Assumptions C101_which.

(** No check file whatever asks for lower case, or for a precision that is no byte: "%x" accepts both cases. *)
Theorem C101_never_lower cfg s cs c f : parse_file cfg s = Some cs -> In c cs -> In f (formats_of c) ->
  stored f /\ forall p b, f <> Hex p b Lower.
Proof.
  intros H I J. apply parse_file_fine in H. rewrite Forall_forall in H. destruct (line_formats c f (H c I) J) as [L T].
  split; [exact T|]. intros p b ->. exact L.
Qed.
Print Assumptions C101_never_lower.
(** The lower case format, which only the library makes, is shown like the one that accepts both cases. *)
Theorem C101_lower p b : shown (Hex p b Lower) = shown (Hex p b Any).
Proof. destruct p, b; reflexivity. Qed.
Print Assumptions C101_lower.

(** Messages that describe a format in words describe different formats in different words. *)
Theorem C101_described f g : stored f -> stored g -> describe f = describe g -> f = g.
Proof. apply describe_inj. Qed.
Print Assumptions C101_described.

Lemma words_check : forallb (fun f => negb (str_eqb (describe f) (of_string "string")) && negb (str_eqb (describe f) (of_string "any number")))%bool formats = true.
Proof. vm_cast_no_check (eq_refl true). Qed.
(** ... and so do those that describe the type of a variable: text, any number, or numbers in a format. *)
Theorem C101_types (t u : option (option format)) : (forall f, t = Some (Some f) -> stored f) -> (forall f, u = Some (Some f) -> stored f) ->
  type_text t = type_text u -> t = u.
Proof.
  assert (W : forall f, stored f -> describe f <> of_string "string" /\ describe f <> of_string "any number").
  { intros f A. pose proof words_check as C. rewrite forallb_forall in C. specialize (C f (formats_all f A)). cbn beta in C.
    apply andb_prop in C as [C D]. split; intros E; rewrite E in C, D; discriminate. }
  intros A B. destruct t as [[f|]|], u as [[g|]|]; cbn [type_text]; intros E; try reflexivity; try discriminate;
    try (destruct (W f (A f eq_refl)); congruence); try (destruct (W g (B g eq_refl)); congruence).
  repeat f_equal. apply describe_inj; auto.
Qed.
Print Assumptions C101_types.

(** Concrete cases. *)
Example asks_cases :
  asks_for check_cfg (of_string "%#.8X") (Hex 8 true Upper) /\ asks_for check_cfg (of_string "%.3d") (Signed 3) /\
  shown (Hex 8 true Upper) = of_string "%#.8X" /\ shown (Signed 3) = of_string "%.3d" /\ shown (Unsigned 12) = of_string "%.12u" /\
  parse_file check_cfg (of_string "CHECK: [[#%.2x,X:]]") =
    Some [mkCLine CPlain false (PParts [QMatch (MNumeric (Some (Hex 2 false Any)) (Some (User (of_string "X"))) None)])] /\
  formats_of (mkCLine CPlain false (PParts [QMatch (MNumeric (Some (Hex 2 false Any)) (Some (User (of_string "X"))) None)])) = [Hex 2 false Any] /\
  describe (Signed 3) = of_string "a signed 3-digit 128-bit integer" /\
  describe (Hex 4 true Upper) = of_string "a 4-digit 12864-bit integer in uppercase hex format, prefixed with 0x".
Proof. repeat split; try (apply asks_b_asks; vm_compute; reflexivity); vm_compute; reflexivity. Qed.
