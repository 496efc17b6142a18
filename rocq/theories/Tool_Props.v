(** C88: the commands of a test.  C89: the features of a test. *)
From Coq Require Import String.
From Verif Require Import Base Cursor_Model Map_Model Script_Model Sub_Model Sub_Spec Sub_Props Config_Model Tool_Model Tool_Spec Tool_Proofs.
Notation length := List.length.
Open Scope string_scope. Open Scope list_scope. Open Scope nat_scope.
Ltac splits := repeat match goal with |- _ /\ _ => split end.

(** * The tools' words *)
Notation marked := (render (fun _ => None)).
Ltac forall2s := repeat match goal with H : Forall2 _ (_ :: _) _ |- _ => inversion H; clear H; subst | H : Forall2 _ [] _ |- _ => inversion H; clear H; subst end.
Lemma hits_filecheck s : hits filecheck_word s <-> In s (map of_string ["FileCheck"; "Filecheck"; "fileCheck"; "filecheck"]).
Proof.
  unfold hits, filecheck_word. cbn [map]. split.
  - intros H. forall2s. cbn in *. repeat match goal with H : _ \/ _ |- _ => destruct H | H : False |- _ => destruct H end; subst; auto.
  - intros [<-|[<-|[<-|[<-|[]]]]]; repeat (apply Forall2_cons || apply Forall2_nil); cbn; auto.
Qed.
Lemma hits_not s : hits not_word s <-> s = of_string "not".
Proof.
  unfold hits, not_word. cbn [map]. split.
  - intros H. forall2s. cbn in *. repeat match goal with H : _ \/ _ |- _ => destruct H | H : False |- _ => destruct H end; subst; auto.
  - intros ->. repeat (apply Forall2_cons || apply Forall2_nil); cbn; auto.
Qed.
Definition class (t : tool) : list (list N) := match t with FileCheck => filecheck_word | Not => not_word end.
Lemma written_escaped w : In Escaped w -> In pct (text w).
Proof. intros I. apply in_flat_map. exists Escaped. split; [exact I|]. cbn. auto. Qed.
Lemma marked_escaped w : In Escaped w -> In hash (marked w).
Proof. intros I. apply in_flat_map. exists Escaped. split; [exact I|]. cbn. auto. Qed.
Lemma tok_dec (a b : tok) : {a = b} + {a <> b}.
Proof. decide equality; [apply N.eq_dec|apply name_eq_dec]. Defined.
Lemma marked_text w s : calm s -> marked w = s <-> text w = s.
Proof.
  intros C. destruct (in_dec tok_dec Escaped w) as [I|I].
  - split; intros <-; exfalso; [apply (calm_hash _ C)|apply (calm_pct _ C)]; auto using written_escaped, marked_escaped.
  - assert (E : marked w = text w). { unfold render, text. clear C. induction w as [|t w IH]; [reflexivity|]. cbn [flat_map]. rewrite IH by (intros K; apply I; now right). f_equal. destruct t; try reflexivity. elim I. now left. } now rewrite E.
Qed.
Lemma hits_calls t w : hits (class t) (marked w) <-> calls t w.
Proof.
  assert (Cs : forall s, In s (of_string "not" :: map of_string ["FileCheck"; "Filecheck"; "fileCheck"; "filecheck"]) -> calm s).
  { intros s [<-|[<-|[<-|[<-|[<-|[]]]]]] c I J; cbn in I, J; intuition (subst; discriminate). }
  destruct t; cbn [class calls].
  - rewrite hits_filecheck. split; intros I; [|]; set (l := map of_string _) in *.
    + pose proof (proj1 (marked_text w (marked w) (Cs _ (or_intror I))) eq_refl) as E. now rewrite E.
    + pose proof (proj2 (marked_text w (text w) (Cs _ (or_intror I))) eq_refl) as E. now rewrite E.
  - rewrite hits_not. apply marked_text. apply Cs. now left.
Qed.
Lemma class_white t : class t <> [] /\ Forall (fun cs => Forall (fun c => white c = false) cs) (class t).
Proof. destruct t; (split; [discriminate|]); cbn; repeat constructor. Qed.
Lemma marked_solid w : word w -> solid (marked w).
Proof.
  unfold solid. induction 1 as [|c w Hw Hc W IH|w W IH|n w W IH| |c w Hc W IH]; cbn [render flat_map]; intros d I; try (apply in_app_iff in I as [I|I]; [|now apply IH]).
  - destruct I.
  - destruct I as [->|[]]. now apply white_not.
  - cbn in I. intuition (subst; reflexivity).
  - destruct n; cbn in I; intuition (subst; reflexivity).
  - cbn in I. intuition (subst; reflexivity).
  - destruct I as [<-|[]]. reflexivity.
Qed.
Lemma marked_plain s : marked (map Plain s) = s.
Proof. unfold render. induction s as [|c s IH]; cbn; [reflexivity|]. now rewrite IH. Qed.
Lemma calls_apart w : ~ (calls FileCheck w /\ calls Not w).
Proof. intros [A B]. cbn in B. unfold calls in A. rewrite B in A. cbn in A. intuition discriminate. Qed.

(** * Commands as rows of words *)
Definition change_words (g : list tok -> list tok) (c : command) : command := mkCommand (g (first c)) (map (fun x => (fst x, g (snd x))) (others c)).
Definition tokens (c : command) : list tok := first c ++ flat_map (fun x => Plain (fst x) :: snd x) (others c).
Lemma tokens_flat (f : tok -> str) c : (forall d, f (Plain d) = [d]) -> flat_map f (tokens c) = flat_map f (first c) ++ flat (map (fun x => (fst x, flat_map f (snd x))) (others c)).
Proof.
  intros H. unfold tokens. rewrite flat_map_app. f_equal. induction (others c) as [|(d, w) l IH]; [reflexivity|]. unfold flat in *. cbn [flat_map map fst snd app]. rewrite flat_map_app, H, IH. reflexivity.
Qed.
Lemma tokens_text c : command_text c = flat_map written (tokens c).
Proof.
  rewrite tokens_flat by reflexivity. unfold command_text, text. f_equal. unfold flat. induction (others c) as [|x l IH]; [reflexivity|]. cbn [flat_map map fst snd]. now rewrite IH.
Qed.

(** * One substitution after the other *)
Section Steps.
Context (rx : str -> str -> str -> option (option str)).
Notation known := (rx_known rx).
Lemma known_eq p r s k : key_of p = Some k -> known p r s = Some (if fst (rep k r true s) then Some (snd (rep k r true s)) else None).
Proof. intros H. unfold rx_known. rewrite H. change (replace_key (S (length s)) k r true s) with (rep k r true s). destruct (rep k r true s). reflexivity. Qed.
Lemma later_step (p r : str) k (l : list (str * str)) (buf : str) es un : key_of p = Some k -> shrinks k -> ~ occurs PP buf ->
  exists es', apply_all known ((p, r) :: l) buf es un = apply_all known l (snd (rep k r true buf)) es' un.
Proof.
  intros Hk Sh N. cbn [apply_all]. assert (C : contains PP buf = false) by (destruct (contains PP buf) eqn:E; [apply contains_spec in E; contradiction|reflexivity]). rewrite C.
  replace (if es then (buf, false, un) else (buf, false, un)) with (buf, false, un) by now destruct es. rewrite (known_eq p r buf k Hk). destruct (fst (rep k r true buf)) eqn:F; eauto. rewrite (rep_same k r Sh true buf F). eauto.
Qed.
Lemma first_step (p r : str) k (l : list (str * str)) ts : key_of p = Some k -> shrinks k -> row ts ->
  exists es', apply_all known ((p, r) :: l) (flat_map written ts) true false = apply_all known l (snd (rep k r true (marked ts))) es' (contains PP (flat_map written ts)).
Proof.
  intros Hk Sh Rw. pose proof (marked_first ts Rw) as M. cbn [apply_all]. destruct (contains PP (flat_map written ts)) eqn:C.
  - assert (E : replace_text PP MARKER (flat_map written ts) = marked ts) by (eapply replaced_fun; [|apply replaced_replace|exact M]; discriminate). rewrite E, (known_eq p r _ k Hk).
    destruct (fst (rep k r true (marked ts))) eqn:F; eauto. rewrite (rep_same k r Sh true _ F). eauto.
  - assert (E : flat_map written ts = marked ts). { eapply replaced_fun; [|apply replaced_id|exact M]; [discriminate|]. intros O. apply contains_spec in O. congruence. }
    rewrite E, (known_eq p r _ k Hk). destruct (fst (rep k r true (marked ts))) eqn:F; eauto. rewrite (rep_same k r Sh true _ F). eauto.
Qed.
Lemma named_step value n (s p : str) ts (l : list (str * str)) es un : row ts -> value n = None -> (forall m x, value m = Some x -> calm x) -> ~ In DOLLAR s -> key_of p = Some (KText (spelling n)) ->
  exists es', apply_all known ((p, s) :: l) (render value ts) es un = apply_all known l (render (also value n s) ts) es' un.
Proof.
  intros Rw Vn Vc Ds Hk. destruct (spelling_pct n) as (c & q & Es & _). assert (Sh : shrinks (KText (spelling n))) by (rewrite Es; apply text_shrinks).
  destruct (later_step p s _ l (render value ts) es un Hk Sh (no_double value ts Rw Vc)) as (es' & E). exists es'. rewrite E. f_equal. rewrite Es. eapply replaced_fun; [|apply text_replaced with (n := length (render value ts)); auto|rewrite <- Es; now apply named_stage]. discriminate.
Qed.
End Steps.

(** * The tools *)
Lemma tool_shape t dir file : clean_dir dir -> file = of_string "litcheck" \/ file = of_string "lit" ->
  let v := tools_of dir file t in
  ~ In DOLLAR v /\ (match v with [] => False | c :: _ => cap_letter c = false end) /\ inert v /\
  (forall t', ~ hits (class t') v) /\ quiet (class Not) (tools_of dir file Not) (tools_of dir file FileCheck).
Proof.
  intros (Hd & In_ & Hw) Hf v. destruct (class_white Not) as [Wn Ww]. assert (Sl : forall r, solid (of_string r) -> solid (dir ++ of_string r)).
  { intros r H c I. apply in_app_iff in I as [I|I]; auto. apply white_not. auto. }
  assert (Iv : inert v). { unfold v, tools_of. intros c I. destruct (str_eqb file _); apply in_app_iff in I as [I|I]; auto; destruct t; cbn in I; intros J; cbn in J; intuition (subst; discriminate). }
  assert (Slash : forall d r, In 47%N (d ++ of_string ("/" ++ r)%string)) by (intros d r; apply in_app_iff; right; now left).
  assert (Nh : forall s t', In 47%N s -> ~ hits (class t') s).
  { intros s t' I H. destruct t'; [apply hits_filecheck in H; destruct H as [<-|[<-|[<-|[<-|[]]]]]|apply hits_not in H; subst s]; cbn in I; intuition discriminate. }
  splits.
  - intros I. apply (Iv _ I). cbn. auto.
  - unfold v, tools_of. destruct Hd as [->|(r & ->)]; destruct (str_eqb file _), t; reflexivity.
  - exact Iv.
  - intros t'. apply Nh. unfold v, tools_of. destruct (str_eqb file _), t; apply Slash.
  - assert (F2 : quiet (class Not) (tools_of dir file Not) (of_string "filecheck")).
    { apply quiet_solid; auto; [intros c I; cbn in I; intuition (subst; reflexivity)|]. intros H. apply hits_not in H. discriminate. }
    destruct Hf as [-> | ->]; unfold tools_of at 2; cbn [str_eqb].
    + change (dir ++ of_string "/litcheck filecheck") with (dir ++ of_string "/litcheck" ++ 32%N :: of_string "filecheck"). rewrite app_assoc. replace (str_eqb _ _) with true by reflexivity. apply quiet_two; auto.
      * apply Sl. intros c I. cbn in I. intuition (subst; reflexivity).
      * apply (Nh _ Not). apply (Slash dir "litcheck").
    + replace (str_eqb _ _) with false by reflexivity. apply quiet_solid; auto; [apply Sl; intros c I; cbn in I; intuition (subst; reflexivity)|]. apply (Nh _ Not). apply (Slash dir "filecheck").
Qed.

(** * Commands *)
Lemma rows g c : proper_command c -> (forall w, word w -> row (g w)) -> row (tokens (change_words g c)).
Proof.
  intros [Fw Fs] Hg. unfold tokens, change_words, words in *. cbn [first others]. inversion Fw as [|? ? F1 F2]; subst. apply row_app; [auto| |].
  - destruct (others c) as [|(d, w) l]; [exact I|]. cbn. inversion Fs as [|? ? X _]; subst. cbn in X. unfold is_white in X. intros J. repeat (destruct J as [<-|J]; [lia|]). destruct J.
  - clear F1 Fw. revert Fs F2. generalize (others c). induction l as [|(d, w) l IH]; intros Fs F2; [constructor|]. cbn in *. inversion Fs as [|? ? X1 X2]; inversion F2 as [|? ? Y1 Y2]; subst. cbn in X1.
    assert (Hd : forall s, (forall x, In x (of_string s) -> ~ is_white x) -> ~ In d (of_string s)) by (intros s K I; now apply (K d)).
    constructor; [apply Hd; intros x J; cbn in J; unfold is_white; intros K; repeat (destruct J as [<-|J]; [lia|]); destruct J|].
    apply row_app; [auto| |now apply IH]. destruct l as [|(d', w') l]; [exact I|]. cbn. inversion X2 as [|? ? X _]; subst. cbn in X. unfold is_white in X. intros J. repeat (destruct J as [<-|J]; [lia|]). destruct J.
Qed.
Lemma rows_id c : proper_command c -> row (tokens c).
Proof.
  intros P. replace c with (change_words (fun w => w) c); [apply rows; [exact P|apply word_row]|]. destruct c as [f o]. unfold change_words. cbn. f_equal. rewrite <- (map_id o) at 2. apply List.map_ext. now intros [].
Qed.
Lemma run_word_same tools value w a b : run_word tools value w a -> run_word tools value w b -> a = b.
Proof.
  intros [t Ct|Ct] [t' Ct'|Ct']; auto; [|now elim (Ct' t)|now elim (Ct t')]. destruct t, t'; auto; exfalso; apply (calls_apart w); auto.
Qed.
Lemma run_same tools value c a b : run_command tools value c a -> run_command tools value c b -> a = b.
Proof.
  intros [w ws W F] [w' ws' W' F']. f_equal; [eapply run_word_same; eauto|]. f_equal. f_equal. revert ws' F'. induction F; intros ws' F'; inversion F'; subst; [reflexivity|]. f_equal; [eapply run_word_same; eauto|auto].
Qed.
Section Command.
Context (rx : str -> str -> str -> option (option str)) (dir file : str) (Cd : clean_dir dir) (Hf : file = of_string "litcheck" \/ file = of_string "lit").
Notation v1 := (tools_of dir file FileCheck).
Notation v2 := (tools_of dir file Not).
Definition sub (t : tool) (w : list tok) : list tok := if hits_dec (class t) (marked w) then map Plain (tools_of dir file t) else w.
Lemma sub_put t w : marked (sub t w) = put (class t) (tools_of dir file t) (marked w).
Proof using. unfold sub, put. destruct (hits_dec (class t) (marked w)); [apply marked_plain|reflexivity]. Qed.
Definition both (w : list tok) : list tok := sub Not (sub FileCheck w).
Lemma sub_word w : (calls FileCheck w /\ sub FileCheck w = map Plain v1) \/ (~ calls FileCheck w /\ sub FileCheck w = w).
Proof using. unfold sub. destruct (hits_dec (class FileCheck) (marked w)) as [H|H]; rewrite hits_calls in H; auto. Qed.
Lemma both_word w : (calls FileCheck w /\ both w = map Plain v1) \/ (calls Not w /\ both w = map Plain v2) \/ ((forall t, ~ calls t w) /\ both w = w).
Proof using Cd Hf.
  destruct (tool_shape FileCheck dir file Cd Hf) as (_ & _ & _ & Nh & _). unfold both. destruct (sub_word w) as [[C ->]|[C ->]].
  - left. split; [exact C|]. unfold sub. rewrite marked_plain. destruct (hits_dec (class Not) v1) as [H|_]; [now elim (Nh Not)|reflexivity].
  - right. unfold sub. destruct (hits_dec (class Not) (marked w)) as [H|H]; rewrite hits_calls in H; auto. right. split; [|reflexivity]. now intros [].
Qed.
Lemma marked_command c : marked (tokens c) = marked (first c) ++ flat (map (fun x => (fst x, marked (snd x))) (others c)).
Proof using. unfold render. now apply tokens_flat. Qed.
Lemma snd_map {A B} (f : A -> B) (l : list (N * A)) : map snd (map (fun x => (fst x, f (snd x))) l) = map f (map snd l).
Proof using. rewrite !map_map. reflexivity. Qed.
Lemma spaced_of t (f : list tok -> str) ws : (forall w, In w ws -> hits (class t) (f w) -> calls t w) -> spread ws -> spaced (class t) (map f ws).
Proof using.
  intros H. induction ws as [|a ws IH]; intros Sp; [exact I|]. destruct ws as [|b ws]; [exact I|]. inversion Sp; subst. change (map f (a :: b :: ws)) with (f a :: f b :: map f ws). cbn [spaced]. split.
  - intros [A B]. apply H in A; [|now left]. apply H in B; [|right; now left]. match goal with K : forall t, ~ _ |- _ => now apply (K t) end.
  - apply IH; [|assumption]. intros w I. apply H. now right.
Qed.
Lemma first_tool c : proper_command c -> spread (words c) -> snd (rep (KTool filecheck_word) (tool_template v1) true (marked (tokens c))) = marked (tokens (change_words (sub FileCheck) c)).
Proof using Cd Hf.
  intros [Fw Fs] Sp. destruct (tool_shape FileCheck dir file Cd Hf) as (Vd & Vh & _). destruct (class_white FileCheck) as [Wn Ww]. rewrite !marked_command. change filecheck_word with (class FileCheck).
  rewrite (rep_words (class FileCheck) v1 Wn Ww Vd Vh).
  - unfold change_words. cbn [first others]. rewrite sub_put. rewrite !map_map. cbn [fst snd]. f_equal. f_equal. apply List.map_ext. intros x. now rewrite sub_put.
  - rewrite Forall_map. eapply Forall_impl; [|exact Fs]. intros x H. now apply white_spec.
  - rewrite snd_map. change (marked (first c) :: map marked (map snd (others c))) with (map marked (words c)). rewrite Forall_map. eapply Forall_impl; [|exact Fw]. intros w W. unfold piece. destruct (hits_dec (class FileCheck) (marked w)) as [H|H]; [now left|right]. split; [|exact H]. apply quiet_solid; auto using marked_solid.
  - rewrite snd_map. change (marked (first c) :: map marked (map snd (others c))) with (map marked (words c)). apply spaced_of; [|exact Sp]. intros w _. apply hits_calls.
Qed.
Lemma second_tool c : proper_command c -> spread (words c) -> snd (rep (KTool not_word) (tool_template v2) true (marked (tokens (change_words (sub FileCheck) c)))) = marked (tokens (change_words both c)).
Proof using Cd Hf.
  intros [Fw Fs] Sp. destruct (tool_shape Not dir file Cd Hf) as (Vd & Vh & _ & _ & Qv). destruct (tool_shape FileCheck dir file Cd Hf) as (_ & _ & _ & Nh & _). destruct (class_white Not) as [Wn Ww]. rewrite !marked_command. change not_word with (class Not).
  rewrite (rep_words (class Not) v2 Wn Ww Vd Vh).
  - unfold change_words. cbn [first others]. unfold both. rewrite !sub_put. rewrite !map_map. cbn [fst snd]. f_equal. f_equal. apply List.map_ext. intros x. now rewrite !sub_put.
  - unfold change_words. cbn [first others]. rewrite !Forall_map. cbn [fst]. eapply Forall_impl; [|exact Fs]. intros x H. now apply white_spec.
  - unfold change_words. cbn [first others]. rewrite !snd_map. change (marked (sub FileCheck (first c)) :: map marked (map (sub FileCheck) (map snd (others c)))) with (map marked (map (sub FileCheck) (words c))). rewrite !Forall_map. eapply Forall_impl; [|exact Fw]. intros w W. unfold piece.
    destruct (sub_word w) as [[C ->]|[C ->]]; [rewrite marked_plain; auto|]. destruct (hits_dec (class Not) (marked w)) as [H|H]; [now left|right]. split; [|exact H]. apply quiet_solid; auto using marked_solid.
  - unfold change_words. cbn [first others]. rewrite !snd_map. rewrite map_map. change (marked (sub FileCheck (first c)) :: map (fun x => marked (sub FileCheck x)) (map snd (others c))) with (map (fun x => marked (sub FileCheck x)) (words c)).
    apply spaced_of; [|exact Sp]. intros w _ H. destruct (sub_word w) as [[C E]|[C E]]; rewrite E in H; [rewrite marked_plain in H; now elim (Nh Not)|]. now apply hits_calls.
Qed.
Lemma rows_both c : proper_command c -> row (tokens (change_words both c)).
Proof using Cd Hf.
  intros P. apply rows; [exact P|]. intros w W. destruct (both_word w) as [[_ ->]|[[_ ->]|[_ ->]]]; [apply row_plain, (tool_shape FileCheck dir file Cd Hf)|apply row_plain, (tool_shape Not dir file Cd Hf)|now apply word_row].
Qed.
Lemma rows_first c : proper_command c -> row (tokens (change_words (sub FileCheck) c)).
Proof using Cd Hf.
  intros P. apply rows; [exact P|]. intros w W. destruct (sub_word w) as [[_ ->]|[_ ->]]; [apply row_plain, (tool_shape FileCheck dir file Cd Hf)|now apply word_row].
Qed.
Lemma escaped_both c : In Escaped (tokens (change_words both c)) -> In Escaped (tokens c).
Proof using Cd Hf.
  assert (W : forall w, In Escaped (both w) -> In Escaped w).
  { intros w. destruct (both_word w) as [[_ ->]|[[_ ->]|[_ ->]]]; auto; intros I; apply in_map_iff in I as (x & X & _); discriminate. }
  unfold tokens, change_words. cbn [first others]. rewrite !in_app_iff, !in_flat_map. intros [I|(x & I & J)]; [left; auto|right]. apply in_map_iff in I as (y & <- & I). exists y. split; [exact I|]. cbn in *. destruct J as [J|J]; [discriminate|auto].
Qed.
Lemma run_both value c : run_command (tools_of dir file) value c (flat_map (meant value) (tokens (change_words both c))).
Proof using Cd Hf.
  assert (W : forall w, run_word (tools_of dir file) value w (flat_map (meant value) (both w))).
  { intros w. assert (P : forall s, flat_map (meant value) (map Plain s) = s) by (induction s as [|d s IH]; cbn; [reflexivity|now rewrite IH]).
    destruct (both_word w) as [[C ->]|[[C ->]|[C ->]]]; [rewrite P; now constructor|rewrite P; now constructor|now constructor]. }
  rewrite tokens_flat by reflexivity. unfold change_words. cbn [first others]. rewrite map_map. cbn [fst snd].
  replace (flat _) with (flat_map (fun x => fst x :: snd x) (combine (map fst (others c)) (map (fun w => flat_map (meant value) (both w)) (map snd (others c))))).
  - constructor; [apply W|]. generalize (map snd (others c)). induction l; constructor; auto.
  - unfold flat. f_equal. induction (others c) as [|x l IH]; [reflexivity|]. cbn. now rewrite IH.
Qed.
End Command.
Lemma escaped_contains ts : In Escaped ts -> contains PP (flat_map written ts) = true.
Proof.
  intros I. apply contains_spec. apply in_split in I as (a & b & ->). exists (flat_map written a), (flat_map written b). rewrite flat_map_app. reflexivity.
Qed.
Lemma render_meant value ts : ~ In Escaped ts -> render (fun n => Some (value n)) ts = flat_map (meant value) ts.
Proof.
  unfold render. induction ts as [|t ts IH]; intros H; [reflexivity|]. cbn [flat_map]. rewrite IH by (intros I; apply H; now right). f_equal. destruct t; try reflexivity. elim H. now left.
Qed.
Lemma inert_calm s : inert s -> calm s /\ ~ In DOLLAR s.
Proof. intros H. split; [intros c I J; apply (H c I); cbn in *; intuition|intros I; apply (H _ I); cbn; auto]. Qed.

(** * The command of a test *)
Definition values (src tmp path sdir temp base : str) (n : name) : str :=
  match n with
  | Source => path | SourceDir => sdir | Temp => temp | TempBase => base | PathSep => of_string ":" | SourceRoot => src | TempRoot => tmp | Sep => of_string "/"
  end.
Theorem command_expanded rx dir file src tmp host target cfg path sdir temp base c out :
  clean_dir dir -> file = of_string "litcheck" \/ file = of_string "lit" -> Forall inert [src; tmp; path; sdir; temp; base] ->
  cf_subst cfg = [] -> proper_command c -> spread (words c) ->
  apply (rx_known rx) (test_substitutions (cf_subst (suite_config dir file src tmp host target cfg)) [] path sdir temp base) (command_text c) = inl out
  <-> run_command (tools_of dir file) (values src tmp path sdir temp base) c out.
Proof.
  intros Cd Hf Vi Sc P Sp. set (value := values src tmp path sdir temp base).
  assert (Vs : forall n, calm (value n) /\ ~ In DOLLAR (value n)).
  { intros n. apply inert_calm. rewrite Forall_forall in Vi. destruct n; try (apply Vi; cbn; auto 10; fail); intros d I J; cbn in I, J; intuition (subst; discriminate). }
  assert (V1 : snd (tool_values dir file) = tools_of dir file Not /\ fst (tool_values dir file) = tools_of dir file FileCheck) by (destruct Hf as [-> | ->]; split; reflexivity).
  assert (E : apply (rx_known rx) (test_substitutions (cf_subst (suite_config dir file src tmp host target cfg)) [] path sdir temp base) (command_text c) = inl (flat_map (meant value) (tokens (change_words (both dir file) c)))).
  { unfold apply.
    assert (Si : siter (test_substitutions (cf_subst (suite_config dir file src tmp host target cfg)) [] path sdir temp base) =
      [(FILECHECK_KEY, tool_template (tools_of dir file FileCheck)); (NOT_KEY, tool_template (tools_of dir file Not)); (of_string "%\{pathsep\}", value PathSep); (of_string "%\{fs-src-root\}", value SourceRoot);
       (of_string "%\{fs-tmp-root\}", value TempRoot); (of_string "%\{fs-sep\}", value Sep); (of_string "%s", value Source); (of_string "%S", value SourceDir); (of_string "%t", value Temp); (of_string "%basename_t", value TempBase); (PP, of_string "%")]).
    { destruct V1 as [<- <-]. unfold suite_config, inherit, defaults, default_config. cbn [cf_subst]. rewrite Sc. unfold set_default_substitutions. destruct (tool_values dir file) as [a b]. reflexivity. }
    rewrite Si, tokens_text. clear Si.
    destruct (first_step rx FILECHECK_KEY (tool_template (tools_of dir file FileCheck)) (KTool filecheck_word)
      [(NOT_KEY, tool_template (tools_of dir file Not)); (of_string "%\{pathsep\}", value PathSep); (of_string "%\{fs-src-root\}", value SourceRoot);
       (of_string "%\{fs-tmp-root\}", value TempRoot); (of_string "%\{fs-sep\}", value Sep); (of_string "%s", value Source); (of_string "%S", value SourceDir); (of_string "%t", value Temp); (of_string "%basename_t", value TempBase); (PP, of_string "%")] (tokens c) eq_refl) as (es & ->).
    { destruct (class_white FileCheck). now apply tool_shrinks. }
    { now apply rows_id. }
    rewrite (first_tool dir file Cd Hf c P Sp). set (un := contains PP (flat_map written (tokens c))).
    match goal with |- context [apply_all _ ((_, _) :: ?l)] => destruct (later_step rx NOT_KEY (tool_template (tools_of dir file Not)) (KTool not_word) l (marked (tokens (change_words (sub dir file FileCheck) c))) es un eq_refl) as (es1 & ->) end.
    { destruct (class_white Not). now apply tool_shrinks. }
    { apply no_double; [now apply rows_first|discriminate]. }
    rewrite (second_tool dir file Cd Hf c P Sp). pose proof (rows_both dir file Cd Hf c P) as Rw. set (ts := tokens (change_words (both dir file) c)) in *.
    assert (Named_ : forall (done : name -> bool) n (p : str) (l : list (str * str)) es un, done n = false -> key_of p = Some (KText (spelling n)) ->
      exists es', apply_all (rx_known rx) ((p, value n) :: l) (render (fun m => if done m then Some (value m) else None) ts) es un =
        apply_all (rx_known rx) l (render (fun m => if (if name_eq_dec n m then true else done m) then Some (value m) else None) ts) es' un).
    { intros done n p l es0 un0 Dn Hk. destruct (named_step rx (fun m => if done m then Some (value m) else None) n (value n) p ts l es0 un0 Rw) as (es' & E').
      - cbv beta. now rewrite Dn.
      - intros m x. destruct (done m); [|discriminate]. intros E'. injection E' as <-. apply Vs.
      - apply Vs.
      - exact Hk.
      - exists es'. rewrite E'. f_equal. unfold render. apply flat_map_ext. intros [| |m|]; try reflexivity. cbn [mark]. unfold also. destruct (name_eq_dec n m) as [<-|]; reflexivity. }
    change (marked ts) with (render (fun m => if (fun _ : name => false) m then Some (value m) else None) ts).
    destruct (Named_ (fun _ => false) PathSep (of_string "%\{pathsep\}") [(of_string "%\{fs-src-root\}", value SourceRoot);
       (of_string "%\{fs-tmp-root\}", value TempRoot); (of_string "%\{fs-sep\}", value Sep); (of_string "%s", value Source); (of_string "%S", value SourceDir); (of_string "%t", value Temp); (of_string "%basename_t", value TempBase); (PP, of_string "%")] es1 un eq_refl eq_refl) as (es2 & ->).
    repeat match goal with
    | |- context [apply_all _ ((?p, value ?n) :: ?l) (render (fun m => if @?d m then Some (value m) else None) ts) ?e ?u] =>
        let es' := fresh "es" in destruct (Named_ d n p l e u eq_refl eq_refl) as (es' & ->); cbv beta
    end.
    assert (Full : forall d, (forall n, d n = true) -> render (fun m => if d m then Some (value m) else None) ts = render (fun m => Some (value m)) ts).
    { intros d H. unfold render. apply flat_map_ext. intros [| |m|]; try reflexivity. cbn [mark]. now rewrite H. }
    match goal with |- context [apply_all _ _ (render (fun m => if @?d m then Some (value m) else None) ts) _ _] => rewrite (Full d) by (intros []; reflexivity) end.
    assert (Nd : ~ occurs PP (render (fun m => Some (value m)) ts)) by (apply no_double; [exact Rw|intros m x E'; injection E' as <-; apply Vs]).
    match goal with |- context [apply_all _ [_] ?b ?e ?u] => destruct (later_step rx PP (of_string "%") (KText PP) [] b e u eq_refl (text_shrinks _ _) Nd) as (es9 & ->) end.
    cbn [apply_all].
    assert (El : snd (rep (KText PP) (of_string "%") true (render (fun m => Some (value m)) ts)) = render (fun m => Some (value m)) ts).
    { eapply (replaced_fun PP); [discriminate|apply (text_replaced pct [pct]) with (n := length (render (fun m => Some (value m)) ts)); [cbn; intuition discriminate|reflexivity]|now apply replaced_id]. }
    rewrite El. f_equal. destruct un eqn:Eu.
    - eapply replaced_fun; [|apply replaced_replace|apply unmarked_last; auto; intros n; apply Vs]; discriminate.
    - apply render_meant. intros I. apply (escaped_both dir file Cd Hf) in I. apply escaped_contains in I. unfold un in Eu. congruence. }
  rewrite E. split.
  - intros X. injection X as <-. now apply run_both.
  - intros R. f_equal. eapply run_same; [|exact R]. now apply run_both.
Qed.
Print Assumptions command_expanded.

(** * What is left out *)
Definition plain_machine : triple := mkTriple (of_string "a") OtherArch (of_string "a") OtherSystem (of_string "b").
Definition expanded (dir file path : string) (l : list (str * str)) : str -> str + suberror :=
  apply (rx_known (fun _ _ _ => None)) (test_substitutions (cf_subst (suite_config (of_string dir) (of_string file) (of_string "/") (of_string "/") plain_machine plain_machine (mkConfig FDefault [] [] [] l [])))
    [] (of_string path) (of_string "/t") (of_string "/tmp/x") (of_string "x")).
(** A tool called twice in a row: the second word is not replaced. *)
Theorem neighbours_refuted : exists c out, proper_command c /\ expanded "/bin" "lit" "/t/a" [] (command_text c) = inl out /\
  ~ run_command (tools_of (of_string "/bin") (of_string "lit")) (values (of_string "/") (of_string "/") (of_string "/t/a") (of_string "/t") (of_string "/tmp/x") (of_string "x")) c out.
Proof.
  assert (Nw : word (map Plain (of_string "not"))) by (cbn; repeat constructor; unfold is_white; cbn; intuition (lia || discriminate)).
  exists (mkCommand (map Plain (of_string "not")) [(32%N, map Plain (of_string "not"))]). eexists. splits.
  - split; cbn [words first others map snd]; [constructor; [exact Nw|constructor; [exact Nw|constructor]]|constructor; [unfold is_white; cbn; lia|constructor]].
  - vm_compute. reflexivity.
  - intros R. assert (Cn : calls Not (map Plain (of_string "not"))) by reflexivity.
    assert (R' : run_command (tools_of (of_string "/bin") (of_string "lit")) (values (of_string "/") (of_string "/") (of_string "/t/a") (of_string "/t") (of_string "/tmp/x") (of_string "x")) (mkCommand (map Plain (of_string "not")) [(32%N, map Plain (of_string "not"))]) (of_string "/bin/not /bin/not")).
    { change (of_string "/bin/not /bin/not") with (tools_of (of_string "/bin") (of_string "lit") Not ++ flat_map (fun x : N * str => fst x :: snd x) (combine [32%N] [tools_of (of_string "/bin") (of_string "lit") Not])). constructor; [now constructor|]. constructor; [now constructor|constructor]. }
    pose proof (run_same _ _ _ _ _ R R') as E. discriminate.
Qed.
(** A program that is called neither litcheck nor lit: the tools are not called, nothing stands in their place. *)
Theorem program_refuted : expanded "/bin" "lit2" "/t/a" [] (of_string "FileCheck %s") = inl (of_string " /t/a") /\ expanded "/bin" "lit2" "/t/a" [] (of_string "a | not b") = inl (of_string "a | b").
Proof. split; vm_compute; reflexivity. Qed.
(** A path with a dollar sign, and one with the name of a substitution *)
Theorem dollar_refuted : expanded "/bin" "lit" "/t/$x.c" [] (of_string "cc %s") = inl (of_string "cc /t/.c").
Proof. vm_compute. reflexivity. Qed.
Theorem percent_refuted : expanded "/bin" "lit" "/t/%t.c" [] (of_string "cc %s") = inl (of_string "cc /t//tmp/x.c").
Proof. vm_compute. reflexivity. Qed.
(** A directory of the program with a tool's name in it *)
Theorem directory_refuted : expanded "/my not so" "litcheck" "/t/a" [] (of_string "FileCheck %s") = inl (of_string "/my /my not so/litcheck not so/litcheck filecheck /t/a").
Proof. vm_compute. reflexivity. Qed.
Example ex_command : let c := mkCommand (map Plain (of_string "not")) [(32%N, map Plain (of_string "cc")); (32%N, [Named Source]); (32%N, [Plain 124%N]); (32%N, map Plain (of_string "FileCheck")); (9%N, [Named Source; Plain 46%N; Escaped; Lone])] in
  proper_command c /\ spread (words c) /\ command_text c = of_string "not cc %s | FileCheck" ++ 9%N :: of_string "%s.%%%" /\
  expanded "/bin" "litcheck" "/t/a" [] (command_text c) = inl (of_string "/bin/litcheck not cc /t/a | /bin/litcheck filecheck" ++ 9%N :: of_string "/t/a.%%").
Proof.
  cbv zeta. splits.
  - split; [|cbn [others]; repeat (apply Forall_cons || apply Forall_nil); unfold is_white; cbn; lia]. cbn [words first others map snd]. assert (Pw : forall s, (forall c, In c s -> ~ is_white c /\ ~ In c (of_string "%#")) -> word (map Plain s)).
    { induction s as [|c s IH]; intros H; constructor; try (apply H; now left). apply IH. intros d D. apply H. now right. }
    repeat (apply Forall_cons || apply Forall_nil); try (apply Pw; intros c I; cbn in I; split; [unfold is_white; repeat (destruct I as [<-|I]; [lia|]); destruct I|cbn; intuition (subst; discriminate)]).
    + repeat constructor.
    + constructor; [unfold is_white; lia|cbn; intuition discriminate|constructor].
    + constructor. constructor; [unfold is_white; lia|cbn; intuition discriminate|]. constructor. apply w_last.
  - cbn [words first others map snd]. repeat constructor; intros []; cbn; intuition discriminate.
  - vm_compute. reflexivity.
  - vm_compute. reflexivity.
Qed.
