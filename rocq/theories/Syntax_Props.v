(** C98: a regular expression matches the texts that its syntax describes. *)
From Coq Require Import String Lia.
From Verif Require Import Base Text_Model Text_Spec Cursor_Model Check_Model Lit_Model Lit_Spec Env_Model Regex_Model Regex_Spec Regex_Proofs Regex_Engine Regex_Frame
  Num_Model Gram_Model Parse_Model Smart_Model Smart_Spec Choice_Spec Choice_Proofs Choice_Props Syntax_Spec Syntax_Proofs.
Open Scope list_scope.
Open Scope nat_scope.
Notation length := List.length.

(** Every expression that the grammar describes is compiled; a search of a range finds the first place where a text of the expression
    begins (only the start is tried if it is anchored), and there the preferred one; it finds nothing only if there is no such place. *)
Theorem expression_matches : forall ci s x, written_as ci s x -> NoDup (names_in x) ->
  exists c, build ci s = Some c /\ x_names c = None :: groups_in x /\
    forall b r anchored, rstart r <= rend r ->
    match re_search c b r anchored with
    | Some l => exists i j gs, l = Some (mkRange i j) :: gs /\ length gs = length (groups_in x) /\ rstart r <= i <= j /\ j <= rend r /\ (anchored = true -> i = rstart r) /\
        means b (rend r) x i j /\ best b (rend r) x i j /\ forall k j', rstart r <= k < i -> ~ means b (rend r) x k j'
    | None => forall k j', rstart r <= k <= rend r -> (anchored = true -> k = rstart r) -> ~ means b (rend r) x k j'
    end.
Proof.
  intros ci s x W D. destruct (written_built ci s x W D) as (c & B & N & C & F). exists c. split; [exact B|]. split; [exact N|].
  pose proof (build_ok _ _ _ B) as [P _]. intros b r a L. destruct (re_search c b r a) as [l|] eqn:E.
  - apply search_some in E as (i & j & g & -> & I & A & R & (t & T) & M); [|exact P]. rewrite C in *.
    pose proof (proj1 (run_lang _ _ _) _ _ _ _ _ R) as Lg. pose proof (proj1 (lang_bounds _ _ _) _ _ _ Lg) as [L1 L2].
    exists i, j, (map g (seq 1 (length (x_names c) - 1))). split; [reflexivity|]. split; [rewrite map_length, seq_length, N; cbn; lia|].
    split; [lia|]. split; [lia|]. split; [exact A|]. split; [apply (shaped_lang ci b _ x _ F), Lg|]. split.
    + pose proof (ends_listing ci b (rend r) (x_re c) P i no_caps ltac:(lia)) as Ls. rewrite T in Ls.
      apply listing_first in Ls as (u & U1 & U2). cbn [fst snd] in U1. exists u. split.
      * apply (shaped_takes ci b _ x _ F). apply (proj1 (trun_takes _ _ _)) in U1. exact U1.
      * intros j' t' H Y. apply (shaped_takes ci b _ x _ F) in H. destruct (proj1 (takes_trun ci b (rend r)) _ _ _ _ H no_caps) as (h & Hh).
        destruct (U2 t' (j', h) Hh) as [Z | Z]; [injection Z as -> _; exact (sooner_irr u Y) | exact (sooner_asym _ _ Z Y)].
    + intros k j' K H. apply (shaped_lang ci b _ x _ F) in H. destruct a.
      * rewrite (A eq_refl) in K. lia.
      * apply (nil_lang ci b (rend r) (x_re c) k (M eq_refl k K) ltac:(lia) j'). exact H.
  - intros k j' K A H. apply (shaped_lang ci b _ x _ F) in H. pose proof (search_none _ _ _ _ E k) as Z. rewrite C in Z.
    refine (nil_lang ci b (rend r) (x_re c) k (Z _ _) _ j' H); [destruct a; [rewrite (A eq_refl)|]; lia | lia | lia].
Qed.
Print Assumptions expression_matches.

(** A pattern that is one regular expression: the range that it matches *)
Theorem expression_pattern : forall ci strict fuel s x, written_as ci s x -> NoDup (names_in x) ->
  exists m, compile_pattern ascii_engine ci strict (PRegex s) = Val m /\
    forall b line at_ from to env0, from <= to -> to <= length b ->
    (exists i j, try_match ascii_engine ci fuel b line at_ m (mkRange from to) env0 = Some (Val (mkRes Good (Some (mkInfo (mkRange i j) 0 at_)), env0)) /\
       from <= i /\ means b to x i j /\ best b to x i j /\ forall k j', from <= k < i -> ~ means b to x k j') \/
    (try_match ascii_engine ci fuel b line at_ m (mkRange from to) env0 = Some (Val (failed ENone, env0)) /\ forall k j', from <= k <= to -> ~ means b to x k j').
Proof.
  intros ci strict fuel s x W D. destruct (expression_matches ci s x W D) as (c & B & N & H).
  exists (MRegex ascii_engine c []). split; [unfold compile_pattern, regex_matcher, regex_of; cbn [compact rx_build ascii_engine]; rewrite B; reflexivity|].
  intros b line at_ from to env0 L1 L2. specialize (H b (mkRange from to) false L1). cbn [rstart rend] in H.
  cbn [try_match]. unfold regex_match. cbn [rx_search ascii_engine]. destruct (re_search c b (mkRange from to) false) as [l|].
  - destruct H as (i & j & gs & -> & _ & I1 & I2 & _ & M & P & F). left. exists i, j.
    cbn [capture_spans flat_map convert_groups bind_all fold_left]. split; [reflexivity|]. split; [lia|]. split; [exact M|]. split; [exact P|].
    exact F.
  - right. split; [reflexivity|]. intros k j' K. apply H; [lia | discriminate].
Qed.
Print Assumptions expression_pattern.

(** A case: [(?P<v>[_[:alpha:]a-f]\w*?)|\.{2,}$] *)
Definition sample : str := of_string "(?P<v>[_[:alpha:]a-f]\w*?)|\.{2,}$".
Definition sample_rexp : rexp :=
  XAlt (XCat (XGroup 1 (Some (of_string "v")) (XCat (XOne (one_of_set false false (fun c => c = 95%N \/ ((upper c \/ lower c) \/ (span_of 97 102 c \/ False)))))
                                                 (XCat (XRep 0 None false (XOne (one_of_set false false word))) XEmpty))) XEmpty)
       (XCat (XRep 2 None true (XOne (one_of_set false false (fun c => c = 46%N)))) (XCat (XHere line_ends) XEmpty)).
Example sample_written : written_as false sample sample_rexp /\ NoDup (names_in sample_rexp).
Proof.
  split; [|apply NoDup_cons; [intros []|constructor]].
  exists [TOpen (Some (of_string "v")); TOne (one_of_set false false (fun c => c = 95%N \/ ((upper c \/ lower c) \/ (span_of 97 102 c \/ False))));
          TOne (one_of_set false false word); TRep 0 None false; TClose; TBar; TOne (one_of_set false false (fun c => c = 46%N)); TRep 2 None true; THere line_ends], 1.
  split.
  - apply (wo_cons false (of_string "(?P<v>") _ false (of_string "[_[:alpha:]a-f]\w*?)|\.{2,}$")); [|discriminate|].
    { apply (sp_named false (of_string "v")). exists 118%N, []. split; [reflexivity|]. split; [right; left; unfold lower, span_of; lia | constructor]. }
    apply (wo_cons false (of_string "[_[:alpha:]a-f]") _ false (of_string "\w*?)|\.{2,}$")); [|discriminate|].
    { apply (sp_bracket false (of_string "_[:alpha:]a-f]")); [|discriminate].
      apply (br_char true [95%N] 95%N (of_string "[:alpha:]a-f]")); [constructor; discriminate | intros (y & r & E & _); discriminate E | intros (c & E & [[<- | [<- | [<- | []]]] _]); discriminate E|].
      apply (br_named false "alpha" _ (of_string "a-f]")); [constructor|].
      apply (br_range false [97%N] 97%N [102%N] 102%N (of_string "]")); [constructor; discriminate | constructor; discriminate | lia | discriminate | discriminate|].
      constructor. }
    apply (wo_cons false (of_string "\w") _ false (of_string "*?)|\.{2,}$")); [apply sp_class; constructor | discriminate|].
    apply (wo_cons false (of_string "*?") _ false (of_string ")|\.{2,}$")); [apply (sp_times_lazy false (of_string "*")); constructor | discriminate|].
    apply (wo_cons false (of_string ")") _ false (of_string "|\.{2,}$")); [constructor | discriminate|].
    apply (wo_cons false (of_string "|") _ false (of_string "\.{2,}$")); [constructor | discriminate|].
    apply (wo_cons false (of_string "\.") _ false (of_string "{2,}$")); [apply sp_escaped; cbn; tauto | discriminate|].
    apply (wo_cons false (of_string "{2,}") _ true (of_string "$")); [|intros _ r E; discriminate E|].
    { apply sp_times. apply (ti_from [50%N] 2). apply (de_first 50%N). unfold digit, span_of. lia. }
    apply (wo_cons false (of_string "$") _ false []); [constructor | discriminate | constructor].
  - apply (fm_or 0 [TOpen _; TOne _; TOne _; TRep _ _ _; TClose] _ 1).
    + apply (fm_then 0 [TOpen _; TOne _; TOne _; TRep _ _ _; TClose] _ 1 []); [|constructor].
      apply (fm_group _ 0 [TOne _; TOne _; TRep _ _ _]). apply fm_only.
      apply (fm_then 1 [TOne _] _ 1 [TOne _; TRep _ _ _]); [constructor|].
      apply (fm_then 1 [TOne _; TRep _ _ _] _ 1 []); [|constructor]. apply (fm_rep _ _ _ 1 [TOne _]). constructor.
    + apply fm_only. apply (fm_then 1 [TOne _; TRep _ _ _] _ 1 [THere _]); [apply (fm_rep _ _ _ 1 [TOne _]); constructor|].
      apply (fm_then 1 [THere _] _ 1 []); constructor.
Qed.
Definition found_in (s text : string) : option (list (option range)) :=
  match build false (of_string s) with Some c => re_search c (of_string text) (mkRange 0 (length (of_string text))) false | None => None end.
Example sample_found :
  found_in "(?P<v>[_[:alpha:]a-f]\w*?)|\.{2,}$" "1 ..x.." = Some [Some (mkRange 4 5); Some (mkRange 4 5)] /\
  found_in "(?P<v>[_[:alpha:]a-f]\w*?)|\.{2,}$" "1 .. .." = Some [Some (mkRange 5 7); None] /\
  found_in "(?P<v>[_[:alpha:]a-f]\w*?)|\.{2,}$" "1 .. ." = None.
Proof. vm_compute. repeat split. Qed.
