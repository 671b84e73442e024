(** What a run reports: the places of rules in the file, and the texts of items. *)
From Coq Require Import String List Arith NArith Bool Lia.
From Verif Require Import Base InputModel LexerSpec LexerModel BootModel PositionModel PositionSpec PositionProof InputGenModel InputGenSpec InputTextSpec InputTextFactsProof GrammarModel GrammarSpec GrammarProof GrammarNamesProof GrammarBuildProof GrammarFactsProof LLModel LRModel LRSpec
  NamesVisitProof LRItemsProof AutomatonProof LRGraphProof LRGenProof LRTableProof LRFactsProof CppLRModel NamesModel TableModel PipelineModel PipelineSpec PipelineProof.
Import ListNotations.
Local Open Scope nat_scope.
Local Open Scope list_scope.

(** ** Productions *)

Lemma rule_origins_snoc : forall l p j b b1 b2 os, foldM add_production_rule l b = Ok b1 -> add_production_rule b1 p = Ok b2 -> rule_origins j l b = Ok os ->
  rule_origins j (l ++ [p]) b = Ok (os ++ repeat (j + length l) (length (b_rules b2) - length (b_rules b1))).
Proof.
  induction l as [|q l IH]; intros p j b b1 b2 os H1 H2 H3.
  - cbn [foldM] in H1. injection H1 as ->. cbn [app rule_origins] in *. injection H3 as <-. rewrite H2. cbn [bind app length]. rewrite app_nil_r, Nat.add_0_r. reflexivity.
  - cbn [foldM] in H1. inv_bind H1. rename a into c. cbn [app rule_origins] in *. rewrite Hb in *. cbn [bind] in *. inv_bind H3. injection H3 as <-.
    rewrite (IH _ _ _ _ _ _ H1 H2 Hb0). cbn [bind]. rewrite <- app_assoc. cbn [length]. replace (S j + length l) with (j + S (length l)) by lia. reflexivity.
Qed.

Lemma nth_error_repeat_lt : forall A (a : A) n i, i < n -> nth_error (repeat a n) i = Some a.
Proof. induction n as [|n IH]; intros [|i] H; simpl; try lia; auto. apply IH. lia. Qed.

Lemma origins_ok : forall b0, binv b0 -> b_temp b0 = 0%N -> b_rules b0 = [] -> forall l b,
  (forall p, In p l -> exists j, lk b0 (pr_name p) = Some (NonTerminal j) /\ (j <= b_max b0)%N) ->
  foldM add_production_rule l b0 = Ok b ->
  exists os, rule_origins 0 l b0 = Ok os /\ length os = length (b_rules b) /\
  forall k r, nth_error (b_rules b) k = Some r -> nth_error os k = Some (length (filter (low (b_max b0)) (firstn k (b_rules b)))) /\
    nth_error l (length (filter (low (b_max b0)) (firstn k (b_rules b)))) = Some (r_prod r).
Proof.
  intros b0 HB0 Ht0 Hr0. induction l as [|p l IH] using rev_ind; intros b' Hnames H.
  - simpl in H. injection H as <-. exists []. rewrite Hr0. cbn [rule_origins length]. split; auto. split; auto. intros [|k] r; discriminate.
  - assert (Hn' : forall p, In p l -> exists j, lk b0 (pr_name p) = Some (NonTerminal j) /\ (j <= b_max b0)%N).
    { intros q Hq. apply Hnames. apply in_or_app; auto. }
    rewrite foldM_app in H. inv_bind H. rename a into b. cbn [foldM] in H. inv_bind H. injection H as ->. rename Hb0 into Hadd.
    destruct (IH b Hn' Hb) as (os & I1 & I2 & I3).
    destruct (rules_provenance b0 HB0 Ht0 Hr0 l b Hn' Hb) as (P1 & _ & _).
    pose proof (add_rules_ok b0 HB0 Ht0 Hr0 l Hn') as X. rewrite Hb in X. destruct X as (als & B). pose proof Hadd as Hb0.
    unfold add_production_rule in Hb0. inv_bind Hb0. rename a into s. inv_bind Hb0. destruct a as [al b1].
    unfold get_symbol_by_name in Hb1. fold (lk b (pr_name p)) in Hb1.
    assert (Elk : forall n, lk b n = lk b0 n) by (intros n; unfold lk; destruct (bu_same _ _ _ _ B) as (-> & _); auto).
    destruct (Hnames p) as (j & Hj & Hjm); [apply in_or_app; simpl; auto|].
    rewrite Elk, Hj in Hb1. injection Hb1 as <-.
    destruct (transform_keeps _ _ _ _ _ Hb2) as (new & En & Fn).
    pose proof (transform_ok p (pr_pattern p) b (bu_inv _ _ _ _ B)) as HT. rewrite Hb2 in HT.
    destruct HT as (_ & new' & S & L & _). assert (new' = new) by (pose proof (sp_rules _ _ _ _ S) as E; rewrite En in E; eapply app_inv_head; eauto). subst new'.
    unfold push_rule in Hb0. cbn [rule_new bind] in Hb0. injection Hb0 as <-.
    assert (Hnone : forall r, In r new -> low (b_max b0) r = false).
    { intros r Hr. destruct (L r Hr) as (i & Hi & Hc). unfold low. rewrite Hi. apply N.leb_gt. unfold created in Hc.
      destruct (bu_same _ _ _ _ B) as (_ & Em & _). rewrite Em in Hc. lia. }
    set (last := mkRule (Some j) al p) in *. set (count := fun x => length (filter (low (b_max b0)) x)).
    match type of Hadd with _ = Ok ?x => set (b2 := x) in * end.
    assert (Erules : b_rules b2 = b_rules b ++ (new ++ [last])).
    { unfold b2. cbn [b_rules]. rewrite En, <- app_assoc. reflexivity. }
    exists (os ++ repeat (length l) (length (new ++ [last]))). split; [|split].
    + rewrite (rule_origins_snoc _ _ _ _ _ _ _ Hb Hadd I1), Erules, app_length. cbn [Nat.add]. do 3 f_equal. lia.
    + rewrite Erules, !app_length, repeat_length. lia.
    + rewrite Erules. intros k r Hk. destruct (Nat.lt_ge_cases k (length (b_rules b))) as [Hlt|Hge].
      * rewrite nth_error_app1 in Hk by auto. destruct (I3 _ _ Hk) as [A C].
        assert (firstn k (b_rules b ++ (new ++ [last])) = firstn k (b_rules b)) as -> by (rewrite firstn_app; replace (k - length (b_rules b)) with 0 by lia; apply app_nil_r).
        rewrite nth_error_app1 by lia. split; auto. rewrite nth_error_app1; auto. apply nth_error_Some. congruence.
      * rewrite nth_error_app2 in Hk by auto. set (i := k - length (b_rules b)) in *.
        assert (i < length (new ++ [last])) as Hi by (apply nth_error_Some; congruence).
        assert (length (filter (low (b_max b0)) (b_rules b)) = length l) as El by (rewrite <- P1, map_length; auto).
        assert (length (filter (low (b_max b0)) (firstn k (b_rules b ++ (new ++ [last])))) = length l) as ->.
        { rewrite firstn_app. fold i. rewrite (firstn_all2 (b_rules b)) by lia. rewrite filter_app, app_length, El.
          assert (filter (low (b_max b0)) (firstn i (new ++ [last])) = []) as ->; [|simpl; lia].
          rewrite app_length in Hi. cbn [length] in Hi. rewrite firstn_app. replace (i - length new) with 0 by lia. cbn [firstn]. rewrite app_nil_r.
          assert (forall x, In x (firstn i new) -> low (b_max b0) x = false) as Y by (intros x Hx; apply Hnone; rewrite <- (firstn_skipn i new); apply in_or_app; auto).
          revert Y. generalize (firstn i new). clear. intros m Y. induction m as [|x m IH]; [reflexivity|]. cbn [filter]. rewrite (Y x) by (left; auto). apply IH. intros y Hy. apply Y. right. auto. }
        split.
        -- rewrite nth_error_app2 by lia. rewrite I2. fold i. apply nth_error_repeat_lt; auto.
        -- rewrite nth_error_app2 by lia. rewrite Nat.sub_diag. cbn [nth_error]. f_equal. symmetry.
           apply nth_error_In in Hk. rewrite in_app_iff in Hk. destruct Hk as [Hk|[<-|[]]]; [|reflexivity]. rewrite Forall_forall in Fn. auto.
Qed.

Lemma built_origins : forall rs g, from_rule_set rs = Ok g -> exists b os, builder_from_rule_set rs = Ok b /\ rule_origins 0 (rs_prods rs) b = Ok os /\
  forall k r, nth_error (g_rules g) k = Some r -> nth_error os k = Some (origin g k) /\ nth_error (rs_prods rs) (origin g k) = Some (r_prod r).
Proof.
  intros rs g H. unfold from_rule_set in H. inv_bind H. rename a into b. pose proof (builder_start rs) as Hs. rewrite Hb in Hs. destruct Hs as [Hs _].
  unfold build in H. inv_bind H. rename a into b'.
  destruct (origins_ok b (start_binv _ _ Hs) (so_temp _ _ Hs) (so_rules _ _ Hs) (rs_prods rs) b' (start_prod _ _ Hs) Hb0) as (os & O1 & O2 & O3).
  destruct (rules_provenance b (start_binv _ _ Hs) (so_temp _ _ Hs) (so_rules _ _ Hs) (rs_prods rs) b' (start_prod _ _ Hs) Hb0) as (_ & _ & P3).
  pose proof (add_rules_ok b (start_binv _ _ Hs) (so_temp _ _ Hs) (so_rules _ _ Hs) (rs_prods rs) (start_prod _ _ Hs)) as X. rewrite Hb0 in X. destruct X as (als & B).
  exists b, os. split; auto. split; auto.
  assert (g_rules g = b_rules b' /\ g_prods g = b_prods b) as [Er Ep].
  { inv_bind H. destruct (find (fun r => eqc (pr_name r) (rs_entry rs)) (rs_prods rs)); [|discriminate]. injection H as <-. cbn [g_rules g_prods]. destruct (bu_same _ _ _ _ B) as (_ & _ & _ & ->). auto. }
  assert (forall r, In r (b_rules b') -> named_rule g r = low (b_max b) r) as Hn.
  { intros r Hr. destruct (bu_lhs _ _ _ _ B r Hr) as (i & Hi & Hc). unfold named_rule, low in *. rewrite Hi, Ep.
    destruct (i <=? b_max b)%N eqn:E.
    - destruct (P3 r Hr) as (i' & Hi' & Hl); [rewrite Hi; auto|]. assert (i' = i) by congruence. subst i'.
      unfold lk in Hl. apply (so_get _ _ Hs) in Hl. destruct Hl as [(k & _ & X)|(k & Hk & X)]; [discriminate|]. injection X as ->.
      apply map_mem_In; [apply (so_psorted _ _ Hs)|]. eapply so_prdkeys; eauto.
    - apply N.leb_gt in E. destruct (map_mem (NonTerminal i) (b_prods b)) eqn:M; auto. exfalso.
      apply map_mem_In in M; [|apply (so_psorted _ _ Hs)]. apply in_map_iff in M. destruct M as ((s & name) & X1 & X2). simpl in X1. subst s.
      destruct (so_prd _ _ Hs _ _ X2) as (k & Hk & Y). injection Y as ->.
      assert (Hin : introduces rs k) by (right; eauto). pose proof (so_max_ub _ _ Hs k Hin). lia. }
  intros k r Hk. unfold origin. rewrite Er in *.
  assert (filter (named_rule g) (firstn k (b_rules b')) = filter (low (b_max b)) (firstn k (b_rules b'))) as ->; [|apply O3; auto].
  apply filter_ext_in. intros x Hx. apply Hn. rewrite <- (firstn_skipn k (b_rules b')). apply in_or_app. auto.
Qed.

Lemma item_span_ok : forall sr g it, from_rule_set (unspanned sr) = Ok g -> (exists r, item_rule g (it_rule it) = Some r) ->
  exists j span p, item_production (unspanned sr) g it j /\ nth_error (sr_prods sr) j = Some (span, p) /\ item_span sr it = Ok span.
Proof.
  intros sr g it H [r Hr]. unfold item_span, item_production. destruct (it_rule it) as [k|]; cbn [item_rule] in Hr.
  - destruct (built_origins _ _ H) as (b & os & Hb & Ho & X). destruct (X _ _ Hr) as [A B]. rewrite Hb. cbn [bind].
    change (rule_origins 0 (map snd (sr_prods sr)) b) with (rule_origins 0 (rs_prods (unspanned sr)) b). rewrite Ho. cbn [bind]. rewrite A.
    cbn [unspanned rs_prods] in B. destruct (nth_error (sr_prods sr) (origin g k)) as [[span p]|] eqn:E.
    + exists (origin g k), span, p. split; [|auto]. split; auto. apply nth_error_Some. congruence.
    + exfalso. apply nth_error_None in E. assert (origin g k < length (map snd (sr_prods sr))) as L by (apply nth_error_Some; congruence). rewrite map_length in L. unfold spanned in *. lia.
  - destruct (from_rule_set_built _ _ H) as (b & als & [_ _ (pe & Hf & _)]). cbn [unspanned rs_prods rs_entry] in *.
    revert Hf. generalize (sr_prods sr). induction l as [|[span p] l IH]; intros Hf; cbn [map find snd fst] in *; [discriminate|].
    destruct (eqc (pr_name p) (snd (sr_entry sr))) eqn:E.
    + apply eqc_true in E. exists 0, span, p. split; [|auto]. split; [exists p; auto|]. intros i q Hi. lia.
    + destruct (IH Hf) as (j & sp & q & [A1 A2] & A3 & A4). exists (S j), sp, q. split; [|auto]. split; [exact A1|]. intros [|i] q' Hi Hq; cbn [nth_error] in Hq; [injection Hq as <-; apply eqc_false in E; auto|].
      eapply A2; eauto. lia.
Qed.

(** ** Texts *)

Lemma tokens_sorted : forall rs g, from_rule_set rs = Ok g -> msorted (g_tokens g).
Proof.
  intros rs g H. destruct (from_rule_set_built _ _ H) as (b & als & [Hs (b' & B & Er & Et & Ep & Ea & Hrun) _]). rewrite Et. exact (so_tsorted _ _ Hs).
Qed.

Section Texts.
Variable g : grammar.
Hypothesis ts : msorted (g_tokens g).
Hypothesis ps : msorted (g_prods g).
Hypothesis wf : wf_grammar g.

Lemma symbol_name_shown : forall s n, get_symbol_name g s = Ok n <-> shown g s n.
Proof.
  intros s n. destruct s as [| |i|t]; cbn [get_symbol_name].
  - split; [intros H; injection H as <-; constructor|intros H; inversion H; auto].
  - split; [intros H; injection H as <-; constructor|intros H; inversion H; auto].
  - split.
    + destruct (map_get (NonTerminal i) (g_prods g)) as [name|] eqn:E; intros H; injection H as <-.
      * apply sh_named. apply map_get_In; auto.
      * apply sh_anonymous. intros name Hn. apply map_get_In in Hn; auto. congruence.
    + intros H. inversion H as [|? name A|? A| |]; subst; [rewrite (proj2 (map_get_In _ _ _ ps) A); reflexivity|].
      destruct (map_get (NonTerminal i) (g_prods g)) as [name|] eqn:E; auto. apply map_get_In in E; auto. destruct (A _ E).
  - unfold grammar_token_name. split.
    + destruct (map_get (Terminal t) (g_tokens g)) as [name|] eqn:E; cbn [bind]; intros H; [|discriminate]. injection H as <-. apply sh_terminal. apply map_get_In; auto.
    + intros H. inversion H as [? name A| | | |]; subst. rewrite (proj2 (map_get_In _ _ _ ts) A). reflexivity.
Qed.

Lemma shift_name_shown : forall s n, shift_name g s = Ok n <-> shown_shift g s n.
Proof.
  intros s n. destruct s as [| |i|t]; try apply symbol_name_shown. cbn [shift_name shown_shift]. unfold grammar_token_name. rewrite <- map_get_In by exact ts.
  destruct (map_get (Terminal t) (g_tokens g)); split; intros H; congruence.
Qed.

Lemma known_shown : forall s, known g s -> exists n, shown g s n.
Proof.
  intros [| |i|t] H; try contradiction.
  - eexists. constructor.
  - destruct (map_get (NonTerminal i) (g_prods g)) as [name|] eqn:E.
    + eexists. apply sh_named. apply map_get_In; eauto.
    + eexists. apply sh_anonymous. intros name Hn. apply map_get_In in Hn; auto. congruence.
  - cbn [known] in H. unfold terminals in H. apply in_map_iff in H. destruct H as ((s & name) & E & H). cbn [fst] in E. subst s. eexists. apply sh_terminal. eauto.
Qed.

Lemma known_shift : forall s, known g s -> exists n, shown_shift g s n.
Proof.
  intros [| |i|t] H; try (apply known_shown; exact H). cbn [known] in H. unfold terminals in H. apply in_map_iff in H. destruct H as ((s & name) & E & H). cbn [fst] in E. subst s. exists name. exact H.
Qed.

Lemma symbol_names_shown : forall l names, res_list (map (get_symbol_name g) l) = Ok names <-> Forall2 (shown g) l names.
Proof.
  induction l as [|s l IH]; intros names; cbn [map res_list].
  - split; [intros H; injection H as <-; constructor|intros H; inversion H; auto].
  - split.
    + intros H. inv_bind H. inv_bind H. injection H as <-. constructor; [apply symbol_name_shown; auto|apply IH; auto].
    + intros H. inversion H as [|? n ? ns A B]; subst. apply symbol_name_shown in A. apply IH in B. rewrite A. cbn [bind]. rewrite B. reflexivity.
Qed.

Lemma known_all_shown : forall l, (forall s, In s l -> known g s) -> exists names, Forall2 (shown g) l names.
Proof.
  induction l as [|s l IH]; intros H; [exists []; constructor|]. destruct (known_shown s) as [n Hn]; [apply H; left; auto|]. destruct IH as [ns Hs]; [intros x Hx; apply H; right; auto|]. exists (n :: ns). constructor; auto.
Qed.

Lemma rhs_known : forall k s, In s (rhs_of g k) -> known g s.
Proof.
  intros k s H. unfold rhs_of in H. destruct k as [k|]; cbn [item_rule] in H.
  - destruct (nth_error (g_rules g) k) as [r|] eqn:E; [|contradiction]. eapply wf_rhs; eauto. eapply nth_error_In; eauto.
  - rewrite (proj2 (wf_entry_rule g wf)) in H. destruct H as [<-|[]]. destruct (wf_entry g wf) as (i & -> & Hi). exact Hi.
Qed.

Lemma lhs_known : forall k i, lhs_of g k = Some i -> known g (NonTerminal i).
Proof.
  intros k i H. unfold lhs_of in H. destruct k as [k|]; cbn [item_rule] in H.
  - destruct (nth_error (g_rules g) k) as [r|] eqn:E; [|discriminate]. destruct (wf_lhs g wf r (nth_error_In _ _ E)) as (j & A & B). assert (j = i) as -> by congruence. exact B.
  - rewrite (proj1 (wf_entry_rule g wf)) in H. discriminate.
Qed.

Lemma item_text_shown : forall it, it_dot it <= length (rhs_of g (it_rule it)) -> forall text, item_text g it = Ok text <-> shown_item g it text.
Proof.
  intros it Hd text. unfold item_text, symbol_names, shown_item. set (rhs := rhs_of g (it_rule it)) in *. split.
  - intros H. inv_bind H. inv_bind Hb. injection Hb as <-. apply symbol_names_shown in Hb0. inv_bind H. inv_bind Hb. injection Hb as <-. apply symbol_names_shown in Hb1.
    exists (firstn (it_dot it) rhs), (skipn (it_dot it) rhs), a0, a1. split; [symmetry; apply firstn_skipn|]. split; [apply firstn_length_le; auto|]. split; auto. split; auto.
    destruct (lhs_of g (it_rule it)) as [i|]; [|injection H as <-; auto]. inv_bind H. injection H as <-. exists a. split; auto. apply symbol_name_shown; auto.
  - intros (before & after & pre & post & E & L & A & B & C). rewrite E in *. rewrite <- L.
    rewrite firstn_app, Nat.sub_diag, firstn_all, app_nil_r, skipn_app, Nat.sub_diag, skipn_all. cbn [app skipn].
    rewrite (proj2 (symbol_names_shown _ _) A). cbn [bind]. rewrite (proj2 (symbol_names_shown _ _) B). cbn [bind].
    destruct (lhs_of g (it_rule it)) as [i|]; [|rewrite C; reflexivity]. destruct C as (lhs & C & ->). rewrite (proj2 (symbol_name_shown _ _) C). reflexivity.
Qed.

Lemma item_text_total : forall it, it_dot it <= length (rhs_of g (it_rule it)) -> exists text, shown_item g it text.
Proof.
  intros it Hd. destruct (known_all_shown (firstn (it_dot it) (rhs_of g (it_rule it)))) as [pre Hpre].
  { intros s Hs. apply (rhs_known (it_rule it)). rewrite <- (firstn_skipn (it_dot it)). apply in_or_app. auto. }
  destruct (known_all_shown (skipn (it_dot it) (rhs_of g (it_rule it)))) as [post Hpost].
  { intros s Hs. apply (rhs_known (it_rule it)). rewrite <- (firstn_skipn (it_dot it)). apply in_or_app. auto. }
  assert (exists text, let dotted := (String.concat " " pre ++ " " ++ TableModel.bullet ++ " " ++ String.concat " " post)%string in
    match lhs_of g (it_rule it) with Some i => exists lhs, shown g (NonTerminal i) lhs /\ text = (lhs ++ " -> " ++ dotted)%string | None => text = dotted end) as (text & H).
  { destruct (lhs_of g (it_rule it)) as [i|] eqn:E; [|eexists; reflexivity]. destruct (known_shown _ (lhs_known _ _ E)) as [lhs Hl]. eexists. exists lhs. split; auto. }
  exists text, (firstn (it_dot it) (rhs_of g (it_rule it))), (skipn (it_dot it) (rhs_of g (it_rule it))), pre, post.
  split; [symmetry; apply firstn_skipn|]. split; [apply firstn_length_le; auto|]. auto.
Qed.
End Texts.

(** ** Locations *)

Lemma location_located : forall F regex source span t r, positions_fit source -> span_substring span source = Ok (Some t) -> spells_rule regex t r ->
  exists loc, @location_of F source span = Ok loc /\ lc_pos loc = ss_start span /\ located regex source loc r.
Proof.
  intros F regex source span t r Hf Hs Hr. pose proof (proj1 (substring_exact source Hf span t) Hs) as (p & s & E & A & B).
  exists (mkLocation (ss_start span) t). unfold location_of, location_text. rewrite Hs. cbn [bind expect]. split; auto. split; auto.
  exists p, s. auto.
Qed.

(** ** Conflicts *)

Section Reports.
Variable regex : list N -> option hir.
Variable source : list N.
Variable sr : spanned_rules.
Hypothesis fits : positions_fit source.
Hypothesis spans : forall r, In r (rules_of sr) -> exists t, span_substring (fst r) source = Ok (Some t) /\ spells_rule regex t (snd r).
Variable g : grammar.
Hypothesis built_g : from_rule_set (unspanned sr) = Ok g.

Lemma report_item_ok : forall F it, (exists r, item_rule g (it_rule it) = Some r) -> it_dot it <= length (rhs_of g (it_rule it)) ->
  exists r, @report_item F sr g source it = Ok r /\ reported_item regex source sr g it r.
Proof.
  intros F it Hr Hd. pose proof (grammar_wf _ _ built_g) as wf. pose proof (tokens_sorted _ _ built_g) as ts. pose proof (NamesVisitProof.prods_sorted _ _ built_g) as ps.
  destruct (item_text_total g ps wf it Hd) as [text Ht]. destruct (item_span_ok sr g it built_g Hr) as (j & span & p & A & B & C).
  destruct (spans (span, FProd p)) as (t & D1 & D2).
  { unfold rules_of. apply in_or_app. right. apply in_or_app. right. apply in_map_iff. exists (span, p). split; auto. eapply nth_error_In; eauto. }
  destruct (location_located F regex source span t (FProd p) fits D1 D2) as (loc & L1 & L2 & L3). exists (loc, text).
  unfold report_item. rewrite (proj2 (item_text_shown g ts ps it Hd text) Ht). cbn [expect bind]. rewrite C. cbn [expect bind]. rewrite L1. split; auto. split; auto. exists j, span, p. auto.
Qed.

Lemma report_conflicts_ok : forall F k m cs, generates k m g false = Ok (BadConflicts cs) -> exists rs, @report_conflicts F sr g source cs = Ok rs /\ Forall2 (reported regex source sr g) cs rs /\ cs <> [].
Proof.
  intros F k m cs H. pose proof (grammar_wf _ _ built_g) as wf. pose proof (tokens_sorted _ _ built_g) as ts. pose proof (NamesVisitProof.prods_sorted _ _ built_g) as ps.
  destruct (generate_inv g wf m (kind_n k) false (kind_lalr k) _ (kind_n_le k) H) as (fs & pg & cs' & A & au & C & D).
  assert (cs' = cs /\ cs <> []) as [-> Hne] by (inversion D; subst; auto). destruct C as [_ C].
  assert (forall c, In c cs -> exists r, @report_conflict F sr g source c = Ok r /\ reported regex source sr g c r) as X.
  { intros c Hc. apply C in Hc. destruct Hc as (q & S & HS & Hc). destruct (gi_sets _ _ _ _ _ (au_inv _ _ _ _ _ au) q S HS) as (_ & Hok & _).
    assert (forall it, In it S -> exists r, @report_item F sr g source (to_lr0 it) = Ok r /\ reported_item regex source sr g (to_lr0 it) r) as Y.
    { intros it Hit. destruct (Hok it Hit) as [K1 K2 _ _]. apply report_item_ok; auto. }
    destruct Hc as [it s t I1 I2 I3 I4 I5|la it its I1 I2].
    - destruct (Y it I1) as ([loc text] & R1 & R2). assert (known g s) as Ks by (eapply (AutomatonProof.edge_known g wf); eauto).
      destruct (known_shift g ps s Ks) as [name Hn]. cbn [report_conflict]. rewrite (proj2 (shift_name_shown g ts ps s name) Hn). cbn [expect bind]. rewrite R1. cbn [bind].
      eexists. split; [reflexivity|]. constructor; auto.
    - cbn [report_conflict]. assert (incl (it :: its) S) as Hin by (intros x Hx; rewrite <- I1 in Hx; apply filter_In in Hx; apply Hx).
      assert (exists l, res_list (map (@report_item F sr g source) (map to_lr0 (it :: its))) = Ok l /\ Forall2 (reported_item regex source sr g) (map to_lr0 (it :: its)) l) as (l & L1 & L2).
      { revert Hin. generalize (it :: its). induction l as [|x l IH]; intros Hin; [exists []; split; [reflexivity|constructor]|]. destruct (Y x (Hin x (or_introl eq_refl))) as (r & R1 & R2).
        destruct IH as (rs & S1 & S2); [intros y Hy; apply Hin; right; auto|]. exists (r :: rs). cbn [map res_list]. rewrite R1. cbn [bind]. rewrite S1. split; [reflexivity|]. constructor; auto. }
      rewrite L1. cbn [bind]. eexists. split; [reflexivity|]. constructor; auto. }
  assert (exists rs, @report_conflicts F sr g source cs = Ok rs /\ Forall2 (reported regex source sr g) cs rs) as (rs & R1 & R2).
  { unfold report_conflicts. revert X. clear. induction cs as [|c cs IH]; intros X; [exists []; split; [reflexivity|constructor]|]. destruct (X c (or_introl eq_refl)) as (r & R1 & R2).
    destruct IH as (rs & S1 & S2); [intros y Hy; apply X; right; auto|]. exists (r :: rs). cbn [map res_list]. rewrite R1. cbn [bind]. rewrite S1. split; [reflexivity|]. constructor; auto. }
  exists rs. auto.
Qed.
End Reports.

(** ** Ties *)

Lemma list_eqb_true : forall A (eqb : A -> A -> bool) l m, Forall (fun a => forall b, eqb a b = true -> a = b) l -> list_eqb eqb l m = true -> l = m.
Proof.
  induction l as [|a l IH]; intros [|b m] H E; cbn [list_eqb] in E; try discriminate; auto. apply andb_true_iff in E. destruct E as [E1 E2]. inversion H; subst. f_equal; auto.
Qed.
Lemma list_eqb_refl : forall A (eqb : A -> A -> bool) l, Forall (fun a => eqb a a = true) l -> list_eqb eqb l l = true.
Proof. induction l as [|a l IH]; intros H; cbn [list_eqb]; auto. inversion H; subst. rewrite H2. apply IH. auto. Qed.
Lemma option_eqb_true : forall a b, option_eqb a b = true -> a = b.
Proof. intros [a|] [b|] H; cbn [option_eqb] in H; try discriminate; auto. apply N.eqb_eq in H. congruence. Qed.
Lemma option_eqb_refl : forall a, option_eqb a a = true.
Proof. intros [a|]; cbn [option_eqb]; auto. apply N.eqb_refl. Qed.
Lemma characters_eqb_true : forall a b, characters_eqb a b = true -> a = b.
Proof.
  intros [c|c d] [c'|c' d'] H; cbn [characters_eqb] in H; try discriminate; [apply N.eqb_eq in H; congruence|]. apply andb_true_iff in H. destruct H as [A B]. apply N.eqb_eq in A, B. congruence.
Qed.
Lemma characters_eqb_refl : forall a, characters_eqb a a = true.
Proof. intros [c|c d]; cbn [characters_eqb]; rewrite ?N.eqb_refl; auto. Qed.
Lemma pattern_eqb_true : forall p q, pattern_eqb p q = true -> p = q.
Proof.
  induction p as [l IH|l IH|mn mx p IH|cs b|c] using pattern_ind'; intros [m|m|mn' mx' q|cs' b'|c'] H; cbn [pattern_eqb] in H; try discriminate.
  - f_equal. eapply list_eqb_true; eauto.
  - f_equal. eapply list_eqb_true; eauto.
  - apply andb_true_iff in H. destruct H as [H C]. apply andb_true_iff in H. destruct H as [A B]. apply N.eqb_eq in A. apply option_eqb_true in B. apply IH in C. congruence.
  - apply andb_true_iff in H. destruct H as [A B]. apply Bool.eqb_prop in B. f_equal; auto. eapply list_eqb_true; eauto. apply Forall_forall. intros x _ y. apply characters_eqb_true.
  - f_equal. apply characters_eqb_true; auto.
Qed.
Lemma pattern_eqb_refl : forall p, pattern_eqb p p = true.
Proof.
  induction p as [l IH|l IH|mn mx p IH|cs b|c] using pattern_ind'; cbn [pattern_eqb].
  - apply list_eqb_refl; auto.
  - apply list_eqb_refl; auto.
  - rewrite N.eqb_refl, option_eqb_refl. exact IH.
  - rewrite Bool.eqb_reflx, list_eqb_refl; auto. apply Forall_forall. intros x _. apply characters_eqb_refl.
  - apply characters_eqb_refl.
Qed.
Lemma token_rule_eqb_iff : forall a b, token_rule_eqb a b = true <-> a = b.
Proof.
  intros [n p t] [n' p' t']. unfold token_rule_eqb. cbn [tr_name tr_prec tr_pattern]. split.
  - intros H. apply andb_true_iff in H. destruct H as [H C]. apply andb_true_iff in H. destruct H as [A B]. apply String.eqb_eq in A. apply option_eqb_true in B. subst. f_equal.
    destruct t as [l|q], t' as [l'|q']; try discriminate; f_equal; [|apply pattern_eqb_true; auto]. eapply list_eqb_true; eauto. apply Forall_forall. intros x _ y. apply N.eqb_eq.
  - intros E. injection E as <- <- <-. rewrite String.eqb_refl, option_eqb_refl. cbn [andb]. destruct t; [|apply pattern_eqb_refl]. apply list_eqb_refl. apply Forall_forall. intros x _. apply N.eqb_refl.
Qed.

Lemma filtered_all : forall A (P : A -> Prop) l s, filtered P l s -> Forall P s.
Proof. induction 1; auto. Qed.

Lemma tied_spans_ok : forall (P : token_rule -> Prop) rules tied, filtered P (map snd rules) tied ->
  exists l, filtered (fun t => P (snd t)) rules l /\ map snd l = tied /\ tied_spans tied rules = map (fun t => (fst t, tr_name (snd t))) l.
Proof.
  intros P. induction rules as [|[span r] rules IH]; intros tied H; cbn [map snd] in H.
  - inversion H; subst. exists []. split; [constructor|]. auto.
  - inversion H as [|? ? s A B|? ? s A B]; subst.
    + destruct (IH _ B) as (l & C & D & E). exists ((span, r) :: l). split; [constructor; auto|]. cbn [map snd fst tied_spans]. rewrite (proj2 (token_rule_eqb_iff r r) eq_refl). rewrite E, D. auto.
    + destruct (IH _ B) as (l & C & D & E). exists l. split; [constructor; auto|]. split; auto. rewrite <- E. destruct tied as [|t tied]; cbn [tied_spans]; [destruct rules as [|[? ?] ?]; auto|].
      destruct (token_rule_eqb t r) eqn:X; auto. apply token_rule_eqb_iff in X. subst t. apply filtered_all in B. inversion B; subst. contradiction.
Qed.

(** A tie, with the places of the rules. *)
Lemma report_tie_ok : forall F regex source sr u h tied, positions_fit source ->
  (forall r, In r (rules_of sr) -> exists t, span_substring (fst r) source = Ok (Some t) /\ spells_rule regex t (snd r)) ->
  tie (map snd (sr_tokens sr)) u h tied ->
  exists rules l, map snd rules = tied /\ filtered (fun t => rule_matches (snd t) u /\ has_precedence (snd t) h) (sr_tokens sr) rules /\
    Forall2 (reported_token regex source) rules l /\ @report_precedence F sr source (PrecedenceError tied h) = Ok [PrecedenceReport l].
Proof.
  intros F regex source sr u h tied Hf Hs (A & B & C). destruct (tied_spans_ok _ _ _ A) as (rules & D & E & G). exists rules. cbn [report_precedence]. rewrite G.
  assert (forall t, In t rules -> exists loc, @location_of F source (fst t) = Ok loc /\ reported_token regex source t (loc, tr_name (snd t))) as X.
  { intros t Ht. assert (In t (sr_tokens sr)) as Hin. { clear - D Ht. induction D; auto; [destruct Ht as [<-|Ht]; [left; auto|right; auto]|right; auto]. }
    destruct (Hs (fst t, FToken (snd t))) as (x & X1 & X2). { unfold rules_of. apply in_or_app. right. apply in_or_app. left. apply in_map_iff. exists t. auto. }
    destruct (location_located F regex source (fst t) x (FToken (snd t)) Hf X1 X2) as (loc & Y1 & Y2 & Y3). exists loc. split; auto. split; auto. }
  assert (exists l, Forall2 (reported_token regex source) rules l /\
    @res_list F _ (map (fun t => do where_ <- location_of source (fst t); Ok (where_, snd t)) (map (fun t : source_span * token_rule => (fst t, tr_name (snd t))) rules)) = Ok l) as (l & L1 & L2).
  { clear - X. induction rules as [|t rules IH]; [exists []; split; [constructor|reflexivity]|]. destruct (X t (or_introl eq_refl)) as (loc & Y1 & Y2). destruct IH as (l & L1 & L2); [intros y Hy; apply X; right; auto|].
    exists ((loc, tr_name (snd t)) :: l). split; [constructor; auto|]. cbn [map res_list fst snd]. rewrite Y1. cbn [bind]. rewrite L2. reflexivity. }
  exists l. rewrite L2. auto.
Qed.
