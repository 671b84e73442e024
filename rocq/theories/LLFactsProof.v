(** Facts about FIRST, FOLLOW, LL(1) tables and predictive parsers, as used by the property theorems. *)
From Coq Require Import String List Arith NArith Bool Lia.
From Verif Require Import Base InputModel GrammarModel GrammarSpec GrammarNamesProof GrammarProof GrammarBuildProof GrammarFactsProof
  LLModel LLSpec SententialProof SetsProof FirstProof FollowProof LLTableProof LLParseProof.
Import ListNotations.
Local Open Scope nat_scope.

(** ** Grammars from rule sets *)

Definition rules_ne (b : builder) : Prop := forall r, In r (b_rules b) -> r_rhs r <> [].
Lemma push_rule_ne : forall b lhs rhs p b', push_rule b lhs rhs p = Ok b' -> rules_ne b -> rhs <> [] -> rules_ne b'.
Proof.
  intros b lhs rhs p b' H Hb Hr. unfold push_rule in H. inv_bind H. injection H as <-. unfold rule_new in Hb0. intros r Hin. cbn [b_rules] in Hin.
  apply in_app_or in Hin. destruct Hin as [Hin|[<-|[]]]; auto. destruct lhs; try discriminate; injection Hb0 as <-; auto.
Qed.
Lemma temp_ne : forall b s b', get_temp_symbol b = Ok (s, b') -> rules_ne b -> rules_ne b'.
Proof. intros b s b' H Hb. unfold get_temp_symbol in H. inv_bind H. inv_bind H. inv_bind H. injection H as _ <-. exact Hb. Qed.

Lemma app_ne : forall A (a b : list A), a <> [] -> a ++ b <> [].
Proof. intros A [|x a] b H; [contradiction|discriminate]. Qed.

Lemma transform_ne : forall parent p b ss b', no_empty_seq p = true -> transform_pattern parent p b = Ok (ss, b') -> rules_ne b -> rules_ne b' /\ ss <> [].
Proof.
  intros parent p. induction p as [l IH|l IH|q IH|q IH|q IH|s|] using prod_pattern_ind'; intros b ss b' Hn H Hb; cbn [transform_pattern] in H; cbn [no_empty_seq] in Hn.
  - assert (l <> [] /\ forallb no_empty_seq l = true) as [Hl Hf] by (destruct l; [discriminate|split; [discriminate|auto]]). clear Hn.
    assert (forall l, Forall (fun p => forall b ss b', no_empty_seq p = true -> transform_pattern parent p b = Ok (ss, b') -> rules_ne b -> rules_ne b' /\ ss <> []) l ->
      forallb no_empty_seq l = true -> forall b ss b', transform_seq (map (transform_pattern parent) l) b = Ok (ss, b') -> rules_ne b -> rules_ne b' /\ (l <> [] -> ss <> [])) as G.
    { clear. induction l as [|p l IHl]; intros HF Hf b ss b' H Hb; cbn [map transform_seq] in H.
      - injection H as <- <-. split; auto.
      - inversion HF as [|? ? Hp HF']; subst. cbn [forallb] in Hf. apply andb_prop in Hf. destruct Hf as [Hp1 Hf]. inv_bind H. destruct a as [s1 b1].
        inv_bind H. destruct a as [s2 b2]. injection H as <- <-. destruct (Hp _ _ _ Hp1 Hb0 Hb) as [A B]. destruct (IHl HF' Hf _ _ _ Hb1 A) as [C _].
        split; auto. intros _. apply app_ne; auto. }
    destruct (G l IH Hf _ _ _ H Hb) as [A B]. split; auto.
  - inv_bind H. destruct a as [alt b1]. inv_bind H. injection H as <- <-. apply temp_ne in Hb0; auto.
    assert (forall l, Forall (fun p => forall b ss b', no_empty_seq p = true -> transform_pattern parent p b = Ok (ss, b') -> rules_ne b -> rules_ne b' /\ ss <> []) l ->
      forallb no_empty_seq l = true -> forall b b', transform_alts (map (transform_pattern parent) l) alt parent b = Ok b' -> rules_ne b -> rules_ne b') as G.
    { clear. induction l as [|p l IHl]; intros HF Hf b b' H Hb; cbn [map transform_alts] in H.
      - injection H as <-. auto.
      - inversion HF as [|? ? Hp HF']; subst. cbn [forallb] in Hf. apply andb_prop in Hf. destruct Hf as [Hp1 Hf]. inv_bind H. destruct a as [s1 b1].
        inv_bind H. destruct (Hp _ _ _ Hp1 Hb0 Hb) as [A B]. apply (IHl HF' Hf _ _ H). eapply push_rule_ne; eauto. }
    split; [eapply G; eauto|discriminate].
  - inv_bind H. destruct a as [rep b1]. inv_bind H. destruct a as [inner b2]. inv_bind H. inv_bind H. injection H as <- <-. apply temp_ne in Hb0; auto.
    destruct (IH _ _ _ Hn Hb1 Hb0) as [A B]. split; [|discriminate]. eapply push_rule_ne; [eassumption| |apply app_ne; auto]. eapply push_rule_ne; eauto.
  - inv_bind H. destruct a as [rep b1]. inv_bind H. destruct a as [inner b2]. inv_bind H. inv_bind H. injection H as <- <-. apply temp_ne in Hb0; auto.
    destruct (IH _ _ _ Hn Hb1 Hb0) as [A B]. split; [|discriminate]. eapply push_rule_ne; [eassumption| |apply app_ne; auto]. eapply push_rule_ne; eauto. discriminate.
  - inv_bind H. destruct a as [rep b1]. inv_bind H. destruct a as [inner b2]. inv_bind H. inv_bind H. injection H as <- <-. apply temp_ne in Hb0; auto.
    destruct (IH _ _ _ Hn Hb1 Hb0) as [A B]. split; [|discriminate]. eapply push_rule_ne; [eassumption| |discriminate]. eapply push_rule_ne; eauto.
  - inv_bind H. injection H as <- <-. split; auto. discriminate.
  - injection H as <- <-. split; auto. discriminate.
Qed.

Lemma built_no_empty_rhs : forall rs g, from_rule_set rs = Ok g -> (forall p, In p (rs_prods rs) -> no_empty_seq (pr_pattern p) = true) -> no_empty_rhs g.
Proof.
  intros rs g H Hn. unfold from_rule_set in H. inv_bind H. unfold build in H. inv_bind H. inv_bind H. rename a0 into b.
  destruct (find (fun r => eqc (pr_name r) (rs_entry rs)) (rs_prods rs)); [|discriminate]. injection H as <-.
  assert (rules_ne b) as X; [|exact X].
  refine (foldM_inv _ _ _ add_production_rule (fun _ b => rules_ne b) (rs_prods rs) a b _ _ Hb0).
  - unfold builder_from_rule_set in Hb. inv_bind Hb. destruct a0 as [s1 t1]. inv_bind Hb. destruct a0 as [s2 t2]. inv_bind Hb. injection Hb as <-. intros r [].
  - clear p. intros done p rest b1 b2 E Hb1' H2. unfold add_production_rule in H2. inv_bind H2. inv_bind H2. destruct a2 as [ss b3].
    assert (no_empty_seq (pr_pattern p) = true) as Hp by (apply Hn; rewrite E; apply in_elt).
    destruct (transform_ne _ _ _ _ _ Hp Hb3 Hb1') as [A B]. eapply push_rule_ne; eauto.
Qed.

Lemma built_terminals_fit : forall rs g, from_rule_set rs = Ok g -> small rs -> (N.of_nat (length (rs_tokens rs)) < 65536)%N -> terminals_fit g.
Proof.
  intros rs g H Hs Hl t Ht. unfold terminals in Ht. apply in_map_iff in Ht. destruct Ht as ([s name] & E & Hin). simpl in E. subst s.
  assert (token_named g t name) as X by exact Hin. apply (token_numbers rs g Hs H) in X. destruct X as (i & -> & Hi). destruct Hi as (r & Hr & _).
  apply nth_error_lt in Hr. lia.
Qed.

(** ** FIRST and FOLLOW *)

Lemma first_terminates : forall E g, wf_grammar g -> exists n, forall fuel, n <= fuel -> exists fs, @compute_first_sets E fuel g = Ok fs.
Proof. intros E g wf. exists (fuel_bound g). intros. apply compute_first_ok; auto. Qed.

Lemma first_exact : forall E g fuel fs, wf_grammar g -> no_empty_rhs g -> @compute_first_sets E fuel g = Ok fs ->
  (forall i, In (NonTerminal i) (non_terminals g) -> exists set, map_get (NonTerminal i) fs = Some set) /\
  forall i x, (exists set, map_get (NonTerminal i) fs = Some set /\ In x set) <->
    begins (g_rules g) [NonTerminal i] x \/ (x = Epsilon /\ erasable (g_rules g) [NonTerminal i]).
Proof.
  intros E g fuel fs wf ne H. pose proof (compute_first_correct g wf E fuel fs H) as C. split.
  - intros i Hi. apply (so_get g fs _ (fc_ok _ _ C) Hi).
  - intros i x. rewrite <- firstT_begins, erasable_iff. apply (inS_first_iff g fs i x ne C).
Qed.

Lemma first_seq_exact : forall E g fuel fs, wf_grammar g -> no_empty_rhs g -> @compute_first_sets E fuel g = Ok fs ->
  forall al, al <> [] -> (forall s, In s al -> known g s \/ s = End) ->
  exists set, @first_of_seq E al fs = Ok set /\ forall x, In x set <-> begins (g_rules g) al x \/ (x = Epsilon /\ erasable (g_rules g) al).
Proof.
  intros E g fuel fs wf ne H al Hal Hk. pose proof (compute_first_correct g wf E fuel fs H) as C.
  destruct (first_of_seq_spec E g fs al (fc_ok _ _ C)) as (S & A & B & D).
  { intros i Hi. destruct (Hk _ Hi) as [X|X]; [exact X|discriminate]. }
  exists S. split; auto. intros x. rewrite D, (in_first_iff g fs al x ne C), <- firstT_begins, erasable_iff.
  split; [intros [?|(? & ? & ?)]; auto|intros [?|[? ?]]; auto].
Qed.

Lemma follow_terminates : forall E g fs m, wf_grammar g -> @compute_first_sets E m g = Ok fs ->
  exists n, forall fuel, n <= fuel -> exists fo, @compute_follow_sets E fuel g fs = Ok fo.
Proof.
  intros E g fs m wf H. exists (fuel_bound g). intros fuel Hf. apply (compute_follow_ok g wf fs); auto. eapply compute_first_correct; eauto.
Qed.

Lemma follow_exact : forall E g m fs fuel fo, wf_grammar g -> no_empty_rhs g -> @compute_first_sets E m g = Ok fs -> @compute_follow_sets E fuel g fs = Ok fo ->
  (forall i, In (NonTerminal i) (non_terminals g) -> exists set, map_get (NonTerminal i) fo = Some set) /\
  forall i x, (exists set, map_get (NonTerminal i) fo = Some set /\ In x set) <-> follows g i x.
Proof.
  intros E g m fs fuel fo wf ne H1 H2. pose proof (compute_first_correct g wf E m fs H1) as C. split.
  - intros i Hi. destruct (compute_follow_fix g wf fs C E fuel fo H2) as [A _]. apply (so_get g fo _ A Hi).
  - intros i x. apply (compute_follow_correct g wf fs C E fuel fo i x ne H2).
Qed.

Lemma follows_reachable : forall g i x, wf_grammar g -> all_reachable g -> (follows g i x <-> follows_entry g i x).
Proof.
  intros g i x wf Hr. split.
  - intros (Hl & s & al & be & Hs & HS). split; auto. destruct Hs as [->|(j & Hj & ->)]; [eauto|].
    destruct (Hr j Hj) as (u & v & HU). exists (u ++ al), (be ++ v). eapply ssteps_trans; [exact HU|].
    pose proof (ssteps_ctx (g_rules g) u v _ _ HS) as X. rewrite <- !app_assoc in *. exact X.
  - intros (Hl & al & be & HS). split; auto. exists [g_entry g; End], al, be. split; auto. left; auto.
Qed.

Lemma follow_exact_reachable : forall E g m fs fuel fo, wf_grammar g -> no_empty_rhs g -> all_reachable g ->
  @compute_first_sets E m g = Ok fs -> @compute_follow_sets E fuel g fs = Ok fo ->
  forall i x, (exists set, map_get (NonTerminal i) fo = Some set /\ In x set) <-> follows_entry g i x.
Proof.
  intros E g m fs fuel fo wf ne Hr H1 H2 i x. destruct (follow_exact E g m fs fuel fo wf ne H1 H2) as [_ X]. rewrite X. apply follows_reachable; auto.
Qed.

(** ** Tables *)

Lemma table_exact : forall g fuel tb, wf_grammar g -> no_empty_rhs g -> terminals_fit g -> ll_generate_table fuel g = Ok tb ->
  forall i x, lookahead x -> (forall t, x = Terminal t -> (t < 65535)%N) ->
  exists c, @get_production ll_error tb (NonTerminal i) x = Ok c /\
    forall p, c = Some p <-> exists r, In r (g_rules g) /\ r_lhs r = Some i /\ r_rhs r = p /\ predicts g r x.
Proof.
  intros g fuel tb wf ne fit H i x Hx Hf. destruct (generate_ok_exact g wf ne fit fuel tb H) as (_ & _ & C).
  exists (map_get (i, col x) tb). split; [apply get_production_cell; auto|]. intros p. apply C; auto.
Qed.

Lemma table_unique : forall g fuel tb, wf_grammar g -> no_empty_rhs g -> terminals_fit g -> ll_generate_table fuel g = Ok tb ->
  forall r r' i x, In r (g_rules g) -> In r' (g_rules g) -> r_lhs r = Some i -> r_lhs r' = Some i -> predicts g r x -> predicts g r' x -> r = r'.
Proof.
  intros g fuel tb wf ne fit H. destruct (generate_ok_exact g wf ne fit fuel tb H) as (N & _ & C). intros r r' i x. apply same_rule. auto.
Qed.

Lemma table_outcome : forall g, wf_grammar g -> no_empty_rhs g -> terminals_fit g -> exists n, forall fuel, n <= fuel ->
  ((exists tb, ll_generate_table fuel g = Ok tb) /\ (forall j k x, ~ ll1_conflict g j k x)) \/
  ((exists e, ll_generate_table fuel g = Err e) /\ (exists j k x, ll1_conflict g j k x)).
Proof.
  intros g wf ne fit. exists (fuel_bound g). intros fuel Hf.
  destruct (ll_generate_table fuel g) as [tb|e| |] eqn:E.
  - left. split; eauto. apply (generate_ok_iff g wf ne fit fuel Hf). eauto.
  - right. split; eauto. apply (generate_conflict_iff g wf ne fit fuel Hf). eauto.
  - destruct (generate_no_panic g wf ne fit fuel E).
  - destruct (generate_terminates g wf ne fit fuel Hf E).
Qed.

(** ** Parsing *)

Lemma table_halts : forall g fuel tb i input, wf_grammar g -> no_empty_rhs g -> terminals_fit g -> ll_generate_table fuel g = Ok tb ->
  exists n, (exists ev, forall f, n <= f -> ll_parse f (table_lookup tb) i input = Ok ev) \/ (exists e, forall f, n <= f -> ll_parse f (table_lookup tb) i input = Err e).
Proof.
  intros g fuel tb i input wf ne fit H. destruct (generate_ok_exact g wf ne fit fuel tb H) as (N & _ & C).
  destruct (halts_result _ _ _ (run_halts g wf fit tb C input [SNonTerm i; SEnd])) as (n & r & Hr & X).
  exists n. destruct r as [ev|e| |]; [left; eauto|right; eauto| |contradiction].
  exfalso. specialize (X n (le_n _)). clear - X.
  assert (forall f look s inp, ll_run f look s inp <> Panic) as G; [|eapply G; eauto].
  intros f look. induction f as [|f IH]; intros s inp; [discriminate|]. cbn [ll_run].
  destruct s as [|[t| |j|j] s]; try discriminate.
  - destruct inp as [|t' inp]; [discriminate|]. destruct (t =? t')%N; [|discriminate]. intros E. apply bind_Panic in E. destruct E as [E|(a & _ & E)]; [apply (IH _ _ E)|discriminate].
  - destruct inp as [|t' inp]; [|discriminate]. intros E. apply bind_Panic in E. destruct E as [E|(a & _ & E)]; [apply (IH _ _ E)|discriminate].
  - destruct (look j (hd_error inp)); [|discriminate]. intros E. apply bind_Panic in E. destruct E as [E|(a & _ & E)]; [apply (IH _ _ E)|discriminate].
  - intros E. apply bind_Panic in E. destruct E as [E|(a & _ & E)]; [apply (IH _ _ E)|discriminate].
Qed.

Lemma table_parses : forall g fuel tb i, wf_grammar g -> no_empty_rhs g -> terminals_fit g -> ll_generate_table fuel g = Ok tb ->
  g_entry g = NonTerminal i -> forall input ev,
  (exists f, ll_parse f (table_lookup tb) i input = Ok ev) <->
  exists tr, parses (g_rules g) [g_entry g] [tr] /\ yield tr = input /\ ev = ll_events tr ++ [TokenEof].
Proof.
  intros g fuel tb i wf ne fit H Hi input ev. destruct (generate_ok_exact g wf ne fit fuel tb H) as (N & _ & C). rewrite Hi. split.
  - intros [f Hf]. destruct (parse_sound _ _ _ (table_sound_look g tb C) (rhs_no_end g wf) f i input ev I Hf) as (r & cs & A & B & D). eauto.
  - intros (tr & A & B & D). destruct (parse_complete_gen g _ (table_complete_look g wf fit tb C) i tr Hi A) as [n Hn]. exists n. subst. apply Hn. auto.
Qed.

Lemma table_language : forall g fuel tb i, wf_grammar g -> no_empty_rhs g -> terminals_fit g -> ll_generate_table fuel g = Ok tb ->
  g_entry g = NonTerminal i -> forall input,
  (exists f ev, ll_parse f (table_lookup tb) i input = Ok ev) <-> derives (g_rules g) [g_entry g] input.
Proof.
  intros g fuel tb i wf ne fit H Hi input. split.
  - intros (f & ev & Hf). destruct (proj1 (table_parses g fuel tb i wf ne fit H Hi input ev) (ex_intro _ f Hf)) as (tr & A & <- & _).
    apply parses_derives in A. unfold yields in A. simpl in A. rewrite app_nil_r in A. auto.
  - intros Hd. apply derives_parses in Hd. destruct Hd as (ts & A & <-).
    assert (exists tr, ts = [tr]) as [tr ->]. { rewrite Hi in A. inversion A as [| | |r j al cs ts' Hr Hj H1 H2]; subst. inversion H2; subst. eauto. }
    destruct (proj2 (table_parses g fuel tb i wf ne fit H Hi (yield tr) (ll_events tr ++ [TokenEof]))) as [f Hf]; [eauto|].
    exists f. unfold yields. simpl. rewrite app_nil_r. eauto.
Qed.

Lemma ll1_unambiguous : forall g fuel tb, wf_grammar g -> no_empty_rhs g -> terminals_fit g -> ll_generate_table fuel g = Ok tb ->
  forall tr tr', parses (g_rules g) [g_entry g] [tr] -> parses (g_rules g) [g_entry g] [tr'] -> yield tr = yield tr' -> tr = tr'.
Proof.
  intros g fuel tb wf ne fit H tr tr' Hp Hp' E. destruct (generate_ok_exact g wf ne fit fuel tb H) as (N & _ & C).
  destruct (parses_unique g N _ _ Hp [tr'] [] [] Hp') as [X _]; [|apply entry_ctx|apply entry_ctx|congruence].
  unfold yields. simpl. rewrite !app_nil_r. auto.
Qed.

(** ** The C++ backend *)

Lemma position_of_In : forall s l, In s l -> exists k, position_of s l = Some k /\ nth_error l k = Some s.
Proof.
  intros s l. induction l as [|x l IH]; intros H; [destruct H|]. cbn [position_of]. destruct (eqc s x) eqn:E.
  - apply eqc_true in E. subst. exists O. auto.
  - destruct H as [->|H]; [rewrite eqc_refl in E; discriminate|]. destruct (IH H) as (k & A & B). rewrite A. exists (S k). auto.
Qed.
Lemma aligned_position : forall g, aligned g -> forall i, In (NonTerminal i) (non_terminals g) -> enum_position g (NonTerminal i) = i.
Proof.
  intros g Ha i Hi. destruct (position_of_In _ _ Hi) as (k & A & B). unfold enum_position. rewrite A. apply Ha in B. injection B as ->. auto.
Qed.

Lemma existsb_eqc : forall (s : symbol) l, existsb (eqc s) l = true <-> In s l.
Proof.
  intros s l. rewrite existsb_exists. split; [intros (x & Hx & E); apply eqc_true in E; subst; auto|intros H; exists s; split; auto; apply eqc_refl].
Qed.

Lemma push_cpp_same : forall g al, aligned g -> (forall i, In (NonTerminal i) al -> In (NonTerminal i) (non_terminals g)) -> flat_map (push_symbol_cpp g) al = push_sequence al.
Proof.
  intros g al Ha. induction al as [|s al IH]; intros Hk; auto. unfold push_sequence in *. cbn [flat_map]. rewrite IH by (intros; apply Hk; right; auto).
  f_equal. destruct s as [| |i|t]; auto. simpl. rewrite aligned_position; auto. apply Hk. left; auto.
Qed.

Lemma cpp_sound_look : forall g fuel tb, wf_grammar g -> no_empty_rhs g -> terminals_fit g -> ll_generate_table fuel g = Ok tb -> aligned g ->
  sound_look (cpp_lookup g tb) (g_rules g) (fun i => In (NonTerminal i) (non_terminals g)).
Proof.
  intros g fuel tb wf ne fit H Ha i a l Hi Hl. destruct (generate_ok_exact g wf ne fit fuel tb H) as (N & _ & C).
  unfold cpp_lookup in Hl. assert (existsb (eqc (NonTerminal i)) (non_terminals g) = true) as E by (apply existsb_eqc; auto). rewrite E in Hl.
  destruct a as [t|]; [|discriminate]. destruct (existsb (eqc (Terminal t)) (terminals g)) eqn:Et; [|discriminate]. apply existsb_eqc in Et.
  rewrite get_production_cell in Hl; [|right; eauto|intros t' [= ->]; apply fit; auto].
  destruct (map_get (i, col (Terminal t)) tb) as [p|] eqn:Ep; [|discriminate]. injection Hl as <-.
  apply C in Ep; [|right; eauto]. destruct Ep as (r & Hr & Hri & <- & _). exists r. split; auto. split; auto.
  assert (forall j, In (NonTerminal j) (r_rhs r) -> In (NonTerminal j) (non_terminals g)) as K by (intros j Hj; apply (rhs_known g wf r Hr j Hj)).
  split; auto. apply push_cpp_same; auto.
Qed.

Lemma entry_aligned : forall g i, wf_grammar g -> aligned g -> g_entry g = NonTerminal i -> enum_position g (g_entry g) = i /\ In (NonTerminal i) (non_terminals g).
Proof. intros g i wf Ha Hi. destruct (wf_entry g wf) as (j & Hj & Hin). rewrite Hi in Hj. injection Hj as <-. split; auto. rewrite Hi. apply aligned_position; auto. Qed.

Lemma cpp_sound : forall g fuel tb, wf_grammar g -> no_empty_rhs g -> terminals_fit g -> ll_generate_table fuel g = Ok tb -> aligned g ->
  forall f input ev, cpp_ll_parse f g tb input = Ok ev ->
  exists tr, parses (g_rules g) [g_entry g] [tr] /\ yield tr = input /\ ev = ll_events tr ++ [TokenEof].
Proof.
  intros g fuel tb wf ne fit H Ha f input ev Hp. destruct (wf_entry g wf) as (i & Hi & Hin). destruct (entry_aligned g i wf Ha Hi) as [E _].
  unfold cpp_ll_parse in Hp. rewrite E in Hp. rewrite Hi.
  destruct (parse_sound _ _ _ (cpp_sound_look g fuel tb wf ne fit H Ha) (rhs_no_end g wf) f i input ev Hin Hp) as (r & cs & A & B & D). eauto.
Qed.

Lemma cpp_complete_look : forall g fuel tb, wf_grammar g -> no_empty_rhs g -> terminals_fit g -> ll_generate_table fuel g = Ok tb -> aligned g -> no_erasable g ->
  complete_look g (cpp_lookup g tb).
Proof.
  intros g fuel tb wf ne fit H Ha Hne r i cs rest Hr Hi Hp Hpr. destruct (generate_ok_exact g wf ne fit fuel tb H) as (N & _ & C).
  destruct (yields cs) as [|t w] eqn:Ey.
  { exfalso. apply (Hne r Hr). apply erasable_iff. rewrite <- Ey. apply parses_derives; auto. }
  simpl in Hpr. cbn [app hd_error]. unfold cpp_lookup. destruct (wf_lhs g wf r Hr) as (i' & Hi' & Hin). assert (i' = i) by congruence. subst i'.
  assert (existsb (eqc (NonTerminal i)) (non_terminals g) = true) as -> by (apply existsb_eqc; auto).
  assert (In (Terminal t) (terminals g)) as Ht. { destruct (predicts_fine g wf r _ Hr Hpr) as [X|X]; [exact X|discriminate]. }
  assert (existsb (eqc (Terminal t)) (terminals g) = true) as -> by (apply existsb_eqc; auto).
  rewrite get_production_cell; [|right; eauto|intros t' [= ->]; apply fit; auto].
  assert (map_get (i, col (Terminal t)) tb = Some (r_rhs r)) as -> by (apply C; [right; eauto|exists r; auto]).
  rewrite push_cpp_same; auto. intros j Hj. apply (rhs_known g wf r Hr j Hj).
Qed.

Lemma cpp_exact : forall g fuel tb, wf_grammar g -> no_empty_rhs g -> terminals_fit g -> ll_generate_table fuel g = Ok tb -> aligned g -> no_erasable g ->
  forall input ev, (exists f, cpp_ll_parse f g tb input = Ok ev) <->
  exists tr, parses (g_rules g) [g_entry g] [tr] /\ yield tr = input /\ ev = ll_events tr ++ [TokenEof].
Proof.
  intros g fuel tb wf ne fit H Ha Hne input ev. split.
  - intros [f Hf]. eapply cpp_sound; eauto.
  - intros (tr & A & B & D). destruct (wf_entry g wf) as (i & Hi & Hin). destruct (entry_aligned g i wf Ha Hi) as [E _]. rewrite Hi in A.
    destruct (parse_complete_gen g _ (cpp_complete_look g fuel tb wf ne fit H Ha Hne) i tr Hi A) as [n Hn]. exists n. rewrite <- B, D. unfold cpp_ll_parse. rewrite E. apply Hn. auto.
Qed.
