(** The generated lexer (C05-C10). *)
From Coq Require Import String List Arith NArith Bool Lia.
From Verif Require Import Base InputModel LexerModel LexerSpec GraphProof AlphabetProof NfaProof NfaLang
  PowersetProof ConvertProof PrecedenceProof.
Import ListNotations.
Open Scope nat_scope.

Lemma filtered_In : forall A (P : A -> Prop) l s, filtered P l s -> forall a, In a s <-> In a l /\ P a.
Proof.
  induction 1 as [|b l s Hp Hf IH|b l s Hp Hf IH]; intros a; simpl.
  - tauto.
  - rewrite IH. intuition (subst; auto).
  - rewrite IH. intuition (subst; tauto).
Qed.

Lemma filtered_ext : forall A (P Q : A -> Prop) l s, (forall a, In a l -> (P a <-> Q a)) -> filtered P l s -> filtered Q l s.
Proof.
  intros A P Q l s H Hf. induction Hf.
  - constructor.
  - constructor; [apply H; auto; left; auto|]. apply IHHf. intros; apply H; right; auto.
  - constructor 3.
    + rewrite <- H; auto. left; auto.
    + apply IHHf. intros; apply H; right; auto.
Qed.

Lemma filtered_trans : forall A (P Q : A -> Prop) l s t, filtered P l s -> filtered Q s t -> filtered (fun a => P a /\ Q a) l t.
Proof.
  intros A P Q l s t H. revert t. induction H; intros t Ht.
  - inversion Ht; subst. constructor.
  - inversion Ht; subst.
    + constructor; auto.
    + constructor 3; auto. tauto.
  - constructor 3; auto. tauto.
Qed.

Lemma filtered_split : forall A (P : A -> Prop) l s b r c, filtered P l s -> s = b ++ r :: c ->
  exists b' c', l = b' ++ r :: c' /\ filtered P b' b /\ filtered P c' c.
Proof.
  intros A P l s b r c H. revert b. induction H as [|a l s Hp Hf IH|a l s Hp Hf IH]; intros b Hs.
  - destruct b; discriminate.
  - destruct b as [|b0 b]; simpl in Hs; injection Hs as -> ->.
    + exists [], l. repeat split; auto. constructor.
    + destruct (IH b eq_refl) as [b' [c' [-> [H1 H2]]]]. exists (b0 :: b'), c'. repeat split; auto. constructor; auto.
  - destruct (IH b Hs) as [b' [c' [-> [H1 H2]]]]. exists (a :: b'), c'. repeat split; auto. constructor 3; auto.
Qed.

Lemma filtered_map_filter : forall A (f : A -> bool) l, filtered (fun a => f a = true) l (filter f l).
Proof.
  induction l as [|a l IH]; simpl; [constructor|]. destruct (f a) eqn:E; constructor; auto. congruence.
Qed.

(** The accepting labels of a set of NFA states are the rules whose accepting state is in it, in order. *)
Lemma accepts_filtered : forall al rules g accs c, nfa_inv al rules g accs -> sorted c ->
  exists bs, length bs = length rules /\ accepts_of g c = map fst (filter snd (combine rules bs)) /\
  forall i x, nth_error accs i = Some x -> (nth_error bs i = Some true <-> In x c).
Proof.
  intros al rules g accs c HI Hc. destruct HI as [I1 I2 _ I3 _ _ _].
  exists (map (fun x => set_mem x c) accs). split; [rewrite map_length; auto|]. split.
  - assert (Hacc : forall x, In x c -> forall a, nth_error (nfa_nodes g) x = Some (Accepting a) -> In x accs).
    { intros x _ a Ha. apply I3 in Ha. destruct Ha as [i [H _]]. eapply nth_error_In; eauto. }
    set (f := fun i => match nth_error (nfa_nodes g) i with Some (Accepting a) => [a] | _ => [] end).
    assert (E1 : accepts_of g c = flat_map f (filter (fun x => set_mem x accs) c)).
    { unfold accepts_of. fold f. clear - Hacc I2. induction c as [|x c IH]; simpl; auto.
      rewrite IH by (intros; eapply Hacc; eauto; right; auto). destruct (set_mem x accs) eqn:Em; simpl; auto.
      replace (f x) with (@nil token_rule); auto. unfold f. destruct (nth_error (nfa_nodes g) x) as [[a|]|] eqn:En; auto.
      exfalso. assert (In x accs) by (eapply Hacc; eauto; left; auto). apply set_mem_In in H; auto. congruence. }
    assert (Hfs : forall (h : nat -> bool) l, sorted l -> sorted (filter h l)).
    { intros h l. induction 1; simpl; [constructor|]. destruct (h a); auto. constructor; auto.
      intros b Hb. apply filter_In in Hb. apply H0. tauto. }
    assert (E2 : filter (fun x => set_mem x accs) c = filter (fun x => set_mem x c) accs).
    { apply sorted_ext; auto. intros x. rewrite !filter_In, !set_mem_In; auto. tauto. }
    rewrite E1, E2.
    assert (G : forall l rs, length l = length rs -> (forall i x, nth_error l i = Some x -> exists a, nth_error rs i = Some a /\ nth_error (nfa_nodes g) x = Some (Accepting a)) ->
      flat_map f (filter (fun x => set_mem x c) l) = map fst (filter snd (combine rs (map (fun x => set_mem x c) l)))).
    { clear. induction l as [|x l IH]; intros [|r rs] HL H; simpl in *; try discriminate; auto.
      destruct (H 0 x eq_refl) as [a [Q1 Q2]]. injection Q1 as <-.
      assert (IHl := IH rs ltac:(lia) (fun i y Hy => H (S i) y Hy)).
      destruct (set_mem x c); simpl; rewrite IHl; auto. unfold f at 1. rewrite Q2. reflexivity. }
    apply G; auto. intros i x Hx. destruct (nth_error_ex _ rules i) as [a Ha].
    { rewrite <- I1. eapply nth_error_lt; eauto. }
    exists a. split; auto. apply I3. eauto.
  - intros i x Hx. rewrite nth_error_map, Hx. simpl. split.
    + intros H. injection H as H. apply set_mem_In; auto.
    + intros H. f_equal. apply set_mem_In; auto.
Qed.

Lemma filtered_combine : forall (rules : list token_rule) bs (P : token_rule -> Prop), length bs = length rules ->
  (forall i r, nth_error rules i = Some r -> (nth_error bs i = Some true <-> P r)) ->
  filtered P rules (map fst (filter snd (combine rules bs))).
Proof.
  induction rules as [|r rules IH]; intros [|b bs] P HL H; simpl in *; try discriminate; [constructor|].
  assert (IH' := IH bs P ltac:(lia) (fun i x Hx => H (S i) x Hx)). specialize (H 0 r eq_refl). simpl in H.
  destruct b; simpl; constructor; auto.
  - apply H. auto.
  - intros Hp. apply H in Hp. discriminate.
Qed.

(** ** The generated automaton *)

Record lex_facts (rules : list token_rule) (al : alphabet) (d : dfa token_rule) : Prop := {
  lf_al : contiguous 0%N al (CHAR_MAX + 1)%N;
  lf_zero : exists rest, al = (0%N, 0%N) :: rest;
  lf_det : deterministic (dfa_edges d);
  lf_pos : 0 < length (dfa_nodes d);
  lf_range : forall j t k, In (j, t, k) (dfa_edges d) -> j < length (dfa_nodes d) /\ k < length (dfa_nodes d);
  lf_start : forall w, run (dfa_edges d) 0 w 0 -> w = [];
  lf_alive : forall u u', Forall valid_char (u ++ u') ->
     (exists r, In r rules /\ rule_matches r (u ++ u')) -> exists k, run (dfa_edges d) 0 (map (idx al) u) k;
  lf_viable : proper_rules rules -> forall u k, Forall valid_char u -> run (dfa_edges d) 0 (map (idx al) u) k ->
     u = [] \/ viable rules u;
  lf_label : forall u k, Forall valid_char u -> run (dfa_edges d) 0 (map (idx al) u) k ->
     (exists m, nth_error (dfa_nodes d) k = Some (Intermediate m) /\ ~ matched rules u) \/
     (exists r, nth_error (dfa_nodes d) k = Some (Accepting r) /\ best_rule rules u r);
  lf_reach : forall k, k < length (dfa_nodes d) -> exists u, Forall valid_char u /\ run (dfa_edges d) 0 (map (idx al) u) k
}.

Lemma no_empty_norm : forall rules r, no_empty_sequence rules -> In r rules -> norm (rule_pattern r) = rule_pattern r.
Proof. intros rules r H Hr. apply norm_id. intros q Hq. eapply H; eauto. Qed.

Lemma sole_best : forall rules u sel r, filtered (fun r => rule_matches r u) rules sel -> sole_max sel r -> best_rule rules u r.
Proof.
  intros rules u sel r Hf [b [c [-> Hs]]]. destruct (filtered_split _ _ _ _ _ _ _ Hf eq_refl) as [b' [c' [-> [H1 H2]]]].
  exists b', c'. split; auto. split.
  - apply (filtered_In _ _ _ _ Hf). apply in_or_app. right. left. auto.
  - intros r' Hin Hm. destruct (Hs r') as [n [n' [Q1 [Q2 Q3]]]].
    + apply in_or_app. apply in_app_or in Hin. destruct Hin as [Hin|Hin]; [left|right].
      * apply (filtered_In _ _ _ _ H1). auto.
      * apply (filtered_In _ _ _ _ H2). auto.
    + exists n, n'. split; [eapply prec_iff; eauto|]. split; [eapply prec_iff; eauto|auto].
Qed.

Lemma path_app_inv : forall E w1 u w2 v, path E u (w1 ++ w2) v -> exists x, path E u w1 x /\ path E x w2 v.
Proof.
  intros E w1 u w2 v H. remember (w1 ++ w2) as w. revert w1 w2 Heqw. induction H; intros w1 w2 Hw.
  - symmetry in Hw. apply app_eq_nil in Hw. destruct Hw as [-> ->]. exists u. split; constructor.
  - destruct (IHpath w1 w2 Hw) as [y [H1 H2]]. exists y. split; auto. econstructor 2; eauto.
  - destruct w1 as [|t1 w1]; simpl in Hw.
    + exists u. split; [constructor|]. subst w2. econstructor 3; eauto.
    + injection Hw as <- ->. destruct (IHpath w1 w2 eq_refl) as [y [H1 H2]]. exists y. split; auto. econstructor 3; eauto.
Qed.

Section Pipeline.
Variable rules : list token_rule.
Hypothesis Hvalid : valid_rules rules.
Hypothesis Hne : no_empty_sequence rules.
Variable al : alphabet.
Hypothesis Hgen : generate_alphabet rules = Ok al.
Variable g : nfa token_rule.
Hypothesis Hnfa : generate_nfa al rules = Ok (0, g).
Let E := nfa_edges g.

Lemma rules_known : forall r, In r rules -> known al (rule_pattern r).
Proof.
  intros r Hr c Hc. destruct (generate_alphabet_spec rules al Hvalid Hgen) as [H1 [H2 H3]]. split; eauto.
Qed.

Lemma pipeline_al : contiguous 0%N al (CHAR_MAX + 1)%N.
Proof. destruct (generate_alphabet_spec rules al Hvalid Hgen) as [H1 [H2 H3]]. auto. Qed.

Lemma pipeline_inv : exists accs, nfa_inv al rules g accs.
Proof.
  destruct (generate_nfa_spec al pipeline_al rules 0 g rules_known Hnfa) as [_ H]. exact H.
Qed.

Lemma nfa_bounds : forall u l v, In (u, l, v) E -> u < length (nfa_nodes g) /\ v < length (nfa_nodes g).
Proof. destruct pipeline_inv as [accs HI]. intros u l v H. apply (ni_edges _ _ _ _ HI) in H. unfold sz in H. tauto. Qed.

Lemma nfa_entry : 0 < length (nfa_nodes g).
Proof. destruct pipeline_inv as [accs HI]. apply (ni_sz _ _ _ _ HI). Qed.

Lemma rule_lang : forall r u, In r rules -> Forall valid_char u ->
  (lmatches al (rule_pattern r) (map (idx al) u) <-> rule_matches r u).
Proof.
  intros r u Hr Hu. unfold rule_matches. rewrite lmatches_matches; auto.
  - rewrite (no_empty_norm rules); auto. tauto.
  - apply pipeline_al.
  - apply rules_known; auto.
Qed.

Lemma nfa_no_return : forall w, path E 0 w 0 -> w = [].
Proof.
  destruct pipeline_inv as [accs HI]. intros w H.
  assert (X : forall u w v, path E u w v -> v = 0 -> u = 0 /\ w = []).
  { induction 1; intros ->; auto; destruct (IHpath eq_refl); subst; apply (ni_edges _ _ _ _ HI) in H0; lia. }
  eapply X; eauto.
Qed.

Lemma path_labels : forall u w v, path E u w v -> Forall (fun t => t < length al) w.
Proof.
  destruct pipeline_inv as [accs HI]. induction 1; auto. constructor; auto.
  apply (ni_edges _ _ _ _ HI) in H. tauto.
Qed.

Lemma labels_word : forall w, Forall (fun t => t < length al) w -> exists u, Forall valid_char u /\ w = map (idx al) u.
Proof.
  induction 1 as [|t w Ht Hw [u [H1 ->]]]; [exists []; auto|].
  destruct (idx_surj al pipeline_al t Ht) as [c [Hc Hi]]. exists (c :: u). split; auto. simpl. congruence.
Qed.

(** Labels of the states reached by a text. *)
Lemma accepts_text : forall u c, Forall valid_char u -> sorted c -> (forall x, In x c <-> path E 0 (map (idx al) u) x) ->
  filtered (fun r => rule_matches r u) rules (accepts_of g c).
Proof.
  intros u c Hu Hs Hc. destruct pipeline_inv as [accs HI].
  destruct (accepts_filtered _ _ _ _ _ HI Hs) as [bs [L [Ha Hb]]]. rewrite Ha. apply filtered_combine; auto.
  intros i r Hr. destruct (nth_error_ex _ accs i) as [x Hx].
  { rewrite (ni_len _ _ _ _ HI). eapply nth_error_lt; eauto. }
  rewrite (Hb i x Hx), Hc. unfold E. rewrite (ni_lang _ _ _ _ HI i x r Hx Hr). apply rule_lang; auto. eapply nth_error_In; eauto.
Qed.

Lemma path_viable : proper_rules rules -> forall u x, Forall valid_char u -> path E 0 (map (idx al) u) x -> u = [] \/ viable rules u.
Proof.
  intros Hp u x Hu H. destruct pipeline_inv as [accs HI]. destruct (Nat.eq_dec x 0) as [->|Hx].
  - left. apply nfa_no_return in H. destruct u; auto; discriminate.
  - right. assert (Hlt : x < sz g) by (eapply path_lt; [apply nfa_bounds|exact H|apply nfa_entry]).
    destruct (ni_co _ _ _ _ HI) with (x := x) as [w [y [Hy Hpath]]]; [|lia|].
    { intros r Hr. apply proper_linh; auto. apply pipeline_al. apply rules_known; auto. }
    destruct (labels_word w) as [u' [Hu' ->]]; [eapply path_labels; eauto|].
    apply In_nth_error in Hy. destruct Hy as [i Hi]. destruct (nth_error_ex _ rules i) as [r Hr].
    { rewrite <- (ni_len _ _ _ _ HI). eapply nth_error_lt; eauto. }
    assert (Hin : In r rules) by (eapply nth_error_In; eauto).
    exists r, u'. split; auto. split; auto. apply rule_lang; auto.
    { apply Forall_app; auto. }
    apply (ni_lang _ _ _ _ HI i y r Hi Hr). rewrite map_app. eapply path_trans; eauto.
Qed.

Lemma matched_path : forall u u', Forall valid_char (u ++ u') -> (exists r, In r rules /\ rule_matches r (u ++ u')) ->
  exists x, path E 0 (map (idx al) u) x.
Proof.
  intros u u' Hv [r [Hr Hm]]. destruct pipeline_inv as [accs HI].
  apply rule_lang in Hm; auto. apply In_nth_error in Hr. destruct Hr as [i Hi].
  destruct (nth_error_ex _ accs i) as [x Hx].
  { rewrite (ni_len _ _ _ _ HI). eapply nth_error_lt; eauto. }
  apply (ni_lang _ _ _ _ HI i x r Hx Hi) in Hm. rewrite map_app in Hm. apply path_app_inv in Hm. destruct Hm as [y [H1 _]]. eauto.
Qed.

Lemma pipeline_facts : forall fuel d0 d, powerset_construction fuel g 0 = Ok d0 -> apply_precedence_to_dfa d0 = Ok d ->
  lex_facts rules al d.
Proof.
  intros fuel d0 d Hp Ha.
  destruct (powerset_correct g fuel 0 d0 nfa_entry Hp) as [P1 [P2 [P3 [P4 [P5 [P6 P7]]]]]].
  destruct (apply_precedence_ok d0 d P3 Ha) as [A1 A2].
  assert (L : length (dfa_nodes d0) = length (dfa_nodes d)) by (eapply Forall2_len; eauto).
  assert (R : forall u w v, run (dfa_edges d) u w v <-> run (dfa_edges d0) u w v).
  { intros u w v. split; apply run_incl; intros [[a b] c] Hin; apply A2; auto. }
  destruct (generate_alphabet_spec rules al Hvalid Hgen) as [G1 [G2 G3]].
  constructor; auto.
  - intros u t v v' H1 H2. apply A2 in H1. apply A2 in H2. eauto.
  - lia.
  - intros j t k H. apply A2 in H. apply P3 in H. lia.
  - intros w H. apply R in H. apply nfa_no_return. apply (P7 w [] 0 H (run_nil _ 0)). constructor.
  - intros u u' Hv Hm. destruct (matched_path u u' Hv Hm) as [x Hx].
    destruct (proj2 (P5 (map (idx al) u))) as [k Hk]; [eauto|]. exists k. apply R. auto.
  - intros Hpr u k Hu Hr. apply R in Hr. destruct (proj1 (P5 (map (idx al) u))) as [x Hx]; [eauto|].
    eapply path_viable; eauto.
  - intros u k Hu Hr. apply R in Hr. destruct (P6 _ _ Hr) as [c [s [Q1 [Q2 [Q3 Q4]]]]].
    pose proof (accepts_text u c Hu Q1 Q2) as HF.
    assert (Hrel : exists s', nth_error (dfa_nodes d) k = Some s' /\ relabel s s').
    { clear - A1 Q3. revert k Q3. induction A1; intros [|k] Q; try discriminate; simpl in *; eauto. injection Q as ->. eauto. }
    destruct Hrel as [s' [Hs' Hrel]]. unfold node_ok in Q4. destruct (accepts_of g c) as [|a l] eqn:Ea.
    + destruct Q4 as [m ->]. destruct Hrel as [m' ->]. left. exists m'. split; auto.
      intros [r [Hr1 Hr2]]. apply (filtered_In _ _ _ _ HF r). auto.
    + subst s. destruct Hrel as [r [Hres ->]]. right. exists r. split; auto.
      assert (Hpn : forall r0, In r0 (a :: l) -> exists n, @rule_precedence lex_err r0 = Ok n).
      { unfold resolve_precedence in Hres. inv_bind Hres. apply res_list_ok in Hb. clear - Hb.
        intros r0 Hr0. induction Hb; [destruct Hr0|]. destruct Hr0 as [<-|Hr0]; eauto. }
      destruct (resolve_cases (a :: l)) as [h [tied [_ [_ [_ [[r' [_ [Hr' Hsm]]]|[_ Hx]]]]]]]; auto; [discriminate| |].
      * rewrite Hr' in Hres. injection Hres as <-. eapply sole_best; eauto.
      * rewrite Hx in Hres. discriminate.
  - intros k Hk. destruct (P4 k) as [w Hw]; [lia|].
    assert (Hl : Forall (fun t => t < length al) w).
    { destruct (proj1 (P5 w)) as [x Hx]; [eauto|]. eapply path_labels; eauto. }
    destruct (labels_word w Hl) as [u [Hu ->]]. exists u. split; auto. apply R. auto.
Qed.

(** Success or failure of relabelling, in terms of texts. *)
Lemma pipeline_result : (forall r, In r rules -> exists n, has_precedence r n) ->
  forall fuel d0, powerset_construction fuel g 0 = Ok d0 ->
  ((exists d, apply_precedence_to_dfa d0 = Ok d) /\ forall u h tied, Forall valid_char u -> ~ tie rules u h tied) \/
  (exists u h tied, Forall valid_char u /\ tie rules u h tied /\
     apply_precedence_to_dfa d0 = Err (PrecedenceError tied h)).
Proof.
  intros Hprec fuel d0 Hp.
  destruct (powerset_correct g fuel 0 d0 nfa_entry Hp) as [P1 [P2 [P3 [P4 [P5 [P6 P7]]]]]].
  assert (Hlab : forall k, k < length (dfa_nodes d0) -> exists u c s, Forall valid_char u /\ run (dfa_edges d0) 0 (map (idx al) u) k /\
     filtered (fun r => rule_matches r u) rules (accepts_of g c) /\ nth_error (dfa_nodes d0) k = Some s /\ node_ok g c s).
  { intros k Hk. destruct (P4 k Hk) as [w Hw].
    assert (Hl : Forall (fun t => t < length al) w).
    { destruct (proj1 (P5 w)) as [x Hx]; [eauto|]. eapply path_labels; eauto. }
    destruct (labels_word w Hl) as [u [Hu ->]]. destruct (P6 _ _ Hw) as [c [s [Q1 [Q2 [Q3 Q4]]]]].
    exists u, c, s. split; auto. split; auto. split; auto. apply accepts_text; auto. }
  assert (Hacc : forall k sel, nth_error (dfa_nodes d0) k = Some (Accepting sel) -> sel <> [] /\
     (forall r, In r sel -> exists n, @rule_precedence lex_err r = Ok n) /\
     exists u, Forall valid_char u /\ filtered (fun r => rule_matches r u) rules sel).
  { intros k sel Hk. destruct (Hlab k) as [u [c [s [Hu [_ [HF [Hs Hn]]]]]]]; [eapply nth_error_lt; eauto|].
    rewrite Hs in Hk. injection Hk as ->. unfold node_ok in Hn. destruct (accepts_of g c) as [|a l] eqn:Ea.
    - destruct Hn as [m Hm]. discriminate.
    - injection Hn as ->. split; [discriminate|]. split; [|eauto].
      intros r Hr. destruct (Hprec r) as [n0 Hn0]; [|exists n0; apply prec_iff; exact Hn0]. apply (filtered_In _ _ _ _ HF). auto. }
  assert (Htie : forall u sel h tied, filtered (fun r => rule_matches r u) rules sel ->
     filtered (fun r => @rule_precedence lex_err r = Ok h) sel tied ->
     (forall r, In r sel -> exists n, @rule_precedence lex_err r = Ok n /\ (n <= h)%N) -> 2 <= length tied -> tie rules u h tied).
  { intros u sel h tied F1 F2 Hmax Hlen. split; [|split; auto].
    - pose proof (filtered_trans _ _ _ _ _ _ F1 F2) as F3. eapply filtered_ext; [|exact F3].
      intros r _. simpl. split; intros [Q1 Q2]; split; auto; eapply prec_iff; eauto.
    - intros r Hr Hm. destruct (Hmax r) as [n [Q1 Q2]]; [apply (filtered_In _ _ _ _ F1); auto|].
      exists n. split; auto. eapply prec_iff; eauto. }
  destruct (apply_precedence_cases d0 P3) as [[d Hd]|[k [sel [e [Hk [Hre Hae]]]]]].
  { intros k sel Hk. destruct (Hacc k sel Hk) as [Q1 [Q2 _]]. auto. }
  - left. split; [eauto|]. intros u h tied Hu [T1 [T2 T3]].
    (* the state reached by [u] would be in conflict *)
    destruct tied as [|t1 [|t2 tied]]; [simpl in T2; lia|simpl in T2; lia|].
    assert (Ht1 : In t1 rules /\ rule_matches t1 u /\ has_precedence t1 h).
    { apply (filtered_In _ _ _ _ T1). left; auto. }
    destruct (matched_path u []) as [x Hx].
    { rewrite app_nil_r. auto. }
    { exists t1. rewrite app_nil_r. tauto. }
    destruct (proj2 (P5 (map (idx al) u))) as [k Hk]; [eauto|].
    destruct (P6 _ _ Hk) as [c [s [Q1 [Q2 [Q3 Q4]]]]]. pose proof (accepts_text u c Hu Q1 Q2) as HF.
    unfold node_ok in Q4. destruct (accepts_of g c) as [|a l] eqn:Ea.
    { apply (filtered_In _ _ _ _ HF t1). tauto. }
    subst s. destruct (apply_precedence_ok d0 d P3 Hd) as [A1 _].
    assert (Hrel : exists s', relabel (Accepting (a :: l)) s').
    { clear - A1 Q3. revert k Q3. induction A1; intros [|k] Q; try discriminate; simpl in Q; eauto. injection Q as ->. eauto. }
    destruct Hrel as [s' [r [Hres _]]].
    destruct (Hacc k _ Q3) as [B1 [B2 _]].
    destruct (resolve_cases (a :: l) B1 B2) as [h' [tied' [C1 [C2 [C3 [[r' [Et [Hr' Hsm]]]|[Hlen Hx']]]]]]].
    + (* unique maximum contradicts the tie *)
      assert (h' = h).
      { assert (In t1 (a :: l)) by (apply (filtered_In _ _ _ _ HF); tauto). destruct (C3 t1 H) as [n [N1 N2]].
        assert (n = h). { destruct Ht1 as [_ [_ Ht1]]. apply (prec_iff lex_err) in Ht1. congruence. } subst n.
        assert (Hr'in : In r' (a :: l) /\ @rule_precedence lex_err r' = Ok h').
        { apply (filtered_In _ _ _ _ C1). rewrite Et. left; auto. }
        destruct Hr'in as [R1 R2]. apply (filtered_In _ _ _ _ HF) in R1. destruct R1 as [R1 R3].
        destruct (T3 r' R1 R3) as [n' [N3 N4]]. apply (prec_iff lex_err) in N3. rewrite R2 in N3. injection N3 as <-. lia. }
      subst h'. pose proof (filtered_trans _ _ _ _ _ _ HF C1) as F3.
      assert (F4 : filtered (fun r => rule_matches r u /\ @rule_precedence lex_err r = Ok h) rules (t1 :: t2 :: tied)).
      { eapply filtered_ext; [|exact T1]. intros r0 _. split; intros [Z1 Z2]; split; auto; eapply prec_iff; eauto. }
      assert (U : forall A (P : A -> Prop) l s s', filtered P l s -> filtered P l s' -> s = s').
      { clear. intros A P l s s' H. revert s'. induction H; intros s' H'; inversion H'; subst; auto; try tauto. f_equal. auto. }
      pose proof (U _ _ _ _ _ F3 F4) as HU. rewrite Et in HU. discriminate.
    + rewrite Hx' in Hres. discriminate.
  - right. destruct (Hacc k sel Hk) as [B1 [B2 [u [Hu HF]]]].
    destruct (resolve_cases sel B1 B2) as [h' [tied' [C1 [C2 [C3 [[r' [Et [Hr' Hsm]]]|[Hlen Hx']]]]]]].
    + rewrite Hr' in Hre. discriminate.
    + exists u, h', tied'. split; auto. split; [eapply Htie; eauto|]. rewrite Hae. rewrite Hx' in Hre. congruence.
Qed.

End Pipeline.

Lemma generate_lexer_facts : forall fuel rules al d, valid_rules rules -> no_empty_sequence rules ->
  generate_lexer fuel rules = Ok (al, d) -> lex_facts rules al d.
Proof.
  intros fuel rules al d Hv Hn H. unfold generate_lexer in H. inv_bind H. rename a into al0. inv_bind H. destruct a as [st g].
  inv_bind H. inv_bind H. injection H as <- <-.
  destruct (generate_nfa_spec al0) with (rules := rules) (start := st) (g := g) as [-> _]; auto.
  { eapply pipeline_al; eauto. }
  { intros r Hr. eapply rules_known; eauto. }
  eapply pipeline_facts; eauto.
Qed.

(** Every outcome of lexer generation. *)
Lemma generate_lexer_result : forall rules, valid_rules rules -> no_empty_sequence rules ->
  (forall r, In r rules -> ~ bad_repetition (rule_pattern r)) ->
  (forall r, In r rules -> exists n, has_precedence r n) ->
  exists fuel0, forall fuel, fuel0 <= fuel ->
  ((exists al d, generate_lexer fuel rules = Ok (al, d)) /\ forall u h tied, Forall valid_char u -> ~ tie rules u h tied) \/
  (exists u h tied, Forall valid_char u /\ tie rules u h tied /\
     generate_lexer fuel rules = Err (PrecedenceError tied h)).
Proof.
  intros rules Hv Hn Hbad Hprec. unfold generate_lexer.
  destruct (generate_alphabet_total rules) as [al Hal]. rewrite Hal. cbn [bind].
  pose proof (pipeline_al rules Hv al Hal) as Hc.
  destruct (generate_nfa_total al rules Hc) as [[Hex _]|[_ [[st g] Hg]]].
  { intros r Hr. eapply rules_known; eauto. }
  { apply Exists_exists in Hex. destruct Hex as [r [Hr Hb]]. exfalso. eapply Hbad; eauto. }
  rewrite Hg. cbn [bind].
  destruct (generate_nfa_spec al Hc) with (rules := rules) (start := st) (g := g) as [-> _]; auto.
  { intros r Hr. eapply rules_known; eauto. }
  exists (2 ^ length (nfa_nodes g) + length (nfa_nodes g) + 1). intros fuel Hf.
  destruct (powerset_total g) with (entry := 0) (fuel := fuel) as [d0 Hd0]; auto.
  { eapply nfa_bounds; eauto. }
  { eapply nfa_entry; eauto. }
  rewrite Hd0. cbn [bind].
  destruct (pipeline_result rules Hv Hn al Hal g Hg Hprec fuel d0 Hd0) as [[[d Hd] Ht]|[u [h [tied [Hu [Ht He]]]]]].
  - left. rewrite Hd. cbn [bind]. eauto.
  - right. exists u, h, tied. rewrite He. auto.
Qed.

Lemma generate_lexer_mono : forall f f' rules r, f <= f' -> generate_lexer f rules = Ok r -> generate_lexer f' rules = Ok r.
Proof.
  intros f f' rules r Hle H. unfold generate_lexer in *. inv_bind H. rewrite Hb. cbn [bind]. inv_bind H. rewrite Hb0. cbn [bind].
  destruct a0 as [st g]. inv_bind H. rewrite (powerset_mono g _ _ _ _ Hle Hb1). exact H.
Qed.
