(** Consequences for [Grammar::from_rule_set]: language, errors, numbering, provenance of rules. *)
From Coq Require Import String Ascii List Arith NArith Bool Lia.
From Verif Require Import Base InputModel GrammarModel GrammarSpec GrammarNamesProof GrammarProof GrammarBuildProof.
From Coq Require Import FinFun.
Import ListNotations.

Lemma from_rule_set_built : forall rs g, from_rule_set rs = Ok g -> exists b als, grammar_built rs b g als.
Proof. intros rs g H. pose proof (from_rule_set_outcome rs) as X. rewrite H in X. apply X. Qed.

Lemma language_ok : forall rs g, small rs -> from_rule_set rs = Ok g ->
  forall ts, ebnf rs (QRule (rs_entry rs)) ts <->
    exists w, derives (g_rules g) [g_entry g] w /\ Forall2 (token_named g) w ts.
Proof. intros rs g Hs H. destruct (from_rule_set_built _ _ H) as (b & als & B). eapply built_language; eauto. Qed.

Lemma grammar_wf : forall rs g, from_rule_set rs = Ok g -> wf_grammar g.
Proof. intros rs g H. destruct (from_rule_set_built _ _ H) as (b & als & B). eapply built_wf; eauto. Qed.

(** ** Errors *)

Lemma conflict_iff : forall rs, (exists x y, clash rs x y) <-> exists x y, clash rs x y /\ from_rule_set rs = Err (ConflictingRules [x; y]).
Proof.
  intros rs. split.
  - intros (x & y & H). pose proof (from_rule_set_outcome rs) as X.
    destruct (from_rule_set rs) as [g|e| |].
    + destruct X as ((b & als & [Hs _ _]) & _). elim (clash_none _ _ Hs _ _ H).
    + destruct X as [(x' & y' & Hc & ->)|(Hn & _)]; [eauto|elim (Hn _ _ H)].
    + destruct X as [Hn _]. elim (Hn _ _ H).
    + elim X.
  - intros (x & y & H & _). eauto.
Qed.

Lemma ok_iff : forall rs, (exists g, from_rule_set rs = Ok g) <->
  (forall x y, ~ clash rs x y) /\ (forall n, ~ missing rs n) /\ enough_indices rs.
Proof.
  intros rs. pose proof (from_rule_set_outcome rs) as X. split.
  - intros [g H]. rewrite H in X. destruct X as ((b & als & [Hs _ _]) & Hm & He). split; [apply (clash_none _ _ Hs)|auto].
  - intros (Hc & Hm & He). destruct (from_rule_set rs) as [g|e| |].
    + eauto.
    + destruct X as [(x & y & H & _)|(_ & _ & n & H & _)]; [elim (Hc _ _ H)|elim (Hm _ H)].
    + destruct X as (_ & [[_ H]|H]); [|contradiction]. elim (Hm (rs_entry rs)). right. split; auto.
      intros i (r & Hr & _). rewrite H in Hr. destruct i; discriminate.
    + elim X.
Qed.

Lemma missing_error : forall rs, (forall x y, ~ clash rs x y) -> (rs_tokens rs <> [] \/ rs_prods rs <> []) ->
  enough_indices rs -> (exists n, missing rs n) -> exists n, missing rs n /\ from_rule_set rs = Err (MissingSymbol n).
Proof.
  intros rs Hc Hne He (n & Hn). pose proof (from_rule_set_outcome rs) as X.
  destruct (from_rule_set rs) as [g|e| |].
  - destruct X as (_ & Hm & _). elim (Hm _ Hn).
  - destruct X as [(x & y & H & _)|(_ & _ & m & H & ->)]; [elim (Hc _ _ H)|eauto].
  - destruct X as (_ & [[H1 H2]|H]); [|contradiction]. destruct Hne; contradiction.
  - elim X.
Qed.

Lemma panic_cases : forall rs, (forall x y, ~ clash rs x y) -> (forall n, ~ missing rs n) -> ~ enough_indices rs ->
  from_rule_set rs = Panic.
Proof.
  intros rs Hc Hm He. pose proof (from_rule_set_outcome rs) as X.
  destruct (from_rule_set rs) as [g|e| |]; auto.
  - destruct X as (_ & _ & H). contradiction.
  - destruct X as [(x & y & H & _)|(_ & _ & n & H & _)]; [elim (Hc _ _ H)|elim (Hm _ H)].
  - elim X.
Qed.

Lemma empty_panics : forall rs, rs_tokens rs = [] -> rs_prods rs = [] -> from_rule_set rs = Panic.
Proof. intros [e t p] H1 H2. simpl in *. subst. reflexivity. Qed.

Lemma outcome_only : forall rs,
  match from_rule_set rs with
  | Ok _ => True
  | Err (ConflictingRules l) => exists x y, l = [x; y] /\ clash rs x y
  | Err (MissingSymbol n) => missing rs n
  | Err _ => False
  | Panic => (rs_tokens rs = [] /\ rs_prods rs = []) \/ ~ enough_indices rs
  | OutOfFuel => False
  end.
Proof.
  intros rs. pose proof (from_rule_set_outcome rs) as X. destruct (from_rule_set rs) as [g|e| |]; auto.
  - destruct X as [(x & y & H & ->)|(_ & _ & n & H & ->)]; eauto.
  - apply X.
Qed.

(** ** Numbering *)

Lemma token_numbers : forall rs g, small rs -> from_rule_set rs = Ok g -> forall t name,
  token_named g t name <-> exists i, t = N.of_nat i /\ token_at rs i name.
Proof.
  intros rs g [Hst Hsp] H. destruct (from_rule_set_built _ _ H) as (b & als & [Hs (b' & B & Er & Et & Ep & Ea & Hrun) _]).
  intros t name. unfold token_named. rewrite Et. split.
  - intros Hin. destruct (so_tok _ _ Hs _ _ Hin) as (i & Hi & E). injection E as ->. exists i. split; auto.
    apply as_u16_small. apply tok_at_lt in Hi. lia.
  - intros (i & -> & Hi). apply (so_toknames _ _ Hs); auto.
Qed.

Lemma token_unique : forall rs g, from_rule_set rs = Ok g -> forall i j name, token_at rs i name -> token_at rs j name -> i = j.
Proof.
  intros rs g H. destruct (from_rule_set_built _ _ H) as (b & als & [Hs _ _]). apply (so_tinj _ _ Hs).
Qed.

Lemma production_numbers : forall rs g, small rs -> from_rule_set rs = Ok g -> forall j name,
  In (NonTerminal j, name) (g_prods g) <-> exists i, j = N.of_nat i /\ first_prod_at rs i name.
Proof.
  intros rs g [Hst Hsp] H. destruct (from_rule_set_built _ _ H) as (b & als & [Hs (b' & B & Er & Et & Ep & Ea & Hrun) _]).
  intros t name. rewrite Ep. split.
  - intros Hin. destruct (so_prd _ _ Hs _ _ Hin) as (i & Hi & E). injection E as ->. exists i. split; auto.
    apply as_u16_small. destruct Hi as [Hi _]. apply prd_at_lt in Hi. lia.
  - intros (i & -> & Hi). apply (so_prdnames _ _ Hs); auto.
Qed.

Lemma anon_fresh : forall rs g, from_rule_set rs = Ok g ->
  NoDup (g_anon g) /\ N.of_nat (length (g_anon g)) = total_operators rs /\
  forall s, In s (g_anon g) -> ~ In s (map fst (g_prods g)).
Proof.
  intros rs g H. pose proof (grammar_wf _ _ H) as W.
  destruct (from_rule_set_built _ _ H) as (b & als & [Hs (b' & B & Er & Et & Ep & Ea & Hrun) _]).
  pose proof (bu_inv _ _ _ _ B) as I. split; [rewrite Ea; apply (bi_nodup _ I)|]. split.
  - change (total_operators rs) with (ops_of (rs_prods rs)). rewrite Ea, <- (bu_temp _ _ _ _ B).
    set (k := b_temp b'). set (m := b_max b').
    assert (L : length (b_anon b') = length (map (fun i => NonTerminal (m + 1 + N.of_nat i)) (seq 0 (N.to_nat k)))).
    { apply Nat.le_antisymm; apply NoDup_incl_length.
      - apply (bi_nodup _ I).
      - intros s Hin. apply (bi_anon _ I) in Hin. destruct Hin as (i & -> & Hr). apply in_map_iff.
        exists (N.to_nat (i - m - 1)). split; [f_equal; unfold m; lia|]. apply in_seq. unfold k, m. lia.
      - apply Injective_map_NoDup; [|apply seq_NoDup]. intros x y E. injection E as E. lia.
      - intros s Hin. apply in_map_iff in Hin. destruct Hin as (i & <- & Hi). apply in_seq in Hi.
        apply (bi_anon _ I). eexists. split; [reflexivity|]. fold m k. lia. }
    rewrite L, map_length, seq_length. lia.
  - pose proof (wf_symbols _ W) as ND. unfold all_symbols, non_terminals in ND. intros s H1 H2.
    assert (ND' : NoDup (map fst (g_prods g) ++ g_anon g)).
    { clear - ND. induction (terminals g) as [|x l IH]; simpl in ND; auto. inversion ND; auto. }
    clear ND. rename ND' into ND. revert ND H1 H2. clear. generalize (map fst (g_prods g)) as l. intros l.
    induction l as [|x l IH]; simpl; intros ND H1 H2; [auto|]. inversion ND; subst. destruct H2 as [<-|H2]; [|auto].
    apply H3. apply in_or_app; auto.
Qed.

(** ** Provenance *)

Definition keeps (parent : prod_rule) (b b' : builder) : Prop :=
  exists new, b_rules b' = b_rules b ++ new /\ Forall (fun r => r_prod r = parent) new.

Lemma keeps_refl : forall p b, keeps p b b.
Proof. intros p b. exists []. split; [symmetry; apply app_nil_r|constructor]. Qed.
Lemma keeps_trans : forall p a b c, keeps p a b -> keeps p b c -> keeps p a c.
Proof.
  intros p a b c (n1 & E1 & F1) (n2 & E2 & F2). exists (n1 ++ n2). split; [rewrite E2, E1, app_assoc; auto|apply Forall_app; auto].
Qed.
Lemma keeps_temp : forall p b s b', get_temp_symbol b = Ok (s, b') -> keeps p b b'.
Proof.
  intros p b s b' H. unfold get_temp_symbol in H. inv_bind H. inv_bind H. inv_bind H. injection H as <- <-.
  exists []. simpl. split; [symmetry; apply app_nil_r|constructor].
Qed.
Lemma keeps_push : forall p b s al b', push_rule b s al p = Ok b' -> keeps p b b'.
Proof.
  intros p b s al b' H. unfold push_rule in H. inv_bind H. injection H as <-. unfold rule_new in Hb. destruct s; try discriminate.
  injection Hb as <-. eexists. simpl. split; [reflexivity|repeat constructor].
Qed.

Lemma transform_keeps : forall parent p b al b', transform_pattern parent p b = Ok (al, b') -> keeps parent b b'.
Proof.
  intros parent. induction p as [l IH|l IH|q IH|q IH|q IH|n|] using prod_pattern_ind'; intros b al b' H; cbn [transform_pattern] in H.
  - revert b al b' H. induction IH as [|p l Hp Hl IHl]; intros b al b' H; cbn [map transform_seq] in H.
    + injection H as <- <-. apply keeps_refl.
    + inv_bind H. destruct a as [s1 b1]. inv_bind H. destruct a as [s2 b2]. injection H as <- <-.
      eapply keeps_trans; eauto.
  - inv_bind H. destruct a as [s b1]. inv_bind H. injection H as <- <-. rename a into b2.
    eapply keeps_trans; [eapply keeps_temp; eauto|]. clear Hb.
    revert b1 b2 Hb0. induction IH as [|p l Hp Hl IHl]; intros b1 b2 H; cbn [map transform_alts] in H.
    + injection H as <-. apply keeps_refl.
    + inv_bind H. destruct a as [s1 b3]. inv_bind H. eapply keeps_trans; [eapply Hp; eauto|].
      eapply keeps_trans; [eapply keeps_push; eauto|]. eauto.
  - inv_bind H. destruct a as [s b1]. inv_bind H. destruct a as [a b2]. inv_bind H. inv_bind H. injection H as <- <-.
    eapply keeps_trans; [eapply keeps_temp; eauto|]. eapply keeps_trans; [eauto|].
    eapply keeps_trans; eapply keeps_push; eauto.
  - inv_bind H. destruct a as [s b1]. inv_bind H. destruct a as [a b2]. inv_bind H. inv_bind H. injection H as <- <-.
    eapply keeps_trans; [eapply keeps_temp; eauto|]. eapply keeps_trans; [eauto|].
    eapply keeps_trans; eapply keeps_push; eauto.
  - inv_bind H. destruct a as [s b1]. inv_bind H. destruct a as [a b2]. inv_bind H. inv_bind H. injection H as <- <-.
    eapply keeps_trans; [eapply keeps_temp; eauto|]. eapply keeps_trans; [eauto|].
    eapply keeps_trans; eapply keeps_push; eauto.
  - inv_bind H. injection H as <- <-. apply keeps_refl.
  - injection H as <- <-. apply keeps_refl.
Qed.

Definition low (m : N) (r : rule) : bool := match r_lhs r with Some i => (i <=? m)%N | None => false end.

Lemma rules_provenance : forall b0, binv b0 -> b_temp b0 = 0%N -> b_rules b0 = [] -> forall l b,
  (forall p, In p l -> exists j, lk b0 (pr_name p) = Some (NonTerminal j) /\ (j <= b_max b0)%N) ->
  foldM add_production_rule l b0 = Ok b ->
  map r_prod (filter (low (b_max b0)) (b_rules b)) = l /\
  (forall r, In r (b_rules b) -> In (r_prod r) l) /\
  (forall r, In r (b_rules b) -> low (b_max b0) r = true -> exists i, r_lhs r = Some i /\ lk b0 (pr_name (r_prod r)) = Some (NonTerminal i)).
Proof.
  intros b0 HB0 Ht0 Hr0. induction l as [|p l IH] using rev_ind; intros b' Hnames H.
  - simpl in H. injection H as <-. rewrite Hr0. simpl. split; auto. split; [intros r []|intros r []].
  - assert (Hn' : forall p, In p l -> exists j, lk b0 (pr_name p) = Some (NonTerminal j) /\ (j <= b_max b0)%N).
    { intros q Hq. apply Hnames. apply in_or_app; auto. }
    rewrite foldM_app in H. inv_bind H. rename a into b. cbn [foldM] in H. inv_bind H. injection H as ->.
    specialize (IH b Hn' Hb). destruct IH as (I1 & I2 & I3).
    pose proof (add_rules_ok b0 HB0 Ht0 Hr0 l Hn') as X. rewrite Hb in X. destruct X as (als & B).
    unfold add_production_rule in Hb0. inv_bind Hb0. rename a into s. inv_bind Hb0. destruct a as [al b1].
    unfold get_symbol_by_name in Hb1. fold (lk b (pr_name p)) in Hb1.
    assert (Elk : forall n, lk b n = lk b0 n) by (intros n; unfold lk; destruct (bu_same _ _ _ _ B) as (-> & _); auto).
    destruct (Hnames p) as (j & Hj & Hjm); [apply in_or_app; simpl; auto|].
    rewrite Elk, Hj in Hb1. injection Hb1 as <-.
    destruct (transform_keeps _ _ _ _ _ Hb2) as (new & En & Fn).
    pose proof (transform_ok p (pr_pattern p) b (bu_inv _ _ _ _ B)) as HT. rewrite Hb2 in HT.
    destruct HT as (_ & new' & S & L & _). assert (new' = new) by (pose proof (sp_rules _ _ _ _ S) as E; rewrite En in E; eapply app_inv_head; eauto). subst new'.
    unfold push_rule in Hb0. cbn [rule_new bind] in Hb0. injection Hb0 as <-. cbn [b_rules]. rewrite En.
    assert (Hnone : filter (low (b_max b0)) new = []).
    { assert (Hall : forall r, In r new -> low (b_max b0) r = false).
      { intros r Hr. destruct (L r Hr) as (i & Hi & Hc). unfold low. rewrite Hi. apply N.leb_gt. unfold created in Hc.
        destruct (bu_same _ _ _ _ B) as (_ & Em & _). rewrite Em in Hc. lia. }
      clear - Hall. induction new as [|r new IH]; simpl; auto. rewrite (Hall r) by (left; auto). apply IH. intros x Hx. apply Hall. right; auto. }
    split; [|split].
    + rewrite !filter_app, !map_app, I1, Hnone. simpl. unfold low. simpl.
      destruct (j <=? b_max b0)%N eqn:E; [simpl; rewrite app_nil_r; auto|apply N.leb_gt in E; lia].
    + intros r Hr. rewrite !in_app_iff in Hr. apply in_or_app. destruct Hr as [[Hr|Hr]|[<-|[]]]; auto.
      * rewrite Forall_forall in Fn. right. left. symmetry. auto.
      * right. left. auto.
    + intros r Hr Hlow. rewrite !in_app_iff in Hr. destruct Hr as [[Hr|Hr]|[<-|[]]]; auto.
      * exfalso. assert (Hin : In r (filter (low (b_max b0)) new)) by (apply filter_In; auto). rewrite Hnone in Hin. elim Hin.
      * exists j. auto.
Qed.


Lemma provenance : forall rs g, from_rule_set rs = Ok g ->
  map r_prod (filter (named_rule g) (g_rules g)) = rs_prods rs /\
  (forall r, In r (g_rules g) -> In (r_prod r) (rs_prods rs)).
Proof.
  intros rs g H. destruct (from_rule_set_built _ _ H) as (b & als & [Hs (b' & B & Er & Et & Ep & Ea & Hrun) (pe & Hf & He & Hrule)]).
  destruct (rules_provenance b (start_binv _ _ Hs) (so_temp _ _ Hs) (so_rules _ _ Hs) (rs_prods rs) b' (start_prod _ _ Hs) Hrun) as (P1 & P2 & P3).
  rewrite Er. split; auto. transitivity (map r_prod (filter (low (b_max b)) (b_rules b'))); [|exact P1]. f_equal. apply filter_ext_in. intros r Hr.
  destruct (bu_lhs _ _ _ _ B r Hr) as (i & Hi & Hc). unfold named_rule, low in *. rewrite Hi, Ep.
  destruct (i <=? b_max b)%N eqn:E.
  - destruct (P3 r Hr) as (i' & Hi' & Hl); [rewrite Hi; auto|]. assert (i' = i) by congruence. subst i'.
    unfold lk in Hl. apply (so_get _ _ Hs) in Hl. destruct Hl as [(k & _ & X)|(k & Hk & X)]; [discriminate|]. injection X as ->.
    apply map_mem_In; [apply (so_psorted _ _ Hs)|]. eapply so_prdkeys; eauto.
  - apply N.leb_gt in E. destruct (map_mem (NonTerminal i) (b_prods b)) eqn:M; auto. exfalso.
    apply map_mem_In in M; [|apply (so_psorted _ _ Hs)]. apply in_map_iff in M. destruct M as ((s & name) & X1 & X2). simpl in X1. subst s.
    destruct (so_prd _ _ Hs _ _ X2) as (k & Hk & Y). injection Y as ->.
    assert (Hin : introduces rs k) by (right; eauto). pose proof (so_max_ub _ _ Hs k Hin). lia.
Qed.

Lemma named_lhs : forall rs g, small rs -> from_rule_set rs = Ok g -> forall r, In r (g_rules g) -> named_rule g r = true ->
  exists i, r_lhs r = Some i /\ In (NonTerminal i, pr_name (r_prod r)) (g_prods g).
Proof.
  intros rs g Hsm H r Hr Hn.
  destruct (from_rule_set_built _ _ H) as (b & als & [Hs (b' & B & Er & Et & Ep & Ea & Hrun) (pe & Hf & He & Hrule)]).
  destruct (rules_provenance b (start_binv _ _ Hs) (so_temp _ _ Hs) (so_rules _ _ Hs) (rs_prods rs) b' (start_prod _ _ Hs) Hrun) as (P1 & P2 & P3).
  rewrite Er in Hr. unfold named_rule in Hn. destruct (r_lhs r) as [i|] eqn:Hi; [|discriminate].
  rewrite Ep in Hn. apply map_mem_In in Hn; [|apply (so_psorted _ _ Hs)]. apply in_map_iff in Hn. destruct Hn as ((s & name) & X1 & X2). simpl in X1. subst s.
  destruct (so_prd _ _ Hs _ _ X2) as (k & Hk & Y). injection Y as ->.
  assert (Hin : introduces rs k) by (right; eauto). pose proof (so_max_ub _ _ Hs k Hin) as Hle.
  destruct (P3 r Hr) as (i' & Hi' & Hl); [unfold low; rewrite Hi; apply N.leb_le; auto|].
  assert (i' = as_u16 (N.of_nat k)) by congruence. subst i'. exists (as_u16 (N.of_nat k)). split; auto.
  unfold lk in Hl. apply (so_get _ _ Hs) in Hl. destruct Hl as [(k' & _ & X)|(k' & Hk' & X)]; [discriminate|]. injection X as X.
  apply (production_numbers _ _ Hsm H). exists k'. split; auto. rewrite X. apply as_u16_small.
  destruct Hsm as [_ Hsp]. destruct Hk' as [Hk' _]. apply prd_at_lt in Hk'. lia.
Qed.

(** ** More than 65536 tokens *)

Fixpoint many_a (k : nat) : string := match k with O => EmptyString | S k => String "a" (many_a k) end.
Definition tname (k : nat) : string := String "t" (many_a k).
Definition wrap_count : nat := N.to_nat 65537.
Definition wrap_rules : rule_set :=
  mkRuleSet "s"
    (map (fun k => mkTokenRule (tname k) None (TLiteral [97%N])) (seq 0 wrap_count))
    [mkProdRule "s" None (QRule (tname 0)); mkProdRule "u" None (QRule (tname (N.to_nat 65536)))].

Lemma many_a_inj : forall j k, many_a j = many_a k -> j = k.
Proof. induction j as [|j IH]; intros [|k] H; simpl in H; try discriminate; auto. injection H as H. auto. Qed.
Lemma tname_inj : forall j k, tname j = tname k -> j = k.
Proof. intros j k H. injection H as H. apply many_a_inj; auto. Qed.

Lemma nth_error_seq : forall n a i, (i < n)%nat -> nth_error (seq a n) i = Some (a + i)%nat.
Proof.
  induction n as [|n IH]; intros a i Hi; [lia|]. destruct i as [|i]; simpl; [f_equal; lia|]. rewrite IH by lia. f_equal. lia.
Qed.

Lemma wrap_token_at : forall i name, token_at wrap_rules i name <-> (i < wrap_count)%nat /\ name = tname i.
Proof.
  intros i name. unfold token_at, wrap_rules. cbn [rs_tokens]. split.
  - intros (r & Hr & <-). assert (Hi : (i < wrap_count)%nat).
    { apply nth_error_lt in Hr. rewrite map_length, seq_length in Hr. auto. }
    split; auto. rewrite (map_nth_error _ _ _ (nth_error_seq wrap_count 0 i Hi)) in Hr. injection Hr as <-. auto.
  - intros (Hi & ->). eexists. split; [apply (map_nth_error _ _ _ (nth_error_seq wrap_count 0 i Hi))|auto].
Qed.
Lemma wrap_prod_at : forall i name, prod_at wrap_rules i name <-> (i = O /\ name = "s"%string) \/ (i = 1%nat /\ name = "u"%string).
Proof.
  intros i name. unfold prod_at, wrap_rules. cbn [rs_prods]. split.
  - intros (r & Hr & <-). destruct i as [|[|i]]; simpl in Hr; [left|right|destruct i; discriminate]; injection Hr as <-; auto.
  - intros [[-> ->]|[-> ->]]; eexists; (split; [reflexivity|reflexivity]).
Qed.

Lemma wrap_ok : exists g, from_rule_set wrap_rules = Ok g.
Proof.
  apply ok_iff. split; [|split].
  - intros [i|i] [j|j] X; cbn [clash] in X; auto.
    + destruct X as (Hlt & name & Hi & Hj). apply wrap_token_at in Hi, Hj. destruct Hi as [_ Hi], Hj as [_ Hj].
      assert (i = j) by (apply tname_inj; congruence). lia.
    + destruct X as (name & Hi & Hj). apply wrap_token_at in Hi. apply wrap_prod_at in Hj.
      destruct Hi as [_ ->]. destruct Hj as [[_ X]|[_ X]]; discriminate.
  - intros n [(p & Hp & Hm & Hd)|[-> Hd]].
    + apply Hd. left. destruct Hp as [<-|[<-|[]]]; cbn [pr_pattern mentions] in Hm; subst n.
      * exists O. apply wrap_token_at. split; [unfold wrap_count; lia|reflexivity].
      * exists (N.to_nat 65536). apply wrap_token_at. split; [unfold wrap_count; lia|reflexivity].
    + apply (Hd O). apply wrap_prod_at. auto.
  - intros i _. cbn [total_operators wrap_rules rs_prods map fold_right pr_pattern operators].
    pose proof (N.mod_lt (N.of_nat i) 65536). lia.
Qed.

Lemma wrap_shares : exists rs g a b, from_rule_set rs = Ok g /\ is_token rs a /\ is_token rs b /\ a <> b /\
  rs_prods rs = [mkProdRule "s" None (QRule a); mkProdRule "u" None (QRule b)] /\
  In (NonTerminal 0, "s"%string) (g_prods g) /\ In (NonTerminal 1, "u"%string) (g_prods g) /\
  forall w, (derives (g_rules g) [NonTerminal 0] w <-> w = [0%N]) /\ (derives (g_rules g) [NonTerminal 1] w <-> w = [0%N]).
Proof.
  destruct wrap_ok as [g H]. exists wrap_rules, g, (tname 0), (tname (N.to_nat 65536)).
  assert (Hz : tname 0 <> tname (N.to_nat 65536)) by (intros X; apply tname_inj in X; lia).
  assert (T0 : token_at wrap_rules 0 (tname 0)) by (apply wrap_token_at; split; [unfold wrap_count; lia|reflexivity]).
  assert (T1 : token_at wrap_rules (N.to_nat 65536) (tname (N.to_nat 65536))) by (apply wrap_token_at; split; [unfold wrap_count; lia|reflexivity]).
  assert (HT : forall i n, token_at wrap_rules i n -> is_token wrap_rules n).
  { intros i n (r & Hr & Hn). exists r. split; auto. eapply nth_error_In; eauto. }
  split; auto. split; [eapply HT; eauto|]. split; [eapply HT; eauto|]. split; auto. split; [reflexivity|].
  destruct (from_rule_set_built _ _ H) as (b & als & [Hs (b' & B & Er & Et & Ep & Ea & Hrun) _]).
  assert (Hlen : (N.of_nat (length (rs_prods wrap_rules)) <= 65536)%N) by (cbn; lia).
  assert (F0 : first_prod_at wrap_rules 0 "s") by (split; [apply wrap_prod_at; auto|intros; lia]).
  assert (F1 : first_prod_at wrap_rules 1 "u").
  { split; [apply wrap_prod_at; auto|]. intros j Hj X. apply wrap_prod_at in X. destruct X as [[_ X]|[X _]]; [discriminate|lia]. }
  assert (L0 : lk b "s" = Some (NonTerminal 0)) by (apply (so_get _ _ Hs); right; exists O; auto).
  assert (L1 : lk b "u" = Some (NonTerminal 1)) by (apply (so_get _ _ Hs); right; exists 1%nat; auto).
  assert (LT0 : lk b (tname 0) = Some (Terminal 0)) by (apply (so_get _ _ Hs); left; exists O; auto).
  assert (LT1 : lk b (tname (N.to_nat 65536)) = Some (Terminal 0)).
  { apply (so_get _ _ Hs); left; exists (N.to_nat 65536). split; [exact T1|]. rewrite N2Nat.id. reflexivity. }
  split; [rewrite Ep; apply (so_prdnames _ _ Hs Hlen O); auto|].
  split; [rewrite Ep; apply (so_prdnames _ _ Hs Hlen 1%nat); auto|].
  assert (C : Forall2 (fun p al => compiled (g_rules g) (lk b) (pr_pattern p) al) (rs_prods wrap_rules) als).
  { apply (bu_compiled _ _ _ _ B). intros i be Hi. rewrite Er. tauto. }
  cbn [wrap_rules rs_prods] in C. inversion C as [|? a1 ? als' C1 C2]; subst. inversion C2 as [|? a2 ? als'' C3 C4]; subst. inversion C4; subst.
  cbn [pr_pattern compiled] in C1, C3. destruct C1 as (s1 & E1 & ->), C3 as (s2 & E2 & ->).
  change (lk b (tname (N.to_nat 65536)) = Some s2) in E2. rewrite LT0 in E1. rewrite LT1 in E2. injection E1 as <-. injection E2 as <-.
  assert (Hmax : (1 <= b_max b)%N).
  { change 1%N with (as_u16 (N.of_nat 1)). apply (so_max_ub _ _ Hs). right. eauto. }
  assert (Rh : forall j be, (j <= 1)%N -> (rhs_of (g_rules g) j be <-> be = [Terminal 0])).
  { intros j be Hj. rewrite Er. rewrite (bu_named _ _ _ _ B) by lia. cbn [wrap_rules rs_prods]. split.
    - intros (k & p & H1 & H2 & _). destruct k as [|[|k]]; cbn in H1, H2; [congruence|congruence|destruct k; discriminate].
    - intros ->. assert (Hj' : (j = 0 \/ j = 1)%N) by lia. destruct Hj' as [-> | ->].
      + exists O. eexists. split; [reflexivity|]. split; [reflexivity|exact L0].
      + exists 1%nat. eexists. split; [reflexivity|]. split; [reflexivity|exact L1]. }
  assert (D : forall j w, (j <= 1)%N -> (derives (g_rules g) [NonTerminal j] w <-> w = [0%N])).
  { intros j w Hj. split.
    - intros Hd. apply derives_sized in Hd. destruct Hd as [n Hd]. apply nt_inv in Hd. destruct Hd as (m & be & _ & Hb & Hd).
      apply Rh in Hb; auto. subst be. inversion Hd as [| |? ? ? ? Hd'|]; subst. inversion Hd'; subst. auto.
    - intros ->. destruct (Rh j [Terminal 0] Hj) as [_ X]. destruct (X eq_refl) as (r & Hr & Hi & Hrhs).
      change [0%N] with ([0%N] ++ []). econstructor; eauto; [|constructor]. rewrite Hrhs. repeat constructor. }
  intros w. split; apply D; lia.
Qed.

(** ** Boolean checkers for concrete rule sets *)

Definition smallb (rs : rule_set) : bool :=
  (N.of_nat (length (rs_tokens rs)) <=? 65536)%N && (N.of_nat (length (rs_prods rs)) <=? 65536)%N.
Lemma smallb_ok : forall rs, smallb rs = true -> small rs.
Proof. intros rs H. unfold smallb in H. apply andb_true_iff in H. destruct H as [H1 H2]. apply N.leb_le in H1, H2. split; auto. Qed.

(** A production with [k] optional elements needs [k] anonymous non-terminals. *)
Definition many_options (k : nat) : rule_set := mkRuleSet "s" [] [mkProdRule "s" None (QSeq (repeat (QOpt QEps) k))].

Lemma many_options_exhaust : forall k, (65536 <= N.of_nat k)%N ->
  ~ enough_indices (many_options k) /\ (forall x y, ~ clash (many_options k) x y) /\ (forall n, ~ missing (many_options k) n).
Proof.
  intros k Hk.
  assert (Hm : forall k n, ~ fold_right or False (map (fun q => mentions q n) (repeat (QOpt QEps) k))).
  { clear. induction k as [|k IH]; simpl; intros n H; [exact H|]. destruct H as [H|H]; [exact H|exact (IH n H)]. }
  assert (Ho : fold_right N.add 0%N (map operators (repeat (QOpt QEps) k)) = N.of_nat k).
  { clear. induction k as [|k IH]; [reflexivity|]. cbn [repeat map fold_right]. rewrite IH. cbn [operators]. lia. }
  split; [|split].
  - intros H. specialize (H 0%nat). unfold total_operators, many_options in H. cbn [rs_prods map fold_right pr_pattern operators] in H. rewrite Ho in H.
    assert (X : introduces (many_options k) 0).
    { right. exists "s"%string. split; [eexists; split; reflexivity|intros; lia]. }
    specialize (H X). change (N.of_nat 0 mod 65536)%N with 0%N in H. lia.
  - intros [i|i] [j|j] H; cbn [clash] in H; auto.
    + destruct H as (_ & name & (r & Hr & _) & _). destruct i; discriminate.
    + destruct H as (name & (r & Hr & _) & _). destruct i; discriminate.
  - intros n [(p & [<-|[]] & H & _)|[-> H]].
    + cbn [pr_pattern mentions] in H. apply (Hm _ _ H).
    + apply (H 0%nat). eexists. split; reflexivity.
Qed.
