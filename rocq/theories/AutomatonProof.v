(** Facts about the finished state graph. *)
From Coq Require Import String List Arith NArith Bool Lia.
From Verif Require Import Base InputModel GrammarModel GrammarSpec GrammarProof LLModel LLSpec SententialProof SetsProof FirstProof LRModel LRSpec BidiProof ItemProof LRItemsProof LRGraphProof.
Import ListNotations.
Local Open Scope nat_scope.
Local Open Scope list_scope.

Section Automaton.
Variable g : grammar.
Hypothesis wf : wf_grammar g.
Variable n : nat.
Variable fs : symbol_sets.
Hypothesis n_le : n <= 1.
Hypothesis fs_ok : n = 1 -> sets_ok g fs.
Variable lalr : bool.
Variable pg : lr_graph.
Hypothesis au : automaton g n fs lalr pg.

Notation clo := (clo g n fs).
Notation expands := (expands g n fs).
Notation trans := (trans g n fs).
Notation moves := (moves g).
Notation item_ok := (item_ok g n).
Notation all_ok := (all_ok g n).
Notation st := (st pg).
Let gi := au_inv g n fs lalr pg au.

Definition edge (q : nat) (s : symbol) (t : nat) : Prop := In (q, s, t) (lg_edges pg).

Lemma clo_inv : forall y x, clo y x -> x = y \/ exists z, clo y z /\ expands z x.
Proof. intros y x H. destruct H as [|z x H1 H2]; eauto. Qed.

Lemma expands_init : forall z x, expands z x -> exists k, it_rule x = Some k /\ it_dot x = start_dot g k.
Proof. intros z x [s k las la H1 H2 H3 H4]. exists k. auto. Qed.

Lemma edge_det : forall q s t t', edge q s t -> edge q s t' -> t = t'.
Proof.
  intros q s t t' H H'. destruct (gi_edge _ _ _ _ _ gi _ _ _ H) as (S & T & A & B & C & _ & D).
  destruct (gi_edge _ _ _ _ _ gi _ _ _ H') as (S' & T' & A' & B' & C' & _ & D'). assert (S' = S) as -> by congruence.
  destruct lalr eqn:El.
  - assert (lr0_core T = lr0_core T') as E.
    { apply list_same_core. eapply sc_trans; [exact C|]. apply sc_sym. exact C'. }
    assert (map_get (lr0_core T) (lg_cores pg) = Some t) as X1 by (apply (gi_core _ _ _ _ _ gi eq_refl); eauto).
    assert (map_get (lr0_core T) (lg_cores pg) = Some t') as X2 by (apply (gi_core _ _ _ _ _ gi eq_refl); eauto). congruence.
  - assert (T = T') as <-.
    { apply sorted_ext; [apply (gi_sets _ _ _ _ _ gi _ _ B)|apply (gi_sets _ _ _ _ _ gi _ _ B')|]. intros x. rewrite D, D'; tauto. }
    apply (bo_inv _ (gi_map _ _ _ _ _ gi)) in B. apply (bo_inv _ (gi_map _ _ _ _ _ gi)) in B'. congruence.
Qed.

(** Items of the entry rule. *)
Lemma lv_entry_rule : forall q x, lv g n fs pg q x -> it_rule x = None -> q = 0 /\ x = entry_item n.
Proof.
  intros q x H. induction H as [x Hx|p s q it x Hp IH H1 H2 H3 H4]; intros Hr.
  - split; auto. destruct (clo_inv _ _ Hx) as [->|(z & _ & Hz)]; auto. apply expands_init in Hz. destruct Hz as (k & E & _). congruence.
  - exfalso. apply (clo_rule g n fs (adv it) x); auto. simpl. intros E. rewrite E in H2. unfold lhs_of in H2. simpl in H2.
    destruct (wf_entry_rule g wf) as [X _]. congruence.
Qed.

Lemma lv_dot : forall q x k, lv g n fs pg q x -> it_rule x = Some k -> start_dot g k <= it_dot x.
Proof using Type. clear n_le fs_ok.
  intros q x k H. revert k. induction H as [x Hx|p s q it x Hp IH H1 H2 H3 H4]; intros k Hr.
  - destruct (clo_inv _ _ Hx) as [->|(z & _ & Hz)]; [discriminate|]. apply expands_init in Hz. destruct Hz as (k' & E1 & E2). assert (k' = k) by congruence. subst. lia.
  - destruct (clo_inv _ _ H4) as [->|(z & _ & Hz)].
    + simpl in *. apply IH in Hr. lia.
    + apply expands_init in Hz. destruct Hz as (k' & E1 & E2). assert (k' = k) by congruence. subst. lia.
Qed.

Lemma entry_rule_item : forall q S x, st q = Some S -> In x S -> it_rule x = None -> q = 0 /\ x = entry_item n.
Proof. intros q S x H Hx Hr. apply (lv_entry_rule q x); auto. eapply (gi_lv _ _ _ _ _ gi); eauto. Qed.

Lemma item_dot_ge : forall q S x k, st q = Some S -> In x S -> it_rule x = Some k -> start_dot g k <= it_dot x.
Proof using au. clear n_le fs_ok. intros q S x k H Hx Hr. apply (lv_dot q x k); auto. eapply (gi_lv _ _ _ _ _ gi); eauto. Qed.

Lemma no_edge_to_entry : forall q s, ~ edge q s 0.
Proof.
  intros q s H. destruct (gi_edge _ _ _ _ _ gi _ _ _ H) as (S & T & A & B & C & _). destruct (gi_entry _ _ _ _ _ gi) as (S0 & H0 & E0).
  assert (T = S0) as -> by congruence. destruct (proj1 (C (to_lr0 (entry_item n)))) as (y & Hy & Ey).
  - exists (entry_item n). split; auto. apply E0. constructor.
  - apply (trans_rule g wf n fs _ _ _ Hy). apply to_lr0_fields in Ey. apply Ey.
Qed.

(** Where an item of a target state comes from. *)
Lemma edge_back : forall q s t S T x k, edge q s t -> st q = Some S -> st t = Some T -> In x T -> it_rule x = Some k -> start_dot g k < it_dot x ->
  exists it, In it S /\ it_rule it = Some k /\ Datatypes.S (it_dot it) = it_dot x /\ symbol_after_dot g it = Some s /\ (lalr = false -> it_la it = it_la x).
Proof using au. clear n_le fs_ok.
  intros q s t S T x k He HS HT Hx Hk Hd. destruct (gi_edge _ _ _ _ _ gi _ _ _ He) as (S' & T' & A & B & C & _ & D).
  assert (S' = S) as -> by congruence. assert (T' = T) as -> by congruence.
  assert (exists y, trans S s y /\ to_lr0 y = to_lr0 x /\ (lalr = false -> y = x)) as (y & (it & (M1 & M2 & M3) & Hc) & E & L).
  { destruct lalr eqn:El.
    - destruct (proj1 (C (to_lr0 x))) as (y & Hy & Ey); [exists x; auto|]. exists y. split; auto. split; auto. discriminate.
    - exists x. split; auto. apply D; auto. }
  apply to_lr0_fields in E. destruct E as [E1 E2]. destruct (clo_inv _ _ Hc) as [->|(z & _ & Hz)].
  - simpl in *. exists it. split; auto. split; [congruence|]. split; [congruence|]. split; auto. intros El. rewrite <- (L El). reflexivity.
  - apply expands_init in Hz. destruct Hz as (k' & F1 & F2). assert (k' = k) by congruence. subst. lia.
Qed.

Lemma entry_state_dot : forall S x k, st 0 = Some S -> In x S -> it_rule x = Some k -> it_dot x = start_dot g k.
Proof.
  intros S x k HS Hx Hk. destruct (gi_entry _ _ _ _ _ gi) as (S0 & H0 & E0). assert (S = S0) as -> by congruence. apply E0 in Hx.
  destruct (clo_inv _ _ Hx) as [->|(z & _ & Hz)]; [discriminate|]. apply expands_init in Hz. destruct Hz as (k' & F1 & F2). congruence.
Qed.

(** The item which asked for a rule. *)
Lemma parent_item : forall q S x k i, st q = Some S -> In x S -> it_rule x = Some k -> it_dot x = start_dot g k -> lhs_of g (Some k) = Some i ->
  exists z, In z S /\ symbol_after_dot g z = Some (NonTerminal i).
Proof using au. clear n_le fs_ok.
  intros q S x k i HS Hx Hk Hd Hi.
  assert (exists y z, In z S /\ symbol_after_dot g z = Some y /\ In k (rules_for g y)) as (y & z & Hz & Hy & Hr).
  { assert (forall y0 u, to_lr0 u = to_lr0 x -> (it_rule y0 <> Some k \/ start_dot g k < it_dot y0) -> clo y0 u -> (forall v, clo y0 v -> core_of (has S) (to_lr0 v)) ->
      exists y z, In z S /\ symbol_after_dot g z = Some y /\ In k (rules_for g y)) as G.
    { intros y0 u E Hn Hc HS'. apply to_lr0_fields in E. destruct E as [E1 E2]. destruct (clo_inv _ _ Hc) as [->|(z & Hz1 & Hz2)].
      - exfalso. destruct Hn as [Hn|Hn]; [congruence|lia].
      - destruct Hz2 as [s k' las la Q1 Q2 Q3 Q4]. simpl in E1. assert (k' = k) as -> by congruence.
        destruct (HS' z Hz1) as (z' & Hz' & Ez). exists s, z'. split; auto. split; auto. rewrite (core_symbol g z' z); auto. }
    destruct (Nat.eq_dec q 0) as [->|Hq].
    - destruct (gi_entry _ _ _ _ _ gi) as (S0 & H0 & E0). assert (S = S0) as -> by congruence. apply (G (entry_item n) x); auto.
      + left. discriminate.
      + apply E0. auto.
      + intros v Hv. exists v. split; auto. apply E0. auto.
    - destruct (gi_reach _ _ _ _ _ gi q) as [?|(p & s & _ & He)]; [apply (gi_nodes _ _ _ _ _ gi); eauto|contradiction|].
      destruct (gi_edge _ _ _ _ _ gi _ _ _ He) as (P & T & A & B & C & _). assert (T = S) as -> by (unfold LRGraphProof.st in *; congruence).
      destruct (proj1 (C (to_lr0 x))) as (u & (it & M & Hc) & Eu); [exists x; auto|]. apply (G (adv it) u); auto.
      + destruct M as (M1 & M2 & M3). destruct (it_rule (adv it)) as [k'|] eqn:Ek; [|left; discriminate]. simpl in Ek.
        destruct (Nat.eq_dec k' k) as [->|]; [|left; congruence]. right. pose proof (item_dot_ge p P it k A M1 Ek). simpl. lia.
      + intros v Hv. apply C. exists v. split; auto. exists it. auto. }
  apply rules_for_spec in Hr. destruct Hr as (r & i' & R1 & R2 & ->). unfold lhs_of in Hi. simpl in Hi. rewrite R1 in Hi. assert (i' = i) as -> by congruence. eauto.
Qed.

(** Forward: expansion and transition. *)
Lemma state_move : forall q S it s, st q = Some S -> In it S -> symbol_after_dot g it = Some s -> lhs_of g (it_rule it) <> None ->
  exists t T, edge q s t /\ st t = Some T /\ In (adv it) T.
Proof.
  intros q S it s HS Hi Hs Hl. destruct (au_complete _ _ _ _ _ au q S HS s it) as (t & T & A & B & C); [split; auto|].
  exists t, T. split; auto. split; auto. apply C. exists it. split; [split; auto|constructor].
Qed.

Lemma state_expand : forall q S it s k r i, st q = Some S -> In it S -> symbol_after_dot g it = Some s -> nth_error (g_rules g) k = Some r -> r_lhs r = Some i -> s = NonTerminal i ->
  exists las, determine_lookaheads g n fs it = Ok las /\ forall la, In la las -> In (init_item g k la) S.
Proof.
  intros q S it s k r i HS Hi Hs Hr Hl ->. destruct (gi_sets _ _ _ _ _ gi q S HS) as (_ & _ & Hc & Hf).
  assert (In k (rules_for g (NonTerminal i))) as Hk by (apply rules_for_spec; eauto). destruct (Hf it Hi _ _ Hs Hk) as [las Hl'].
  exists las. split; auto. intros la Hla. apply (Hc it); auto. econstructor; eauto.
Qed.

Lemma state_ok : forall q S x, st q = Some S -> In x S -> item_ok x.
Proof. intros q S x HS. apply (gi_sets _ _ _ _ _ gi q S HS). Qed.

Lemma edge_states : forall q s t, edge q s t -> exists S T, st q = Some S /\ st t = Some T.
Proof. intros q s t H. destruct (gi_edge _ _ _ _ _ gi _ _ _ H) as (S & T & A & B & _). eauto. Qed.

Lemma edge_known : forall q s t, edge q s t -> known g s.
Proof.
  intros q s t H. destruct (gi_edge _ _ _ _ _ gi _ _ _ H) as (S & T & A & B & _ & (it & M1 & M2 & M3) & _). unfold symbol_after_dot in M2.
  apply nth_error_In in M2. eapply rhs_of_known; eauto.
Qed.

End Automaton.
