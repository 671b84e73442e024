(** The states of the graph and the valid items. *)
From Coq Require Import String List Arith NArith Bool Lia.
From Verif Require Import Base InputModel GrammarModel GrammarSpec GrammarProof LLModel LLSpec SententialProof SetsProof FirstProof LRModel LRSpec BidiProof ItemProof LRItemsProof LRGraphProof AutomatonProof LRTableProof LRWriteProof LRGenProof LRConflictProof CanonSpec.
Import ListNotations.
Local Open Scope nat_scope.
Local Open Scope list_scope.

Lemma right_side_rhs : forall g k, wf_grammar g -> right_side g k = rhs_of g k.
Proof. intros g [k|] wf; unfold right_side, rhs_of; simpl; auto. destruct (wf_entry_rule g wf) as [_ E]. auto. Qed.

Lemma first_dot_lead : forall al, first_dot al = lead_eps al.
Proof. induction al as [|[]]; simpl; auto. Qed.

Section Canon.
Variable g : grammar.
Hypothesis wf : wf_grammar g.
Variable n : nat.
Variable fs : symbol_sets.
Hypothesis n_le : n <= 1.
Hypothesis fc : n = 1 -> first_sets_correct g fs.
Variable lalr : bool.
Variable pg : lr_graph.
Hypothesis au : automaton g n fs lalr pg.

Notation clo := (clo g n fs).
Notation expands := (expands g n fs).
Notation trans := (trans g n fs).
Notation moves := (moves g).
Notation item_ok := (item_ok g n).
Notation st := (st pg).
Notation edge := (edge pg).
Let gi := au_inv g n fs lalr pg au.
Let fs_ok : n = 1 -> sets_ok g fs := fun E => fc_ok g fs (fc E).

(** ** Items and paths *)

Inductive vitem : list symbol -> item -> Prop :=
| vi_entry : vitem [] (entry_item n)
| vi_expand : forall ga x y, vitem ga x -> expands x y -> vitem ga y
| vi_move : forall ga x s, vitem ga x -> symbol_after_dot g x = Some s -> lhs_of g (it_rule x) <> None -> vitem (ga ++ [s]) (adv x).

Inductive gpath : list symbol -> nat -> Prop :=
| gp_nil : gpath [] 0
| gp_snoc : forall ga q s t, gpath ga q -> edge q s t -> gpath (ga ++ [s]) t.

Lemma gpath_snoc : forall ga s t, gpath (ga ++ [s]) t -> exists q, gpath ga q /\ edge q s t.
Proof.
  intros ga s t H. inversion H as [E|ga' q s' t' H1 H2 E]; [destruct ga; discriminate|]. apply app_inj_tail in E. destruct E as [-> ->]. eauto.
Qed.

Lemma gpath_nil : forall q, gpath [] q -> q = 0.
Proof. intros q H. inversion H as [E|ga' q' s' t' H1 H2 E]; auto. destruct ga'; discriminate. Qed.

Lemma gpath_zero : forall ga, gpath ga 0 -> ga = [].
Proof. intros ga H. inversion H as [E|ga' q' s' t' H1 H2 E]; auto. exfalso. apply (no_edge_to_entry g wf n fs lalr pg au q' s'). exact H2. Qed.

Lemma gpath_det : forall ga q q', gpath ga q -> gpath ga q' -> q = q'.
Proof.
  intros ga q q' H. revert q'. induction H as [|ga q s t H1 IH H2]; intros q' H'.
  - symmetry. apply gpath_nil; auto.
  - apply gpath_snoc in H'. destruct H' as (p & A & B). apply IH in A. subst. eapply edge_det; eauto.
Qed.

Lemma gpath_st : forall ga q, gpath ga q -> exists S, st q = Some S.
Proof.
  intros ga q H. destruct H as [|ga q s t H1 H2].
  - destruct (gi_entry _ _ _ _ _ gi) as (S & H & _). eauto.
  - destruct (edge_states _ _ _ _ _ au _ _ _ H2) as (S & T & _ & B). eauto.
Qed.

Lemma vitem_clo : forall ga x y, vitem ga x -> clo x y -> vitem ga y.
Proof. intros ga x y H Hc. induction Hc as [|y z Hc IH He]; auto. eapply vi_expand; eauto. Qed.

Lemma vitem_in : forall ga x, vitem ga x -> forall q S, gpath ga q -> st q = Some S -> In x S.
Proof.
  intros ga x H. induction H as [|ga x y H IH He|ga x s H IH Hs Hl]; intros q S Hp HS.
  - apply gpath_nil in Hp. subst. eapply entry_item_in; eauto.
  - apply (gi_sets _ _ _ _ _ gi q S HS) with (x := x); eauto.
  - apply gpath_snoc in Hp. destruct Hp as (p & A & B). destruct (gpath_st _ _ A) as (P & HP).
    destruct (state_move g n fs lalr pg au p P x s HP (IH _ _ A HP) Hs Hl) as (t & T & E1 & E2 & E3).
    assert (t = q) as -> by (eapply edge_det; eauto). congruence.
Qed.

Lemma vitem_path : forall ga x, vitem ga x -> exists q, gpath ga q.
Proof.
  intros ga x H. induction H as [|ga x y H IH He|ga x s H [q IH] Hs Hl]; auto.
  - exists 0. constructor.
  - destruct (gpath_st _ _ IH) as (S & HS).
    destruct (state_move g n fs lalr pg au q S x s HS (vitem_in _ _ H _ _ IH HS) Hs Hl) as (t & T & E1 & E2 & E3). exists t. econstructor; eauto.
Qed.

Lemma vitem_state : forall ga x, vitem ga x -> exists q S, gpath ga q /\ st q = Some S /\ In x S.
Proof.
  intros ga x H. destruct (vitem_path _ _ H) as (q & Hq). destruct (gpath_st _ _ Hq) as (S & HS). exists q, S. split; auto. split; auto. eapply vitem_in; eauto.
Qed.

Lemma vitem_ok : forall ga x, vitem ga x -> item_ok x.
Proof. intros ga x H. destruct (vitem_state _ _ H) as (q & S & _ & A & B). eapply state_ok; eauto. Qed.

Lemma in_vitem : lalr = false -> forall ga q, gpath ga q -> forall S x, st q = Some S -> In x S -> vitem ga x.
Proof.
  intros El ga q H. induction H as [|ga q s t H1 IH H2]; intros S x HS Hx.
  - destruct (gi_entry _ _ _ _ _ gi) as (S0 & H0 & E0). assert (S = S0) as -> by congruence. apply E0 in Hx. eapply vitem_clo; [constructor|auto].
  - destruct (gi_edge _ _ _ _ _ gi _ _ _ H2) as (P & T & A & B & _ & _ & D). assert (T = S) as -> by congruence.
    apply (D El) in Hx. destruct Hx as (it & (M1 & M2 & M3) & Hc). eapply vitem_clo; [|exact Hc]. apply vi_move; auto. eapply IH; eauto.
Qed.

Lemma in_core : forall ga q, gpath ga q -> forall S x, st q = Some S -> In x S -> exists y, vitem ga y /\ to_lr0 y = to_lr0 x.
Proof.
  intros ga q H. induction H as [|ga q s t H1 IH H2]; intros S x HS Hx.
  - destruct (gi_entry _ _ _ _ _ gi) as (S0 & H0 & E0). assert (S = S0) as -> by congruence. apply E0 in Hx. exists x. split; auto. eapply vitem_clo; [constructor|auto].
  - destruct (gi_edge _ _ _ _ _ gi _ _ _ H2) as (P & T & A & B & C & _ & _). assert (T = S) as -> by congruence.
    destruct (proj1 (C (to_lr0 x))) as (y & (it & (M1 & M2 & M3) & Hc) & Ey); [exists x; auto|].
    destruct (IH P it A M1) as (it' & V & Ec). pose proof (state_ok _ _ _ _ _ au _ _ _ A M1) as Hok. pose proof (vitem_ok _ _ V) as Hok'.
    destruct (to_lr0_fields _ _ Ec) as [F1 F2].
    assert (symbol_after_dot g it' = Some s) as M2' by (unfold symbol_after_dot in *; rewrite F1, F2; auto).
    destruct (clo_core g wf n fs n_le fs_ok (adv it) (adv it') y) as (y' & Hy & E); auto.
    + eapply adv_ok; eauto.
    + eapply adv_ok; eauto.
    + unfold to_lr0, adv. simpl. rewrite F1, F2. auto.
    + exists y'. split; [|congruence]. eapply vitem_clo; [|exact Hy]. apply vi_move; auto. rewrite F1. auto.
Qed.

Lemma in_some_path : forall q S x, st q = Some S -> In x S -> exists ga, gpath ga q /\ vitem ga x.
Proof.
  intros q S x HS Hx. pose proof (gi_lv _ _ _ _ _ gi _ _ _ HS Hx) as H. clear S HS Hx. induction H as [x Hx|p s q it x Hp (ga & IH1 & IH2) H1 H2 H3 H4].
  - exists []. split; [constructor|]. eapply vitem_clo; [constructor|auto].
  - exists (ga ++ [s]). split; [econstructor; eauto|]. eapply vitem_clo; [|exact H4]. apply vi_move; auto.
Qed.

Lemma node_path : forall q, q < lg_nodes pg -> exists ga, gpath ga q.
Proof.
  intros q. induction q as [q IH] using lt_wf_ind. intros Hq. destruct (gi_reach _ _ _ _ _ gi q Hq) as [->|(p & s & Hp & He)].
  - exists []. constructor.
  - destruct (IH p Hp) as (ga & Hga); [lia|]. exists (ga ++ [s]). econstructor; eauto.
Qed.

Lemma path_node : forall ga q, gpath ga q -> q < lg_nodes pg.
Proof. intros ga q H. apply (gi_nodes _ _ _ _ _ gi). eapply gpath_st; eauto. Qed.

(** ** Equal states *)

Lemma st_inj : forall q q' S, st q = Some S -> st q' = Some S -> q = q'.
Proof. intros q q' S A B. apply (bo_inv _ (gi_map _ _ _ _ _ gi)) in A. apply (bo_inv _ (gi_map _ _ _ _ _ gi)) in B. congruence. Qed.

Lemma same_items : lalr = false -> forall ga q de q', gpath ga q -> gpath de q' -> (q = q' <-> forall x, vitem ga x <-> vitem de x).
Proof.
  intros El ga q de q' H H'. destruct (gpath_st _ _ H) as (S & HS). destruct (gpath_st _ _ H') as (S' & HS'). split.
  - intros <- x. assert (S' = S) as -> by congruence. split; intros V.
    + eapply in_vitem; eauto. eapply (vitem_in ga); eauto.
    + eapply in_vitem; eauto. eapply (vitem_in de); eauto.
  - intros E. apply (st_inj q q' S); auto. rewrite HS'. f_equal.
    apply sorted_ext; [apply (gi_sets _ _ _ _ _ gi _ _ HS')|apply (gi_sets _ _ _ _ _ gi _ _ HS)|]. intros x. split; intros Hx.
    + apply (vitem_in ga x) with (q := q); auto. apply E. eapply in_vitem; eauto.
    + apply (vitem_in de x) with (q := q'); auto. apply E. eapply in_vitem; eauto.
Qed.

Lemma cores_path : forall ga q S c, gpath ga q -> st q = Some S -> (core_of (has S) c <-> core_of (vitem ga) c).
Proof.
  intros ga q S c H HS. split; intros (x & Hx & <-).
  - destruct (in_core _ _ H S x HS Hx) as (y & A & B). exists y. auto.
  - exists x. split; auto. eapply vitem_in; eauto.
Qed.

Lemma same_cores : lalr = true -> forall ga q de q', gpath ga q -> gpath de q' -> (q = q' <-> same_core (vitem ga) (vitem de)).
Proof.
  intros El ga q de q' H H'. destruct (gpath_st _ _ H) as (S & HS). destruct (gpath_st _ _ H') as (S' & HS'). split.
  - intros <- c. assert (S' = S) as -> by congruence. rewrite <- (cores_path ga q S c), <- (cores_path de q S c); auto. tauto.
  - intros E. assert (lr0_core S = lr0_core S') as EC.
    { apply lr0_core_ext. intros c. change (core_of (has S) c <-> core_of (has S') c). rewrite (cores_path ga q S c), (cores_path de q' S' c); auto. }
    assert (map_get (lr0_core S) (lg_cores pg) = Some q) as X1 by (apply (gi_core _ _ _ _ _ gi El); eauto).
    assert (map_get (lr0_core S) (lg_cores pg) = Some q') as X2 by (apply (gi_core _ _ _ _ _ gi El); eauto). congruence.
Qed.

(** ** Items of the specification *)

Lemma vitem0 : n = 0 -> forall ga x, vitem ga x -> it_la x = [] /\ valid0 g ga (it_rule x) (it_dot x).
Proof.
  intros E ga x H. assert (it_la x = []) as L.
  { pose proof (ik_len _ _ _ (vitem_ok _ _ H)) as L. rewrite E in L. destruct (it_la x); auto. discriminate. }
  split; auto. clear L. induction H as [|ga x y H IH He|ga x s H IH Hs Hl].
  - constructor.
  - destruct He as [s k las la H1 H2 H3 H4]. apply rules_for_spec in H2. destruct H2 as (r & i & Hr & Hi & ->).
    simpl. unfold start_dot. replace (rhs_of g (Some k)) with (r_rhs r) by (unfold rhs_of; simpl; rewrite Hr; auto). rewrite <- first_dot_lead.
    eapply v0_expand; eauto. rewrite right_side_rhs; auto.
  - simpl. destruct (it_rule x) as [k|] eqn:Ek.
    + apply v0_move; auto. rewrite right_side_rhs; auto. rewrite <- Ek. auto.
    + destruct Hl. unfold lhs_of. simpl. apply (wf_entry_rule g wf).
Qed.

Lemma valid0_vitem : n = 0 -> forall ga k d, valid0 g ga k d -> vitem ga (mkItem k d []).
Proof.
  intros E ga k d H. induction H as [|ga k d i k' r H IH H1 H2 H3|ga k d s H IH H1].
  - pose proof vi_entry as X. unfold entry_item in X. rewrite E in X. exact X.
  - destruct (vitem_state _ _ IH) as (q & S & Hq & HS & Hx).
    assert (symbol_after_dot g (mkItem k d []) = Some (NonTerminal i)) as Hs by (unfold symbol_after_dot; cbn [it_rule it_dot]; rewrite <- right_side_rhs; auto).
    assert (In k' (rules_for g (NonTerminal i))) as Hk by (apply rules_for_spec; eauto).
    destruct (gi_sets _ _ _ _ _ gi q S HS) as (_ & _ & _ & Hf). destruct (Hf _ Hx _ _ Hs Hk) as (las & Hlas).
    assert (expands (mkItem k d []) (init_item g k' [])) as He.
    { econstructor; eauto. apply (lookaheads_spec g wf n fs n_le fs_ok (mkItem k d []) las); auto. eapply vitem_ok; eauto. }
    apply (vi_expand _ _ _ IH) in He. unfold init_item, start_dot in He.
    replace (rhs_of g (Some k')) with (r_rhs r) in He by (unfold rhs_of; simpl; rewrite H2; auto). rewrite first_dot_lead. exact He.
  - change (mkItem (Some k) (S d) []) with (adv (mkItem (Some k) d [])). apply vi_move; [exact IH| |].
    + unfold symbol_after_dot; cbn [it_rule it_dot]. rewrite <- right_side_rhs; auto.
    + simpl. pose proof (vitem_ok _ _ IH) as Hk. destruct (ik_rule _ _ _ Hk) as (r & Hr). simpl in Hr. unfold lhs_of. simpl. rewrite Hr.
      destruct (wf_lhs g wf r (nth_error_In _ _ Hr)) as (i & Hi & _). congruence.
Qed.

Lemma vitem1 : n = 1 -> forall ga x, vitem ga x -> exists a, it_la x = [a] /\ valid1 g ga (it_rule x) (it_dot x) a.
Proof.
  intros E ga x H. induction H as [|ga x y H IH He|ga x s H IH Hs Hl].
  - exists End. unfold entry_item. rewrite E. split; auto. constructor.
  - destruct IH as (a & La & V). destruct He as [s k las la H1 H2 H3 H4]. apply rules_for_spec in H2. destruct H2 as (r & i & Hr & Hi & ->).
    apply (lookaheads_spec g wf n fs n_le fs_ok x las (vitem_ok _ _ H) H3) in H4.
    destruct H4 as [[E0 _]|(_ & x0 & b & L0 & -> & Hla & HF)]; [congruence|]. rewrite La in L0. injection L0 as <-.
    exists b. split; auto. simpl. unfold start_dot. replace (rhs_of g (Some k)) with (r_rhs r) by (unfold rhs_of; simpl; rewrite Hr; auto). rewrite <- first_dot_lead.
    eapply v1_expand; eauto.
    + rewrite right_side_rhs; auto.
    + rewrite right_side_rhs by auto. apply firstT_begins. unfold rest_of in HF. destruct HF as [[Hb HF]|[HF ->]].
      * apply firstT_app_l. apply (seqF_sound g fs); auto. apply (fc_sound g fs (fc E)).
      * apply firstT_app_r; [apply (nullF_sound g fs); auto; apply (fc_sound g fs (fc E))|]. constructor. auto.
  - destruct IH as (a & La & V). exists a. simpl. split; auto. destruct (it_rule x) as [k|] eqn:Ek.
    + apply v1_move; auto. rewrite right_side_rhs; auto. rewrite <- Ek. auto.
    + destruct Hl. unfold lhs_of. simpl. apply (wf_entry_rule g wf).
Qed.

Lemma valid1_vitem : n = 1 -> no_empty_rhs g -> forall ga k d a, valid1 g ga k d a -> vitem ga (mkItem k d [a]).
Proof.
  intros E ne ga k d a H. induction H as [|ga k d a i k' r b H IH H1 H2 H3 H4|ga k d a s H IH H1].
  - pose proof vi_entry as X. unfold entry_item in X. rewrite E in X. exact X.
  - destruct (vitem_state _ _ IH) as (q & S & Hq & HS & Hx). pose proof (vitem_ok _ _ IH) as Hok.
    assert (symbol_after_dot g (mkItem k d [a]) = Some (NonTerminal i)) as Hs by (unfold symbol_after_dot; cbn [it_rule it_dot]; rewrite <- right_side_rhs; auto).
    assert (In k' (rules_for g (NonTerminal i))) as Hk by (apply rules_for_spec; eauto).
    destruct (gi_sets _ _ _ _ _ gi q S HS) as (_ & _ & _ & Hf). destruct (Hf _ Hx _ _ Hs Hk) as (las & Hlas).
    assert (expands (mkItem k d [a]) (init_item g k' [b])) as He.
    { econstructor; eauto. apply (lookaheads_spec g wf n fs n_le fs_ok (mkItem k d [a]) las); auto. right. split; auto. exists a, b. split; auto. split; auto.
      split. { destruct (la_column g wf n n_le fs lalr pg au q S _ HS Hx E) as (s & Es & _ & Hl). simpl in Es. injection Es as ->. auto. }
      unfold rest_of. cbn [it_rule it_dot]. rewrite <- right_side_rhs by auto. apply firstT_begins in H4. apply firstT_app_inv in H4. destruct H4 as [H4|[H4 H5]].
      - left. split; [intros ->; destruct (firstT_not_eps _ _ H4)|]. apply (seqF_complete g fs); auto. apply (fc_closed g fs (fc E)).
      - right. split; [apply (nullF_complete g fs ne) with (w := []); auto; apply (fc_closed g fs (fc E))|].
        destruct (la_column g wf n n_le fs lalr pg au q S _ HS Hx E) as (s & Es & _ & Hla). simpl in Es. injection Es as <-.
        destruct Hla as [->|[t ->]]; inversion H5; auto.
    }
    apply (vi_expand _ _ _ IH) in He. unfold init_item, start_dot in He.
    replace (rhs_of g (Some k')) with (r_rhs r) in He by (unfold rhs_of; simpl; rewrite H2; auto). rewrite first_dot_lead. exact He.
  - change (mkItem (Some k) (S d) [a]) with (adv (mkItem (Some k) d [a])). apply vi_move; [exact IH| |].
    + unfold symbol_after_dot; cbn [it_rule it_dot]. rewrite <- right_side_rhs; auto.
    + simpl. pose proof (vitem_ok _ _ IH) as Hk. destruct (ik_rule _ _ _ Hk) as (r & Hr). simpl in Hr. unfold lhs_of. simpl. rewrite Hr.
      destruct (wf_lhs g wf r (nth_error_In _ _ Hr)) as (i & Hi & _). congruence.
Qed.

End Canon.
