(** Tables and the valid items. *)
From Coq Require Import String List Arith NArith Bool Lia.
From Verif Require Import Base InputModel GrammarModel GrammarSpec GrammarProof LLModel LLSpec SententialProof SetsProof FirstProof LRModel LRSpec GLRSpec BidiProof ItemProof LRItemsProof LRGraphProof AutomatonProof LRTableProof LRWriteProof LRGenProof LRConflictProof LRRunProof LRCompleteProof LRFactsProof CanonSpec CanonProof.
Import ListNotations.
Local Open Scope nat_scope.
Local Open Scope list_scope.

Section Kind.
Variable kind : table_kind.
Variable g : grammar.
Hypothesis wf : wf_grammar g.
Hypothesis ne : no_empty_rhs g.
Variable fs : symbol_sets.
Hypothesis fc : kind_n kind = 1 -> first_sets_correct g fs.
Variable pg : lr_graph.
Hypothesis au : automaton g (kind_n kind) fs (kind_lalr kind) pg.

Notation n := (kind_n kind).
Notation vitem := (vitem g n fs).
Notation gpath := (gpath pg).
Let gi := au_inv g n fs (kind_lalr kind) pg au.

(** ** Items *)

Lemma vitem_lr0 : kind = KindLR0 -> forall ga x, vitem ga x <-> it_la x = [] /\ valid0 g ga (it_rule x) (it_dot x).
Proof.
  intros E ga x. assert (n = 0) as E0 by (rewrite E; reflexivity). split.
  - apply (vitem0 g wf n fs _ pg au E0).
  - intros [L V]. apply (valid0_vitem g wf n fs (kind_n_le kind) fc _ pg au E0) in V. destruct x as [k d la]. simpl in *. subst. auto.
Qed.

Lemma vitem_lr1 : kind <> KindLR0 -> forall ga x, vitem ga x <-> exists a, it_la x = [a] /\ valid1 g ga (it_rule x) (it_dot x) a.
Proof.
  intros E ga x. assert (n = 1) as E1 by (destruct kind; simpl; congruence). split.
  - apply (vitem1 g wf n fs (kind_n_le kind) fc _ pg au E1).
  - intros (a & L & V). apply (valid1_vitem g wf n fs (kind_n_le kind) fc _ pg au E1 ne) in V. destruct x as [k d la]. simpl in *. subst. auto.
Qed.

(** The item without its lookahead. *)
Definition in_progress (ga : list symbol) (k : option nat) (d : nat) : Prop :=
  match kind with KindLR0 => valid0 g ga k d | _ => exists a, valid1 g ga k d a end.

Lemma progress_vitem : forall ga k d, in_progress ga k d <-> exists x, vitem ga x /\ it_rule x = k /\ it_dot x = d.
Proof.
  intros ga k d. unfold in_progress. destruct kind eqn:E; rewrite <- E in *.
  - split.
    + intros V. exists (mkItem k d []). split; auto. apply vitem_lr0; auto.
    + intros (x & V & <- & <-). apply vitem_lr0 in V; auto. apply V.
  - split.
    + intros (a & V). exists (mkItem k d [a]). split; auto. apply vitem_lr1; [congruence|]. exists a. auto.
    + intros (x & V & <- & <-). apply vitem_lr1 in V; [|congruence]. destruct V as (a & _ & V). eauto.
  - split.
    + intros (a & V). exists (mkItem k d [a]). split; auto. apply vitem_lr1; [congruence|]. exists a. auto.
    + intros (x & V & <- & <-). apply vitem_lr1 in V; [|congruence]. destruct V as (a & _ & V). eauto.
Qed.

Lemma progress_core : forall ga c, core_of (vitem ga) c <-> it_la c = [] /\ in_progress ga (it_rule c) (it_dot c).
Proof.
  intros ga [k d la]. cbn [it_rule it_dot it_la]. rewrite progress_vitem. split.
  - intros (x & V & E). injection E as <- <- <-. split; auto. exists x. auto.
  - intros (-> & x & V & <- & <-). exists x. auto.
Qed.

Lemma same_state_paths : forall ga q de q', gpath ga q -> gpath de q' -> (q = q' <-> same_state kind g ga de).
Proof.
  intros ga q de q' H H'. destruct kind eqn:E; rewrite <- E in *.
  - rewrite (same_items g n fs _ pg au) with (ga := ga) (de := de) by (auto; rewrite E; reflexivity). split.
    + intros X. rewrite E. intros k d. specialize (X (mkItem k d [])). rewrite !vitem_lr0 in X by auto. simpl in X. tauto.
    + intros X x. rewrite E in X. rewrite !vitem_lr0 by auto. rewrite (X (it_rule x) (it_dot x)). tauto.
  - rewrite (same_items g n fs _ pg au) with (ga := ga) (de := de) by (auto; rewrite E; reflexivity). split.
    + intros X. rewrite E. intros k d a. specialize (X (mkItem k d [a])). rewrite !vitem_lr1 in X by congruence. simpl in X. split; intros V.
      * destruct (proj1 X) as (b & Eb & Vb); eauto. congruence.
      * destruct (proj2 X) as (b & Eb & Vb); eauto. congruence.
    + intros X x. rewrite E in X. rewrite !vitem_lr1 by congruence. split; intros (a & L & V); exists a; split; auto; apply X; auto.
  - rewrite (same_cores g wf n fs (kind_n_le kind) fc _ pg au) with (ga := ga) (de := de) by (auto; rewrite E; reflexivity). split.
    + intros X. rewrite E. intros k d. specialize (X (mkItem k d [])). rewrite !progress_core in X. unfold in_progress in X. rewrite E in X. simpl in X. tauto.
    + intros X c. rewrite E in X. rewrite !progress_core. unfold in_progress. rewrite E. rewrite (X (it_rule c) (it_dot c)). tauto.
Qed.

Lemma dot_end : forall x, item_ok g n x -> (symbol_after_dot g x = None <-> it_dot x = length (rhs_of g (it_rule x))).
Proof.
  intros x Hk. unfold symbol_after_dot. rewrite nth_error_None. pose proof (ik_dot _ _ _ Hk). lia.
Qed.

Lemma completes_reducing : forall ga q S k s, gpath ga q -> st pg q = Some S -> (completes kind g ga k s <-> exists it, reducing g n S s it /\ it_rule it = k).
Proof.
  intros ga q S k s Hp HS. destruct kind eqn:E; rewrite <- E in *.
  - split.
    + intros V. rewrite E in V. exists (mkItem k (length (right_side g k)) []). split; auto.
      assert (In (mkItem k (length (right_side g k)) []) S) as Hx.
      { apply (vitem_in g n fs _ pg au) with (ga := ga) (q := q); auto. apply vitem_lr0; auto. }
      split; auto. split; [|rewrite E; discriminate]. apply dot_end; [eapply state_ok; eauto|]. simpl. rewrite right_side_rhs; auto.
    + intros (it & (A & B & C) & <-). rewrite E. assert (vitem ga it) as V by (apply (in_vitem g n fs _ pg au) with (q := q) (S := S); auto; rewrite E; reflexivity).
      apply dot_end in B; [|eapply state_ok; eauto]. apply vitem_lr0 in V; auto. simpl. rewrite right_side_rhs by auto. rewrite <- B. apply V.
  - split.
    + intros V. rewrite E in V. exists (mkItem k (length (right_side g k)) [s]). split; auto.
      assert (In (mkItem k (length (right_side g k)) [s]) S) as Hx.
      { apply (vitem_in g n fs _ pg au) with (ga := ga) (q := q); auto. apply vitem_lr1; [congruence|]. exists s. auto. }
      split; auto. split; auto. apply dot_end; [eapply state_ok; eauto|]. simpl. rewrite right_side_rhs; auto.
    + intros (it & (A & B & C) & <-). rewrite E. assert (vitem ga it) as V by (apply (in_vitem g n fs _ pg au) with (q := q) (S := S); auto; rewrite E; reflexivity).
      apply dot_end in B; [|eapply state_ok; eauto]. apply vitem_lr1 in V; [|congruence]. destruct V as (a & La & V). simpl. rewrite right_side_rhs by auto. rewrite <- B.
      rewrite C in La by (rewrite E; reflexivity). injection La as <-. auto.
  - split.
    + intros V. rewrite E in V. destruct V as (de & SS & V). rewrite <- E in SS. exists (mkItem k (length (right_side g k)) [s]). split; auto.
      assert (vitem de (mkItem k (length (right_side g k)) [s])) as Vd by (apply vitem_lr1; [congruence|]; exists s; auto).
      destruct (vitem_state g n fs _ pg au _ _ Vd) as (q' & S' & A & B & C). apply (same_state_paths ga q de q') in SS; auto. subst q'. assert (S' = S) as -> by congruence.
      split; auto. split; auto. apply dot_end; [eapply state_ok; eauto|]. simpl. rewrite right_side_rhs; auto.
    + intros (it & (A & B & C) & <-). rewrite E. destruct (in_some_path g n fs _ pg au q S it HS A) as (de & Hd & V). exists de. split.
      * rewrite <- E. apply (same_state_paths ga q de q); auto.
      * apply dot_end in B; [|eapply state_ok; eauto]. apply vitem_lr1 in V; [|congruence]. destruct V as (a & La & V). rewrite right_side_rhs by auto. rewrite <- B.
        rewrite C in La by (rewrite E; reflexivity). injection La as <-. auto.
Qed.

Lemma shifts_progress : forall ga s, shifts_at kind g ga s <-> exists k d, nth_error (right_side g (Some k)) d = Some s /\ in_progress ga (Some k) d.
Proof. intros. reflexivity. Qed.

Lemma shifts_edge : forall ga q s, gpath ga q -> (shifts_at kind g ga s <-> exists t, edge pg q s t).
Proof.
  intros ga q s Hp. rewrite shifts_progress. split.
  - intros (k & d & Hn & V). apply progress_vitem in V. destruct V as (x & V & Hk & Hd). destruct (gpath_st g n fs _ pg au _ _ Hp) as (S & HS).
    pose proof (vitem_in g n fs _ pg au _ _ V q S Hp HS) as Hx. assert (symbol_after_dot g x = Some s) as Hs.
    { unfold symbol_after_dot. rewrite Hk, Hd. rewrite <- right_side_rhs; auto. }
    assert (lhs_of g (it_rule x) <> None) as Hl.
    { pose proof (state_ok _ _ _ _ _ au _ _ _ HS Hx) as Hok. destruct (ik_rule _ _ _ Hok) as (r & Hr). rewrite Hk in *. unfold lhs_of. rewrite Hr.
      destruct (wf_lhs g wf r) as (i & Hi & _); [eapply nth_error_In; exact Hr|congruence]. }
    destruct (state_move g n fs _ pg au q S x s HS Hx Hs Hl) as (t & T & E & _). eauto.
  - intros (t & He). destruct (gi_edge _ _ _ _ _ gi _ _ _ He) as (S & T & A & B & _ & (it & M1 & M2 & M3) & _).
    destruct (in_core g wf n fs (kind_n_le kind) fc _ pg au ga q Hp S it A M1) as (y & V & Ec). apply to_lr0_fields in Ec. destruct Ec as [F1 F2].
    destruct (it_rule it) as [k|] eqn:Ek; [|destruct M3; apply (wf_entry_rule g wf)]. exists k, (it_dot it). split.
    + rewrite right_side_rhs by auto. unfold symbol_after_dot in M2. rewrite <- Ek. auto.
    + apply progress_vitem. exists y. auto.
Qed.

(** ** Conflicts *)

Lemma no_conflict_clash : no_conflict g n pg <-> clash_free kind g.
Proof.
  split.
  - intros [N1 N2] ga s k Hc.
    assert (exists q, gpath ga q) as (q & Hp).
    { destruct kind eqn:E; rewrite <- E in *; rewrite E in Hc.
      - apply (vitem_path g n fs _ pg au ga (mkItem k (length (right_side g k)) [])). apply vitem_lr0; auto.
      - apply (vitem_path g n fs _ pg au ga (mkItem k (length (right_side g k)) [s])). apply vitem_lr1; [congruence|]. exists s. auto.
      - destruct Hc as (de & SS & V). destruct (proj2 (SS k (length (right_side g k)))) as (a & Va); eauto.
        apply (vitem_path g n fs _ pg au ga (mkItem k (length (right_side g k)) [a])). apply vitem_lr1; [congruence|]. exists a. auto. }
    destruct (gpath_st g n fs _ pg au _ _ Hp) as (S & HS). apply (completes_reducing ga q S k s Hp HS) in Hc. destruct Hc as (it & R & <-). split.
    + intros k' Hc'. apply (completes_reducing ga q S k' s Hp HS) in Hc'. destruct Hc' as (it' & R' & <-). rewrite (N1 q S s it it'); auto.
    + intros Hs. apply (shifts_edge ga q s Hp) in Hs. destruct Hs as (t & He). apply (N2 q S s it t); auto.
  - intros CF. split.
    + intros q S s it it' HS R R'. destruct (node_path g n fs (kind_n_le kind) fc _ pg au q) as (ga & Hp); [apply (gi_nodes _ _ _ _ _ gi); eauto|].
      assert (it_rule it = it_rule it') as Er.
      { apply (CF ga s (it_rule it)); apply (completes_reducing ga q S _ s Hp HS); eauto. }
      destruct R as (A & B & C), R' as (A' & B' & C'). pose proof (state_ok _ _ _ _ _ au _ _ _ HS A) as K. pose proof (state_ok _ _ _ _ _ au _ _ _ HS A') as K'.
      apply dot_end in B; auto. apply dot_end in B'; auto. destruct it as [r d la], it' as [r' d' la']. simpl in *. subst r'. f_equal; [congruence|].
      pose proof (ik_len _ _ _ K) as L. pose proof (ik_len _ _ _ K') as L'. simpl in L, L'. assert (n = 0 \/ n = 1) as [E|E] by (pose proof (kind_n_le kind); lia).
      * rewrite E in *. destruct la; [|discriminate]. destruct la'; [auto|discriminate].
      * rewrite C, C'; auto.
    + intros q S s it t HS R He. destruct (node_path g n fs (kind_n_le kind) fc _ pg au q) as (ga & Hp); [apply (gi_nodes _ _ _ _ _ gi); eauto|].
      destruct (CF ga s (it_rule it)) as [_ X]; [apply (completes_reducing ga q S _ s Hp HS); eauto|]. apply X. apply (shifts_edge ga q s Hp). eauto.
Qed.

(** ** The table *)

Section Table.
Variable tb : lr_table.
Hypothesis tf : table_of g n pg tb.

Lemma after_gpath : forall ga q, after tb ga q -> gpath ga q.
Proof.
  intros ga q H. induction H as [|ga q s t H IH Hs].
  - rewrite (tf_entry _ _ _ _ tf). constructor.
  - econstructor; eauto. destruct (gpath_st g n fs _ pg au _ _ IH) as (S & HS). rewrite entries_cell in Hs.
    destruct (in_dec cmp_dec s (columns g)) as [Hc|Hc].
    + apply (cell_shift g n (kind_n_le kind) fs _ pg au tb tf q S s t HS Hc) in Hs. apply Hs.
    + rewrite (cell_out g wf n (kind_n_le kind) fs _ pg au tb tf q S s HS Hc) in Hs. destruct Hs.
Qed.

Lemma entry_column : In (g_entry g) (all_symbols g).
Proof. destruct (wf_entry g wf) as (i & E & H). rewrite E. apply in_or_app. auto. Qed.

Lemma all_column : forall s, In s (all_symbols g) -> In s (columns g).
Proof. intros s H. apply in_or_app. auto. Qed.

Lemma eps_symbol : ~ In Epsilon (all_symbols g).
Proof. intros H. apply in_app_or in H. destruct H as [H|H]; [apply (wf_ts g wf) in H; destruct H; discriminate|apply (wf_nts g wf) in H; destruct H; discriminate]. Qed.

Lemma end_symbol : ~ In End (all_symbols g).
Proof. intros H. apply in_app_or in H. destruct H as [H|H]; [apply (wf_ts g wf) in H; destruct H; discriminate|apply (wf_nts g wf) in H; destruct H; discriminate]. Qed.

Lemma path_zero : forall ga q, gpath ga q -> (q = 0 <-> ga = []).
Proof.
  intros ga q H. split.
  - intros ->. eapply (gpath_zero g wf n fs _ pg au); eauto.
  - intros ->. eapply (gpath_nil pg); eauto.
Qed.

Lemma table_canonical : forall ga q, after tb ga q -> canonical_at kind g tb ga q.
Proof.
  intros ga q Ha. pose proof (after_gpath _ _ Ha) as Hp. destruct (gpath_st g n fs _ pg au _ _ Hp) as (S & HS). pose proof (path_zero _ _ Hp) as Hz.
  assert (forall s, ~ In s (columns g) -> entries tb q s = []) as Hout by (intros; apply (cell_out g wf n (kind_n_le kind) fs _ pg au tb tf q S s HS); auto).
  assert (forall k s, In (Reduce k) (entries tb q s) <-> In s (all_symbols g ++ [End]) /\ completes kind g ga k s) as HR.
  { intros k s. rewrite (completes_reducing ga q S k s Hp HS). split.
    - intros H. destruct (in_dec cmp_dec s (columns g)) as [Hc|Hc]; [|rewrite Hout in H by auto; destruct H]. split; auto.
      apply (cell_reduce g n (kind_n_le kind) fs _ pg au tb tf q S s k HS Hc). exact H.
    - intros [Hc H]. apply (cell_reduce g n (kind_n_le kind) fs _ pg au tb tf q S s k HS Hc) in H. exact H. }
  assert (forall s t, In (Shift t) (entries tb q s) <-> In s (all_symbols g) /\ edge pg q s t /\ ~ (s = g_entry g /\ q = 0)) as HSh.
  { intros s t. split.
    - intros H. destruct (in_dec cmp_dec s (columns g)) as [Hc|Hc]; [|rewrite Hout in H by auto; destruct H].
      apply (cell_shift g n (kind_n_le kind) fs _ pg au tb tf q S s t HS Hc). exact H.
    - intros H. apply (cell_shift g n (kind_n_le kind) fs _ pg au tb tf q S s t HS); auto. apply all_column. apply H. }
  assert (forall s, In Accept (entries tb q s) <-> ga = [] /\ s = g_entry g) as HA.
  { intros s. split.
    - intros H. destruct (in_dec cmp_dec s (columns g)) as [Hc|Hc]; [|rewrite Hout in H by auto; destruct H].
      apply (cell_accept g wf n (kind_n_le kind) fs _ pg au tb tf q S s HS Hc) in H. tauto.
    - intros [H ->]. apply (cell_accept g wf n (kind_n_le kind) fs _ pg au tb tf q S _ HS); [apply all_column; apply entry_column|tauto]. }
  split.
  - rewrite (tf_states _ _ _ _ tf). eapply (path_node g n fs _ pg au); eauto.
  - auto.
  - auto.
  - intros s. rewrite (shifts_edge ga q s Hp). split.
    + intros (t & H). apply HSh in H. destruct H as (A & B & C). split; eauto. split; [intros ->; apply eps_symbol; auto|tauto].
    + intros ((t & B) & A & C). exists t. apply HSh. split; [eapply (edge_column g wf n fs _ pg au); eauto|]. tauto.
  - intros s t t' H H'. apply HSh in H. apply HSh in H'. eapply edge_det; [exact au| |]; [apply H|apply H'].
  - intros s. split.
    + intros H. destruct (in_dec cmp_dec s (columns g)) as [Hc|Hc]; [|rewrite Hout in H by auto; destruct H].
      assert (In s (all_symbols g) /\ s <> g_entry g \/ In s (all_symbols g) /\ q <> 0) as Hx.
      { rewrite entries_cell, (cell_eq g n (kind_n_le kind) fs _ pg au tb tf q S s HS Hc) in H. apply in_app_or in H. destruct H as [H|H].
        - apply in_map_iff in H. destruct H as (? & X & _). discriminate.
        - unfold column_tail in H. destruct (sym_in s (all_symbols g)) as [Hs|_]; [|destruct H]. destruct (eqc s (g_entry g) && (q =? 0)) eqn:Eb.
          + destruct H as [X|[]]. discriminate.
          + apply andb_false_iff in Eb. destruct Eb as [Eb|Eb]; [left|right]; split; auto.
            * intros ->. rewrite eqc_refl in Eb. discriminate.
            * apply Nat.eqb_neq in Eb. auto. }
      assert (In s (all_symbols g)) as Hs by tauto. assert (~ (ga = [] /\ s = g_entry g)) as Hna by tauto. split; auto.
      rewrite entries_cell, (cell_eq g n (kind_n_le kind) fs _ pg au tb tf q S s HS Hc) in H. apply in_app_or in H. destruct H as [H|H].
      { apply in_map_iff in H. destruct H as (? & X & _). discriminate. }
      unfold column_tail in H. destruct (sym_in s (all_symbols g)) as [_|X]; [|contradiction]. destruct (eqc s (g_entry g) && (q =? 0)); [destruct H as [X|[]]; discriminate|].
      destruct (target_of pg q s) as [t|] eqn:Et; [destruct H as [X|[]]; discriminate|].
      destruct (reduces g n S s) as [|e l] eqn:Er; [|destruct H].
      split; [|split; auto].
      * intros k Hk. assert (In (Reduce k) (entries tb q s)) as X by (apply HR; auto). rewrite entries_cell, (cell_eq g n (kind_n_le kind) fs _ pg au tb tf q S s HS Hc) in X.
        rewrite <- (reduces_filter g n (kind_n_le kind) fs _ pg au S s) in X; auto; [|apply (gi_sets _ _ _ _ _ gi _ _ HS)]. rewrite Er in X. simpl in X.
        unfold column_tail in X. destruct (sym_in s (all_symbols g)); [|destruct X]. destruct (eqc s (g_entry g) && (q =? 0)); [destruct X as [X|[]]; discriminate|].
        rewrite Et in X. destruct X as [X|[]]; discriminate.
      * intros X. apply (shifts_edge ga q s Hp) in X. destruct X as (t & He). apply (target_edge g n fs _ pg au) in He. congruence.
    + intros (Hs & H1 & H2 & H3). pose proof (all_column s Hs) as Hc.
      assert (cell tb q s <> []) as Hn by (eapply (cell_nonempty g n pg tb tf); eauto). rewrite entries_cell. destruct (cell tb q s) as [|e l] eqn:Ec; [congruence|].
      assert (e = Error) as ->; [|left; auto]. assert (In e (entries tb q s)) as Hin by (rewrite entries_cell, Ec; left; auto). destruct e as [t|k| |]; auto; exfalso.
      * apply H2. apply (shifts_edge ga q s Hp). exists t. apply HSh in Hin. apply Hin.
      * apply (H1 k). apply HR in Hin. apply Hin.
      * apply H3. apply HA. auto.
  - intros de q' Hd. apply same_state_paths; auto. apply after_gpath; auto.
Qed.

Lemma table_reached : epsilon_in_front g -> ~ entry_left_recursive g -> forall q, q < tb_states tb -> exists ga, after tb ga q.
Proof.
  intros eps nl q Hq. rewrite (tf_states _ _ _ _ tf) in Hq. destruct (node_path g n fs (kind_n_le kind) fc _ pg au q Hq) as (ga & Hp). exists ga. clear Hq.
  induction Hp as [|ga q s t Hp IH He].
  - rewrite <- (tf_entry _ _ _ _ tf). constructor.
  - econstructor; eauto. destruct (gpath_st g n fs _ pg au _ _ Hp) as (S & HS).
    destruct (gi_edge _ _ _ _ _ gi _ _ _ He) as (S' & T & A & B & _ & (it & M1 & M2 & M3) & _). assert (S' = S) as -> by congruence.
    destruct (it_rule it) as [k|] eqn:Ek; [|destruct M3; apply (wf_entry_rule g wf)].
    assert (s <> Epsilon) as Hs.
    { intros ->. pose proof (item_dot_ge g n fs _ pg au q S it k HS M1 Ek) as Hd. unfold symbol_after_dot in M2. rewrite Ek in M2. unfold start_dot in Hd. unfold rhs_of in *. simpl in *.
      destruct (nth_error (g_rules g) k) as [r|] eqn:Hr; [|destruct (it_dot it); discriminate].
      destruct (eps r) as (m & al & E & Hal); [eapply nth_error_In; eauto|]. rewrite E in *. clear E.
      assert (forall m d, lead_eps (repeat Epsilon m ++ al) <= d -> nth_error (repeat Epsilon m ++ al) d = Some Epsilon -> False) as G.
      { clear - Hal. induction m as [|m IH]; intros d Hd H; simpl in *.
        - apply nth_error_In in H. auto.
        - destruct d as [|d]; [lia|]. simpl in H. apply (IH d); auto. lia. }
      eapply G; eauto. }
    apply (cell_shift g n (kind_n_le kind) fs _ pg au tb tf q S s t HS).
    + apply all_column. eapply (edge_column g wf n fs _ pg au); eauto.
    + split; [eapply (edge_column g wf n fs _ pg au); eauto|]. split; auto. intros [-> ->]. apply nl. apply (entry_rec_left g wf n (kind_n_le kind) fs fc _ pg au).
      exists S, it, k. auto.
Qed.
End Table.
End Kind.

(** ** Generation *)

Lemma generated_canonical : forall kind m g allow r tb ga q, wf_grammar g -> no_empty_rhs g -> generates kind m g allow = Ok r -> table_of_result r tb -> after tb ga q -> canonical_at kind g tb ga q.
Proof.
  intros kind m g allow r tb ga q wf ne H Ht Ha. destruct (generate_inv g wf _ _ _ _ _ (kind_n_le kind) H) as (fs & pg & cs & A & B & C & D).
  apply (table_canonical kind g wf ne fs A pg B); auto. destruct Ht; inversion D; auto.
Qed.

Lemma generated_reached : forall kind m g allow r tb q, wf_grammar g -> epsilon_in_front g -> ~ entry_left_recursive g ->
  generates kind m g allow = Ok r -> table_of_result r tb -> q < tb_states tb -> exists ga, after tb ga q.
Proof.
  intros kind m g allow r tb q wf eps nl H Ht Hq. destruct (generate_inv g wf _ _ _ _ _ (kind_n_le kind) H) as (fs & pg & cs & A & B & C & D).
  apply (table_reached kind g wf fs A pg B tb); auto. destruct Ht; inversion D; auto.
Qed.

Lemma generated_clash : forall kind m g allow r, wf_grammar g -> no_empty_rhs g -> generates kind m g allow = Ok r -> (conflict_free r <-> clash_free kind g).
Proof.
  intros kind m g allow r wf ne H. destruct (generate_inv g wf _ _ _ _ _ (kind_n_le kind) H) as (fs & pg & cs & A & B & C & D).
  rewrite <- (no_conflict_clash kind g wf ne fs A pg B). rewrite <- (no_conflict_iff g _ _ _ _ cs (kind_n_le kind) B C). split.
  - intros (tb & ->). inversion D; auto.
  - intros ->. inversion D; try contradiction. exists tb. auto.
Qed.
