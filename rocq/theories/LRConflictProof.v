(** Conflicts and cells with several entries. *)
From Coq Require Import String List Arith NArith Bool Lia.
From Verif Require Import Base InputModel GrammarModel GrammarSpec GrammarProof LLModel LLSpec SententialProof SetsProof FirstProof LRModel LRSpec BidiProof ItemProof LRItemsProof LRGraphProof AutomatonProof LRTableProof LRWriteProof LRGenProof.
Import ListNotations.
Local Open Scope nat_scope.
Local Open Scope list_scope.

Lemma entries_cell : forall tb q s, entries tb q s = cell tb q s.
Proof. reflexivity. Qed.

Lemma filter_length_le : forall A (f : A -> bool) l, length (filter f l) <= length l.
Proof. intros A f l. induction l as [|a l IH]; simpl; auto. destruct (f a); simpl; lia. Qed.

Section Conflict.
Variable g : grammar.
Hypothesis wf : wf_grammar g.
Variable n : nat.
Hypothesis n_le : n <= 1.
Variable fs : symbol_sets.
Variable lalr : bool.
Variable pg : lr_graph.
Hypothesis au : automaton g n fs lalr pg.
Let gi := au_inv g n fs lalr pg au.

Definition la_of (s : symbol) : list symbol := if n =? 0 then [] else [s].

Lemma reduces_filter : forall S s, all_ok g n S -> In s (columns g) ->
  reduces g n S s = map (fun it => Reduce (it_rule it)) (filter (reducing_on g (la_of s)) S).
Proof.
  intros S s HS Hs. unfold reduces, la_of. induction S as [|it S IH]; auto. cbn [flat_map filter]. rewrite IH by (intros x Hx; apply HS; right; auto). clear IH.
  pose proof (ik_len _ _ _ (HS it (or_introl eq_refl))) as L. unfold red1, reducing_on at 2. destruct (symbol_after_dot g it); auto.
  assert (n = 0 \/ n = 1) as [E|E] by lia; rewrite E in *; cbn [Nat.eqb].
  - destruct (sym_in s (columns g)); [|contradiction]. destruct (it_la it); [|discriminate]. destruct (cmp_dec [] []); [reflexivity|congruence].
  - destruct (cmp_dec (it_la it) [s]); reflexivity.
Qed.

Lemma reducing_filter : forall q S s it, st pg q = Some S -> In s (columns g) -> (In it (filter (reducing_on g (la_of s)) S) <-> reducing g n S s it).
Proof.
  intros q S s it HS Hs. rewrite filter_In, reducing_on_true. unfold reducing, la_of. split.
  - intros (A & B & C). split; auto. split; auto. intros E. rewrite E in C. exact C.
  - intros (A & B & C). split; auto. split; auto. pose proof (ik_len _ _ _ (state_ok _ _ _ _ _ au _ _ _ HS A)) as L.
    assert (n = 0 \/ n = 1) as [E|E] by lia; rewrite E in *; cbn [Nat.eqb]; auto. destruct (it_la it); auto. discriminate.
Qed.

(** Lookaheads are tokens. *)
Lemma la_column : forall q S it, st pg q = Some S -> In it S -> n = 1 -> exists s, it_la it = [s] /\ In s (columns g) /\ lookahead s.
Proof.
  intros q S it HS Hi ->. pose proof (state_ok _ _ _ _ _ au _ _ _ HS Hi) as Hk. pose proof (ik_len _ _ _ Hk) as L. destruct (it_la it) as [|s [|]] eqn:E; try discriminate.
  exists s. split; auto. pose proof (ik_la _ _ _ Hk) as Hla. rewrite E in Hla. specialize (Hla s (or_introl eq_refl)). split.
  - destruct Hla as [<-|Hla]; [apply in_or_app; right; left; auto|]. apply in_or_app; left. apply in_or_app; auto.
  - apply la_symbols_lookahead with (g := g); auto.
Qed.

Lemma not_lookahead_nt : forall i, ~ lookahead (NonTerminal i).
Proof. intros i [H|[t H]]; discriminate. Qed.

Lemma target_edge : forall q s t, target_of pg q s = Some t <-> edge pg q s t.
Proof. intros q s t. apply reachable_spec. intros t' H H'. eapply edge_det; eauto. Qed.

(** Reductions of a non-terminal column happen in LR(0) only. *)
Lemma reducing_nt : forall q S i it, st pg q = Some S -> reducing g n S (NonTerminal i) it -> n = 0.
Proof.
  intros q S i it HS (A & B & C). assert (n = 0 \/ n = 1) as [E|E] by lia; auto. specialize (C E). destruct (la_column q S it HS A E) as (s & X & _ & Y).
  assert (s = NonTerminal i) as -> by congruence. destruct (not_lookahead_nt i Y).
Qed.

Lemma entry_symbol : exists i, g_entry g = NonTerminal i.
Proof. destruct (wf_entry g wf) as (i & E & _). eauto. Qed.

Lemma entry_symbol_in : In (g_entry g) (all_symbols g).
Proof. destruct (wf_entry g wf) as (i & E & H). rewrite E. apply in_or_app. auto. Qed.

Lemma is_reduce_map : forall l, filter is_reduce (map (fun it => Reduce (it_rule it)) l) = map (fun it => Reduce (it_rule it)) l.
Proof. induction l as [|it l IH]; simpl; auto. rewrite IH. auto. Qed.

Lemma tail_reduce : forall q r s, filter is_reduce (column_tail g pg q r s) = [].
Proof. intros q r s. unfold column_tail. destruct (sym_in s (all_symbols g)); auto. destruct (eqc s (g_entry g) && (q =? 0)); auto. destruct (target_of pg q s); auto. destruct r; auto. Qed.

Lemma tail_length : forall q r s, length (column_tail g pg q r s) <= 1.
Proof. intros q r s. unfold column_tail. destruct (sym_in s (all_symbols g)); simpl; auto. destruct (eqc s (g_entry g) && (q =? 0)); auto. destruct (target_of pg q s); auto. destruct r; auto. Qed.

Lemma edge_column : forall q s t, edge pg q s t -> s <> Epsilon -> In s (all_symbols g).
Proof. intros q s t H Hs. apply (edge_known g wf n fs lalr pg au) in H. apply in_or_app. destruct s; simpl in H; tauto. Qed.

Section Table.
Variable tb : lr_table.
Hypothesis tf : table_of g n pg tb.

Lemma cell_eq : forall q S s, st pg q = Some S -> In s (columns g) ->
  cell tb q s = map (fun it => Reduce (it_rule it)) (filter (reducing_on g (la_of s)) S) ++ column_tail g pg q (reduces g n S s) s.
Proof. intros q S s HS Hs. rewrite (tf_cell _ _ _ _ tf q S s HS). unfold cell_list. rewrite reduces_filter; auto. intros x Hx. eapply state_ok; eauto. Qed.

Lemma cell_reduce : forall q S s k, st pg q = Some S -> In s (columns g) -> (In (Reduce k) (cell tb q s) <-> exists it, reducing g n S s it /\ it_rule it = k).
Proof.
  intros q S s k HS Hs. rewrite (cell_eq q S s) by auto. split.
  - intros H. apply in_app_or in H. destruct H as [H|H].
    + apply in_map_iff in H. destruct H as (it & [= E] & H). exists it. split; auto. eapply reducing_filter; eauto.
    + assert (In (Reduce k) (filter is_reduce (column_tail g pg q (reduces g n S s) s))) as X by (apply filter_In; auto). rewrite tail_reduce in X. destruct X.
  - intros (it & H & <-). apply in_or_app. left. apply in_map_iff. exists it. split; auto. eapply reducing_filter; eauto.
Qed.

Lemma cell_shift : forall q S s t, st pg q = Some S -> In s (columns g) -> (In (Shift t) (cell tb q s) <-> In s (all_symbols g) /\ edge pg q s t /\ ~ (s = g_entry g /\ q = 0)).
Proof.
  intros q S s t HS Hs. rewrite (cell_eq q S s) by auto. split.
  - intros H. apply in_app_or in H. destruct H as [H|H].
    + apply in_map_iff in H. destruct H as (it & E & H). discriminate.
    + unfold column_tail in H. destruct (sym_in s (all_symbols g)) as [Hin|]; [|destruct H]. split; auto. destruct (eqc s (g_entry g)) eqn:E1; cbn [andb] in H.
      * destruct (q =? 0) eqn:E2; [destruct H as [H|[]]; discriminate|]. apply Nat.eqb_neq in E2. destruct (target_of pg q s) as [t'|] eqn:Et.
        -- destruct H as [[= ->]|[]]. apply target_edge in Et. tauto.
        -- destruct (reduces g n S s); [destruct H as [H|[]]; discriminate|destruct H].
      * apply eqc_false in E1. destruct (target_of pg q s) as [t'|] eqn:Et.
        -- destruct H as [[= ->]|[]]. apply target_edge in Et. tauto.
        -- destruct (reduces g n S s); [destruct H as [H|[]]; discriminate|destruct H].
  - intros (Hin & He & Hne). apply in_or_app. right. unfold column_tail. destruct (sym_in s (all_symbols g)); [|contradiction]. apply target_edge in He. rewrite He.
    destruct (eqc s (g_entry g)) eqn:E1; cbn [andb]; [|left; auto]. destruct (q =? 0) eqn:E2; [|left; auto]. apply eqc_true in E1. apply Nat.eqb_eq in E2. tauto.
Qed.

Lemma cell_accept : forall q S s, st pg q = Some S -> In s (columns g) -> (In Accept (cell tb q s) <-> s = g_entry g /\ q = 0).
Proof.
  intros q S s HS Hs. rewrite (cell_eq q S s) by auto. split.
  - intros H. apply in_app_or in H. destruct H as [H|H].
    + apply in_map_iff in H. destruct H as (it & E & H). discriminate.
    + unfold column_tail in H. destruct (sym_in s (all_symbols g)) as [Hin|]; [|destruct H]. destruct (eqc s (g_entry g)) eqn:E1; cbn [andb] in H.
      * destruct (q =? 0) eqn:E2; [apply eqc_true in E1; apply Nat.eqb_eq in E2; auto|]. destruct (target_of pg q s); [destruct H as [H|[]]; discriminate|].
        destruct (reduces g n S s); [destruct H as [H|[]]; discriminate|destruct H].
      * destruct (target_of pg q s); [destruct H as [H|[]]; discriminate|]. destruct (reduces g n S s); [destruct H as [H|[]]; discriminate|destruct H].
  - intros [-> ->]. apply in_or_app. right. unfold column_tail. destruct (sym_in (g_entry g) (all_symbols g)) as [|X]; [|destruct X; apply entry_symbol_in].
    rewrite eqc_refl. left. auto.
Qed.

Lemma cell_nonempty : forall q S s, st pg q = Some S -> In s (all_symbols g) -> cell tb q s <> [].
Proof.
  intros q S s HS Hs. rewrite (tf_cell _ _ _ _ tf q S s HS). unfold cell_list, column_tail. destruct (sym_in s (all_symbols g)); [|contradiction].
  destruct (reduces g n S s); [|discriminate]. cbn [app]. destruct (eqc s (g_entry g) && (q =? 0)); [discriminate|]. destruct (target_of pg q s); discriminate.
Qed.

Lemma cell_out : forall q S s, st pg q = Some S -> ~ In s (columns g) -> cell tb q s = [].
Proof.
  intros q S s HS Hs. rewrite (tf_cell _ _ _ _ tf q S s HS). unfold cell_list. rewrite column_tail_out, app_nil_r by (intros X; apply Hs, in_or_app; auto).
  unfold reduces. assert (forall it, In it S -> red1 g n s it = []) as X.
  { intros it Hi. unfold red1. destruct (symbol_after_dot g it); auto. destruct (n =? 0) eqn:En.
    - destruct (sym_in s (columns g)); [contradiction|auto].
    - apply Nat.eqb_neq in En. destruct (la_column q S it HS Hi) as (s' & E1 & E2 & _); [lia|]. rewrite E1. destruct (cmp_dec [s'] [s]) as [[= ->]|]; [contradiction|auto]. }
  clear HS. induction S as [|it S IH]; auto. cbn [flat_map]. rewrite X by (left; auto). cbn [app]. apply IH. intros; apply X; right; auto.
Qed.

(** ** Cells with several entries *)

Definition accept_cell (q : nat) (s : symbol) : Prop := n = 0 /\ q = 0 /\ s = g_entry g.

Lemma several_conflict : forall q S s, st pg q = Some S -> ~ accept_cell q s -> 2 <= length (cell tb q s) ->
  exists c, conflict_of g n pg q S c /\ concerns tb q s c.
Proof.
  intros q S s HS Hna Hl. destruct (sym_in s (columns g)) as [Hs|Hs]; [|rewrite (cell_out q S s HS Hs) in Hl; simpl in Hl; lia].
  pose proof (cell_eq q S s HS Hs) as E. remember (filter (reducing_on g (la_of s)) S) as l eqn:Fl.
  pose proof (tail_length q (reduces g n S s) s) as Ht. assert (length (cell tb q s) = length l + length (column_tail g pg q (reduces g n S s) s)) as El by (rewrite E, app_length, map_length; auto).
  destruct l as [|it [|it' l]]; cbn [length] in El.
  - lia.
  - assert (exists t, edge pg q s t /\ In (Shift t) (cell tb q s)) as (t & He & Hc).
    { rewrite E. unfold column_tail in *. destruct (sym_in s (all_symbols g)) as [Hin|]; [|simpl in El; lia].
      destruct (eqc s (g_entry g)) eqn:E1.
      - apply eqc_true in E1. destruct (q =? 0) eqn:E2; cbn [andb] in *.
        + exfalso. apply Nat.eqb_eq in E2. apply Hna. split; auto. destruct entry_symbol as [i Ei]. eapply reducing_nt with (q := q) (S := S) (it := it); eauto.
          rewrite <- Ei, <- E1. apply (reducing_filter q S s it HS Hs). rewrite <- Fl. left; auto.
        + destruct (target_of pg q s) as [t|] eqn:Et; [exists t; split; [apply target_edge; auto|right; left; auto]|].
          exfalso. rewrite reduces_filter in El by (auto; intros x Hx; eapply state_ok; eauto). rewrite <- Fl in El. simpl in El. lia.
      - cbn [andb] in *. destruct (target_of pg q s) as [t|] eqn:Et; [exists t; split; [apply target_edge; auto|right; left; auto]|].
        exfalso. rewrite reduces_filter in El by (auto; intros x Hx; eapply state_ok; eauto). rewrite <- Fl in El. simpl in El. lia. }
    assert (reducing g n S s it) as Hr by (apply (reducing_filter q S s it HS Hs); rewrite <- Fl; left; auto).
    exists (ShiftReduce q (to_lr0 it) s). split.
    + destruct Hr as (A & B & C). eapply co_shift; eauto. intros it' A' B' C'.
      assert (In it' (it :: [])) as X; [|destruct X as [->|[]]; auto]. rewrite Fl. apply (reducing_filter q S s it' HS Hs). split; auto. split; auto. intros E1. rewrite C'. auto.
    + eapply cn_shift with (e := Shift t); auto. rewrite entries_cell. apply (cell_reduce q S s _ HS Hs). exists it. split; auto.
  - exists (ReduceReduce q (map to_lr0 (it :: it' :: l))). split.
    + eapply co_reduce; [symmetry; exact Fl|discriminate].
    + apply cn_reduce; [simpl; lia|]. rewrite entries_cell, E, filter_app, tail_reduce, app_nil_r, is_reduce_map, map_map. reflexivity.
Qed.

(** The cell of a conflict. *)
Lemma conflict_cell : forall q S c, st pg q = Some S -> (n = 0 -> forall t, ~ edge pg q Epsilon t) -> conflict_of g n pg q S c ->
  exists s, concerns tb q s c /\ In s (columns g).
Proof.
  intros q S c HS Heps [it s t A B C D F|la it it' A B].
  - assert (In s (all_symbols g)) as Hs by (eapply edge_column; eauto; intros ->; assert (n = 0 \/ n = 1) as [E|E] by lia;
      [destruct (Heps E t D)|destruct (la_column q S it HS A E) as (s' & X1 & _ & X2); rewrite (F E) in X1; injection X1 as <-; destruct X2 as [X2|[t' X2]]; discriminate]).
    assert (In s (columns g)) as Hs' by (apply in_or_app; auto). exists s. split; auto.
    assert (In (Reduce (it_rule it)) (cell tb q s)) as Hr by (apply (cell_reduce q S s _ HS Hs'); exists it; split; auto; split; auto).
    destruct (cmp_dec s (g_entry g)) as [E1|E1]; [destruct (Nat.eq_dec q 0) as [E2|E2]|].
    + apply cn_shift with (e := Accept); auto. rewrite entries_cell. apply (cell_accept q S s HS Hs'). auto.
    + apply cn_shift with (e := Shift t); auto. rewrite entries_cell. apply (cell_shift q S s t HS Hs'). tauto.
    + apply cn_shift with (e := Shift t); auto. rewrite entries_cell. apply (cell_shift q S s t HS Hs'). tauto.
  - assert (exists s, In s (columns g) /\ la = la_of s) as (s & Hs & ->).
    { assert (In it (filter (reducing_on g la) S)) as X by (rewrite A; left; auto). apply filter_In in X. destruct X as [X Y]. apply reducing_on_true in Y. destruct Y as [_ <-].
      unfold la_of. destruct (n =? 0) eqn:En.
      - apply Nat.eqb_eq in En. exists End. split; [apply in_or_app; right; left; auto|]. pose proof (ik_len _ _ _ (state_ok _ _ _ _ _ au _ _ _ HS X)) as L. rewrite En in L. destruct (it_la it); auto. discriminate.
      - apply Nat.eqb_neq in En. destruct (la_column q S it HS X) as (s & E1 & E2 & _); [lia|]. exists s. auto. }
    exists s. split; auto. apply cn_reduce; [simpl; rewrite map_length; destruct it'; [contradiction|simpl; lia]|].
    rewrite entries_cell, (cell_eq q S s HS Hs), filter_app, tail_reduce, app_nil_r, is_reduce_map, map_map, A. reflexivity.
Qed.

Lemma concerns_several : forall q S s c, st pg q = Some S -> concerns tb q s c -> 2 <= length (cell tb q s).
Proof.
  intros q S s c HS [it e A B C|items A B]; rewrite entries_cell in *.
  - destruct (cell tb q s) as [|e1 [|e2 l]]; simpl; try lia; [destruct A|]. destruct A as [->|[]]. destruct B as [<-|[]]. discriminate.
  - assert (length (filter is_reduce (cell tb q s)) = length items) as X by (rewrite B, map_length; auto).
    pose proof (filter_length_le _ is_reduce (cell tb q s)). lia.
Qed.

Lemma st_lt : forall q S, st pg q = Some S -> q < lg_nodes pg.
Proof. intros q S H. apply (gi_nodes _ _ _ _ _ gi). eauto. Qed.


(** ** Conflict-free tables *)

Hypothesis cs_nil : conflicts_of g n pg [].

Lemma nc : no_conflict g n pg.
Proof. eapply no_conflict_iff; eauto. Qed.

Lemma cell_le : forall q S s, st pg q = Some S -> ~ accept_cell q s -> length (cell tb q s) <= 1.
Proof.
  intros q S s HS Hna. destruct (le_lt_dec (length (cell tb q s)) 1) as [|Hl]; auto. exfalso. destruct (several_conflict q S s HS Hna Hl) as (c & Hc & _).
  apply (proj2 (proj2 cs_nil c)). eauto.
Qed.

Lemma cell_one : forall q S s, st pg q = Some S -> In s (all_symbols g) -> ~ accept_cell q s -> length (cell tb q s) = 1.
Proof.
  intros q S s HS Hs Hna. pose proof (cell_le q S s HS Hna). pose proof (cell_nonempty q S s HS Hs). destruct (cell tb q s) as [|e [|]]; simpl in *; auto; [congruence|lia].
Qed.

Lemma entry_item_in : forall S, st pg 0 = Some S -> In (entry_item n) S.
Proof. intros S HS. destruct (gi_entry _ _ _ _ _ gi) as (S0 & H0 & E0). assert (S = S0) as -> by congruence. apply E0. constructor. Qed.

Lemma entry_item_next : symbol_after_dot g (entry_item n) = Some (g_entry g).
Proof. unfold symbol_after_dot, rhs_of. simpl. destruct (wf_entry_rule g wf) as [_ E]. rewrite E. reflexivity. Qed.

(** A reduction in the entry state of a conflict-free LR(0) table. *)
Lemma entry_reduction : forall S it, n = 0 -> st pg 0 = Some S -> In it S -> symbol_after_dot g it = None -> only_empty_entry g.
Proof.
  intros S it En HS Hi Hr.
  assert (forall s, reducing g n S s it) as Hred by (intros s; split; auto; split; auto; lia).
  destruct nc as [N1 N2]. destruct entry_symbol as [i Ei].
  destruct (it_rule it) as [k|] eqn:Ek.
  2: { destruct (entry_rule_item g wf n fs lalr pg au 0 S it HS Hi Ek) as [_ ->]. rewrite entry_item_next in Hr. discriminate. }
  assert (forall x k', In x S -> it_rule x = Some k' -> x = it) as Hall.
  { intros x k' Hx Hk. destruct (symbol_after_dot g x) as [s|] eqn:Es.
    - exfalso. assert (lhs_of g (it_rule x) <> None) as Hl.
      { rewrite Hk. unfold lhs_of. simpl. destruct (ik_rule _ _ _ (state_ok _ _ _ _ _ au _ _ _ HS Hx)) as [r R]. rewrite Hk in R. simpl in R. rewrite R.
        destruct (wf_lhs g wf r (nth_error_In _ _ R)) as (j & Ej & _). congruence. }
      destruct (state_move _ _ _ _ _ au 0 S x s HS Hx Es Hl) as (t & T & He & _). apply (N2 0 S s it t HS (Hred s) He).
    - apply (N1 0 S End x it HS); auto. split; auto. split; auto. lia. }
  assert (forall k' r', nth_error (g_rules g) k' = Some r' -> r_lhs r' = Some i -> k' = k) as Honly.
  { intros k' r' H1 H2. destruct (state_expand _ _ _ _ _ au 0 S (entry_item n) _ k' r' i HS (entry_item_in S HS) entry_item_next H1 H2 Ei) as (las & L1 & L2).
    assert (In [] las) as X. { apply (lookaheads_spec g wf n fs n_le) with (it := entry_item n); auto; [intros; lia|apply entry_item_ok]. }
    specialize (L2 _ X). pose proof (Hall _ k' L2 eq_refl) as Y. rewrite <- Y in Ek. simpl in Ek. congruence. }
  assert (it_dot it = start_dot g k) as Hd by (eapply entry_state_dot; eauto).
  assert (exists r, nth_error (g_rules g) k = Some r) as [r Er].
  { pose proof (ik_rule _ _ _ (state_ok _ _ _ _ _ au _ _ _ HS Hi)) as R. rewrite Ek in R. exact R. }
  destruct (wf_lhs g wf r (nth_error_In _ _ Er)) as (j & Ej & _).
  destruct (parent_item g n fs lalr pg au 0 S it k j HS Hi Ek Hd) as (z & Hz & Ez); [unfold lhs_of; simpl; rewrite Er; auto|].
  assert (j = i) as ->.
  { destruct (it_rule z) as [k'|] eqn:Ekz; [rewrite (Hall z k' Hz Ekz) in Ez; congruence|].
    destruct (entry_rule_item g wf n fs lalr pg au 0 S z HS Hz Ekz) as [_ ->]. rewrite entry_item_next in Ez. congruence. }
  exists i, k, r, (start_dot g k). split; auto. split; auto. split.
  - unfold symbol_after_dot, rhs_of in Hr. rewrite Ek, Hd in Hr. simpl in Hr. unfold start_dot, rhs_of in *. simpl in *. rewrite Er in *. apply nth_error_None in Hr.
    rewrite (lead_eps_repeat (r_rhs r)) at 1. rewrite skipn_all2, app_nil_r; auto.
  - intros k' r' H'. split; [eauto|]. intros ->. congruence.
Qed.

Lemma entry_reduces : n = 0 -> only_empty_entry g -> exists S it, st pg 0 = Some S /\ In it S /\ symbol_after_dot g it = None.
Proof.
  intros En (i & k & r & m & Ei & Er & Em & Hk). destruct (gi_entry _ _ _ _ _ gi) as (S & HS & _).
  assert (r_lhs r = Some i) as El by (apply (Hk k r Er); auto).
  destruct (state_expand _ _ _ _ _ au 0 S (entry_item n) _ k r i HS (entry_item_in S HS) entry_item_next Er El Ei) as (las & L1 & L2).
  assert (In [] las) as X. { apply (lookaheads_spec g wf n fs n_le) with (it := entry_item n); auto; [intros; lia|apply entry_item_ok]. }
  exists S, (init_item g k []). split; auto. split; auto. unfold symbol_after_dot, init_item, start_dot, rhs_of. simpl. rewrite Er, Em.
  apply nth_error_None. rewrite <- (app_nil_r (repeat Epsilon m)) at 2. rewrite lead_eps_spec by auto. rewrite repeat_length. auto.
Qed.

Lemma accept_cell_length : n = 0 -> length (cell tb 0 (g_entry g)) = 2 /\ only_empty_entry g \/ length (cell tb 0 (g_entry g)) = 1 /\ ~ only_empty_entry g.
Proof.
  intros En. destruct (gi_entry _ _ _ _ _ gi) as (S & HS & _).
  assert (In (g_entry g) (columns g)) as Hs by (apply in_or_app; left; apply entry_symbol_in).
  pose proof (cell_eq 0 S (g_entry g) HS Hs) as E. remember (filter (reducing_on g (la_of (g_entry g))) S) as l eqn:Fl.
  assert (length (column_tail g pg 0 (reduces g n S (g_entry g)) (g_entry g)) = 1) as Et.
  { unfold column_tail. destruct (sym_in (g_entry g) (all_symbols g)) as [|X]; [|destruct X; apply entry_symbol_in]. rewrite eqc_refl. reflexivity. }
  rewrite E, app_length, map_length, Et. destruct l as [|it [|it' l]]; cbn [length].
  - right. split; auto. intros X. destruct (entry_reduces En X) as (S' & it & HS' & Hi & Hr). assert (S' = S) as -> by congruence.
    assert (In it []) as []. rewrite Fl. apply (reducing_filter 0 S _ it HS Hs). split; auto. split; auto. lia.
  - left. split; auto. assert (In it [it]) as X by (left; auto). rewrite Fl in X. apply (reducing_filter 0 S _ it HS Hs) in X. destruct X as (A & B & _). eapply entry_reduction; eauto.
  - exfalso. assert (In it (it :: it' :: l)) as X by (left; auto). assert (In it' (it :: it' :: l)) as X' by (right; left; auto).
    assert (NoDup (it :: it' :: l)) as Hnd by (rewrite Fl; apply NoDup_filter, sorted_NoDup; apply (gi_sets _ _ _ _ _ gi 0 S HS)).
    rewrite Fl in X, X'. apply (reducing_filter 0 S _ _ HS Hs) in X. apply (reducing_filter 0 S _ _ HS Hs) in X'.
    rewrite (nc_reduce _ _ _ nc 0 S (g_entry g) it it' HS X X') in Hnd. inversion Hnd; subst. apply H1. left; auto.
Qed.
End Table.
End Conflict.
