(** Conflicts and tables do not depend on hash orders, addresses or the cache. *)
From Coq Require Import List Arith NArith Bool Lia Permutation.
From Verif Require Import Base InputModel GrammarModel GrammarSpec LLModel SetsProof FirstProof LRModel LRSpec BidiProof ItemProof LRItemsProof LRGraphProof AutomatonProof LRTableProof LRWriteProof LRGenProof LRHashModel LRHashSpec LRHashSetProof LRHashGraphProof.
Import ListNotations.
Local Open Scope nat_scope.
Local Open Scope list_scope.

Section Conflicts.
Variable L : layout.
Hypothesis vec : in_a_vector L.
Variable g : grammar.

Definition free_conflict (c : conflict) : Prop := match c with ShiftReduce _ i _ => free i | ReduceReduce _ l => forall i, In i l -> free i end.

Lemma cmp_list_agree : forall l l', (forall x, In x l -> free x) -> (forall x, In x l' -> free x) -> @cmp_list _ (CmpItemAt L) l l' = cmp_list l l'.
Proof.
  induction l as [|a l IH]; intros [|b l'] H H'; auto. cbn [cmp_list]. rewrite (cmp_agree L vec a b (H a (or_introl eq_refl)) (H' b (or_introl eq_refl))). rewrite IH; auto; intros x Hx; [apply H|apply H']; right; auto.
Qed.

Lemma conflict_agree : forall c d, free_conflict c -> free_conflict d -> @cmp _ (CmpConflictAt L) c d = cmp c d.
Proof.
  intros c d Hc Hd.
  assert (forall a b a' b' l l' x x', (forall i, In i l -> free i) -> (forall i, In i l' -> free i) ->
    @cmp_pair _ _ CmpNat (CmpPair (CB := CmpPair (CA := CmpList (CA := CmpItemAt L)))) (a, (b, (l, x))) (a', (b', (l', x'))) =
    cmp_pair (a : nat, (b : nat, (l, x : list symbol))) (a', (b', (l', x')))) as X.
  { intros a b a' b' l l' x x' H1 H2. unfold cmp_pair. cbn [fst snd]. destruct (cmp a a'); auto.
    change (@cmp_pair _ _ CmpNat (CmpPair (CA := CmpList (CA := CmpItemAt L))) (b, (l, x)) (b', (l', x')) = cmp_pair (b, (l, x)) (b', (l', x'))).
    unfold cmp_pair. cbn [fst snd]. destruct (cmp b b'); auto.
    change (@cmp_pair _ _ (CmpList (CA := CmpItemAt L)) _ (l, x) (l', x') = cmp_pair (l, x) (l', x')). unfold cmp_pair. cbn [fst snd].
    change (@cmp _ (CmpList (CA := CmpItemAt L)) l l') with (@cmp_list _ (CmpItemAt L) l l'). change (cmp l l') with (cmp_list l l'). rewrite cmp_list_agree; auto. }
  destruct c as [q i s|q l], d as [q' i' s'|q' l']; apply X; auto; intros y Hy; try (destruct Hy as [<-|[]]; auto); auto.
Qed.

Lemma insert_agree : forall c cs, free_conflict c -> (forall d, In d cs -> free_conflict d) -> @set_insert _ (CmpConflictAt L) c cs = set_insert c cs.
Proof.
  intros c cs Hc. induction cs as [|d cs IH]; intros H; cbn [set_insert]; auto. rewrite conflict_agree; auto; [|apply H; left; auto].
  rewrite IH; auto. intros e He. apply H. right; auto.
Qed.

Definition free_set (cs : list conflict) : Prop := forall d, In d cs -> free_conflict d.

Lemma insert_free : forall c cs, free_conflict c -> free_set cs -> free_set (set_insert c cs).
Proof. intros c cs H1 H2 d Hd. apply set_insert_In in Hd. destruct Hd as [->|Hd]; auto. Qed.

Lemma to_lr0_free : forall x, free x -> free (to_lr0 x).
Proof. intros [r d la] H. exact H. Qed.

Definition conflicts_same (a b : list conflict) : Prop := a = b /\ free_set a.

Lemma lookahead_same : forall pg pg' n q cs e, lg_edges pg' = lg_edges pg -> free_set cs -> (forall x, In x (snd e) -> free x) ->
  rel_res conflicts_same (lookahead_conflicts pg n q cs e) (h_lookahead_conflicts L pg' n q cs e).
Proof.
  intros pg pg' n q cs [la items] Ee Hcs Hf. cbn [snd] in Hf. unfold lookahead_conflicts, h_lookahead_conflicts.
  change (conflicts_by_address L) with (CmpConflictAt L). assert (out_edges pg' q = out_edges pg q) as -> by (unfold out_edges; rewrite Ee; auto).
  destruct items as [|it [|it2 items]].
  - split; auto.
  - assert (free (to_lr0 it)) as Hit by (apply to_lr0_free; apply Hf; left; auto).
    apply (rel_foldM _ _ _ conflicts_same (fun _ => True)); auto; [|split; auto]. intros a b [s t] _ [<- Ha]. cbn [fst].
    destruct (1 <? n); [exact I|]. destruct (n =? 1).
    + destruct la as [|x la]; [exact I|]. destruct (eqc x s); [|split; auto]. rewrite insert_agree; auto. split; auto. apply insert_free; auto.
    + rewrite insert_agree; auto. split; auto. apply insert_free; auto.
  - assert (free_conflict (ReduceReduce q (map to_lr0 (it :: it2 :: items)))) as Hx.
    { intros i Hi. apply in_map_iff in Hi. destruct Hi as (y & <- & Hy). apply to_lr0_free. auto. }
    change (rel_res conflicts_same (Ok (set_insert (ReduceReduce q (map to_lr0 (it :: it2 :: items))) cs)) (Ok (@set_insert _ (CmpConflictAt L) (ReduceReduce q (map to_lr0 (it :: it2 :: items))) cs))).
    rewrite insert_agree; auto. split; auto. apply insert_free; auto.
Qed.

Lemma reducing_items_from : forall (P : item -> Prop) S m, (forall e, In e m -> forall x, In x (snd e) -> P x) -> (forall x, In x S -> symbol_after_dot g x = None -> P x) ->
  forall e, In e (fold_left (add_reducing g) S m) -> forall x, In x (snd e) -> P x.
Proof.
  intros P S. induction S as [|y S IH]; intros m Hm HS; cbn [fold_left]; auto. apply IH; [|intros x Hx; apply HS; right; auto].
  unfold add_reducing. destruct (symbol_after_dot g y) eqn:E; auto.
  assert (forall k v (m : list (list symbol * list item)) e, In e (map_insert k v m) -> e = (k, v) \/ In e m) as X.
  { clear. intros k v m. induction m as [|[k' v'] m IH]; intros e H; cbn [map_insert] in H; [destruct H as [<-|[]]; auto|].
    destruct (cmp k k'); simpl in H |- *; intuition. apply IH in H0. tauto. }
  intros e He x Hx. apply X in He. destruct He as [->|He]; eauto. cbn [snd] in Hx. apply in_app_iff in Hx. destruct Hx as [Hx|[<-|[]]]; [|apply HS; [left; auto|auto]].
  unfold get_or_empty in Hx. destruct (map_get (it_la y) m) as [l|] eqn:El; [|destruct Hx]. 
  assert (forall (m : list (list symbol * list item)) k l, map_get k m = Some l -> exists k', In (k', l) m) as Y.
  { clear. intros m k l. induction m as [|[k' v'] m IH]; intros H; cbn [map_get] in H; [discriminate|]. destruct (cmp k k'); [injection H as ->; exists k'; left; auto|discriminate|]. destruct (IH H) as (k2 & H2). exists k2. right; auto. }
  apply Y in El. destruct El as (k' & El). apply (Hm _ El x Hx).
Qed.

Lemma reducing_items_filter : forall S m, (forall x, In x S -> ~ free x -> symbol_after_dot g x <> None) ->
  fold_left (add_reducing g) S m = fold_left (add_reducing g) (filter freeb S) m.
Proof.
  induction S as [|y S IH]; intros m H; cbn [fold_left filter]; auto. destruct (freeb y) eqn:E; cbn [fold_left].
  - apply IH. intros x Hx. apply H. right; auto.
  - unfold add_reducing at 2. assert (~ free y) as Hy by (intros X; apply freeb_true in X; congruence). specialize (H y (or_introl eq_refl) Hy) as Hs.
    destruct (symbol_after_dot g y); [|congruence]. apply IH. intros x Hx. apply H. right; auto.
Qed.

Lemma state_same : forall pg pg' n q S S' cs, lg_edges pg' = lg_edges pg -> same L S S' -> (forall x, In x S -> ~ free x -> symbol_after_dot g x <> None) -> free_set cs ->
  rel_res conflicts_same (state_conflicts g pg n cs (S, q)) (h_state_conflicts L g pg' n cs (S', q)).
Proof.
  intros pg pg' n q S S' cs Ee Hs Hf Hcs. unfold state_conflicts, h_state_conflicts. cbn [fst snd].
  assert (reducing_items g S' = reducing_items g S) as ->.
  { unfold reducing_items. rewrite (reducing_items_filter S), (reducing_items_filter S'), (same_filter L vec S S' Hs); auto. intros x Hx. apply Hf. apply Hs. auto. }
  apply (rel_foldM _ _ _ conflicts_same (fun e => forall x, In x (snd e) -> free x)).
  - intros a b e He [<- Ha]. apply lookahead_same; auto.
  - apply (reducing_items_from free S []); [intros e []|]. intros x Hx E. destruct (freeb x) eqn:F; [apply freeb_true; auto|]. exfalso. apply (Hf x Hx); auto. intros X. apply freeb_true in X. congruence.
  - split; auto.
Qed.
End Conflicts.

Section Whole.
Variable L : layout.
Hypothesis vec : in_a_vector L.
Variable g : grammar.
Hypothesis wf : wf_grammar g.
Variable n : nat.
Hypothesis n_le : n <= 1.
Variable fs : symbol_sets.
Variable lalr : bool.
Variable pg pg' : lr_graph.
Hypothesis au : automaton g n fs lalr pg.
Hypothesis gr : graphs L pg pg'.

Let gi := au_inv g n fs lalr pg au.

Lemma bound_shifts : forall q S x, st pg q = Some S -> In x S -> ~ free x -> symbol_after_dot g x <> None.
Proof.
  intros q S x H Hx Hf. assert (it_rule x = None) as Hr by (destruct (it_rule x) eqn:E; auto; exfalso; apply Hf; unfold free; congruence).
  destruct (entry_rule_item g wf n fs lalr pg au q S x H Hx Hr) as [_ ->]. unfold symbol_after_dot, rhs_of. simpl. rewrite (proj2 (wf_entry_rule g wf)). discriminate.
Qed.

(** The states of the two graphs. *)
Lemma states_back : forall S' q, In (S', q) (bidi_iter (lg_map pg')) -> st pg q = Some (set_of_list S') /\ same L (set_of_list S') S'.
Proof.
  intros S' q H. unfold bidi_iter in H. destruct (gr_ab _ _ _ gr) as (A & B & C & D & F). assert (same L (set_of_list S') S') as Hs.
  { apply sorted_has_same. apply D. apply in_map_iff. exists (S', q). auto. }
  split; auto. apply (map_get_In (CK := CmpList (CA := CmpItemAt L))) in H; auto. rewrite <- (F _ _ Hs) in H. apply (bo_inv _ (gi_map _ _ _ _ _ gi)). exact H.
Qed.

Lemma states_there : forall S q, st pg q = Some S -> exists S', In (S', q) (bidi_iter (lg_map pg')) /\ set_of_list S' = S.
Proof.
  intros S q H. destruct (gr_ab _ _ _ gr) as (A & B & C & D & F). destruct (gi_sets _ _ _ _ _ gi q S H) as (Hs & _). apply (bo_inv _ (gi_map _ _ _ _ _ gi)) in H.
  pose proof (has_same L S Hs) as X. rewrite (F _ _ X) in H. apply (map_get_In (CK := CmpList (CA := CmpItemAt L))) in H; auto.
  eexists. split; [exact H|]. apply sorted_ext; auto; [apply set_of_list_sorted|]. intros x. rewrite set_of_list_In. symmetry. apply X.
Qed.

Lemma conflict_of_edges : forall p p' q S c, lg_edges p' = lg_edges p -> conflict_of g n p q S c -> conflict_of g n p' q S c.
Proof. intros p p' q S c E H. destruct H as [it s t A B C D F|la it it' A B]; [eapply co_shift; eauto; rewrite E; eauto|eapply co_reduce; eauto]. Qed.

Lemma conflicts_agree : h_find_conflicts L g pg' n = find_conflicts g pg n.
Proof.
  destruct (find_conflicts_of g n n_le fs lalr pg au) as (cs & Ec & Hcs & Ic). rewrite Ec.
  set (l2 := map (fun e => (set_of_list (fst e), snd e)) (bidi_iter (lg_map pg'))).
  set (pg2 := mkGraph (mkBidi l2 []) [] (lg_nodes pg) (lg_edges pg)).
  assert (forall S q, In (S, q) l2 <-> st pg q = Some S) as Hl2.
  { intros S q. unfold l2. rewrite in_map_iff. split.
    - intros ((S' & q') & E & H). cbn [fst snd] in E. injection E as <- <-. apply states_back. auto.
    - intros H. destruct (states_there S q H) as (S' & H1 & H2). exists (S', q). cbn [fst snd]. rewrite H2. auto. }
  destruct (find_conflicts_spec g n n_le pg2) as (cs2 & E2 & S2 & I2).
  { intros S q H. cbn in H. apply Hl2 in H. destruct (gi_sets _ _ _ _ _ gi q S H) as (X & Y & _). auto. }
  assert (cs2 = cs) as ->.
  { apply sorted_ext; auto. intros c. rewrite I2, Ic. split.
    - intros (S & q & H1 & H2). cbn in H1. apply Hl2 in H1. exists q, S. split; auto. revert H2. apply conflict_of_edges. reflexivity.
    - intros (q & S & H1 & H2). exists S, q. split; [cbn; apply Hl2; auto|]. revert H2. apply conflict_of_edges. reflexivity. }
  assert (rel_res conflicts_same (find_conflicts g pg2 n) (h_find_conflicts L g pg' n)) as R.
  { unfold find_conflicts, h_find_conflicts. 
    apply (rel_foldM2 _ _ _ _ conflicts_same (fun e e' => snd e = snd e' /\ same L (fst e) (fst e') /\ st pg (snd e) = Some (fst e))).
    - intros a b [S q] [S' q'] (E & H & H1) [<- Ha]. cbn [fst snd] in *. subst q'. apply state_same; auto; [apply (gr_edges _ _ _ gr)|]. intros x. apply (bound_shifts q S x H1).
    - cbn. assert (forall l, incl l (bidi_iter (lg_map pg')) -> Forall2 (fun e e' : list item * nat => snd e = snd e' /\ same L (fst e) (fst e') /\ st pg (snd e) = Some (fst e)) (map (fun e => (set_of_list (fst e), snd e)) l) l) as X.
      { induction l as [|[S' q] l IH]; intros Hi; cbn [map]; constructor; [|apply IH; intros x Hx; apply Hi; right; auto]. cbn [fst snd].
        destruct (states_back S' q) as [X1 X2]; [apply Hi; left; auto|]. auto. }
      apply X. apply incl_refl.
    - split; auto. intros d []. }
  rewrite E2 in R. destruct (h_find_conflicts L g pg' n) as [cs'|[]| |]; simpl in R; try contradiction. destruct R as [-> _]. reflexivity.
Qed.

Lemma reduces_filter : forall S s, (forall x, In x S -> ~ free x -> symbol_after_dot g x <> None) -> reduces g n S s = reduces g n (filter freeb S) s.
Proof.
  unfold reduces. induction S as [|y S IH]; intros s H; cbn [flat_map filter]; auto. rewrite IH by (intros x Hx; apply H; right; auto). destruct (freeb y) eqn:E; cbn [flat_map]; auto.
  assert (~ free y) as Hy by (intros X; apply freeb_true in X; congruence). specialize (H y (or_introl eq_refl) Hy). unfold red1. destruct (symbol_after_dot g y); [reflexivity|congruence].
Qed.

Lemma table_agree : build_table g pg' n 0 = build_table g pg n 0.
Proof.
  destruct (build_table_of g wf n n_le fs lalr pg au) as (tb & Et & [T1 T2 T3 T4 T5]). rewrite Et. unfold build_table.
  assert (forall S' q, In (S', q) (bidi_iter (lg_map pg')) -> LRItemsProof.all_ok g n S') as Hok.
  { intros S' q H x Hx. destruct (states_back S' q H) as [X1 X2]. destruct (gi_sets _ _ _ _ _ gi _ _ X1) as (_ & Y & _). apply Y. apply X2. auto. }
  assert (NoDup (map snd (bidi_iter (lg_map pg')))) as Hnd.
  { assert (forall l, incl l (bidi_iter (lg_map pg')) -> NoDup (map fst l) -> NoDup (map snd l)) as X.
    { induction l as [|[S' q] l IH]; intros Hi Hn; cbn [map fst snd] in *; [constructor|]. inversion Hn as [|? ? N1 N2]; subst. constructor; [|apply IH; auto; intros x Hx; apply Hi; right; auto].
      intros Hin. apply in_map_iff in Hin. destruct Hin as ((S2 & q2) & E & Hin). cbn [snd] in E. subst q2.
      destruct (states_back S' q) as [A1 A2]; [apply Hi; left; auto|]. destruct (states_back S2 q) as [B1 B2]; [apply Hi; right; auto|].
      apply N1. apply in_map_iff. exists (S2, q). split; auto. cbn [fst]. symmetry. apply (same_eq L _ _ _ _ A2 B2). congruence. }
    apply X; [apply incl_refl|]. destruct (gr_ab _ _ _ gr) as (_ & B & _). apply (@sorted_NoDup _ (CmpList (CA := CmpItemAt L))). exact B. }
  destruct (build_states_cell g wf n n_le pg' (bidi_iter (lg_map pg')) (mkTable [] (lg_nodes pg') 0)) as (tb' & E & A & B & C & D & F); auto.
  { split; cbn [tb_entries]; [apply msorted_nil|discriminate]. }
  rewrite E. f_equal. assert (forall q s, cell tb' q s = cell tb q s) as Hc.
  { intros q s. destruct (st pg q) as [S|] eqn:Eq.
    - rewrite (T4 q S s Eq). destruct (states_there S q Eq) as (S' & H1 & H2). rewrite (D S' q s H1). destruct (states_back S' q H1) as [X1 X2]. rewrite H2 in X2.
      unfold cell_list. assert (reduces g n S' s = reduces g n S s) as ->.
      { rewrite (reduces_filter S'), (reduces_filter S), (same_filter L vec S S' X2); auto; intros x Hx; apply (bound_shifts q S x Eq); auto. apply X2. auto. }
      f_equal. unfold column_tail, target_of, reachable_states, out_edges. rewrite (gr_edges _ _ _ gr). reflexivity.
    - rewrite F.
      + rewrite T5; auto. destruct (Nat.le_gt_cases (lg_nodes pg) q) as [X|X]; auto. apply (gi_nodes _ _ _ _ _ gi) in X. destruct X as (S & X). congruence.
      + intros H. apply in_map_iff in H. destruct H as ((S' & q') & E' & H). cbn [snd] in E'. subst q'. apply states_back in H. destruct H. congruence. }
  destruct tb as [e1 s1 t1], tb' as [e2 s2 t2]. cbn [tb_states tb_entry tb_entries] in *. subst. rewrite (gr_nodes _ _ _ gr). f_equal.
  apply (msorted_ext _ _ CmpPair); [apply A|apply T1|]. intros [q s].
  pose proof (get_entry_cell _ q s A) as G1. pose proof (get_entry_cell _ q s T1) as G2. unfold get_entry in G1, G2. cbn [tb_entries] in G1, G2. rewrite G1, G2. 
  specialize (Hc q s). rewrite Hc. reflexivity.
Qed.
End Whole.

Lemma table_of_any_order : forall L order fuel g n allow lalr, wf_grammar g -> n <= 1 -> in_a_vector L -> iterates order ->
  h_generate_table L order fuel g n allow lalr = generate_table fuel g n allow lalr.
Proof.
  intros L order fuel g n allow lalr wf Hn vec any. unfold h_generate_table, generate_table.
  destruct (if 0 <? n then compute_first_sets fuel g else Ok []) as [fs|[]| |] eqn:Ef; simpl; auto.
  pose proof (generate_graph_same L order g n lalr fs fuel vec any (proj1 (wf_entry_rule g wf))) as R.
  destruct (generate_parser_graph fuel g n lalr fs) as [[e pg]|[]| |] eqn:Eg; destruct (h_generate_parser_graph L order fuel g n lalr fs) as [[e' pg']|[]| |]; simpl in R; try contradiction; simpl; auto.
  destruct R as [E G]. cbn [fst snd] in *. subst e'.
  assert (n = 1 -> sets_ok g fs) as Hfs.
  { intros ->. cbn [Nat.ltb Nat.leb] in Ef. apply fc_ok. eapply compute_first_correct; eauto. }
  destruct (graph_automaton g wf n fs Hn Hfs lalr fuel e pg Eg) as [-> au].
  rewrite (conflicts_agree L vec g wf n Hn fs lalr pg pg' au G). rewrite (table_agree L vec g wf n Hn fs lalr pg pg' au G). reflexivity.
Qed.

Lemma generates_any_order : forall L order fuel g kind allow, wf_grammar g -> in_a_vector L -> iterates order ->
  h_generate_table L order fuel g (kind_n kind) allow (kind_lalr kind) = generates kind fuel g allow.
Proof. intros L order fuel g kind allow wf vec any. apply table_of_any_order; auto. destruct kind; simpl; lia. Qed.

Lemma two_runs : forall L L' order order' fuel g kind allow, wf_grammar g -> in_a_vector L -> in_a_vector L' -> iterates order -> iterates order' ->
  h_generate_table L order fuel g (kind_n kind) allow (kind_lalr kind) = h_generate_table L' order' fuel g (kind_n kind) allow (kind_lalr kind).
Proof. intros. rewrite !generates_any_order; auto. Qed.
