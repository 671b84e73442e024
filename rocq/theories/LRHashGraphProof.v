(** State graphs built with hash sets, addresses and a cache against the graphs of [LRModel]. *)
From Coq Require Import List Arith NArith Bool Lia Permutation.
From Verif Require Import Base InputModel GrammarModel LLModel LRModel LRHashModel LRHashSpec LRHashSetProof.
Import ListNotations.
Local Open Scope nat_scope.
Local Open Scope list_scope.

Lemma Forall2_insert : forall K V W (CK : Cmp K) (P : V -> W -> Prop) m m' k v w,
  Forall2 (fun e e' => fst e = fst e' /\ P (snd e) (snd e')) m m' -> P v w ->
  Forall2 (fun e e' => fst e = fst e' /\ P (snd e) (snd e')) (map_insert k v m) (map_insert k w m').
Proof.
  intros K V W CK P m m' k v w H Hv. induction H as [|[a b] [a' b'] m m' [E Hb] H IH]; cbn [map_insert]; [repeat constructor; auto|].
  cbn [fst snd] in *. subst a'. destruct (cmp k a); repeat constructor; auto.
Qed.

Lemma Forall2_get : forall K V W (CK : Cmp K) (P : V -> W -> Prop) m m' k,
  Forall2 (fun e e' => fst e = fst e' /\ P (snd e) (snd e')) m m' ->
  match map_get k m, map_get k m' with Some v, Some w => P v w | None, None => True | _, _ => False end.
Proof.
  intros K V W CK P m m' k H. induction H as [|[a b] [a' b'] m m' [E Hb] H IH]; cbn [map_get]; auto.
  cbn [fst snd] in *. subst a'. destruct (cmp k a); auto.
Qed.

Section Graph.
Variable L : layout.
Hypothesis vec : in_a_vector L.
Variable order : hash_order.
Hypothesis any : iterates order.
Variable g : grammar.
Hypothesis entry_lhs : r_lhs (g_entry_rule g) = None.
Variable n : nat.
Variable fs : symbol_sets.
Variable efuel : nat.
Variable lalr : bool.

Notation same := (same L).
Notation cache_ok := (cache_ok L g n fs efuel).

Lemma order_In : forall t l x, In x (order t l) <-> In x l.
Proof. intros t l x. split; apply Permutation_in; [|apply Permutation_sym]; apply any. Qed.

(** ** Transitions *)

Definition alike (s h : list item) : Prop := sorted s /\ (forall x, In x s -> free x) /\ forall x, In x s <-> In x h.
Definition moves_alike (tm tm' : list (symbol * list item)) : Prop := Forall2 (fun e e' => fst e = fst e' /\ alike (snd e) (snd e')) tm tm'.
Definition walk (tm : list (symbol * list item)) (r : list (symbol * list item) * item_cache) : Prop := moves_alike tm (fst r) /\ cache_ok (snd r).

Lemma extend_In : forall h s x, In x (h_extend L h s) <-> In x h \/ In x s.
Proof.
  intros h s x. unfold h_extend. rewrite in_app_iff, filter_In. split; [tauto|]. intros [H|H]; auto.
  destruct (existsb (@eqc _ (by_address L) x) h) eqn:E; [|auto]. apply existsb_exists in E. destruct E as (y & Hy & E). apply eqc_true in E. subst. auto.
Qed.

Lemma advance_free : forall it t, free it -> advance_dot g it = Ok t -> free t.
Proof. intros it t H E. unfold advance_dot in E. destruct (it_dot it <? length (rhs_of g (it_rule it))); [|injection E as <-; auto]. inv_bind E. injection E as <-. exact H. Qed.

Lemma transition_same : forall tm r it, free it -> walk tm r -> rel_res walk (item_transition efuel g n fs tm it) (h_item_transition L efuel g n fs r it).
Proof.
  intros tm [tm' c] it Hf [H1 H2]. cbn [fst snd] in *. unfold item_transition, h_item_transition. destruct (symbol_after_dot g it) as [s|]; [|split; auto].
  destruct (lhs_of g (it_rule it)); [|split; auto]. destruct (advance_dot g it) as [t|[]| |] eqn:Ea; simpl; auto.
  pose proof (advance_free it t Hf Ea) as Ht. pose proof (expand_item_same L g n fs efuel c t H2) as X.
  destruct (expand_item efuel g n fs t) as [set|[]| |] eqn:Ee; destruct (h_expand_item L efuel g n fs c t) as [[set' c']|[]| |]; simpl in X; try contradiction; simpl; auto.
  destruct X as [(Xa & Xb & Xc) X2]. cbn [fst snd] in *. split; cbn [fst snd]; auto. apply Forall2_insert; auto.
  pose proof (Forall2_get _ _ _ _ alike _ _ s H1) as Y. unfold get_or_empty.
  assert (forall a b, alike a b -> alike (set_union a set) (h_extend L b set')) as Z.
  { intros a b (A & B & C). split; [apply set_union_sorted; auto|]. split.
    - intros x Hx. apply set_union_In in Hx. destruct Hx as [Hx|Hx]; auto. eapply expand_item_free; eauto.
    - intros x. rewrite set_union_In, extend_In, C, Xc. tauto. }
  destruct (map_get s tm), (map_get s tm'); try contradiction; auto. apply Z. split; [constructor|]. split; [intros x []|tauto].
Qed.

Lemma skip_bound : forall A (f : A -> item -> lres A), (forall a it, ~ free it -> f a it = Ok a) -> forall l a, foldM f l a = foldM f (filter freeb l) a.
Proof.
  intros A f H l. induction l as [|x l IH]; intros a; cbn [foldM filter]; auto. destruct (freeb x) eqn:E; cbn [foldM].
  - destruct (f a x); simpl; auto.
  - rewrite H; [simpl; auto|]. intros X. apply freeb_true in X. congruence.
Qed.

Lemma bound_lhs : forall it, ~ free it -> lhs_of g (it_rule it) = None.
Proof. intros [[k|] d la] H; [exfalso; apply H; discriminate|]. exact entry_lhs. Qed.

Lemma transitions_same : forall set set' c, same set set' -> cache_ok c ->
  rel_res walk (foldM (item_transition efuel g n fs) set []) (foldM (h_item_transition L efuel g n fs) set' ([], c)).
Proof.
  intros set set' c H Hc. rewrite skip_bound, (skip_bound _ (h_item_transition L efuel g n fs)), (same_filter L vec set set' H).
  - apply (rel_foldM _ _ _ walk free); [intros; apply transition_same; auto|intros x Hx; apply filter_In in Hx; apply freeb_true; tauto|]. split; [constructor|exact Hc].
  - intros [tm c'] it Hit. unfold h_item_transition. rewrite (bound_lhs it Hit). destruct (symbol_after_dot g it); reflexivity.
  - intros tm it Hit. unfold item_transition. rewrite (bound_lhs it Hit). destruct (symbol_after_dot g it); reflexivity.
Qed.

(** ** Maps keyed by sets *)

Definition keyed {V} (m m' : list (list item * V)) : Prop := msorted m /\ @msorted _ _ (CmpList (CA := CmpItemAt L)) m' /\
  (forall s, In s (map fst m) -> sorted s) /\ (forall s', In s' (map fst m') -> @sorted _ (CmpItemAt L) s') /\
  forall s s', same s s' -> map_get s m = @map_get _ _ (CmpList (CA := CmpItemAt L)) s' m'.

Lemma keyed_nil : forall V, @keyed V [] [].
Proof. intros V. split; [apply msorted_nil|]. split; [apply msorted_nil|]. split; [intros s []|]. split; [intros s []|]. auto. Qed.

Lemma keyed_insert : forall V (m m' : list (list item * V)) k k' v, keyed m m' -> same k k' ->
  keyed (map_insert k v m) (@map_insert _ _ (CmpList (CA := CmpItemAt L)) k' v m').
Proof.
  intros V m m' k k' v (A & B & C & D & F) H. split; [apply map_insert_sorted; auto|]. split; [apply map_insert_sorted; auto|]. split; [|split].
  - intros s Hs. apply map_insert_keys in Hs. destruct Hs as [->|Hs]; auto. apply H.
  - intros s Hs. apply (map_insert_keys (CK := CmpList (CA := CmpItemAt L))) in Hs. destruct Hs as [->|Hs]; auto. apply H.
  - intros s s' Hs. rewrite map_get_insert by auto. rewrite (map_get_insert (CK := CmpList (CA := CmpItemAt L))) by auto.
    pose proof (same_eq L s s' k k' Hs H) as X. destruct (cmp_dec s k), (cmp_dec s' k'); auto; tauto.
Qed.

Lemma keyed_remove : forall V (m m' : list (list item * V)) k k', keyed m m' -> same k k' -> keyed (map_remove k m) (@map_remove _ _ (CmpList (CA := CmpItemAt L)) k' m').
Proof.
  intros V m m' k k' (A & B & C & D & F) H. split; [apply map_remove_sorted; auto|]. split; [apply map_remove_sorted; auto|]. split; [|split].
  - intros s Hs. apply in_map_iff in Hs. destruct Hs as ((s1 & v) & <- & Hs). apply map_remove_In in Hs; auto. apply C. apply in_map_iff. exists (s1, v). tauto.
  - intros s Hs. apply in_map_iff in Hs. destruct Hs as ((s1 & v) & <- & Hs). apply (map_remove_In (CK := CmpList (CA := CmpItemAt L))) in Hs; auto. apply D. apply in_map_iff. exists (s1, v). tauto.
  - intros s s' Hs. rewrite map_get_remove by auto. rewrite (map_get_remove (CK := CmpList (CA := CmpItemAt L))) by auto.
    pose proof (same_eq L s s' k k' Hs H) as X. destruct (cmp_dec s k), (cmp_dec s' k'); auto; tauto.
Qed.

Definition valued (m m' : list (nat * list item)) : Prop := Forall2 (fun e e' => fst e = fst e' /\ same (snd e) (snd e')) m m'.

Lemma valued_remove : forall m m' k, valued m m' -> valued (map_remove k m) (map_remove k m').
Proof.
  intros m m' k H. induction H as [|[a b] [a' b'] m m' [E Hb] H IH]; cbn [map_remove]; [constructor|]. cbn [fst snd] in *. subst a'.
  destruct (cmp k a); [exact H|constructor; [split; auto|exact H]|constructor; [split; auto|exact IH]].
Qed.

Record graphs (pg pg' : lr_graph) : Prop := {
  gr_ab : keyed (bd_ab (lg_map pg)) (bd_ab (lg_map pg'));
  gr_ba : valued (bd_ba (lg_map pg)) (bd_ba (lg_map pg'));
  gr_cores : keyed (lg_cores pg) (lg_cores pg');
  gr_nodes : lg_nodes pg' = lg_nodes pg;
  gr_edges : lg_edges pg' = lg_edges pg
}.

Lemma same_items : forall s s', same s s' -> forall x, In x s <-> In x s'.
Proof. intros s s' H. apply H. Qed.

Lemma add_state_same : forall pg pg' s s', graphs pg pg' -> same s s' -> fst (add_state pg s) = fst (h_add_state L pg' s') /\ graphs (snd (add_state pg s)) (snd (h_add_state L pg' s')).
Proof.
  intros pg pg' s s' [A B C D F] H. unfold add_state, h_add_state. cbn [fst snd]. split; [congruence|]. split; cbn [lg_map lg_cores lg_nodes lg_edges bd_ab bd_ba bidi_insert]; auto; try congruence.
  - rewrite D. apply keyed_insert; auto.
  - rewrite D. apply Forall2_insert; auto.
  - rewrite D. apply keyed_insert; auto. apply same_core_of. apply same_items. auto.
Qed.

Lemma transition_graphs : forall pg pg' a b s, graphs pg pg' -> graphs (add_transition pg a b s) (add_transition pg' a b s).
Proof. intros pg pg' a b s [A B C D F]. split; cbn [add_transition lg_map lg_cores lg_nodes lg_edges]; auto. congruence. Qed.

Lemma insert_items_same : forall new s s', same s s' -> same (fst (insert_items new s)) (fst (h_insert_items L new s')) /\ snd (h_insert_items L new s') = snd (insert_items new s).
Proof.
  intros new s s' H. unfold insert_items, h_insert_items.
  assert (forall new a b, same (fst a) (fst b) -> snd b = snd a ->
    let f := fold_left (fun (st : list item * bool) it => (set_insert it (fst st), snd st || negb (set_mem it (fst st)))) new a in
    let f' := fold_left (fun (st : list item * bool) it => (@set_insert _ (CmpItemAt L) it (fst st), snd st || negb (@set_mem _ (CmpItemAt L) it (fst st)))) new b in
    same (fst f) (fst f') /\ snd f' = snd f) as X.
  { clear. induction new as [|x new IH]; intros [a u] [b v] H E; cbn [fold_left fst snd] in *; [auto|]. apply IH; cbn [fst snd].
    - apply same_insert. auto.
    - rewrite (same_mem L x a b H). congruence. }
  apply (X new (s, false) (s', false)); auto.
Qed.

Definition merged (r r' : bool * lr_graph) : Prop := fst r = fst r' /\ graphs (snd r) (snd r').

Lemma merge_same : forall pg pg' q new, graphs pg pg' -> rel_res merged (merge_into_state pg q new) (h_merge_into_state L pg' q new).
Proof.
  intros pg pg' q new [A B C D F]. unfold merge_into_state, h_merge_into_state, bidi_remove_by_b.
  pose proof (Forall2_get _ _ _ _ same _ _ q B) as X. destruct (map_get q (bd_ba (lg_map pg))) as [s|]; destruct (map_get q (bd_ba (lg_map pg'))) as [s'|]; try contradiction; simpl; auto.
  destruct A as (A1 & A2 & A3 & A4 & A5). pose proof (A5 s s' X) as Y. change (CmpList (CA := by_address L)) with (CmpList (CA := CmpItemAt L)). rewrite <- Y.
  destruct (map_get s (bd_ab (lg_map pg))) as [q'|]; simpl; auto. destruct (eqc q q'); simpl; auto.
  pose proof (insert_items_same new s s' X) as [Z1 Z2]. destruct (insert_items new s) as [t b]. destruct (h_insert_items L new s') as [t' b']. cbn [fst snd] in *. subst b'.
  split; cbn [fst snd]; auto. split; cbn [lg_map lg_cores lg_nodes lg_edges bd_ab bd_ba bidi_insert]; auto.
  - apply keyed_insert; auto. apply keyed_remove; auto. split; auto.
  - apply Forall2_insert; auto. apply valued_remove. auto.
  - apply keyed_insert; auto. apply same_core_of. apply same_items. auto.
Qed.

Definition running (a b : lr_graph * list nat) : Prop := graphs (fst a) (fst b) /\ snd a = snd b.

Lemma alike_same : forall s h t, alike s h -> same s (@set_of_list _ (CmpItemAt L) (order t h)) /\ @set_of_list _ (CmpItemAt L) (order t h) = s.
Proof.
  intros s h t (A & B & C). assert (same s (@set_of_list _ (CmpItemAt L) (order t h))) as X.
  { split; auto. split; [apply set_of_list_sorted|]. intros x. rewrite (set_of_list_In (CA := CmpItemAt L)), order_In, C. tauto. }
  split; auto. apply (same_free L vec); auto.
Qed.

Lemma target_same : forall start a b e e', fst e = fst e' /\ alike (snd e) (snd e') -> running a b -> rel_res running (add_target lalr start a e) (h_add_target L order lalr start b e').
Proof.
  intros start [pg todo] [pg' todo'] [s set] [s' h] [E H] [H1 H2]. cbn [fst snd] in *. subst s' todo'. unfold add_target, h_add_target. cbv zeta.
  change (by_address L) with (CmpItemAt L). destruct lalr.
  - set (t := 2 * length (lg_edges pg')). pose proof (gr_cores _ _ H1) as (_ & _ & _ & _ & X). rewrite (X (lr0_core set) (h_hash_core L order t h)).
    2: { apply same_of_list. intros x. rewrite !in_map_iff. destruct H as (_ & _ & C). split; intros (y & E & Hy); exists y; (split; [auto|]); [apply order_In|apply order_In in Hy]; apply C; auto. }
    destruct (alike_same set h (t + 1) H) as [Y Z]. destruct (@map_get _ _ (CmpList (CA := CmpItemAt L)) (h_hash_core L order t h) (lg_cores pg')) as [q|].
    + rewrite Z. eapply rel_bind; [apply merge_same; eauto|]. intros [b1 p1] [b2 p2] [E2 Hg]. cbn [fst snd] in *. subst b2. split; cbn [fst snd]; auto. apply transition_graphs. auto.
    + rewrite Z. rewrite Z in Y. destruct (add_state_same pg pg' set set H1 Y) as [E2 Hg]. destruct (add_state pg set) as [q p1]. destruct (h_add_state L pg' set) as [q' p1']. cbn [fst snd] in *. subst q'.
      split; cbn [fst snd]; auto. apply transition_graphs. auto.
  - set (t := 2 * length (lg_edges pg')). destruct (alike_same set h t H) as [Y Z]. rewrite Z. rewrite Z in Y. unfold bidi_get_a_to_b.
    pose proof (gr_ab _ _ H1) as (_ & _ & _ & _ & X). rewrite (X set set Y). destruct (@map_get _ _ (CmpList (CA := CmpItemAt L)) set (bd_ab (lg_map pg'))) as [q|].
    + split; cbn [fst snd]; auto. apply transition_graphs. auto.
    + destruct (add_state_same pg pg' set set H1 Y) as [E2 Hg]. destruct (add_state pg set) as [q p1]. destruct (h_add_state L pg' set) as [q' p1']. cbn [fst snd] in *. subst q'.
      split; cbn [fst snd]; auto. apply transition_graphs. auto.
Qed.

Lemma graph_loop_same : forall fuel pg pg' c todo, graphs pg pg' -> cache_ok c ->
  rel_res graphs (graph_loop fuel efuel g n lalr fs pg todo) (h_graph_loop L order fuel efuel g n lalr fs c pg' todo).
Proof.
  induction fuel as [|fuel IH]; intros pg pg' c todo H Hc; cbn [graph_loop h_graph_loop]; [exact I|]. destruct todo as [|start todo]; [exact H|].
  unfold bidi_get_b_to_a. pose proof (Forall2_get _ _ _ _ same _ _ start (gr_ba _ _ H)) as X.
  destruct (map_get start (bd_ba (lg_map pg))) as [s|]; destruct (map_get start (bd_ba (lg_map pg'))) as [s'|]; try contradiction; simpl; auto.
  eapply rel_bind; [apply transitions_same; eauto|]. intros tm [tm' c'] [H1 H2]. cbn [fst snd] in *.
  eapply rel_bind.
  - apply (rel_foldM2 _ _ _ _ running _ _ _ _ _ (pg, todo) (pg', todo)) with (2 := H1); [|split; auto]. intros a b e e' He Hab. apply target_same; auto.
  - intros [p1 t1] [p2 t2] [G1 G2]. cbn [fst snd] in *. subst t2. apply IH; auto.
Qed.
End Graph.

Definition entered (r r' : nat * lr_graph) (L : layout) : Prop := fst r = fst r' /\ graphs L (snd r) (snd r').

Lemma generate_graph_same : forall L order g n lalr fs fuel, in_a_vector L -> iterates order -> r_lhs (g_entry_rule g) = None ->
  rel_res (fun r r' => entered r r' L) (generate_parser_graph fuel g n lalr fs) (h_generate_parser_graph L order fuel g n lalr fs).
Proof.
  intros L order g n lalr fs fuel vec any El. unfold generate_parser_graph, h_generate_parser_graph. eapply rel_bind.
  - apply (expand_item_same L g n fs fuel []). split; [apply msorted_nil|]. intros it s'. discriminate.
  - intros s [s' c] [H1 H2]. cbn [fst snd] in *. assert (graphs L empty_graph empty_graph) as H0.
    { split; auto; [apply keyed_nil|constructor|apply keyed_nil]. }
    destruct (add_state_same L empty_graph empty_graph s s' H0 H1) as [E G]. destruct (add_state empty_graph s) as [q p1]. destruct (h_add_state L empty_graph s') as [q' p1']. cbn [fst snd] in *. subst q'.
    eapply rel_bind; [apply graph_loop_same; eauto|]. intros a b Hab. split; auto.
Qed.
