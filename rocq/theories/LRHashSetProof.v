(** Sets of items ordered by addresses against sets ordered by position; expansion of items with a cache. *)
From Coq Require Import List Arith NArith Bool Lia Permutation.
From Verif Require Import Base InputModel GrammarModel LLModel LRModel LRHashModel LRHashSpec.
Import ListNotations.
Local Open Scope nat_scope.
Local Open Scope list_scope.

Lemma msorted_ext : forall K V (CK : Cmp K) (m m' : list (K * V)), msorted m -> msorted m' -> (forall k, map_get k m = map_get k m') -> m = m'.
Proof.
  intros K V CK m. unfold msorted. induction m as [|[k v] m IH]; intros [|[k' v'] m'] Hs Hs' H; auto.
  - specialize (H k'). cbn [map_get] in H. rewrite cmp_refl in H. discriminate.
  - specialize (H k). cbn [map_get] in H. rewrite cmp_refl in H. discriminate.
  - cbn [map fst] in *. inversion Hs as [|? ? H1 H2]; subst. inversion Hs' as [|? ? H1' H2']; subst.
    assert (k = k' /\ v = v') as [<- <-].
    { pose proof (H k) as X. pose proof (H k') as Y. cbn [map_get] in X, Y. rewrite cmp_refl in X, Y. destruct (cmp k k') eqn:E.
      - apply cmp_eq in E. split; auto. congruence.
      - discriminate.
      - apply cmp_Gt in E. rewrite E in Y. discriminate. }
    f_equal. apply IH; auto. intros q. specialize (H q). cbn [map_get] in H. destruct (cmp q k) eqn:E; auto.
    + apply cmp_eq in E. subst. rewrite !map_get_below; auto.
    + rewrite !map_get_below; auto; intros y Hy; eapply cmp_trans; eauto; [apply H2'|apply H2]; auto.
Qed.

(** Results of the same kind, with related values. *)
Definition rel_res {A B} (R : A -> B -> Prop) (r : lres A) (r' : lres B) : Prop :=
  match r, r' with
  | Ok a, Ok b => R a b
  | Panic, Panic => True
  | OutOfFuel, OutOfFuel => True
  | _, _ => False
  end.

Lemma rel_bind : forall A B C D (R : A -> B -> Prop) (Q : C -> D -> Prop) r r' f f', rel_res R r r' ->
  (forall a b, R a b -> rel_res Q (f a) (f' b)) -> rel_res Q (bind r f) (bind r' f').
Proof. intros A B C D R Q [a|[]| |] [b|[]| |] f f' H HF; simpl in *; try contradiction; auto. Qed.

Lemma rel_foldM : forall A B X (R : A -> B -> Prop) (P : X -> Prop) f f' (l : list X) a b, (forall a b x, P x -> R a b -> rel_res R (f a x) (f' b x)) -> (forall x, In x l -> P x) -> R a b ->
  rel_res R (foldM f l a) (foldM f' l b).
Proof.
  intros A B X R P f f' l. induction l as [|x l IH]; intros a b HF HP H; cbn [foldM]; [exact H|].
  eapply rel_bind; [apply HF; eauto; apply HP; left; auto|]. intros a' b' H'. apply IH; auto. intros y Hy. apply HP. right; auto.
Qed.

Lemma rel_foldM2 : forall A B X Y (R : A -> B -> Prop) (P : X -> Y -> Prop) f f' (l : list X) (l' : list Y) a b, (forall a b x y, P x y -> R a b -> rel_res R (f a x) (f' b y)) ->
  Forall2 P l l' -> R a b -> rel_res R (foldM f l a) (foldM f' l' b).
Proof.
  intros A B X Y R P f f' l l' a b HF HP. revert a b. induction HP as [|x y l l' Hxy HP IH]; intros a b H; cbn [foldM]; [exact H|].
  eapply rel_bind; [apply HF; eauto|]. intros a' b' H'. apply IH; auto.
Qed.

Section Sets.
Variable L : layout.
Hypothesis vec : in_a_vector L.

Definition free (x : item) : Prop := it_rule x <> None.
Definition freeb (x : item) : bool := match it_rule x with None => false | Some _ => true end.

Lemma freeb_true : forall x, freeb x = true <-> free x.
Proof. intros x. unfold freeb, free. destruct (it_rule x); split; intros; congruence. Qed.

Definition same (s s' : list item) : Prop := sorted s /\ @sorted _ (CmpItemAt L) s' /\ forall x, In x s <-> In x s'.

Lemma rule_agree : forall i j, cmp (addr L (Some i)) (addr L (Some j)) = cmp (Some i) (Some j).
Proof.
  intros i j. change (cmp (Some i) (Some j)) with (Nat.compare i j). change (cmp (addr L (Some i)) (addr L (Some j))) with (N.compare (addr L (Some i)) (addr L (Some j))).
  destruct (Nat.compare_spec i j) as [->|H|H].
  - apply N.compare_refl.
  - apply N.compare_lt_iff. apply vec. auto.
  - apply N.compare_gt_iff. apply vec. auto.
Qed.

Lemma cmp_agree : forall x y, free x -> free y -> @cmp _ (CmpItemAt L) x y = cmp x y.
Proof.
  intros [[i|] d la] [[j|] d' la'] Hx Hy; try (exfalso; apply Hx; reflexivity); try (exfalso; apply Hy; reflexivity).
  change (@cmp _ (CmpItemAt L) (mkItem (Some i) d la) (mkItem (Some j) d' la')) with (cmp_pair (addr L (Some i), (d, la)) (addr L (Some j), (d', la'))).
  change (cmp (mkItem (Some i) d la) (mkItem (Some j) d' la')) with (cmp_pair (Some i, (d, la)) (Some j, (d', la'))).
  unfold cmp_pair. cbn [fst snd]. rewrite rule_agree. reflexivity.
Qed.

Lemma sorted_free : forall s, (forall x, In x s -> free x) -> (sorted s <-> @sorted _ (CmpItemAt L) s).
Proof.
  induction s as [|x s IH]; intros H; [split; intros; constructor|]. assert (forall y, In y s -> free y) as H' by (intros; apply H; right; auto). specialize (IH H').
  split; intros X; inversion X as [|? ? A B]; subst; constructor; try (apply IH; auto); intros y Hy; specialize (B y Hy); unfold ltc in *; rewrite cmp_agree in * || rewrite <- cmp_agree; auto;
    try (apply H; left; auto). 
Qed.

Lemma same_free : forall s s', same s s' -> (forall x, In x s -> free x) -> s' = s.
Proof.
  intros s s' (A & B & C) H. apply (@sorted_ext _ (CmpItemAt L)); auto.
  - apply sorted_free; auto.
  - intros x. symmetry. apply C.
Qed.

Lemma sorted_filter : forall A (CA : Cmp A) (f : A -> bool) s, sorted s -> sorted (filter f s).
Proof.
  intros A CA f s H. induction H as [|a s H IH Ha]; cbn [filter]; [constructor|]. destruct (f a); auto. constructor; auto.
  intros b Hb. apply filter_In in Hb. apply Ha. tauto.
Qed.

Lemma same_filter : forall s s', same s s' -> filter freeb s' = filter freeb s.
Proof.
  intros s s' (A & B & C). apply same_free; [|intros x Hx; apply filter_In in Hx; apply freeb_true; tauto].
  split; [apply sorted_filter; auto|]. split; [apply sorted_filter; auto|]. intros x. rewrite !filter_In, C. tauto.
Qed.

Lemma same_insert : forall x s s', same s s' -> same (set_insert x s) (@set_insert _ (CmpItemAt L) x s').
Proof.
  intros x s s' (A & B & C). split; [apply set_insert_sorted; auto|]. split; [apply set_insert_sorted; auto|].
  intros y. rewrite (set_insert_In (CA := CmpItem)), (set_insert_In (CA := CmpItemAt L)), C. tauto.
Qed.

Lemma same_mem : forall x s s', same s s' -> @set_mem _ (CmpItemAt L) x s' = set_mem x s.
Proof.
  intros x s s' (A & B & C). apply eq_true_iff_eq. rewrite (set_mem_In (CA := CmpItemAt L)) by auto. rewrite (set_mem_In (CA := CmpItem)) by auto. symmetry. apply C.
Qed.

Lemma same_union : forall l s s' l', same s s' -> (forall x, In x l <-> In x l') -> same (set_union s l) (@set_union _ (CmpItemAt L) s' l').
Proof.
  intros l s s' l' (A & B & C) H. split; [apply set_union_sorted; auto|]. split; [apply set_union_sorted; auto|].
  intros x. rewrite (set_union_In (CA := CmpItem)), (set_union_In (CA := CmpItemAt L)), C, H. tauto.
Qed.

Lemma same_nil : same [] [].
Proof. split; [constructor|]. split; [constructor|]. intros x. tauto. Qed.

Lemma same_of_list : forall l l', (forall x, In x l <-> In x l') -> same (set_of_list l) (@set_of_list _ (CmpItemAt L) l').
Proof. intros l l' H. apply same_union; auto. apply same_nil. Qed.

Lemma same_one : forall x, same [x] [x].
Proof. intros x. split; [constructor; [constructor|intros b []]|]. split; [constructor; [constructor|intros b []]|]. intros y. tauto. Qed.

Lemma same_eq : forall s s' t t', same s s' -> same t t' -> (s = t <-> s' = t').
Proof.
  intros s s' t t' (A & B & C) (A' & B' & C'). split; intros ->.
  - apply (@sorted_ext _ (CmpItemAt L)); auto. intros x. rewrite <- C, <- C'. tauto.
  - apply (@sorted_ext _ CmpItem); auto. intros x. rewrite C, C'. tauto.
Qed.

Lemma sorted_has_same : forall s', @sorted _ (CmpItemAt L) s' -> same (set_of_list s') s'.
Proof. intros s' H. split; [apply set_of_list_sorted|]. split; auto. intros x. apply set_of_list_In. Qed.

Lemma has_same : forall s, sorted s -> same s (@set_of_list _ (CmpItemAt L) s).
Proof. intros s H. split; auto. split; [apply set_of_list_sorted|]. intros x. symmetry. apply (set_of_list_In (CA := CmpItemAt L)). Qed.

Lemma same_core_of : forall s l, (forall x, In x s <-> In x l) -> same (lr0_core s) (h_core L l).
Proof. intros s l H. apply same_of_list. intros x. rewrite !in_map_iff. split; intros (y & E & Hy); exists y; (split; [auto|]); apply H; auto. Qed.

(** ** Expansion *)

Variable g : grammar.
Variable n : nat.
Variable fs : symbol_sets.

Definition stacks (a b : list item * list item) : Prop := same (fst a) (fst b) /\ snd a = snd b.

Lemma expand_lookahead_same : forall k a b la, stacks a b -> rel_res stacks (expand_lookahead g k a la) (h_expand_lookahead L g k b la).
Proof.
  intros k [s t] [s' t'] la [H E]. cbn [fst snd] in *. subst t'. unfold expand_lookahead, h_expand_lookahead. destruct (new_item g k la) as [it|[]| |]; simpl; auto.
  change (@set_mem _ (by_address L) it s') with (@set_mem _ (CmpItemAt L) it s'). rewrite (same_mem it s s' H). destruct (set_mem it s); simpl; split; auto. cbn [fst]. apply same_insert. auto.
Qed.

Lemma expand_top_same : forall top a b, stacks a b -> rel_res stacks (expand_top g n fs top a) (h_expand_top L g n fs top b).
Proof.
  intros top a b H. unfold expand_top, h_expand_top. destruct (symbol_after_dot g top) as [s|]; [|exact H].
  apply (rel_foldM _ _ _ stacks (fun _ => True)); auto. intros a' b' k _ H'. unfold expand_rule, h_expand_rule.
  destruct (determine_lookaheads g n fs top) as [las|[]| |]; simpl; auto. apply (rel_foldM _ _ _ stacks (fun _ => True)); auto.
  intros a2 b2 la _ H2. apply expand_lookahead_same. auto.
Qed.

Lemma expand_loop_same : forall fuel s s' stack, same s s' -> rel_res same (expand_loop fuel g n fs s stack) (h_expand_loop L fuel g n fs s' stack).
Proof.
  induction fuel as [|fuel IH]; intros s s' stack H; cbn [expand_loop h_expand_loop]; [exact I|]. destruct stack as [|top stack]; [exact H|].
  eapply rel_bind; [apply expand_top_same; split; cbn [fst snd]; eauto|]. intros [t u] [t' u'] [H1 H2]. cbn [fst snd] in *. subst u'. apply IH. auto.
Qed.

(** Expansions of items of rules in the vector have no item of the entry rule. *)
Lemma expand_lookahead_free : forall k a la b, (forall x, In x (fst a) -> free x) -> expand_lookahead g k a la = Ok b -> forall x, In x (fst b) -> free x.
Proof.
  intros k [s t] la b H E x Hx. unfold expand_lookahead in E. inv_bind E. destruct (set_mem a s); injection E as <-; cbn [fst] in *; auto.
  apply set_insert_In in Hx. destruct Hx as [->|Hx]; auto. unfold new_item in Hb. inv_bind Hb. injection Hb as <-. discriminate.
Qed.

Lemma foldM_keeps : forall E A X (f : A -> X -> res E A) (P : A -> Prop), (forall a x b, P a -> f a x = Ok b -> P b) -> forall l a b, P a -> foldM f l a = Ok b -> P b.
Proof. intros E A X f P H l. induction l as [|x l IH]; intros a b Ha E'; cbn [foldM] in E'; [injection E' as <-; auto|]. inv_bind E'. eapply IH; [|exact E']. eauto. Qed.

Lemma expand_loop_free : forall fuel s stack r, (forall x, In x s -> free x) -> expand_loop fuel g n fs s stack = Ok r -> forall x, In x r -> free x.
Proof.
  induction fuel as [|fuel IH]; intros s stack r H E; cbn [expand_loop] in E; [discriminate|]. destruct stack as [|top stack]; [injection E as <-; auto|].
  inv_bind E. destruct a as [s1 st1]. eapply IH; [|exact E]. change s1 with (fst (s1, st1)). unfold expand_top in Hb. destruct (symbol_after_dot g top) as [sy|]; [|injection Hb as <- <-; auto].
  revert Hb. apply (foldM_keeps _ _ _ _ (fun a => forall x, In x (fst a) -> free x)); auto. intros a k b Ha Eb. unfold expand_rule in Eb. inv_bind Eb.
  revert Eb. apply (foldM_keeps _ _ _ _ (fun a => forall x, In x (fst a) -> free x)); auto. intros a1 la b1 H1 E1. eapply expand_lookahead_free; eauto.
Qed.

Variable fuel : nat.

(** What the cache knows is what would be computed. *)
Definition cache_ok (c : item_cache) : Prop := @msorted _ _ (CmpItemAt L) c /\
  forall it s', @map_get _ _ (CmpItemAt L) it c = Some s' -> exists s, expand_item fuel g n fs it = Ok s /\ same s s'.

Definition expanded (s : list item) (r : list item * item_cache) : Prop := same s (fst r) /\ cache_ok (snd r).

Lemma expand_item_same : forall c it, cache_ok c -> rel_res expanded (expand_item fuel g n fs it) (h_expand_item L fuel g n fs c it).
Proof.
  intros c it [Hs Hc]. unfold h_expand_item. change (@map_get _ _ (by_address L) it c) with (@map_get _ _ (CmpItemAt L) it c). destruct (@map_get _ _ (CmpItemAt L) it c) as [s'|] eqn:E.
  - destruct (Hc it s' E) as (s & E1 & E2). rewrite E1. split; [exact E2|]. split; auto.
  - pose proof (expand_loop_same fuel [it] [it] [it] (same_one it)) as H. unfold expand_item. destruct (expand_loop fuel g n fs [it] [it]) as [s|[]| |] eqn:E1;
      destruct (h_expand_loop L fuel g n fs [it] [it]) as [s'|[]| |]; simpl in H; try contradiction; simpl; auto.
    split; [exact H|]. split; cbn [snd]; [apply map_insert_sorted; auto|]. intros x t Hx. change (by_address L) with (CmpItemAt L) in Hx. rewrite (map_get_insert (CK := CmpItemAt L)) in Hx by auto. destruct (cmp_dec x it) as [->|]; [|apply Hc; auto].
    injection Hx as <-. exists s. auto.
Qed.

Lemma expand_item_free : forall it s, free it -> expand_item fuel g n fs it = Ok s -> forall x, In x s -> free x.
Proof. intros it s H E. apply (expand_loop_free fuel [it] [it]); auto. intros x [<-|[]]. auto. Qed.
End Sets.
