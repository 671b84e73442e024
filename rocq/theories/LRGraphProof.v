(** The state graph: invariant of the construction, termination, and the facts used later on. *)
From Coq Require Import String List Arith NArith Bool Lia.
From Verif Require Import Base InputModel GrammarModel GrammarSpec GrammarProof LLModel LLSpec SententialProof SetsProof FirstProof LRModel LRSpec BidiProof ItemProof LRItemsProof.
Import ListNotations.
Local Open Scope nat_scope.
Local Open Scope list_scope.

Lemma insert_items_acc : forall new set b set' b', sorted set ->
  fold_left (fun st it => (set_insert it (fst st), snd st || negb (set_mem it (fst st)))) new (set, b) = (set', b') ->
  sorted set' /\ (forall x : item, In x set' <-> In x set \/ In x new) /\ (b' = b /\ set' = set \/ b' = true /\ length set < length set').
Proof.
  induction new as [|it new IH]; intros set b set' b' Hs H; cbn [fold_left fst snd] in H.
  - injection H as <- <-. split; auto. split; [intros x; simpl; tauto|]. left; auto.
  - apply IH in H; [|apply set_insert_sorted; auto]. destruct H as (A & B & C). split; auto. split.
    + intros x. rewrite B, set_insert_In. simpl. split; intuition.
    + destruct (set_mem it set) eqn:M.
      * apply set_mem_In in M; auto. rewrite (set_insert_same _ _ Hs M) in C. rewrite orb_false_r in C. auto.
      * assert (~ In it set) as Hn by (intros X; apply set_mem_In in X; auto; congruence). rewrite (set_insert_length _ it set Hs Hn) in C.
        right. destruct C as [[-> ->]|[-> C]].
        -- rewrite orb_true_r. rewrite set_insert_length by auto. split; auto.
        -- split; auto. lia.
Qed.

Lemma insert_items_spec : forall new set set' b, sorted set -> insert_items new set = (set', b) ->
  sorted set' /\ (forall x, In x set' <-> In x set \/ In x new) /\ (b = false /\ set' = set \/ b = true /\ length set < length set').
Proof. intros new set set' b Hs H. apply (insert_items_acc new set false set' b Hs H). Qed.

(** Sums over the states *)
Definition sum_to (f : nat -> nat) (m : nat) : nat := list_sum (map f (seq 0 m)).

Lemma sum_to_S : forall f m, sum_to f (S m) = sum_to f m + f m.
Proof. intros f m. unfold sum_to. rewrite seq_S, map_app, list_sum_app. simpl. lia. Qed.

Lemma sum_to_le : forall f h m, (forall q, q < m -> f q <= h q) -> sum_to f m <= sum_to h m.
Proof. intros f h m. induction m as [|m IH]; intros H; [unfold sum_to; simpl; lia|]. rewrite !sum_to_S. pose proof (H m (Nat.lt_succ_diag_r m)). pose proof (IH (fun q Hq => H q (Nat.lt_lt_succ_r _ _ Hq))). lia. Qed.

Lemma sum_to_lt : forall f h m t, (forall q, q < m -> f q <= h q) -> t < m -> f t < h t -> sum_to f m < sum_to h m.
Proof.
  intros f h m t. induction m as [|m IH]; intros H Ht Hlt; [lia|]. rewrite !sum_to_S.
  pose proof (H m (Nat.lt_succ_diag_r m)). pose proof (sum_to_le f h m (fun q Hq => H q (Nat.lt_lt_succ_r _ _ Hq))).
  destruct (Nat.eq_dec t m) as [->|Hne]; [lia|]. assert (sum_to f m < sum_to h m) by (apply IH; [auto|lia|auto]). lia.
Qed.

Lemma sum_to_bound : forall f m b, (forall q, q < m -> f q <= b) -> sum_to f m <= m * b.
Proof. intros f m b. induction m as [|m IH]; intros H; [unfold sum_to; simpl; lia|]. rewrite sum_to_S. pose proof (H m (Nat.lt_succ_diag_r m)). pose proof (IH (fun q Hq => H q (Nat.lt_lt_succ_r _ _ Hq))). lia. Qed.

(** Boolean vectors *)
Fixpoint vectors (k : nat) : list (list bool) := match k with 0 => [[]] | S k => map (cons true) (vectors k) ++ map (cons false) (vectors k) end.
Lemma vectors_length : forall k, length (vectors k) = 2 ^ k.
Proof. induction k as [|k IH]; simpl; auto. rewrite app_length, !map_length, IH. lia. Qed.
Lemma vectors_In : forall l, In l (vectors (length l)).
Proof. induction l as [|b l IH]; simpl; auto. apply in_or_app. destruct b; [left|right]; apply in_map; auto. Qed.

Section LRGraph.
Variable g : grammar.
Hypothesis wf : wf_grammar g.
Variable n : nat.
Variable fs : symbol_sets.
Hypothesis n_le : n <= 1.
Hypothesis fs_ok : n = 1 -> sets_ok g fs.
Variable lalr : bool.

Notation clo := (clo g n fs).
Notation expands := (expands g n fs).
Notation trans := (trans g n fs).
Notation moves := (moves g).
Notation item_ok := (item_ok g n).
Notation all_ok := (all_ok g n).

Definition st (pg : lr_graph) (q : nat) : option (list item) := bidi_get_b_to_a q (lg_map pg).

Definition size_of (pg : lr_graph) (q : nat) : nat := match st pg q with Some l => length l | None => 0 end.

(** Items a state must have, given the edges. *)
Inductive lv (pg : lr_graph) : nat -> item -> Prop :=
| lv_entry : forall x, clo (entry_item n) x -> lv pg 0 x
| lv_move : forall p s q it x, lv pg p it -> symbol_after_dot g it = Some s -> lhs_of g (it_rule it) <> None -> In (p, s, q) (lg_edges pg) ->
    clo (adv it) x -> lv pg q x.

Definition same_core (P Q : item -> Prop) : Prop := forall c, core_of P c <-> core_of Q c.
Definition has (S : list item) : item -> Prop := fun x => In x S.

Record ginv (pg : lr_graph) : Prop := {
  gi_map : bidi_ok (lg_map pg);
  gi_cores : msorted (lg_cores pg);
  gi_nodes : forall q, (exists S, st pg q = Some S) <-> q < lg_nodes pg;
  gi_sets : forall q S, st pg q = Some S -> sorted S /\ all_ok S /\ (forall x y, In x S -> expands x y -> In y S) /\ forall x, In x S -> fine g n fs x;
  gi_core : lalr = true -> forall c q, map_get c (lg_cores pg) = Some q <-> exists S, st pg q = Some S /\ c = lr0_core S;
  gi_edge : forall q s t, In (q, s, t) (lg_edges pg) -> exists S T, st pg q = Some S /\ st pg t = Some T /\
    same_core (has T) (trans S s) /\ (exists it, moves S s it) /\ (lalr = false -> forall x, In x T <-> trans S s x);
  gi_reach : forall q, q < lg_nodes pg -> q = 0 \/ exists p s, p < q /\ In (p, s, q) (lg_edges pg);
  gi_entry : exists S, st pg 0 = Some S /\ forall x, In x S <-> clo (entry_item n) x;
  gi_lv : forall q S x, st pg q = Some S -> In x S -> lv pg q x
}.

Definition complete (pg : lr_graph) (q : nat) (S : list item) : Prop :=
  forall s it, moves S s it -> exists t T, In (q, s, t) (lg_edges pg) /\ st pg t = Some T /\ forall x, trans S s x -> In x T.

Definition grows (pg pg' : lr_graph) : Prop :=
  lg_nodes pg <= lg_nodes pg' /\ incl (lg_edges pg) (lg_edges pg') /\
  forall q S, st pg q = Some S -> exists S', st pg' q = Some S' /\ incl S S' /\ lr0_core S' = lr0_core S /\ (lalr = false -> S' = S).

Lemma grows_refl : forall pg, grows pg pg.
Proof. intros pg. split; [lia|]. split; [intros x; auto|]. intros q S H. exists S. split; auto. split; [intros x; auto|auto]. Qed.

Lemma grows_trans : forall a b c, grows a b -> grows b c -> grows a c.
Proof.
  intros a b c (A1 & A2 & A3) (B1 & B2 & B3). split; [lia|]. split; [intros x Hx; auto|]. intros q S H.
  destruct (A3 q S H) as (S' & H' & I' & C' & L'). destruct (B3 q S' H') as (S'' & H'' & I'' & C'' & L''). exists S''. split; auto.
  split; [intros x Hx; auto|]. split; [congruence|]. intros E. rewrite L'', L'; auto.
Qed.

Lemma lv_mono : forall pg pg' q x, incl (lg_edges pg) (lg_edges pg') -> lv pg q x -> lv pg' q x.
Proof. intros pg pg' q x H Hl. induction Hl as [x Hx|p s q it x Hp IH H1 H2 H3 H4]; [apply lv_entry; auto|]. eapply lv_move; eauto. Qed.

Lemma same_core_list : forall S T, lr0_core S = lr0_core T -> same_core (has S) (has T).
Proof. intros S T H c. unfold has. rewrite <- !lr0_core_In. rewrite H. tauto. Qed.

Lemma list_same_core : forall S T, same_core (has S) (has T) -> lr0_core S = lr0_core T.
Proof. intros S T H. apply lr0_core_ext. exact H. Qed.

Lemma same_core_trans : forall S S' s, all_ok S -> all_ok S' -> lr0_core S = lr0_core S' -> same_core (trans S s) (trans S' s).
Proof.
  intros S S' s HS HS' H c. pose proof (same_core_list S S' H) as X. split; apply trans_core; auto; intros c' Hc'; apply X; exact Hc'.
Qed.

Lemma sc_sym : forall P Q, same_core P Q -> same_core Q P.
Proof. intros P Q H c. rewrite (H c). tauto. Qed.
Lemma sc_trans : forall P Q R, same_core P Q -> same_core Q R -> same_core P R.
Proof. intros P Q R H1 H2 c. rewrite (H1 c). apply H2. Qed.
Lemma sc_ext : forall P Q : item -> Prop, (forall x, P x <-> Q x) -> same_core P Q.
Proof. intros P Q H c. unfold core_of. split; intros (y & A & B); exists y; split; auto; apply H; auto. Qed.

Lemma moves_core : forall S S' s, lr0_core S = lr0_core S' -> (exists it, moves S s it) -> exists it, moves S' s it.
Proof.
  intros S S' s H (it & A & B & C). destruct (proj1 (same_core_list S S' H (to_lr0 it))) as (it' & A' & E'); [exists it; auto|].
  exists it'. split; auto. split; [rewrite (core_symbol g it' it); auto|]. apply to_lr0_fields in E'. destruct E' as [E1 _]. rewrite E1. auto.
Qed.

(** Edges stay sound when states grow. *)
Lemma edge_grows : forall pg pg' q s t, ginv pg -> (forall q S, st pg' q = Some S -> all_ok S) -> grows pg pg' -> In (q, s, t) (lg_edges pg) ->
  exists S T, st pg' q = Some S /\ st pg' t = Some T /\ same_core (has T) (trans S s) /\ (exists it, moves S s it) /\ (lalr = false -> forall x, In x T <-> trans S s x).
Proof.
  intros pg pg' q s t Hi Hok (G1 & G2 & G3) He. destruct (gi_edge pg Hi q s t He) as (S & T & HS & HT & HC & HM & HL).
  destruct (G3 q S HS) as (S' & HS' & IS & CS & LS). destruct (G3 t T HT) as (T' & HT' & IT & CT & LT).
  exists S', T'. split; auto. split; auto. split; [|split].
  - eapply sc_trans; [apply same_core_list; exact CT|]. eapply sc_trans; [exact HC|]. apply same_core_trans; auto.
    + apply (gi_sets pg Hi q S HS).
    + apply (Hok q); auto.
  - eapply moves_core; [|exact HM]. auto.
  - intros E. rewrite LS, LT; auto.
Qed.

(** ** Adding a state *)

Lemma closed_trans : forall S s x y, trans S s x -> expands x y -> trans S s y.
Proof. intros S s x y (it & A & B) H. exists it. split; auto. eapply clo_step; eauto. Qed.

Record target (pg : lr_graph) (start : nat) (set : list item) (s : symbol) (T0 : list item) : Prop := {
  tg_start : exists S, st pg start = Some S /\ incl set S /\ lr0_core S = lr0_core set /\ (lalr = false -> S = set);
  tg_sorted : sorted T0;
  tg_items : forall x, In x T0 <-> trans set s x;
  tg_moves : exists it, moves set s it;
  tg_fine : forall x, In x T0 -> fine g n fs x
}.

Record stepped (pg : lr_graph) (todo : list nat) (start : nat) (s : symbol) (T0 : list item) (pg' : lr_graph) (todo' : list nat) : Prop := {
  sp_inv : ginv pg';
  sp_grows : grows pg pg';
  sp_edge : exists t T, In (start, s, t) (lg_edges pg') /\ st pg' t = Some T /\ incl T0 T;
  sp_todo : incl todo todo';
  sp_new : forall q S, st pg' q = Some S -> ~ In q todo' -> st pg q = Some S;
  sp_nodes : (forall q, In q todo -> q < lg_nodes pg) -> forall q, In q todo' -> q < lg_nodes pg';
  sp_only : forall e, In e (lg_edges pg') -> In e (lg_edges pg) \/ fst (fst e) = start;
  sp_grow_todo : length todo' + lg_nodes pg + sum_to (size_of pg) (lg_nodes pg)
               <= length todo + lg_nodes pg' + sum_to (size_of pg') (lg_nodes pg')
}.

Definition weight (pg : lr_graph) : nat := lg_nodes pg + sum_to (size_of pg) (lg_nodes pg).

Lemma set_all_ok : forall pg start set s T0, ginv pg -> target pg start set s T0 -> all_ok set /\ all_ok T0 /\ forall x y, In x T0 -> expands x y -> In y T0.
Proof.
  intros pg start set s T0 Hi [(S & HS & IS & CS & LS) B C D F]. assert (all_ok set) as Hset by (intros x Hx; apply (gi_sets pg Hi start S HS); auto).
  split; auto. split.
  - intros x Hx. apply C in Hx. eapply trans_ok; eauto.
  - intros x y Hx He. apply C. apply C in Hx. eapply closed_trans; eauto.
Qed.

Lemma st_fresh : forall pg, ginv pg -> st pg (lg_nodes pg) = None.
Proof. intros pg Hi. destruct (st pg (lg_nodes pg)) as [S|] eqn:E; auto. assert (lg_nodes pg < lg_nodes pg) by (apply (gi_nodes pg Hi); eauto). lia. Qed.

Lemma add_new_state : forall pg todo start set s T0, ginv pg -> target pg start set s T0 ->
  bidi_get_a_to_b T0 (lg_map pg) = None -> (lalr = true -> map_get (lr0_core T0) (lg_cores pg) = None) ->
  let '(state, pg1) := add_state pg T0 in stepped pg todo start s T0 (add_transition pg1 start state s) (state :: todo).
Proof.
  intros pg todo start set s T0 Hi Ht Hfresh Hcore. destruct (set_all_ok _ _ _ _ _ Hi Ht) as (Oset & OT0 & CT0).
  unfold add_state. set (pg' := add_transition _ _ _ _).
  assert (forall q, st pg' q = if cmp_dec q (lg_nodes pg) then Some T0 else st pg q) as Hst.
  { intros q. unfold pg', add_transition, st, bidi_get_b_to_a, bidi_insert. cbn [lg_map bd_ba]. apply map_get_insert. apply (gi_map pg Hi). }
  assert (st pg' (lg_nodes pg) = Some T0) as Hnew by (rewrite Hst; destruct (cmp_dec _ _); congruence).
  assert (forall q S, st pg q = Some S -> st pg' q = Some S) as Hold.
  { intros q S H. rewrite Hst. destruct (cmp_dec q (lg_nodes pg)) as [->|]; auto. rewrite st_fresh in H; auto. discriminate. }
  assert (forall q S, st pg' q = Some S -> st pg q = Some S \/ (q = lg_nodes pg /\ S = T0)) as Hinv.
  { intros q S H. rewrite Hst in H. destruct (cmp_dec q (lg_nodes pg)) as [->|]; auto. injection H as <-. auto. }
  assert (grows pg pg') as HG.
  { split; [simpl; lia|]. split; [intros x Hx; right; auto|]. intros q S H. exists S. split; auto. split; [intros x; auto|auto]. }
  assert (forall q S, st pg' q = Some S -> sorted S /\ all_ok S /\ (forall x y, In x S -> expands x y -> In y S) /\ forall x, In x S -> fine g n fs x) as Hsets.
  { intros q S H. destruct (Hinv q S H) as [H'|[-> ->]]; [apply (gi_sets pg Hi q S H')|]. split; [apply (tg_sorted _ _ _ _ _ Ht)|]. split; auto. split; auto. apply (tg_fine _ _ _ _ _ Ht). }
  destruct (tg_start _ _ _ _ _ Ht) as (S0 & HS0 & IS0 & CS0 & LS0).
  assert (start < lg_nodes pg) as Hstart by (apply (gi_nodes pg Hi); eauto).
  split.
  - split.
    + unfold pg', add_transition. cbn [lg_map]. apply bidi_insert_ok; [apply (gi_map pg Hi)|exact Hfresh|]. apply (st_fresh pg Hi).
    + unfold pg', add_transition. cbn [lg_cores]. apply map_insert_sorted. apply (gi_cores pg Hi).
    + intros q. change (lg_nodes pg') with (S (lg_nodes pg)). split.
      * intros [S H]. destruct (Hinv q S H) as [H'|[-> _]]; [|lia]. assert (q < lg_nodes pg) by (apply (gi_nodes pg Hi); eauto). lia.
      * intros H. destruct (Nat.eq_dec q (lg_nodes pg)) as [->|Hne]; [eauto|]. assert (q < lg_nodes pg) as Hq by lia. apply (gi_nodes pg Hi) in Hq.
        destruct Hq as [S HS]. exists S. auto.
    + exact Hsets.
    + intros El c q. unfold pg' at 1, add_transition. cbn [lg_cores]. rewrite map_get_insert by apply (gi_cores pg Hi).
      pose proof (gi_core pg Hi El) as GC. destruct (cmp_dec c (lr0_core T0)) as [->|Hne].
      * split.
        -- intros [= <-]. exists T0. auto.
        -- intros (S & HS & E). destruct (Hinv q S HS) as [HS'|[-> _]]; auto. exfalso.
           assert (map_get (lr0_core T0) (lg_cores pg) = Some q) by (apply GC; eauto). rewrite (Hcore El) in H. discriminate.
      * rewrite GC. split.
        -- intros (S & HS & E). exists S. auto.
        -- intros (S & HS & E). destruct (Hinv q S HS) as [HS'|[-> ->]]; [eauto|contradiction].
    + intros q s' t [E|He].
      * injection E as <- <- <-. exists S0, T0. split; [auto|]. split; [auto|]. split; [|split].
        -- eapply sc_trans; [apply sc_ext, (tg_items _ _ _ _ _ Ht)|]. apply same_core_trans; auto. apply (gi_sets pg Hi start S0 HS0).
        -- eapply moves_core; [|apply (tg_moves _ _ _ _ _ Ht)]. auto.
        -- intros E. rewrite (LS0 E). apply (tg_items _ _ _ _ _ Ht).
      * eapply edge_grows; eauto. intros q0 S H. apply (Hsets q0 S H).
    + intros q Hq. change (lg_nodes pg') with (S (lg_nodes pg)) in Hq. destruct (Nat.eq_dec q (lg_nodes pg)) as [->|Hne].
      * right. exists start, s. split; auto. left; auto.
      * destruct (gi_reach pg Hi q) as [?|(p & s' & A & B)]; [lia|auto|]. right. exists p, s'. split; auto. right; auto.
    + destruct (gi_entry pg Hi) as (S & A & B). exists S. auto.
    + intros q S x H Hx. destruct (Hinv q S H) as [H'|[-> ->]].
      * eapply lv_mono; [|eapply (gi_lv pg Hi); eauto]. intros e He; right; auto.
      * apply (tg_items _ _ _ _ _ Ht) in Hx. destruct Hx as (it & (A & B & C) & D). eapply lv_move; [|exact B|exact C|left; reflexivity|exact D].
        eapply lv_mono; [|eapply (gi_lv pg Hi); [exact HS0|apply IS0, A]]. intros e He; right; auto.
  - exact HG.
  - exists (lg_nodes pg), T0. split; [left; auto|]. split; [auto|intros x; auto].
  - intros q Hq. right; auto.
  - intros q S H Hn. destruct (Hinv q S H) as [H'|[-> ->]]; auto. destruct Hn. left; auto.
  - intros HB q [<-|Hq]; change (lg_nodes pg') with (S (lg_nodes pg)); [lia|]. apply HB in Hq. lia.
  - intros e [<-|He]; auto.
  - change (lg_nodes pg') with (S (lg_nodes pg)). rewrite sum_to_S. simpl length.
    assert (sum_to (size_of pg) (lg_nodes pg) <= sum_to (size_of pg') (lg_nodes pg)) as X.
    { apply sum_to_le. intros q Hq. unfold size_of. destruct (st pg q) as [S|] eqn:E; [rewrite (Hold q S E)|]; lia. }
    lia.
Qed.

Lemma add_old_edge : forall pg todo start set s T0 state, ginv pg -> target pg start set s T0 -> lalr = false ->
  bidi_get_a_to_b T0 (lg_map pg) = Some state -> stepped pg todo start s T0 (add_transition pg start state s) todo.
Proof.
  intros pg todo start set s T0 state Hi Ht El Hs. set (pg' := add_transition pg start state s).
  assert (st pg state = Some T0) as HT by (apply (bo_inv _ (gi_map pg Hi)); exact Hs).
  destruct (tg_start _ _ _ _ _ Ht) as (S0 & HS0 & IS0 & CS0 & LS0). specialize (LS0 El). subst S0.
  destruct (set_all_ok _ _ _ _ _ Hi Ht) as (Oset & OT0 & CT0).
  split.
  - split; try apply Hi.
    + intros q s' t [E|He].
      * injection E as <- <- <-. exists set, T0. split; [auto|]. split; [auto|]. split; [|split].
        -- apply sc_ext, (tg_items _ _ _ _ _ Ht).
        -- apply (tg_moves _ _ _ _ _ Ht).
        -- intros E. apply (tg_items _ _ _ _ _ Ht).
      * apply (gi_edge pg Hi _ _ _ He).
    + intros q Hq. destruct (gi_reach pg Hi q Hq) as [?|(p & s' & A & B)]; auto. right. exists p, s'. split; auto. right; auto.
    + intros q S x H Hx. eapply lv_mono; [|eapply (gi_lv pg Hi); eauto]. intros e He; right; auto.
  - split; [simpl; lia|]. split; [intros x Hx; right; auto|]. intros q S H. exists S. split; auto. split; [intros x; auto|auto].
  - exists state, T0. split; [left; auto|]. split; [auto|intros x; auto].
  - intros q; auto.
  - intros q S H _. exact H.
  - intros HB q Hq. apply HB. auto.
  - intros e [<-|He]; auto.
  - apply Nat.le_refl.
Qed.

Lemma merge_state : forall pg todo start set s T0 state b pg1, ginv pg -> target pg start set s T0 -> lalr = true ->
  map_get (lr0_core T0) (lg_cores pg) = Some state -> merge_into_state pg state T0 = Ok (b, pg1) ->
  stepped pg todo start s T0 (add_transition pg1 start state s) (if b then state :: todo else todo).
Proof.
  intros pg todo start set s T0 state b pg1 Hi Ht El Hc Hm. destruct (set_all_ok _ _ _ _ _ Hi Ht) as (Oset & OT0 & CT0).
  pose proof (gi_core pg Hi El) as GC. apply GC in Hc. destruct Hc as (S1 & HS1 & Ec).
  unfold merge_into_state in Hm. pose proof (bidi_remove_spec Empty_set state (lg_map pg) (gi_map pg Hi)) as HR.
  unfold st, bidi_get_b_to_a in HS1. rewrite HS1 in HR. destruct HR as (m' & HR & Hm' & Ra & Rb). rewrite HR in Hm. cbn [bind] in Hm.
  destruct (insert_items T0 S1) as [S2 b2] eqn:EI. injection Hm as <- <-.
  destruct (gi_sets pg Hi state S1 HS1) as (Ss1 & OS1 & CS1 & FS1). destruct (insert_items_spec _ _ _ _ Ss1 EI) as (Ss2 & IS2 & HB).
  assert (lr0_core S2 = lr0_core S1) as EC2.
  { apply list_same_core. intros c. split.
    - intros (y & Hy & <-). apply IS2 in Hy. destruct Hy as [Hy|Hy]; [exists y; auto|]. apply (same_core_list T0 S1 Ec). exists y. auto.
    - intros (y & Hy & <-). exists y. split; auto. apply IS2. auto. }
  set (pg' := add_transition _ _ _ _).
  assert (forall q, st pg' q = if cmp_dec q state then Some S2 else st pg q) as Hst.
  { intros q. unfold pg', add_transition, st, bidi_get_b_to_a, bidi_insert. cbn [lg_map bd_ba]. rewrite map_get_insert by apply Hm'. rewrite Rb.
    destruct (cmp_dec q state); auto. }
  assert (st pg' state = Some S2) as Hnew by (rewrite Hst; destruct (cmp_dec _ _); congruence).
  assert (forall q, q <> state -> st pg' q = st pg q) as Hold by (intros q Hq; rewrite Hst; destruct (cmp_dec q state); congruence).
  assert (forall q S, st pg' q = Some S -> (q <> state /\ st pg q = Some S) \/ (q = state /\ S = S2)) as Hinv.
  { intros q S H. rewrite Hst in H. destruct (cmp_dec q state) as [->|]; auto. injection H as <-. auto. }
  assert (grows pg pg') as HG.
  { split; [simpl; lia|]. split; [intros x Hx; right; auto|]. intros q S H. rewrite Hst. destruct (cmp_dec q state) as [->|].
    - exists S2. split; auto. unfold st, bidi_get_b_to_a in H. rewrite HS1 in H. injection H as <-. split; [intros x Hx; apply IS2; auto|]. split; auto. congruence.
    - exists S. split; auto. split; [intros x; auto|auto]. }
  assert (forall q S, st pg' q = Some S -> sorted S /\ all_ok S /\ (forall x y, In x S -> expands x y -> In y S) /\ forall x, In x S -> fine g n fs x) as Hsets.
  { intros q S H. destruct (Hinv q S H) as [[_ H']|[-> ->]]; [apply (gi_sets pg Hi q S H')|]. split; auto. split.
    - intros x Hx. apply IS2 in Hx. destruct Hx; auto.
    - split; [|intros x Hx; apply IS2 in Hx; destruct Hx as [Hx|Hx]; [apply FS1; auto|apply (tg_fine _ _ _ _ _ Ht); auto]].
      intros x y Hx He. apply IS2. apply IS2 in Hx. destruct Hx as [Hx|Hx]; [left; eapply CS1; eauto|right; eapply CT0; eauto]. }
  destruct (tg_start _ _ _ _ _ Ht) as (S0 & HS0 & IS0 & CS0 & LS0).
  destruct (proj2 (proj2 HG) start S0 HS0) as (S0' & HS0' & IS0' & CS0' & _).
  split.
  - split.
    + unfold pg', add_transition. cbn [lg_map]. apply bidi_insert_ok; auto.
      * rewrite Ra. destruct (cmp_dec S2 S1) as [|Hne]; auto. destruct (map_get S2 (bd_ab (lg_map pg))) as [q|] eqn:E; auto. exfalso.
        apply (bo_inv _ (gi_map pg Hi)) in E. assert (q = state) as ->.
        { assert (map_get (lr0_core S2) (lg_cores pg) = Some q) as X1 by (apply GC; exists S2; auto).
          assert (map_get (lr0_core S2) (lg_cores pg) = Some state) as X2 by (apply GC; exists S1; auto). congruence. }
        rewrite HS1 in E. congruence.
      * rewrite Rb. destruct (cmp_dec state state); congruence.
    + unfold pg', add_transition. cbn [lg_cores]. apply map_insert_sorted. apply (gi_cores pg Hi).
    + intros q. change (lg_nodes pg') with (lg_nodes pg). rewrite <- (gi_nodes pg Hi). rewrite Hst. destruct (cmp_dec q state) as [->|]; [|tauto].
      split; eauto.
    + exact Hsets.
    + intros _ c q. unfold pg' at 1, add_transition. cbn [lg_cores]. rewrite map_get_insert by apply (gi_cores pg Hi).
      rewrite EC2. destruct (cmp_dec c (lr0_core S1)) as [->|Hne].
      * split.
        -- intros [= <-]. exists S2. auto.
        -- intros (S & HS & E). destruct (Hinv q S HS) as [[Hq HS']|[-> _]]; auto. exfalso. apply Hq.
           assert (map_get (lr0_core S1) (lg_cores pg) = Some q) as X1 by (apply GC; eauto).
           assert (map_get (lr0_core S1) (lg_cores pg) = Some state) as X2 by (apply GC; exists S1; auto). congruence.
      * rewrite GC. split.
        -- intros (S & HS & E). exists S. rewrite Hst. destruct (cmp_dec q state) as [->|]; auto. unfold st, bidi_get_b_to_a in HS. rewrite HS1 in HS. congruence.
        -- intros (S & HS & E). destruct (Hinv q S HS) as [[_ HS']|[-> ->]]; [eauto|]. congruence.
    + intros q s' t [E|He].
      * injection E as <- <- <-. exists S0', S2. split; [auto|]. split; [auto|]. split; [|split].
        -- eapply sc_trans; [apply same_core_list; rewrite EC2; symmetry; exact Ec|]. eapply sc_trans; [apply sc_ext, (tg_items _ _ _ _ _ Ht)|].
           apply same_core_trans; auto; [apply (Hsets start S0' HS0')|congruence].
        -- eapply moves_core; [|apply (tg_moves _ _ _ _ _ Ht)]. congruence.
        -- congruence.
      * eapply edge_grows; eauto. intros q0 S H. apply (Hsets q0 S H).
    + intros q Hq. destruct (gi_reach pg Hi q Hq) as [?|(p & s' & A & B)]; auto. right. exists p, s'. split; auto. right; auto.
    + destruct (gi_entry pg Hi) as (S & A & B). exists S. split; auto. rewrite Hst. destruct (cmp_dec 0 state) as [<-|]; auto. exfalso.
      assert (S1 = S) as -> by (unfold st, bidi_get_b_to_a in A; congruence).
      destruct (proj1 (same_core_list S T0 (eq_sym Ec) (to_lr0 (entry_item n)))) as (y & Hy & Ey).
      * exists (entry_item n). split; auto. apply B. constructor.
      * apply (tg_items _ _ _ _ _ Ht) in Hy. apply (trans_rule g wf n fs _ _ _ Hy). apply to_lr0_fields in Ey. apply Ey.
    + intros q S x H Hx. destruct (Hinv q S H) as [[_ H']|[-> ->]].
      * eapply lv_mono; [|eapply (gi_lv pg Hi); eauto]. intros e He; right; auto.
      * apply IS2 in Hx. destruct Hx as [Hx|Hx].
        -- eapply lv_mono; [|eapply (gi_lv pg Hi); [exact HS1|exact Hx]]. intros e He; right; auto.
        -- apply (tg_items _ _ _ _ _ Ht) in Hx. destruct Hx as (it & (A & B & C) & D). eapply lv_move; [|exact B|exact C|left; reflexivity|exact D].
           eapply lv_mono; [|eapply (gi_lv pg Hi); [exact HS0|apply IS0, A]]. intros e He; right; auto.
  - exact HG.
  - exists state, S2. split; [left; auto|]. split; [auto|intros x Hx; apply IS2; auto].
  - intros q Hq. destruct b2; [right|]; auto.
  - intros q S H Hn. destruct (Hinv q S H) as [[_ H']|[-> ->]]; auto. destruct HB as [[-> ->]|[-> _]]; auto. destruct Hn. left; auto.
  - intros HT q Hq. change (lg_nodes pg') with (lg_nodes pg). destruct b2; auto. destruct Hq as [<-|Hq]; auto. apply (gi_nodes pg Hi). exists S1. auto.
  - intros e [<-|He]; auto.
  - change (lg_nodes pg') with (lg_nodes pg).
    assert (forall q, q < lg_nodes pg -> size_of pg q <= size_of pg' q) as X.
    { intros q Hq. unfold size_of. destruct (Nat.eq_dec q state) as [->|Hne]; [|rewrite Hold; auto]. rewrite Hnew. unfold st, bidi_get_b_to_a. rewrite HS1. destruct HB as [[_ ->]|[_ ?]]; lia. }
    destruct HB as [[-> ->]|[-> HB]].
    + pose proof (sum_to_le _ _ (lg_nodes pg) X). lia.
    + assert (state < lg_nodes pg) as Hst' by (apply (gi_nodes pg Hi); exists S1; auto).
      pose proof (sum_to_lt _ _ (lg_nodes pg) state X Hst') as Y. unfold size_of at 1 2 in Y. rewrite Hnew in Y. unfold st at 1, bidi_get_b_to_a at 1 in Y. rewrite HS1 in Y.
      specialize (Y HB). simpl length. lia.
Qed.

Lemma merge_total : forall pg start set s T0 state, ginv pg -> target pg start set s T0 -> lalr = true ->
  map_get (lr0_core T0) (lg_cores pg) = Some state -> exists b pg1, merge_into_state pg state T0 = Ok (b, pg1).
Proof.
  intros pg start set s T0 state Hi Ht El Hc. apply (gi_core pg Hi El) in Hc. destruct Hc as (S1 & HS1 & Ec).
  unfold merge_into_state. pose proof (bidi_remove_spec Empty_set state (lg_map pg) (gi_map pg Hi)) as HR.
  unfold st, bidi_get_b_to_a in HS1. rewrite HS1 in HR. destruct HR as (m' & HR & _). rewrite HR. cbn [bind]. destruct (insert_items T0 S1). eauto.
Qed.

Lemma add_target_spec : forall pg todo start set s T0, ginv pg -> target pg start set s T0 ->
  exists pg' todo', add_target lalr start (pg, todo) (s, T0) = Ok (pg', todo') /\ stepped pg todo start s T0 pg' todo'.
Proof.
  intros pg todo start set s T0 Hi Ht. unfold add_target. destruct lalr eqn:El.
  - destruct (map_get (lr0_core T0) (lg_cores pg)) as [state|] eqn:E.
    + destruct (merge_total _ _ _ _ _ _ Hi Ht El E) as (b & pg1 & Hm). rewrite Hm. cbn [bind]. eexists. eexists. split; [reflexivity|].
      eapply merge_state; eauto.
    + pose proof (add_new_state pg todo start set s T0 Hi Ht) as X. destruct (add_state pg T0) as [state pg1]. eexists. eexists. split; [reflexivity|]. apply X; auto.
      destruct (bidi_get_a_to_b T0 (lg_map pg)) as [q|] eqn:E'; auto. exfalso. apply (bo_inv _ (gi_map pg Hi)) in E'.
      assert (map_get (lr0_core T0) (lg_cores pg) = Some q) by (apply (gi_core pg Hi El); exists T0; auto). congruence.
  - destruct (bidi_get_a_to_b T0 (lg_map pg)) as [state|] eqn:E.
    + eexists. eexists. split; [reflexivity|]. eapply add_old_edge; eauto.
    + pose proof (add_new_state pg todo start set s T0 Hi Ht) as X. destruct (add_state pg T0) as [state pg1]. eexists. eexists. split; [reflexivity|]. apply X; auto. congruence.
Qed.

(** ** One state *)

Definition start_at (pg : lr_graph) (start : nat) (set : list item) : Prop :=
  exists S, st pg start = Some S /\ incl set S /\ lr0_core S = lr0_core set /\ (lalr = false -> S = set).

Lemma start_at_grows : forall pg pg' start set, grows pg pg' -> start_at pg start set -> start_at pg' start set.
Proof.
  intros pg pg' start set (_ & _ & G) (S & A & B & C & D). destruct (G _ _ A) as (S' & A' & B' & C' & D'). exists S'. split; auto.
  split; [intros x Hx; auto|]. split; [congruence|]. intros E. rewrite D', D; auto.
Qed.

Record walked (pg : lr_graph) (todo : list nat) (start : nat) (l : list (symbol * list item)) (pg' : lr_graph) (todo' : list nat) : Prop := {
  wk_inv : ginv pg';
  wk_grows : grows pg pg';
  wk_edge : forall s T0, In (s, T0) l -> exists t T, In (start, s, t) (lg_edges pg') /\ st pg' t = Some T /\ incl T0 T;
  wk_todo : incl todo todo';
  wk_new : forall q S, st pg' q = Some S -> ~ In q todo' -> st pg q = Some S;
  wk_nodes : (forall q, In q todo -> q < lg_nodes pg) -> forall q, In q todo' -> q < lg_nodes pg';
  wk_weight : length todo' + weight pg <= length todo + weight pg'
}.

Lemma add_targets_spec : forall start set l pg todo, ginv pg -> start_at pg start set ->
  (forall s T0, In (s, T0) l -> sorted T0 /\ (forall x, In x T0 <-> trans set s x) /\ (exists it, moves set s it) /\ forall x, In x T0 -> fine g n fs x) ->
  exists pg' todo', foldM (add_target lalr start) l (pg, todo) = Ok (pg', todo') /\ walked pg todo start l pg' todo'.
Proof.
  intros start set l. induction l as [|[s T0] l IH]; intros pg todo Hi Hs Hl; cbn [foldM].
  - exists pg, todo. split; auto. split; auto; try (intros ? ? []); [apply grows_refl|intros x; auto].
  - destruct (Hl s T0) as (L1 & L2 & L3 & L4); [left; auto|]. assert (target pg start set s T0) as Ht by (split; auto).
    destruct (add_target_spec pg todo start set s T0 Hi Ht) as (pg1 & todo1 & E1 & [A B C D E F _ G]). rewrite E1. cbn [bind].
    destruct (IH pg1 todo1 A) as (pg2 & todo2 & E2 & [A' B' C' D' E' F' G']).
    { eapply start_at_grows; eauto. }
    { intros s' T' Hin. apply Hl. right; auto. }
    exists pg2, todo2. split; auto. split; auto.
    + eapply grows_trans; eauto.
    + intros s' T' [Heq|Hin]; [|eauto]. injection Heq as <- <-. destruct C as (t & T & C1 & C2 & C3). destruct B' as (_ & B2 & B3).
      destruct (B3 t T C2) as (T2 & HT2 & IT2 & _). exists t, T2. split; [apply B2; auto|]. split; [auto|intros x Hx; auto].
    + intros q Hq; auto.
    + unfold weight in *. lia.
Qed.

(** ** The loop *)

Record tinv (pg : lr_graph) (todo : list nat) : Prop := {
  ti_nodes : forall q, In q todo -> q < lg_nodes pg;
  ti_done : forall q S, st pg q = Some S -> ~ In q todo -> complete pg q S
}.

Lemma complete_grows : forall pg pg' q S, grows pg pg' -> complete pg q S -> complete pg' q S.
Proof.
  intros pg pg' q S (_ & G2 & G3) H s it Hm. destruct (H s it Hm) as (t & T & A & B & C). destruct (G3 t T B) as (T' & B' & I & _).
  exists t, T'. split; [apply G2; auto|]. split; auto.
Qed.

Lemma one_state : forall efuel pg start todo set tm, ginv pg -> tinv pg (start :: todo) -> st pg start = Some set ->
  foldM (item_transition efuel g n fs) set [] = Ok tm ->
  exists pg' todo', foldM (add_target lalr start) tm (pg, todo) = Ok (pg', todo') /\ ginv pg' /\ tinv pg' todo' /\ length todo' + weight pg <= length todo + weight pg'.
Proof.
  intros efuel pg start todo set tm Hi [T1 T2] Hset Htm. apply transitions_spec in Htm; auto. destruct Htm as [Hms Htm].
  destruct (add_targets_spec start set tm pg todo Hi) as (pg' & todo' & HE & [A B C D E F G]).
  - exists set. split; auto. split; [intros x; auto|auto].
  - intros s T0 Hin. apply map_get_In in Hin; auto. specialize (Htm s). rewrite Hin in Htm. exact Htm.
  - exists pg', todo'. split; auto. split; auto. split; [|exact G]. split.
    + apply F. intros q Hq. apply T1. right; auto.
    + intros q S HS Hn. pose proof (E q S HS Hn) as HS0. destruct (Nat.eq_dec q start) as [->|Hne].
      * assert (S = set) as -> by congruence. intros s it Hm. specialize (Htm s). destruct (map_get s tm) as [T0|] eqn:Es; [|destruct (Htm _ Hm)].
        destruct Htm as (_ & H2 & _). apply map_get_In in Es; auto. destruct (C s T0 Es) as (t & T & C1 & C2 & C3). exists t, T. split; auto. split; auto.
        intros x Hx. apply C3, H2. auto.
      * eapply complete_grows; [exact B|]. apply T2; auto. intros [?|X]; [congruence|]. apply Hn, D. auto.
Qed.

Lemma graph_loop_inv : forall fuel efuel pg todo pg', ginv pg -> tinv pg todo -> graph_loop fuel efuel g n lalr fs pg todo = Ok pg' -> ginv pg' /\ tinv pg' [].
Proof.
  induction fuel as [|fuel IH]; intros efuel pg todo pg' Hi Ht H; cbn [graph_loop] in H; [discriminate|].
  destruct todo as [|start todo]; [injection H as <-; auto|].
  destruct (bidi_get_b_to_a start (lg_map pg)) as [set|] eqn:Es; [|discriminate]. inv_bind H. rename a into tm.
  destruct (one_state _ _ _ _ _ _ Hi Ht Es Hb) as (pg1 & todo1 & E & Hi1 & Ht1 & _). rewrite E in H. cbn [bind] in H. eapply IH; eauto.
Qed.

(** ** The number of states *)

Definition bits (S : list item) : list bool := map (fun u => set_mem u S) (all_items g n).

Lemma bits_inj : forall S S', sorted S -> sorted S' -> all_ok S -> all_ok S' -> bits S = bits S' -> S = S'.
Proof.
  intros S S' H1 H2 O1 O2 H. assert (forall u, item_ok u -> set_mem u S = set_mem u S') as X.
  { intros u Hu. apply all_items_In in Hu. unfold bits in H. revert H Hu. generalize (all_items g n) as l. induction l as [|a l IH]; intros H Hu; [destruct Hu|].
    simpl in H. injection H as E H. destruct Hu as [->|Hu]; auto. }
  apply sorted_ext; auto. intros x. split; intros Hx.
  - apply set_mem_In; auto. rewrite <- X by auto. apply set_mem_In; auto.
  - apply set_mem_In; auto. rewrite X by auto. apply set_mem_In; auto.
Qed.

Lemma nodes_bound : forall pg, ginv pg -> lg_nodes pg <= 2 ^ length (all_items g n).
Proof.
  intros pg Hi. rewrite <- vectors_length. set (f := fun q => match st pg q with Some l => bits l | None => [] end).
  assert (length (map f (seq 0 (lg_nodes pg))) = lg_nodes pg) as L by (rewrite map_length, seq_length; auto). rewrite <- L.
  apply NoDup_incl_length.
  - assert (forall l, NoDup l -> (forall q, In q l -> q < lg_nodes pg) -> NoDup (map f l)) as X.
    { induction l as [|q l IH]; intros Hn Hb; simpl; [constructor|]. inversion Hn; subst. constructor.
      - intros Hin. apply in_map_iff in Hin. destruct Hin as (q' & Ef & Hq'). assert (q < lg_nodes pg) as Hq1 by (apply Hb; left; auto).
        assert (q' < lg_nodes pg) as Hq2 by (apply Hb; right; auto). apply (gi_nodes pg Hi) in Hq1. apply (gi_nodes pg Hi) in Hq2.
        destruct Hq1 as [S1 HS1], Hq2 as [S2 HS2]. unfold f in Ef. rewrite HS1, HS2 in Ef.
        destruct (gi_sets pg Hi _ _ HS1) as (A1 & B1 & _). destruct (gi_sets pg Hi _ _ HS2) as (A2 & B2 & _).
        apply bits_inj in Ef; auto. subst S2. apply (bo_inv _ (gi_map pg Hi)) in HS1. apply (bo_inv _ (gi_map pg Hi)) in HS2.
        assert (q = q') by congruence. congruence.
      - apply IH; auto. intros q' Hq'. apply Hb. right; auto. }
    apply X; [apply seq_NoDup|]. intros q Hq. apply in_seq in Hq. lia.
  - intros v Hv. apply in_map_iff in Hv. destruct Hv as (q & <- & Hq). apply in_seq in Hq. assert (q < lg_nodes pg) as Hq1 by lia. apply (gi_nodes pg Hi) in Hq1.
    destruct Hq1 as [S1 HS1]. unfold f. rewrite HS1. replace (length (all_items g n)) with (length (bits S1)); [apply vectors_In|]. unfold bits. apply map_length.
Qed.

Definition weight_bound : nat := 2 ^ length (all_items g n) * S (length (all_items g n)).

Lemma weight_le : forall pg, ginv pg -> weight pg <= weight_bound.
Proof.
  intros pg Hi. unfold weight, weight_bound. pose proof (nodes_bound pg Hi) as X.
  assert (sum_to (size_of pg) (lg_nodes pg) <= lg_nodes pg * length (all_items g n)) as Y.
  { apply sum_to_bound. intros q Hq. unfold size_of. destruct (st pg q) as [l|] eqn:E; [|lia]. destruct (gi_sets pg Hi _ _ E) as (A & B & _).
    apply NoDup_incl_length; [apply sorted_NoDup; auto|]. intros x Hx. apply all_items_In. auto. }
  nia.
Qed.

(** ** Fuel *)

Lemma items_closed : forall x y, In x (all_items g n) -> expands x y -> In y (all_items g n).
Proof. intros x y Hx He. apply all_items_In. apply all_items_In in Hx. eapply lookaheads_ok; eauto. Qed.

Lemma transitions_fuel : forall efuel set tm, all_ok set -> length (all_items g n) < efuel -> foldM (item_transition efuel g n fs) set tm <> OutOfFuel.
Proof.
  intros efuel set. induction set as [|it set IH]; intros tm Hok Hf; cbn [foldM]; [discriminate|].
  assert (item_transition efuel g n fs tm it <> OutOfFuel) as X.
  { unfold item_transition. destruct (symbol_after_dot g it) as [s|] eqn:Es; [|discriminate]. destruct (lhs_of g (it_rule it)); [|discriminate].
    destruct (advance_dot g it) as [it'| | |] eqn:Ea; cbn [bind]; try discriminate.
    - assert (it' = adv it) as -> by (eapply advance_dot_spec; eauto).
      assert (expand_item efuel g n fs (adv it) <> OutOfFuel) as Y.
      { apply (expand_item_fuel g n fs (all_items g n)); auto; [apply items_closed|]. apply all_items_In. eapply adv_ok; eauto. apply Hok. left; auto. }
      destruct (expand_item efuel g n fs (adv it)); cbn [bind]; try discriminate. contradiction.
    - unfold advance_dot, add_u8 in Ea. destruct (it_dot it <? length (rhs_of g (it_rule it))); [|discriminate]. destruct (it_dot it + 1 <? 256); discriminate. }
  destruct (item_transition efuel g n fs tm it) as [tm'| | |]; cbn [bind]; try discriminate; [|contradiction]. apply IH; auto. intros x Hx. apply Hok. right; auto.
Qed.

Lemma graph_loop_fuel : forall fuel efuel pg todo, ginv pg -> tinv pg todo -> length (all_items g n) < efuel -> length todo + weight_bound < fuel + weight pg ->
  graph_loop fuel efuel g n lalr fs pg todo <> OutOfFuel.
Proof.
  induction fuel as [|fuel IH]; intros efuel pg todo Hi Ht He Hf.
  - pose proof (weight_le pg Hi). lia.
  - cbn [graph_loop]. destruct todo as [|start todo]; [discriminate|]. destruct (bidi_get_b_to_a start (lg_map pg)) as [set|] eqn:Es; [|discriminate].
    pose proof (transitions_fuel efuel set [] (proj1 (proj2 (gi_sets pg Hi start set Es))) He) as X.
    destruct (foldM (item_transition efuel g n fs) set []) as [tm| | |] eqn:Etm; cbn [bind]; try discriminate; [|contradiction].
    destruct (one_state _ _ _ _ _ _ Hi Ht Es Etm) as (pg1 & todo1 & E & Hi1 & Ht1 & Hw). rewrite E. cbn [bind]. apply IH; auto. simpl in Hf. lia.
Qed.

(** ** The initial graph *)

Lemma initial_inv : forall fuel set, expand_item fuel g n fs (entry_item n) = Ok set ->
  let '(entry, pg) := add_state empty_graph set in entry = 0 /\ ginv pg /\ tinv pg [entry].
Proof.
  intros fuel set H. apply expand_item_spec in H. destruct H as (Hs & Hc & Hf). unfold add_state. set (pg := mkGraph _ _ _ _). split; [reflexivity|].
  assert (st pg 0 = Some set) as H0 by reflexivity.
  assert (forall q S, st pg q = Some S -> q = 0 /\ S = set) as Hinv.
  { intros q S Hq. unfold st, bidi_get_b_to_a, pg in Hq. cbn [lg_map bidi_insert bd_ba lg_nodes empty_graph] in Hq.
    rewrite map_get_insert in Hq by apply msorted_nil. destruct (cmp_dec q 0) as [->|]; [injection Hq as <-; auto|discriminate]. }
  assert (all_ok set) as Hok by (intros x Hx; apply Hc in Hx; eapply clo_ok; eauto; apply entry_item_ok; auto).
  split.
  - split.
    + unfold pg. cbn [lg_map]. apply bidi_insert_ok; [apply bidi_new_ok|reflexivity|reflexivity].
    + unfold pg. cbn [lg_cores]. apply map_insert_sorted, msorted_nil.
    + intros q. change (lg_nodes pg) with 1. split; [intros [S Hq]; destruct (Hinv q S Hq); lia|]. intros Hq. assert (q = 0) as -> by lia. eauto.
    + intros q S Hq. destruct (Hinv q S Hq) as [-> ->]. split; auto. split; auto. split; auto. intros x y Hx He. apply Hc. apply Hc in Hx. eapply clo_step; eauto.
    + intros _ c q. unfold pg at 1. cbn [lg_cores empty_graph]. rewrite map_get_insert by apply msorted_nil. destruct (cmp_dec c (lr0_core set)) as [->|Hne].
      * split; [intros [= <-]; eauto|]. intros (S & A & B). destruct (Hinv q S A) as [-> _]. auto.
      * split; [discriminate|]. intros (S & A & B). destruct (Hinv q S A) as [-> ->]. contradiction.
    + intros q s t [].
    + intros q Hq. change (lg_nodes pg) with 1 in Hq. lia.
    + exists set. auto.
    + intros q S x Hq Hx. destruct (Hinv q S Hq) as [-> ->]. apply lv_entry, Hc. auto.
  - split.
    + intros q [<-|[]]. simpl. lia.
    + intros q S Hq Hn. destruct (Hinv q S Hq) as [-> ->]. destruct Hn. left; auto.
Qed.

(** ** The finished graph *)

Record automaton (pg : lr_graph) : Prop := {
  au_inv : ginv pg;
  au_complete : forall q S, st pg q = Some S -> complete pg q S
}.

Lemma graph_automaton : forall fuel entry pg, generate_parser_graph fuel g n lalr fs = Ok (entry, pg) -> entry = 0 /\ automaton pg.
Proof.
  intros fuel entry pg H. unfold generate_parser_graph in H. inv_bind H. rename a into set. pose proof (initial_inv _ _ Hb) as X.
  destruct (add_state empty_graph set) as [e pg0]. destruct X as (-> & Hi & Ht). inv_bind H. injection H as <- <-. split; auto.
  destruct (graph_loop_inv _ _ _ _ _ Hi Ht Hb0) as [A [_ B]]. split; auto.
Qed.

Definition graph_fuel : nat := S (S (length (all_items g n) + weight_bound)).

Lemma generate_graph_fuel : forall fuel, graph_fuel <= fuel -> generate_parser_graph fuel g n lalr fs <> OutOfFuel.
Proof.
  intros fuel Hf. unfold graph_fuel in Hf. unfold generate_parser_graph.
  assert (expand_item fuel g n fs (entry_item n) <> OutOfFuel) as X.
  { apply (expand_item_fuel g n fs (all_items g n)); [apply items_closed|apply all_items_In, entry_item_ok|lia]. }
  destruct (expand_item fuel g n fs (entry_item n)) as [set| | |] eqn:E; cbn [bind]; try discriminate; [|contradiction].
  pose proof (initial_inv _ _ E) as Y. destruct (add_state empty_graph set) as [e pg0]. destruct Y as (-> & Hi & Ht).
  assert (graph_loop fuel fuel g n lalr fs pg0 [0] <> OutOfFuel) as Z by (apply graph_loop_fuel; auto; simpl; lia).
  destruct (graph_loop fuel fuel g n lalr fs pg0 [0]); cbn [bind]; try discriminate. contradiction.
Qed.

(** ** No panic *)

Section NoPanic.
Hypothesis eps : epsilon_in_front g.
Hypothesis fit : rhs_fit g.

Lemma rhs_of_fit : forall k, length (rhs_of g k) <= 255.
Proof.
  intros [k|]; unfold rhs_of; simpl.
  - destruct (nth_error (g_rules g) k) eqn:E; [|simpl; lia]. apply nth_error_In in E. apply fit. auto.
  - destruct (wf_entry_rule g wf) as [_ ->]. simpl. lia.
Qed.

(** After a symbol other than [Epsilon] no [Epsilon] follows. *)
Lemma no_later_epsilon : forall k d s d' s', nth_error (rhs_of g k) d = Some s -> s <> Epsilon -> d <= d' -> nth_error (rhs_of g k) d' = Some s' -> s' <> Epsilon.
Proof.
  intros k d s d' s' H Hs Hd H'. destruct k as [k|]; unfold rhs_of in *; simpl in *.
  - destruct (nth_error (g_rules g) k) as [r|] eqn:E; [|destruct d; discriminate]. apply nth_error_In in E. destruct (eps r E) as (m & al & Er & Hal).
    rewrite Er in *. destruct (le_lt_dec m d) as [Hm|Hm].
    + rewrite nth_error_app2 in H' by (rewrite repeat_length; lia). apply nth_error_In in H'. intros ->. contradiction.
    + rewrite nth_error_app1 in H by (rewrite repeat_length; lia). apply nth_error_In, repeat_spec in H. contradiction.
  - destruct (wf_entry_rule g wf) as [_ E]. rewrite E in *. destruct d' as [|d']; [|destruct d'; discriminate]. assert (d = 0) as -> by lia. congruence.
Qed.

Lemma items_fine : forall x s k, In x (all_items g n) -> symbol_after_dot g x = Some s -> In k (rules_for g s) ->
  (exists las, determine_lookaheads g n fs x = Ok las) /\ start_dot g k < 256.
Proof.
  intros x s k Hx Hs Hk. apply all_items_In in Hx. split.
  - unfold determine_lookaheads. replace (1 <? n) with false by (symmetry; apply Nat.ltb_ge; lia). unfold symbol_after_dot_offset, symbols_following, add_u8.
    unfold symbol_after_dot in Hs. pose proof (nth_error_lt _ _ _ _ Hs) as Hl. pose proof (rhs_of_fit (it_rule x)) as Hfit.
    replace (it_dot x + 1 <? 256) with true by (symmetry; apply Nat.ltb_lt; lia). cbn [bind]. destruct (0 <? n) eqn:En; [|eauto]. apply Nat.ltb_lt in En.
    apply rules_for_spec in Hk. destruct Hk as (r & i & _ & _ & ->).
    destruct (nth_error (rhs_of g (it_rule x)) (it_dot x + 1)) as [s'|] eqn:E; [|eauto].
    assert (s' <> Epsilon) as Hne by (eapply no_later_epsilon; [exact Hs|discriminate| |exact E]; lia).
    pose proof (nth_error_In _ _ E) as Hin. apply (rhs_of_known g wf) in Hin. destruct s' as [| |j|t]; [congruence|destruct Hin| |eauto].
    destruct (it_la x) as [|z la] eqn:El; [pose proof (ik_len _ _ _ Hx) as L; rewrite El in L; simpl in L; lia|].
    destruct (first_of_seq_spec Empty_set g fs (skipn (it_dot x + 1) (rhs_of g (it_rule x)) ++ [z])) as (T & HT & _).
    + apply fs_ok. lia.
    + apply rhs_la_nts; auto. apply la_symbols_lookahead with (g := g); auto. apply (ik_la _ _ _ Hx). rewrite El. left; auto.
    + rewrite HT. cbn [bind]. eauto.
  - unfold start_dot. pose proof (lead_eps_le (rhs_of g (Some k))). pose proof (rhs_of_fit (Some k)). lia.
Qed.

Lemma transitions_cases : forall efuel set tm, all_ok set ->
  (exists tm', foldM (item_transition efuel g n fs) set tm = Ok tm') \/ foldM (item_transition efuel g n fs) set tm = OutOfFuel.
Proof.
  intros efuel set. induction set as [|it set IH]; intros tm Hok; cbn [foldM]; [eauto|].
  assert ((exists tm', item_transition efuel g n fs tm it = Ok tm') \/ item_transition efuel g n fs tm it = OutOfFuel) as [[tm' X]|X].
  { unfold item_transition. destruct (symbol_after_dot g it) as [s|] eqn:Es; [|eauto]. destruct (lhs_of g (it_rule it)); [|eauto].
    assert (advance_dot g it = Ok (adv it)) as ->.
    { unfold advance_dot. unfold symbol_after_dot in Es. apply nth_error_lt in Es. pose proof (rhs_of_fit (it_rule it)).
      replace (it_dot it <? length (rhs_of g (it_rule it))) with true by (symmetry; apply Nat.ltb_lt; lia). unfold add_u8.
      replace (it_dot it + 1 <? 256) with true by (symmetry; apply Nat.ltb_lt; lia). cbn [bind]. unfold adv. repeat f_equal. lia. }
    cbn [bind]. destruct (expand_item_cases g n fs (all_items g n) items_closed items_fine efuel (adv it)) as [[r Hr]|Hr].
    - apply all_items_In. eapply adv_ok; eauto. apply Hok. left; auto.
    - rewrite Hr. cbn [bind]. eauto.
    - rewrite Hr. cbn [bind]. auto. }
  - rewrite X. cbn [bind]. apply IH. intros x Hx. apply Hok. right; auto.
  - rewrite X. cbn [bind]. auto.
Qed.

Lemma graph_loop_cases : forall fuel efuel pg todo, ginv pg -> tinv pg todo ->
  (exists pg', graph_loop fuel efuel g n lalr fs pg todo = Ok pg') \/ graph_loop fuel efuel g n lalr fs pg todo = OutOfFuel.
Proof.
  induction fuel as [|fuel IH]; intros efuel pg todo Hi Ht; [auto|]. cbn [graph_loop]. destruct todo as [|start todo]; [eauto|].
  assert (start < lg_nodes pg) as Hn by (apply (ti_nodes _ _ Ht); left; auto). apply (gi_nodes pg Hi) in Hn. destruct Hn as [set Es].
  unfold st in Es. rewrite Es. destruct (transitions_cases efuel set [] (proj1 (proj2 (gi_sets pg Hi start set Es)))) as [[tm Etm]|Etm]; rewrite Etm; cbn [bind]; auto.
  destruct (one_state _ _ _ _ _ _ Hi Ht Es Etm) as (pg1 & todo1 & E & Hi1 & Ht1 & Hw). rewrite E. cbn [bind]. apply IH; auto.
Qed.

Lemma generate_graph_cases : forall fuel, (exists r, generate_parser_graph fuel g n lalr fs = Ok r) \/ generate_parser_graph fuel g n lalr fs = OutOfFuel.
Proof.
  intros fuel. unfold generate_parser_graph.
  destruct (expand_item_cases g n fs (all_items g n) items_closed items_fine fuel (entry_item n)) as [[set E]|E]; [apply all_items_In, entry_item_ok| |]; rewrite E; cbn [bind]; auto.
  pose proof (initial_inv _ _ E) as Y. destruct (add_state empty_graph set) as [e pg0]. destruct Y as (-> & Hi & Ht).
  destruct (graph_loop_cases fuel fuel pg0 [0] Hi Ht) as [[pg' H]|H]; rewrite H; cbn [bind]; eauto.
Qed.
End NoPanic.
End LRGraph.
