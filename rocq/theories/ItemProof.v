(** [expand_item] computes the closure of an item. *)
From Coq Require Import String List Arith NArith Bool Lia.
From Verif Require Import Base InputModel GrammarModel GrammarSpec LLModel LLSpec SententialProof SetsProof FirstProof LRModel LRSpec.
Import ListNotations.
Local Open Scope nat_scope.
Local Open Scope list_scope.

Fixpoint lead_eps (l : list symbol) : nat := match l with Epsilon :: l => S (lead_eps l) | _ => 0 end.

Lemma skip_spec : forall rest d d', skip_epsilons rest d = Ok d' -> d' = d + lead_eps rest.
Proof.
  induction rest as [|s rest IH]; intros d d' H; cbn [skip_epsilons] in H; [injection H as <-; simpl; lia|].
  destruct s; try (injection H as <-; simpl; lia). inv_bind H. unfold add_u8 in Hb. destruct (d + 1 <? 256); [|discriminate]. injection Hb as <-.
  apply IH in H. simpl. lia.
Qed.

Lemma skip_ok : forall rest d, d + lead_eps rest < 256 -> skip_epsilons rest d = Ok (d + lead_eps rest).
Proof.
  induction rest as [|s rest IH]; intros d H; cbn [skip_epsilons]; [simpl; f_equal; lia|].
  destruct s; try (simpl; f_equal; lia). cbn [lead_eps] in *. unfold add_u8. destruct (d + 1 <? 256) eqn:E.
  - simpl. rewrite IH; [f_equal; lia|lia].
  - apply Nat.ltb_ge in E. lia.
Qed.

Lemma skip_fuel : forall rest d, skip_epsilons rest d <> OutOfFuel.
Proof.
  induction rest as [|s rest IH]; intros d; cbn [skip_epsilons]; [discriminate|]. destruct s; try discriminate.
  unfold add_u8. destruct (d + 1 <? 256); simpl; [apply IH|discriminate].
Qed.

Lemma lead_eps_le : forall l, lead_eps l <= length l.
Proof. induction l as [|[| | |] l IH]; simpl; lia. Qed.

Lemma lead_eps_nth : forall l d, d < lead_eps l -> nth_error l d = Some Epsilon.
Proof. induction l as [|s l IH]; intros d H; simpl in H; [lia|]. destruct s; try lia. destruct d; simpl; auto. apply IH. lia. Qed.

Lemma lead_eps_repeat : forall l, l = repeat Epsilon (lead_eps l) ++ skipn (lead_eps l) l.
Proof. induction l as [|s l IH]; simpl; auto. destruct s; simpl; auto. f_equal. exact IH. Qed.

Lemma lead_eps_spec : forall m al, ~ In Epsilon al -> lead_eps (repeat Epsilon m ++ al) = m.
Proof. induction m as [|m IH]; intros al H; simpl; auto. destruct al as [|s al]; auto. destruct s; simpl; auto. destruct H. left; auto. Qed.

Lemma lead_eps_next : forall l s, nth_error l (lead_eps l) = Some s -> s <> Epsilon.
Proof. induction l as [|a l IH]; intros s H; simpl in H; [discriminate|]. destruct a; simpl in H; try (injection H as <-; discriminate). apply IH; auto. Qed.

Lemma rules_for_spec : forall g s k, In k (rules_for g s) <-> exists r i, nth_error (g_rules g) k = Some r /\ r_lhs r = Some i /\ s = NonTerminal i.
Proof.
  intros g s k. unfold rules_for, enumerate.
  assert (forall (l : list rule) j e, In e (enumerate_from j l) <-> j <= fst e /\ nth_error l (fst e - j) = Some (snd e)) as HE.
  { induction l as [|a l IH]; intros j [x y]; simpl.
    - split; [tauto|]. intros [_ H]. destruct (x - j); discriminate.
    - rewrite IH. simpl. split.
      + intros [H|[H1 H2]]; [injection H as <- <-; rewrite Nat.sub_diag; simpl; auto|]. split; [lia|]. replace (x - j) with (S (x - S j)) by lia. auto.
      + intros [H1 H2]. destruct (Nat.eq_dec x j) as [->|Hne].
        * rewrite Nat.sub_diag in H2. injection H2 as ->. left; auto.
        * right. split; [lia|]. replace (x - j) with (S (x - S j)) in H2 by lia. auto. }
  rewrite in_map_iff. split.
  - intros [[k' r] [<- H]]. apply filter_In in H. destruct H as [H1 H2]. apply HE in H1. simpl in *. rewrite Nat.sub_0_r in H1. unfold lhs_is in H2.
    destruct (r_lhs r) as [i|] eqn:E; [|discriminate]. apply eqc_true in H2. exists r, i. tauto.
  - intros (r & i & H1 & H2 & ->). exists (k, r). split; auto. apply filter_In. split.
    + apply HE. simpl. rewrite Nat.sub_0_r. split; auto. lia.
    + unfold lhs_is. simpl. rewrite H2. apply eqc_refl.
Qed.

Section Items.
Variable g : grammar.
Variable n : nat.
Variable fs : symbol_sets.

Definition start_dot (k : nat) : nat := lead_eps (rhs_of g (Some k)).
Definition init_item (k : nat) (la : list symbol) : item := mkItem (Some k) (start_dot k) la.

Lemma new_item_spec : forall k la it, new_item g k la = Ok it -> it = init_item k la.
Proof. intros k la it H. unfold new_item in H. inv_bind H. injection H as <-. apply skip_spec in Hb. subst. reflexivity. Qed.

(** One expansion step, and its reflexive-transitive closure. *)
Inductive expands (x : item) : item -> Prop :=
| ex_intro_item : forall s k las la, symbol_after_dot g x = Some s -> In k (rules_for g s) -> determine_lookaheads g n fs x = Ok las -> In la las ->
    expands x (init_item k la).

Inductive clo (x : item) : item -> Prop :=
| clo_refl : clo x x
| clo_step : forall y z, clo x y -> expands y z -> clo x z.

Lemma clo_trans : forall x y z, clo x y -> clo y z -> clo x z.
Proof. intros x y z H1 H2. induction H2; auto. eapply clo_step; eauto. Qed.

Lemma expand_lookaheads_spec : forall k las set stack set' stack', sorted set ->
  foldM (expand_lookahead g k) las (set, stack) = Ok (set', stack') ->
  sorted set' /\ (forall x, In x set' <-> In x set \/ exists la, In la las /\ x = init_item k la) /\
  (forall x, In x stack' -> In x stack \/ In x set') /\
  (forall x, In x set' -> In x set \/ In x stack') /\ (forall x, In x stack -> In x stack') /\
  length stack' + length set = length stack + length set'.
Proof.
  intros k las. induction las as [|la las IH]; intros set stack set' stack' Hs H; cbn [foldM] in H.
  - injection H as <- <-. split; auto. split; [intros x; split; [auto|intros [?|(la & [] & _)]; auto]|]. split; auto.
  - inv_bind H. destruct a as [set1 stack1]. unfold expand_lookahead in Hb. inv_bind Hb. apply new_item_spec in Hb0. subst a.
    destruct (set_mem (init_item k la) set) eqn:E.
    + injection Hb as <- <-. apply set_mem_In in E; auto. destruct (IH _ _ _ _ Hs H) as (A & B & C & D & F & G). split; auto. split; [|auto].
      intros x. rewrite B. split.
      * intros [?|(l & Hl & ->)]; auto. right. exists l. simpl; auto.
      * intros [?|(l & [->|Hl] & ->)]; auto. right. eauto.
    + injection Hb as <- <-. assert (~ In (init_item k la) set) as Hn by (intros X; apply set_mem_In in X; auto; congruence).
      destruct (IH _ _ _ _ (set_insert_sorted _ _ Hs) H) as (A & B & C & D & F & G).
      split; auto. split; [|split; [|split; [|split]]].
      * intros x. rewrite B, set_insert_In. split.
        -- intros [[->|?]|(l & Hl & ->)]; auto; right; [exists la|exists l]; simpl; auto.
        -- intros [?|(l & [->|Hl] & ->)]; auto. right. eauto.
      * intros x Hx. destruct (C x Hx) as [[<-|?]|?]; auto. right. apply B. left. apply set_insert_In. auto.
      * intros x Hx. destruct (D x Hx) as [Hi|?]; auto. apply set_insert_In in Hi. destruct Hi as [->|?]; auto. right. apply F. left; auto.
      * intros x Hx. apply F. right; auto.
      * rewrite set_insert_length in G by auto. simpl in G. lia.
Qed.

Lemma expand_top_spec : forall top set stack set' stack', sorted set -> expand_top g n fs top (set, stack) = Ok (set', stack') ->
  sorted set' /\ (forall x, In x set' <-> In x set \/ expands top x) /\
  (forall x, In x stack' -> In x stack \/ In x set') /\
  (forall x, In x set' -> In x set \/ In x stack') /\ (forall x, In x stack -> In x stack') /\
  length stack' + length set = length stack + length set'.
Proof.
  intros top set stack set' stack' Hs H. unfold expand_top in H. destruct (symbol_after_dot g top) as [s|] eqn:Es.
  - assert (forall ks set stack set' stack', sorted set -> foldM (expand_rule g n fs top) ks (set, stack) = Ok (set', stack') ->
      sorted set' /\ (forall x, In x set' <-> In x set \/ exists k las la, In k ks /\ determine_lookaheads g n fs top = Ok las /\ In la las /\ x = init_item k la) /\
      (forall x, In x stack' -> In x stack \/ In x set') /\
      (forall x, In x set' -> In x set \/ In x stack') /\ (forall x, In x stack -> In x stack') /\
      length stack' + length set = length stack + length set') as HG.
    { clear. intros ks. induction ks as [|k ks IH]; intros set stack set' stack' Hs H; cbn [foldM] in H.
      - injection H as <- <-. split; auto. split; [intros x; split; [auto|intros [?|(k & las & la & [] & _)]; auto]|]. split; auto.
      - inv_bind H. destruct a as [set1 stack1]. unfold expand_rule in Hb. inv_bind Hb. rename a into las.
        destruct (expand_lookaheads_spec _ _ _ _ _ _ Hs Hb) as (A & B & C & D & F & G).
        destruct (IH _ _ _ _ A H) as (A' & B' & C' & D' & F' & G'). split; auto. split; [|split; [|split; [|split]]].
        + intros x. rewrite B', B. split.
          * intros [[?|(la & Hla & ->)]|(k' & las' & la & H1 & H2 & H3 & ->)]; auto; right.
            -- exists k, las, la. simpl; auto.
            -- exists k', las', la. simpl; auto.
          * intros [?|(k' & las' & la & [<-|H1] & H2 & H3 & ->)]; auto.
            -- left. right. exists la. replace las with las' by congruence. auto.
            -- right. exists k', las', la. auto.
        + intros x Hx. destruct (C' x Hx) as [Hy|?]; auto. destruct (C x Hy) as [?|?]; auto. right. apply B'. auto.
        + intros x Hx. destruct (D' x Hx) as [Hy|?]; auto. destruct (D x Hy) as [?|?]; auto.
        + auto.
        + lia. }
    destruct (HG _ _ _ _ _ Hs H) as (A & B & C). split; auto. split; auto. intros x. rewrite B. split.
    + intros [?|(k & las & la & H1 & H2 & H3 & ->)]; auto. right. econstructor; eauto.
    + intros [?|[s' k las la H1 H2 H3 H4]]; auto. right. replace s' with s in H2 by congruence. exists k, las, la. auto.
  - injection H as <- <-. split; auto. split; [|auto]. intros x. split; [auto|]. intros [?|[s' k las la H1 H2 H3 H4]]; [auto|congruence].
Qed.

(** The lookaheads of an item that has to be expanded could be computed. *)
Definition fine (x : item) : Prop := forall s k, symbol_after_dot g x = Some s -> In k (rules_for g s) -> exists las, determine_lookaheads g n fs x = Ok las.

Lemma expand_top_fine : forall top st st', expand_top g n fs top st = Ok st' -> fine top.
Proof.
  intros top st st' H s k Hs Hk. unfold expand_top in H. rewrite Hs in H. destruct (rules_for g s) as [|k' ks]; [destruct Hk|]. cbn [foldM] in H. inv_bind H.
  unfold expand_rule in Hb. inv_bind Hb. eauto.
Qed.

Lemma expand_loop_spec : forall fuel it set stack r, sorted set -> In it set -> incl stack set -> (forall x, In x set -> clo it x) ->
  (forall x, In x set -> ~ In x stack -> (forall y, expands x y -> In y set) /\ fine x) ->
  expand_loop fuel g n fs set stack = Ok r -> sorted r /\ (forall x, In x r <-> clo it x) /\ forall x, In x r -> fine x.
Proof.
  induction fuel as [|fuel IH]; intros it set stack r Hs Hi Hst Hc Hcl H; cbn [expand_loop] in H; [discriminate|].
  destruct stack as [|top stack].
  - injection H as <-. split; auto. split; [|intros x Hx; apply Hcl; auto]. intros x. split; auto. intros Hx. induction Hx as [|y z Hy IHy Hz]; auto. eapply Hcl; eauto.
  - inv_bind H. destruct a as [set1 stack1]. destruct (expand_top_spec _ _ _ _ _ Hs Hb) as (A & B & C & D & F & G).
    eapply (IH it set1 stack1); eauto.
    + apply B. auto.
    + intros x Hx. destruct (C x Hx) as [Hy|?]; auto. apply B. left. apply Hst. right; auto.
    + intros x Hx. apply B in Hx. destruct Hx as [Hx|Hx]; auto. eapply clo_step; [|exact Hx]. apply Hc, Hst. left; auto.
    + intros x Hx Hn. destruct (D x Hx) as [Hx0|]; [|contradiction]. destruct (cmp_dec x top) as [->|Hne].
      * split; [intros y He; apply B; auto|eapply expand_top_fine; eauto].
      * destruct (Hcl x) as [X Y]; auto; [intros [?|Hin]; [congruence|apply Hn; auto]|]. split; auto. intros y He. apply B. auto.
Qed.

Lemma expand_item_spec : forall fuel it r, expand_item fuel g n fs it = Ok r -> sorted r /\ (forall x, In x r <-> clo it x) /\ forall x, In x r -> fine x.
Proof.
  intros fuel it r H. unfold expand_item in H. eapply expand_loop_spec; [| | | | |exact H].
  - constructor; [constructor|intros b []].
  - left; auto.
  - intros x Hx; auto.
  - intros x [<-|[]]. constructor.
  - intros x [<-|[]] Hn. destruct Hn. left; auto.
Qed.

(** ** Termination and absence of panics *)

Section Total.
Variable U : list item.
Hypothesis U_closed : forall x y, In x U -> expands x y -> In y U.

Lemma expand_lookaheads_fuel : forall k las st, foldM (expand_lookahead g k) las st <> OutOfFuel.
Proof.
  intros k las. induction las as [|la las IH]; intros [set stack]; cbn [foldM]; [discriminate|]. unfold expand_lookahead at 1, new_item at 1.
  pose proof (skip_fuel (rhs_of g (Some k)) 0). destruct (skip_epsilons (rhs_of g (Some k)) 0) as [d|e| |]; simpl; try discriminate; [|contradiction].
  destruct (set_mem _ _); cbn [bind]; apply IH.
Qed.

Lemma first_of_seq_acc_fuel : forall E al acc, @first_of_seq_acc E al fs acc <> OutOfFuel.
Proof.
  intros E al. induction al as [|s al IH]; intros acc; cbn [first_of_seq_acc]; [discriminate|]. destruct s; try discriminate.
  - cbn. destruct al; apply IH.
  - unfold get_set. simpl. destruct (map_get (NonTerminal i) fs) as [set|]; simpl; [|discriminate]. destruct (set_mem Epsilon set); [apply IH|discriminate].
Qed.

Lemma determine_lookaheads_fuel : forall top, determine_lookaheads g n fs top <> OutOfFuel.
Proof.
  intros top. unfold determine_lookaheads. destruct (1 <? n); [discriminate|]. unfold symbol_after_dot_offset, symbols_following, add_u8.
  destruct (it_dot top + 1 <? 256); cbn [bind]; [|discriminate]. destruct (0 <? n); [|discriminate].
  destruct (nth_error _ _) as [[| | |]|]; try discriminate. destruct (it_la top); [discriminate|].
  unfold first_of_seq. pose proof (first_of_seq_acc_fuel Empty_set (skipn (it_dot top + 1) (rhs_of g (it_rule top)) ++ [s]) []) as X.
  destruct (first_of_seq_acc _ _ _); simpl; try discriminate. contradiction.
Qed.

Lemma expand_top_fuel : forall top st, expand_top g n fs top st <> OutOfFuel.
Proof.
  intros top st. unfold expand_top. destruct (symbol_after_dot g top) as [s|]; [|discriminate].
  revert st. induction (rules_for g s) as [|k ks IH]; intros st; cbn [foldM]; [discriminate|]. unfold expand_rule at 1.
  pose proof (determine_lookaheads_fuel top). destruct (determine_lookaheads g n fs top) as [las| | |]; cbn [bind]; try discriminate; [|contradiction].
  pose proof (expand_lookaheads_fuel k las st). destruct (foldM (expand_lookahead g k) las st); cbn [bind]; try discriminate; [|contradiction]. apply IH.
Qed.

Lemma expand_loop_fuel : forall fuel set stack, sorted set -> incl set U -> incl stack set -> length stack + length U < fuel + length set ->
  expand_loop fuel g n fs set stack <> OutOfFuel.
Proof.
  induction fuel as [|fuel IH]; intros set stack Hs HU Hst Hf.
  - exfalso. pose proof (NoDup_incl_length (sorted_NoDup _ Hs) HU). lia.
  - cbn [expand_loop]. destruct stack as [|top stack]; [discriminate|]. pose proof (expand_top_fuel top (set, stack)).
    destruct (expand_top g n fs top (set, stack)) as [[set1 stack1]| | |] eqn:E; cbn [bind]; try discriminate; [|contradiction].
    destruct (expand_top_spec _ _ _ _ _ Hs E) as (A & B & C & D & F & G). apply IH; auto.
    + intros x Hx. apply B in Hx. destruct Hx as [Hx|Hx]; auto. eapply U_closed; [|exact Hx]. apply HU, Hst. left; auto.
    + intros x Hx. destruct (C x Hx) as [Hy|?]; auto. apply B. left. apply Hst. right; auto.
    + simpl in Hf. lia.
Qed.

Lemma expand_item_fuel : forall fuel it, In it U -> length U < fuel -> expand_item fuel g n fs it <> OutOfFuel.
Proof.
  intros fuel it Hi Hf. unfold expand_item. apply expand_loop_fuel.
  - constructor; [constructor|intros b []].
  - intros x [<-|[]]; auto.
  - intros x Hx; auto.
  - simpl. lia.
Qed.

(** No panic, if none of the reachable items makes [expand_top] panic. *)
Hypothesis U_fine : forall x s k, In x U -> symbol_after_dot g x = Some s -> In k (rules_for g s) ->
  (exists las, determine_lookaheads g n fs x = Ok las) /\ start_dot k < 256.

Lemma expand_top_ok : forall top st, In top U -> exists st', expand_top g n fs top st = Ok st'.
Proof.
  intros top st HU. unfold expand_top. destruct (symbol_after_dot g top) as [s|] eqn:Es; [|eauto].
  assert (forall k, In k (rules_for g s) -> (exists las, determine_lookaheads g n fs top = Ok las) /\ start_dot k < 256) as HF by (intros; eapply U_fine; eauto).
  revert st HF. induction (rules_for g s) as [|k ks IH]; intros st HF; cbn [foldM]; eauto. unfold expand_rule at 1.
  destruct (HF k) as [[las Hl] Hd]; [left; auto|]. rewrite Hl. cbn [bind].
  assert (exists st1, foldM (expand_lookahead g k) las st = Ok st1) as [st1 H1].
  { clear Hl. revert st. induction las as [|la las IHl]; intros [set stack]; cbn [foldM]; eauto. unfold expand_lookahead at 1, new_item at 1.
    rewrite skip_ok by (simpl; exact Hd). cbn [bind]. destruct (set_mem _ _); cbn [bind]; apply IHl. }
  rewrite H1. cbn [bind]. apply IH. intros; apply HF; right; auto.
Qed.

Lemma expand_loop_cases : forall fuel set stack, sorted set -> incl set U -> incl stack set ->
  (exists r, expand_loop fuel g n fs set stack = Ok r) \/ expand_loop fuel g n fs set stack = OutOfFuel.
Proof.
  induction fuel as [|fuel IH]; intros set stack Hs HU Hst; [auto|]. cbn [expand_loop]. destruct stack as [|top stack]; [eauto|].
  destruct (expand_top_ok top (set, stack)) as [[set1 stack1] E]; [apply HU, Hst; left; auto|]. rewrite E. cbn [bind].
  destruct (expand_top_spec _ _ _ _ _ Hs E) as (A & B & C & D & F & G). apply IH; auto.
  - intros x Hx. apply B in Hx. destruct Hx as [Hx|Hx]; auto. eapply U_closed; [|exact Hx]. apply HU, Hst. left; auto.
  - intros x Hx. destruct (C x Hx) as [Hy|?]; auto. apply B. left. apply Hst. right; auto.
Qed.

Lemma expand_item_cases : forall fuel it, In it U -> (exists r, expand_item fuel g n fs it = Ok r) \/ expand_item fuel g n fs it = OutOfFuel.
Proof.
  intros fuel it Hi. unfold expand_item. apply expand_loop_cases.
  - constructor; [constructor|intros b []].
  - intros x [<-|[]]; auto.
  - intros x Hx; auto.
Qed.

Lemma expand_item_ok : forall fuel it, In it U -> length U < fuel -> exists r, expand_item fuel g n fs it = Ok r.
Proof.
  intros fuel it Hi Hf. destruct (expand_item_cases fuel it Hi) as [?|H]; auto. destruct (expand_item_fuel _ _ Hi Hf H).
Qed.
End Total.
End Items.
