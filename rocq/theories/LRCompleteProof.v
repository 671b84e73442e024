(** Every sentence is accepted; determinism; the end of the input. *)
From Coq Require Import String List Arith NArith Bool Lia Relations.
From Verif Require Import Base InputModel GrammarModel GrammarSpec GrammarProof LLModel LLSpec SententialProof SetsProof FirstProof LRModel LRSpec BidiProof ItemProof LRItemsProof LRGraphProof AutomatonProof LRTableProof LRWriteProof LRGenProof LRConflictProof LRRunProof.
Import ListNotations.
Local Open Scope nat_scope.
Local Open Scope list_scope.

(** ** Trees and derivations *)

Lemma iparses_derives : forall R al ts, iparses R al ts -> derives R al (iyields ts).
Proof.
  intros R al ts H. induction H as [|al ts H IH|t al ts H IH|k r i al cs ts Hr Hi H1 IH1 H2 IH2]; try (constructor; auto; fail).
  change (iyields (INode k cs :: ts)) with (iyields cs ++ iyields ts). eapply d_nt; eauto. eapply nth_error_In; eauto.
Qed.

Lemma derives_iparses : forall R al w, derives R al w -> exists ts, iparses R al ts /\ iyields ts = w.
Proof.
  intros R al w H. induction H as [|al w H IH|t al w H IH|r i al u w Hr Hi H1 IH1 H2 IH2].
  - exists []. split; constructor.
  - destruct IH as (ts & A & B). exists ts. split; auto. constructor; auto.
  - destruct IH as (ts & A & <-). exists (ILeaf t :: ts). split; auto. constructor; auto.
  - destruct IH1 as (cs & A1 & <-). destruct IH2 as (ts & A2 & <-). apply In_nth_error in Hr. destruct Hr as [k Hk].
    exists (INode k cs :: ts). split; auto. econstructor; eauto.
Qed.

Lemma parse_tree_derives : forall g w, wf_grammar g -> (derives (g_rules g) [g_entry g] w <-> exists tr, parse_tree g tr /\ iyield tr = w).
Proof.
  intros g w wf. destruct (wf_entry g wf) as (i & Ei & _). split.
  - intros H. apply derives_iparses in H. destruct H as (ts & H & <-). pose proof H as H'. rewrite Ei in H'.
    inversion H' as [| | |k r j al cs ts0 X1 X2 X3 X4]; subst. inversion X4; subst. eexists. split; [exact H|]. rewrite iyields_one. auto.
  - intros (tr & H & <-). rewrite <- iyields_one. apply iparses_derives. auto.
Qed.

Lemma iparses_known : forall g al ts, wf_grammar g -> iparses (g_rules g) al ts -> (forall s, In s al -> known g s) -> forall t, In t (iyields ts) -> In (Terminal t) (terminals g).
Proof.
  intros g al ts wf H. induction H as [|al ts H IH|t al ts H IH|k r i al cs ts Hr Hi H1 IH1 H2 IH2]; intros Hk x Hx.
  - destruct Hx.
  - apply IH; auto. intros s Hs. apply Hk. right; auto.
  - destruct Hx as [<-|Hx]; [apply (Hk (Terminal t)); left; auto|]. apply IH; auto. intros s Hs. apply Hk. right; auto.
  - change (iyields (INode k cs :: ts)) with (iyields cs ++ iyields ts) in Hx. apply in_app_or in Hx. destruct Hx as [Hx|Hx].
    + apply IH1; auto. intros s Hs. eapply (wf_rhs g wf); eauto. eapply nth_error_In; eauto.
    + apply IH2; auto. intros s Hs. apply Hk. right; auto.
Qed.

Lemma firstT_yield : forall R al ts t w, iparses R al ts -> iyields ts = t :: w -> firstT R al (Terminal t).
Proof.
  intros R al ts t w H. revert t w. induction H as [|al ts H IH|t0 al ts H IH|k r i al cs ts Hr Hi H1 IH1 H2 IH2]; intros t w E.
  - discriminate.
  - constructor. eauto.
  - injection E as -> _. constructor. right. eauto.
  - change (iyields (INode k cs :: ts)) with (iyields cs ++ iyields ts) in E. destruct (iyields cs) as [|t' u] eqn:Ec.
    + apply f_null; eauto. apply derives_nil_nt. exists r. split; [eapply nth_error_In; eauto|]. split; auto. rewrite <- Ec. apply iparses_derives; auto.
    + injection E as -> _. eapply f_nt; eauto. eapply nth_error_In; eauto.
Qed.

(** What follows a sequence of trees. *)
Lemma firstT_peek : forall R al ts be w, iparses R al ts -> firstT R be (token_symbol (peek w)) -> firstT R (al ++ be) (token_symbol (peek (iyields ts ++ w))).
Proof.
  intros R al ts be w H Hf. destruct (iyields ts) as [|t u] eqn:E; simpl.
  - apply firstT_app_r; auto. rewrite <- E. apply iparses_derives; auto.
  - apply firstT_app_l. eapply firstT_yield; eauto.
Qed.

Section Complete.
Variable g : grammar.
Hypothesis wf : wf_grammar g.
Variable n : nat.
Hypothesis n_le : n <= 1.
Variable fs : symbol_sets.
Hypothesis fs_ok : n = 1 -> first_sets_correct g fs.
Variable lalr : bool.
Variable pg : lr_graph.
Hypothesis au : automaton g n fs lalr pg.
Let gi := au_inv g n fs lalr pg au.
Let R := g_rules g.
Notation mstep := (mstep g n lalr pg).
Notation valid := (valid g pg).
Notation handle := (handle g lalr pg).

Inductive msteps : list frame -> list N -> list lr_event -> list frame -> list N -> Prop :=
| mt_refl : forall fr w, msteps fr w [] fr w
| mt_step : forall fr w ev fr1 w1 ev1 fr2 w2, mstep fr w ev (inl fr1) w1 -> msteps fr1 w1 ev1 fr2 w2 -> msteps fr w (ev ++ ev1) fr2 w2.

Definition maccept (fr : list frame) (w : list N) (ev : list lr_event) (tr : itree) (w' : list N) : Prop :=
  exists ev1 fr1 w1 ev2, msteps fr w ev1 fr1 w1 /\ mstep fr1 w1 ev2 (inr tr) w' /\ ev = ev1 ++ ev2.

Lemma msteps_trans : forall fr w ev fr1 w1 ev1 fr2 w2, msteps fr w ev fr1 w1 -> msteps fr1 w1 ev1 fr2 w2 -> msteps fr w (ev ++ ev1) fr2 w2.
Proof. intros fr w ev fr1 w1 ev1 fr2 w2 H. revert ev1 fr2 w2. induction H; intros; simpl; auto. rewrite <- app_assoc. econstructor; eauto. Qed.

Lemma msteps_one : forall fr w ev fr1 w1, mstep fr w ev (inl fr1) w1 -> msteps fr w ev fr1 w1.
Proof. intros fr w ev fr1 w1 H. rewrite <- (app_nil_r ev). econstructor; eauto. constructor. Qed.

Lemma msteps_maccept : forall fr w ev fr1 w1 ev1 tr w2, msteps fr w ev fr1 w1 -> maccept fr1 w1 ev1 tr w2 -> maccept fr w (ev ++ ev1) tr w2.
Proof.
  intros fr w ev fr1 w1 ev1 tr w2 H (e1 & f1 & v1 & e2 & A & B & ->). exists (ev ++ e1), f1, v1, e2. split; [eapply msteps_trans; eauto|]. split; auto. rewrite app_assoc. auto.
Qed.

Lemma msteps_valid : forall fr w ev fr1 w1, msteps fr w ev fr1 w1 -> valid fr -> valid fr1.
Proof. intros fr w ev fr1 w1 H. induction H; intros Hv; auto. apply IHmsteps. eapply mstep_valid; eauto. Qed.

(** An item of the entry state which waits for the entry symbol. *)
Definition entry_rec : Prop := exists S z k, st pg 0 = Some S /\ In z S /\ it_rule z = Some k /\ symbol_after_dot g z = Some (g_entry g).

Lemma skipn_nth : forall A (l : list A) d a r, skipn d l = a :: r -> nth_error l d = Some a /\ skipn (S d) l = r.
Proof. intros A l. induction l as [|b l IH]; intros [|d] a r H; simpl in *; try discriminate; [injection H as -> ->; auto|apply IH; auto]. Qed.

Lemma lead_eps_nt : forall m s al, s <> Epsilon -> lead_eps (repeat Epsilon m ++ s :: al) = m.
Proof. intros m s al Hs. induction m as [|m IH]; simpl; [destruct s; auto; congruence|]. f_equal. auto. Qed.

Lemma skipn_repeat : forall A (a : A) m l, skipn m (repeat a m ++ l) = l.
Proof. intros A a m l. induction m; simpl; auto. Qed.

Section Eps.
Hypothesis eps : epsilon_in_front g.
Hypothesis ne : n = 1 -> no_empty_rhs g.

(** The lookahead set of an item contains the token which really follows. *)
Lemma expand_lookahead_token : forall fr S it i k r al ts be w', valid fr -> st pg (top fr) = Some S -> In it S ->
  skipn (it_dot it) (rhs_of g (it_rule it)) = NonTerminal i :: al ++ be -> nth_error R k = Some r -> r_lhs r = Some i -> iparses R al ts ->
  (n = 1 -> exists x, it_la it = [x] /\ firstT R (be ++ [x]) (token_symbol (peek w'))) ->
  In (init_item g k (la_of n (token_symbol (peek (iyields ts ++ w'))))) S.
Proof.
  intros fr S it i k r al ts be w' Hv HS Hit Hsk Hr Hi Ht Hla. apply skipn_nth in Hsk. destruct Hsk as [Hn Hsk].
  destruct (state_expand _ _ _ _ _ au _ S it _ k r i HS Hit Hn Hr Hi eq_refl) as (las & L1 & L2). apply L2.
  apply (lookaheads_spec g wf n fs n_le (fun E => fc_ok g fs (fs_ok E)) it las (state_ok _ _ _ _ _ au _ _ _ HS Hit) L1).
  unfold la_of. assert (n = 0 \/ n = 1) as [E|E] by lia; rewrite E; cbn [Nat.eqb]; [left; auto|right]. split; auto.
  destruct (Hla E) as (x & Ex & Hf). exists x, (token_symbol (peek (iyields ts ++ w'))). split; auto. split; auto.
  assert (lookahead x) as Hx.
  { apply la_symbols_lookahead with (g := g); auto. apply (ik_la _ _ _ (state_ok _ _ _ _ _ au _ _ _ HS Hit)). rewrite Ex. left; auto. }
  split; auto. unfold rest_of. rewrite Hsk.
  pose proof (firstT_peek R al ts (be ++ [x]) w' Ht Hf) as X. rewrite app_assoc in X. apply firstT_app_inv in X. destruct (fs_ok E) as [F1 F2 F3].
  destruct X as [X|[X Y]].
  - left. split; [intros Z; rewrite Z in X; destruct (firstT_not_eps _ _ X)|]. eapply seqF_complete; eauto.
  - right. split; [eapply nullF_complete; eauto|]. inversion Y; subst; auto; destruct Hx as [Q|[t Q]]; discriminate.
Qed.

Lemma complete_seq : forall al0 ts, iparses R al0 ts -> forall m al be fr S it w',
  al0 = repeat Epsilon m ++ al -> ~ In Epsilon al -> valid fr -> st pg (top fr) = Some S -> In it S -> it_rule it <> None ->
  skipn (it_dot it) (rhs_of g (it_rule it)) = al ++ be -> In (token_symbol (peek w')) (columns g) ->
  (n = 1 -> exists x, it_la it = [x] /\ firstT R (be ++ [x]) (token_symbol (peek w'))) ->
  (exists fr1 S', msteps fr (iyields ts ++ w') (post_orders ts) (fr1 ++ fr) w' /\ trees fr1 = ts /\ syms fr1 = al /\
     st pg (top (fr1 ++ fr)) = Some S' /\ In (mkItem (it_rule it) (it_dot it + length al) (it_la it)) S') \/
  (entry_rec /\ exists ev tr w1, maccept fr (iyields ts ++ w') ev tr w1).
Proof.
  intros al0 ts H. induction H as [|al0 ts H IH|t al0 ts H IH|k r i al0 cs ts Hr Hi H1 IH1 H2 IH2];
    intros m al be fr S it w' E Hne Hv HS Hit Hrule Hsk Hc Hla.
  - assert (m = 0) as -> by (destruct m; auto; discriminate). simpl in E. subst al. left. exists [], S. simpl. rewrite Nat.add_0_r.
    split; [constructor|]. split; auto. split; auto. split; auto. destruct it; auto.
  - destruct m as [|m]; simpl in E; [subst al; destruct Hne; left; auto|]. injection E as ->. apply (IH m al be fr S it w'); auto.
  - destruct m as [|m]; simpl in E; [|discriminate]. subst al. simpl in Hsk. apply skipn_nth in Hsk. destruct Hsk as [Hn Hsk].
    assert (lhs_of g (it_rule it) <> None) as Hl.
    { destruct (it_rule it) as [k|] eqn:Ek; [|contradiction]. destruct (ik_rule _ _ _ (state_ok _ _ _ _ _ au _ _ _ HS Hit)) as [r R']. rewrite Ek in R'. simpl in R'.
      unfold lhs_of. simpl. rewrite R'. destruct (wf_lhs g wf r (nth_error_In _ _ R')) as (j & Ej & _). congruence. }
    destruct (state_move _ _ _ _ _ au _ S it _ HS Hit Hn Hl) as (q & T & He & HT & Hadv).
    assert (mstep fr (t :: iyields ts ++ w') [EShift (Some t)] (inl (mkFrame (Terminal t) q (ILeaf t) :: fr)) (iyields ts ++ w')) as Hm by (constructor; auto).
    pose proof (proj1 (mstep_valid g n lalr pg _ _ _ _ _ Hv Hm)) as Hv1.
    destruct (IH 0 al0 be (mkFrame (Terminal t) q (ILeaf t) :: fr) T (adv it) w' eq_refl) as [(fr1 & S' & A1 & A2 & A3 & A4 & A5)|(Hrec & ev & tr & w1 & A)]; auto.
    + intros X. apply Hne. right; auto.
    + left. exists (fr1 ++ [mkFrame (Terminal t) q (ILeaf t)]), S'. rewrite <- app_assoc. cbn [app]. split; [|split; [|split; [|split]]].
      * change (post_orders (ILeaf t :: ts)) with ([EShift (Some t)] ++ post_orders ts). change (iyields (ILeaf t :: ts) ++ w') with (t :: iyields ts ++ w').
        econstructor; eauto.
      * rewrite trees_app, A2. reflexivity.
      * rewrite syms_app, A3. reflexivity.
      * auto.
      * simpl in A5. simpl. replace (it_dot it + Datatypes.S (length al0)) with (Datatypes.S (it_dot it + length al0)) by lia. auto.
    + right. split; auto. exists ([EShift (Some t)] ++ ev), tr, w1. change (iyields (ILeaf t :: ts) ++ w') with (t :: iyields ts ++ w').
      eapply msteps_maccept; [apply msteps_one; eauto|auto].
  - destruct m as [|m]; simpl in E; [|discriminate]. subst al. simpl in Hsk. pose proof (skipn_nth _ _ _ _ _ Hsk) as [Hn Hsk'].
    assert (In (init_item g k (la_of n (token_symbol (peek (iyields ts ++ w'))))) S) as Hinit.
    { apply (expand_lookahead_token fr S it i k r al0 ts be w'); auto. }
    remember (iyields ts ++ w') as w1 eqn:Ew1. change (iyields (INode k cs :: ts)) with (iyields cs ++ iyields ts). rewrite <- app_assoc, <- Ew1.
    destruct (eps r (nth_error_In _ _ Hr)) as (m & al & Erhs & Hal).
    assert (rhs_of g (Some k) = r_rhs r) as Erk by (unfold rhs_of; simpl; fold R; rewrite Hr; auto).
    assert (start_dot g k = m) as Esd by (unfold start_dot; rewrite Erk, Erhs; apply lead_eps_spec; auto).
    assert (In (token_symbol (peek w1)) (columns g)) as Hc1.
    { subst w1. destruct (iyields ts) as [|t u] eqn:Ey; simpl; auto. apply in_or_app; left. apply in_or_app; left.
      apply (iparses_known g al0 ts wf H2); [|rewrite Ey; left; auto]. intros s Hs. apply (rhs_of_known g wf (it_rule it)).
      assert (In s (skipn (Datatypes.S (it_dot it)) (rhs_of g (it_rule it)))) as Z by (rewrite Hsk'; apply in_or_app; auto).
      rewrite <- (firstn_skipn (Datatypes.S (it_dot it)) (rhs_of g (it_rule it))). apply in_or_app. auto. }
    destruct (IH1 m al [] fr S (init_item g k (la_of n (token_symbol (peek w1)))) w1) as [(fr1 & S1 & A1 & A2 & A3 & A4 & A5)|(Hrec & ev & tr & w2 & A)]; auto.
    + discriminate.
    + simpl. rewrite Erk, Esd, Erhs, skipn_repeat, app_nil_r. auto.
    + intros En. exists (token_symbol (peek w1)). split; [unfold la_of; simpl; rewrite En; auto|]. simpl. apply f_look. destruct (peek w1); [right; eexists; reflexivity|left; auto].
    + simpl in A5. set (z := mkItem (Some k) (start_dot g k + length al) (la_of n (token_symbol (peek w1)))) in *.
      assert (symbol_after_dot g z = None) as Hz.
      { unfold symbol_after_dot, z. cbn [it_rule it_dot]. apply nth_error_None. rewrite Erk, Erhs, app_length, repeat_length, Esd. lia. }
      assert (valid (fr1 ++ fr)) as Hv1 by (eapply msteps_valid; eauto).
      destruct (completed_handle g wf n n_le fs lalr pg au (fr1 ++ fr) S1 z k Hv1 A4 A5 eq_refl Hz) as (r' & i' & fra & frb & S2 & y & Hh).
      pose proof (ha_rule _ _ _ _ _ _ _ _ _ _ _ _ Hh) as E1. fold R in E1. assert (r' = r) as -> by congruence.
      pose proof (ha_lhs _ _ _ _ _ _ _ _ _ _ _ _ Hh) as E2. assert (i' = i) as -> by congruence.
      pose proof (ha_pop _ _ _ _ _ _ _ _ _ _ _ _ Hh) as E3. rewrite Erhs, filter_repeat_eps, filter_no_eps, <- A3, syms_length in E3 by auto.
      assert (fra = fr1 /\ frb = fr) as [-> ->].
      { pose proof (ha_split _ _ _ _ _ _ _ _ _ _ _ _ Hh) as Es. clear - Es E3. revert fra E3 Es. induction fr1 as [|f fr1 IH]; intros [|f' fra] E3 Es; simpl in *; try discriminate; auto.
        injection Es as -> Es. injection E3 as E3. destruct (IH fra E3 Es) as [-> ->]. auto. }
      assert (reducing g n S1 (token_symbol (peek w1)) z) as Hred.
      { split; auto. split; auto. intros En. unfold z, la_of. rewrite En. reflexivity. }
      assert (~ (top fr = 0 /\ NonTerminal i = g_entry g) ->
        (exists fr1 S', msteps fr (iyields cs ++ w1) (post_orders (INode k cs :: ts)) (fr1 ++ fr) w' /\ trees fr1 = INode k cs :: ts /\ syms fr1 = NonTerminal i :: al0 /\
           st pg (top (fr1 ++ fr)) = Some S' /\ In (mkItem (it_rule it) (it_dot it + length (NonTerminal i :: al0)) (it_la it)) S') \/
        (entry_rec /\ exists ev tr w2, maccept fr (iyields cs ++ w1) ev tr w2)) as Hgo.
      { intros Hnacc.
        assert (lhs_of g (it_rule it) <> None) as Hl.
        { destruct (it_rule it) as [k'|] eqn:Ek; [|contradiction]. destruct (ik_rule _ _ _ (state_ok _ _ _ _ _ au _ _ _ HS Hit)) as [r' R']. rewrite Ek in R'. simpl in R'.
          unfold lhs_of. simpl. rewrite R'. destruct (wf_lhs g wf r' (nth_error_In _ _ R')) as (j & Ej & _). congruence. }
        destruct (state_move _ _ _ _ _ au _ S it _ HS Hit Hn Hl) as (q & T & He & HT & Hadv).
        assert (mstep (fr1 ++ fr) w1 [EReduce k] (inl (mkFrame (NonTerminal i) q (INode k (trees fr1)) :: fr)) w1) as Hm by (eapply ms_reduce; eauto).
        rewrite A2 in Hm. set (f := mkFrame (NonTerminal i) q (INode k cs)) in *.
        pose proof (proj1 (mstep_valid g n lalr pg _ _ _ _ _ Hv1 Hm)) as Hv2.
        assert (msteps fr (iyields cs ++ w1) (post_orders cs ++ [EReduce k]) (f :: fr) w1) as Hms by (eapply msteps_trans; [eauto|apply msteps_one; auto]).
        destruct (IH2 0 al0 be (f :: fr) T (adv it) w' eq_refl) as [(fr3 & S' & B1 & B2 & B3 & B4 & B5)|(Hrec & ev & tr & w2 & B)]; auto.
        - intros X. apply Hne. right; auto.
        - left. exists (fr3 ++ [f]), S'. rewrite <- app_assoc. cbn [app]. split; [|split; [|split; [|split]]]; auto.
          + change (post_orders (INode k cs :: ts)) with ((post_orders cs ++ [EReduce k]) ++ post_orders ts). rewrite <- Ew1 in B1. eapply msteps_trans; eauto.
          + rewrite trees_app, B2. reflexivity.
          + rewrite syms_app, B3. reflexivity.
          + simpl in B5. cbn [length]. replace (it_dot it + Datatypes.S (length al0)) with (Datatypes.S (it_dot it + length al0)) by lia. auto.
        - right. split; auto. exists ((post_orders cs ++ [EReduce k]) ++ ev), tr, w2. rewrite <- Ew1 in B. eapply msteps_maccept; eauto. }
      destruct (Nat.eq_dec (top fr) 0) as [Et|Et]; [destruct (cmp_dec (NonTerminal i) (g_entry g)) as [Eg|Eg]|].
      * right. split.
        -- destruct (it_rule it) as [k'|] eqn:Ek; [|contradiction]. exists S, it, k'. rewrite Et in HS. split; auto. split; auto. split; auto. rewrite <- Eg. unfold symbol_after_dot. rewrite Ek. auto.
        -- exists (post_orders cs ++ [EReduce k]), (INode k (trees fr1)), w1. exists (post_orders cs), (fr1 ++ fr), w1, [EReduce k]. split; auto. split; auto. eapply ms_accept; eauto.
      * apply Hgo. tauto.
      * apply Hgo. tauto.
    + right. split; auto. exists ev, tr, w2. auto.
Qed.

Lemma end_column : In End (columns g).
Proof. apply in_or_app. right. left. auto. Qed.

Lemma complete_tree : forall tr, parse_tree g tr ->
  maccept [] (iyield tr) (post_order tr) tr [] \/ (entry_rec /\ exists ev tr' w', maccept [] (iyield tr) ev tr' w').
Proof.
  intros tr H. destruct (entry_symbol g wf) as [i Ei]. unfold parse_tree in H. rewrite Ei in H.
  inversion H as [| | |k r j al cs ts Hr Hl H1 H2]; subst. clear H2. destruct (gi_entry _ _ _ _ _ gi) as (S & HS & HS0).
  assert (In (entry_item n) S) as Hent by (apply HS0; constructor).
  assert (In (init_item g k (la_of n End)) S) as Hinit.
  { apply (expand_lookahead_token [] S (entry_item n) i k r [] [] [] []); auto.
    - constructor.
    - unfold rhs_of. simpl. destruct (wf_entry_rule g wf) as [_ E]. rewrite E, Ei. reflexivity.
    - constructor.
    - intros En. exists End. split; [unfold entry_item; simpl; rewrite En; reflexivity|]. simpl. apply f_look. left; auto. }
  destruct (eps r (nth_error_In _ _ Hr)) as (m & al & Erhs & Hal).
  assert (rhs_of g (Some k) = r_rhs r) as Erk by (unfold rhs_of; simpl; unfold R in Hr; rewrite Hr; auto).
  assert (start_dot g k = m) as Esd by (unfold start_dot; rewrite Erk, Erhs; apply lead_eps_spec; auto).
  destruct (complete_seq (r_rhs r) cs H1 m al [] [] S (init_item g k (la_of n End)) []) as [(fr1 & S1 & A1 & A2 & A3 & A4 & A5)|(Hrec & ev & tr & w2 & A)]; auto.
  - constructor.
  - discriminate.
  - simpl. rewrite Erk, Esd, Erhs, skipn_repeat, app_nil_r. auto.
  - apply end_column.
  - intros En. exists End. split; [unfold la_of; simpl; rewrite En; auto|]. simpl. apply f_look. left; auto.
  - left. rewrite !app_nil_r in *. simpl in A5. set (z := mkItem (Some k) (start_dot g k + length al) (la_of n End)) in *.
    assert (symbol_after_dot g z = None) as Hz.
    { unfold symbol_after_dot, z. cbn [it_rule it_dot]. apply nth_error_None. rewrite Erk, Erhs, app_length, repeat_length, Esd. lia. }
    assert (valid fr1) as Hv1 by (eapply msteps_valid; eauto; constructor).
    destruct (completed_handle g wf n n_le fs lalr pg au fr1 S1 z k Hv1 A4 A5 eq_refl Hz) as (r' & i' & fra & frb & S2 & y & Hh).
    pose proof (ha_rule _ _ _ _ _ _ _ _ _ _ _ _ Hh) as E1. unfold R in Hr. assert (r' = r) as -> by congruence.
    pose proof (ha_lhs _ _ _ _ _ _ _ _ _ _ _ _ Hh) as E2. assert (i' = i) as -> by congruence.
    pose proof (ha_pop _ _ _ _ _ _ _ _ _ _ _ _ Hh) as E3. rewrite Erhs, filter_repeat_eps, filter_no_eps, <- A3, syms_length in E3 by auto.
    pose proof (ha_split _ _ _ _ _ _ _ _ _ _ _ _ Hh) as Es.
    assert (frb = []) as ->. { apply length_zero_iff_nil. apply (f_equal (@length _)) in Es. rewrite app_length in Es. lia. }
    rewrite app_nil_r in Es. subst fra.
    exists (post_orders cs), fr1, [], [EReduce k]. split; auto. split; [|reflexivity]. rewrite <- A2. eapply ms_accept; eauto.
    + apply end_column.
    + split; auto. split; auto. intros En. unfold z, la_of. rewrite En. reflexivity.
    + reflexivity.
  - right. split; auto. exists ev, tr, w2. rewrite app_nil_r in A. auto.
Qed.
End Eps.

(** ** Left recursion of the entry symbol *)

Lemma entry_corner : forall z, clo g n fs (entry_item n) z -> forall k j i, g_entry g = NonTerminal i -> it_rule z = Some k -> symbol_after_dot g z = Some (NonTerminal j) ->
  clos_trans N (left_corner g) i j.
Proof.
  intros z H. induction H as [|y z Hc IH Hz]; intros k j i Ei Hk Hs; [discriminate|].
  destruct Hz as [s k' las la Q1 Q2 Q3 Q4]. simpl in Hk. injection Hk as ->. unfold symbol_after_dot in Hs. cbn [it_rule it_dot init_item] in Hs.
  apply rules_for_spec in Q2. destruct Q2 as (r & i0 & R1 & R2 & ->).
  assert (left_corner g i0 j) as Hlc.
  { exists r, (start_dot g k), (skipn (Datatypes.S (start_dot g k)) (r_rhs r)). split; [eapply nth_error_In; eauto|]. split; auto.
    unfold start_dot, rhs_of in *. simpl in *. rewrite R1 in *. rewrite (lead_eps_repeat (r_rhs r)) at 1. f_equal.
    destruct (skipn (lead_eps (r_rhs r)) (r_rhs r)) as [|a l] eqn:E.
    - exfalso. assert (length (skipn (lead_eps (r_rhs r)) (r_rhs r)) = 0) as X by (rewrite E; auto). rewrite skipn_length in X.
      apply nth_error_lt in Hs. lia.
    - apply skipn_nth in E. destruct E as [E1 E2]. simpl in E2. simpl. congruence. }
  destruct (it_rule y) as [k0|] eqn:Ek.
  - eapply t_trans; [eapply IH; eauto|]. apply t_step. auto.
  - destruct (gi_entry _ _ _ _ _ gi) as (S & HS & HS0). destruct (entry_rule_item g wf n fs lalr pg au 0 S y HS (proj2 (HS0 y) Hc) Ek) as [_ ->].
    rewrite (entry_item_next g wf n) in Q1. assert (i0 = i) as -> by congruence. apply t_step. auto.
Qed.

Lemma entry_rec_left : entry_rec -> entry_left_recursive g.
Proof.
  intros (S & z & k & HS & Hz & Hk & Hs). destruct (entry_symbol g wf) as [i Ei]. exists i. split; auto. destruct (gi_entry _ _ _ _ _ gi) as (S0 & HS' & HS0).
  assert (S = S0) as -> by congruence. eapply entry_corner; eauto; [apply HS0; auto|]. rewrite <- Ei. auto.
Qed.

(** ** Determinism *)

Section Det.
Hypothesis ncf : no_conflict g n pg.

Lemma handle_det : forall fr x k r i fr1 fr2 S2 y r' i' fr1' fr2' S2' y', handle fr x k r i fr1 fr2 S2 y -> handle fr x k r' i' fr1' fr2' S2' y' ->
  i = i' /\ fr1 = fr1' /\ fr2 = fr2'.
Proof.
  intros fr x k r i fr1 fr2 S2 y r' i' fr1' fr2' S2' y' H H'.
  pose proof (ha_rule _ _ _ _ _ _ _ _ _ _ _ _ H) as A. pose proof (ha_rule _ _ _ _ _ _ _ _ _ _ _ _ H') as A'. assert (r' = r) as -> by congruence.
  pose proof (ha_lhs _ _ _ _ _ _ _ _ _ _ _ _ H) as B. pose proof (ha_lhs _ _ _ _ _ _ _ _ _ _ _ _ H') as B'. split; [congruence|].
  pose proof (ha_pop _ _ _ _ _ _ _ _ _ _ _ _ H) as C. pose proof (ha_pop _ _ _ _ _ _ _ _ _ _ _ _ H') as C'. rewrite C in C'.
  pose proof (ha_split _ _ _ _ _ _ _ _ _ _ _ _ H) as D. pose proof (ha_split _ _ _ _ _ _ _ _ _ _ _ _ H') as D'. rewrite D in D'. clear - C' D'.
  revert fr1' C' D'. induction fr1 as [|f fr1 IH]; intros [|f' fr1'] C D; simpl in *; try discriminate; auto.
  injection D as -> D. injection C as C. destruct (IH fr1' C D) as [-> ->]. auto.
Qed.

Lemma mstep_det : forall fr w ev o w' ev' o' w'', mstep fr w ev o w' -> mstep fr w ev' o' w'' -> ev = ev' /\ o = o' /\ w' = w''.
Proof.
  intros fr w ev o w' ev' o' w'' H H'. destruct ncf as [N1 N2].
  assert (forall S x x' k k' r i fr1 fr2 S2 y r' i' fr1' fr2' S2' y' S', st pg (top fr) = Some S -> st pg (top fr) = Some S' ->
    reducing g n S (token_symbol (peek w)) x -> reducing g n S' (token_symbol (peek w)) x' -> it_rule x = Some k -> it_rule x' = Some k' ->
    handle fr x k r i fr1 fr2 S2 y -> handle fr x' k' r' i' fr1' fr2' S2' y' -> k = k' /\ i = i' /\ fr1 = fr1' /\ fr2 = fr2') as HR.
  { intros S x x' k k' r i fr1 fr2 S2 y r' i' fr1' fr2' S2' y' S' HS HS' Hr Hr' Hk Hk' Hh Hh'. assert (S' = S) as -> by congruence.
    assert (x' = x) as -> by (eapply N1; eauto). assert (k' = k) as -> by congruence. split; auto. eapply handle_det; eauto. }
  destruct H as [t w q He|w S x k r i fr1 fr2 S2 y q HS Hc Hr Hk Hh He Hne|w S x k r i fr1 fr2 S2 y HS Hc Hr Hk Hh Ht Hi];
    inversion H' as [t' w0 q' He'|w0 S' x' k' r' i' fr1' fr2' S2' y' q' HS' Hc' Hr' Hk' Hh' He' Hne'|w0 S' x' k' r' i' fr1' fr2' S2' y' HS' Hc' Hr' Hk' Hh' Ht' Hi']; subst; clear H'.
  - assert (q' = q) as -> by (eapply edge_det; eauto). auto.
  - destruct (N2 _ _ _ _ q HS' Hr'). auto.
  - destruct (N2 _ _ _ _ q HS' Hr'). auto.
  - destruct (N2 _ _ _ _ q' HS Hr). auto.
  - destruct (HR S x x' k k' r i fr1 fr2 S2 y r' i' fr1' fr2' S2' y' S') as (-> & -> & -> & ->); auto. assert (q' = q) as -> by (eapply edge_det; eauto). auto.
  - destruct (HR S x x' k k' r i fr1 fr2 S2 y r' i' fr1' fr2' S2' y' S') as (-> & -> & -> & ->); auto. tauto.
  - destruct (N2 _ _ _ _ q' HS Hr). auto.
  - destruct (HR S x x' k k' r i fr1 fr2 S2 y r' i' fr1' fr2' S2' y' S') as (-> & -> & -> & ->); auto. tauto.
  - destruct (HR S x x' k k' r i fr1 fr2 S2 y r' i' fr1' fr2' S2' y' S') as (-> & -> & -> & ->); auto.
Qed.

Lemma maccept_det : forall fr w ev tr w' ev' tr' w'', maccept fr w ev tr w' -> maccept fr w ev' tr' w'' -> ev = ev' /\ tr = tr' /\ w' = w''.
Proof.
  intros fr w ev tr w' ev' tr' w'' (e1 & f1 & w1 & e2 & A & B & ->). revert ev' tr' w''.
  induction A as [fr w|fr w e3 f3 w3 e4 f4 w4 A1 A2 IH]; intros ev' tr' w'' (e1' & f1' & w1' & e2' & A' & B' & ->).
  - destruct A' as [fr w|fr w e3' f3' w3' e4' f4' w4' A1' A2'].
    + destruct (mstep_det _ _ _ _ _ _ _ _ B B') as (-> & [= ->] & ->). auto.
    + destruct (mstep_det _ _ _ _ _ _ _ _ B A1') as (_ & X & _). discriminate.
  - destruct A' as [fr w|fr w e3' f3' w3' e4' f4' w4' A1' A2'].
    + destruct (mstep_det _ _ _ _ _ _ _ _ A1 B') as (_ & X & _). discriminate.
    + destruct (mstep_det _ _ _ _ _ _ _ _ A1 A1') as (-> & [= ->] & ->).
      destruct (IH B (e4' ++ e2') tr' w'') as (X & -> & ->); [exists e4', f4', w4', e2'; auto|]. rewrite <- !app_assoc. rewrite X. auto.
Qed.
End Det.

(** ** The driver *)

Section Driver.
Variable tb : lr_table.
Hypothesis tf : table_of g n pg tb.
Variable p : lr_parser.
Hypothesis wr : written g tb p.

Lemma mstep_events : forall fr w ev o w', mstep fr w ev o w' -> length ev = 1.
Proof. intros fr w ev o w' H. destruct H; reflexivity. Qed.

Lemma driver_accepts : forall fr w ev tr w' fuel, valid fr -> maccept fr w ev tr w' -> length ev < fuel -> lr_run fuel p (concrete fr) w = (ev, Ok w').
Proof.
  intros fr w ev tr w' fuel Hv (e1 & f1 & w1 & e2 & A & B & ->). revert fuel. induction A as [fr w|fr w e3 f3 w3 e4 f4 w4 A1 A2 IH]; intros fuel Hf.
  - rewrite app_nil_l in *. pose proof (mstep_events _ _ _ _ _ B) as L. rewrite L in Hf. destruct fuel as [|[|fuel]]; try lia.
    rewrite (driver_step g wf n n_le fs lalr pg au tb tf p wr _ _ _ _ _ Hv B). rewrite lr_run_nil, app_nil_r. reflexivity.
  - pose proof (mstep_events _ _ _ _ _ A1) as L. rewrite !app_length, L in Hf. destruct fuel as [|fuel]; [lia|].
    rewrite (driver_step g wf n n_le fs lalr pg au tb tf p wr _ _ _ _ _ Hv A1). rewrite IH; auto; [rewrite <- app_assoc; reflexivity|eapply mstep_valid; eauto|rewrite app_length; lia].
Qed.

Lemma driver_accept_inv : forall fuel fr w ev w', valid fr -> lr_run fuel p (concrete fr) w = (ev, Ok w') -> exists tr, maccept fr w ev tr w'.
Proof.
  induction fuel as [|fuel IH]; intros fr w ev w' Hv H; [discriminate|].
  destruct (driver_cases g wf n n_le fs lalr pg au tb tf p wr fr w Hv) as [(ev1 & o & w1 & Hm)|[He _]]; [|rewrite He in H; discriminate].
  rewrite (driver_step g wf n n_le fs lalr pg au tb tf p wr fr w ev1 o w1 Hv Hm) in H. destruct o as [fr'|tr].
  - destruct (lr_run fuel p (concrete fr') w1) as [ev2 r2] eqn:E2. injection H as <- ->.
    destruct (IH fr' w1 ev2 w' (proj1 (mstep_valid _ _ _ _ _ _ _ _ _ Hv Hm)) E2) as (tr & e1 & f1 & v1 & e2 & A & B & ->).
    exists tr, (ev1 ++ e1), f1, v1, e2. split; [econstructor; eauto|]. split; auto. apply app_assoc.
  - rewrite lr_run_nil in H. destruct fuel as [|fuel]; [discriminate|]. injection H as <- <-. rewrite app_nil_r. exists tr, [], fr, w, ev1. split; [constructor|]. auto.
Qed.
End Driver.

(** ** Acceptance at the end of the input *)

Lemma token_end : forall w, token_symbol (peek w) = End -> w = [].
Proof. intros [|t w] H; auto. discriminate. Qed.

(** Canonical LR(1). *)
Lemma entry_lookahead : forall S y k i, n = 1 -> st pg 0 = Some S -> In y S -> it_rule y = Some k -> lhs_of g (Some k) = Some i -> g_entry g = NonTerminal i -> ~ entry_rec -> it_la y = [End].
Proof.
  intros S y k i En HS Hy Hk Hl Ei Hrec. destruct (gi_entry _ _ _ _ _ gi) as (S0 & HS' & HS0). assert (S = S0) as -> by congruence.
  apply HS0 in Hy. destruct (clo_inv _ _ _ _ _ Hy) as [->|(z & Hz & He)]; [discriminate|].
  destruct He as [s k' las la Q1 Q2 Q3 Q4]. simpl in Hk. injection Hk as ->. simpl. apply rules_for_spec in Q2. destruct Q2 as (r & i0 & R1 & R2 & ->).
  unfold lhs_of in Hl. simpl in Hl. rewrite R1 in Hl. assert (i0 = i) as -> by congruence.
  destruct (it_rule z) as [kz|] eqn:Ez.
  - destruct Hrec. exists S0, z, kz. split; auto. split; [apply HS0; auto|]. split; auto. congruence.
  - destruct (entry_rule_item g wf n fs lalr pg au 0 S0 z HS (proj2 (HS0 z) Hz) Ez) as [_ ->].
    apply (lookaheads_spec g wf n fs n_le (fun E => fc_ok g fs (fs_ok E)) _ _ (entry_item_ok g n) Q3) in Q4. destruct Q4 as [[X _]|(_ & x & y & X1 & -> & _ & X3)]; [congruence|].
    unfold entry_item in X1. rewrite En in X1. simpl in X1. injection X1 as <-. unfold rest_of, rhs_of in X3. simpl in X3. destruct (wf_entry_rule g wf) as [_ E]. rewrite E in X3. simpl in X3.
    destruct X3 as [[_ []]|[_ ->]]. auto.
Qed.

Lemma accept_end_lr1 : forall fr w ev tr w', n = 1 -> lalr = false -> ~ entry_rec -> valid fr -> maccept fr w ev tr w' -> w' = [].
Proof.
  intros fr w ev tr w' En El Hrec Hv (e1 & f1 & w1 & e2 & A & B & _). pose proof (msteps_valid _ _ _ _ _ A Hv) as Hv1.
  inversion B as [| |w0 S x k r i fr1 fr2 S2 y HS Hc Hr Hk Hh Ht Hi]; subst. apply token_end. destruct Hr as (X1 & X2 & X3).
  destruct (ha_item _ _ _ _ _ _ _ _ _ _ _ _ Hh) as (Y1 & Y2 & Y3 & Y4).
  assert (it_la y = [End]) as E.
  { pose proof (ha_state _ _ _ _ _ _ _ _ _ _ _ _ Hh) as HS2. rewrite Ht in HS2. eapply (entry_lookahead S2 y k i); eauto.
    unfold lhs_of. simpl. rewrite (ha_rule _ _ _ _ _ _ _ _ _ _ _ _ Hh). apply (ha_lhs _ _ _ _ _ _ _ _ _ _ _ _ Hh). }
  rewrite Y4, X3 in E; auto. congruence.
Qed.

(** The entry symbol occurs in no right-hand side. *)

Lemma lv_fresh : entry_fresh g -> n = 1 -> forall q x k, lv g n fs pg q x -> it_rule x = Some k -> lhs_of g (Some k) <> None -> NonTerminal (match lhs_of g (Some k) with Some i => i | None => 0%N end) = g_entry g -> it_la x = [End].
Proof.
  intros Hf En.
  assert (forall y x, clo g n fs y x -> (it_rule y = None -> y = entry_item n) -> forall k i, it_rule x = Some k -> lhs_of g (Some k) = Some i -> NonTerminal i = g_entry g -> x <> y -> it_la x = [End]) as HC.
  { intros y x Hc Hy k i Hk Hl Hi Hne. destruct (clo_inv _ _ _ _ _ Hc) as [->|(z & Hz & He)]; [congruence|].
    destruct He as [s k' las la Q1 Q2 Q3 Q4]. simpl in Hk. injection Hk as ->. simpl. apply rules_for_spec in Q2. destruct Q2 as (r & i0 & R1 & R2 & ->).
    unfold lhs_of in Hl. simpl in Hl. rewrite R1 in Hl. assert (i0 = i) as -> by congruence. rewrite Hi in Q1. 
    destruct (it_rule z) as [kz|] eqn:Ez.
    - exfalso. unfold symbol_after_dot, rhs_of in Q1. rewrite Ez in Q1. simpl in Q1. destruct (nth_error (g_rules g) kz) as [rz|] eqn:Er; [|destruct (it_dot z); discriminate].
      apply (Hf rz (nth_error_In _ _ Er)). eapply nth_error_In; eauto.
    - assert (z = entry_item n) as ->.
      { destruct (clo_inv _ _ _ _ _ Hz) as [->|(z' & _ & He)]; [auto|]. apply expands_init in He. destruct He as (k' & E & _). congruence. }
      apply (lookaheads_spec g wf n fs n_le (fun E => fc_ok g fs (fs_ok E)) _ _ (entry_item_ok g n) Q3) in Q4. destruct Q4 as [[X _]|(_ & x0 & y0 & X1 & -> & _ & X3)]; [congruence|].
      unfold entry_item in X1. rewrite En in X1. simpl in X1. injection X1 as <-. unfold rest_of, rhs_of in X3. simpl in X3. destruct (wf_entry_rule g wf) as [_ E]. rewrite E in X3. simpl in X3.
      destruct X3 as [[_ []]|[_ ->]]. auto. }
  intros q x k H. revert k. induction H as [x Hx|p s q it x Hp IH H1 H2 H3 H4]; intros k Hk Hl Hi; destruct (lhs_of g (Some k)) as [i|] eqn:El; try congruence.
  - eapply (HC (entry_item n) x); eauto. intros ->. discriminate.
  - destruct (cmp_dec x (adv it)) as [->|Hne].
    + simpl in *. apply (IH k); auto; rewrite El; auto.
    + eapply (HC (adv it) x); eauto. simpl. intros E. exfalso. rewrite E in H2. unfold lhs_of in H2. simpl in H2. destruct (wf_entry_rule g wf) as [X _]. congruence.
Qed.

Lemma accept_end_fresh : forall fr w ev tr w', n = 1 -> entry_fresh g -> valid fr -> maccept fr w ev tr w' -> w' = [].
Proof.
  intros fr w ev tr w' En Hf Hv (e1 & f1 & w1 & e2 & A & B & _).
  inversion B as [| |w0 S x k r i fr1 fr2 S2 y HS Hc Hr Hk Hh Ht Hi]; subst. apply token_end. destruct Hr as (X1 & X2 & X3).
  pose proof (gi_lv _ _ _ _ _ gi _ _ _ HS X1) as L.
  assert (lhs_of g (Some k) = Some i) as El by (unfold lhs_of; simpl; rewrite (ha_rule _ _ _ _ _ _ _ _ _ _ _ _ Hh); apply (ha_lhs _ _ _ _ _ _ _ _ _ _ _ _ Hh)).
  pose proof (lv_fresh Hf En _ _ k L Hk) as E. rewrite El in E. rewrite X3 in E by auto. specialize (E ltac:(discriminate) Hi). congruence.
Qed.
End Complete.
