(** The emitted LR parser follows the graph: soundness, absence of panics. *)
From Coq Require Import String List Arith NArith Bool Lia.
From Verif Require Import Base InputModel GrammarModel GrammarSpec GrammarProof LLModel LLSpec SententialProof SetsProof FirstProof LRModel LRSpec BidiProof ItemProof LRItemsProof LRGraphProof AutomatonProof LRTableProof LRWriteProof LRGenProof LRConflictProof.
Import ListNotations.
Local Open Scope nat_scope.
Local Open Scope list_scope.

(** ** Stacks as paths of the graph *)

Record frame : Type := mkFrame { fr_sym : symbol; fr_state : nat; fr_tree : itree }.
Definition top (fr : list frame) : nat := match fr with [] => 0 | f :: _ => fr_state f end.
Fixpoint concrete (fr : list frame) : list stack_symbol :=
  match fr with
  | [] => [KState 0]
  | f :: fr => KState (fr_state f) :: stack_of (fr_sym f) :: concrete fr
  end.
Definition trees (fr : list frame) : list itree := rev (map fr_tree fr).
Definition syms (fr : list frame) : list symbol := rev (map fr_sym fr).

Lemma concrete_top : forall fr, exists l, concrete fr = KState (top fr) :: l.
Proof. intros [|f fr]; simpl; eauto. Qed.

Lemma trees_cons : forall f fr, trees (f :: fr) = trees fr ++ [fr_tree f].
Proof. reflexivity. Qed.
Lemma trees_app : forall a b, trees (a ++ b) = trees b ++ trees a.
Proof. intros a b. unfold trees. rewrite map_app, rev_app_distr. reflexivity. Qed.
Lemma syms_cons : forall f fr, syms (f :: fr) = syms fr ++ [fr_sym f].
Proof. reflexivity. Qed.
Lemma syms_app : forall a b, syms (a ++ b) = syms b ++ syms a.
Proof. intros a b. unfold syms. rewrite map_app, rev_app_distr. reflexivity. Qed.
Lemma syms_length : forall fr, length (syms fr) = length fr.
Proof. intros fr. unfold syms. rewrite rev_length, map_length. reflexivity. Qed.

Lemma post_orders_app : forall a b, post_orders (a ++ b) = post_orders a ++ post_orders b.
Proof. intros a b. unfold post_orders. rewrite map_app, concat_app. reflexivity. Qed.
Lemma iyields_app : forall a b, iyields (a ++ b) = iyields a ++ iyields b.
Proof. intros a b. unfold iyields. rewrite map_app, concat_app. reflexivity. Qed.
Lemma post_orders_one : forall t, post_orders [t] = post_order t.
Proof. intros t. unfold post_orders. simpl. apply app_nil_r. Qed.
Lemma iyields_one : forall t, iyields [t] = iyield t.
Proof. intros t. unfold iyields. simpl. apply app_nil_r. Qed.

Lemma pop_pairs_concrete : forall a b, pop_pairs (length a) (concrete (a ++ b)) = Ok (concrete b).
Proof. induction a as [|f a IH]; intros b; simpl; auto. Qed.

(** Trees of the symbols of a stack. *)
Lemma iparses_app : forall R al ts be us, iparses R al ts -> iparses R be us -> iparses R (al ++ be) (ts ++ us).
Proof. intros R al ts be us H Hb. induction H; simpl; auto; [constructor; auto|constructor; auto|econstructor; eauto]. Qed.

Lemma iparses_eps : forall R m al ts, iparses R al ts -> iparses R (repeat Epsilon m ++ al) ts.
Proof. intros R m al ts H. induction m as [|m IH]; simpl; auto. constructor. auto. Qed.

Section Run.
Variable g : grammar.
Hypothesis wf : wf_grammar g.
Variable n : nat.
Hypothesis n_le : n <= 1.
Variable fs : symbol_sets.
Variable lalr : bool.
Variable pg : lr_graph.
Hypothesis au : automaton g n fs lalr pg.
Let gi := au_inv g n fs lalr pg au.
Let R := g_rules g.

Inductive valid : list frame -> Prop :=
| va_nil : valid []
| va_cons : forall f fr, valid fr -> edge pg (top fr) (fr_sym f) (fr_state f) -> iparses R [fr_sym f] [fr_tree f] -> valid (f :: fr).

Lemma valid_app : forall a b, valid (a ++ b) -> valid b.
Proof. induction a as [|f a IH]; intros b H; simpl in H; auto. inversion H; auto. Qed.

Lemma valid_state : forall fr, valid fr -> exists S, st pg (top fr) = Some S.
Proof.
  intros fr [|f fr' H He Ht]; simpl.
  - destruct (gi_entry _ _ _ _ _ gi) as (S & HS & _). eauto.
  - destruct (edge_states _ _ _ _ _ au _ _ _ He) as (S & T & _ & HT). eauto.
Qed.

Lemma valid_top_0 : forall fr, valid fr -> top fr = 0 -> fr = [].
Proof. intros fr [|f fr' H He Ht] Hz; auto. simpl in Hz. rewrite Hz in He. destruct (no_edge_to_entry g wf n fs lalr pg au _ _ He). Qed.

Lemma valid_iparses : forall fr, valid fr -> iparses R (syms fr) (trees fr).
Proof. intros fr H. induction H as [|f fr H IH He Ht]; [constructor|]. rewrite syms_cons, trees_cons. apply iparses_app; auto. Qed.

Lemma tree_not_epsilon : forall s t, iparses R [s] [t] -> s <> Epsilon.
Proof. intros s t H E. subst. inversion H as [|al ts X| |]; subst. inversion X. Qed.

(** Going back from an item to the start of its rule. *)
Lemma item_back : forall m fr S x k, valid fr -> st pg (top fr) = Some S -> In x S -> it_rule x = Some k -> it_dot x = start_dot g k + m ->
  exists fr1 fr2 S2 y, fr = fr1 ++ fr2 /\ length fr1 = m /\ st pg (top fr2) = Some S2 /\ In y S2 /\ it_rule y = Some k /\ it_dot y = start_dot g k /\
    (lalr = false -> it_la y = it_la x) /\ syms fr1 = firstn m (skipn (start_dot g k) (rhs_of g (Some k))).
Proof.
  induction m as [|m IH]; intros fr S x k Hv HS Hx Hk Hd.
  - exists [], fr, S, x. rewrite Nat.add_0_r in Hd. repeat split; auto.
  - destruct Hv as [|f fr Hv He Ht].
    { simpl in HS. rewrite (entry_state_dot _ _ _ _ _ au S x k HS Hx Hk) in Hd. lia. }
    simpl in HS. destruct (edge_states _ _ _ _ _ au _ _ _ He) as (P & T & HP & HT). assert (T = S) as -> by congruence.
    destruct (edge_back _ _ _ _ _ au _ _ _ P S x k He HP HT Hx Hk) as (it & Hi & Hk' & Hd' & Hs & Hla); [lia|].
    destruct (IH fr P it k Hv HP Hi Hk') as (fr1 & fr2 & S2 & y & -> & A1 & A2 & A3 & A4 & A5 & A6 & A7); [lia|].
    exists (f :: fr1), fr2, S2, y. split; auto. split; [simpl; congruence|]. split; auto. split; auto. split; auto. split; auto. split.
    + intros El. rewrite A6, Hla; auto.
    + rewrite syms_cons, A7. unfold symbol_after_dot in Hs. rewrite Hk' in Hs. replace (it_dot it) with (start_dot g k + m) in Hs by lia.
      assert (nth_error (skipn (start_dot g k) (rhs_of g (Some k))) m = Some (fr_sym f)) as X.
      { rewrite <- Hs. rewrite <- (firstn_skipn (start_dot g k) (rhs_of g (Some k))) at 2. rewrite nth_error_app2; rewrite firstn_length_le; try (apply lead_eps_le).
        - f_equal. lia.
        - lia. }
      revert X. generalize (skipn (start_dot g k) (rhs_of g (Some k))) as l. clear. induction m as [|m IH]; intros [|a l] X; try discriminate; simpl in *.
      * congruence.
      * rewrite <- IH; auto.
Qed.

Lemma syms_no_epsilon : forall fr, valid fr -> ~ In Epsilon (syms fr).
Proof.
  intros fr H. induction H as [|f fr H IH He Ht]; [intros []|]. rewrite syms_cons. intros X. apply in_app_or in X. destruct X as [X|[X|[]]]; auto.
  apply (tree_not_epsilon _ _ Ht X).
Qed.

Lemma filter_repeat_eps : forall m al, filter not_epsilon (repeat Epsilon m ++ al) = filter not_epsilon al.
Proof. induction m as [|m IH]; intros al; simpl; auto. Qed.

Lemma filter_no_eps : forall al, ~ In Epsilon al -> filter not_epsilon al = al.
Proof.
  induction al as [|s al IH]; intros H; simpl; auto. assert (not_epsilon s = true) as -> by (apply not_epsilon_iff; intros ->; apply H; left; auto).
  rewrite IH; auto. intros X. apply H. right; auto.
Qed.

(** ** One reduction *)

(** A completed item on a valid stack: its right-hand side is on the stack, and below it the item was predicted. *)
Record handle (fr : list frame) (x : item) (k : nat) (r : rule) (i : N) (fr1 fr2 : list frame) (S2 : list item) (y : item) : Prop := {
  ha_split : fr = fr1 ++ fr2;
  ha_rule : nth_error R k = Some r;
  ha_lhs : r_lhs r = Some i;
  ha_pop : length (filter not_epsilon (r_rhs r)) = length fr1;
  ha_tree : iparses R (r_rhs r) (trees fr1);
  ha_state : st pg (top fr2) = Some S2;
  ha_item : In y S2 /\ it_rule y = Some k /\ it_dot y = start_dot g k /\ (lalr = false -> it_la y = it_la x)
}.

Lemma completed_handle : forall fr S x k, valid fr -> st pg (top fr) = Some S -> In x S -> it_rule x = Some k -> symbol_after_dot g x = None ->
  exists r i fr1 fr2 S2 y, handle fr x k r i fr1 fr2 S2 y.
Proof.
  intros fr S x k Hv HS Hx Hk Hr. pose proof (item_dot_ge _ _ _ _ _ au _ S x k HS Hx Hk) as Hge.
  pose proof (state_ok _ _ _ _ _ au _ _ _ HS Hx) as Hok. destruct (ik_rule _ _ _ Hok) as [r Er]. rewrite Hk in Er. simpl in Er.
  destruct (wf_lhs g wf r (nth_error_In _ _ Er)) as (i & Ei & _).
  destruct (item_back (it_dot x - start_dot g k) fr S x k Hv HS Hx Hk) as (fr1 & fr2 & S2 & y & E & A1 & A2 & A3 & A4 & A5 & A6 & A7); [lia|].
  assert (it_dot x = length (r_rhs r)) as Hd.
  { pose proof (ik_dot _ _ _ Hok) as D. unfold symbol_after_dot in Hr. apply nth_error_None in Hr. unfold rhs_of in *. rewrite Hk in *. simpl in *. rewrite Er in *. lia. }
  assert (start_dot g k <= length (r_rhs r)) as Hsd by lia.
  assert (rhs_of g (Some k) = r_rhs r) as Erhs by (unfold rhs_of; simpl; rewrite Er; auto). rewrite Erhs in A7.
  assert (syms fr1 = skipn (start_dot g k) (r_rhs r)) as A8.
  { rewrite A7. apply firstn_all2. rewrite skipn_length. lia. }
  assert (r_rhs r = repeat Epsilon (start_dot g k) ++ syms fr1) as A9.
  { rewrite A8. unfold start_dot. rewrite Erhs. apply lead_eps_repeat. }
  assert (valid fr1 -> True) by auto.
  assert (~ In Epsilon (syms fr1)) as Hne.
  { intros X. apply (syms_no_epsilon fr Hv). rewrite E, syms_app. apply in_or_app. auto. }
  exists r, i, fr1, fr2, S2, y. split; auto.
  - rewrite A9, filter_repeat_eps, filter_no_eps, syms_length; auto.
  - rewrite A9. apply iparses_eps. assert (forall a b, valid (a ++ b) -> iparses R (syms a) (trees a)) as X.
    { induction a as [|f a IH]; intros b HV; [constructor|]. inversion HV as [|? ? V1 V2 V3]; subst. rewrite syms_cons, trees_cons. apply iparses_app; eauto. }
    apply (X fr1 fr2). rewrite <- E. auto.
Qed.

(** What can follow a reduction. *)
Lemma handle_goto : forall fr x k r i fr1 fr2 S2 y, handle fr x k r i fr1 fr2 S2 y ->
  (top fr2 = 0 /\ NonTerminal i = g_entry g) \/ exists t, edge pg (top fr2) (NonTerminal i) t.
Proof.
  intros fr x k r i fr1 fr2 S2 y [H1 H2 H3 H4 H5 H6 (Y1 & Y2 & Y3 & Y4)].
  destruct (parent_item g n fs lalr pg au (top fr2) S2 y k i H6 Y1 Y2 Y3) as (z & Hz & Ez); [unfold lhs_of; simpl; fold R; rewrite H2; auto|].
  destruct (it_rule z) as [k'|] eqn:Ek.
  - right. destruct (ik_rule _ _ _ (state_ok _ _ _ _ _ au _ _ _ H6 Hz)) as [r' R']. rewrite Ek in R'. simpl in R'.
    destruct (state_move _ _ _ _ _ au _ S2 z _ H6 Hz Ez) as (t & T & He & _); [|eauto].
    unfold lhs_of. rewrite Ek. simpl. rewrite R'. destruct (wf_lhs g wf r' (nth_error_In _ _ R')) as (j & Ej & _). congruence.
  - left. destruct (entry_rule_item g wf n fs lalr pg au _ S2 z H6 Hz Ek) as [E0 ->]. split; auto.
    rewrite (entry_item_next g wf n) in Ez. congruence.
Qed.

(** ** Moves of the parser *)

Inductive mstep (fr : list frame) : list N -> list lr_event -> list frame + itree -> list N -> Prop :=
| ms_shift : forall t w q, edge pg (top fr) (Terminal t) q -> mstep fr (t :: w) [EShift (Some t)] (inl (mkFrame (Terminal t) q (ILeaf t) :: fr)) w
| ms_reduce : forall w S x k r i fr1 fr2 S2 y q, st pg (top fr) = Some S -> In (token_symbol (peek w)) (columns g) -> reducing g n S (token_symbol (peek w)) x -> it_rule x = Some k ->
    handle fr x k r i fr1 fr2 S2 y -> edge pg (top fr2) (NonTerminal i) q -> ~ (top fr2 = 0 /\ NonTerminal i = g_entry g) ->
    mstep fr w [EReduce k] (inl (mkFrame (NonTerminal i) q (INode k (trees fr1)) :: fr2)) w
| ms_accept : forall w S x k r i fr1 fr2 S2 y, st pg (top fr) = Some S -> In (token_symbol (peek w)) (columns g) -> reducing g n S (token_symbol (peek w)) x -> it_rule x = Some k ->
    handle fr x k r i fr1 fr2 S2 y -> top fr2 = 0 -> NonTerminal i = g_entry g ->
    mstep fr w [EReduce k] (inr (INode k (trees fr1))) w.

Lemma mstep_valid : forall fr w ev fr' w', valid fr -> mstep fr w ev (inl fr') w' ->
  valid fr' /\ post_orders (trees fr') = post_orders (trees fr) ++ ev /\ iyields (trees fr) ++ w = iyields (trees fr') ++ w'.
Proof.
  intros fr w ev fr' w' Hv H. inversion H as [t w0 q He|w0 S x k r i fr1 fr2 S2 y q HS Hc Hr Hk Hh He Hne|]; subst.
  - split; [constructor; auto; simpl; constructor; constructor|]. rewrite trees_cons, post_orders_app, post_orders_one, iyields_app, iyields_one. simpl. split; auto.
    rewrite <- app_assoc. reflexivity.
  - pose proof (ha_split _ _ _ _ _ _ _ _ _ Hh) as Es.
    split; [constructor; auto; simpl|].
    + apply (valid_app fr1). rewrite <- Es. auto.
    + econstructor; [apply (ha_rule _ _ _ _ _ _ _ _ _ Hh)|apply (ha_lhs _ _ _ _ _ _ _ _ _ Hh)|apply (ha_tree _ _ _ _ _ _ _ _ _ Hh)|constructor].
    + rewrite Es, trees_cons, trees_app, !post_orders_app, post_orders_one, !iyields_app, iyields_one. simpl. split; auto.
      rewrite <- app_assoc. reflexivity.
Qed.

Lemma mstep_accept : forall fr w ev tr w', valid fr -> mstep fr w ev (inr tr) w' ->
  parse_tree g tr /\ post_order tr = post_orders (trees fr) ++ ev /\ iyields (trees fr) ++ w = iyield tr ++ w'.
Proof.
  intros fr w ev tr w' Hv H. inversion H as [| |w0 S x k r i fr1 fr2 S2 y HS Hc Hr Hk Hh Ht Hi]; subst.
  pose proof (ha_split _ _ _ _ _ _ _ _ _ Hh) as Es. assert (fr2 = []) as -> by (apply valid_top_0; auto; apply (valid_app fr1); rewrite <- Es; auto).
  rewrite app_nil_r in Es. subst fr1. split; [|split; reflexivity].
  unfold parse_tree. rewrite <- Hi. econstructor; [apply (ha_rule _ _ _ _ _ _ _ _ _ Hh)|apply (ha_lhs _ _ _ _ _ _ _ _ _ Hh)|apply (ha_tree _ _ _ _ _ _ _ _ _ Hh)|constructor].
Qed.

(** ** The emitted parser *)

Section Driver.
Variable tb : lr_table.
Hypothesis tf : table_of g n pg tb.
Variable p : lr_parser.
Hypothesis wr : written g tb p.

Lemma state_lt : forall q S, st pg q = Some S -> q < tb_states tb.
Proof. intros q S H. rewrite (tf_states _ _ _ _ tf). eapply st_lt; eauto. Qed.

Lemma goto_columns_in : forall s, In s (goto_columns g) <-> In s (columns g).
Proof. intros s. unfold goto_columns, token_columns, columns, all_symbols. rewrite !in_app_iff. tauto. Qed.

Lemma single_in : forall q S s e, st pg q = Some S -> In s (columns g) -> In e (cell tb q s) -> cell tb q s = [e].
Proof.
  intros q S s e HS Hs He. pose proof (wr_single g tb p wr q s (state_lt q S HS) (proj2 (goto_columns_in s) Hs)) as X. unfold single in X.
  destruct (cell tb q s) as [|e' [|e'' l]]; [destruct He| |simpl in X; lia]. destruct He as [->|[]]. auto.
Qed.

Lemma token_columns_in : forall t, In (token_symbol t) (token_columns g) <-> In (token_symbol t) (columns g).
Proof.
  intros t. unfold token_columns, columns, all_symbols. rewrite !in_app_iff. split; [tauto|]. intros [[H|H]|H]; auto.
  apply (wf_nts g wf) in H. destruct H as [i H]. destruct t; discriminate.
Qed.

Lemma edge_goto : forall q S s t, st pg q = Some S -> edge pg q s t -> (exists i, s = NonTerminal i) \/ (exists x, s = Terminal x) -> ~ (q = 0 /\ s = g_entry g) ->
  next_goto (lp_gotos p) q (stack_of s) = Ok (GotoState t).
Proof.
  intros q S s t HS He Hk Hne. rewrite (wr_goto _ _ _ wr q s (state_lt q S HS) Hk).
  assert (In s (all_symbols g)) as Hs by (eapply edge_column; eauto; destruct Hk as [[i ->]|[x ->]]; discriminate).
  assert (In s (columns g)) as Hc by (apply in_or_app; auto).
  destruct (sym_in s (goto_columns g)) as [|X]; [|destruct X; apply goto_columns_in; auto].
  rewrite (single_in q S s (Shift t) HS Hc); [reflexivity|]. apply (cell_shift g n n_le fs lalr pg au tb tf q S s t HS Hc). tauto.
Qed.

Lemma entry_goto : next_goto (lp_gotos p) 0 (stack_of (g_entry g)) = Ok GotoAccept.
Proof.
  destruct (gi_entry _ _ _ _ _ gi) as (S & HS & _). destruct (entry_symbol g wf) as [i Ei].
  rewrite (wr_goto _ _ _ wr 0 (g_entry g) (state_lt 0 S HS)); [|left; eauto].
  assert (In (g_entry g) (columns g)) as Hc by (apply in_or_app; left; apply entry_symbol_in; auto).
  destruct (sym_in (g_entry g) (goto_columns g)) as [|X]; [|destruct X; apply goto_columns_in; auto].
  rewrite (single_in 0 S (g_entry g) Accept HS Hc); [reflexivity|]. apply (cell_accept g wf n n_le fs lalr pg au tb tf 0 S _ HS Hc). auto.
Qed.

Lemma lr_run_step : forall fuel fr w, lr_run (S fuel) p (concrete fr) w =
  let '(ev, r) := lr_act p (concrete fr) w in
  match r with
  | Ok (stack, tokens) =>
    match lr_goto_step p stack with
    | Ok stack => let '(ev', r) := lr_run fuel p stack tokens in (ev ++ ev', r)
    | Err e => (ev, Err e)
    | Panic => (ev, Panic)
    | OutOfFuel => (ev, OutOfFuel)
    end
  | Err e => (ev, Err e)
  | Panic => (ev, Panic)
  | OutOfFuel => (ev, OutOfFuel)
  end.
Proof. intros fuel fr w. cbn [lr_run]. destruct (concrete fr) eqn:E; auto. destruct fr; discriminate. Qed.

Lemma act_action : forall fr w S, st pg (top fr) = Some S ->
  next_action (lp_actions p) (top fr) (peek w) =
  match (if sym_in (token_symbol (peek w)) (token_columns g) then cell_action (cell tb (top fr) (token_symbol (peek w))) else None) with
  | Some a => Ok a
  | None => Err (UnexpectedTok (peek w) (expected_of g tb (top fr)))
  end.
Proof. intros fr w S HS. apply (wr_action _ _ _ wr). eapply state_lt; eauto. Qed.

(** The parser makes every move which is possible on the graph. *)
Lemma driver_step : forall fr w ev o w', valid fr -> mstep fr w ev o w' -> forall fuel,
  lr_run (S fuel) p (concrete fr) w =
  match o with
  | inl fr' => let '(ev', r) := lr_run fuel p (concrete fr') w' in (ev ++ ev', r)
  | inr _ => let '(ev', r) := lr_run fuel p [] w' in (ev ++ ev', r)
  end.
Proof.
  intros fr w ev o w' Hv H fuel. rewrite lr_run_step. unfold lr_act. destruct (valid_state fr Hv) as [S0 HS0]. destruct (concrete_top fr) as [l El].
  assert (forall k r i fr1 fr2 S2 y x S, st pg (top fr) = Some S -> In (token_symbol (peek w)) (columns g) -> reducing g n S (token_symbol (peek w)) x -> it_rule x = Some k -> handle fr x k r i fr1 fr2 S2 y ->
    next_action (lp_actions p) (top fr) (peek w) = Ok (ActReduce k) /\ reduce_stack p k (concrete fr) = Ok (KNonTerminal i :: concrete fr2)) as HR.
  { intros k r i fr1 fr2 S2 y x S HS Hc Hr Hk Hh. split.
    - rewrite (act_action fr w S HS). destruct (sym_in (token_symbol (peek w)) (token_columns g)) as [|X]; [|destruct X; apply token_columns_in; auto].
      rewrite (single_in (top fr) S _ (Reduce (Some k)) HS Hc); [reflexivity|]. apply (cell_reduce g n n_le fs lalr pg au tb tf (top fr) S _ _ HS Hc). eauto.
    - unfold reduce_stack. rewrite (wr_reduction _ _ _ wr k). fold R. rewrite (ha_rule _ _ _ _ _ _ _ _ _ Hh), (ha_lhs _ _ _ _ _ _ _ _ _ Hh), (ha_pop _ _ _ _ _ _ _ _ _ Hh), (ha_split _ _ _ _ _ _ _ _ _ Hh), pop_pairs_concrete. reflexivity. }
  destruct H as [t w q He|w S x k r i fr1 fr2 S2 y q HS Hc Hr Hk Hh He Hne|w S x k r i fr1 fr2 S2 y HS Hc Hr Hk Hh Ht Hi].
  - assert (In (Terminal t) (columns g)) as Hc by (apply in_or_app; left; eapply edge_column; eauto; discriminate).
    assert (next_action (lp_actions p) (top fr) (peek (t :: w)) = Ok ActShift) as Ha.
    { rewrite (act_action fr (t :: w) S0 HS0). cbn [peek hd_error token_symbol]. destruct (sym_in (Terminal t) (token_columns g)) as [|X]; [|destruct X; apply (token_columns_in (Some t)); auto].
      rewrite (single_in (top fr) S0 _ (Shift q) HS0 Hc); [reflexivity|]. apply (cell_shift g n n_le fs lalr pg au tb tf (top fr) S0 _ q HS0 Hc).
      split; [eapply edge_column; eauto; discriminate|]. split; auto. destruct (entry_symbol g wf) as [j Ej]. rewrite Ej. intros [X _]. discriminate. }
    rewrite El at 1. rewrite Ha. cbn [tl]. rewrite El at 1. unfold lr_goto_step. change (KTerminal (peek (t :: w))) with (stack_of (Terminal t)).
    rewrite (edge_goto (top fr) S0 (Terminal t) q HS0 He); [|eauto|].
    + cbn [bind]. rewrite <- El. reflexivity.
    + destruct (entry_symbol g wf) as [j Ej]. rewrite Ej. intros [_ X]. discriminate.
  - destruct (HR k r i fr1 fr2 S2 y x S HS Hc Hr Hk Hh) as [Ha Hs]. rewrite El at 1. rewrite Ha, Hs. destruct (concrete_top fr2) as [l2 El2].
    rewrite El2 at 1. unfold lr_goto_step. change (KNonTerminal i) with (stack_of (NonTerminal i)).
    rewrite (edge_goto (top fr2) S2 (NonTerminal i) q (ha_state _ _ _ _ _ _ _ _ _ Hh) He); [|eauto|tauto]. cbn [bind]. rewrite <- El2. reflexivity.
  - destruct (HR k r i fr1 fr2 S2 y x S HS Hc Hr Hk Hh) as [Ha Hs]. rewrite El at 1. rewrite Ha, Hs.
    assert (fr2 = []) as -> by (apply valid_top_0; auto; apply (valid_app fr1); rewrite <- (ha_split _ _ _ _ _ _ _ _ _ Hh); auto).
    cbn [concrete lr_goto_step]. change (KNonTerminal i) with (stack_of (NonTerminal i)). rewrite Hi, entry_goto. reflexivity.
Qed.

(** Otherwise it stops with an error. *)
Lemma driver_cases : forall fr w, valid fr ->
  (exists ev o w', mstep fr w ev o w') \/
  ((forall fuel, lr_run (S fuel) p (concrete fr) w = ([], Err (UnexpectedTok (peek w) (expected_of g tb (top fr))))) /\
   (In (token_symbol (peek w)) (token_columns g) -> cell_action (cell tb (top fr) (token_symbol (peek w))) = None)).
Proof.
  intros fr w Hv. destruct (valid_state fr Hv) as [S HS]. destruct (concrete_top fr) as [l El]. pose proof (act_action fr w S HS) as Ha.
  destruct (sym_in (token_symbol (peek w)) (token_columns g)) as [Hin|Hin].
  2: { right. split; [|contradiction]. intros fuel. rewrite lr_run_step. unfold lr_act. rewrite El at 1. rewrite Ha. reflexivity. }
  apply token_columns_in in Hin. destruct (cell_action (cell tb (top fr) (token_symbol (peek w)))) as [a|] eqn:Ec.
  2: { right. split; auto. intros fuel. rewrite lr_run_step. unfold lr_act. rewrite El at 1. rewrite Ha. reflexivity. }
  left. unfold cell_action in Ec. destruct (cell tb (top fr) (token_symbol (peek w))) as [|e [|]] eqn:Ecell; try discriminate; [|destruct e as [|[]| |]; discriminate].
  assert (In e (cell tb (top fr) (token_symbol (peek w)))) as He by (rewrite Ecell; left; auto).
  destruct e as [t|[k|]| |]; try discriminate.
  - apply (cell_shift g n n_le fs lalr pg au tb tf _ S _ t HS Hin) in He. destruct He as (H1 & H2 & _). destruct w as [|x w]; simpl in *.
    + destruct (end_not_symbol g wf H1).
    + exists [EShift (Some x)], (inl (mkFrame (Terminal x) t (ILeaf x) :: fr)), w. constructor. auto.
  - apply (cell_reduce g n n_le fs lalr pg au tb tf _ S _ _ HS Hin) in He. destruct He as (x & Hr & Hk). destruct Hr as (Hx & Hd & Hla) eqn:Er.
    destruct (completed_handle fr S x k Hv HS Hx Hk Hd) as (r & i & fr1 & fr2 & S2 & y & Hh).
    destruct (Nat.eq_dec (top fr2) 0) as [E0|E0]; [destruct (cmp_dec (NonTerminal i) (g_entry g)) as [E1|E1]|].
    + exists [EReduce k], (inr (INode k (trees fr1))), w. eapply ms_accept; eauto.
    + destruct (handle_goto _ _ _ _ _ _ _ _ _ Hh) as [[_ X]|[t Ht]]; [contradiction|].
      exists [EReduce k], (inl (mkFrame (NonTerminal i) t (INode k (trees fr1)) :: fr2)), w. eapply ms_reduce; eauto. tauto.
    + destruct (handle_goto _ _ _ _ _ _ _ _ _ Hh) as [[X _]|[t Ht]]; [contradiction|].
      exists [EReduce k], (inl (mkFrame (NonTerminal i) t (INode k (trees fr1)) :: fr2)), w. eapply ms_reduce; eauto. tauto.
Qed.

Lemma lr_run_nil : forall fuel w, lr_run fuel p [] w = ([], match fuel with O => OutOfFuel | S _ => Ok w end).
Proof. intros [|fuel] w; reflexivity. Qed.

(** ** Soundness *)
Lemma run_sound : forall fuel fr w ev w', valid fr -> lr_run fuel p (concrete fr) w = (ev, Ok w') ->
  exists tr, parse_tree g tr /\ post_orders (trees fr) ++ ev = post_order tr /\ iyields (trees fr) ++ w = iyield tr ++ w'.
Proof.
  induction fuel as [|fuel IH]; intros fr w ev w' Hv H; [discriminate|].
  destruct (driver_cases fr w Hv) as [(ev1 & o & w1 & Hm)|[He _]]; [|rewrite He in H; discriminate].
  rewrite (driver_step fr w ev1 o w1 Hv Hm) in H. destruct o as [fr'|tr].
  - destruct (lr_run fuel p (concrete fr') w1) as [ev2 r2] eqn:E2. injection H as <- ->. destruct (mstep_valid _ _ _ _ _ Hv Hm) as (V1 & V2 & V3).
    destruct (IH fr' w1 ev2 w' V1 E2) as (tr & T1 & T2 & T3). exists tr. split; auto. split; [rewrite app_assoc, <- V2; auto|rewrite V3; auto].
  - rewrite lr_run_nil in H. destruct fuel as [|fuel]; [discriminate|]. injection H as <- <-. rewrite app_nil_r. destruct (mstep_accept _ _ _ _ _ Hv Hm) as (T1 & T2 & T3).
    exists tr. auto.
Qed.

(** ** No panic *)
Lemma run_no_panic : forall fuel fr w, valid fr -> snd (lr_run fuel p (concrete fr) w) <> Panic.
Proof.
  induction fuel as [|fuel IH]; intros fr w Hv; [discriminate|].
  destruct (driver_cases fr w Hv) as [(ev1 & o & w1 & Hm)|[He _]]; [|rewrite He; discriminate].
  rewrite (driver_step fr w ev1 o w1 Hv Hm). destruct o as [fr'|tr].
  - destruct (lr_run fuel p (concrete fr') w1) as [ev2 r2] eqn:E2. simpl. pose proof (IH fr' w1 (proj1 (mstep_valid _ _ _ _ _ Hv Hm))) as X. rewrite E2 in X. exact X.
  - rewrite lr_run_nil. destruct fuel; discriminate.
Qed.

(** ** Errors *)
Lemma run_error : forall fuel fr w ev e, valid fr -> lr_run fuel p (concrete fr) w = (ev, Err e) ->
  exists fr' w', valid fr' /\ post_orders (trees fr') = post_orders (trees fr) ++ ev /\ iyields (trees fr) ++ w = iyields (trees fr') ++ w' /\
    e = UnexpectedTok (peek w') (expected_of g tb (top fr')) /\
    (In (token_symbol (peek w')) (token_columns g) -> cell_action (cell tb (top fr') (token_symbol (peek w'))) = None).
Proof.
  induction fuel as [|fuel IH]; intros fr w ev e Hv H; [discriminate|].
  destruct (driver_cases fr w Hv) as [(ev1 & o & w1 & Hm)|[He Hc]].
  - rewrite (driver_step fr w ev1 o w1 Hv Hm) in H. destruct o as [fr'|tr].
    + destruct (lr_run fuel p (concrete fr') w1) as [ev2 r2] eqn:E2. injection H as <- ->. destruct (mstep_valid _ _ _ _ _ Hv Hm) as (V1 & V2 & V3).
      destruct (IH fr' w1 ev2 e V1 E2) as (fr'' & w'' & T1 & T2 & T3 & T4 & T5). exists fr'', w''. split; auto. split; [rewrite T2, V2, app_assoc; auto|]. split; [rewrite V3; auto|auto].
    + rewrite lr_run_nil in H. destruct fuel; discriminate.
  - rewrite He in H. injection H as <- <-. exists fr, w. rewrite app_nil_r. auto.
Qed.
End Driver.
End Run.
