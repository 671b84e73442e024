(** The emitted [match]es, in terms of the cells of the table. *)
From Coq Require Import String List Arith NArith Bool Lia.
From Verif Require Import Base InputModel GrammarModel GrammarSpec GrammarProof LLModel LLSpec SetsProof LRModel LRSpec LRTableProof.
Import ListNotations.
Local Open Scope nat_scope.
Local Open Scope list_scope.

(** Column of a token. *)
Definition token_symbol (t : token) : symbol := match t with Some t => Terminal t | None => End end.
Lemma column_token_inv : forall s t, column_token s = Some t -> s = token_symbol t.
Proof. intros [| |i|x] t H; try discriminate; injection H as <-; reflexivity. Qed.
Lemma column_token_symbol : forall t, column_token (token_symbol t) = Some t.
Proof. intros [t|]; reflexivity. Qed.

Definition token_columns (g : grammar) : list symbol := terminals g ++ [End].

(** What a cell makes the emitted parser do. *)
Definition cell_action (c : list table_entry) : option lr_action :=
  match c with
  | [Shift _] => Some ActShift
  | [Reduce (Some k)] => Some (ActReduce k)
  | _ => None
  end.
Definition cell_goto (c : list table_entry) : option lr_goto :=
  match c with
  | [Shift t] => Some (GotoState t)
  | [Accept] => Some GotoAccept
  | _ => None
  end.
Definition expected_of (g : grammar) (tb : lr_table) (q : nat) : list token :=
  flat_map (fun s => match cell tb q s with [e] => expected_symbols s e | _ => [] end) (token_columns g).

Section Write.
Variable g : grammar.
Hypothesis wf : wf_grammar g.
Variable tb : lr_table.
Hypothesis ok : tb_ok tb.

Definition cell_arms (q : nat) (s : symbol) : list action_arm :=
  match column_token s, cell_action (cell tb q s) with Some t, Some a => [OnToken q t a] | _, _ => [] end.
Definition state_arms (q : nat) : list action_arm := flat_map (cell_arms q) (token_columns g) ++ [OnOther q (expected_of g tb q)].

Definition single (q : nat) (s : symbol) : Prop := length (cell tb q s) <= 1.
Definition no_entry_reduce (q : nat) (s : symbol) : Prop := cell tb q s <> [Reduce None].

Lemma action_cells : forall q l acc acc', Forall (fun s => column_token s <> None) l ->
  foldM (action_cell q) (map (fun s => (s, get_entry tb q s)) l) acc = Ok acc' ->
  acc' = (fst acc ++ flat_map (cell_arms q) l, snd acc ++ flat_map (fun s => match cell tb q s with [e] => expected_symbols s e | _ => [] end) l) /\
  Forall (single q) l /\ Forall (no_entry_reduce q) l.
Proof.
  intros q l. induction l as [|s l IH]; intros acc acc' Hl H; cbn [map foldM] in H.
  - injection H as <-. simpl. rewrite !app_nil_r. destruct acc; auto.
  - inversion Hl as [|? ? Hs Hl']; subst. inv_bind H. unfold action_cell in Hb. cbn [fst snd] in Hb. rewrite get_entry_cell in Hb by auto.
    assert (a = (fst acc ++ cell_arms q s, snd acc ++ match cell tb q s with [e] => expected_symbols s e | _ => [] end) /\ single q s /\ no_entry_reduce q s) as (-> & H1 & H2).
    { unfold cell_arms, single, no_entry_reduce. destruct (cell tb q s) as [|e [|e' c]]; [| |discriminate].
      - injection Hb as <-. rewrite !app_nil_r. destruct (column_token s); destruct acc; simpl; rewrite ?app_nil_r; (split; [reflexivity|split; [lia|discriminate]]).
      - inv_bind Hb. injection Hb as <-. unfold make_action in Hb0. destruct (column_token s) as [t|]; [|contradiction].
        destruct e as [x|[k|]| |]; cbn [cell_action]; try discriminate; injection Hb0 as <-; (split; [rewrite ?app_nil_r; reflexivity|split; [simpl; lia|discriminate]]). }
    apply IH in H; auto. cbn [fst snd] in H. destruct H as (-> & A & B). split; [|split; constructor; auto]. simpl. rewrite <- !app_assoc. reflexivity.
Qed.

Lemma token_columns_tokens : Forall (fun s => column_token s <> None) (token_columns g).
Proof.
  apply Forall_forall. intros s Hs. unfold token_columns in Hs. apply in_app_or in Hs. destruct Hs as [Hs|[<-|[]]]; [|discriminate].
  apply (wf_ts g wf) in Hs. destruct Hs as [t ->]. discriminate.
Qed.

Lemma make_actions_spec : forall arms, make_actions g tb = Ok arms ->
  arms = flat_map state_arms (seq 0 (tb_states tb)) /\ forall q s, q < tb_states tb -> In s (token_columns g) -> single q s /\ no_entry_reduce q s.
Proof.
  intros arms H. unfold make_actions in H.
  assert (forall l acc r, foldM (fun acc state => do (arms, expected) <- foldM (action_cell state) (iter_state_terminals tb g state) ([], []); Ok (acc ++ arms ++ [OnOther state expected])) l acc = Ok r ->
    r = acc ++ flat_map state_arms l /\ forall q s, In q l -> In s (token_columns g) -> single q s /\ no_entry_reduce q s) as HF.
  { induction l as [|q l IH]; intros acc r HH; cbn [foldM] in HH.
    - injection HH as <-. simpl. rewrite app_nil_r. split; auto. intros q s [].
    - inv_bind HH. inv_bind Hb. destruct a0 as [arms1 exp1]. unfold iter_state_terminals in Hb0. apply action_cells in Hb0; [|apply token_columns_tokens].
      destruct Hb0 as ([= -> ->] & A & B). injection Hb as <-. apply IH in HH. destruct HH as [-> C]. split.
      + simpl. unfold state_arms at 2. rewrite <- !app_assoc. reflexivity.
      + intros q' s [<-|Hq] Hs; auto. split; [exact (proj1 (Forall_forall _ _) A s Hs)|exact (proj1 (Forall_forall _ _) B s Hs)]. }
  apply HF in H. destruct H as [-> H]. split; auto. intros q s Hq. apply H. apply in_seq. lia.
Qed.

Lemma make_actions_total : (forall q s, q < tb_states tb -> In s (token_columns g) -> single q s /\ no_entry_reduce q s) -> exists arms, make_actions g tb = Ok arms.
Proof.
  intros H. unfold make_actions.
  assert (forall l acc, (forall q, In q l -> q < tb_states tb) -> exists r, foldM (fun acc state => do (arms, expected) <- foldM (action_cell state) (iter_state_terminals tb g state) ([], []); Ok (acc ++ arms ++ [OnOther state expected])) l acc = Ok r) as HF.
  { induction l as [|q l IH]; intros acc Hl; cbn [foldM]; [eauto|].
    assert (forall cols acc, incl cols (token_columns g) -> exists r, foldM (action_cell q) (map (fun s => (s, get_entry tb q s)) cols) acc = Ok r) as HC.
    { induction cols as [|s cols IHc]; intros acc0 Hi; cbn [map foldM]; [eauto|]. unfold action_cell at 1. cbn [fst snd]. rewrite get_entry_cell by auto.
      destruct (H q s) as [A B]; [apply Hl; left; auto|apply Hi; left; auto|]. unfold single, no_entry_reduce in A, B.
      assert (incl cols (token_columns g)) as Hi' by (intros x Hx; apply Hi; right; auto).
      destruct (cell tb q s) as [|e [|e' c]]; [cbn [bind]; apply IHc; auto| |simpl in A; lia].
      unfold make_action. destruct (column_token s) as [t|]; [|cbn [bind]; apply IHc; auto]. destruct e as [x|[k|]| |]; cbn [bind]; try (apply IHc; auto). congruence. }
    destruct (HC (token_columns g) ([], []) (incl_refl _)) as [[arms1 exp1] E]. unfold iter_state_terminals. unfold token_columns in E. rewrite E. cbn [bind].
    apply IH. intros q' Hq'. apply Hl. right; auto. }
  apply HF. intros q Hq. apply in_seq in Hq. lia.
Qed.

Lemma next_action_other : forall arms l q t, (forall a, In a arms -> match a with OnToken s _ _ | OnOther s _ => s <> q end) -> next_action (arms ++ l) q t = next_action l q t.
Proof.
  induction arms as [|a arms IH]; intros l q t H; auto. pose proof (H a (or_introl eq_refl)) as Ha. cbn [app next_action].
  destruct a as [s t' a|s e]; replace (q =? s) with false by (symmetry; apply Nat.eqb_neq; congruence); cbn [andb]; apply IH; intros; apply H; right; auto.
Qed.

Lemma state_arms_state : forall q a, In a (state_arms q) -> match a with OnToken s _ _ | OnOther s _ => s = q end.
Proof.
  intros q a H. unfold state_arms in H. apply in_app_or in H. destruct H as [H|[<-|[]]]; auto. apply in_flat_map in H. destruct H as (s & _ & H).
  unfold cell_arms in H. destruct (column_token s); [|destruct H]. destruct (cell_action _); [|destruct H]. destruct H as [<-|[]]. auto.
Qed.

Lemma next_action_state : forall q t l, next_action (state_arms q ++ l) q t =
  match (if sym_in (token_symbol t) (token_columns g) then cell_action (cell tb q (token_symbol t)) else None) with
  | Some a => Ok a
  | None => Err (UnexpectedTok t (expected_of g tb q))
  end.
Proof.
  intros q t l. unfold state_arms. rewrite <- app_assoc. generalize (expected_of g tb q) as e. intros e.
  assert (forall cols, next_action (flat_map (cell_arms q) cols ++ OnOther q e :: l) q t =
    match (if sym_in (token_symbol t) cols then cell_action (cell tb q (token_symbol t)) else None) with Some a => Ok a | None => Err (UnexpectedTok t e) end) as HF.
  { induction cols as [|s cols IH]; cbn [flat_map app].
    - cbn [next_action]. rewrite Nat.eqb_refl. destruct (sym_in (token_symbol t) []) as [[]|]. reflexivity.
    - rewrite <- app_assoc. destruct (cmp_dec s (token_symbol t)) as [->|Hne].
      + destruct (sym_in (token_symbol t) (token_symbol t :: cols)) as [_|X]; [|destruct X; left; auto]. unfold cell_arms at 1. rewrite column_token_symbol.
        destruct (cell_action (cell tb q (token_symbol t))) as [a|].
        * cbn [app next_action]. rewrite Nat.eqb_refl, eqc_refl. reflexivity.
        * cbn [app]. rewrite IH. destruct (sym_in (token_symbol t) cols); reflexivity.
      + assert (next_action (cell_arms q s ++ flat_map (cell_arms q) cols ++ OnOther q e :: l) q t = next_action (flat_map (cell_arms q) cols ++ OnOther q e :: l) q t) as ->.
        { unfold cell_arms at 1. destruct (column_token s) as [t'|] eqn:Et; auto. destruct (cell_action (cell tb q s)) as [a|]; auto. cbn [app next_action].
          rewrite Nat.eqb_refl. cbn [andb]. destruct (eqc t t') eqn:E; auto. apply eqc_true in E. subst. apply column_token_inv in Et. contradiction. }
        rewrite IH. destruct (sym_in (token_symbol t) cols) as [X|X], (sym_in (token_symbol t) (s :: cols)) as [Y|Y]; auto; [destruct Y; right; auto|destruct Y; [congruence|contradiction]]. }
  apply HF.
Qed.

Lemma next_action_spec : forall arms q t, make_actions g tb = Ok arms -> q < tb_states tb -> next_action arms q t =
  match (if sym_in (token_symbol t) (token_columns g) then cell_action (cell tb q (token_symbol t)) else None) with
  | Some a => Ok a
  | None => Err (UnexpectedTok t (expected_of g tb q))
  end.
Proof.
  intros arms q t H Hq. apply make_actions_spec in H. destruct H as [-> _].
  assert (seq 0 (tb_states tb) = seq 0 q ++ q :: seq (S q) (tb_states tb - S q)) as ->.
  { replace (tb_states tb) with (q + S (tb_states tb - S q)) at 1 by lia. rewrite seq_app. reflexivity. }
  rewrite flat_map_app. cbn [flat_map]. rewrite next_action_other; [apply next_action_state|].
  intros a Ha. apply in_flat_map in Ha. destruct Ha as (q' & Hq' & Ha). apply in_seq in Hq'. apply state_arms_state in Ha. destruct a; lia.
Qed.

(** ** Gotos *)

Definition goto_columns : list symbol := token_columns g ++ non_terminals g.
Definition cell_gotos (q : nat) (s : symbol) : list ((nat * symbol) * lr_goto) :=
  match s with
  | Terminal _ | NonTerminal _ => match cell_goto (cell tb q s) with Some x => [((q, s), x)] | None => [] end
  | _ => []
  end.
Definition state_gotos (q : nat) : list ((nat * symbol) * lr_goto) := flat_map (cell_gotos q) goto_columns.

Lemma goto_cells : forall q l acc acc', foldM (goto_cell q) (map (fun s => (s, get_entry tb q s)) l) acc = Ok acc' ->
  acc' = acc ++ flat_map (cell_gotos q) l /\ Forall (single q) l.
Proof.
  intros q l. induction l as [|s l IH]; intros acc acc' H; cbn [map foldM] in H.
  - injection H as <-. simpl. rewrite app_nil_r. auto.
  - inv_bind H. unfold goto_cell in Hb. cbn [fst snd] in Hb. rewrite get_entry_cell in Hb by auto.
    assert (a = acc ++ cell_gotos q s /\ single q s) as (-> & H1).
    { unfold cell_gotos, single. destruct (cell tb q s) as [|e [|e' c]]; [| |discriminate].
      - injection Hb as <-. split; [destruct s; rewrite app_nil_r; auto|simpl; lia].
      - injection Hb as <-. split; [|simpl; lia]. unfold make_goto. destruct s, e; cbn [cell_goto]; reflexivity. }
    apply IH in H. destruct H as [-> A]. split; [|constructor; auto]. simpl. rewrite <- app_assoc. reflexivity.
Qed.

Lemma make_gotos_spec : forall gotos, make_gotos g tb = Ok gotos ->
  gotos = flat_map state_gotos (seq 0 (tb_states tb)) /\ forall q s, q < tb_states tb -> In s goto_columns -> single q s.
Proof.
  intros gotos H. unfold make_gotos in H.
  assert (forall l acc r, foldM (fun acc state => foldM (goto_cell state) (iter_state_terminals tb g state ++ iter_state_non_terminals tb g state) acc) l acc = Ok r ->
    r = acc ++ flat_map state_gotos l /\ forall q s, In q l -> In s goto_columns -> single q s) as HF.
  { induction l as [|q l IH]; intros acc r HH; cbn [foldM] in HH.
    - injection HH as <-. simpl. rewrite app_nil_r. split; auto. intros q s [].
    - inv_bind HH. unfold iter_state_terminals, iter_state_non_terminals in Hb. rewrite <- map_app in Hb. apply goto_cells in Hb. destruct Hb as [-> A].
      apply IH in HH. destruct HH as [-> C]. split; [simpl; rewrite <- app_assoc; reflexivity|]. intros q' s [<-|Hq] Hs; auto. exact (proj1 (Forall_forall _ _) A s Hs). }
  apply HF in H. destruct H as [-> H]. split; auto. intros q s Hq. apply H. apply in_seq. lia.
Qed.

Lemma make_gotos_total : (forall q s, q < tb_states tb -> In s goto_columns -> single q s) -> exists gotos, make_gotos g tb = Ok gotos.
Proof.
  intros H. unfold make_gotos.
  assert (forall l acc, (forall q, In q l -> q < tb_states tb) -> exists r, foldM (fun acc state => foldM (goto_cell state) (iter_state_terminals tb g state ++ iter_state_non_terminals tb g state) acc) l acc = Ok r) as HF.
  { induction l as [|q l IH]; intros acc Hl; cbn [foldM]; [eauto|].
    assert (forall cols acc, incl cols goto_columns -> exists r, foldM (goto_cell q) (map (fun s => (s, get_entry tb q s)) cols) acc = Ok r) as HC.
    { induction cols as [|s cols IHc]; intros acc0 Hi; cbn [map foldM]; [eauto|]. unfold goto_cell at 1. cbn [fst snd]. rewrite get_entry_cell by auto.
      assert (single q s) as A by (apply H; [apply Hl; left; auto|apply Hi; left; auto]). unfold single in A.
      assert (incl cols goto_columns) as Hi' by (intros x Hx; apply Hi; right; auto).
      destruct (cell tb q s) as [|e [|e' c]]; [cbn [bind]; apply IHc; auto|cbn [bind]; apply IHc; auto|simpl in A; lia]. }
    unfold iter_state_terminals, iter_state_non_terminals. rewrite <- map_app. destruct (HC goto_columns acc (incl_refl _)) as [r E]. unfold goto_columns, token_columns in E.
    rewrite E. cbn [bind]. apply IH. intros q' Hq'. apply Hl. right; auto. }
  apply HF. intros q Hq. apply in_seq in Hq. lia.
Qed.

(** Stack symbol of a grammar symbol. *)
Definition stack_of (s : symbol) : stack_symbol :=
  match s with NonTerminal i => KNonTerminal i | Terminal t => KTerminal (Some t) | _ => KTerminal None end.

Lemma next_goto_other : forall gotos l q k, (forall a, In a gotos -> fst (fst a) <> q) -> next_goto (gotos ++ l) q k = next_goto l q k.
Proof.
  induction gotos as [|[[q' s] x] gotos IH]; intros l q k H; auto. pose proof (H _ (or_introl eq_refl)) as Ha. cbn [fst] in Ha. cbn [app next_goto].
  replace (q =? q') with false by (symmetry; apply Nat.eqb_neq; congruence). cbn [andb]. apply IH. intros a Ha'. apply H. right; auto.
Qed.

Lemma state_gotos_state : forall q a, In a (state_gotos q) -> fst (fst a) = q.
Proof.
  intros q a H. unfold state_gotos in H. apply in_flat_map in H. destruct H as (s & _ & H). unfold cell_gotos in H.
  destruct s; try (destruct H; fail); (destruct (cell_goto _); [destruct H as [<-|[]]; auto|destruct H]).
Qed.

Lemma next_goto_state : forall cols q s l, (exists i, s = NonTerminal i) \/ (exists t, s = Terminal t) -> (forall a, In a l -> fst (fst a) <> q) ->
  next_goto (flat_map (cell_gotos q) cols ++ l) q (stack_of s) =
  match (if sym_in s cols then cell_goto (cell tb q s) else None) with Some x => Ok x | None => Panic end.
Proof.
  intros cols q s l Hs Hl. induction cols as [|s' cols IH]; cbn [flat_map app].
  - rewrite <- (app_nil_r l). rewrite next_goto_other by auto. destruct (sym_in s []) as [[]|]. reflexivity.
  - rewrite <- app_assoc. destruct (cmp_dec s' s) as [->|Hne].
    + destruct (sym_in s (s :: cols)) as [_|X]; [|destruct X; left; auto].
      assert (cell_gotos q s = match cell_goto (cell tb q s) with Some x => [((q, s), x)] | None => [] end) as -> by (destruct Hs as [[i ->]|[t ->]]; reflexivity).
      destruct (cell_goto (cell tb q s)) as [x|].
      * cbn [app next_goto]. rewrite Nat.eqb_refl. destruct Hs as [[i ->]|[t ->]]; cbn [stack_of]; rewrite eqc_refl; reflexivity.
      * cbn [app]. rewrite IH. destruct (sym_in s cols); reflexivity.
    + assert (next_goto (cell_gotos q s' ++ flat_map (cell_gotos q) cols ++ l) q (stack_of s) = next_goto (flat_map (cell_gotos q) cols ++ l) q (stack_of s)) as ->.
      { clear IH. unfold cell_gotos at 1. destruct s' as [| |i'|t']; auto; (destruct (cell_goto (cell tb q _)) as [x|]; auto; cbn [app next_goto]; rewrite Nat.eqb_refl; cbn [andb]).
        - destruct Hs as [[i ->]|[t ->]]; cbn [stack_of]; auto. destruct (eqc i' i) eqn:E; auto. apply eqc_true in E. congruence.
        - destruct Hs as [[i ->]|[t ->]]; cbn [stack_of]; auto. destruct (eqc (Some t') (Some t)) eqn:E; auto. apply eqc_true in E. congruence. }
      rewrite IH. destruct (sym_in s cols) as [X|X], (sym_in s (s' :: cols)) as [Y|Y]; auto; [destruct Y; right; auto|destruct Y; [congruence|contradiction]].
Qed.

Lemma next_goto_spec : forall gotos q s, make_gotos g tb = Ok gotos -> q < tb_states tb -> (exists i, s = NonTerminal i) \/ (exists t, s = Terminal t) ->
  next_goto gotos q (stack_of s) = match (if sym_in s goto_columns then cell_goto (cell tb q s) else None) with Some x => Ok x | None => Panic end.
Proof.
  intros gotos q s H Hq Hs. apply make_gotos_spec in H. destruct H as [-> _].
  assert (seq 0 (tb_states tb) = seq 0 q ++ q :: seq (S q) (tb_states tb - S q)) as ->.
  { replace (tb_states tb) with (q + S (tb_states tb - S q)) at 1 by lia. rewrite seq_app. reflexivity. }
  rewrite flat_map_app. cbn [flat_map]. rewrite next_goto_other.
  - apply next_goto_state; auto. intros a Ha. apply in_flat_map in Ha. destruct Ha as (q' & Hq' & Ha). apply in_seq in Hq'. apply state_gotos_state in Ha. lia.
  - intros a Ha. apply in_flat_map in Ha. destruct Ha as (q' & Hq' & Ha). apply in_seq in Hq'. apply state_gotos_state in Ha. lia.
Qed.

(** ** Reductions *)

Lemma make_rule_reductions_spec : exists l, make_rule_reductions g = Ok l /\
  forall k, nth_error l k = match nth_error (g_rules g) k with Some r => match r_lhs r with Some i => Some (length (filter not_epsilon (r_rhs r)), NonTerminal i) | None => None end | None => None end.
Proof.
  unfold make_rule_reductions.
  assert (forall rs acc, (forall r, In r rs -> exists i, r_lhs r = Some i) -> exists l, foldM (fun acc r => do x <- make_reduction r; Ok (acc ++ [x])) rs acc = @Ok Empty_set _ (acc ++ l) /\
    forall k, nth_error l k = match nth_error rs k with Some r => match r_lhs r with Some i => Some (length (filter not_epsilon (r_rhs r)), NonTerminal i) | None => None end | None => None end) as HF.
  { induction rs as [|r rs IH]; intros acc H; cbn [foldM].
    - exists []. rewrite app_nil_r. split; auto. intros [|k]; reflexivity.
    - destruct (H r) as [i Hi]; [left; auto|]. unfold make_reduction at 1. rewrite Hi. cbn [bind].
      destruct (IH (acc ++ [(length (filter not_epsilon (r_rhs r)), NonTerminal i)])) as (l & E & I); [intros; apply H; right; auto|].
      exists ((length (filter not_epsilon (r_rhs r)), NonTerminal i) :: l). rewrite E, <- app_assoc. split; auto. intros [|k]; cbn [nth_error]; [rewrite Hi; reflexivity|apply I]. }
  destruct (HF (g_rules g) []) as (l & E & I).
  - intros r Hr. destruct (wf_lhs g wf r Hr) as (i & Hi & _). eauto.
  - exists l. split; auto.
Qed.

Record written (p : lr_parser) : Prop := {
  wr_entry : lp_entry p = tb_entry tb;
  wr_single : forall q s, q < tb_states tb -> In s goto_columns -> single q s;
  wr_action : forall q t, q < tb_states tb -> next_action (lp_actions p) q t =
    match (if sym_in (token_symbol t) (token_columns g) then cell_action (cell tb q (token_symbol t)) else None) with
    | Some a => Ok a
    | None => Err (UnexpectedTok t (expected_of g tb q))
    end;
  wr_goto : forall q s, q < tb_states tb -> (exists i, s = NonTerminal i) \/ (exists t, s = Terminal t) ->
    next_goto (lp_gotos p) q (stack_of s) = match (if sym_in s goto_columns then cell_goto (cell tb q s) else None) with Some x => Ok x | None => Panic end;
  wr_reduction : forall k, nth_error (lp_reductions p) k =
    match nth_error (g_rules g) k with Some r => match r_lhs r with Some i => Some (length (filter not_epsilon (r_rhs r)), NonTerminal i) | None => None end | None => None end
}.

Lemma write_parser_spec : forall p, write_parser g tb = Ok p -> written p.
Proof.
  intros p H. unfold write_parser in H. inv_bind H. inv_bind H. inv_bind H. injection H as <-. split; cbn [lp_entry lp_actions lp_gotos lp_reductions]; auto.
  - apply make_gotos_spec in Hb0. apply Hb0.
  - intros q t Hq. eapply next_action_spec; eauto.
  - intros q s Hq Hs. eapply next_goto_spec; eauto.
  - destruct make_rule_reductions_spec as (l & E & I). assert (a1 = l) as -> by congruence. exact I.
Qed.

Lemma write_parser_total : (forall q s, q < tb_states tb -> In s goto_columns -> single q s) -> (forall q s, q < tb_states tb -> In s (token_columns g) -> no_entry_reduce q s) ->
  exists p, write_parser g tb = Ok p.
Proof.
  intros H1 H2. unfold write_parser. destruct make_actions_total as [arms E1].
  - intros q s Hq Hs. split; auto. apply H1; auto. apply in_or_app. auto.
  - rewrite E1. cbn [bind]. destruct (make_gotos_total H1) as [gotos E2]. rewrite E2. cbn [bind].
    destruct make_rule_reductions_spec as (l & E3 & _). rewrite E3. cbn [bind]. eauto.
Qed.
End Write.
