(** The emitted GLR tables, in terms of the cells of the table. *)
From Coq Require Import String List Arith NArith Bool Lia.
From Verif Require Import Base InputModel GrammarModel GrammarSpec GrammarProof LLModel LLSpec SetsProof LRModel LRSpec LRTableProof LRWriteProof GLRModel.
Import ListNotations.
Local Open Scope nat_scope.
Local Open Scope list_scope.

Definition act_of (e : table_entry) : list lr_action :=
  match e with Shift _ => [ActShift] | Reduce (Some k) => [ActReduce k] | _ => [] end.
Definition actions_of (c : list table_entry) : list lr_action := flat_map act_of c.
Definition goto_of (e : table_entry) : list lr_goto :=
  match e with Shift t => [GotoState t] | Accept => [GotoAccept] | _ => [] end.
Definition gotos_of (c : list table_entry) : list lr_goto := flat_map goto_of c.

Section Write.
Variable g : grammar.
Hypothesis wf : wf_grammar g.
Variable tb : lr_table.
Hypothesis ok : tb_ok tb.

Definition gexpected_cell (q : nat) (set : list token) (s : symbol) : list token :=
  fold_left (fun set t => set_insert t set) (flat_map (expected_symbols s) (cell tb q s)) set.
Definition gexpected (q : nat) : list token := fold_left (gexpected_cell q) (token_columns g) [].

Definition gcell_arms (q : nat) (s : symbol) : list glr_arm :=
  match column_token s, actions_of (cell tb q s) with Some t, a :: l => [GOnToken q t (a :: l)] | _, _ => [] end.
Definition gstate_arms (q : nat) : list glr_arm := flat_map (gcell_arms q) (token_columns g) ++ [GOnOther q (gexpected q)].

Definition gno_entry_reduce (q : nat) (s : symbol) : Prop := ~ In (Reduce None) (cell tb q s).

Lemma actions_fold : forall c acc, (~ In (Reduce None) c -> foldM glr_actions_for_entry c acc = Ok (acc ++ actions_of c)) /\
  forall r, foldM glr_actions_for_entry c acc = Ok r -> ~ In (Reduce None) c.
Proof.
  induction c as [|e c IH]; intros acc; cbn [foldM actions_of flat_map].
  - split; [intros _; rewrite app_nil_r; auto|intros r _ []].
  - destruct e as [t|[k|]| |]; cbn [glr_actions_for_entry bind act_of app].
    + destruct (IH (acc ++ [ActShift])) as [A B]. split; [intros H; rewrite A, <- app_assoc; auto; intros X; apply H; right; auto|intros r H [X|X]; [discriminate|apply (B r H X)]].
    + destruct (IH (acc ++ [ActReduce k])) as [A B]. split; [intros H; rewrite A, <- app_assoc; auto; intros X; apply H; right; auto|intros r H [X|X]; [discriminate|apply (B r H X)]].
    + split; [intros H; destruct H; left; auto|intros r H; discriminate].
    + destruct (IH acc) as [A B]. split; [intros H; apply A; intros X; apply H; right; auto|intros r H [X|X]; [discriminate|apply (B r H X)]].
    + destruct (IH acc) as [A B]. split; [intros H; apply A; intros X; apply H; right; auto|intros r H [X|X]; [discriminate|apply (B r H X)]].
Qed.

Lemma gaction_cells : forall q l acc acc', Forall (fun s => column_token s <> None) l ->
  foldM (glr_action_cell q) (map (fun s => (s, get_entry tb q s)) l) acc = Ok acc' ->
  acc' = (fst acc ++ flat_map (gcell_arms q) l, fold_left (gexpected_cell q) l (snd acc)) /\ Forall (gno_entry_reduce q) l.
Proof.
  intros q l. induction l as [|s l IH]; intros acc acc' Hl H; cbn [map foldM] in H.
  - injection H as <-. simpl. rewrite !app_nil_r. destruct acc; auto.
  - inversion Hl as [|? ? Hs Hl']; subst. inv_bind H. unfold glr_action_cell in Hb. cbn [fst snd] in Hb. rewrite get_entry_cell in Hb by auto.
    assert (a = (fst acc ++ gcell_arms q s, gexpected_cell q (snd acc) s) /\ gno_entry_reduce q s) as (-> & H1).
    { unfold gcell_arms, gno_entry_reduce, gexpected_cell. destruct (cell tb q s) as [|e c] eqn:Ec.
      - injection Hb as <-. destruct (column_token s); destruct acc; simpl; rewrite ?app_nil_r; auto.
      - inv_bind Hb. injection Hb as <-. unfold glr_make_action in Hb0. destruct (column_token s) as [t|]; [|contradiction]. inv_bind Hb0. injection Hb0 as <-.
        destruct (actions_fold (e :: c) []) as [A B]. specialize (B _ Hb). rewrite (A B) in Hb. assert (a = actions_of (e :: c)) as -> by (cbn [app] in Hb; congruence). split; [|exact B]. destruct (actions_of (e :: c)); reflexivity. }
    apply IH in H; auto. cbn [fst snd] in H. destruct H as (-> & A). split; [|constructor; auto]. simpl. rewrite <- !app_assoc. reflexivity.
Qed.

Lemma gmake_actions_spec : forall arms, glr_make_actions g tb = Ok arms ->
  arms = flat_map gstate_arms (seq 0 (tb_states tb)) /\ forall q s, q < tb_states tb -> In s (token_columns g) -> gno_entry_reduce q s.
Proof.
  intros arms H. unfold glr_make_actions in H.
  assert (forall l acc r, foldM (fun acc state => do (arms, expected) <- foldM (glr_action_cell state) (iter_state_terminals tb g state) ([], []); Ok (acc ++ arms ++ [GOnOther state expected])) l acc = Ok r ->
    r = acc ++ flat_map gstate_arms l /\ forall q s, In q l -> In s (token_columns g) -> gno_entry_reduce q s) as HF.
  { induction l as [|q l IH]; intros acc r HH; cbn [foldM] in HH.
    - injection HH as <-. simpl. rewrite app_nil_r. split; auto. intros q s [].
    - inv_bind HH. inv_bind Hb. destruct a0 as [arms1 exp1]. unfold iter_state_terminals in Hb0. apply gaction_cells in Hb0; [|apply token_columns_tokens; auto].
      destruct Hb0 as ([= -> ->] & A). injection Hb as <-. apply IH in HH. destruct HH as [-> C]. split.
      + simpl. unfold gstate_arms at 2. rewrite <- !app_assoc. reflexivity.
      + intros q' s [<-|Hq] Hs; auto. exact (proj1 (Forall_forall _ _) A s Hs). }
  apply HF in H. destruct H as [-> H]. split; auto. intros q s Hq. apply H. apply in_seq. lia.
Qed.

Lemma gmake_actions_total : (forall q s, q < tb_states tb -> In s (token_columns g) -> gno_entry_reduce q s) -> exists arms, glr_make_actions g tb = Ok arms.
Proof.
  intros H. unfold glr_make_actions.
  assert (forall l acc, (forall q, In q l -> q < tb_states tb) -> exists r, foldM (fun acc state => do (arms, expected) <- foldM (glr_action_cell state) (iter_state_terminals tb g state) ([], []); Ok (acc ++ arms ++ [GOnOther state expected])) l acc = Ok r) as HF.
  { induction l as [|q l IH]; intros acc Hl; cbn [foldM]; [eauto|].
    assert (forall cols acc, incl cols (token_columns g) -> exists r, foldM (glr_action_cell q) (map (fun s => (s, get_entry tb q s)) cols) acc = Ok r) as HC.
    { induction cols as [|s cols IHc]; intros acc0 Hi; cbn [map foldM]; [eauto|]. unfold glr_action_cell at 1. cbn [fst snd]. rewrite get_entry_cell by auto.
      assert (gno_entry_reduce q s) as B; [apply H; [apply Hl; left; auto|apply Hi; left; auto]|]. unfold gno_entry_reduce in B.
      assert (incl cols (token_columns g)) as Hi' by (intros x Hx; apply Hi; right; auto).
      destruct (cell tb q s) as [|e c]; [cbn [bind]; apply IHc; auto|].
      unfold glr_make_action. destruct (column_token s) as [t|]; [|cbn [bind]; apply IHc; auto]. rewrite (proj1 (actions_fold (e :: c) []) B). cbn [bind]. apply IHc; auto. }
    destruct (HC (token_columns g) ([], []) (incl_refl _)) as [[arms1 exp1] E]. unfold iter_state_terminals. unfold token_columns in E. rewrite E. cbn [bind].
    apply IH. intros q' Hq'. apply Hl. right; auto. }
  apply HF. intros q Hq. apply in_seq in Hq. lia.
Qed.

Lemma gnext_actions_other : forall arms l q t, (forall a, In a arms -> match a with GOnToken s _ _ | GOnOther s _ => s <> q end) -> glr_next_actions (arms ++ l) q t = glr_next_actions l q t.
Proof.
  induction arms as [|a arms IH]; intros l q t H; auto. pose proof (H a (or_introl eq_refl)) as Ha. cbn [app glr_next_actions].
  destruct a as [s t' a|s e]; replace (q =? s) with false by (symmetry; apply Nat.eqb_neq; congruence); cbn [andb]; apply IH; intros; apply H; right; auto.
Qed.

Lemma gstate_arms_state : forall q a, In a (gstate_arms q) -> match a with GOnToken s _ _ | GOnOther s _ => s = q end.
Proof.
  intros q a H. unfold gstate_arms in H. apply in_app_or in H. destruct H as [H|[<-|[]]]; auto. apply in_flat_map in H. destruct H as (s & _ & H).
  unfold gcell_arms in H. destruct (column_token s); [|destruct H]. destruct (actions_of _); [destruct H|]. destruct H as [<-|[]]. auto.
Qed.

Lemma gnext_actions_state : forall q t l, glr_next_actions (gstate_arms q ++ l) q t =
  match (if sym_in (token_symbol t) (token_columns g) then actions_of (cell tb q (token_symbol t)) else []) with
  | [] => Err (GUnexpectedToken t (gexpected q))
  | a => Ok a
  end.
Proof.
  intros q t l. unfold gstate_arms. rewrite <- app_assoc. generalize (gexpected q) as e. intros e.
  assert (forall cols, glr_next_actions (flat_map (gcell_arms q) cols ++ GOnOther q e :: l) q t =
    match (if sym_in (token_symbol t) cols then actions_of (cell tb q (token_symbol t)) else []) with [] => Err (GUnexpectedToken t e) | a => Ok a end) as HF.
  { induction cols as [|s cols IH]; cbn [flat_map app].
    - cbn [glr_next_actions]. rewrite Nat.eqb_refl. destruct (sym_in (token_symbol t) []) as [[]|]. reflexivity.
    - rewrite <- app_assoc. destruct (cmp_dec s (token_symbol t)) as [->|Hne].
      + destruct (sym_in (token_symbol t) (token_symbol t :: cols)) as [_|X]; [|destruct X; left; auto]. unfold gcell_arms at 1. rewrite column_token_symbol.
        destruct (actions_of (cell tb q (token_symbol t))) as [|a c].
        * cbn [app]. rewrite IH. destruct (sym_in (token_symbol t) cols); reflexivity.
        * cbn [app glr_next_actions]. rewrite Nat.eqb_refl, eqc_refl. reflexivity.
      + assert (glr_next_actions (gcell_arms q s ++ flat_map (gcell_arms q) cols ++ GOnOther q e :: l) q t = glr_next_actions (flat_map (gcell_arms q) cols ++ GOnOther q e :: l) q t) as ->.
        { unfold gcell_arms at 1. destruct (column_token s) as [t'|] eqn:Et; auto. destruct (actions_of (cell tb q s)) as [|a c]; auto. cbn [app glr_next_actions].
          rewrite Nat.eqb_refl. cbn [andb]. destruct (eqc t t') eqn:E; auto. apply eqc_true in E. subst. apply column_token_inv in Et. contradiction. }
        rewrite IH. destruct (sym_in (token_symbol t) cols) as [X|X], (sym_in (token_symbol t) (s :: cols)) as [Y|Y]; auto; [destruct Y; right; auto|destruct Y; [congruence|contradiction]]. }
  apply HF.
Qed.

Lemma seq_split : forall q m, q < m -> seq 0 m = seq 0 q ++ q :: seq (S q) (m - S q).
Proof. intros q m H. replace m with (q + S (m - S q)) at 1 by lia. rewrite seq_app. reflexivity. Qed.

Lemma gnext_actions_spec : forall arms q t, glr_make_actions g tb = Ok arms -> q < tb_states tb -> glr_next_actions arms q t =
  match (if sym_in (token_symbol t) (token_columns g) then actions_of (cell tb q (token_symbol t)) else []) with
  | [] => Err (GUnexpectedToken t (gexpected q))
  | a => Ok a
  end.
Proof.
  intros arms q t H Hq. apply gmake_actions_spec in H. destruct H as [-> _]. rewrite (seq_split q _ Hq).
  rewrite flat_map_app. cbn [flat_map]. rewrite gnext_actions_other; [apply gnext_actions_state|].
  intros a Ha. apply in_flat_map in Ha. destruct Ha as (q' & Hq' & Ha). apply in_seq in Hq'. apply gstate_arms_state in Ha. destruct a; lia.
Qed.

(** ** Gotos *)

Definition gcell_gotos (q : nat) (s : symbol) : list ((nat * symbol) * lr_goto) :=
  match s with
  | Terminal _ | NonTerminal _ => map (fun x => ((q, s), x)) (gotos_of (cell tb q s))
  | _ => []
  end.
Definition gstate_gotos (q : nat) : list ((nat * symbol) * lr_goto) := flat_map (gcell_gotos q) (goto_columns g).

Lemma gmake_goto : forall q s c, flat_map (make_goto s q) c = match s with Terminal _ | NonTerminal _ => map (fun x => ((q, s), x)) (gotos_of c) | _ => [] end.
Proof.
  intros q s c. induction c as [|e c IH]; [destruct s; reflexivity|]. cbn [flat_map]. rewrite IH. clear IH. unfold make_goto, gotos_of. destruct s; auto; destruct e; reflexivity.
Qed.

Lemma ggoto_cells : forall q l acc, fold_left (glr_goto_cell q) (map (fun s => (s, get_entry tb q s)) l) acc = acc ++ flat_map (gcell_gotos q) l.
Proof.
  intros q l. induction l as [|s l IH]; intros acc; cbn [map fold_left flat_map]; [rewrite app_nil_r; auto|]. rewrite IH, app_assoc. f_equal.
  unfold glr_goto_cell. cbn [fst snd]. rewrite get_entry_cell by auto. unfold gcell_gotos. destruct (cell tb q s) as [|e c] eqn:E.
  - destruct s; simpl; rewrite app_nil_r; auto.
  - rewrite gmake_goto. auto.
Qed.

Lemma gmake_gotos_spec : glr_make_gotos g tb = flat_map gstate_gotos (seq 0 (tb_states tb)).
Proof.
  unfold glr_make_gotos.
  assert (forall l acc, fold_left (fun acc state => fold_left (glr_goto_cell state) (iter_state_terminals tb g state ++ iter_state_non_terminals tb g state) acc) l acc = acc ++ flat_map gstate_gotos l) as HF.
  { induction l as [|q l IH]; intros acc; cbn [fold_left flat_map]; [rewrite app_nil_r; auto|].
    unfold iter_state_terminals, iter_state_non_terminals in *. rewrite <- map_app, ggoto_cells, IH, <- app_assoc. reflexivity. }
  apply HF.
Qed.

Lemma gnext_goto_other : forall gotos l q k, (forall a, In a gotos -> fst (fst a) <> q) -> glr_next_goto (gotos ++ l) q k = glr_next_goto l q k.
Proof.
  induction gotos as [|[[q' s] x] gotos IH]; intros l q k H; auto. pose proof (H _ (or_introl eq_refl)) as Ha. cbn [fst] in Ha. cbn [app glr_next_goto].
  replace (q =? q') with false by (symmetry; apply Nat.eqb_neq; congruence). cbn [andb]. apply IH. intros a Ha'. apply H. right; auto.
Qed.

Lemma gstate_gotos_state : forall q a, In a (gstate_gotos q) -> fst (fst a) = q.
Proof.
  intros q a H. unfold gstate_gotos in H. apply in_flat_map in H. destruct H as (s & _ & H). unfold gcell_gotos in H.
  destruct s; try (destruct H; fail); (apply in_map_iff in H; destruct H as (x & <- & _); auto).
Qed.

Definition goto_matches (x : symbol) (k : stack_symbol) : bool :=
  match x, k with Terminal t, KTerminal t' => eqc (Some t) t' | NonTerminal i, KNonTerminal i' => eqc i i' | _, _ => false end.

Lemma goto_matches_of : forall x s, (exists i, s = NonTerminal i) \/ (exists t, s = Terminal t) -> goto_matches x (stack_of s) = true <-> x = s.
Proof.
  intros x s [[i ->]|[t ->]]; destruct x; simpl; try (split; discriminate); rewrite eqc_true; split; congruence.
Qed.

Lemma gnext_goto_block : forall q s' l k L, glr_next_goto (map (fun x => ((q, s'), x)) l ++ L) q k =
  if goto_matches s' k then match l with [] => glr_next_goto L q k | x :: _ => Some x end else glr_next_goto L q k.
Proof.
  intros q s' l k L. induction l as [|x l IH]; cbn [map app]; [destruct (goto_matches s' k); auto|].
  cbn [glr_next_goto]. rewrite Nat.eqb_refl. cbn [andb]. fold (goto_matches s' k). destruct (goto_matches s' k); auto.
Qed.

Lemma gnext_goto_state : forall cols q s l, (exists i, s = NonTerminal i) \/ (exists t, s = Terminal t) -> (forall a, In a l -> fst (fst a) <> q) ->
  glr_next_goto (flat_map (gcell_gotos q) cols ++ l) q (stack_of s) = if sym_in s cols then hd_error (gotos_of (cell tb q s)) else None.
Proof.
  intros cols q s l Hs Hl. induction cols as [|s' cols IH]; cbn [flat_map app].
  - rewrite <- (app_nil_r l). rewrite gnext_goto_other by auto. destruct (sym_in s []) as [[]|]. reflexivity.
  - rewrite <- app_assoc. destruct (cmp_dec s' s) as [->|Hne].
    + destruct (sym_in s (s :: cols)) as [_|X]; [|destruct X; left; auto].
      assert (gcell_gotos q s = map (fun x => ((q, s), x)) (gotos_of (cell tb q s))) as -> by (destruct Hs as [[i ->]|[t ->]]; reflexivity).
      rewrite gnext_goto_block, (proj2 (goto_matches_of s s Hs) eq_refl). destruct (gotos_of (cell tb q s)) as [|x c]; auto. rewrite IH. destruct (sym_in s cols); auto.
    + assert (glr_next_goto (gcell_gotos q s' ++ flat_map (gcell_gotos q) cols ++ l) q (stack_of s) = glr_next_goto (flat_map (gcell_gotos q) cols ++ l) q (stack_of s)) as ->.
      { clear IH. destruct (goto_matches s' (stack_of s)) eqn:Em; [apply goto_matches_of in Em; auto; contradiction|].
        unfold gcell_gotos at 1. destruct s'; auto; rewrite gnext_goto_block, Em; auto. }
      rewrite IH. destruct (sym_in s cols) as [X|X], (sym_in s (s' :: cols)) as [Y|Y]; auto; [destruct Y; right; auto|destruct Y; [congruence|contradiction]].
Qed.

Lemma gnext_goto_spec : forall q s, q < tb_states tb -> (exists i, s = NonTerminal i) \/ (exists t, s = Terminal t) ->
  glr_next_goto (glr_make_gotos g tb) q (stack_of s) = if sym_in s (goto_columns g) then hd_error (gotos_of (cell tb q s)) else None.
Proof.
  intros q s Hq Hs. rewrite gmake_gotos_spec, (seq_split q _ Hq).
  rewrite flat_map_app. cbn [flat_map]. rewrite gnext_goto_other.
  - apply gnext_goto_state; auto. intros a Ha. apply in_flat_map in Ha. destruct Ha as (q' & Hq' & Ha). apply in_seq in Hq'. apply gstate_gotos_state in Ha. lia.
  - intros a Ha. apply in_flat_map in Ha. destruct Ha as (q' & Hq' & Ha). apply in_seq in Hq'. apply gstate_gotos_state in Ha. lia.
Qed.

Lemma gnext_goto_end : forall arms q, glr_next_goto arms q (KTerminal None) = None.
Proof. induction arms as [|[[q' s] x] arms IH]; intros q; auto. cbn [glr_next_goto]. destruct s; rewrite ?andb_false_r; auto. Qed.

Record gwritten (p : glr_parser) : Prop := {
  gw_entry : gp_entry p = tb_entry tb;
  gw_none : forall q s, q < tb_states tb -> In s (token_columns g) -> gno_entry_reduce q s;
  gw_action : forall q t, q < tb_states tb -> glr_next_actions (gp_actions p) q t =
    match (if sym_in (token_symbol t) (token_columns g) then actions_of (cell tb q (token_symbol t)) else []) with
    | [] => Err (GUnexpectedToken t (gexpected q))
    | a => Ok a
    end;
  gw_goto : forall q s, q < tb_states tb -> (exists i, s = NonTerminal i) \/ (exists t, s = Terminal t) ->
    glr_next_goto (gp_gotos p) q (stack_of s) = if sym_in s (goto_columns g) then hd_error (gotos_of (cell tb q s)) else None;
  gw_end : forall q, glr_next_goto (gp_gotos p) q (KTerminal None) = None;
  gw_reduction : forall k, nth_error (gp_reductions p) k =
    match nth_error (g_rules g) k with Some r => match r_lhs r with Some i => Some (length (filter not_epsilon (r_rhs r)), NonTerminal i) | None => None end | None => None end
}.

Lemma glr_write_spec : forall p, glr_write_parser g tb = Ok p -> gwritten p.
Proof.
  intros p H. unfold glr_write_parser in H. inv_bind H. inv_bind H. injection H as <-. split; cbn [gp_entry gp_actions gp_gotos gp_reductions]; auto.
  - apply gmake_actions_spec in Hb. apply Hb.
  - intros q t Hq. eapply gnext_actions_spec; eauto.
  - intros q s Hq Hs. apply gnext_goto_spec; auto.
  - intros q. apply gnext_goto_end.
  - destruct (make_rule_reductions_spec g wf) as (l & E & I). assert (a0 = l) as -> by congruence. exact I.
Qed.

Lemma glr_write_total : (forall q s, q < tb_states tb -> In s (token_columns g) -> gno_entry_reduce q s) -> exists p, glr_write_parser g tb = Ok p.
Proof.
  intros H. unfold glr_write_parser. destruct (gmake_actions_total H) as [arms E1]. rewrite E1. cbn [bind].
  destruct (make_rule_reductions_spec g wf) as (l & E3 & _). rewrite E3. cbn [bind]. eauto.
Qed.

(** ** Expected tokens *)

Lemma gexpected_spec : forall q, sorted (gexpected q) /\ forall t, In t (gexpected q) <-> exists s e, In s (token_columns g) /\ In e (cell tb q s) /\ In t (expected_symbols s e).
Proof.
  intros q. unfold gexpected.
  assert (forall cols set, sorted set -> sorted (fold_left (gexpected_cell q) cols set) /\ forall t, In t (fold_left (gexpected_cell q) cols set) <-> In t set \/ exists s e, In s cols /\ In e (cell tb q s) /\ In t (expected_symbols s e)) as HF.
  { induction cols as [|s cols IH]; intros set Hs; cbn [fold_left].
    - split; auto. intros t. split; auto. intros [H|(s & e & [] & _)]; auto.
    - assert (sorted (gexpected_cell q set s) /\ forall t, In t (gexpected_cell q set s) <-> In t set \/ exists e, In e (cell tb q s) /\ In t (expected_symbols s e)) as [A B].
      { unfold gexpected_cell. assert (forall l set, sorted set -> sorted (fold_left (fun set (t : token) => set_insert t set) l set) /\ forall t, In t (fold_left (fun set (t : token) => set_insert t set) l set) <-> In t set \/ In t l) as X.
        { clear. induction l as [|a l IH]; intros set Hs; cbn [fold_left]; [split; [auto|intros t; simpl; tauto]|]. destruct (IH (set_insert a set)) as [A B]; [apply set_insert_sorted; auto|].
          split; auto. intros t. rewrite B, set_insert_In. simpl. split; intros; intuition (auto; congruence). }
        destruct (X (flat_map (expected_symbols s) (cell tb q s)) set Hs) as [A B]. split; auto. intros t. rewrite B, in_flat_map. tauto. }
      destruct (IH _ A) as [C D]. split; auto. intros t. rewrite D, B. split.
      + intros [[H|(e & H1 & H2)]|(s' & e & H1 & H2 & H3)]; auto; right; [exists s, e|exists s', e]; simpl; auto.
      + intros [H|(s' & e & [<-|H1] & H2 & H3)]; auto; [left; right; eauto|right; exists s', e; auto]. }
  destruct (HF (token_columns g) []) as [A B]; [constructor|]. split; auto. intros t. rewrite B. simpl. tauto.
Qed.
End Write.
