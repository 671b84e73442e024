(** The C++ LR parser: the emitted switches in terms of the cells of the table, and its runs against those of the Rust parser. *)
From Coq Require Import String List Arith NArith Bool Lia.
From Verif Require Import Base InputModel GrammarModel GrammarSpec GrammarProof GrammarNamesProof GrammarBuildProof GrammarFactsProof LLModel LLSpec SententialProof SetsProof FirstProof LRModel LRSpec BidiProof ItemProof LRItemsProof LRGraphProof AutomatonProof LRTableProof LRWriteProof LRGenProof LRConflictProof LRRunProof LRCompleteProof LRFactsProof NamesModel NamesSpec NamesVisitProof CppLexerModel CppLexerProof CppLRModel CppLRSpec.
Import ListNotations.
Local Open Scope nat_scope.
Local Open Scope list_scope.

(** ** Enumerators *)

Lemma find_index_nodup : forall (l : list string) k s, NoDup l -> nth_error l k = Some s -> find_index (String.eqb s) l = Some k.
Proof.
  induction l as [|x l IH]; intros [|k] s H E; try discriminate; cbn [nth_error] in E; cbn [find_index].
  - injection E as ->. rewrite String.eqb_refl. reflexivity.
  - inversion H as [|? ? Hx Hl]; subst. destruct (String.eqb_spec s x) as [->|_]; [destruct Hx; apply nth_error_In in E; exact E|]. rewrite (IH k s Hl E). reflexivity.
Qed.

Lemma find_index_nth : forall (l : list string) k s, find_index (String.eqb s) l = Some k -> nth_error l k = Some s.
Proof. intros l k s H. apply find_index_Some in H. destruct H as (a & Ha & E & _). apply String.eqb_eq in E. congruence. Qed.

Lemma enum_value_nth : forall l k s, NoDup l -> nth_error l k = Some s -> enum_value l s = Some (N.of_nat k).
Proof. intros l k s H E. unfold enum_value. rewrite (find_index_nodup l k s H E). reflexivity. Qed.

Lemma enum_value_inj : forall l s s' v, enum_value l s = Some v -> enum_value l s' = Some v -> s = s'.
Proof.
  intros l s s' v A B. unfold enum_value in *. destruct (find_index (String.eqb s) l) as [k|] eqn:E1; [|discriminate]. destruct (find_index (String.eqb s') l) as [k'|] eqn:E2; [|discriminate].
  cbn in A, B. assert (k = k') as <- by (apply Nat2N.inj; congruence). apply find_index_nth in E1. apply find_index_nth in E2. congruence.
Qed.

Lemma numbered_in : forall A (l : list (nat * A)) q a, NoDup (map fst l) -> In (q, a) l -> numbered l (N.of_nat q) = Some a.
Proof.
  intros A. induction l as [|[q' a'] l IH]; intros q a H Hin; [destruct Hin|]. cbn [map fst] in H. inversion H as [|? ? Hq Hl]; subst. cbn [numbered].
  destruct (N.eqb_spec (N.of_nat q') (N.of_nat q)) as [E|E].
  - apply Nat2N.inj in E. subst q'. destruct Hin as [Hin|Hin]; [congruence|]. destruct Hq. apply in_map_iff. exists (q, a). auto.
  - destruct Hin as [Hin|Hin]; [congruence|]. apply IH; auto.
Qed.

Lemma numbered_none : forall A (l : list (nat * A)) q, (forall a, ~ In (q, a) l) -> numbered l (N.of_nat q) = None.
Proof.
  intros A. induction l as [|[q' a'] l IH]; intros q H; [reflexivity|]. cbn [numbered]. destruct (N.eqb_spec (N.of_nat q') (N.of_nat q)) as [E|E].
  - apply Nat2N.inj in E. subst q'. destruct (H a'). left. reflexivity.
  - apply IH. intros a Ha. apply (H a). right. exact Ha.
Qed.

(** ** Folds *)

Lemma foldM_flat : forall E A B (f : list B -> A -> res E (list B)) (h : A -> list B) l acc,
  (forall acc a, In a l -> f acc a = Ok (acc ++ h a)) -> foldM f l acc = Ok (acc ++ flat_map h l).
Proof.
  intros E A B f h. induction l as [|a l IH]; intros acc H; cbn [foldM flat_map]; [rewrite app_nil_r; reflexivity|].
  rewrite (H acc a (or_introl eq_refl)). cbn [bind]. rewrite IH by (intros; apply H; right; auto). rewrite <- app_assoc. reflexivity.
Qed.

Lemma foldM_flat2 : forall E A B C (f : list B * list C -> A -> res E (list B * list C)) (h : A -> list B) (h' : A -> list C) l acc,
  (forall acc a, In a l -> f acc a = Ok (fst acc ++ h a, snd acc ++ h' a)) -> foldM f l acc = Ok (fst acc ++ flat_map h l, snd acc ++ flat_map h' l).
Proof.
  intros E A B C f h h'. induction l as [|a l IH]; intros acc H; cbn [foldM flat_map]; [rewrite !app_nil_r; destruct acc; reflexivity|].
  rewrite (H acc a (or_introl eq_refl)). cbn [bind]. rewrite IH by (intros; apply H; right; auto). cbn [fst snd]. rewrite <- !app_assoc. reflexivity.
Qed.

Lemma flat_map_map : forall A B C (f : A -> B) (h : B -> list C) l, flat_map h (map f l) = flat_map (fun a => h (f a)) l.
Proof. intros A B C f h. induction l as [|a l IH]; cbn; [reflexivity|]. rewrite IH. reflexivity. Qed.

(** ** The emitted program *)

Section Emit.
Variables (rs : rule_set) (g : grammar).
Hypothesis sm : small rs.
Hypothesis Hg : from_rule_set rs = Ok g.
Variables (k : table_kind) (m : nat) (allow : bool) (tb : lr_table).
Hypothesis gen : generates k m g allow = Ok (NoConflicts tb).
Let wf := grammar_wf rs g Hg.
Let names := token_names rs.

Definition ntn (s : symbol) : string := ("NT_" ++ string_map ascii_upper (nm g s))%string.
Definition tkn (t : N) : string := nth (N.to_nat t) names "<ERR>"%string.

Lemma token_name_ok : forall t, In (Terminal t) (terminals g) -> grammar_token_name g t = Ok (tkn t) /\ nth_error names (N.to_nat t) = Some (tkn t).
Proof.
  intros t H. unfold terminals in H. apply in_map_iff in H. destruct H as ((s & name) & E & H). cbn [fst] in E. subst s.
  destruct (from_rule_set_built _ _ Hg) as (b & als & [Hs (b' & B & Er & Et & Ep & Ea & Hrun) _]).
  pose proof H as H'. apply (token_numbers rs g sm Hg) in H'. destruct H' as (i & -> & r & Hr & En).
  assert (nth_error names i = Some name) as X by (unfold names, token_names; rewrite nth_error_map, Hr; cbn; congruence).
  unfold grammar_token_name. assert (map_get (Terminal (N.of_nat i)) (g_tokens g) = Some name) as ->.
  { apply map_get_In; auto. rewrite Et. apply (so_tsorted _ _ Hs). }
  unfold tkn. rewrite Nat2N.id. rewrite (nth_error_nth names i _ X). auto.
Qed.

Lemma terminal_iff : forall t, In (Terminal t) (terminals g) <-> (t < N.of_nat (length names))%N.
Proof.
  intros t. split.
  - intros H. destruct (token_name_ok t H) as [_ X]. assert (N.to_nat t < length names) by (apply nth_error_Some; congruence). lia.
  - intros H. unfold names, token_names in H. rewrite map_length in H. destruct (nth_error (rs_tokens rs) (N.to_nat t)) as [r|] eqn:E.
    + assert (token_named g t (tr_name r)) as X by (apply (token_numbers rs g sm Hg); exists (N.to_nat t); rewrite N2Nat.id; split; auto; exists r; auto).
      unfold terminals. apply in_map_iff. exists (Terminal t, tr_name r). auto.
    + apply nth_error_None in E. lia.
Qed.

Definition glabel (s : symbol) : label :=
  match s with NonTerminal _ => CaseNt (ntn s) | Terminal t => CaseTk (enumerator (tkn t)) | _ => CaseEmpty end.
Definition alabel (s : symbol) : label :=
  match s with NonTerminal _ => CaseNt (ntn s) | Terminal t => CaseTk (enumerator (tkn t)) | End => CaseTk tk_eof | Epsilon => CaseEmpty end.
Definition trans_of (x : lr_goto) : transition := match x with GotoState t => (t, false) | GotoAccept => (0, true) end.

Lemma terminal_col : forall t, In (Terminal t) (columns g) -> In (Terminal t) (terminals g).
Proof.
  intros t H. apply (token_columns_in g wf (Some t)) in H. unfold token_columns in H. apply in_app_or in H. destruct H as [H|[H|[]]]; [exact H|discriminate].
Qed.

Lemma glabel_ok : forall s, In s (columns g) -> goto_label g s = Ok (glabel s).
Proof.
  intros s H. destruct s as [| |i|t]; try reflexivity.
  - unfold goto_label. rewrite cpp_enum_name_nm. reflexivity.
  - unfold goto_label. destruct (token_name_ok t (terminal_col t H)) as [-> _]. reflexivity.
Qed.

Lemma alabel_ok : forall s, In s (columns g) -> action_label g s = Ok (alabel s).
Proof.
  intros s H. destruct s as [| |i|t]; try reflexivity.
  - unfold action_label. rewrite cpp_enum_name_nm. reflexivity.
  - unfold action_label. destruct (token_name_ok t (terminal_col t H)) as [-> _]. reflexivity.
Qed.

Definition gcase (q : nat) (s : symbol) : list (label * transition) := match cell_goto (cell tb q s) with Some x => [(glabel s, trans_of x)] | None => [] end.
Definition acase (q : nat) (s : symbol) : list (label * lr_action) := match cell_action (cell tb q s) with Some a => [(alabel s, a)] | None => [] end.
Definition ename (t : token) : string := match t with Some t => tkn t | None => "<EOF>"%string end.

Hypothesis ok : tb_ok tb.

Lemma goto_cases_ok : forall q cols, incl cols (columns g) -> (forall s, In s cols -> single tb q s) ->
  write_goto_cases g (map (fun s => (s, get_entry tb q s)) cols) = Ok (flat_map (gcase q) cols).
Proof.
  intros q cols Hc Hs. unfold write_goto_cases. rewrite (foldM_flat _ _ _ _ (fun c => gcase q (fst c))).
  - rewrite flat_map_map. reflexivity.
  - intros acc c H. apply in_map_iff in H. destruct H as (s & <- & H). cbn [fst snd]. rewrite get_entry_cell by auto. pose proof (Hs s H) as S1. unfold single in S1. unfold gcase.
    destruct (cell tb q s) as [|e [|e' l]]; [|cbn [the_entry bind]|cbn in S1; lia].
    + cbn [the_entry bind cell_goto]. rewrite app_nil_r. reflexivity.
    + unfold goto_case. rewrite (glabel_ok s (Hc s H)). destruct e as [t| | |]; cbn [bind cell_goto trans_of]; try reflexivity; rewrite app_nil_r; reflexivity.
Qed.

Definition cell_expected (q : nat) (s : symbol) : list token := match cell tb q s with [e] => expected_symbols s e | _ => [] end.

Lemma action_cases_ok : forall q cols, incl cols (columns g) -> (forall s, In s cols -> single tb q s /\ no_entry_reduce tb q s /\ column_token s <> None) ->
  write_action_cases g (map (fun s => (s, get_entry tb q s)) cols) = Ok (flat_map (acase q) cols, map ename (flat_map (cell_expected q) cols)).
Proof.
  intros q cols Hc Hs. unfold write_action_cases. rewrite (foldM_flat2 _ _ _ _ _ (fun c => acase q (fst c)) (fun c => map ename (cell_expected q (fst c)))).
  - cbn [fst snd app]. rewrite !flat_map_map. cbn [fst]. do 2 f_equal. clear. induction cols as [|s cols IH]; cbn [flat_map map]; [reflexivity|]. rewrite map_app, IH. reflexivity.
  - intros acc c H. apply in_map_iff in H. destruct H as (s & <- & H). cbn [fst snd]. rewrite get_entry_cell by auto. destruct (Hs s H) as (S1 & S2 & S3). unfold single in S1. unfold no_entry_reduce in S2.
    unfold acase, cell_expected. destruct (cell tb q s) as [|e [|e' l]]; [|cbn [the_entry bind]|cbn in S1; lia].
    + cbn [the_entry bind cell_action map]. rewrite !app_nil_r. destruct acc; reflexivity.
    + assert (expected_name g s = Ok (map ename match column_token s with Some t => [t] | None => [] end)) as HE.
      { destruct s as [| |i|t]; try reflexivity. cbn. destruct (token_name_ok t (terminal_col t (Hc _ H))) as [-> _]. reflexivity. }
      unfold action_case. rewrite (alabel_ok s (Hc s H)). destruct e as [t|[j|]| |]; cbn [bind cell_action expected_symbols map]; try (rewrite HE; reflexivity); try (rewrite !app_nil_r; destruct acc; reflexivity).
      congruence.
Qed.

Lemma nt_cols : incl (non_terminals g) (columns g).
Proof. intros s H. apply in_or_app. left. apply in_or_app. right. exact H. Qed.
Lemma tok_cols : incl (token_columns g) (columns g).
Proof. intros s H. apply goto_columns_in. apply in_or_app. left. exact H. Qed.

Lemma has_shift_iff : forall q, state_has_shift tb g q = true <-> exists s t, In s (columns g) /\ In (Shift t) (cell tb q s).
Proof.
  intros q. unfold state_has_shift, iter_state_non_terminals, iter_state_terminals. rewrite <- map_app. rewrite existsb_exists. split.
  - intros (c & Hc & E). apply in_map_iff in Hc. destruct Hc as (s & <- & Hs). cbn [snd] in E. rewrite get_entry_cell in E by auto.
    assert (In s (columns g)) as Hs' by (apply in_app_or in Hs; destruct Hs as [Hs|Hs]; [apply nt_cols|apply tok_cols]; exact Hs).
    assert (existsb is_shift (cell tb q s) = true) as E' by (destruct (cell tb q s); [discriminate|exact E]).
    apply existsb_exists in E'. destruct E' as (e & He & X). destruct e as [t| | |]; try discriminate. eauto.
  - intros (s & t & Hs & Ht). exists (s, get_entry tb q s). split.
    + apply in_map_iff. exists s. split; auto. unfold columns, all_symbols in Hs. rewrite !in_app_iff in Hs. rewrite !in_app_iff. tauto.
    + cbn [snd]. rewrite get_entry_cell by auto. destruct (cell tb q s) as [|e l] eqn:E; [destruct Ht|]. apply existsb_exists. exists (Shift t). split; auto.
Qed.
End Emit.

(** ** The entry state *)

Section Entry.
Variables (k : table_kind) (g : grammar) (tb : lr_table) (fs : symbol_sets) (pg : lr_graph).
Hypothesis wf : wf_grammar g.
Hypothesis su : setup k g tb fs pg.
Let n := kind_n k.
Let n_le := kind_n_le k.
Let au := su_au _ _ _ _ _ su.
Let tf := su_tb _ _ _ _ _ su.
Let gi := au_inv _ _ _ _ _ au.
Let ok := tf_ok _ _ _ _ tf.

(** Items of the entry state, as long as no rule of the entry symbol begins with another symbol. *)
Lemma entry_items : forall x, clo g n fs (entry_item n) x ->
  x = entry_item n \/ entry_starts g \/ exists j r i, it_rule x = Some j /\ it_dot x = start_dot g j /\ nth_error (g_rules g) j = Some r /\ r_lhs r = Some i /\ NonTerminal i = g_entry g.
Proof.
  intros x H. induction H as [|y z H IH E]; [left; reflexivity|]. right. destruct E as [s j las la E1 E2 E3 E4].
  apply rules_for_spec in E2. destruct E2 as (r & i & R1 & R2 & ->).
  assert (NonTerminal i = g_entry g -> exists j' r' i', it_rule (init_item g j la) = Some j' /\ it_dot (init_item g j la) = start_dot g j' /\ nth_error (g_rules g) j' = Some r' /\ r_lhs r' = Some i' /\ NonTerminal i' = g_entry g) as X
    by (intros X; exists j, r, i; auto).
  destruct IH as [->|[IH|(j' & r' & i' & Y1 & Y2 & Y3 & Y4 & Y5)]]; auto.
  - right. apply X. rewrite (entry_item_next g wf n) in E1. congruence.
  - destruct (cmp_dec (NonTerminal i) (g_entry g)) as [Ei|Ei]; [right; auto|]. left. unfold symbol_after_dot in E1. rewrite Y1, Y2 in E1. unfold rhs_of in E1. cbn [item_rule] in E1. rewrite Y3 in E1.
    exists r', i', (start_dot g j'), (NonTerminal i). unfold start_dot, rhs_of in *. cbn [item_rule] in *. rewrite Y3 in *. pose proof (lead_eps_repeat (r_rhs r')) as L.
    remember (skipn (lead_eps (r_rhs r')) (r_rhs r')) as al eqn:Ea. destruct al as [|s al].
    + exfalso. assert (length (r_rhs r') <= lead_eps (r_rhs r')) as X1.
      { assert (length (skipn (lead_eps (r_rhs r')) (r_rhs r')) = 0) as X2 by (rewrite <- Ea; reflexivity). rewrite skipn_length in X2. lia. }
      apply nth_error_None in X1. congruence.
    + exists al. split; [eapply nth_error_In; eauto|]. split; auto. split; auto.
      assert (s = NonTerminal i) as ->.
      { rewrite L in E1 at 1. rewrite nth_error_app2 in E1; rewrite repeat_length in *; [|lia]. rewrite Nat.sub_diag in E1. cbn in E1. congruence. }
      split; [exact L|]. split; [discriminate|exact Ei].
Qed.

Lemma entry_shift_iff : state_has_shift tb g 0 = true <-> entry_starts g.
Proof.
  destruct (gi_entry _ _ _ _ _ gi) as (S & HS & E). rewrite (has_shift_iff g tb ok 0). split.
  - intros (s & t & Hs & Ht). apply (cell_shift g _ n_le fs _ pg au tb tf 0 S s t HS Hs) in Ht. destruct Ht as (H1 & H2 & H3).
    destruct (gi_edge _ _ _ _ _ gi _ _ _ H2) as (S' & T & A & _ & _ & (it & M1 & M2 & M3) & _). assert (S' = S) as -> by congruence.
    apply E in M1. destruct (entry_items it M1) as [->|[X|(j & r & i & Y1 & Y2 & Y3 & Y4 & Y5)]]; auto.
    + exfalso. rewrite (entry_item_next g wf n) in M2. apply H3. split; [congruence|reflexivity].
    + unfold symbol_after_dot in M2. rewrite Y1, Y2 in M2. unfold start_dot, rhs_of in M2. cbn [item_rule] in M2. rewrite Y3 in M2.
      pose proof (lead_eps_next _ _ M2) as Hne. pose proof (lead_eps_repeat (r_rhs r)) as L. remember (skipn (lead_eps (r_rhs r)) (r_rhs r)) as al eqn:Ea.
      rewrite L in M2 at 1. rewrite nth_error_app2 in M2; rewrite repeat_length in *; [|lia]. rewrite Nat.sub_diag in M2. destruct al as [|s' al]; [discriminate|]. cbn in M2. injection M2 as ->.
      exists r, i, (lead_eps (r_rhs r)), s, al. split; [eapply nth_error_In; eauto|]. split; auto. split; auto. split; [exact L|]. split; auto.
  - intros (r & i & e & s & al & R1 & R2 & R3 & R4 & R5 & R6). apply In_nth_error in R1. destruct R1 as [j R1].
    assert (In (entry_item n) S) as H0 by (apply E; constructor).
    destruct (state_expand g n fs _ pg au 0 S (entry_item n) (g_entry g) j r i HS H0 (entry_item_next g wf n) R1 R2 (eq_sym R3)) as (las & L1 & L2).
    assert (In (repeat End n) las) as Hla.
    { assert (las = [repeat End n]) as ->; [|left; reflexivity]. unfold determine_lookaheads in L1. replace (1 <? n) with false in L1 by (symmetry; apply Nat.ltb_ge; exact n_le).
      unfold symbol_after_dot_offset, add_u8 in L1. destruct (wf_entry_rule g wf) as [_ Er]. unfold rhs_of in L1. cbn [item_rule it_rule entry_item] in L1. rewrite Er in L1. destruct (0 <? n); cbn in L1; congruence. }
    specialize (L2 _ Hla).
    assert (symbol_after_dot g (init_item g j (repeat End n)) = Some s) as Hsy.
    { unfold symbol_after_dot, init_item. cbn [it_rule it_dot]. unfold start_dot, rhs_of. cbn [item_rule]. rewrite R1, R4.
      assert (lead_eps (repeat Epsilon e ++ s :: al) = e) as -> by (clear -R5; induction e as [|e IH]; cbn; [destruct s; congruence|rewrite IH; reflexivity]).
      rewrite nth_error_app2; rewrite repeat_length; [|lia]. rewrite Nat.sub_diag. reflexivity. }
    destruct (state_move g n fs _ pg au 0 S _ s HS L2 Hsy) as (t & T & He & _).
    { unfold init_item, lhs_of. cbn [it_rule item_rule]. rewrite R1, R2. discriminate. }
    exists s, t. assert (In s (all_symbols g)) as Hin by (eapply edge_column; eauto).
    split; [apply in_or_app; auto|]. apply (cell_shift g _ n_le fs _ pg au tb tf 0 S s t HS); [apply in_or_app; auto|]. split; auto. split; auto. tauto.
Qed.

Lemma empty_entry_not : only_empty_entry g -> ~ entry_starts g.
Proof.
  intros (i & j & r & e & H1 & H2 & H3 & H4) (r' & i' & e' & s & al & R1 & R2 & R3 & R4 & R5 & _). apply In_nth_error in R1. destruct R1 as [j' R1].
  assert (i' = i) as -> by congruence. apply (H4 j' r' R1) in R2. subst j'. assert (r' = r) as -> by congruence. rewrite H3 in R4.
  assert (In s (repeat Epsilon e)) as X by (rewrite R4; apply in_or_app; right; left; reflexivity). apply repeat_spec in X. congruence.
Qed.
End Entry.

(** ** The program written for a table without conflicts *)

Lemma flat_map_single : forall A B (f : A -> B) l, flat_map (fun a => [f a]) l = map f l.
Proof. intros A B f. induction l as [|a l IH]; cbn; [reflexivity|]. rewrite IH. reflexivity. Qed.

Lemma nodup_flat_opt : forall A B C (f : A -> list B) (key : B -> C) (h : A -> C) l,
  (forall a, length (f a) <= 1) -> (forall a b, In a l -> In b (f a) -> key b = h a) -> NoDup l -> (forall a b, In a l -> In b l -> f a <> [] -> f b <> [] -> h a = h b -> a = b) -> NoDup (map key (flat_map f l)).
Proof.
  intros A B C f key h. induction l as [|a l IH]; intros Hl Hk Hn Hi; cbn [flat_map map]; [constructor|]. inversion Hn as [|? ? Ha Hn']; subst.
  assert (NoDup (map key (flat_map f l))) as IH' by (apply IH; auto; [intros; apply (Hk a0); auto; right; auto|intros; apply Hi; auto; right; auto]).
  pose proof (Hl a) as La. destruct (f a) as [|b [|b' fl]] eqn:Ef; [exact IH'| |cbn in La; lia]. cbn [app map]. constructor; [|exact IH'].
  intros X. apply in_map_iff in X. destruct X as (c & E & X). apply in_flat_map in X. destruct X as (a' & Ha' & X). apply Ha. replace a with a'; auto. apply Hi; [right; auto|left; auto| | |].
  - intros Z. rewrite Z in X. destruct X.
  - rewrite Ef. discriminate.
  - rewrite <- (Hk a' c), <- (Hk a b); auto; [left; auto|rewrite Ef; left; auto|right; auto].
Qed.

Section Program.
Variables (rs : rule_set) (g : grammar).
Hypothesis sm : small rs.
Hypothesis Hg : from_rule_set rs = Ok g.
Variables (k : table_kind) (m : nat) (allow : bool) (tb : lr_table).
Hypothesis gen : generates k m g allow = Ok (NoConflicts tb).
Variables (fs : symbol_sets) (pg : lr_graph).
Hypothesis su : setup k g tb fs pg.
Let wf := grammar_wf rs g Hg.
Let names := token_names rs.
Let n := kind_n k.
Let n_le := kind_n_le k.
Let au := su_au _ _ _ _ _ su.
Let tf := su_tb _ _ _ _ _ su.
Let gi := au_inv _ _ _ _ _ au.
Let ok := tf_ok _ _ _ _ tf.

Lemma token_cell_single : forall q s, q < tb_states tb -> In s (token_columns g) -> single tb q s.
Proof.
  intros q s Hq Hs. apply (conflict_free_cells k m g wf allow tb gen q s Hq). intros (_ & _ & ->). destruct (entry_symbol g wf) as [i Ei]. rewrite Ei in Hs.
  unfold token_columns in Hs. apply in_app_or in Hs. destruct Hs as [Hs|[Hs|[]]]; [|discriminate]. apply (wf_ts g wf) in Hs. destruct Hs as [j X]. discriminate.
Qed.

Lemma nt_cell_single : forall q s, q < tb_states tb -> state_has_shift tb g q = true -> single tb q s.
Proof.
  intros q s Hq Hs. destruct (Nat.eq_dec q 0) as [->|Eq]; [destruct (cmp_dec s (g_entry g)) as [->|Es]|].
  - apply (entry_shift_iff k g tb fs pg wf su) in Hs. destruct (Nat.eq_dec (kind_n k) 0) as [En|En].
    + assert (k = KindLR0) as Ek by (destruct k; [reflexivity|discriminate|discriminate]).
      destruct (conflict_free_entry_cell k m g wf allow tb Ek gen) as [[_ X]|[X _]].
      * destruct (empty_entry_not g X Hs).
      * unfold single. change (entries tb 0 (g_entry g)) with (cell tb 0 (g_entry g)) in X. lia.
    + apply (conflict_free_cells k m g wf allow tb gen 0 (g_entry g) Hq). intros [X _]. subst k. apply En. reflexivity.
  - apply (conflict_free_cells k m g wf allow tb gen 0 s Hq). tauto.
  - apply (conflict_free_cells k m g wf allow tb gen q s Hq). tauto.
Qed.

Definition program : cpp_lr := mkCppLR names (map (ntn g) (non_terminals g)) (tb_entry tb)
  (map (fun q => (q, (flat_map (acase rs g tb q) (token_columns g), expected_list (map (ename rs) (expected_of g tb q))))) (seq 0 (tb_states tb)))
  (flat_map (fun q => if state_has_shift tb g q then [(q, (flat_map (gcase rs g tb q) (token_columns g), flat_map (gcase rs g tb q) (non_terminals g)))] else []) (seq 0 (tb_states tb)))
  (map (fun e => (fst e, (length (filter not_epsilon (r_rhs (snd e))), match r_lhs (snd e) with Some i => ntn g (NonTerminal i) | None => ""%string end))) (enumerate (g_rules g))).

Lemma program_ok : cpp_write names g tb = Ok program.
Proof.
  unfold cpp_write.
  assert (write_action_table g tb = Ok (cx_actions program)) as ->.
  { unfold write_action_table. rewrite (foldM_flat _ _ _ _ (fun q => [(q, (flat_map (acase rs g tb q) (token_columns g), expected_list (map (ename rs) (expected_of g tb q))))])).
    - cbn [app]. rewrite flat_map_single. reflexivity.
    - intros acc q Hq. apply in_seq in Hq. unfold iter_state_terminals. fold (token_columns g). rewrite (action_cases_ok rs g sm Hg tb ok q (token_columns g)).
      + cbn [bind]. reflexivity.
      + apply tok_cols.
      + intros s Hs. split; [apply token_cell_single; auto; lia|]. split; [apply (no_entry_reduce_cell k g wf fs pg tb q s au tf); auto; lia|].
        unfold token_columns in Hs. apply in_app_or in Hs. destruct Hs as [Hs|[<-|[]]]; [|discriminate]. apply (wf_ts g wf) in Hs. destruct Hs as [i ->]. discriminate. }
  cbn [bind].
  assert (write_goto_table g tb = Ok (cx_gotos program)) as ->.
  { unfold write_goto_table. rewrite (foldM_flat _ _ _ _ (fun q => if state_has_shift tb g q then [(q, (flat_map (gcase rs g tb q) (token_columns g), flat_map (gcase rs g tb q) (non_terminals g)))] else [])).
    - reflexivity.
    - intros acc q Hq. apply in_seq in Hq. destruct (state_has_shift tb g q) eqn:Es; [|rewrite app_nil_r; reflexivity].
      unfold iter_state_terminals, iter_state_non_terminals. fold (token_columns g).
      rewrite (goto_cases_ok rs g sm Hg tb ok q (token_columns g)); [|apply tok_cols|intros s Hs; apply token_cell_single; auto; lia]. cbn [bind].
      rewrite (goto_cases_ok rs g sm Hg tb ok q (non_terminals g)); [|apply nt_cols|intros s Hs; apply nt_cell_single; auto; lia]. reflexivity. }
  cbn [bind].
  assert (res_list (map (write_stack_reduce g) (enumerate (g_rules g))) = Ok (cx_reductions program)) as ->.
  { apply res_list_map. intros e He. unfold write_stack_reduce. assert (In (snd e) (g_rules g)) as Hr.
    { destruct e as [i r]. rewrite enumerate_combine in He. cbn [snd]. eapply in_combine_r; eauto. }
    destruct (wf_lhs g wf _ Hr) as (i & -> & _). rewrite cpp_enum_name_nm. reflexivity. }
  cbn [bind]. unfold cpp_non_terminal_variants. rewrite (res_list_map _ _ _ _ (ntn g)); [reflexivity|].
  intros s Hs. apply (wf_nts g wf) in Hs. destruct Hs as [i ->]. apply cpp_enum_name_nm.
Qed.

(** *** Its labels *)

Hypothesis nd : NoDup (enumerators names).

Lemma tk_value : forall t, In (Terminal t) (terminals g) -> enum_value (enumerators names) (enumerator (tkn rs t)) = Some (cpp_token names (Some t)).
Proof.
  intros t H. pose proof H as H'. apply (terminal_iff rs g sm Hg) in H'. destruct (token_name_ok rs g sm Hg t H) as [_ X]. fold names in X, H'.
  unfold cpp_token. apply N.ltb_lt in H'. rewrite H'. rewrite (enum_value_nth _ (2 + N.to_nat t) _ nd); [f_equal; lia|].
  unfold enumerators. cbn [nth_error plus]. rewrite nth_error_map, X. reflexivity.
Qed.

Lemma eof_value : enum_value (enumerators names) tk_eof = Some 1%N.
Proof. rewrite (enum_value_nth _ 1 _ nd); reflexivity. Qed.

Lemma alabel_value : forall t, In (token_symbol t) (token_columns g) -> token_label program (alabel rs g (token_symbol t)) = Some (cpp_token names t).
Proof.
  intros [t|] H; cbn [token_symbol alabel token_label cx_names program].
  - apply tk_value. unfold token_columns in H. apply in_app_or in H. destruct H as [H|[H|[]]]; [exact H|discriminate].
  - apply eof_value.
Qed.

Lemma cpp_token_inj : forall t t', In (token_symbol t) (token_columns g) -> In (token_symbol t') (token_columns g) -> cpp_token names t = cpp_token names t' -> t = t'.
Proof.
  intros t t' H H' E.
  assert (forall i, In (Terminal i) (token_columns g) -> cpp_token names (Some i) = (i + 2)%N) as X.
  { intros i Hi. unfold token_columns in Hi. apply in_app_or in Hi. destruct Hi as [Hi|[Hi|[]]]; [|discriminate]. apply (terminal_iff rs g sm Hg) in Hi. fold names in Hi. apply N.ltb_lt in Hi. unfold cpp_token. rewrite Hi. reflexivity. }
  destruct t as [i|], t' as [j|]; cbn [token_symbol] in *; try rewrite (X i H) in E; try rewrite (X j H') in E; cbn [cpp_token] in E; auto; [f_equal; lia|lia|lia].
Qed.

Lemma token_column_inv : forall s, In s (token_columns g) -> exists t, s = token_symbol t.
Proof.
  intros s H. unfold token_columns in H. apply in_app_or in H. destruct H as [H|[<-|[]]]; [|exists None; reflexivity]. apply (wf_ts g wf) in H. destruct H as [i ->]. exists (Some i). reflexivity.
Qed.

Lemma acase_length : forall q s, length (acase rs g tb q s) <= 1.
Proof. intros q s. unfold acase. destruct (cell_action _); cbn; lia. Qed.
Lemma gcase_length : forall q s, length (gcase rs g tb q s) <= 1.
Proof. intros q s. unfold gcase. destruct (cell_goto _); cbn; lia. Qed.

Lemma end_no_goto : forall q, q < tb_states tb -> cell_goto (cell tb q End) = None.
Proof.
  intros q Hq. rewrite (tf_states _ _ _ _ tf) in Hq. apply (gi_nodes _ _ _ _ _ gi) in Hq. destruct Hq as [S HS].
  assert (In End (columns g)) as Hc by (apply in_or_app; right; left; reflexivity).
  destruct (cell tb q End) as [|e [|e' l]] eqn:E; [reflexivity| |destruct e; reflexivity]. assert (In e (cell tb q End)) as He by (rewrite E; left; reflexivity).
  destruct e as [t| | |]; try reflexivity; exfalso.
  - apply (cell_shift g _ n_le fs _ pg au tb tf q S End t HS Hc) in He. destruct He as (H & _). destruct (end_not_symbol g wf H).
  - apply (cell_accept g wf _ n_le fs _ pg au tb tf q S End HS Hc) in He. destruct (entry_symbol g wf) as [i Ei]. rewrite Ei in He. destruct He. discriminate.
Qed.

Lemma gcase_acase_label : forall s, In s (token_columns g) -> s <> End -> glabel rs g s = alabel rs g s.
Proof. intros s H He. destruct (token_column_inv s H) as [[t|] ->]; [reflexivity|]. destruct He. reflexivity. Qed.

Lemma token_switch_ok : forall A (f : symbol -> list (label * A)), (forall s, length (f s) <= 1) -> (forall s l a, In s (token_columns g) -> In (l, a) (f s) -> l = alabel rs g s) ->
  switch_ok (token_label program) (flat_map f (token_columns g)).
Proof.
  intros A f Hl Hf. split.
  - intros l a H. apply in_flat_map in H. destruct H as (s & Hs & H). rewrite (Hf s l a Hs H). destruct (token_column_inv s Hs) as [t ->]. rewrite alabel_value by auto. discriminate.
  - apply (nodup_flat_opt _ _ _ f _ (fun s => token_label program (alabel rs g s))); auto.
    + intros s [l a] Hs H. cbn [fst]. rewrite (Hf s l a Hs H). reflexivity.
    + apply (LRFactsProof.token_columns_nodup g wf).
    + intros s s' Hs Hs' _ _ E. destruct (token_column_inv s Hs) as [t ->]. destruct (token_column_inv s' Hs') as [t' ->]. rewrite !alabel_value in E by auto. f_equal. apply cpp_token_inj; auto. congruence.
Qed.

Hypothesis ndn : NoDup (map (ntn g) (non_terminals g)).

Definition ntv (i : N) : N := match enum_value (map (ntn g) (non_terminals g)) (ntn g (NonTerminal i)) with Some v => v | None => 0%N end.

Lemma nt_value : forall i, In (NonTerminal i) (non_terminals g) -> enum_value (map (ntn g) (non_terminals g)) (ntn g (NonTerminal i)) = Some (ntv i).
Proof.
  intros i H. unfold ntv. apply In_nth_error in H. destruct H as [j H]. rewrite (enum_value_nth _ j _ ndn); [reflexivity|]. rewrite nth_error_map, H. reflexivity.
Qed.

Lemma ntv_inj : forall i j, In (NonTerminal i) (non_terminals g) -> In (NonTerminal j) (non_terminals g) -> ntv i = ntv j -> i = j.
Proof.
  intros i j Hi Hj E. pose proof (nt_value i Hi) as X. pose proof (nt_value j Hj) as Y. rewrite <- E in Y. pose proof (enum_value_inj _ _ _ _ X Y) as Z.
  assert (NonTerminal i = NonTerminal j) by (apply (proj1 (nodup_map_inj _ _ (ntn g) _ (nts_nodup _ _ Hg)) ndn); auto). congruence.
Qed.

Lemma program_compiles : few_rules g tb -> cpp_compiles program.
Proof.
  intros Hf. split; cbn [cx_names cx_nts cx_actions cx_gotos cx_reductions program].
  - exact nd.
  - exact ndn.
  - rewrite map_map. cbn [fst]. rewrite map_id. apply seq_NoDup.
  - intros q cases ex H. apply in_map_iff in H. destruct H as (q' & E & Hq). injection E as -> <- <-. apply in_seq in Hq. split.
    + apply token_switch_ok; [apply acase_length|]. intros s l a Hs H. unfold acase in H. destruct (cell_action _); [|destruct H]. destruct H as [H|[]]. congruence.
    + intros l a H. apply in_flat_map in H. destruct H as (s & Hs & H). unfold acase in H. destruct (cell_action (cell tb q s)) as [a'|] eqn:Ea; [|destruct H]. destruct H as [H|[]]. injection H as <- <-.
      destruct a' as [|j]; cbn; [exact I|]. destruct (token_column_inv s Hs) as [t ->]. rewrite token_symbol_column in *. apply (Hf q t j); [apply (token_columns_is g wf); exact Hs|].
      change (entries tb q (column t)) with (cell tb q (column t)). destruct (cell tb q (column t)) as [|e [|e' l']]; [discriminate| |destruct e as [|[]| |]; discriminate]. destruct e as [|[j'|]| |]; try discriminate. left. injection Ea as ->. reflexivity.
  - assert (forall l, NoDup l -> NoDup (map fst (flat_map (fun q => if state_has_shift tb g q then [(q, (flat_map (gcase rs g tb q) (token_columns g), flat_map (gcase rs g tb q) (non_terminals g)))] else []) l))) as X; [|apply X, seq_NoDup].
    intros l Hl. apply (nodup_flat_opt _ _ _ _ _ (fun q => q)); auto.
    + intros q. destruct (state_has_shift tb g q); cbn; lia.
    + intros q b _ Hb. destruct (state_has_shift tb g q); [|destruct Hb]. destruct Hb as [<-|[]]. reflexivity.
  - intros q ts nts H. apply in_flat_map in H. destruct H as (q' & Hq & H). apply in_seq in Hq. destruct (state_has_shift tb g q'); [|destruct H]. destruct H as [H|[]]. injection H as -> <- <-. split.
    + apply token_switch_ok; [apply gcase_length|]. intros s l a Hs H. unfold gcase in H. destruct (cell_goto (cell tb q s)) eqn:E; [|destruct H]. destruct H as [H|[]]. injection H as <- _.
      apply gcase_acase_label; auto. intros ->. rewrite end_no_goto in E by lia. discriminate.
    + assert (forall s l a, In s (non_terminals g) -> In (l, a) (gcase rs g tb q s) -> exists i, s = NonTerminal i /\ nt_label program l = Some (ntv i)) as X.
      { intros s l a Hs H. destruct (wf_nts g wf _ Hs) as [i ->]. exists i. split; auto. unfold gcase in H. destruct (cell_goto _); [|destruct H]. destruct H as [H|[]]. injection H as <- _.
        cbn [glabel nt_label cx_nts program]. apply nt_value. exact Hs. }
      split.
      * intros l a H. apply in_flat_map in H. destruct H as (s & Hs & H). destruct (X s l a Hs H) as (i & _ & ->). discriminate.
      * apply (nodup_flat_opt _ _ _ _ _ (fun s => match s with NonTerminal i => Some (ntv i) | _ => None end)); [apply gcase_length| |apply (nts_nodup _ _ Hg)|].
        -- intros s [l a] Hs H. cbn [fst]. destruct (X s l a Hs H) as (i & -> & ->). reflexivity.
        -- intros s s' Hs Hs' _ _ E. destruct (wf_nts g wf _ Hs) as [i ->]. destruct (wf_nts g wf _ Hs') as [j ->]. f_equal. apply ntv_inj; auto. congruence.
  - split.
    + rewrite map_map. cbn [fst]. rewrite enumerate_combine. rewrite map_fst_combine by apply seq_length. apply seq_NoDup.
    + intros j l s H. apply in_map_iff in H. destruct H as ((j' & r) & E & H). cbn [fst snd] in E. injection E as _ _ <-.
      rewrite enumerate_combine in H. apply in_combine_r in H. destruct (wf_lhs g wf r H) as (i & -> & Hi). rewrite nt_value by exact Hi. discriminate.
Qed.
End Program.

(** ** Switches *)

Section Switch.
Variables (A : Type) (value : label -> option N) (lab : symbol -> label) (h : symbol -> option A).
Definition one_case (s : symbol) : list (label * A) := match h s with Some a => [(lab s, a)] | None => [] end.

Lemma switch_miss : forall cols v, (forall s, In s cols -> h s <> None -> value (lab s) <> Some v) -> switch value (flat_map one_case cols) v = None.
Proof.
  induction cols as [|s cols IH]; intros v H; [reflexivity|]. cbn [flat_map]. unfold one_case at 1. destruct (h s) as [a|] eqn:E; cbn [app switch].
  - destruct (eqc (value (lab s)) (Some v)) eqn:X.
    + apply eqc_true in X. destruct (H s (or_introl eq_refl)); congruence.
    + apply IH. intros s' Hs'. apply H. right. exact Hs'.
  - apply IH. intros s' Hs'. apply H. right. exact Hs'.
Qed.

Lemma switch_hit : forall cols s0 v, In s0 cols -> value (lab s0) = Some v -> (forall s, In s cols -> h s <> None -> value (lab s) = Some v -> s = s0) ->
  switch value (flat_map one_case cols) v = h s0.
Proof.
  induction cols as [|s cols IH]; intros s0 v Hin Hv Hu; [destruct Hin|]. destruct (cmp_dec s s0) as [->|Ns].
  - destruct (h s0) as [a|] eqn:E0.
    + cbn [flat_map]. unfold one_case at 1. rewrite E0. cbn [app switch]. rewrite Hv, eqc_refl. reflexivity.
    + apply switch_miss. intros s Hs Hh Hs'. pose proof (Hu s Hs Hh Hs'). congruence.
  - destruct Hin as [->|Hin]; [contradiction|]. cbn [flat_map]. unfold one_case at 1. destruct (h s) as [a|] eqn:E; cbn [app switch].
    + destruct (eqc (value (lab s)) (Some v)) eqn:X.
      * apply eqc_true in X. destruct Ns. apply Hu; [left; reflexivity|congruence|exact X].
      * apply IH; auto. intros s' Hs'. apply Hu. right. exact Hs'.
    + apply IH; auto. intros s' Hs'. apply Hu. right. exact Hs'.
Qed.
End Switch.

(** ** Runs *)

Section Simulate.
Variables (rs : rule_set) (g : grammar).
Hypothesis sm : small rs.
Hypothesis Hg : from_rule_set rs = Ok g.
Variables (k : table_kind) (m : nat) (allow : bool) (tb : lr_table).
Hypothesis gen : generates k m g allow = Ok (NoConflicts tb).
Variables (fs : symbol_sets) (pg : lr_graph).
Hypothesis su : setup k g tb fs pg.
Variable p : lr_parser.
Hypothesis wr : written g tb p.
Let wf := grammar_wf rs g Hg.
Let names := token_names rs.
Let n := kind_n k.
Let n_le := kind_n_le k.
Let au := su_au _ _ _ _ _ su.
Let tf := su_tb _ _ _ _ _ su.
Let gi := au_inv _ _ _ _ _ au.
Let ok := tf_ok _ _ _ _ tf.
Let c := program rs g tb.
Hypothesis nd : NoDup (enumerators names).
Hypothesis ndn : NoDup (map (ntn g) (non_terminals g)).

Lemma throw_message : forall got ex, throw_unexpected_token_error c (expected_list (map (ename rs) ex)) (cpp_token names got) = Throw (message names got ex).
Proof.
  intros got ex. unfold throw_unexpected_token_error. cbn [cx_names c program]. fold names. destruct (token_names_ok names nd) as (T1 & T2 & T3).
  assert (exists tk, nth_error (enumerators names) (N.to_nat (cpp_token names got)) = Some tk /\ CppLexerModel.get_token_name names tk = Some (token_text names got)) as (tk & -> & ->).
  { destruct got as [i|]; [|exists tk_eof; auto]. cbn [cpp_token token_text]. destruct (N.ltb_spec i (N.of_nat (length names))) as [L|L].
    - exists (enumerator (nth (N.to_nat i) names "<ERR>"%string)). split.
      + replace (N.to_nat (i + 2)) with (2 + N.to_nat i) by lia. unfold enumerators. cbn [plus nth_error]. rewrite nth_error_map, (nth_error_nth' names "<ERR>"%string) by lia. reflexivity.
      + apply T3. apply nth_In. lia.
    - exists tk_err. split; [reflexivity|]. rewrite nth_overflow by lia. exact T1. }
  unfold message, expected_list. rewrite map_map. reflexivity.
Qed.

Lemma determine_ok : forall q t, q < tb_states tb -> determine_action c (N.of_nat q) (cpp_token names t) =
  match (if sym_in (token_symbol t) (token_columns g) then cell_action (cell tb q (token_symbol t)) else None) with
  | Some a => Ok a
  | None => Err (Throw (message names t (expected_of g tb q)))
  end.
Proof.
  intros q t Hq. unfold determine_action. rewrite (numbered_in _ _ q (flat_map (acase rs g tb q) (token_columns g), expected_list (map (ename rs) (expected_of g tb q)))).
  2: { cbn [cx_actions c program]. rewrite map_map. cbn [fst]. rewrite map_id. apply seq_NoDup. }
  2: { cbn [cx_actions c program]. apply in_map_iff. exists q. split; auto. apply in_seq. lia. }
  rewrite throw_message.
  assert (switch (token_label c) (flat_map (acase rs g tb q) (token_columns g)) (cpp_token names t) = if sym_in (token_symbol t) (token_columns g) then cell_action (cell tb q (token_symbol t)) else None) as ->; [|reflexivity].
  change (acase rs g tb q) with (one_case lr_action (alabel rs g) (fun s => cell_action (cell tb q s))). destruct (sym_in (token_symbol t) (token_columns g)) as [Hin|Hin].
  - apply (switch_hit _ _ _ (fun s => cell_action (cell tb q s))); auto; [apply (alabel_value rs g sm Hg k tb nd t Hin)|].
    intros s Hs _ E. destruct (token_column_inv rs g Hg s Hs) as [t' ->]. unfold c in E. rewrite (alabel_value rs g sm Hg k tb nd t' Hs) in E. f_equal. apply (cpp_token_inj rs g sm Hg k); auto. injection E as E. exact E.
  - apply switch_miss. intros s Hs _ E. destruct (token_column_inv rs g Hg s Hs) as [t' ->]. unfold c in E. rewrite (alabel_value rs g sm Hg k tb nd t' Hs) in E. fold names in E.
    destruct t as [i|]; [|apply Hin; apply in_or_app; right; left; reflexivity]. cbn [token_symbol] in Hin.
    assert (cpp_token names (Some i) = 0%N) as E0.
    { cbn [cpp_token]. destruct (N.ltb_spec i (N.of_nat (length names))) as [L|L]; auto. destruct Hin. apply in_or_app. left. apply (terminal_iff rs g sm Hg). exact L. }
    rewrite E0 in E. destruct t' as [j|]; cbn [cpp_token] in E; [|discriminate]. destruct (N.ltb_spec j (N.of_nat (length names))) as [L|L]; [injection E as E; lia|].
    cbn [token_symbol] in Hs. apply in_app_or in Hs. destruct Hs as [Hs|[Hs|[]]]; [|discriminate]. apply (terminal_iff rs g sm Hg) in Hs. fold names in Hs. lia.
Qed.

Definition cs (x : stack_symbol) : csym :=
  match x with
  | KTerminal t => mkSym KindTerminal (cpp_token names t)
  | KNonTerminal i => mkSym KindNonTerminal (ntv g i)
  | KState q => mkSym KindState (N.of_nat q)
  end.

Lemma gotos_nodup : NoDup (map fst (cx_gotos c)).
Proof.
  cbn [cx_gotos c program]. apply (nodup_flat_opt _ _ _ _ _ (fun q => q)).
  - intros q. destruct (state_has_shift tb g q); cbn; lia.
  - intros q b _ Hb. destruct (state_has_shift tb g q); [|destruct Hb]. destruct Hb as [<-|[]]. reflexivity.
  - apply seq_NoDup.
  - auto.
Qed.

Lemma retrieve_ok : forall q s x, q < tb_states tb -> In s (columns g) -> s <> End -> cell_goto (cell tb q s) = Some x ->
  retrieve_next_state c (N.of_nat q) (cs (stack_of s)) = if state_has_shift tb g q then Ok (trans_of x) else Err Terminated.
Proof.
  intros q s x Hq Hs He Hx. unfold retrieve_next_state. destruct (state_has_shift tb g q) eqn:Esh.
  2: { rewrite numbered_none; [reflexivity|]. intros a Ha. cbn [cx_gotos c program] in Ha. apply in_flat_map in Ha. destruct Ha as (q' & _ & Ha).
       destruct (state_has_shift tb g q') eqn:E'; [|destruct Ha]. destruct Ha as [Ha|[]]. injection Ha as -> _. congruence. }
  rewrite (numbered_in _ _ q (flat_map (gcase rs g tb q) (token_columns g), flat_map (gcase rs g tb q) (non_terminals g)) gotos_nodup).
  2: { cbn [cx_gotos c program]. apply in_flat_map. exists q. split; [apply in_seq; lia|]. rewrite Esh. left. reflexivity. }
  assert (forall cols, flat_map (gcase rs g tb q) cols = flat_map (one_case transition (glabel rs g) (fun s => option_map trans_of (cell_goto (cell tb q s)))) cols) as X.
  { intros cols. apply flat_map_ext. intros a. unfold gcase, one_case. destruct (cell_goto (cell tb q a)); reflexivity. }
  rewrite !X. clear X.
  assert (In s (token_columns g) \/ In s (non_terminals g)) as [Ht|Hn] by (apply goto_columns_in in Hs; apply in_app_or in Hs; exact Hs).
  - destruct (token_column_inv rs g Hg s Ht) as [[t|] ->]; [|destruct He; reflexivity]. cbn [token_symbol stack_of cs sy_kind sy_ident].
    rewrite (switch_hit _ _ _ (fun s => option_map trans_of (cell_goto (cell tb q s))) (token_columns g) (Terminal t)); auto; [cbn [token_symbol] in Hx; rewrite Hx; reflexivity|apply (alabel_value rs g sm Hg k tb nd (Some t) Ht)|].
    intros s Hs' Hh E. assert (s <> End) as Hne by (intros ->; apply Hh; rewrite (end_no_goto rs g Hg k tb fs pg su q Hq); reflexivity). rewrite (gcase_acase_label rs g Hg s Hs' Hne) in E.
    destruct (token_column_inv rs g Hg s Hs') as [t' ->]. unfold c in E. rewrite (alabel_value rs g sm Hg k tb nd t' Hs') in E. change (Terminal t) with (token_symbol (Some t)). apply (f_equal token_symbol). apply (cpp_token_inj rs g sm Hg k); auto. injection E as E. exact E.
  - destruct (wf_nts g wf _ Hn) as [i ->]. cbn [stack_of cs sy_kind sy_ident].
    rewrite (switch_hit _ _ _ (fun s => option_map trans_of (cell_goto (cell tb q s))) (non_terminals g) (NonTerminal i)); auto; [rewrite Hx; reflexivity|apply (nt_value g ndn i Hn)|].
    intros s Hs' _ E. destruct (wf_nts g wf _ Hs') as [j ->]. f_equal. apply (ntv_inj rs g Hg ndn); auto. cbn [nt_label glabel cx_nts c program] in E. rewrite (nt_value g ndn j Hs') in E. congruence.
Qed.

Lemma pop_cs : forall a b, pop_symbols (length a) (map cs (concrete (a ++ b))) = Ok (map cs (concrete b)).
Proof. induction a as [|f a IH]; intros b; cbn; auto. Qed.

Lemma reductions_nodup : NoDup (map fst (cx_reductions c)).
Proof. cbn [cx_reductions c program]. rewrite map_map. cbn [fst]. rewrite enumerate_combine, map_fst_combine by apply seq_length. apply seq_NoDup. Qed.

Lemma reduce_ok : forall fr x j r i fr1 fr2 S2 y, handle g (kind_lalr k) pg fr x j r i fr1 fr2 S2 y -> cpp_reduce_stack c j (map cs (concrete fr)) = Ok (map cs (KNonTerminal i :: concrete fr2)).
Proof.
  intros fr x j r i fr1 fr2 S2 y Hh. unfold cpp_reduce_stack. rewrite (numbered_in _ _ j (length (filter not_epsilon (r_rhs r)), ntn g (NonTerminal i)) reductions_nodup).
  2: { cbn [cx_reductions c program]. apply in_map_iff. exists (j, r). cbn [fst snd]. rewrite (ha_lhs _ _ _ _ _ _ _ _ _ _ _ _ Hh). split; auto.
       rewrite enumerate_combine. assert (In (j, r) (rules_of g i)) as X by (apply rules_of_In; split; [apply (ha_rule _ _ _ _ _ _ _ _ _ _ _ _ Hh)|apply (ha_lhs _ _ _ _ _ _ _ _ _ _ _ _ Hh)]). apply filter_In in X. apply X. }
  assert (In (NonTerminal i) (non_terminals g)) as Hi.
  { destruct (wf_lhs g wf r (nth_error_In _ _ (ha_rule _ _ _ _ _ _ _ _ _ _ _ _ Hh))) as (i' & E & Hi). rewrite (ha_lhs _ _ _ _ _ _ _ _ _ _ _ _ Hh) in E. injection E as <-. exact Hi. }
  cbn [cx_nts c program]. rewrite (nt_value g ndn i Hi). rewrite (ha_pop _ _ _ _ _ _ _ _ _ _ _ _ Hh), (ha_split _ _ _ _ _ _ _ _ _ _ _ _ Hh), pop_cs. reflexivity.
Qed.

Let tv (t : N) : N := cpp_token names (Some t).

Lemma peek_ok : forall w, cpp_peek (map tv w) = cpp_token names (peek w).
Proof. intros [|t w]; reflexivity. Qed.

Lemma loop_step : forall fuel fr w, cpp_lr_loop (S fuel) c (map cs (concrete fr)) w =
  let '(ev, r) := cpp_act c (map cs (concrete fr)) w in
  match r with
  | Ok (stack, tokens) =>
    match cpp_goto c stack with
    | Ok stack => let '(ev', r) := cpp_lr_loop fuel c stack tokens in (ev ++ ev', r)
    | Err e => (ev, Err e)
    | Panic => (ev, Panic)
    | OutOfFuel => (ev, OutOfFuel)
    end
  | Err e => (ev, Err e)
  | Panic => (ev, Panic)
  | OutOfFuel => (ev, OutOfFuel)
  end.
Proof. intros fuel fr w. cbn [cpp_lr_loop]. destruct (concrete_top fr) as [l ->]. reflexivity. Qed.

Lemma edge_retrieve : forall q S s t, st pg q = Some S -> edge pg q s t -> s <> End -> s <> Epsilon -> ~ (q = 0 /\ s = g_entry g) ->
  state_has_shift tb g q = true /\ retrieve_next_state c (N.of_nat q) (cs (stack_of s)) = Ok (t, false).
Proof.
  intros q S s t HS He Hk Hk' Hne. pose proof (state_lt g _ fs _ pg au tb tf q S HS) as Hq.
  assert (In s (all_symbols g)) as Hs by (eapply edge_column; eauto). assert (In s (columns g)) as Hc by (apply in_or_app; auto).
  assert (In (Shift t) (cell tb q s)) as Hin by (apply (cell_shift g _ n_le fs _ pg au tb tf q S s t HS Hc); tauto).
  assert (state_has_shift tb g q = true) as Hsh by (apply (has_shift_iff g tb ok); eauto).
  split; auto. rewrite (retrieve_ok q s (GotoState t) Hq Hc Hk); [rewrite Hsh; reflexivity|].
  rewrite (single_in g _ n_le fs _ pg au tb tf p wr q S s (Shift t) HS Hc Hin). reflexivity.
Qed.

Lemma entry_retrieve : retrieve_next_state c 0%N (cs (stack_of (g_entry g))) = if state_has_shift tb g 0 then Ok (0, true) else Err Terminated.
Proof.
  destruct (gi_entry _ _ _ _ _ gi) as (S & HS & _). destruct (entry_symbol g wf) as [i Ei]. pose proof (state_lt g _ fs _ pg au tb tf 0 S HS) as Hq.
  assert (In (g_entry g) (columns g)) as Hc by (apply in_or_app; left; apply entry_symbol_in; auto).
  change 0%N with (N.of_nat 0). rewrite (retrieve_ok 0 (g_entry g) GotoAccept Hq Hc); [reflexivity|rewrite Ei; discriminate|].
  rewrite (single_in g _ n_le fs _ pg au tb tf p wr 0 S (g_entry g) Accept HS Hc); [reflexivity|]. apply (cell_accept g wf _ n_le fs _ pg au tb tf 0 S _ HS Hc). auto.
Qed.

Lemma cpp_step : forall fr w ev o w', valid g pg fr -> mstep g (kind_n k) (kind_lalr k) pg fr w ev o w' -> forall fuel,
  cpp_lr_loop (S fuel) c (map cs (concrete fr)) (map tv w) =
  match o with
  | inl fr' => let '(ev', r) := cpp_lr_loop fuel c (map cs (concrete fr')) (map tv w') in (map (cpp_event_of names) ev ++ ev', r)
  | inr _ => if state_has_shift tb g 0 then let '(ev', r) := cpp_lr_loop fuel c [] (map tv w') in (map (cpp_event_of names) ev ++ ev', r)
             else (map (cpp_event_of names) ev, Err Terminated)
  end.
Proof.
  intros fr w ev o w' Hv H fuel. rewrite loop_step. destruct (valid_state g _ fs _ pg au fr Hv) as [S0 HS0]. destruct (concrete_top fr) as [l El].
  pose proof (state_lt g _ fs _ pg au tb tf _ S0 HS0) as Hq.
  assert (forall a, cell_action (cell tb (top fr) (token_symbol (peek w))) = Some a -> In (token_symbol (peek w)) (columns g) -> determine_action c (N.of_nat (top fr)) (cpp_peek (map tv w)) = Ok a) as HD.
  { intros a Ha Hc. rewrite peek_ok, (determine_ok _ _ Hq). destruct (sym_in (token_symbol (peek w)) (token_columns g)) as [|X]; [rewrite Ha; reflexivity|destruct X; apply (token_columns_in g wf); auto]. }
  assert (forall j r i fr1 fr2 S2 y x S, st pg (top fr) = Some S -> In (token_symbol (peek w)) (columns g) -> reducing g (kind_n k) S (token_symbol (peek w)) x -> it_rule x = Some j -> handle g (kind_lalr k) pg fr x j r i fr1 fr2 S2 y ->
    cpp_act c (map cs (concrete fr)) (map tv w) = ([CReduce j], Ok (map cs (KNonTerminal i :: concrete fr2), map tv w))) as HR.
  { intros j r i fr1 fr2 S2 y x S HS Hc Hr Hk Hh. pose proof (reduce_ok _ _ _ _ _ _ _ _ _ Hh) as Hs. unfold cpp_act. rewrite El in *. cbn [map cs sy_ident].
    rewrite (HD (ActReduce j)); auto.
    - cbn [map cs] in Hs. rewrite Hs. reflexivity.
    - rewrite (single_in g _ n_le fs _ pg au tb tf p wr (top fr) S _ (Reduce (Some j)) HS Hc); [reflexivity|]. apply (cell_reduce g _ n_le fs _ pg au tb tf (top fr) S _ _ HS Hc). eauto. }
  destruct H as [t w q He|w S x j r i fr1 fr2 S2 y q HS Hc Hr Hk Hh He Hne|w S x j r i fr1 fr2 S2 y HS Hc Hr Hk Hh Ht Hi].
  - assert (In (Terminal t) (columns g)) as Hc by (apply in_or_app; left; eapply edge_column; eauto; discriminate).
    assert (~ (top fr = 0 /\ Terminal t = g_entry g)) as Hne by (destruct (entry_symbol g wf) as [i Ei]; rewrite Ei; intros [_ X]; discriminate).
    assert (cpp_act c (map cs (concrete fr)) (map tv (t :: w)) = ([CShift (tv t)], Ok (mkSym KindTerminal (tv t) :: map cs (concrete fr), map tv w))) as ->.
    { unfold cpp_act. rewrite El. cbn [map cs sy_ident]. rewrite <- (map_cons tv), (HD ActShift); auto.
      cbn [peek hd_error token_symbol]. rewrite (single_in g _ n_le fs _ pg au tb tf p wr (top fr) S0 _ (Shift q) HS0 Hc); [reflexivity|]. apply (cell_shift g _ n_le fs _ pg au tb tf (top fr) S0 _ q HS0 Hc).
      split; [eapply edge_column; eauto; discriminate|]. split; auto. tauto. }
    cbv iota beta. rewrite El at 1. cbn [map cs cpp_goto sy_ident]. destruct (edge_retrieve _ _ _ _ HS0 He) as [_ Hr]; [discriminate|discriminate|exact Hne|].
    cbn [stack_of cs] in Hr. fold names in Hr. change (cpp_token names (Some t)) with (tv t) in Hr. rewrite Hr. cbn [bind]. cbn [concrete fr_state fr_sym stack_of map cs]. rewrite El. reflexivity.
  - rewrite (HR j r i fr1 fr2 S2 y x S HS Hc Hr Hk Hh). cbv iota beta. destruct (concrete_top fr2) as [l2 El2]. rewrite El2 at 1. cbn [map cs cpp_goto sy_ident].
    destruct (edge_retrieve _ _ _ _ (ha_state _ _ _ _ _ _ _ _ _ _ _ _ Hh) He) as [_ Hr']; [discriminate|discriminate|exact Hne|].
    cbn [stack_of cs] in Hr'. rewrite Hr'. cbn [bind concrete fr_state fr_sym stack_of map cs]. rewrite El2. reflexivity.
  - rewrite (HR j r i fr1 fr2 S2 y x S HS Hc Hr Hk Hh). cbv iota beta.
    assert (fr2 = []) as -> by (apply (valid_top_0 g wf _ fs _ pg au); auto; apply (valid_app g pg fr1); rewrite <- (ha_split _ _ _ _ _ _ _ _ _ _ _ _ Hh); auto).
    cbn [concrete map cs cpp_goto sy_ident]. change (N.of_nat 0) with 0%N. pose proof entry_retrieve as X. rewrite <- Hi in X. cbn [stack_of cs] in X. rewrite X. destruct (state_has_shift tb g 0); reflexivity.
Qed.

Lemma cpp_stuck : forall fr w, valid g pg fr -> (In (token_symbol (peek w)) (token_columns g) -> cell_action (cell tb (top fr) (token_symbol (peek w))) = None) ->
  forall fuel, cpp_lr_loop (S fuel) c (map cs (concrete fr)) (map tv w) = ([], Err (Throw (message names (peek w) (expected_of g tb (top fr))))).
Proof.
  intros fr w Hv Hc fuel. rewrite loop_step. destruct (valid_state g _ fs _ pg au fr Hv) as [S0 HS0]. destruct (concrete_top fr) as [l El]. pose proof (state_lt g _ fs _ pg au tb tf _ S0 HS0) as Hq.
  unfold cpp_act. rewrite El. cbn [map cs sy_ident]. rewrite peek_ok, (determine_ok _ _ Hq).
  destruct (sym_in (token_symbol (peek w)) (token_columns g)) as [X|X]; [rewrite (Hc X)|]; reflexivity.
Qed.

Lemma simulate : state_has_shift tb g 0 = true -> forall fuel fr w, valid g pg fr -> same_run names (lr_run fuel p (concrete fr) w) (cpp_lr_loop fuel c (map cs (concrete fr)) (map tv w)).
Proof.
  intros Hsh. induction fuel as [|fuel IH]; intros fr w Hv; [split; reflexivity|].
  destruct (driver_cases g wf _ n_le fs _ pg au tb tf p wr fr w Hv) as [(ev & o & w' & Hm)|[He Hc]].
  - rewrite (driver_step g wf _ n_le fs _ pg au tb tf p wr fr w ev o w' Hv Hm), (cpp_step fr w ev o w' Hv Hm). destruct o as [fr'|tr].
    + destruct (mstep_valid g _ _ pg fr w ev fr' w' Hv Hm) as (Hv' & _). destruct (IH fr' w' Hv') as [I1 I2].
      destruct (lr_run fuel p (concrete fr') w') as [ev1 r1]. destruct (cpp_lr_loop fuel c (map cs (concrete fr')) (map tv w')) as [ev2 r2]. cbn [fst snd] in *.
      split; cbn [fst snd]; [rewrite map_app; congruence|exact I2].
    + rewrite Hsh. destruct fuel as [|fuel]; cbn [lr_run cpp_lr_loop]; split; cbn [fst snd]; rewrite ?app_nil_r; reflexivity.
  - rewrite He, (cpp_stuck fr w Hv Hc). split; reflexivity.
Qed.

Lemma simulate_not : state_has_shift tb g 0 = false -> forall fuel w, same_but_terminates names (lr_run (S (S fuel)) p (concrete []) w) (cpp_lr_loop (S (S fuel)) c (map cs (concrete [])) (map tv w)).
Proof.
  intros Hsh fuel w. pose proof (va_nil g pg) as Hv. destruct (driver_cases g wf _ n_le fs _ pg au tb tf p wr [] w Hv) as [(ev & o & w' & Hm)|[He Hc]].
  - rewrite (driver_step g wf _ n_le fs _ pg au tb tf p wr [] w ev o w' Hv Hm), (cpp_step [] w ev o w' Hv Hm). destruct o as [fr'|tr].
    + exfalso. destruct (gi_entry _ _ _ _ _ gi) as (S0 & HS0 & _). inversion Hm as [t w0 q He|w0 S x j r i fr1 fr2 S2 y q HS Hc Hr Hk Hh He Hne|]; subst.
      * destruct (edge_retrieve _ _ _ _ HS0 He) as [X _]; [discriminate|discriminate| |congruence]. destruct (entry_symbol g wf) as [i Ei]. rewrite Ei. intros [_ X]. discriminate.
      * pose proof (ha_split _ _ _ _ _ _ _ _ _ _ _ _ Hh) as Es. symmetry in Es. apply app_eq_nil in Es. destruct Es as [-> ->].
        destruct (edge_retrieve _ _ _ _ HS0 He) as [X _]; [discriminate|discriminate|exact Hne|congruence].
    + rewrite Hsh. cbn [lr_run]. split; cbn [fst snd]; rewrite ?app_nil_r; reflexivity.
  - rewrite He, (cpp_stuck [] w Hv Hc). split; reflexivity.
Qed.
End Simulate.

(** ** The statements *)

Section Facts.
Variables (rs : rule_set) (g : grammar).
Hypothesis sm : small rs.
Hypothesis Hg : from_rule_set rs = Ok g.
Variables (k : table_kind) (m : nat) (allow : bool) (tb : lr_table).
Hypothesis gen : generates k m g allow = Ok (NoConflicts tb).
Let wf := grammar_wf rs g Hg.

Lemma cpp_writes : exists c, cpp_write (token_names rs) g tb = Ok c.
Proof. destruct (generates_setup k m g allow tb wf gen) as (fs & pg & su). exists (program rs g tb). apply (program_ok rs g sm Hg k m allow tb gen fs pg su). Qed.

Variable c : cpp_lr.
Hypothesis wrc : cpp_write (token_names rs) g tb = Ok c.

Lemma is_program : c = program rs g tb.
Proof. destruct (generates_setup k m g allow tb wf gen) as (fs & pg & su). pose proof (program_ok rs g sm Hg k m allow tb gen fs pg su) as X. congruence. Qed.

Lemma compiles_iff : cpp_compiles c <-> names_distinct rs g /\ few_rules g tb.
Proof.
  destruct (generates_setup k m g allow tb wf gen) as (fs & pg & su). pose proof (su_tb _ _ _ _ _ su) as tf. rewrite is_program.
  assert (NoDup (map (ntn g) (non_terminals g)) <-> forall i j n m, In (NonTerminal i) (non_terminals g) -> In (NonTerminal j) (non_terminals g) -> named g i n -> named g j m ->
    string_map ascii_lower n = string_map ascii_lower m -> i = j) as HN.
  { destruct (cpp_variants rs g Hg) as (vs & E & X). unfold cpp_non_terminal_variants in E. rewrite (res_list_map _ _ _ _ (ntn g)) in E; [injection E as <-; exact X|].
    intros s Hs. apply (wf_nts g wf) in Hs. destruct Hs as [i ->]. apply cpp_enum_name_nm. }
  unfold names_distinct. rewrite <- HN. split.
  - intros [C1 C2 C3 C4 C5 C6 C7]. cbn [cx_names cx_nts program] in C1, C2. apply enumerators_distinct in C1. destruct C1 as (D1 & D2 & D3). split; [auto|].
    intros q t j Ht Hin. change (entries tb q (column t)) with (cell tb q (column t)) in Hin. destruct (Nat.lt_ge_cases q (tb_states tb)) as [Hq|Hq].
    + apply (token_columns_is g wf) in Ht. pose proof (token_cell_single rs g Hg k m allow tb gen q _ Hq Ht) as Hs. unfold single in Hs.
      destruct (C4 q (flat_map (acase rs g tb q) (token_columns g)) (expected_list (map (ename rs) (expected_of g tb q)))) as [_ X].
      { cbn [cx_actions program]. apply in_map_iff. exists q. split; auto. apply in_seq. lia. }
      apply (X (alabel rs g (column t)) (ActReduce j)). apply in_flat_map. exists (column t). split; auto. unfold acase.
      destruct (cell tb q (column t)) as [|e [|e' l]]; [destruct Hin| |cbn in Hs; lia]. destruct Hin as [->|[]]. left. reflexivity.
    + rewrite (tf_none _ _ _ _ tf) in Hin; [destruct Hin|]. rewrite <- (tf_states _ _ _ _ tf). exact Hq.
  - intros (((D1 & D2 & D3) & D4) & F). apply (program_compiles rs g sm Hg k tb fs pg su); auto. apply enumerators_distinct. auto.
Qed.

Variable p : lr_parser.
Hypothesis wrt : write_parser g tb = Ok p.
Hypothesis comp : cpp_compiles c.

Lemma run_cases : forall fuel w,
  (entry_starts g -> same_run (token_names rs) (lr_parse fuel p w) (cpp_parse fuel c (map (fun t => cpp_token (token_names rs) (Some t)) w))) /\
  (~ entry_starts g -> 2 <= fuel -> same_but_terminates (token_names rs) (lr_parse fuel p w) (cpp_parse fuel c (map (fun t => cpp_token (token_names rs) (Some t)) w))).
Proof.
  intros fuel w. pose proof (cc_tokens _ comp) as nd. pose proof (cc_nts _ comp) as ndn. rewrite is_program in nd, ndn. cbn [cx_names cx_nts program] in nd, ndn.
  destruct (setup_ex k m g allow tb p wf gen wrt) as (fs & pg & su & wr & E0). pose proof (entry_shift_iff k g tb fs pg wf su) as He.
  pose proof (tf_entry _ _ _ _ (su_tb _ _ _ _ _ su)) as Et.
  assert (cpp_parse fuel c (map (fun t => cpp_token (token_names rs) (Some t)) w) = cpp_lr_loop fuel (program rs g tb) (map (cs rs g) (concrete [])) (map (fun t => cpp_token (token_names rs) (Some t)) w)) as ->.
  { unfold cpp_parse. rewrite is_program. cbn [cx_entry program]. rewrite Et. reflexivity. }
  rewrite (parse_concrete p fuel w E0). split.
  - intros Hs. apply (simulate rs g sm Hg k tb fs pg su p wr nd ndn); [apply He; exact Hs|constructor].
  - intros Hs Hf. destruct fuel as [|[|fuel]]; try lia. apply (simulate_not rs g sm Hg k tb fs pg su p wr nd ndn). destruct (state_has_shift tb g 0); auto. destruct Hs. apply He. reflexivity.
Qed.
End Facts.

(** The tables of grammars with at most 65536 rules. *)
Lemma rules_fit : forall g k m allow tb, wf_grammar g -> generates k m g allow = Ok (NoConflicts tb) -> (N.of_nat (length (g_rules g)) <= 65536)%N -> few_rules g tb.
Proof.
  intros g k m allow tb wf gen L q t j Ht Hin. destruct (generates_setup k m g allow tb wf gen) as (fs & pg & su). pose proof (su_au _ _ _ _ _ su) as au. pose proof (su_tb _ _ _ _ _ su) as tf.
  change (entries tb q (column t)) with (cell tb q (column t)) in Hin. destruct (Nat.lt_ge_cases q (lg_nodes pg)) as [Hq|Hq].
  - apply (gi_nodes _ _ _ _ _ (au_inv _ _ _ _ _ au)) in Hq. destruct Hq as [S HS]. apply (token_columns_is g wf) in Ht. apply tok_cols in Ht.
    apply (cell_reduce g _ (kind_n_le k) fs _ pg au tb tf q S _ _ HS Ht) in Hin. destruct Hin as (x & (X & _) & Hx). destruct (state_ok g _ fs _ pg au q S x HS X) as [[r Hr] _ _ _].
    rewrite Hx in Hr. cbn [item_rule] in Hr. assert (j < length (g_rules g)) by (apply nth_error_Some; congruence). lia.
  - rewrite (tf_none _ _ _ _ tf) in Hin by auto. destruct Hin.
Qed.
