(** The parsers that are generated can be written, and what tells their visitors is complete. *)
From Coq Require Import String Ascii List Arith NArith ZArith Bool Lia.
From Verif Require Import Base InputModel GrammarModel GrammarSpec GrammarProof GrammarNamesProof GrammarBuildProof GrammarFactsProof LLModel LLSpec LRModel LRSpec LRItemsProof LRGraphProof AutomatonProof LRTableProof LRWriteProof LRGenProof LRConflictProof LRRunProof LRCompleteProof LRFactsProof GLRStepProof NamesModel NamesSpec NamesVisitProof CppLexerModel CppLexerProof CppLRModel CppLRSpec CppLRProof
  TemplateModel TemplateFiles CppTextSpec CppTextProof CppLexTextSpec CppLexTextProof CppLRTextSpec CppLRTextProof.
Import ListNotations.
Local Open Scope nat_scope.
Local Open Scope list_scope.

(** ** Names *)

Lemma plain_app : forall a b, plain_name a -> plain_name b -> plain_name (a ++ b)%string.
Proof. intros a b A B c H. rewrite chars_app in H. apply in_app_or in H. destruct H; auto. Qed.
Lemma plain_upper : forall s, plain_name s -> plain_name (string_map ascii_upper s).
Proof.
  induction s as [|a s IH]; intros H c X; [destruct X|]. cbn in X. destruct X as [<-|X].
  - assert (H0 : word_char (N_of_ascii a) = true) by (apply H; left; reflexivity). clear -H0. destruct a as [[] [] [] [] [] [] [] []]; try reflexivity; discriminate.
  - apply IH; [|exact X]. intros x Hx. apply H. right. exact Hx.
Qed.
Lemma plain_digits : forall u, plain_name (DecimalString.NilEmpty.string_of_uint u).
Proof. induction u as [|u IH|u IH|u IH|u IH|u IH|u IH|u IH|u IH|u IH|u IH]; intros c X; [destruct X|..]; (destruct X as [<-|X]; [reflexivity|exact (IH c X)]). Qed.
Lemma plain_decimal : forall n, plain_name (decimal n). Proof. intros n. apply plain_digits. Qed.
Lemma plain_const : forall s, forallb word_char (chars s) = true -> plain_name s.
Proof. intros s H c X. exact (proj1 (forallb_forall _ _) H c X). Qed.

Lemma prefixed : forall s, plain_name s -> identifier ("NT_" ++ s)%string.
Proof. intros s H. split; [apply plain_app; [apply plain_const; reflexivity|exact H]|]. split; [discriminate|reflexivity]. Qed.
Lemma enumerator_identifier : forall s, plain_name s -> identifier (enumerator s).
Proof. intros s H. split; [apply plain_app; [apply plain_const; reflexivity|exact H]|]. split; [discriminate|reflexivity]. Qed.

Definition plain_quoteb (c : N) : bool := (negb (c =? 34) && negb (c =? 10) && negb (c =? 92) && (c <? 128))%N.
Lemma quotable_app : forall a b, quotable a -> quotable b -> quotable (a ++ b)%string.
Proof. intros a b A B c H. rewrite chars_app in H. apply in_app_or in H. destruct H; auto. Qed.
Lemma quotable_const : forall s, forallb plain_quoteb (chars s) = true -> quotable s.
Proof.
  intros s H c X. pose proof (proj1 (forallb_forall _ _) H c X) as Y. unfold plain_quoteb in Y. repeat (apply andb_true_iff in Y; destruct Y as [Y ?]).
  repeat match goal with H : negb _ = true |- _ => apply negb_true_iff, N.eqb_neq in H end. apply N.ltb_lt in H0. auto.
Qed.
Lemma quotable_concat : forall l, Forall quotable l -> quotable (String.concat ", " l).
Proof.
  intros l H. induction H as [|x l Hx Hl IH]; [intros c []|]. destruct l as [|y l]; [exact Hx|]. change (String.concat ", " (x :: y :: l)) with (x ++ ", " ++ String.concat ", " (y :: l))%string.
  apply quotable_app; [exact Hx|]. apply quotable_app; [apply quotable_const; reflexivity|exact IH].
Qed.

Lemma plain_quotable : forall s, plain_name s -> quotable s.
Proof.
  intros s H c X. pose proof (H c X) as Y. unfold word_char in Y. split; [intros ->; discriminate|]. split; [intros ->; discriminate|]. split; [intros ->; discriminate|].
  repeat (apply orb_true_iff in Y; destruct Y as [Y|Y]); try (apply andb_true_iff in Y; destruct Y as [Y1 Y2]; apply N.leb_le in Y1, Y2; lia). apply N.eqb_eq in Y; lia.
Qed.

Section Written.
Variables (rs : rule_set) (g : grammar).
Hypothesis sm : small rs.
Hypothesis Hg : from_rule_set rs = Ok g.
Variables (k : table_kind) (m : nat) (allow : bool) (tb : lr_table) (c : cpp_lr).
Hypothesis gen : generates k m g allow = Ok (NoConflicts tb).
Hypothesis wrc : cpp_write (token_names rs) g tb = Ok c.
Hypothesis (PT : Forall plain_name (token_names rs)) (PP : forall p, In p (rs_prods rs) -> plain_name (pr_name p)).
Hypothesis ws : word_sized g tb.
Let wf := grammar_wf rs g Hg.

Lemma nm_plain : forall s, plain_name (nm g s).
Proof.
  intros s. destruct s as [| |i|t]; try (intros x []). unfold nm. destruct (map_get (NonTerminal i) (g_prods g)) as [n|] eqn:E.
  - apply (proj1 (map_get_In _ _ _ (prods_sorted _ _ Hg))) in E. destruct (prod_named _ _ Hg _ _ E) as (p & Hp & <-). apply PP, Hp.
  - apply plain_app; [apply plain_const; reflexivity|apply plain_decimal].
Qed.
Lemma ntn_identifier : forall s, identifier (ntn g s).
Proof. intros s. apply prefixed, plain_upper, nm_plain. Qed.
Lemma tkn_plain : forall t, In (Terminal t) (terminals g) -> plain_name (tkn rs t).
Proof. intros t H. destruct (token_name_ok rs g sm Hg t H) as (_ & E). apply nth_error_In in E. exact (proj1 (Forall_forall _ _) PT _ E). Qed.
Lemma ename_quotable : forall t, In (token_symbol t) (token_columns g) -> quotable (ename rs t).
Proof.
  intros [t|] H; [|apply quotable_const; reflexivity]. cbn [ename token_symbol] in *. unfold token_columns in H. apply in_app_or in H. destruct H as [H|[H|[]]]; [|discriminate].
  apply plain_quotable, tkn_plain, H.
Qed.

Lemma few_nts : (N.of_nat (length (non_terminals g)) <= 65536)%N.
Proof.
  pose proof (wf_symbols g wf) as Hn. unfold all_symbols in Hn. assert (Hn' : NoDup (non_terminals g)) by (clear -Hn; induction (terminals g) as [|x l IH]; [exact Hn|inversion Hn; auto]).
  assert (H : NoDup (map (fun s => N.to_nat (symbol_index s)) (non_terminals g))).
  { apply GLRStepProof.NoDup_map_inj; [exact Hn'|]. intros a b Ha Hb E. destruct (wf_nts g wf _ Ha) as [i ->]. destruct (wf_nts g wf _ Hb) as [j ->]. cbn in E. f_equal. lia. }
  assert (X : length (map (fun s => N.to_nat (symbol_index s)) (non_terminals g)) <= length (seq 0 (N.to_nat 65536))).
  { apply NoDup_incl_length; [exact H|]. intros x Hx. apply in_map_iff in Hx. destruct Hx as (s & <- & Hs). apply in_seq. pose proof (wf_u16 g wf s) as Y. unfold all_symbols in Y.
    specialize (Y (in_or_app _ _ _ (or_intror Hs))). lia. }
  rewrite map_length, seq_length in X. lia.
Qed.

Lemma generated_writable : writable_lr c.
Proof.
  rewrite (is_program rs g sm Hg k m allow tb gen c wrc). destruct (generates_setup k m g allow tb wf gen) as (fs & pg & su). destruct ws as (W1 & W2 & W4).
  assert (SL : forall q, q < tb_states tb -> in_word q) by (intros q H; unfold in_word; lia).
  assert (GT : forall q s x, q < tb_states tb -> In s (columns g) -> cell_goto (cell tb q s) = Some x -> in_word (fst (trans_of x))).
  { intros q s x Hq Hs Hx. destruct x as [|t]; [reflexivity|]. cbn. apply SL. pose proof (su_au _ _ _ _ _ su) as au. pose proof (su_tb _ _ _ _ _ su) as tf.
    pose proof (au_inv _ _ _ _ _ au) as gi. rewrite (tf_states _ _ _ _ tf) in Hq. apply (gi_nodes _ _ _ _ _ gi) in Hq. destruct Hq as [S0 HS0].
    assert (He : In (Shift t) (cell tb q s)). { destruct (cell tb q s) as [|e [|e' l]]; try discriminate; destruct e; try discriminate; injection Hx as ->; left; reflexivity. }
    apply (cell_shift g _ (kind_n_le k) fs _ pg au tb tf q S0 s t HS0 Hs) in He. destruct He as (_ & He & _). destruct (gi_edge _ _ _ _ _ gi _ _ _ He) as (S1 & T1 & A & B & _).
    exact (state_lt g _ fs _ pg au tb tf _ T1 B). }
  split.
  - exact PT.
  - cbn. apply Forall_forall. intros s H. apply in_map_iff in H. destruct H as (s0 & <- & _). apply ntn_identifier.
  - cbn. split; [|split].
    + destruct sm as [A _]. unfold token_names. rewrite map_length. lia.
    + rewrite map_length. pose proof few_nts. lia.
    + rewrite (tf_entry _ _ _ _ (su_tb _ _ _ _ _ su)). reflexivity.
  - cbn. intros q cases ex H. apply in_map_iff in H. destruct H as (q0 & E & Hq). injection E as -> <- <-. apply in_seq in Hq. split; [apply SL; lia|]. split.
    + apply quotable_concat. apply Forall_forall. intros s H. apply in_map_iff in H. destruct H as (n0 & <- & H). apply in_map_iff in H. destruct H as (t & <- & H).
      apply quotable_app; [apply quotable_const; reflexivity|]. apply quotable_app; [|apply quotable_const; reflexivity]. apply ename_quotable.
      apply in_flat_map in H. destruct H as (s & Hs & H). destruct (cell tb q s) as [|e [|]]; try destruct H. destruct (token_column_inv rs g Hg s Hs) as [t0 ->].
      assert (H1 : In t (match column_token (token_symbol t0) with Some t => [t] | None => [] end)) by (destruct e; try exact H; destruct H). destruct t0; cbn in H1; destruct H1 as [<-|[]]; exact Hs.
    + intros l a H. apply in_flat_map in H. destruct H as (s & Hs & H). unfold acase in H. destruct (cell_action (cell tb q s)); [|destruct H]. destruct H as [H|[]]. injection H as <- _.
      unfold token_columns in Hs. apply in_app_or in Hs. destruct Hs as [Hs|[<-|[]]]; [|split; [apply plain_const; reflexivity|split; [discriminate|reflexivity]]].
      destruct (wf_ts g wf _ Hs) as [t ->]. cbn. apply enumerator_identifier, tkn_plain, Hs.
  - cbn. intros q ts nts H. apply in_flat_map in H. destruct H as (q0 & Hq & H). apply in_seq in Hq. destruct (state_has_shift tb g q0) eqn:Hsh; [|destruct H]. destruct H as [H|[]]. injection H as -> <- <-.
    split; [apply SL; lia|]. split.
    + intros l a H. apply in_flat_map in H. destruct H as (s & Hs & H). unfold gcase in H. destruct (cell_goto (cell tb q s)) as [x|] eqn:Ex; [|destruct H]. destruct H as [H|[]]. injection H as <- <-.
      split.
      * unfold token_columns in Hs. apply in_app_or in Hs. destruct Hs as [Hs|[<-|[]]]; [|exfalso]. { destruct (wf_ts g wf _ Hs) as [t ->]. cbn. apply enumerator_identifier, tkn_plain, Hs. }
        assert (X := end_no_goto rs g Hg k tb fs pg su q ltac:(lia)). congruence.
      * apply (GT q s); auto; [lia|]. destruct (token_column_inv rs g Hg s Hs) as [t0 ->]. apply (token_columns_in g wf), Hs.
    + intros l a H. apply in_flat_map in H. destruct H as (s & Hs & H). unfold gcase in H. destruct (cell_goto (cell tb q s)) as [x|] eqn:Ex; [|destruct H]. destruct H as [H|[]]. injection H as <- <-.
      split; [destruct (wf_nts g wf _ Hs) as [i ->]; apply ntn_identifier|]. apply (GT q s); auto; [lia|]. apply in_or_app. left. apply in_or_app. right. exact Hs.
  - intros j n0 s H. unfold CppLRProof.program in H. cbn [cx_reductions] in H. apply in_map_iff in H. destruct H as ((j0 & r) & E & H). cbn [fst snd] in E. injection E as -> <- <-.
    rewrite enumerate_combine in H. pose proof (in_combine_l _ _ _ _ H) as H1. pose proof (in_combine_r _ _ _ _ H) as H2. apply in_seq in H1. split; [unfold in_word; lia|]. split.
    + pose proof (W4 r H2) as H3. unfold in_word in *. pose proof (filter_length_le _ not_epsilon (r_rhs r)). lia.
    + destruct (wf_lhs g wf r H2) as (i & -> & _). apply ntn_identifier.
Qed.

Lemma reductions_numbered : map fst (cx_reductions c) = seq 0 (length (g_rules g)).
Proof.
  rewrite (is_program rs g sm Hg k m allow tb gen c wrc). cbn. rewrite map_map. cbn [fst]. rewrite enumerate_combine. apply map_fst_combine. apply seq_length.
Qed.

Lemma generated_visits : forall visits, cpp_rule_visits g = Ok visits -> writable_visits visits /\ (forall j, In j (map fst (cx_reductions c)) -> In j (map fst visits)).
Proof.
  intros visits Hv. destruct (cpp_visits_complete _ _ Hg) as (vs & ms & A & _ & _ & B & C). assert (vs = visits) as -> by congruence. split; [|rewrite reductions_numbered, B; auto].
  intros j o H. split.
  - assert (X : In j (map fst visits)) by (apply (in_map fst) in H; exact H). rewrite B in X. apply in_seq in X. destruct ws as (W1 & W2 & _). unfold in_word. lia.
  - destruct o as [w|]; [|exact Logic.I]. apply C in H. destruct H as (i & n & Hn & H).
    assert (P : plain_name n). { destruct Hn as [Hn|[_ ->]]; [|apply plain_app; [apply plain_const; reflexivity|apply plain_decimal]]. destruct (prod_named _ _ Hg _ _ Hn) as (p & Hp & <-). apply PP, Hp. }
    destruct H as [(r & _ & ->)|(_ & l & Hl & ->)]; [exists n; auto|]. exists (n ++ "_" ++ l)%string. split; [reflexivity|]. apply plain_app; [exact P|]. apply plain_app; [apply plain_const; reflexivity|].
    apply in_combine_r in Hl. rewrite cpp_labels in Hl. apply in_map_iff in Hl. destruct Hl as (x & <- & _). apply plain_decimal.
Qed.
End Written.
