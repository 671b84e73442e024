(** The LR property theorems, proved from the lemmas on automata, tables and runs. *)
From Coq Require Import String List Arith NArith Bool Lia Relations.
From Verif Require Import Base InputModel GrammarModel GrammarSpec GrammarProof LLModel LLSpec SententialProof SetsProof FirstProof LRModel LRSpec BidiProof ItemProof LRItemsProof LRGraphProof AutomatonProof LRTableProof LRWriteProof LRGenProof LRConflictProof LRRunProof LRCompleteProof.
Import ListNotations.
Local Open Scope nat_scope.
Local Open Scope list_scope.

Lemma kind_n_le : forall k, kind_n k <= 1.
Proof. intros []; auto. Qed.

(** A conflict-free generation together with a written parser. *)
Record setup (k : table_kind) (g : grammar) (tb : lr_table) (fs : symbol_sets) (pg : lr_graph) : Prop := {
  su_first : kind_n k = 1 -> first_sets_correct g fs;
  su_au : automaton g (kind_n k) fs (kind_lalr k) pg;
  su_cs : conflicts_of g (kind_n k) pg [];
  su_tb : table_of g (kind_n k) pg tb
}.

Lemma generates_setup : forall k m g allow tb, wf_grammar g -> generates k m g allow = Ok (NoConflicts tb) -> exists fs pg, setup k g tb fs pg.
Proof.
  intros k m g allow tb wf H. destruct (generate_inv g wf _ _ _ _ _ (kind_n_le k) H) as (fs & pg & cs & A & B & C & D).
  inversion D; subst. exists fs, pg. split; auto.
Qed.

Section Run.
Variables (k : table_kind) (m : nat) (g : grammar) (allow : bool) (tb : lr_table) (p : lr_parser).
Hypothesis wf : wf_grammar g.
Hypothesis gen : generates k m g allow = Ok (NoConflicts tb).
Hypothesis wrt : write_parser g tb = Ok p.

Lemma setup_ex : exists fs pg, setup k g tb fs pg /\ written g tb p /\ lp_entry p = 0.
Proof.
  destruct (generates_setup _ _ _ _ _ wf gen) as (fs & pg & su). exists fs, pg. split; auto.
  pose proof (write_parser_spec g wf tb (tf_ok _ _ _ _ (su_tb _ _ _ _ _ su)) p wrt) as wr. split; auto.
  rewrite (wr_entry _ _ _ wr). apply (tf_entry _ _ _ _ (su_tb _ _ _ _ _ su)).
Qed.

Lemma parse_concrete : forall fuel w, lp_entry p = 0 -> lr_parse fuel p w = lr_run fuel p (concrete []) w.
Proof. intros fuel w E. unfold lr_parse. rewrite E. reflexivity. Qed.

Lemma accepts_tree : forall fuel w ev rest, lr_parse fuel p w = (ev, Ok rest) ->
  exists tr, parse_tree g tr /\ ev = post_order tr /\ w = iyield tr ++ rest.
Proof.
  intros fuel w ev rest H. destruct setup_ex as (fs & pg & su & wr & E). rewrite parse_concrete in H by auto.
  destruct (run_sound g wf _ (kind_n_le k) fs _ pg (su_au _ _ _ _ _ su) tb (su_tb _ _ _ _ _ su) p wr fuel [] w ev rest (va_nil _ _) H) as (tr & A & B & C).
  exists tr. auto.
Qed.

Lemma never_panics : forall fuel w, snd (lr_parse fuel p w) <> Panic.
Proof.
  intros fuel w. destruct setup_ex as (fs & pg & su & wr & E). rewrite parse_concrete by auto.
  apply (run_no_panic g wf _ (kind_n_le k) fs _ pg (su_au _ _ _ _ _ su) tb (su_tb _ _ _ _ _ su) p wr). constructor.
Qed.

Section Complete.
Hypothesis eps : epsilon_in_front g.
Hypothesis ne : no_empty_rhs g.

Lemma complete_cases : forall tr, parse_tree g tr ->
  (forall fuel, length (post_order tr) < fuel -> lr_parse fuel p (iyield tr) = (post_order tr, Ok [])) \/
  entry_left_recursive g /\ exists ev rest, forall fuel, length ev < fuel -> lr_parse fuel p (iyield tr) = (ev, Ok rest).
Proof.
  intros tr H. destruct setup_ex as (fs & pg & su & wr & E). pose proof (su_au _ _ _ _ _ su) as au. pose proof (su_first _ _ _ _ _ su) as fc.
  destruct (complete_tree g wf _ (kind_n_le k) fs fc _ pg au eps (fun _ => ne) tr H) as [A|(R & ev & tr' & w' & A)].
  - left. intros fuel Hf. rewrite parse_concrete by auto.
    apply (driver_accepts g wf _ (kind_n_le k) fs fc _ pg au tb (su_tb _ _ _ _ _ su) p wr [] _ _ tr [] fuel (va_nil _ _) A Hf).
  - right. split; [apply (entry_rec_left g wf _ (kind_n_le k) fs fc _ pg au); auto|]. exists ev, w'. intros fuel Hf. rewrite parse_concrete by auto.
    apply (driver_accepts g wf _ (kind_n_le k) fs fc _ pg au tb (su_tb _ _ _ _ _ su) p wr [] _ _ tr' w' fuel (va_nil _ _) A Hf).
Qed.

Lemma complete_accepts : forall w, derives (g_rules g) [g_entry g] w -> exists ev rest, forall fuel, length ev < fuel -> lr_parse fuel p w = (ev, Ok rest).
Proof.
  intros w H. apply (parse_tree_derives g w wf) in H. destruct H as (tr & H & <-).
  destruct (complete_cases tr H) as [A|(_ & ev & rest & A)]; eauto.
Qed.

Lemma complete_whole : ~ entry_left_recursive g -> forall tr, parse_tree g tr ->
  forall fuel, length (post_order tr) < fuel -> lr_parse fuel p (iyield tr) = (post_order tr, Ok []).
Proof. intros nl tr H. destruct (complete_cases tr H) as [A|[A _]]; [auto|contradiction]. Qed.

Lemma conflict_free_unambiguous : ~ entry_left_recursive g -> unambiguous g.
Proof.
  intros nl tr tr' H H' E. destruct setup_ex as (fs & pg & su & wr & _). pose proof (su_au _ _ _ _ _ su) as au. pose proof (su_first _ _ _ _ _ su) as fc.
  assert (~ entry_rec g pg) as nr by (intros X; apply nl; apply (entry_rec_left g wf _ (kind_n_le k) fs fc _ pg au); auto).
  destruct (complete_tree g wf _ (kind_n_le k) fs fc _ pg au eps (fun _ => ne) tr H) as [A|[A _]]; [|contradiction].
  destruct (complete_tree g wf _ (kind_n_le k) fs fc _ pg au eps (fun _ => ne) tr' H') as [A'|[A' _]]; [|contradiction].
  rewrite <- E in A'. apply (maccept_det g _ fs _ pg au (proj1 (no_conflict_iff g _ _ _ _ _ (kind_n_le k) au (su_cs _ _ _ _ _ su)) eq_refl) _ _ _ _ _ _ _ _ A A').
Qed.
End Complete.

Lemma lr1_whole : k = KindLR1 -> ~ entry_left_recursive g -> forall fuel w ev rest, lr_parse fuel p w = (ev, Ok rest) -> rest = [].
Proof.
  intros Ek nl fuel w ev rest H. destruct setup_ex as (fs & pg & su & wr & E). pose proof (su_au _ _ _ _ _ su) as au. pose proof (su_first _ _ _ _ _ su) as fc.
  rewrite parse_concrete in H by auto.
  destruct (driver_accept_inv g wf _ (kind_n_le k) fs _ pg au tb (su_tb _ _ _ _ _ su) p wr fuel [] w ev rest (va_nil _ _) H) as (tr & A).
  eapply (accept_end_lr1 g wf _ (kind_n_le k) fs fc _ pg au); eauto; try (subst k; reflexivity); [|constructor].
  intros X. apply nl. apply (entry_rec_left g wf _ (kind_n_le k) fs fc _ pg au); auto.
Qed.

Lemma fresh_whole : k <> KindLR0 -> entry_fresh g -> forall fuel w ev rest, lr_parse fuel p w = (ev, Ok rest) -> rest = [].
Proof.
  intros Ek nl fuel w ev rest H. destruct setup_ex as (fs & pg & su & wr & E). pose proof (su_au _ _ _ _ _ su) as au. pose proof (su_first _ _ _ _ _ su) as fc.
  rewrite parse_concrete in H by auto.
  destruct (driver_accept_inv g wf _ (kind_n_le k) fs _ pg au tb (su_tb _ _ _ _ _ su) p wr fuel [] w ev rest (va_nil _ _) H) as (tr & A).
  eapply (accept_end_fresh g wf _ (kind_n_le k) fs fc _ pg au); eauto; [destruct k; [contradiction|reflexivity|reflexivity]|constructor].
Qed.

(** The accepted language. *)
Lemma accepted_language : (k = KindLR1 /\ ~ entry_left_recursive g) \/ (k <> KindLR0 /\ entry_fresh g /\ ~ entry_left_recursive g) -> epsilon_in_front g -> no_empty_rhs g ->
  forall w, (exists fuel ev rest, lr_parse fuel p w = (ev, Ok rest)) <-> derives (g_rules g) [g_entry g] w.
Proof.
  intros Hk eps ne w. split.
  - intros (fuel & ev & rest & H). assert (rest = []) as -> by (destruct Hk as [[A B]|(A & B & _)]; [eapply lr1_whole; eauto|eapply fresh_whole; eauto]).
    destruct (accepts_tree _ _ _ _ H) as (tr & A & _ & ->). rewrite app_nil_r. apply parse_tree_derives; eauto.
  - intros H. destruct (complete_accepts eps ne w H) as (ev & rest & A). exists (Datatypes.S (length ev)), ev, rest. apply A. auto.
Qed.

(** ** Errors *)

Lemma token_symbol_column : forall t, token_symbol t = column t.
Proof. intros []; reflexivity. Qed.

Lemma token_columns_is : forall t, In (column t) (token_columns g) <-> is_token g t.
Proof.
  intros t. unfold token_columns, is_token. rewrite in_app_iff. split.
  - intros [H|[H|[]]]; [right|left; destruct t; auto; discriminate]. destruct t as [i|]; [eauto|]. destruct (wf_ts g wf _ H) as [j X]. discriminate.
  - intros [->|(i & -> & H)]; auto. right. left. auto.
Qed.

Lemma expected_in : forall q t, (forall s, In s (token_columns g) -> length (entries tb q s) <= 1) ->
  (In t (expected_of g tb q) <-> is_token g t /\ exists e, In e (entries tb q (column t)) /\ acts e).
Proof.
  intros q t Hs. unfold expected_of. rewrite in_flat_map. split.
  - intros (s & Hc & Hx). pose proof (Hs s Hc) as L. change (entries tb q s) with (cell tb q s) in L. destruct (cell tb q s) as [|e [|]] eqn:E; [destruct Hx| |destruct Hx].
    assert (column t = s /\ acts e) as [<- Ha].
    { destruct e; simpl in Hx; try (destruct Hx; fail); (destruct (column_token s) as [t'|] eqn:Et; [|destruct Hx]; destruct Hx as [->|[]]; apply column_token_inv in Et; rewrite token_symbol_column in Et; simpl; auto). }
    split; [apply token_columns_is; auto|]. exists e. split; auto. change (entries tb q (column t)) with (cell tb q (column t)). rewrite E. left; auto.
  - intros (Ht & e & He & Ha). apply token_columns_is in Ht. exists (column t). split; auto. pose proof (Hs _ Ht) as L. change (entries tb q (column t)) with (cell tb q (column t)) in *.
    destruct (cell tb q (column t)) as [|e' [|]]; [destruct He| |simpl in L; lia]. destruct He as [->|[]].
    rewrite <- token_symbol_column. destruct e; simpl in Ha; try contradiction; simpl; rewrite column_token_symbol; left; auto.
Qed.

Lemma token_columns_nodup : NoDup (token_columns g).
Proof.
  apply NoDup_app_intro.
  - pose proof (wf_symbols g wf) as X. unfold all_symbols in X. clear - X. induction (terminals g) as [|s l IH]; [constructor|]. inversion X; subst. constructor; auto.
    intros Y. apply H1, in_or_app. auto.
  - constructor; [intros []|constructor].
  - intros s H [<-|[]]. destruct (wf_ts g wf _ H) as [j Y]. discriminate.
Qed.

Lemma expected_nodup : forall q, NoDup (expected_of g tb q).
Proof.
  intros q. unfold expected_of. pose proof token_columns_nodup as Hnd. induction (token_columns g) as [|s l IH]; simpl; [constructor|]. inversion Hnd as [|? ? X Y]; subst.
  apply NoDup_app_intro; auto.
  - destruct (cell tb q s) as [|e [|]]; try constructor. destruct e; simpl; try constructor; destruct (column_token s); constructor; simpl; auto; constructor.
  - intros t H1 H2. apply in_flat_map in H2. destruct H2 as (s' & Hs' & H2).
    assert (forall s t, In t match cell tb q s with [e] => expected_symbols s e | _ => [] end -> s = column t) as HX.
    { clear. intros s t H. destruct (cell tb q s) as [|e [|]]; try destruct H. rewrite <- token_symbol_column.
      destruct e; simpl in H; try (destruct H; fail); (destruct (column_token s) as [t'|] eqn:Et; [|destruct H]; destruct H as [->|[]]; apply column_token_inv; auto). }
    apply HX in H1. apply HX in H2. congruence.
Qed.

Lemma run_error_reach : forall fs pg, setup k g tb fs pg -> written g tb p -> forall fuel fr w ev e, valid g pg fr -> lr_run fuel p (concrete fr) w = (ev, Err e) ->
  exists fr' w', valid g pg fr' /\ iyields (trees fr) ++ w = iyields (trees fr') ++ w' /\
    (forall fuel', lr_run (length ev + fuel') p (concrete fr) w = (ev ++ fst (lr_run fuel' p (concrete fr') w'), snd (lr_run fuel' p (concrete fr') w'))) /\
    e = UnexpectedTok (peek w') (expected_of g tb (top fr')) /\
    (In (token_symbol (peek w')) (token_columns g) -> cell_action (cell tb (top fr') (token_symbol (peek w'))) = None).
Proof.
  intros fs pg su wr. pose proof (su_au _ _ _ _ _ su) as au. pose proof (su_tb _ _ _ _ _ su) as tf.
  induction fuel as [|fuel IH]; intros fr w ev e Hv H; [discriminate|].
  destruct (driver_cases g wf _ (kind_n_le k) fs _ pg au tb tf p wr fr w Hv) as [(ev1 & o & w1 & Hm)|[He Hc]].
  - pose proof (driver_step g wf _ (kind_n_le k) fs _ pg au tb tf p wr fr w ev1 o w1 Hv Hm) as Hd. rewrite Hd in H. destruct o as [fr'|tr].
    + destruct (lr_run fuel p (concrete fr') w1) as [ev2 r2] eqn:E2. injection H as <- ->. destruct (mstep_valid _ _ _ _ _ _ _ _ _ Hv Hm) as (V1 & V2 & V3).
      destruct (IH fr' w1 ev2 e V1 E2) as (fr2 & w2 & A & B & C & D & F). exists fr2, w2. split; auto. split; [congruence|]. split; auto.
      intros fuel'. rewrite app_length, (mstep_events _ _ _ _ _ _ _ _ _ Hm). cbn [plus]. rewrite Hd, C. rewrite app_assoc. reflexivity.
    + rewrite lr_run_nil in H. destruct fuel; discriminate.
  - rewrite He in H. injection H as <- <-. exists fr, w. split; auto. split; auto. split; auto. intros fuel'. simpl. destruct (lr_run fuel' p (concrete fr) w); auto.
Qed.

Lemma error_report : forall fuel w ev e, lr_parse fuel p w = (ev, Err e) ->
  exists stack q shifted rest expected, reaches p w ev (KState q :: stack) rest /\ q < tb_states tb /\ w = shifted ++ rest /\ e = UnexpectedTok (hd_error rest) expected /\
    ~ (is_token g (hd_error rest) /\ exists x, In x (entries tb q (column (hd_error rest))) /\ acts x) /\
    NoDup expected /\ forall t, In t expected <-> is_token g t /\ exists x, In x (entries tb q (column t)) /\ acts x.
Proof.
  intros fuel w ev e H. destruct setup_ex as (fs & pg & su & wr & E). pose proof (su_au _ _ _ _ _ su) as au. pose proof (su_tb _ _ _ _ _ su) as tf. rewrite parse_concrete in H by auto.
  destruct (run_error_reach fs pg su wr fuel [] w ev e (va_nil _ _) H) as (fr & rest & A & B & C & D & F).
  destruct (concrete_top fr) as [l El]. destruct (valid_state g _ fs _ pg au fr A) as [S HS].
  assert (top fr < tb_states tb) as Hq by (rewrite (tf_states _ _ _ _ tf); eapply st_lt; eauto).
  assert (forall s, In s (token_columns g) -> length (entries tb (top fr) s) <= 1) as Hs.
  { intros s Hs. apply (wr_single _ _ _ wr (top fr) s Hq). apply in_or_app. auto. }
  exists l, (top fr), (iyields (trees fr)), rest, (expected_of g tb (top fr)). split; [intros fuel'; rewrite E, <- El; apply C|]. split; auto. split; auto. split; auto.
  split; [|split; [apply expected_nodup|intros t; apply expected_in; auto]].
  intros (Ht & x & Hx & Ha). apply token_columns_is in Ht. specialize (Hs _ Ht). rewrite token_symbol_column in F. specialize (F Ht).
  change (hd_error rest) with (peek rest) in *. change (entries tb (top fr) (column (peek rest))) with (cell tb (top fr) (column (peek rest))) in *.
  destruct (cell tb (top fr) (column (peek rest))) as [|y [|]] eqn:Ec; [destruct Hx| |simpl in Hs; lia]. destruct Hx as [->|[]].
  destruct x as [t|[j|]| |]; simpl in *; try contradiction; try discriminate.
  assert (In (Reduce None) (cell tb (top fr) (column (peek rest)))) as X by (rewrite Ec; left; auto).
  apply (cell_reduce g _ (kind_n_le k) fs _ pg au tb tf (top fr) S) in X; auto; [|apply goto_columns_in; apply in_or_app; left; exact Ht].
  destruct X as (it & (I1 & I2 & _) & I3). destruct (entry_rule_item g wf _ fs _ pg au _ _ _ HS I1 I3) as [_ ->]. rewrite (entry_item_next g wf) in I2. discriminate.
Qed.
End Run.

(** ** Conflicts *)

Section Gen.
Variables (k : table_kind) (m : nat) (g : grammar).
Hypothesis wf : wf_grammar g.
Let n := kind_n k.

Lemma no_entry_reduce_cell : forall fs pg tb q s, automaton g n fs (kind_lalr k) pg -> table_of g n pg tb -> q < tb_states tb -> In s (token_columns g) -> no_entry_reduce tb q s.
Proof.
  intros fs pg tb q s au tf Hq Hs Ec. rewrite (tf_states _ _ _ _ tf) in Hq. apply (gi_nodes _ _ _ _ _ (au_inv _ _ _ _ _ au)) in Hq. destruct Hq as [S HS].
  assert (In (Reduce None) (cell tb q s)) as X by (rewrite Ec; left; auto).
  assert (In s (columns g)) as Hc by (apply goto_columns_in; apply in_or_app; auto).
  apply (cell_reduce g _ (kind_n_le k) fs _ pg au tb tf q S s _ HS Hc) in X.
  destruct X as (it & (I1 & I2 & _) & I3). destruct (entry_rule_item g wf _ fs _ pg au _ _ _ HS I1 I3) as [_ ->]. rewrite (entry_item_next g wf) in I2. discriminate.
Qed.

Lemma conflict_free_cells : forall allow tb, generates k m g allow = Ok (NoConflicts tb) -> forall q s, q < tb_states tb ->
  ~ (k = KindLR0 /\ q = 0 /\ s = g_entry g) ->
  (In s (all_symbols g) -> length (entries tb q s) = 1) /\ length (entries tb q s) <= 1.
Proof.
  intros allow tb H q s Hq Hna. destruct (generates_setup _ _ _ _ _ wf H) as (fs & pg & [fc au cs tf]).
  rewrite (tf_states _ _ _ _ tf) in Hq. apply (gi_nodes _ _ _ _ _ (au_inv _ _ _ _ _ au)) in Hq. destruct Hq as [S HS].
  assert (~ accept_cell g (kind_n k) q s) as Hna' by (intros (X1 & X2 & X3); apply Hna; destruct k; try discriminate; auto).
  split; [intros Hs; apply (cell_one g wf _ (kind_n_le k) fs _ pg au tb tf cs q S s HS Hs Hna')|apply (cell_le g wf _ (kind_n_le k) fs _ pg au tb tf cs q S s HS Hna')].
Qed.

Lemma conflict_free_entry_cell : forall allow tb, k = KindLR0 -> generates k m g allow = Ok (NoConflicts tb) ->
  length (entries tb 0 (g_entry g)) = 2 /\ only_empty_entry g \/ length (entries tb 0 (g_entry g)) = 1 /\ ~ only_empty_entry g.
Proof.
  intros allow tb Ek H. destruct (generates_setup _ _ _ _ _ wf H) as (fs & pg & [fc au cs tf]).
  apply (accept_cell_length g wf _ (kind_n_le k) fs _ pg au tb tf cs). subst k. reflexivity.
Qed.

Lemma conflict_free_writes : forall allow tb, generates k m g allow = Ok (NoConflicts tb) -> (k = KindLR0 -> ~ only_empty_entry g) -> exists p, write_parser g tb = Ok p.
Proof.
  intros allow tb H Hk. destruct (generates_setup _ _ _ _ _ wf H) as (fs & pg & [fc au cs tf]).
  apply write_parser_total; auto; [apply (tf_ok _ _ _ _ tf)| |intros q s Hq Hs; eapply no_entry_reduce_cell; eauto].
  intros q s Hq _. unfold single. destruct (Nat.eq_dec q 0) as [->|Eq]; [destruct (cmp_dec s (g_entry g)) as [->|Es]|].
  - destruct k eqn:Ek.
    + destruct (conflict_free_entry_cell allow tb) as [[_ X]|[X _]]; auto; [rewrite Ek; auto|destruct (Hk eq_refl X)|].
      change (entries tb 0 (g_entry g)) with (cell tb 0 (g_entry g)) in X. lia.
    + apply (conflict_free_cells allow tb); auto; [rewrite Ek; auto|]. rewrite Ek. intros [X _]. discriminate.
    + apply (conflict_free_cells allow tb); auto; [rewrite Ek; auto|]. rewrite Ek. intros [X _]. discriminate.
  - apply (conflict_free_cells allow tb); auto. tauto.
  - apply (conflict_free_cells allow tb); auto. tauto.
Qed.

Lemma conflict_free_writes_not : forall allow tb, k = KindLR0 -> only_empty_entry g -> generates k m g allow = Ok (NoConflicts tb) -> forall p, write_parser g tb <> Ok p.
Proof.
  intros allow tb Ek Ho H p Hp. destruct (conflict_free_entry_cell allow tb Ek H) as [[X _]|[_ X]]; [|contradiction].
  destruct (generates_setup _ _ _ _ _ wf H) as (fs & pg & [fc au cs tf]).
  pose proof (write_parser_spec g wf tb (tf_ok _ _ _ _ tf) p Hp) as wr.
  assert (0 < tb_states tb) as Hq.
  { rewrite (tf_states _ _ _ _ tf). destruct (gi_entry _ _ _ _ _ (au_inv _ _ _ _ _ au)) as (S & HS & _). eapply st_lt; eauto. }
  pose proof (wr_single _ _ _ wr 0 (g_entry g) Hq) as Y. unfold single in Y. change (entries tb 0 (g_entry g)) with (cell tb 0 (g_entry g)) in X.
  rewrite X in Y. assert (2 <= 1) by (apply Y; apply goto_columns_in; apply in_or_app; left; apply entry_symbol_in; auto). lia.
Qed.

Lemma no_eps_edge : forall fs pg q t, automaton g n fs (kind_lalr k) pg -> epsilon_in_front g -> ~ edge pg q Epsilon t.
Proof.
  intros fs pg q t au eps He. destruct (gi_edge _ _ _ _ _ (au_inv _ _ _ _ _ au) _ _ _ He) as (S & T & HS & HT & _ & (it & H1 & H2 & H3) & _).
  destruct (it_rule it) as [j|] eqn:Ej.
  - pose proof (item_dot_ge g n fs _ pg au q S it j HS H1 Ej) as Hd. unfold symbol_after_dot, rhs_of in H2. rewrite Ej in H2. simpl in H2.
    destruct (nth_error (g_rules g) j) as [r|] eqn:Er; [|destruct (it_dot it); discriminate].
    destruct (eps r (nth_error_In _ _ Er)) as (a & al & E1 & E2). unfold start_dot, rhs_of in Hd. simpl in Hd. rewrite Er in Hd. rewrite E1 in Hd, H2.
    rewrite (lead_eps_spec a al E2) in Hd. rewrite nth_error_app2 in H2 by (rewrite repeat_length; auto). apply nth_error_In in H2. contradiction.
  - destruct (entry_rule_item g wf n fs _ pg au q S it HS H1 Ej) as [_ ->]. rewrite (entry_item_next g wf) in H2. destruct (entry_symbol g wf) as [i Ei]. congruence.
Qed.

Lemma conflict_complete : forall fs pg q S c it, automaton g n fs (kind_lalr k) pg -> st pg q = Some S -> conflict_of g n pg q S c -> In it (conflict_items c) ->
  it_la it = [] /\ symbol_after_dot g it = None.
Proof.
  intros fs pg q S c it au HS Hc Hi. destruct Hc as [x s t A B C D F|la x x' A B]; cbn [conflict_items] in Hi.
  - destruct Hi as [<-|[]]. split; auto.
  - rewrite <- A in Hi. apply in_map_iff in Hi. destruct Hi as (y & <- & Hy). apply filter_In in Hy. destruct Hy as [_ Hy]. apply reducing_on_true in Hy. split; auto. apply Hy.
Qed.

Lemma allowed_inv : forall tb cs, generates k m g true = Ok (AllowedConflicts tb cs) ->
  exists fs pg, automaton g n fs (kind_lalr k) pg /\ conflicts_of g n pg cs /\ table_of g n pg tb /\ cs <> [].
Proof.
  intros tb cs H. destruct (generate_inv g wf m (kind_n k) true (kind_lalr k) _ (kind_n_le k) H) as (fs & pg & cs' & A & B & C & D).
  inversion D; subst. exists fs, pg. auto.
Qed.

Lemma allowed_exact : forall tb cs, generates k m g true = Ok (AllowedConflicts tb cs) ->
  cs <> [] /\ NoDup cs /\
  (forall q s, ~ (k = KindLR0 /\ q = 0 /\ s = g_entry g) -> q < tb_states tb -> (2 <= length (entries tb q s) <-> exists c, In c cs /\ concerns tb q s c)) /\
  (forall c it, In c cs -> In it (conflict_items c) -> it_la it = [] /\ symbol_after_dot g it = None) /\
  ((k = KindLR0 -> epsilon_in_front g) -> (forall c, In c cs -> exists q s, q < tb_states tb /\ In s (all_symbols g ++ [End]) /\ concerns tb q s c) /\ forall p, write_parser g tb <> Ok p).
Proof.
  intros tb cs H. destruct (allowed_inv tb cs H) as (fs & pg & au & [Hs Hcs] & tf & Hne). split; auto. split; [apply sorted_NoDup; auto|]. split; [|split].
  - intros q s Hna Hq. rewrite (tf_states _ _ _ _ tf) in Hq. apply (gi_nodes _ _ _ _ _ (au_inv _ _ _ _ _ au)) in Hq. destruct Hq as [S HS]. split.
    + intros Hl. destruct (several_conflict g wf n (kind_n_le k) fs _ pg au tb tf q S s HS) as (c & A & B); auto.
      * intros (X1 & X2 & X3). apply Hna. unfold n in X1. destruct k; try discriminate; auto.
      * exists c. split; auto. apply Hcs. eauto.
    + intros (c & _ & Hc). apply (concerns_several n (kind_n_le k) pg tb q S s c HS Hc).
  - intros c it Hc Hi. apply Hcs in Hc. destruct Hc as (q & S & HS & Hc). eapply conflict_complete; eauto.
  - intros eps. assert (forall c, In c cs -> exists q s, q < tb_states tb /\ In s (columns g) /\ concerns tb q s c) as HC.
    { intros c Hc. apply Hcs in Hc. destruct Hc as (q & S & HS & Hc). destruct (conflict_cell g wf n (kind_n_le k) fs _ pg au tb tf q S c HS) as (s & A & B); auto.
      - intros E t. eapply no_eps_edge; eauto. apply eps. unfold n in E. destruct k; try discriminate; auto.
      - exists q, s. split; [rewrite (tf_states _ _ _ _ tf); eapply st_lt; eauto|]. auto. }
    split; auto. intros p Hp. destruct cs as [|c cs]; [congruence|]. destruct (HC c (or_introl eq_refl)) as (q & s & A & B & C).
    pose proof (write_parser_spec g wf tb (tf_ok _ _ _ _ tf) p Hp) as wr. pose proof (wr_single _ _ _ wr q s A (proj2 (goto_columns_in g s) B)) as Y. unfold single in Y.
    pose proof A as A'. rewrite (tf_states _ _ _ _ tf) in A'. apply (gi_nodes _ _ _ _ _ (au_inv _ _ _ _ _ au)) in A'. destruct A' as [S HS].
    pose proof (concerns_several n (kind_n_le k) pg tb q S s c HS C). lia.
Qed.

(** Whether conflicts are allowed changes the verdict only. *)
Lemma allow_irrelevant :
  (forall tb, generates k m g false = Ok (NoConflicts tb) <-> generates k m g true = Ok (NoConflicts tb)) /\
  (forall cs, generates k m g false = Ok (BadConflicts cs) <-> exists tb, generates k m g true = Ok (AllowedConflicts tb cs)) /\
  (forall tb cs, generates k m g false <> Ok (AllowedConflicts tb cs)) /\ (forall cs, generates k m g true <> Ok (BadConflicts cs)).
Proof.
  assert (forall r, generates k m g false = Ok r -> (exists tb, r = NoConflicts tb /\ generates k m g true = Ok (NoConflicts tb)) \/ exists cs tb, r = BadConflicts cs /\ generates k m g true = Ok (AllowedConflicts tb cs)) as H1.
  { intros r H. unfold generates, generate_table in *. inv_bind H. rewrite Hb. cbn [bind]. inv_bind H. destruct a0 as [e pg]. rewrite Hb0. cbn [bind]. inv_bind H. rename a0 into cs. rewrite Hb1. cbn [bind].
    destruct cs as [|c cs]; cbn [negb andb] in *.
    - inv_bind H. injection H as <-. left. exists a0. rewrite Hb2. cbn [bind]. auto.
    - injection H as <-. right. 
      assert (n = 1 -> first_sets_correct g a) as Hfs.
      { intros E. unfold n in E. rewrite E in Hb. cbn [Nat.ltb Nat.leb] in Hb. eapply compute_first_correct; eauto. }
      destruct (graph_automaton g wf _ a (kind_n_le k) (fun E => fc_ok g a (Hfs E)) _ _ e pg Hb0) as [-> au].
      destruct (build_table_of g wf _ (kind_n_le k) a _ pg au) as (tb & Et & _). rewrite Et. cbn [bind]. eauto. }
  assert (forall r, generates k m g true = Ok r -> (exists tb, r = NoConflicts tb /\ generates k m g false = Ok (NoConflicts tb)) \/ exists cs tb, r = AllowedConflicts tb cs /\ generates k m g false = Ok (BadConflicts cs)) as H2.
  { intros r H. unfold generates, generate_table in *. inv_bind H. rewrite Hb. cbn [bind]. inv_bind H. destruct a0 as [e pg]. rewrite Hb0. cbn [bind]. inv_bind H. rename a0 into cs. rewrite Hb1. cbn [bind].
    cbn [negb andb] in H. inv_bind H. destruct cs as [|c cs]; injection H as <-; cbn [negb andb].
    - left. rewrite Hb2. cbn [bind]. eauto.
    - right. eauto. }
  split; [|split; [|split]].
  - intros tb. split; intros H; [destruct (H1 _ H) as [(t & A & B)|(cs & t & A & B)]|destruct (H2 _ H) as [(t & A & B)|(cs & t & A & B)]]; congruence.
  - intros cs. split; [intros H; destruct (H1 _ H) as [(t & A & B)|(cs' & t & A & B)]; [discriminate|exists t; congruence]|intros [tb H]; destruct (H2 _ H) as [(t & A & B)|(cs' & t & A & B)]; congruence].
  - intros tb cs H. destruct (H1 _ H) as [(t & A & B)|(cs' & t & A & B)]; discriminate.
  - intros cs H. destruct (H2 _ H) as [(t & A & B)|(cs' & t & A & B)]; discriminate.
Qed.

(** ** Termination *)

Lemma generation_total : epsilon_in_front g -> rhs_fit g -> exists fuel, forall fuel' allow, fuel <= fuel' -> exists r, generates k fuel' g allow = Ok r.
Proof.
  intros eps fit. exists (generation_fuel g n). intros fuel' allow Hf. destruct (generate_cases g wf fuel' n allow (kind_lalr k) (kind_n_le k) eps fit) as [H|H]; auto.
  destruct (generate_fuel g wf fuel' n allow (kind_lalr k) (kind_n_le k) Hf H).
Qed.

Lemma generation_terminates : exists fuel, forall fuel' allow, fuel <= fuel' -> generates k fuel' g allow <> OutOfFuel.
Proof. exists (generation_fuel g n). intros fuel' allow Hf. apply (generate_fuel g wf); auto. apply kind_n_le. Qed.
End Gen.

(** ** Histories of the two-way map *)

Section History.
Context {E A B : Type} `{CA : Cmp A} `{CB : Cmp B}.

Lemma history_ok : forall h live, history h live -> exists m, foldM (@bidi_apply E A B CA CB) h bidi_new = Ok m /\ bidi_ok m /\ forall a b, map_get a (bd_ab m) = Some b <-> In (a, b) live.
Proof.
  intros h live H. induction H as [|h live a b H (m & IH1 & IH2 & IH3) Ha Hb|h live b H (m & IH1 & IH2 & IH3)].
  - exists bidi_new. split; auto. split; [apply bidi_new_ok|]. intros a b. split; [discriminate|intros []].
  - assert (map_get a (bd_ab m) = None) as Xa.
    { destruct (map_get a (bd_ab m)) as [b'|] eqn:X; auto. apply IH3 in X. destruct Ha. apply in_map_iff. exists (a, b'). auto. }
    assert (map_get b (bd_ba m) = None) as Xb.
    { destruct (map_get b (bd_ba m)) as [a'|] eqn:X; auto. apply (bo_inv _ IH2) in X. apply IH3 in X. destruct Hb. apply in_map_iff. exists (a', b). auto. }
    exists (bidi_insert a b m). split; [rewrite foldM_app, IH1; reflexivity|]. split; [apply bidi_insert_ok; auto|].
    intros a' b'. unfold bidi_insert. cbn [bd_ab]. rewrite map_get_insert by apply (bo_ab _ IH2). destruct (cmp_dec a' a) as [->|Hne]; simpl.
    + split; [intros [= ->]; auto|intros [[= ->]|X]; auto]. destruct Ha. apply in_map_iff. exists (a, b'). auto.
    + rewrite IH3. split; auto. intros [X|X]; auto. injection X as <- <-. congruence.
  - pose proof (bidi_remove_spec E b m IH2) as X. destruct (map_get b (bd_ba m)) as [a|] eqn:Eb.
    + destruct X as (m' & X1 & X2 & X3 & X4). exists m'. split; [rewrite foldM_app, IH1; cbn [bind foldM bidi_apply]; rewrite X1; reflexivity|]. split; auto.
      intros a' b'. rewrite X3, filter_In, negb_true_iff. cbn [snd]. apply (bo_inv _ IH2) in Eb. destruct (cmp_dec a' a) as [->|Hne].
      * split; [discriminate|]. intros [Y Z]. apply IH3 in Y. assert (b' = b) as -> by congruence. rewrite eqc_refl in Z. discriminate.
      * rewrite IH3. split; [intros Y|tauto]. split; auto. apply eqc_false. intros ->. apply IH3 in Y. apply (bo_inv _ IH2) in Y. apply (bo_inv _ IH2) in Eb. congruence.
    + exists m. split; [rewrite foldM_app, IH1; cbn [bind foldM bidi_apply]; rewrite X; reflexivity|]. split; auto.
      intros a' b'. rewrite IH3, filter_In, negb_true_iff. cbn [snd]. split; [intros Y|tauto]. split; auto. apply eqc_false. intros ->. apply IH3 in Y. apply (bo_inv _ IH2) in Y. congruence.
Qed.

Lemma history_map : forall h live, history h live -> exists m, foldM (@bidi_apply E A B CA CB) h bidi_new = Ok m /\
  (forall a b, bidi_get_a_to_b a m = Some b <-> In (a, b) live) /\ (forall a b, bidi_get_b_to_a b m = Some a <-> In (a, b) live) /\
  NoDup (bidi_iter m) /\ (forall a b, In (a, b) (bidi_iter m) <-> In (a, b) live) /\
  forall b, exists o m', @bidi_remove_by_b E A B CA CB b m = Ok (o, m') /\ forall a b', o = Some (a, b') <-> b' = b /\ In (a, b) live.
Proof.
  intros h live H. destruct (history_ok h live H) as (m & M1 & M2 & M3). exists m. split; auto. split; auto.
  assert (forall a b, bidi_get_b_to_a b m = Some a <-> In (a, b) live) as M4 by (intros a b; rewrite <- M3; symmetry; apply (bo_inv _ M2)).
  split; auto. split; [|split].
  - pose proof (iter_nodup _ _ _ _ m M2) as X. clear - X. induction (bidi_iter m) as [|p l IH]; [constructor|]. inversion X; subst. constructor; auto. intros Y. apply H1, in_map. auto.
  - intros a b. rewrite bidi_iter_In by auto. auto.
  - intros b. pose proof (bidi_remove_spec E b m M2) as X. destruct (map_get b (bd_ba m)) as [a|] eqn:Eb.
    + destruct X as (m' & X1 & _). exists (Some (a, b)), m'. split; auto. intros a' b'. apply M4 in Eb. split.
      * intros [= <- <-]. auto.
      * intros [-> Y]. apply M4 in Y. apply M4 in Eb. congruence.
    + exists None, m. split; auto. intros a b'. split; [discriminate|]. intros [_ Y]. apply M4 in Y. unfold bidi_get_b_to_a in Y. congruence.
Qed.
End History.
