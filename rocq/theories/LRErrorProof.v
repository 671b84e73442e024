(** Errors of LR parsers: what is on the stack is the beginning of a sentence. *)
From Coq Require Import String List Arith NArith Bool Lia Relations.
From Verif Require Import Base InputModel GrammarModel GrammarSpec GrammarProof GrammarBuildProof LLModel LLSpec SententialProof SetsProof FirstProof LRModel LRSpec BidiProof ItemProof LRItemsProof LRGraphProof
  AutomatonProof LRTableProof LRWriteProof LRGenProof LRConflictProof LRRunProof LRCompleteProof LRFactsProof GLRProof GLRFactsProof LRTermSpec LRTermProof LRTermFactsProof.
Import ListNotations.
Local Open Scope nat_scope.
Local Open Scope list_scope.

Lemma skipn_plus : forall A (l : list A) a b, skipn (a + b) l = skipn b (skipn a l).
Proof. intros A l a. revert l. induction a as [|a IH]; intros l b; [reflexivity|]. destruct l as [|x l]; [destruct b; reflexivity|]. apply IH. Qed.

Section Viable.
Variable g : grammar.
Hypothesis wf : wf_grammar g.
Variable n : nat.
Hypothesis n_le : n <= 1.
Variable fs : symbol_sets.
Hypothesis fs_ok : n = 1 -> first_sets_correct g fs.
Variable lalr : bool.
Variable pg : lr_graph.
Hypothesis au : automaton g n fs lalr pg.
Let gi := au_inv g n fs lalr pg au.
Let R := g_rules g.
Notation valid := (valid g pg).
Notation st := (LRGraphProof.st pg).
Hypothesis pr : all_productive g.

(** [i] may come next on the stack, and in front of [la] if the lookahead is exact. *)
Definition awaits (fr : list frame) (i : N) (la : list symbol) : Prop :=
  reachable g i /\ forall w1, derives R [NonTerminal i] w1 -> exists v, derives R [g_entry g] (iyields (trees fr) ++ w1 ++ v) /\ (n = 1 -> lalr = false -> la = [token_symbol (hd_error v)]).

Definition item_at (fr : list frame) (x : item) : Prop :=
  match it_rule x with
  | None => fr = [] /\ it_dot x = 0 /\ (n = 1 -> lalr = false -> it_la x = [End])
  | Some k => exists r i fr1 fr2, nth_error R k = Some r /\ r_lhs r = Some i /\ fr = fr1 ++ fr2 /\ it_dot x = start_dot g k + length fr1 /\
      syms fr1 = firstn (length fr1) (skipn (start_dot g k) (r_rhs r)) /\ awaits fr2 i (it_la x)
  end.

Lemma words_exist : forall al, (forall s, In s al -> known g s) -> (forall j, In (NonTerminal j) al -> reachable g j) -> exists w, derives R al w.
Proof. intros al H1 H2. destruct (trees_exist g pr al H1 H2) as [ts Hts]. exists (iyields ts). apply iparses_derives. auto. Qed.

Lemma first_words : forall al x, firstT R al x -> (forall s, In s al -> known g s) -> (forall j, In (NonTerminal j) al -> reachable g j) -> exists t w, x = Terminal t /\ derives R al (t :: w).
Proof.
  intros al x H. induction H as [x al Hx|x al H IH|r i al x Hr Hl H IH|i al x Hn H IH]; intros Hk Hj.
  - destruct Hx as [->|[t ->]]; [destruct (Hk End (or_introl eq_refl))|]. destruct (words_exist al) as [w Hw]; [intros; apply Hk; right; auto|intros; apply Hj; right; auto|]. exists t, w. split; auto. constructor. auto.
  - destruct IH as (t & w & A & B); [intros; apply Hk; right; auto|intros; apply Hj; right; auto|]. exists t, w. split; auto. constructor; auto.
  - destruct IH as (t & w & A & B). { intros s Hs. eapply (wf_rhs g wf); eauto. } { intros j Hs. apply (reachable_step g i r j); auto. apply Hj. left; auto. }
    destruct (words_exist al) as [w' Hw]; [intros; apply Hk; right; auto|intros; apply Hj; right; auto|]. exists t, (w ++ w'). split; auto. change (t :: w ++ w') with ((t :: w) ++ w'). eapply d_nt; eauto.
  - destruct IH as (t & w & A & B); [intros; apply Hk; right; auto|intros; apply Hj; right; auto|]. exists t, w. split; auto. change (NonTerminal i :: al) with ([NonTerminal i] ++ al). change (t :: w) with ([] ++ t :: w). apply derives_app; auto.
Qed.

Lemma valid_derives : forall fr1 fr2, valid (fr1 ++ fr2) -> derives R (syms fr1) (iyields (trees fr1)).
Proof.
  induction fr1 as [|f fr1 IH]; intros fr2 Hv; [constructor|]. cbn [app] in Hv. inversion Hv as [|? ? Hv' He Ht]; subst. rewrite syms_cons, trees_cons, iyields_app.
  apply derives_app; [apply (IH fr2); auto|]. apply iparses_derives. auto.
Qed.

Lemma item_rhs : forall fr x k r fr1 fr2, valid fr -> it_rule x = Some k -> nth_error R k = Some r -> fr = fr1 ++ fr2 -> it_dot x = start_dot g k + length fr1 ->
  syms fr1 = firstn (length fr1) (skipn (start_dot g k) (r_rhs r)) -> r_rhs r = (repeat Epsilon (start_dot g k) ++ syms fr1) ++ skipn (it_dot x) (r_rhs r).
Proof.
  intros fr x k r fr1 fr2 Hv Hk Hr E Hd Hs. assert (rhs_of g (Some k) = r_rhs r) as Erhs by (unfold rhs_of; cbn [item_rule]; fold R; rewrite Hr; auto).
  unfold start_dot in *. rewrite Erhs in *. rewrite Hs. rewrite (lead_split (r_rhs r)) at 1. rewrite <- app_assoc. f_equal. rewrite Hd.
  rewrite skipn_plus. rewrite firstn_skipn. auto.
Qed.

Lemma awaits_next : forall fr x i la las, valid fr -> item_ok g n x -> item_at fr x -> symbol_after_dot g x = Some (NonTerminal i) -> determine_lookaheads g n fs x = Ok las -> In la las -> awaits fr i la.
Proof.
  intros fr x i la las Hv Ho Hx Hs Hl Hin. unfold item_at in Hx. unfold symbol_after_dot in Hs. destruct (it_rule x) as [k|] eqn:Ek.
  - destruct Hx as (r & c & fr1 & fr2 & Hr & Hc & E & Hd & Hsy & (Hre & Hw)). assert (In r R) as HR by (eapply nth_error_In; eauto).
    pose proof (item_rhs fr x k r fr1 fr2 Hv Ek Hr E Hd Hsy) as Er.
    assert (rhs_of g (Some k) = r_rhs r) as Erhs by (unfold rhs_of; cbn [item_rule]; fold R; rewrite Hr; auto). rewrite Erhs in Hs.
    assert (skipn (it_dot x) (r_rhs r) = NonTerminal i :: skipn (S (it_dot x)) (r_rhs r)) as Esk.
    { revert Hs. generalize (it_dot x) (r_rhs r). clear. intros d l. revert d. induction l as [|a l IH]; intros [|d] H; try discriminate; cbn in *; [congruence|]. apply IH. auto. }
    set (be := skipn (S (it_dot x)) (r_rhs r)) in *. rewrite Esk in Er.
    assert (forall s, In s be -> known g s) as Kb. { intros s Hb. apply (wf_rhs g wf r); auto. rewrite Er. apply in_or_app. right. right. auto. }
    assert (forall j, In (NonTerminal j) be -> reachable g j) as Rb. { intros j Hb. apply (reachable_step g c r j); auto. rewrite Er. apply in_or_app. right. right. auto. }
    assert (reachable g i) as Ri. { apply (reachable_step g c r i); auto. rewrite Er. apply in_or_app. right. left. auto. }
    split; auto. intros w1 H1.
    assert (forall wb, derives R be wb -> exists v, derives R [g_entry g] (iyields (trees fr) ++ w1 ++ wb ++ v) /\ (n = 1 -> lalr = false -> it_la x = [token_symbol (hd_error v)])) as HX.
    { intros wb Hb. destruct (Hw (iyields (trees fr1) ++ w1 ++ wb)) as (v & A & B).
      - rewrite <- (app_nil_r (iyields (trees fr1) ++ w1 ++ wb)). eapply d_nt; eauto; [|constructor]. fold R. rewrite Er. apply derives_app.
        + change (iyields (trees fr1)) with ([] ++ iyields (trees fr1)). apply derives_app; [apply repeat_null|]. subst fr. apply (valid_derives fr1 fr2). auto.
        + change (NonTerminal i :: be) with ([NonTerminal i] ++ be). apply derives_app; auto.
      - exists v. split; auto. rewrite E, trees_app, iyields_app. rewrite <- !app_assoc in A. rewrite <- !app_assoc. exact A. }
    destruct (Nat.eq_dec n 1) as [En|En].
    + pose proof (fs_ok En) as F. apply (lookaheads_spec g wf n fs n_le (fun E => fc_ok g fs (fs_ok E)) x las Ho Hl) in Hin. destruct Hin as [[Z _]|(_ & y & z & L1 & -> & _ & Hz)]; [lia|].
      assert (rest_of g x = be) as Eb. { unfold rest_of. rewrite Ek, Erhs. reflexivity. }
      rewrite Eb in Hz. destruct Hz as [[Hne Hz]|[Hz ->]].
      * apply (seqF_sound g fs be z (fc_sound _ _ F) Hne) in Hz. destruct (first_words be z Hz Kb Rb) as (t & w & -> & Hd'). destruct (HX _ Hd') as (v & A & B). exists ((t :: w) ++ v). split; auto.
      * apply (nullF_sound g fs be (fc_sound _ _ F)) in Hz. destruct (HX _ Hz) as (v & A & B). exists v. split; auto. intros _ El. rewrite <- B; auto.
    + destruct (words_exist be Kb Rb) as [wb Hb]. destruct (HX wb Hb) as (v & A & B). exists (wb ++ v). split; [exact A|]. intros; contradiction.
  - destruct Hx as (-> & Hd & Hla). rewrite Hd in Hs. assert (g_entry g = NonTerminal i) as Ei. { unfold rhs_of in Hs. cbn [item_rule] in Hs. rewrite (proj2 (wf_entry_rule g wf)) in Hs. cbn in Hs. congruence. }
    split; [exists i; split; auto; apply rt_refl|]. intros w1 H1. exists []. split; [rewrite app_nil_r, Ei; exact H1|]. intros En El.
    apply (lookaheads_spec g wf n fs n_le (fun E => fc_ok g fs (fs_ok E)) x las Ho Hl) in Hin. destruct Hin as [[Z _]|(_ & y & z & L1 & -> & _ & Hz)]; [lia|].
    assert (rest_of g x = []) as Eb. { unfold rest_of, rhs_of. rewrite Ek. cbn [item_rule]. rewrite (proj2 (wf_entry_rule g wf)), Hd. reflexivity. }
    rewrite Eb in Hz. rewrite Hla in L1 by auto. injection L1 as <-. destruct Hz as [[Hne Hz]|[Hz ->]]; [|reflexivity].
    apply (seqF_sound g fs [] z (fc_sound _ _ (fs_ok En)) Hne) in Hz. inversion Hz.
Qed.

Lemma at_expands : forall fr z x, valid fr -> item_ok g n z -> item_at fr z -> expands g n fs z x -> item_at fr x.
Proof.
  intros fr z x Hv Ho Hz [s k las la H1 H2 H3 H4]. apply rules_for_spec in H2. destruct H2 as (r & i & Hr & Hl & ->). unfold item_at. cbn [it_rule init_item it_dot it_la]. exists r, i, [], fr.
  repeat split; auto; try (cbn; lia); try (apply (awaits_next fr z i la las); auto).
Qed.

Lemma at_clo : forall fr y x, valid fr -> item_ok g n y -> item_at fr y -> clo g n fs y x -> item_at fr x.
Proof. intros fr y x Hv Ho Hy H. induction H as [|a b H IH He]; auto. apply (at_expands fr a b); auto. exact (clo_ok g wf n fs n_le (fun E => fc_ok g fs (fs_ok E)) y a Ho H). Qed.

Lemma at_core : forall fr x y, to_lr0 x = to_lr0 y -> (lalr = false -> x = y) -> item_at fr x -> item_at fr y.
Proof.
  intros fr x y E Hl H. destruct lalr eqn:El; [|rewrite <- (Hl eq_refl); auto]. apply to_lr0_fields in E. destruct E as [E1 E2]. unfold item_at in *. rewrite <- E1, <- E2. destruct (it_rule x) as [k|].
  - destruct H as (r & i & fr1 & fr2 & A & B & C & D & F & G & H). exists r, i, fr1, fr2. repeat split; auto. intros w1 H1. destruct (H w1 H1) as (v & P & _). exists v. split; auto. intros; congruence.
  - destruct H as (A & B & _). split; auto. split; auto. intros; congruence.
Qed.

Lemma items_at : forall fr, valid fr -> forall S x, st (top fr) = Some S -> In x S -> item_at fr x.
Proof.
  intros fr Hv. induction Hv as [|f fr Hv IH He Ht]; intros S x HS Hx.
  - cbn [top] in HS. destruct (gi_entry _ _ _ _ _ gi) as (S0 & H0 & E0). assert (S = S0) as -> by congruence. apply E0 in Hx. apply (at_clo [] (entry_item n)); auto; [constructor|apply entry_item_ok; auto|].
    split; auto. split; auto. intros En _. unfold entry_item. rewrite En. reflexivity.
  - cbn [top] in HS. assert (valid (f :: fr)) as Hv' by (constructor; auto). destruct (gi_edge _ _ _ _ _ gi _ _ _ He) as (P & T & HP & HT & HC & _ & HD). assert (T = S) as -> by congruence.
    assert (exists y, trans g n fs P (fr_sym f) y /\ to_lr0 y = to_lr0 x /\ (lalr = false -> y = x)) as (u & (it & (M1 & M2 & M3) & Hc) & Eu & Ex).
    { destruct lalr eqn:El.
      - destruct (proj1 (HC (to_lr0 x))) as (y & Hy & Ey); [exists x; auto|]. exists y. split; auto. split; auto. discriminate.
      - exists x. split; auto. apply HD; auto. }
    apply (at_core _ u x Eu Ex). pose proof (state_ok _ _ _ _ _ au _ _ _ HP M1) as Ho. apply (at_clo _ (adv it)); auto; [eapply adv_ok; eauto|].
    specialize (IH P it HP M1). unfold item_at in *. cbn [adv it_rule it_dot it_la]. destruct (it_rule it) as [k|] eqn:Ek; [|exfalso; apply M3; unfold lhs_of; cbn [item_rule]; apply (wf_entry_rule g wf)].
    destruct IH as (r & i & fr1 & fr2 & Hr & Hl & -> & Hd & Hsy & Hex). exists r, i, (f :: fr1), fr2. split; auto. split; auto. split; auto. split; [cbn [length]; lia|]. split; [|exact Hex].
    rewrite syms_cons, Hsy. cbn [length]. unfold symbol_after_dot in M2. rewrite Ek in M2.
    assert (rhs_of g (Some k) = r_rhs r) as Erhs by (unfold rhs_of; cbn [item_rule]; fold R; rewrite Hr; auto). unfold start_dot in *. rewrite Erhs in *. rewrite Hd in M2.
    assert (nth_error (skipn (lead_eps (r_rhs r)) (r_rhs r)) (length fr1) = Some (fr_sym f)) as X.
    { rewrite <- M2. rewrite (lead_split (r_rhs r)) at 3. rewrite nth_error_app2; rewrite repeat_length; [f_equal; lia|lia]. }
    revert X. generalize (skipn (lead_eps (r_rhs r)) (r_rhs r)) (length fr1). clear. intros l m. revert l. induction m as [|m IH]; intros [|a l] X; try discriminate; cbn in *; [congruence|]. f_equal. auto.
Qed.

(** What is on a stack is the beginning of a sentence. *)
Lemma stack_viable : forall fr, valid fr -> exists v, derives R [g_entry g] (iyields (trees fr) ++ v).
Proof.
  intros fr Hv. destruct Hv as [|f fr Hv He Ht].
  - destruct (entry_symbol g wf) as [i Ei]. destruct (pr i) as [v Hd]; [exists i; split; auto; apply rt_refl|]. exists v. rewrite Ei. exact Hd.
  - assert (valid (f :: fr)) as Hv' by (constructor; auto). destruct (gi_edge _ _ _ _ _ gi _ _ _ He) as (P & T & HP & HT & HC & (it & M1 & M2 & M3) & _).
    destruct (proj2 (HC (to_lr0 (adv it)))) as (x & Hx & _); [exists (adv it); split; auto; exists it; split; [split; auto|constructor]|].
    pose proof (items_at (f :: fr) Hv' T x HT Hx) as Hi. unfold item_at in Hi. destruct (it_rule x) as [k|] eqn:Ek; [|destruct Hi as (X & _); discriminate].
    destruct Hi as (r & i & fr1 & fr2 & Hr & Hl & E & Hd & Hsy & Hre & Hw). pose proof (item_rhs (f :: fr) x k r fr1 fr2 Hv' Ek Hr E Hd Hsy) as Er. assert (In r R) as HR by (eapply nth_error_In; eauto).
    destruct (words_exist (skipn (it_dot x) (r_rhs r))) as [wb Hb].
    { intros s Hs. apply (wf_rhs g wf r); auto. rewrite Er. apply in_or_app. auto. } { intros j Hs. apply (reachable_step g i r j); auto. rewrite Er. apply in_or_app. auto. }
    destruct (Hw (iyields (trees fr1) ++ wb)) as (v & A & _).
    + rewrite <- (app_nil_r (iyields (trees fr1) ++ wb)). eapply d_nt; eauto; [|constructor]. fold R. rewrite Er. apply derives_app; auto.
      change (iyields (trees fr1)) with ([] ++ iyields (trees fr1)). apply derives_app; [apply repeat_null|]. rewrite E in Hv'. apply (valid_derives fr1 fr2). auto.
    + exists (wb ++ v). rewrite E, trees_app, iyields_app. rewrite <- !app_assoc in *. exact A.
Qed.

(** So is a token which can be shifted, and one at which is reduced if the lookahead is exact. *)
Lemma step_viable : forall fr w ev o w', n = 1 -> lalr = false -> valid fr -> mstep g n lalr pg fr w ev o w' -> exists v, derives R [g_entry g] (iyields (trees fr) ++ v) /\ hd_error v = hd_error w.
Proof.
  intros fr w ev o w' En El Hv H.
  assert (forall S x k r i fr1 fr2 S2 y, st (top fr) = Some S -> reducing g n S (token_symbol (peek w)) x -> it_rule x = Some k -> handle g lalr pg fr x k r i fr1 fr2 S2 y ->
    exists v, derives R [g_entry g] (iyields (trees fr) ++ v) /\ hd_error v = hd_error w) as HX.
  { intros S x k r i fr1 fr2 S2 y HS (Hx & Hn & Hla) Hk Hh. pose proof (items_at fr Hv S x HS Hx) as Hi. unfold item_at in Hi. rewrite Hk in Hi.
    destruct Hi as (r' & i' & fra & frb & Hr & Hl & E & Hd & Hsy & Hre & Hw). pose proof (item_rhs fr x k r' fra frb Hv Hk Hr E Hd Hsy) as Er.
    assert (skipn (it_dot x) (r_rhs r') = []) as Esk.
    { unfold symbol_after_dot in Hn. rewrite Hk in Hn. unfold rhs_of in Hn. cbn [item_rule] in Hn. unfold R in Hr. rewrite Hr in Hn. apply nth_error_None in Hn. apply skipn_all2. auto. }
    rewrite Esk, app_nil_r in Er. destruct (Hw (iyields (trees fra))) as (v & A & B).
    - rewrite <- (app_nil_r (iyields (trees fra))). eapply d_nt; [eapply nth_error_In; exact Hr|exact Hl| |constructor]. fold R. rewrite Er. change (iyields (trees fra)) with ([] ++ iyields (trees fra)). apply derives_app; [apply repeat_null|].
      rewrite E in Hv. apply (valid_derives fra frb). auto.
    - exists v. split; [rewrite E, trees_app, iyields_app, <- app_assoc; exact A|]. rewrite B in Hla by auto. specialize (Hla En). injection Hla as Hla. destruct (hd_error v), w; cbn in *; congruence. }
  destruct H as [t w q He|w S x k r i fr1 fr2 S2 y q HS Hc Hr Hk Hh He Hne|w S x k r i fr1 fr2 S2 y HS Hc Hr Hk Hh Ht Hi]; eauto.
  destruct (stack_viable (mkFrame (Terminal t) q (ILeaf t) :: fr)) as [v Hd]; [constructor; auto; cbn; constructor; constructor|].
  rewrite trees_cons, iyields_app, iyields_one in Hd. cbn [fr_tree iyield] in Hd. rewrite <- app_assoc in Hd. eexists. split; [exact Hd|reflexivity].
Qed.
End Viable.
