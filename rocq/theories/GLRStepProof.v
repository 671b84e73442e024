(** The GLR tables against the moves of the LR automaton, and the heap operations. *)
From Coq Require Import String List Arith NArith Bool Lia.
From Verif Require Import Base InputModel GrammarModel GrammarSpec GrammarProof LLModel LLSpec SententialProof SetsProof FirstProof LRModel LRSpec BidiProof ItemProof LRItemsProof LRGraphProof AutomatonProof LRTableProof LRWriteProof LRGenProof LRConflictProof LRRunProof LRCompleteProof GLRModel GLRWriteProof.
Import ListNotations.
Local Open Scope nat_scope.
Local Open Scope list_scope.

Definition event (a : lr_action) (t : token) : lr_event := match a with ActShift => EShift t | ActReduce k => EReduce k end.

Lemma in_actions : forall c a, In a (actions_of c) <-> match a with ActShift => exists t, In (Shift t) c | ActReduce k => In (Reduce (Some k)) c end.
Proof.
  intros c a. unfold actions_of. rewrite in_flat_map. split.
  - intros (e & He & Ha). destruct e as [t|[k|]| |]; simpl in Ha; try contradiction; destruct Ha as [<-|[]]; eauto.
  - destruct a as [|k]; [intros [t H]; exists (Shift t)|intros H; exists (Reduce (Some k))]; split; auto; left; auto.
Qed.

Section Step.
Variable g : grammar.
Hypothesis wf : wf_grammar g.
Variable n : nat.
Hypothesis n_le : n <= 1.
Variable fs : symbol_sets.
Variable lalr : bool.
Variable pg : lr_graph.
Hypothesis au : automaton g n fs lalr pg.
Variable tb : lr_table.
Hypothesis tf : table_of g n pg tb.
Let gi := au_inv g n fs lalr pg au.
Let R := g_rules g.
Notation mstep := (mstep g n lalr pg).
Notation valid := (valid g pg).

Lemma no_reduce_none : forall q s, q < tb_states tb -> In s (token_columns g) -> gno_entry_reduce tb q s.
Proof.
  intros q s Hq Hs H. rewrite (tf_states _ _ _ _ tf) in Hq. apply (gi_nodes _ _ _ _ _ gi) in Hq. destruct Hq as [S HS].
  assert (In s (columns g)) as Hc by (apply goto_columns_in; apply in_or_app; auto).
  apply (cell_reduce g n n_le fs lalr pg au tb tf q S s None HS Hc) in H. destruct H as (it & (H1 & H2 & _) & Hk).
  destruct (entry_rule_item g wf n fs lalr pg au _ _ _ HS H1 Hk) as [_ ->]. rewrite (entry_item_next g wf n) in H2. discriminate.
Qed.

Lemma NoDup_map_inj : forall A B (f : A -> B) l, NoDup l -> (forall x y, In x l -> In y l -> f x = f y -> x = y) -> NoDup (map f l).
Proof.
  intros A B f l H. induction H as [|a l Ha H IH]; intros Hf; simpl; constructor.
  - intros X. apply in_map_iff in X. destruct X as (y & E & Hy). assert (y = a) as -> by (apply Hf; [right|left|]; auto). contradiction.
  - apply IH. intros x y Hx Hy. apply Hf; right; auto.
Qed.

Lemma actions_nodup : forall q S s, st pg q = Some S -> In s (columns g) -> NoDup (actions_of (cell tb q s)).
Proof.
  intros q S s HS Hs. rewrite (cell_eq g n n_le fs lalr pg au tb tf q S s HS Hs). unfold actions_of. rewrite flat_map_app.
  assert (forall l, (forall it, In it l -> it_rule it <> None) -> flat_map act_of (map (fun it => Reduce (it_rule it)) l) = map (fun it => ActReduce (match it_rule it with Some k => k | None => 0 end)) l) as E.
  { induction l as [|it l IH]; intros Hl; auto. cbn [map flat_map]. rewrite IH by (intros; apply Hl; right; auto). destruct (it_rule it) eqn:Ei; auto. destruct (Hl it (or_introl eq_refl) Ei). }
  assert (forall it, In it (filter (reducing_on g (la_of n s)) S) -> exists k r, it_rule it = Some k /\ nth_error R k = Some r /\ it_dot it = length (r_rhs r) /\ it_la it = la_of n s) as HI.
  { intros it Hi. pose proof Hi as Hr. apply (reducing_filter g n n_le fs lalr pg au q S s it HS Hs) in Hr. destruct Hr as (H1 & H2 & H3).
    apply filter_In in Hi. destruct Hi as [_ Hla]. apply reducing_on_true in Hla. destruct Hla as [_ Hla].
    pose proof (state_ok _ _ _ _ _ au _ _ _ HS H1) as Hok. destruct (it_rule it) as [k|] eqn:Ek.
    - destruct (ik_rule _ _ _ Hok) as [r Er]. rewrite Ek in Er. simpl in Er. exists k, r. split; auto. split; auto. split; auto.
      pose proof (ik_dot _ _ _ Hok) as D. unfold symbol_after_dot in H2. apply nth_error_None in H2. unfold rhs_of in *. rewrite Ek in *. simpl in *. rewrite Er in *. lia.
    - destruct (entry_rule_item g wf n fs lalr pg au _ _ _ HS H1 Ek) as [_ ->]. rewrite (entry_item_next g wf n) in H2. discriminate. }
  rewrite E; [|intros it Hi; destruct (HI it Hi) as (k & r & X & _); congruence]. apply NoDup_app_intro.
  - apply NoDup_map_inj.
    + apply NoDup_filter. apply sorted_NoDup. apply (gi_sets _ _ _ _ _ gi q S HS).
    + intros x y Hx Hy Exy. destruct (HI x Hx) as (k & r & X1 & X2 & X3 & X4). destruct (HI y Hy) as (k' & r' & Y1 & Y2 & Y3 & Y4).
      rewrite X1, Y1 in Exy. injection Exy as <-. destruct x, y; simpl in *. congruence.
  - unfold column_tail. destruct (sym_in s (all_symbols g)); [|constructor]. destruct (eqc s (g_entry g) && (q =? 0)); [constructor|]. destruct (target_of pg q s); [repeat constructor; intros []|].
    destruct (reduces g n S s); constructor.
  - intros a Ha Hb. apply in_map_iff in Ha. destruct Ha as (it & <- & _). unfold column_tail in Hb. destruct (sym_in s (all_symbols g)); [|destruct Hb]. destruct (eqc s (g_entry g) && (q =? 0)); [destruct Hb|].
    destruct (target_of pg q s); [destruct Hb as [X|[]]; discriminate|]. destruct (reduces g n S s); destruct Hb.
Qed.

Section Parser.
Variable p : glr_parser.
Hypothesis gw : gwritten g tb p.

Definition acts_of (q : nat) (t : token) : list lr_action := match glr_next_actions (gp_actions p) q t with Ok l => l | _ => [] end.

(** The successor of a stack by a reduction. *)
Definition ared (fr : list frame) (k : nat) : option (list frame + itree) :=
  match nth_error (gp_reductions p) k with
  | Some (m, NonTerminal i) =>
    match glr_next_goto (gp_gotos p) (top (skipn m fr)) (KNonTerminal i) with
    | Some (GotoState q) => Some (inl (mkFrame (NonTerminal i) q (INode k (trees (firstn m fr))) :: skipn m fr))
    | Some GotoAccept => Some (inr (INode k (trees (firstn m fr))))
    | None => None
    end
  | _ => None
  end.

Lemma gedge_goto : forall q S s t, st pg q = Some S -> edge pg q s t -> (exists i, s = NonTerminal i) \/ (exists x, s = Terminal x) -> ~ (q = 0 /\ s = g_entry g) ->
  glr_next_goto (gp_gotos p) q (stack_of s) = Some (GotoState t).
Proof.
  intros q S s t HS He Hk Hne. rewrite (gw_goto _ _ _ gw q s (state_lt g n fs lalr pg au tb tf q S HS) Hk).
  assert (In s (all_symbols g)) as Hs by (eapply edge_column; eauto; destruct Hk as [[i ->]|[x ->]]; discriminate).
  assert (In s (columns g)) as Hc by (apply in_or_app; auto).
  destruct (sym_in s (goto_columns g)) as [|X]; [|destruct X; apply goto_columns_in; auto].
  rewrite (cell_eq g n n_le fs lalr pg au tb tf q S s HS Hc). unfold gotos_of. rewrite flat_map_app.
  assert (forall l, flat_map goto_of (map (fun it => Reduce (it_rule it)) l) = []) as -> by (induction l; simpl; auto). cbn [app].
  unfold column_tail. destruct (sym_in s (all_symbols g)); [|contradiction]. destruct (eqc s (g_entry g) && (q =? 0)) eqn:Ee.
  - apply andb_true_iff in Ee. destruct Ee as [E1 E2]. apply eqc_true in E1. apply Nat.eqb_eq in E2. tauto.
  - rewrite (proj2 (target_edge g n fs lalr pg au q s t) He). reflexivity.
Qed.

Lemma gentry_goto : glr_next_goto (gp_gotos p) 0 (stack_of (g_entry g)) = Some GotoAccept.
Proof.
  destruct (gi_entry _ _ _ _ _ gi) as (S & HS & _). destruct (entry_symbol g wf) as [i Ei].
  rewrite (gw_goto _ _ _ gw 0 (g_entry g) (state_lt g n fs lalr pg au tb tf 0 S HS)); [|left; eauto].
  assert (In (g_entry g) (columns g)) as Hc by (apply in_or_app; left; apply entry_symbol_in; auto).
  destruct (sym_in (g_entry g) (goto_columns g)) as [|X]; [|destruct X; apply goto_columns_in; auto].
  rewrite (cell_eq g n n_le fs lalr pg au tb tf 0 S _ HS Hc). unfold gotos_of. rewrite flat_map_app.
  assert (forall l, flat_map goto_of (map (fun it => Reduce (it_rule it)) l) = []) as -> by (induction l; simpl; auto). cbn [app].
  unfold column_tail. destruct (sym_in (g_entry g) (all_symbols g)) as [|X]; [|destruct X; apply entry_symbol_in; auto]. rewrite eqc_refl. reflexivity.
Qed.

(** Shifts. *)
Lemma gshift : forall fr w o w', valid fr -> mstep fr w [EShift (peek w)] o w' ->
  exists t q, w = t :: w' /\ o = inl (mkFrame (Terminal t) q (ILeaf t) :: fr) /\ glr_next_goto (gp_gotos p) (top fr) (KTerminal (peek w)) = Some (GotoState q).
Proof.
  intros fr w o w' Hv H. inversion H as [t w0 q He| |]; subst. exists t, q. split; auto. split; auto. destruct (valid_state g n fs lalr pg au fr Hv) as [S HS].
  change (KTerminal (peek (t :: w'))) with (stack_of (Terminal t)). apply (gedge_goto (top fr) S (Terminal t) q HS He); [eauto|].
  destruct (entry_symbol g wf) as [j Ej]. rewrite Ej. intros [_ X]. discriminate.
Qed.

(** Reductions. *)
Lemma gred : forall fr w k o w', valid fr -> mstep fr w [EReduce k] o w' ->
  w' = w /\ ared fr k = Some o /\ exists m i, nth_error (gp_reductions p) k = Some (m, NonTerminal i) /\ m <= length fr /\ (forall tr, o = inr tr -> skipn m fr = []).
Proof.
  assert (forall A (a b : list A), skipn (length a) (a ++ b) = b) as SK by (intros A a b; induction a; auto).
  assert (forall A (a b : list A), firstn (length a) (a ++ b) = a) as FK by (intros A a b; induction a; simpl; congruence).
  intros fr w k o w' Hv H. inversion H as [|w0 S x k' r i fr1 fr2 S2 y q HS Hc Hr Hk Hh He Hne|w0 S x k' r i fr1 fr2 S2 y HS Hc Hr Hk Hh Ht Hi]; subst; (split; auto).
  - pose proof (ha_split _ _ _ _ _ _ _ _ _ _ _ _ Hh) as Es. pose proof (gw_reduction _ _ _ gw k) as Er. rewrite (ha_rule _ _ _ _ _ _ _ _ _ _ _ _ Hh), (ha_lhs _ _ _ _ _ _ _ _ _ _ _ _ Hh), (ha_pop _ _ _ _ _ _ _ _ _ _ _ _ Hh) in Er.
    split.
    + unfold ared. rewrite Er, Es, SK, FK. change (KNonTerminal i) with (stack_of (NonTerminal i)).
      rewrite (gedge_goto (top fr2) S2 (NonTerminal i) q (ha_state _ _ _ _ _ _ _ _ _ _ _ _ Hh) He); eauto.
    + exists (length fr1), i. split; auto. rewrite Es, app_length. split; [lia|discriminate].
  - pose proof (ha_split _ _ _ _ _ _ _ _ _ _ _ _ Hh) as Es. pose proof (gw_reduction _ _ _ gw k) as Er. rewrite (ha_rule _ _ _ _ _ _ _ _ _ _ _ _ Hh), (ha_lhs _ _ _ _ _ _ _ _ _ _ _ _ Hh), (ha_pop _ _ _ _ _ _ _ _ _ _ _ _ Hh) in Er.
    assert (fr2 = []) as -> by (apply (valid_top_0 g wf n fs lalr pg au); auto; apply (valid_app g pg fr1); rewrite <- Es; auto).
    split.
    + unfold ared. rewrite Er, Es, SK, FK. change (KNonTerminal i) with (stack_of (NonTerminal i)). cbn [top]. rewrite Hi, gentry_goto. reflexivity.
    + exists (length fr1), i. split; auto. rewrite Es, app_length. split; [lia|]. intros _ _. rewrite SK. auto.
Qed.

(** The actions of a state are the moves of the automaton. *)
Lemma gacts : forall fr w, valid fr ->
  (exists a l, glr_next_actions (gp_actions p) (top fr) (peek w) = Ok (a :: l) /\ NoDup (a :: l) /\
    forall b, In b (a :: l) <-> exists o w', mstep fr w [event b (peek w)] o w') \/
  (glr_next_actions (gp_actions p) (top fr) (peek w) = Err (GUnexpectedToken (peek w) (gexpected g tb (top fr))) /\ forall ev o w', ~ mstep fr w ev o w').
Proof.
  intros fr w Hv. destruct (valid_state g n fs lalr pg au fr Hv) as [S HS]. rewrite (gw_action _ _ _ gw (top fr) (peek w) (state_lt g n fs lalr pg au tb tf _ _ HS)).
  assert (forall ev o w', mstep fr w ev o w' -> In (token_symbol (peek w)) (columns g) /\ exists b, ev = [event b (peek w)]) as HM.
  { intros ev o w' H. destruct H as [t w q He|w S' x k r i fr1 fr2 S2 y q HS' Hc Hr Hk Hh He Hne|w S' x k r i fr1 fr2 S2 y HS' Hc Hr Hk Hh Ht Hi].
    - split; [|exists ActShift; auto]. apply in_or_app. left. cbn [peek hd_error token_symbol]. eapply edge_column; eauto. discriminate.
    - split; auto. exists (ActReduce k). auto.
    - split; auto. exists (ActReduce k). auto. }
  destruct (sym_in (token_symbol (peek w)) (token_columns g)) as [Hin|Hin].
  2: { right. split; auto. intros ev o w' H. apply Hin. apply token_columns_in; auto. apply (HM _ _ _ H). }
  apply token_columns_in in Hin; auto.
  assert (forall b, In b (actions_of (cell tb (top fr) (token_symbol (peek w)))) <-> exists o w', mstep fr w [event b (peek w)] o w') as HA.
  { intros b. rewrite in_actions. destruct b as [|k].
    - split.
      + intros [t Ht]. apply (cell_shift g n n_le fs lalr pg au tb tf _ S _ t HS Hin) in Ht. destruct Ht as (H1 & H2 & H3). destruct w as [|x w]; simpl in *.
        * destruct (end_not_symbol g wf H1).
        * eexists _, _. apply ms_shift; eauto.
      + intros (o & w' & H). simpl in H. inversion H as [t w0 q He| |]; subst. exists q. apply (cell_shift g n n_le fs lalr pg au tb tf _ S _ q HS Hin).
        split; [eapply edge_column; eauto; discriminate|]. split; auto. destruct (entry_symbol g wf) as [j Ej]. rewrite Ej. intros [X _]. discriminate.
    - rewrite (cell_reduce g n n_le fs lalr pg au tb tf _ S _ (Some k) HS Hin). split.
      + intros (x & Hr & Hk). destruct (completed_handle g wf n n_le fs lalr pg au fr S x k Hv HS) as (r & i & fr1 & fr2 & S2 & y & Hh); [apply Hr|auto|apply Hr|].
        destruct (cmp_dec (top fr2) 0) as [E0|N0], (cmp_dec (NonTerminal i) (g_entry g)) as [Ei|Ni].
        * exists (inr (INode k (trees fr1))), w. eapply ms_accept; eauto.
        * destruct (handle_goto g wf n fs lalr pg au _ _ _ _ _ _ _ _ _ Hh) as [[X Y]|[t Ht]]; [contradiction|]. eexists (inl _), w. eapply ms_reduce; eauto. tauto.
        * destruct (handle_goto g wf n fs lalr pg au _ _ _ _ _ _ _ _ _ Hh) as [[X Y]|[t Ht]]; [contradiction|]. eexists (inl _), w. eapply ms_reduce; eauto. tauto.
        * destruct (handle_goto g wf n fs lalr pg au _ _ _ _ _ _ _ _ _ Hh) as [[X Y]|[t Ht]]; [contradiction|]. eexists (inl _), w. eapply ms_reduce; eauto. tauto.
      + intros (o & w' & H). simpl in H. inversion H as [|w0 S' x k' r i fr1 fr2 S2 y q HS' Hc Hr Hk Hh He Hne|w0 S' x k' r i fr1 fr2 S2 y HS' Hc Hr Hk Hh Ht Hi]; subst;
          (assert (S' = S) as -> by congruence; eauto). }
  destruct (actions_of (cell tb (top fr) (token_symbol (peek w)))) as [|a l] eqn:Ea.
  - right. split; auto. intros ev o w' H. destruct (HM _ _ _ H) as [_ [b ->]]. apply (proj2 (HA b)); eauto.
  - left. exists a, l. split; auto. split; auto. rewrite <- Ea. eapply actions_nodup; eauto.
Qed.
End Parser.
End Step.

(** ** The heap *)

Fixpoint rep (h : gss_heap) (i : nat) (fr : list frame) : Prop :=
  match fr with
  | [] => i = 1
  | f :: fr => 2 <= i /\ exists j, nth_error h i = Some (mkNode (Some (fr_state f)) [(Some (stack_of (fr_sym f)), j)]) /\ rep h j fr
  end.

(** The first two nodes: the root and the entry state, whose edge to the root is gone after an accept. *)
Definition hp (h : gss_heap) (accepted : bool) : Prop :=
  nth_error h 0 = Some (mkNode None []) /\ nth_error h 1 = Some (mkNode (Some 0) (if accepted then [] else [(None, 0)])).

Definition ext (h h' : gss_heap) : Prop := length h <= length h' /\ forall i, 2 <= i -> i < length h -> nth_error h' i = nth_error h i.

Lemma ext_refl : forall h, ext h h.
Proof. intros h. split; auto. Qed.
Lemma ext_trans : forall a b c, ext a b -> ext b c -> ext a c.
Proof. intros a b c [A B] [C D]. split; [lia|]. intros i H1 H2. rewrite D by lia. auto. Qed.
Lemma ext_app : forall h x, ext h (h ++ x).
Proof. intros h x. split; [rewrite app_length; lia|]. intros i _ H. apply nth_error_app1. auto. Qed.

Lemma rep_ext : forall h h', ext h h' -> forall fr i, rep h i fr -> rep h' i fr.
Proof.
  intros h h' [_ H] fr. induction fr as [|f fr IH]; intros i; simpl; auto. intros (H1 & j & H2 & H3). split; auto. exists j. split; auto.
  rewrite H; auto. apply nth_error_Some. congruence.
Qed.

Lemma rep_top : forall h b fr i, hp h b -> rep h i fr -> gss_top h i = Ok (Some (top fr)).
Proof.
  intros h b fr i [_ H] Hr. unfold gss_top, gss_inner. destruct fr as [|f fr]; simpl in Hr; [subst i; rewrite H; auto|]. destruct Hr as (_ & j & -> & _). reflexivity.
Qed.

(** Copied nodes. *)
Fixpoint path (h : gss_heap) (lo hi i d j : nat) : Prop :=
  match d with
  | O => i = j
  | Datatypes.S d => lo <= i < hi /\ exists v e k, nth_error h i = Some (mkNode v [(e, k)]) /\ path h lo i k d j
  end.

Lemma path_weak : forall d h lo hi hi' i j, path h lo hi i d j -> hi <= hi' -> path h lo hi' i d j.
Proof. intros [|d] h lo hi hi' i j; simpl; auto. intros (H & v & e & k & A) Hl. split; [lia|]. exists v, e, k. auto. Qed.

Lemma path_same : forall d h h' lo hi i j, path h lo hi i d j -> (forall m, m < hi -> nth_error h' m = nth_error h m) -> path h' lo hi i d j.
Proof.
  induction d as [|d IH]; intros h h' lo hi i j; simpl; auto. intros (H & v & e & k & A & B) Hh. split; auto. exists v, e, k. split; [rewrite Hh; auto; lia|].
  eapply IH; eauto. intros m Hm. apply Hh. lia.
Qed.

Lemma unwind_rep : forall d h i fr, rep h i fr -> d <= length fr ->
  exists x i' j, unwind_stacks d h i = Ok (h ++ x, [i']) /\ rep h j (skipn d fr) /\ path (h ++ x) (length h) (length (h ++ x)) i' d j.
Proof.
  induction d as [|d IH]; intros h i fr Hr Hd.
  - exists [], i, i. rewrite app_nil_r. split; auto. split; simpl; auto.
  - destruct fr as [|f fr]; simpl in Hd; [lia|]. destruct Hr as (H1 & j & H2 & H3). destruct (IH h j fr H3) as (x & i' & j' & A & B & C); [lia|].
    exists (x ++ [mkNode (Some (fr_state f)) [(Some (stack_of (fr_sym f)), i')]]), (length (h ++ x)), j'. split; [|split; [exact B|]].
    + cbn [unwind_stacks]. unfold gss_inner. rewrite H2. cbn [bind gn_neighbors foldM fst snd gn_value]. rewrite A. cbn [bind fold_left fst snd]. unfold gss_push, gss_alloc. cbn [app]. rewrite <- app_assoc. reflexivity.
    + cbn [path]. rewrite !app_length. simpl. split; [lia|]. eexists _, _, i'. split.
      * rewrite app_assoc. rewrite nth_error_app2; rewrite app_length; [|lia]. rewrite Nat.sub_diag. reflexivity.
      * rewrite app_length in C. eapply path_same; [exact C|]. intros m Hm. rewrite app_assoc. apply nth_error_app1. rewrite app_length. auto.
Qed.

Lemma gss_set_length : forall h i x, length (gss_set h i x) = length h.
Proof. induction h as [|m h IH]; intros [|i] x; simpl; auto. Qed.
Lemma gss_set_other : forall h i j x, i <> j -> nth_error (gss_set h i x) j = nth_error h j.
Proof. induction h as [|m h IH]; intros [|i] [|j] x H; simpl; auto; try congruence. Qed.
Lemma gss_set_same : forall h i x, i < length h -> nth_error (gss_set h i x) i = Some x.
Proof. induction h as [|m h IH]; intros [|i] x H; simpl in *; auto; try lia. apply IH. lia. Qed.

Lemma pops_path : forall d h lo hi i j, path h lo hi i d j -> exists h', gss_pops d h i = Ok (j, h') /\ length h' = length h /\ forall m, m < lo -> nth_error h' m = nth_error h m.
Proof.
  induction d as [|d IH]; intros h lo hi i j; simpl.
  - intros ->. eauto.
  - intros (H & v & e & k & A & B). unfold gss_pop, gss_inner. rewrite A. cbn [bind gn_neighbors gn_value].
    destruct (IH (gss_set h i (mkNode v [])) lo i k j) as (h' & C & D & F).
    + eapply path_same; [exact B|]. intros m Hm. apply gss_set_other. lia.
    + exists h'. split; auto. rewrite gss_set_length in D. split; auto. intros m Hm. rewrite F by auto. apply gss_set_other. lia.
Qed.
