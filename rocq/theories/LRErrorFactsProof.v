(** Errors of LR and GLR parsers: proofs. *)
From Coq Require Import String List Arith NArith Bool Lia Relations.
From Verif Require Import Base InputModel GrammarModel GrammarSpec GrammarProof GrammarBuildProof LLModel LLSpec SententialProof SetsProof FirstProof LRModel LRSpec BidiProof ItemProof LRItemsProof LRGraphProof
  AutomatonProof LRTableProof LRWriteProof LRGenProof LRConflictProof LRRunProof LRCompleteProof LRFactsProof GLRModel GLRSpec GLRProof GLRFactsProof LRTermSpec LRTermProof LRTermFactsProof LRErrorSpec LRErrorProof.
Import ListNotations.
Local Open Scope nat_scope.
Local Open Scope list_scope.

Lemma shifted_trees : forall ts, shifts (post_orders ts) = iyields ts.
Proof. change shifts with shifted. intros ts. induction ts as [|t ts IH]; [reflexivity|]. change (post_orders (t :: ts)) with (post_order t ++ post_orders ts). rewrite shifted_app, IH, (shifted_post (size t) t (le_n _)). reflexivity. Qed.

Section Errors.
Variables (k : table_kind) (m : nat) (g : grammar) (allow : bool) (tb : lr_table) (p : lr_parser).
Hypothesis wf : wf_grammar g.
Hypothesis gen : generates k m g allow = Ok (NoConflicts tb).
Hypothesis wrt : write_parser g tb = Ok p.

Lemma run_stuck : forall fs pg, setup k g tb fs pg -> written g tb p -> forall fuel fr w ev e, valid g pg fr -> lr_run fuel p (concrete fr) w = (ev, Err e) ->
  exists fr' w', msteps g (kind_n k) (kind_lalr k) pg fr w ev fr' w' /\ (forall ev o w'', ~ mstep g (kind_n k) (kind_lalr k) pg fr' w' ev o w'') /\ e = UnexpectedTok (peek w') (expected_of g tb (top fr')).
Proof.
  intros fs pg su wr. pose proof (su_au _ _ _ _ _ su) as au. pose proof (su_tb _ _ _ _ _ su) as tf.
  induction fuel as [|fuel IH]; intros fr w ev e Hv H; [discriminate|].
  destruct (driver_cases g wf _ (kind_n_le k) fs _ pg au tb tf p wr fr w Hv) as [(ev1 & o & w1 & Hm)|[He Hc]].
  - rewrite (driver_step g wf _ (kind_n_le k) fs _ pg au tb tf p wr fr w ev1 o w1 Hv Hm) in H. destruct o as [fr'|tr].
    + destruct (lr_run fuel p (concrete fr') w1) as [ev2 r2] eqn:E2. injection H as <- ->. destruct (mstep_valid _ _ _ _ _ _ _ _ _ Hv Hm) as (V1 & _).
      destruct (IH fr' w1 ev2 e V1 E2) as (fr2 & w2 & A & B & C). exists fr2, w2. split; auto. econstructor; eauto.
    + rewrite lr_run_nil in H. destruct fuel; discriminate.
  - rewrite He in H. injection H as <- <-. exists fr, w. split; [constructor|]. split; auto. intros ev o w' Hm. pose proof (driver_step g wf _ (kind_n_le k) fs _ pg au tb tf p wr fr w ev o w' Hv Hm 0) as X.
    rewrite He in X. destruct o; discriminate.
Qed.

(** Tokens at which something can be done. *)
Lemma expected_step : forall fs pg, setup k g tb fs pg -> written g tb p -> forall fr w, valid g pg fr ->
  (In (peek w) (expected_of g tb (top fr)) <-> exists ev o w', mstep g (kind_n k) (kind_lalr k) pg fr w ev o w').
Proof.
  intros fs pg su wr fr w Hv. pose proof (su_au _ _ _ _ _ su) as au. pose proof (su_tb _ _ _ _ _ su) as tf. destruct (valid_state g _ fs _ pg au fr Hv) as [S HS].
  assert (top fr < tb_states tb) as Hq by (rewrite (tf_states _ _ _ _ tf); eapply st_lt; eauto).
  assert (forall s, In s (token_columns g) -> length (entries tb (top fr) s) <= 1) as Hs.
  { intros s Hs. apply (wr_single _ _ _ wr (top fr) s Hq). apply in_or_app. auto. }
  rewrite (expected_in g tb wf (top fr) (peek w) Hs). split.
  - intros (Ht & x & Hx & Ha). destruct (driver_cases g wf _ (kind_n_le k) fs _ pg au tb tf p wr fr w Hv) as [X|[_ F]]; auto. exfalso.
    apply token_columns_is in Ht; auto. specialize (Hs _ Ht). rewrite token_symbol_column in F. specialize (F Ht).
    change (entries tb (top fr) (column (peek w))) with (cell tb (top fr) (column (peek w))) in *.
    destruct (cell tb (top fr) (column (peek w))) as [|y [|]] eqn:Ec; [destruct Hx| |simpl in Hs; lia]. destruct Hx as [->|[]].
    destruct x as [t|[j|]| |]; simpl in *; try contradiction; try discriminate.
    assert (In (Reduce None) (cell tb (top fr) (column (peek w)))) as X by (rewrite Ec; left; auto).
    apply (cell_reduce g _ (kind_n_le k) fs _ pg au tb tf (top fr) S) in X; auto; [|apply goto_columns_in; apply in_or_app; left; exact Ht].
    destruct X as (it & (I1 & I2 & _) & I3). destruct (entry_rule_item g wf _ fs _ pg au _ _ _ HS I1 I3) as [_ ->]. rewrite (entry_item_next g wf) in I2. discriminate.
  - intros (ev & o & w' & Hm).
    assert (In (token_symbol (peek w)) (columns g) /\ exists x, In x (cell tb (top fr) (token_symbol (peek w))) /\ acts x) as (Hc & x & Hx & Ha).
    { destruct Hm as [t w q He|w S' x k' r i fr1 fr2 S2 y q HS' Hc Hr Hk Hh He Hne|w S' x k' r i fr1 fr2 S2 y HS' Hc Hr Hk Hh Ht' Hi].
      - cbn [peek hd_error token_symbol]. assert (In (Terminal t) (all_symbols g)) as Hin.
        { destruct (gi_edge _ _ _ _ _ (au_inv _ _ _ _ _ au) _ _ _ He) as (P & T & HP & HT & HC & (it & M1 & M2 & M3) & _). unfold symbol_after_dot in M2. apply nth_error_In in M2. apply (rhs_of_known g wf) in M2. apply in_or_app. left. exact M2. }
        assert (In (Terminal t) (columns g)) as Hc by (apply in_or_app; left; auto). split; auto. exists (Shift q). split; [|exact I].
        apply (cell_shift g _ (kind_n_le k) fs _ pg au tb tf (top fr) S); auto. split; auto. split; auto. intros [X _]. destruct (entry_symbol g wf) as [i Ei]. rewrite Ei in X. discriminate X.
      - split; auto. exists (Reduce (Some k')). split; [|exact I]. apply (cell_reduce g _ (kind_n_le k) fs _ pg au tb tf (top fr) S'); eauto.
      - split; auto. exists (Reduce (Some k')). split; [|exact I]. apply (cell_reduce g _ (kind_n_le k) fs _ pg au tb tf (top fr) S'); eauto. }
    split; [apply token_columns_is; auto; rewrite <- token_symbol_column; apply (token_columns_in g wf); auto|]. exists x. split; auto.
Qed.

Lemma error_run : forall fs pg, setup k g tb fs pg -> written g tb p -> lp_entry p = 0 -> forall fuel w ev e, lr_parse fuel p w = (ev, Err e) ->
  exists fr rest, valid g pg fr /\ w = iyields (trees fr) ++ rest /\ ev = post_orders (trees fr) /\ msteps g (kind_n k) (kind_lalr k) pg [] w ev fr rest /\
    (forall ev o w', ~ mstep g (kind_n k) (kind_lalr k) pg fr rest ev o w') /\ e = UnexpectedTok (hd_error rest) (expected_of g tb (top fr)).
Proof.
  intros fs pg su wr En fuel w ev e H. unfold lr_parse in H. rewrite En in H. change [KState 0] with (concrete []) in H. destruct (run_stuck fs pg su wr fuel [] w ev e (va_nil _ _) H) as (fr & rest & A & B & C).
  exists fr, rest. pose proof (msteps_valid g _ _ pg _ _ _ _ _ A (va_nil _ _)) as Hv. split; auto. destruct (msteps_sound _ _ _ _ _ _ _ _ _ A (va_nil _ _)) as [X Y]. cbn [trees map rev post_orders iyields concat app] in X, Y. change (iyields (trees [])) with (@nil N) in Y. cbn [app] in Y.
  split; auto.
Qed.

Section Complete.
Hypothesis eps : epsilon_in_front g.
Hypothesis ne : no_empty_rhs g.

Lemma sentence_accepted : forall fs pg, setup k g tb fs pg -> forall w, derives (g_rules g) [g_entry g] w -> exists ev tr w', maccept g (kind_n k) (kind_lalr k) pg [] w ev tr w'.
Proof.
  intros fs pg su w H. apply (parse_tree_derives g w wf) in H. destruct H as (tr & Ht & <-). pose proof (su_au _ _ _ _ _ su) as au. pose proof (su_first _ _ _ _ _ su) as fc.
  destruct (complete_tree g wf _ (kind_n_le k) fs fc _ pg au eps (fun _ => ne) tr Ht) as [A|[_ A]]; eauto.
Qed.

Lemma setup_det : forall fs pg, setup k g tb fs pg -> forall fr w ev o w' ev' o' w'', mstep g (kind_n k) (kind_lalr k) pg fr w ev o w' -> mstep g (kind_n k) (kind_lalr k) pg fr w ev' o' w'' -> ev = ev' /\ o = o' /\ w' = w''.
Proof.
  intros fs pg su fr w ev o w' ev' o' w''. pose proof (su_au _ _ _ _ _ su) as au. apply (mstep_det g _ fs _ pg au). apply (no_conflict_iff g _ fs (kind_lalr k) pg [] (kind_n_le k) au (su_cs _ _ _ _ _ su)). auto.
Qed.

(** No accepting run where another run stops. *)
Lemma stopped : forall fs pg, setup k g tb fs pg -> forall w ev fr rest, msteps g (kind_n k) (kind_lalr k) pg [] w ev fr rest -> (forall ev o w', ~ mstep g (kind_n k) (kind_lalr k) pg fr rest ev o w') ->
  forall ev' tr w', ~ maccept g (kind_n k) (kind_lalr k) pg [] w ev' tr w'.
Proof.
  intros fs pg su w ev fr rest A B ev' tr w' (e1 & f1 & w1 & e2 & C & D & _). pose proof (setup_det fs pg su) as det.
  destruct (halted_longest _ _ _ _ det _ _ _ _ _ A (fun ev fr w' => B ev (inl fr) w') _ _ _ C) as (e & _ & X). destruct X as [fr' v|fr' v ev1 fr2 w2 ev2 fr3 w3 X _]; [exact (B _ _ _ D)|].
  destruct (det _ _ _ _ _ _ _ _ X D) as (_ & Y & _). discriminate.
Qed.

Lemma error_sound : forall fuel w ev e, lr_parse fuel p w = (ev, Err e) ->
  exists consumed rest expected, w = consumed ++ rest /\ shifts ev = consumed /\ e = UnexpectedTok (hd_error rest) expected /\
    forall rest', hd_error rest' = hd_error rest -> ~ derives (g_rules g) [g_entry g] (consumed ++ rest').
Proof.
  intros fuel w ev e H. destruct (setup_ex _ _ _ _ _ _ wf gen wrt) as (fs & pg & su & wr & E0). destruct (error_run fs pg su wr E0 fuel w ev e H) as (fr & rest & Hv & Ew & Ee & Hm & Hs & ->).
  exists (iyields (trees fr)), rest, (expected_of g tb (top fr)). split; auto. split; [subst ev; apply shifted_trees|]. split; auto. intros rest' Ep Hd.
  rewrite Ew in Hm. destruct (msteps_prefix _ _ _ _ _ _ _ _ _ Hm (iyields (trees fr)) rest rest' eq_refl (le_n _) (eq_sym Ep)) as (u' & Eu & Hm').
  assert (u' = []) as -> by (apply (f_equal (@length N)) in Eu; rewrite app_length in Eu; destruct u'; [auto|cbn [length] in Eu; lia]). cbn [app] in Hm'.
  destruct (sentence_accepted fs pg su _ Hd) as (ev' & tr & w' & Ha). refine (stopped fs pg su _ _ _ _ Hm' _ _ _ _ Ha).
  intros ev1 o w1 X. destruct (mstep_peek _ _ _ _ _ _ _ _ _ X) as [(fr' & j & _ & _ & _ & Hp)|[(tr' & j & _ & _ & _ & Hp)|(t & fr' & _ & _ & Et & Hp)]]; [exact (Hs _ _ _ (Hp rest (eq_sym Ep)))|exact (Hs _ _ _ (Hp rest (eq_sym Ep)))|].
  subst rest'. destruct rest as [|t' rest]; [discriminate|]. injection Ep as ->. exact (Hs _ _ _ (Hp rest)).
Qed.
End Complete.

Section Productive.
Hypothesis pr : all_productive g.

Lemma error_viable : forall fuel w ev e, lr_parse fuel p w = (ev, Err e) -> exists v, derives (g_rules g) [g_entry g] (shifts ev ++ v).
Proof.
  intros fuel w ev e H. destruct (setup_ex _ _ _ _ _ _ wf gen wrt) as (fs & pg & su & wr & E0). destruct (error_run fs pg su wr E0 fuel w ev e H) as (fr & rest & Hv & Ew & Ee & Hm & Hs & _).
  rewrite Ee, shifted_trees. exact (stack_viable g wf _ (kind_n_le k) fs (su_first _ _ _ _ _ su) _ pg (su_au _ _ _ _ _ su) pr fr Hv).
Qed.

Hypothesis eps : epsilon_in_front g.
Hypothesis ne : no_empty_rhs g.
Hypothesis lr1 : k = KindLR1.

Lemma expected_exact : forall fuel w ev e, lr_parse fuel p w = (ev, Err e) ->
  exists consumed rest expected, w = consumed ++ rest /\ shifts ev = consumed /\ e = UnexpectedTok (hd_error rest) expected /\ NoDup expected /\
    forall t, In t expected <-> exists v, derives (g_rules g) [g_entry g] (consumed ++ v) /\ hd_error v = t.
Proof.
  intros fuel w ev e H. destruct (setup_ex _ _ _ _ _ _ wf gen wrt) as (fs & pg & su & wr & E0). destruct (error_run fs pg su wr E0 fuel w ev e H) as (fr & rest & Hv & Ew & Ee & Hm & Hs & Er).
  exists (iyields (trees fr)), rest, (expected_of g tb (top fr)). split; auto. split; [subst ev; apply shifted_trees|]. split; auto. split; [apply expected_nodup; auto|].
  assert (kind_n k = 1 /\ kind_lalr k = false) as [K1 K2] by (rewrite lr1; auto).
  pose proof (step_viable g wf _ (kind_n_le k) fs (su_first _ _ _ _ _ su) _ pg (su_au _ _ _ _ _ su) pr) as SV.
  intros t. split.
  - intros Ht. set (v := match t with Some t => [t] | None => [] end). assert (peek v = t) as Ep by (destruct t; reflexivity). rewrite <- Ep in Ht.
    apply (expected_step fs pg su wr fr v Hv) in Ht. destruct Ht as (ev1 & o & w1 & Hx). destruct (SV fr v ev1 o w1 K1 K2 Hv Hx) as (v' & A & B). exists v'. split; auto. rewrite B. exact Ep.
  - intros (v & Hd & <-). change (hd_error v) with (peek v). apply (expected_step fs pg su wr fr v Hv).
    (* no reductions since the last shift *)
    assert (exists ev', msteps g (kind_n k) (kind_lalr k) pg [] (iyields (trees fr) ++ v) ev' fr v) as [ev' Hm'].
    { assert (forall fr2 y, valid g pg fr2 -> rsteps g (kind_n k) (kind_lalr k) pg fr2 rest y fr -> y = [] /\ fr2 = fr) as HR.
      { intros fr2 y V Hr. remember fr as fr0 eqn:Ef in Hr. destruct Hr as [|x fr1 j fr3 Hr Hx]; [subst; auto|]. exfalso. subst fr3.
        assert (msteps g (kind_n k) (kind_lalr k) pg fr2 rest x fr1 rest) as Hm1 by (apply rsteps_msteps; auto). pose proof (msteps_valid g _ _ pg _ _ _ _ _ Hm1 V) as V1.
        destruct (SV fr1 rest _ _ _ K1 K2 V1 Hx) as (v' & A & B). destruct (mstep_valid _ _ _ _ _ _ _ _ _ V1 Hx) as (_ & _ & C). apply app_inv_tail in C. rewrite C in A.
        destruct (error_sound eps ne fuel w ev e H) as (c & rest' & ex & Ec & Es & _ & Hn). assert (c = iyields (trees fr)) as -> by (rewrite <- Es, Ee; apply shifted_trees).
        rewrite Ew in Ec. apply app_inv_head in Ec. subst rest'. exact (Hn v' B A). }
      destruct (msteps_last _ _ _ _ _ _ _ _ _ Hm) as [[E1 Hr]|(ev1 & fr1 & x & fr2 & y & P & Q & E1 & S1 & Hr & _)].
      - rewrite E1 in Hr. destruct (HR [] ev (va_nil _ _) Hr) as [_ <-]. exists []. constructor.
      - assert (valid g pg fr1) as V1 by (eapply msteps_valid; eauto; constructor). destruct (HR fr2 y (proj1 (mstep_valid _ _ _ _ _ _ _ _ _ V1 S1)) Hr) as [_ ->].
        destruct x as [|t x]; [contradiction|]. cbn [tl] in E1. subst x. rewrite Ew in P. destruct (msteps_sound _ _ _ _ _ _ _ _ _ P (va_nil _ _)) as [_ Y]. change (iyields (trees [])) with (@nil N) in Y. cbn [app] in Y.
        assert (iyields (trees fr) = iyields (trees fr1) ++ [t]) as Z. { apply (app_inv_tail rest). rewrite Y, <- app_assoc. reflexivity. }
        rewrite Z in P. rewrite <- app_assoc in P. cbn [app] in P.
        destruct (msteps_prefix _ _ _ _ _ _ _ _ _ P (iyields (trees fr1)) (t :: rest) (t :: v) eq_refl (le_n _) eq_refl) as (u' & Eu & Hm').
        assert (u' = []) as -> by (apply (f_equal (@length N)) in Eu; rewrite app_length in Eu; destruct u'; [auto|cbn [length] in Eu; lia]). cbn [app] in Hm'.
        exists (ev1 ++ [EShift (Some t)]). rewrite Z, <- app_assoc. cbn [app]. eapply msteps_trans; [exact Hm'|]. apply msteps_one.
        destruct (mstep_peek _ _ _ _ _ _ _ _ _ S1) as [(fr' & j & _ & X & _)|[(tr' & j & _ & X & _)|(t' & fr' & X1 & X2 & Et & Hp)]]; try discriminate. injection Et as <-. apply Hp. }
    destruct (sentence_accepted eps ne fs pg su _ Hd) as (ev2 & tr & w' & Ha).
    destruct Ha as (e1 & f1 & w1 & e2 & C & D & _). pose proof (setup_det fs pg su) as det.
    destruct (halted_longest _ _ _ _ det _ _ _ _ _ C (fun ev fr w' X => ltac:(destruct (det _ _ _ _ _ _ _ _ X D) as (_ & Y & _); discriminate)) _ _ _ Hm') as (e3 & _ & X).
    destruct X as [fr' v'|fr' v' ev3 fr2 w2 ev4 fr3 w3 X _]; eauto.
Qed.
End Productive.
End Errors.

Lemma glr_error_exact : forall k m g allow r tb, wf_grammar g -> generates k m g allow = Ok r -> table_of_result r tb -> forall p, glr_write_parser g tb = Ok p -> epsilon_in_front g -> no_empty_rhs g -> all_productive g ->
  forall fuel w ev e, glr_parse fuel p w = (ev, Err e) ->
  exists consumed rest, w = consumed ++ rest /\ errors e <> [] /\ (forall got expected, In (got, expected) (errors e) -> got = hd_error rest) /\
    (exists v, derives (g_rules g) [g_entry g] (consumed ++ v)) /\ forall rest', hd_error rest' = hd_error rest -> ~ derives (g_rules g) [g_entry g] (consumed ++ rest').
Proof.
  intros k m g allow r tb wf gen tbr p wrt eps ne pr fuel w ev e H.
  destruct (gresult k m g allow r tb wf gen tbr p wrt) as (fs & pg & fc & au & tf & gw & HR & _). specialize (HR fuel w). rewrite H in HR. cbn [result_of_run app] in HR.
  destruct HR as (Hna & _ & v & M & Hd & -> & Hm & _ & HM & _). destruct M as [|[fr e'] M]; [contradiction|]. destruct (HM fr e' (or_introl eq_refl)) as [X _].
  destruct (msteps_sound _ _ _ _ _ _ _ _ _ X (va_nil _ _)) as [_ Y]. change (iyields (trees [])) with (@nil N) in Y. cbn [app] in Y. set (u := iyields (trees fr)) in *. subst w.
  exists u, v. split; auto. rewrite errors_comb. split; [discriminate|]. split; [|split].
  - intros got ex Hg. apply in_map_iff in Hg. destruct Hg as (c & [= <- _] & _). auto.
  - apply (stack_viable g wf _ (kind_n_le k) fs fc _ pg au pr fr). eapply msteps_valid; eauto. constructor.
  - intros v' Ev Hder. apply (parse_tree_derives g _ wf) in Hder. destruct Hder as (tr & Htr & Ey).
    assert (exists ev' tr' w', maccept g (kind_n k) (kind_lalr k) pg [] (u ++ v') ev' tr' w') as (ev' & tr' & w' & Ha).
    { rewrite <- Ey. destruct (complete_tree g wf _ (kind_n_le k) fs fc _ pg au eps (fun _ => ne) tr Htr) as [Z|[_ Z]]; eauto. }
    eapply (dead_prefix _ _ _ _ u v Hna Hd v'); eauto.
Qed.
