(** The GLR property theorems, proved from the analysis of runs. *)
From Coq Require Import String List Arith NArith Bool Lia Relations FinFun.
From Verif Require Import Base InputModel GrammarModel GrammarSpec GrammarProof LLModel LLSpec SententialProof SetsProof FirstProof LRModel LRSpec BidiProof ItemProof LRItemsProof LRGraphProof AutomatonProof LRTableProof LRWriteProof LRGenProof LRConflictProof LRRunProof LRCompleteProof LRFactsProof GLRModel GLRSpec GLRWriteProof GLRStepProof GLRSimProof GLRProof.
Import ListNotations.
Local Open Scope nat_scope.
Local Open Scope list_scope.

(** ** Runs only look at the next token *)

Section Runs.
Variables (g : grammar) (n : nat) (lalr : bool) (pg : lr_graph).
Notation mstep := (mstep g n lalr pg).
Notation msteps := (msteps g n lalr pg).
Notation maccept := (maccept g n lalr pg).
Notation valid := (valid g pg).

Lemma mstep_peek : forall fr w ev o w', mstep fr w ev o w' ->
  (exists fr' k, o = inl fr' /\ ev = [EReduce k] /\ w' = w /\ forall v, peek v = peek w -> mstep fr v ev o v) \/
  (exists tr k, o = inr tr /\ ev = [EReduce k] /\ w' = w /\ forall v, peek v = peek w -> mstep fr v ev o v) \/
  (exists t fr', o = inl fr' /\ ev = [EShift (Some t)] /\ w = t :: w' /\ forall v, mstep fr (t :: v) ev o v).
Proof.
  intros fr w ev o w' H. destruct H as [t w q He|w S x k r i fr1 fr2 S2 y q HS Hc Hr Hk Hh He Hne|w S x k r i fr1 fr2 S2 y HS Hc Hr Hk Hh Ht Hi].
  - right. right. exists t. eexists. split; [reflexivity|]. split; auto. split; auto. intros v. constructor. auto.
  - left. eexists _, k. split; [reflexivity|]. split; auto. split; auto. intros v Ev. eapply ms_reduce; rewrite ?Ev; eauto.
  - right. left. eexists _, k. split; [reflexivity|]. split; auto. split; auto. intros v Ev. eapply ms_accept; rewrite ?Ev; eauto.
Qed.

Lemma suffix_of : forall fr w ev fr' w', msteps fr w ev fr' w' -> exists u, w = u ++ w'.
Proof. exact (msteps_suffix g n lalr pg). Qed.

Lemma msteps_prefix : forall fr w ev fr' w', msteps fr w ev fr' w' -> forall u v v', w = u ++ v -> length v <= length w' -> peek v = peek v' ->
  exists u', w' = u' ++ v /\ msteps fr (u ++ v') ev fr' (u' ++ v').
Proof.
  intros fr w ev fr' w' H. induction H as [fr w|fr w ev fr1 w1 ev' fr' w' H1 H2 IH]; intros u v v' E Hl Ep.
  - exists u. split; auto. constructor.
  - destruct (mstep_peek _ _ _ _ _ H1) as [(fr1' & k & [= <-] & -> & -> & Hv)|[(tr & k & X & _)|(t & fr1' & [= <-] & -> & -> & Hv)]]; [|discriminate|].
    + destruct (IH u v v' E Hl Ep) as (u' & -> & Hm). exists u'. split; auto. econstructor; eauto. apply Hv. subst w. destruct u; auto.
    + destruct u as [|t' u].
      * exfalso. cbn [app] in E. subst v. destruct (suffix_of _ _ _ _ _ H2) as [z ->]. cbn [length] in Hl. rewrite app_length in Hl. lia.
      * injection E as -> ->. destruct (IH u v v' eq_refl Hl Ep) as (u' & -> & Hm). exists u'. split; auto. apply (mt_step _ _ _ _ fr ((t' :: u) ++ v') [EShift (Some t')] fr1 (u ++ v') ev'); auto. apply Hv.
Qed.

(** If no run consumes the token behind [u], then no accepting run on an input which starts alike exists. *)
Lemma dead_prefix : forall u v, (forall ev tr w', ~ maccept [] (u ++ v) ev tr w') -> dead g n lalr pg (u ++ v) v ->
  forall v' ev tr w', peek v' = peek v -> maccept [] (u ++ v') ev tr w' -> False.
Proof.
  intros u v Hna Hd v' ev tr w' Ep (e1 & f1 & w1 & e2 & A & B & _).
  assert (w' = w1 /\ exists k, e2 = [EReduce k]) as [-> (k & ->)] by (inversion B; subst; eauto).
  destruct (le_lt_dec (length v') (length w1)) as [Hl|Hl].
  - destruct (msteps_prefix _ _ _ _ _ A u v' v eq_refl Hl Ep) as (u' & -> & Hm). apply (Hna (e1 ++ [EReduce k]) tr (u' ++ v)). exists e1, f1, (u' ++ v), [EReduce k]. split; auto. split; auto.
    destruct (mstep_peek _ _ _ _ _ B) as [(fr' & k' & X & _)|[(tr' & k' & [= <-] & _ & _ & Hv)|(t & fr' & X & _)]]; try discriminate. apply Hv. destruct u'; auto.
  - assert (forall fr ev fr' w', msteps fr (u ++ v') ev fr' w' -> length w' < length v' -> exists ev1 fr1 o, msteps fr (u ++ v') ev1 fr1 v' /\ mstep fr1 v' [EShift (peek v')] o (tl v')) as HC.
    { intros fr e fr' w' H. remember (u ++ v') as w eqn:E. clear -E H. revert u E. induction H as [fr w|fr w e fr1 w1 e' fr' w' H1 H2 IH]; intros u E Hl.
      - exfalso. subst w. rewrite app_length in Hl. lia.
      - destruct (mstep_peek _ _ _ _ _ H1) as [(fr1' & k & [= <-] & -> & -> & Hv)|[(tr & k & X & _)|(t & fr1' & [= <-] & -> & -> & Hv)]]; [|discriminate|].
        + destruct (IH u E Hl) as (ev1 & fr2 & o & P & Q). exists ([EReduce k] ++ ev1), fr2, o. split; auto. econstructor; eauto.
        + destruct u as [|t' u].
          * cbn [app] in E. subst v'. exists [], fr, (inl fr1). split; [constructor|exact H1].
          * injection E as -> ->. destruct (IH u eq_refl Hl) as (ev1 & fr2 & o & P & Q). exists ([EShift (Some t')] ++ ev1), fr2, o. split; auto. econstructor; eauto. }
    destruct (HC _ _ _ _ A Hl) as (ev1 & fr1 & o & P & Q). destruct (msteps_prefix _ _ _ _ _ P u v' v eq_refl (le_n _) Ep) as (u' & Eu & Hm).
    assert (u' = []) as ->. { apply (f_equal (@length N)) in Eu. rewrite app_length in Eu. destruct u'; auto. cbn [length] in Eu. lia. }
    cbn [app] in Hm. destruct (Hd _ _ Hm) as [X _].
    destruct (mstep_peek _ _ _ _ _ Q) as [(fr' & k' & _ & Y & _)|[(tr' & k' & _ & Y & _)|(t & fr' & -> & Y & Ev & Hv)]]; try discriminate.
    assert (peek v = Some t) as Ev' by (rewrite <- Ep, Ev; auto). destruct v as [|t' v]; [discriminate|]. injection Ev' as ->. apply (X (inl fr') v). cbn [peek hd_error]. rewrite <- Y. apply Hv.
Qed.

Lemma msteps_sound : forall fr w ev fr' w', msteps fr w ev fr' w' -> valid fr -> post_orders (trees fr') = post_orders (trees fr) ++ ev /\ iyields (trees fr) ++ w = iyields (trees fr') ++ w'.
Proof.
  intros fr w ev fr' w' H. induction H as [fr w|fr w ev fr1 w1 ev' fr' w' H1 H2 IH]; intros Hv; [rewrite app_nil_r; auto|].
  destruct (mstep_valid _ _ _ _ _ _ _ _ _ Hv H1) as (Hv1 & A & B). destruct (IH Hv1) as (C & D). rewrite C, A, app_assoc. split; auto. rewrite B. auto.
Qed.

Lemma maccept_sound : wf_grammar g -> forall fs, automaton g n fs lalr pg -> forall w ev tr w', maccept [] w ev tr w' -> parse_tree g tr /\ ev = post_order tr /\ w = iyield tr ++ w'.
Proof.
  intros wf fs au w ev tr w' (e1 & f1 & w1 & e2 & A & B & ->). assert (valid []) as Hv by constructor. destruct (msteps_sound _ _ _ _ _ A Hv) as [P Q]. pose proof (msteps_valid _ _ _ _ _ _ _ _ _ A Hv) as Hv1.
  destruct (mstep_accept _ wf _ _ _ _ au _ _ _ _ _ Hv1 B) as (C & D & E). split; auto. cbn in P, Q. rewrite P in D. split; auto. rewrite Q. auto.
Qed.

(** Runs of a deterministic automaton. *)
Section Linear.
Hypothesis det : forall fr w ev o w' ev' o' w'', mstep fr w ev o w' -> mstep fr w ev' o' w'' -> ev = ev' /\ o = o' /\ w' = w''.

Lemma msteps_linear : forall fr w e1 f1 w1, msteps fr w e1 f1 w1 -> forall e2 f2 w2, msteps fr w e2 f2 w2 ->
  (exists e, e2 = e1 ++ e /\ msteps f1 w1 e f2 w2) \/ (exists e, e1 = e2 ++ e /\ msteps f2 w2 e f1 w1).
Proof.
  intros fr w e1 f1 w1 H. induction H as [fr w|fr w ev fr1 w1 ev' fr' w' H1 H2 IH]; intros e2 f2 w2 H'.
  - left. exists e2. auto.
  - destruct H' as [fr w|fr w ev2 fr2 w2' ev2' fr2' w2 H1' H2'].
    + right. exists (ev ++ ev'). split; auto. econstructor; eauto.
    + destruct (det _ _ _ _ _ _ _ _ H1 H1') as (<- & [= <-] & <-). destruct (IH _ _ _ H2') as [(e & -> & X)|(e & -> & X)]; [left|right]; exists e; rewrite app_assoc; auto.
Qed.

Lemma halted_longest : forall fr w e1 f1 w1, msteps fr w e1 f1 w1 -> (forall ev fr2 w2, ~ mstep f1 w1 ev (inl fr2) w2) -> forall e2 f2 w2, msteps fr w e2 f2 w2 -> exists e, e1 = e2 ++ e /\ msteps f2 w2 e f1 w1.
Proof.
  intros fr w e1 f1 w1 H Hs e2 f2 w2 H'. destruct (msteps_linear _ _ _ _ _ H _ _ _ H') as [(e & -> & X)|X]; auto.
  destruct X as [fr' w'|fr' w' ev fr2' w2' ev' fr3 w3 X _]; [exists []; rewrite !app_nil_r; split; auto; constructor|destruct (Hs _ _ _ X)].
Qed.
End Linear.
End Runs.

(** ** Parse trees of grammars without empty and cyclic rules *)

Section Size.
Variable g : grammar.
Hypothesis ne : no_empty_rules g.
Hypothesis ac : acyclic g.
Let R := g_rules g.
Let K := length R.
Let keep (s : symbol) : bool := match s with Epsilon => false | _ => true end.

Definition size (t : itree) : nat := length (post_order t).
Definition sizes (ts : list itree) : nat := length (post_orders ts).

Lemma iparses_filter : forall al ts, iparses R al ts -> length ts = length (filter keep al).
Proof. intros al ts H. induction H; cbn; congruence. Qed.

Lemma heads_bound : forall seen, NoDup seen -> (forall i, In i seen -> exists r, In r R /\ r_lhs r = Some i) -> length seen <= K.
Proof.
  intros seen H1 H2. assert (length (map Some seen) <= length (map r_lhs R)) as X; [|rewrite !map_length in X; exact X].
  apply NoDup_incl_length.
  - apply FinFun.Injective_map_NoDup; auto. intros a b [= ->]. auto.
  - intros x Hx. apply in_map_iff in Hx. destruct Hx as (i & <- & Hi). destruct (H2 i Hi) as (r & Hr & <-). apply in_map. auto.
Qed.

Lemma sizes_cons : forall t ts, sizes (t :: ts) = size t + sizes ts.
Proof. intros t ts. unfold sizes, size, post_orders. cbn [map concat]. apply app_length. Qed.
Lemma iyields_cons : forall t ts, iyields (t :: ts) = iyield t ++ iyields ts.
Proof. reflexivity. Qed.

(** All trees of a right-hand side with at least one symbol have leaves. *)
Definition bounded (ts : list itree) : Prop := length ts <= length (iyields ts) /\ sizes ts + (K + 1) * length ts <= (K + 1) * (2 * length (iyields ts)).

Lemma trees_bounded : forall al ts, iparses R al ts -> bounded ts /\
  forall i, filter keep al = [NonTerminal i] -> forall seen, NoDup seen -> (forall j, In j seen -> (exists r, In r R /\ r_lhs r = Some j) /\ clos_trans N (unit_rule g) j i) ->
    sizes ts + length seen + (K + 1) <= (K + 1) * (2 * length (iyields ts)).
Proof.
  intros al ts H. induction H as [|al ts H IH|t al ts H IH|k r i al cs ts Hr Hl Hc IHc H IH].
  - split; [split; cbn; lia|]. intros i X. discriminate.
  - exact IH.
  - split; [|intros i X; discriminate]. destruct IH as [[A B] _]. unfold bounded. rewrite sizes_cons, iyields_cons. cbn [iyield app length]. unfold size. cbn [post_order length]. split; lia.
  - destruct IHc as [[A B] U]. destruct IH as [[A' B'] _]. pose proof (iparses_filter _ _ Hc) as Hlen.
    assert (In r R) as Hin by (eapply nth_error_In; eauto).
    assert (1 <= length cs) as H1. { rewrite Hlen. destruct (ne r Hin) as (s & Hs & Es). destruct (filter keep (r_rhs r)) eqn:E; [|cbn; lia]. assert (In s (filter keep (r_rhs r))) as X by (apply filter_In; split; auto; destruct s; auto; contradiction). rewrite E in X. destruct X. }
    assert (size (INode k cs) = sizes cs + 1) as Es by (unfold size, sizes; cbn [post_order]; rewrite app_length; auto).
    assert (iyield (INode k cs) = iyields cs) as Ey by reflexivity.
    assert (forall seen, NoDup seen -> (forall j, In j seen -> (exists r, In r R /\ r_lhs r = Some j) /\ clos_trans N (unit_rule g) j i) -> size (INode k cs) + length seen + (K + 1) <= (K + 1) * (2 * length (iyields cs))) as HN.
    { intros seen Hn Hs. rewrite Es.
      assert (NoDup (i :: seen)) as Hn'. { constructor; auto. intros X. destruct (Hs i X) as [_ Y]. apply (ac i Y). }
      assert (length (i :: seen) <= K) as Hk. { apply heads_bound; auto. intros j [<-|Hj]; [exists r; auto|apply (Hs j Hj)]. }
      cbn [length] in Hk. destruct cs as [|c [|c' cs]].
      - cbn in H1. lia.
      - destruct (filter keep (r_rhs r)) as [|s [|s' l]] eqn:Ef; cbn [length] in Hlen; try discriminate. destruct s as [| |j|t].
        + exfalso. clear -Hc Ef. assert (forall al ts, iparses R al ts -> filter keep al <> [Epsilon]) as X; [|apply (X _ _ Hc Ef)].
          intros al ts H. induction H; cbn; auto; discriminate.
        + exfalso. clear -Hc Ef. assert (forall al ts, iparses R al ts -> ~ In End (filter keep al)) as X; [|apply (X _ _ Hc); rewrite Ef; left; auto].
          intros al ts H. induction H; cbn; auto; intros [Y|Y]; try discriminate; auto.
        + assert (unit_rule g i j) as Hu by (exists r; auto). specialize (U j eq_refl (i :: seen) Hn'). cbn [length] in U.
          assert (sizes [c] + Datatypes.S (length seen) + (K + 1) <= (K + 1) * (2 * length (iyields [c]))) as X; [|lia].
          apply U. intros j' [<-|Hj']; [split; [exists r; auto|apply t_step; auto]|]. destruct (Hs j' Hj') as [X Y]. split; auto. eapply t_trans; [exact Y|apply t_step; auto].
        + clear U. assert (sizes [c] = 1) as E1.
          { assert (forall al ts, iparses R al ts -> filter keep al = [Terminal t] -> sizes ts = 1) as X; [|apply (X _ _ Hc Ef)].
            clear. intros al ts H. induction H as [|al ts H IH|t' al ts H IH|k r i al cs ts Hr Hl Hc IHc H IH]; intros E; try discriminate; auto.
            cbn in E. injection E as -> E. pose proof (iparses_filter _ _ H) as L. fold keep in E. rewrite E in L. destruct ts; [reflexivity|discriminate]. }
          rewrite E1. nia.
      - cbn [length] in A, B. clear U. nia. }
    split.
    + specialize (HN [] (NoDup_nil _) ltac:(intros j [])). cbn [length] in HN. unfold bounded. rewrite sizes_cons, iyields_cons, app_length, Ey. cbn [length]. split; [lia|nia].
    + intros i' E seen Hn Hs. cbn [filter keep] in E. injection E as <- E. pose proof (iparses_filter _ _ H) as L. rewrite E in L. destruct ts; [|discriminate].
      rewrite sizes_cons, iyields_cons, app_length, Ey. change (sizes []) with 0. change (length (iyields [])) with 0. rewrite !Nat.add_0_r. exact (HN seen Hn Hs).
Qed.

Lemma sizes_bound : forall al ts, iparses R al ts -> sizes ts <= 2 * (K + 1) * length (iyields ts).
Proof. intros al ts H. destruct (trees_bounded _ _ H) as [[_ B] _]. nia. Qed.
End Size.

(** ** Theorems *)

Lemma fresh_not_left_recursive : forall g, entry_fresh g -> ~ entry_left_recursive g.
Proof.
  intros g Hf (i & Ei & H). apply clos_trans_tn1 in H. assert (exists j, left_corner g j i) as (j & r & m & al & Hr & _ & E) by (destruct H; eauto).
  apply (Hf r Hr). rewrite Ei, E. apply in_or_app. right. left. auto.
Qed.

Section Facts.
Variables (k : table_kind) (m : nat) (g : grammar) (allow : bool) (r : generation_result) (tb : lr_table).
Hypothesis wf : wf_grammar g.
Hypothesis gen : generates k m g allow = Ok r.
Hypothesis tor : table_of_result r tb.

Lemma gsetup : exists fs pg, (kind_n k = 1 -> first_sets_correct g fs) /\ automaton g (kind_n k) fs (kind_lalr k) pg /\ table_of g (kind_n k) pg tb.
Proof.
  destruct (generate_inv g wf _ _ _ _ _ (kind_n_le k) gen) as (fs & pg & cs & A & B & C & D). exists fs, pg. split; auto. split; auto. destruct D; inversion tor; subst; auto.
Qed.

Lemma glr_writes : exists p, glr_write_parser g tb = Ok p.
Proof.
  destruct gsetup as (fs & pg & fc & au & tf). apply glr_write_total; auto; [apply (tf_ok _ _ _ _ tf)|].
  intros q s Hq Hs X. rewrite (tf_states _ _ _ _ tf) in Hq. apply (gi_nodes _ _ _ _ _ (au_inv _ _ _ _ _ au)) in Hq. destruct Hq as [S HS].
  assert (In s (columns g)) as Hc by (apply goto_columns_in; apply in_or_app; auto).
  apply (cell_reduce g _ (kind_n_le k) fs _ pg au tb tf q S s _ HS Hc) in X.
  destruct X as (it & (I1 & I2 & _) & I3). destruct (entry_rule_item g wf _ fs _ pg au _ _ _ HS I1 I3) as [_ ->]. rewrite (entry_item_next g wf) in I2. discriminate.
Qed.

Variable p : glr_parser.
Hypothesis wrt : glr_write_parser g tb = Ok p.

Lemma gresult : exists fs pg, (kind_n k = 1 -> first_sets_correct g fs) /\ automaton g (kind_n k) fs (kind_lalr k) pg /\ table_of g (kind_n k) pg tb /\ gwritten g tb p /\
  (forall fuel w, let '(ev, r) := glr_parse fuel p w in result_of_run g (kind_n k) (kind_lalr k) pg tb w [] ev r) /\
  (forall B fuel w, (forall ev fr w', msteps g (kind_n k) (kind_lalr k) pg [] w ev fr w' -> length ev <= B) -> B + 1 < fuel -> length w + 2 <= fuel -> snd (glr_parse fuel p w) <> OutOfFuel).
Proof.
  destruct gsetup as (fs & pg & fc & au & tf). exists fs, pg. pose proof (glr_write_spec g wf tb (tf_ok _ _ _ _ tf) p wrt) as gw. split; auto. split; auto. split; auto. split; auto. split.
  - intros fuel w. apply (parse_result g wf _ (kind_n_le k) fs _ pg au tb tf p gw).
  - intros B fuel w. apply (parse_terminates g wf _ (kind_n_le k) fs _ pg au tb tf p gw).
Qed.

Lemma glr_sound : forall fuel w ev out, glr_parse fuel p w = (ev, Ok out) -> exists tr rest, parse_tree g tr /\ ev = post_order tr /\ w = iyield tr ++ rest /\ out = tl rest.
Proof.
  intros fuel w ev out H. destruct gresult as (fs & pg & fc & au & tf & gw & HR & _). specialize (HR fuel w). rewrite H in HR. destruct HR as (tr & w' & A & -> & _).
  destruct (maccept_sound _ _ _ _ wf fs au _ _ _ _ A) as (P & Q & R). exists tr, w'. auto.
Qed.

Section Complete.
Hypothesis eps : epsilon_in_front g.
Hypothesis ne : no_empty_rhs g.

Lemma glr_error_sound : forall fuel w ev e, glr_parse fuel p w = (ev, Err e) ->
  exists consumed rest, w = consumed ++ rest /\ errors e <> [] /\ (forall got expected, In (got, expected) (errors e) -> got = hd_error rest) /\
    forall rest', hd_error rest' = hd_error rest -> ~ derives (g_rules g) [g_entry g] (consumed ++ rest').
Proof.
  intros fuel w ev e H. destruct gresult as (fs & pg & fc & au & tf & gw & HR & _). specialize (HR fuel w). rewrite H in HR. cbn [result_of_run app] in HR.
  destruct HR as (Hna & _ & v & M & Hd & -> & Hm & _ & HM & _).
  assert (exists u, w = u ++ v) as [u ->]. { destruct M as [|[fr e'] M]; [contradiction|]. destruct (HM fr e' (or_introl eq_refl)) as [X _]. eapply suffix_of; eauto. }
  exists u, v. split; auto. rewrite errors_comb. split; [destruct M; [contradiction|discriminate]|]. split.
  - intros got ex Hg. apply in_map_iff in Hg. destruct Hg as (c & [= <- _] & _). auto.
  - intros v' Ev Hder. apply (parse_tree_derives g _ wf) in Hder. destruct Hder as (tr & Htr & Ey).
    assert (exists ev' tr' w', maccept g (kind_n k) (kind_lalr k) pg [] (u ++ v') ev' tr' w') as (ev' & tr' & w' & Ha).
    { rewrite <- Ey. destruct (complete_tree g wf _ (kind_n_le k) fs fc _ pg au eps (fun _ => ne) tr Htr) as [X|[_ X]]; eauto. }
    eapply (dead_prefix _ _ _ _ u v Hna Hd v'); eauto.
Qed.

Lemma glr_rejects : forall fuel w ev e, glr_parse fuel p w = (ev, Err e) -> ~ derives (g_rules g) [g_entry g] w.
Proof. intros fuel w ev e H. destruct (glr_error_sound _ _ _ _ H) as (u & v & -> & _ & _ & X). apply X. auto. Qed.

Section Sealed.
Hypothesis sl : sealed k g.

Lemma sealed_accepts : forall fs pg, (kind_n k = 1 -> first_sets_correct g fs) -> automaton g (kind_n k) fs (kind_lalr k) pg ->
  (forall w ev tr w', maccept g (kind_n k) (kind_lalr k) pg [] w ev tr w' -> w' = [] /\ parse_tree g tr /\ ev = post_order tr /\ iyield tr = w) /\
  (forall tr, parse_tree g tr -> maccept g (kind_n k) (kind_lalr k) pg [] (iyield tr) (post_order tr) tr []).
Proof.
  intros fs pg fc au.
  assert (~ entry_left_recursive g) as nl by (destruct sl as [[_ X]|[_ X]]; [auto|apply fresh_not_left_recursive; auto]).
  assert (~ entry_rec g pg) as nr by (intros X; apply nl; exact (entry_rec_left g wf _ (kind_n_le k) fs fc _ pg au X)).
  split.
  - intros w ev tr w' H. assert (w' = []) as ->.
    { destruct sl as [[Ek _]|[Ek Hf]].
      - eapply (accept_end_lr1 g wf _ (kind_n_le k) fs fc _ pg au); eauto; [subst k; auto|subst k; auto|constructor].
      - eapply (accept_end_fresh g wf _ (kind_n_le k) fs fc _ pg au); eauto; [destruct k; auto; contradiction|constructor]. }
    destruct (maccept_sound _ _ _ _ wf fs au _ _ _ _ H) as (P & Q & R). rewrite app_nil_r in R. auto.
  - intros tr H. destruct (complete_tree g wf _ (kind_n_le k) fs fc _ pg au eps (fun _ => ne) tr H) as [X|[X _]]; [auto|contradiction].
Qed.

Lemma glr_exact : forall fuel w,
  match glr_parse fuel p w with
  | (ev, Ok out) => out = [] /\ exists tr, parse_tree g tr /\ iyield tr = w /\ ev = post_order tr /\ forall tr', parse_tree g tr' -> iyield tr' = w -> tr' = tr
  | (_, Err _) => ~ derives (g_rules g) [g_entry g] w
  | (_, Panic) => ambiguous_sentence g w
  | (_, OutOfFuel) => True
  end.
Proof.
  intros fuel w. destruct gresult as (fs & pg & fc & au & tf & gw & HR & _). destruct (sealed_accepts fs pg fc au) as [SA SC]. specialize (HR fuel w). destruct (glr_parse fuel p w) as [ev [out|e| |]] eqn:E; auto.
  - destruct HR as (tr & w' & A & -> & B). destruct (SA _ _ _ _ A) as (-> & P & Q & R). split; auto. exists tr. split; auto. split; auto. split; auto.
    intros tr' P' R'. specialize (SC tr' P'). rewrite R' in SC. destruct (B _ _ _ SC) as (_ & X & _). auto.
  - eapply glr_rejects; eauto.
  - destruct HR as (ev1 & tr1 & w1 & A & [(ev2 & tr2 & B & C)|(ev2 & fr2 & o & w2 & B & C)]).
    + destruct (SA _ _ _ _ A) as (-> & P & Q & R). destruct (SA _ _ _ _ B) as (_ & P' & Q' & R'). exists tr1, tr2. split; auto. split; auto. split; auto. split; auto. intros ->. apply C. congruence.
    + destruct (SA _ _ _ _ A) as (-> & _). inversion C.
Qed.
End Sealed.
End Complete.

Lemma runs_bounded : no_empty_rules g -> acyclic g -> forall fs pg, automaton g (kind_n k) fs (kind_lalr k) pg -> forall w ev fr w', msteps g (kind_n k) (kind_lalr k) pg [] w ev fr w' -> length ev <= 2 * (length (g_rules g) + 1) * length w.
Proof.
  intros ne ac fs pg au w ev fr w' H. assert (valid g pg []) as Hv by constructor. destruct (msteps_sound _ _ _ _ _ _ _ _ _ H Hv) as [P Q]. pose proof (msteps_valid _ _ _ _ _ _ _ _ _ H Hv) as Hv'.
  pose proof (valid_iparses _ _ _ Hv') as Hp. pose proof (sizes_bound g ne ac _ _ Hp) as B. unfold sizes in B. rewrite P in B. cbn [app post_orders trees map rev concat] in B. cbn in Q. rewrite Q, app_length. nia.
Qed.

Lemma glr_terminates : no_empty_rules g -> acyclic g -> forall fuel w, glr_bound g w <= fuel -> snd (glr_parse fuel p w) <> OutOfFuel.
Proof.
  intros ne ac fuel w Hf. destruct gresult as (fs & pg & fc & au & tf & gw & _ & HT). unfold glr_bound in Hf. apply (HT (2 * (length (g_rules g) + 1) * length w)); [|lia|lia].
  intros ev fr w' H. eapply runs_bounded; eauto.
Qed.
End Facts.

(** ** Conflict-free tables *)

Section Agree.
Variables (k : table_kind) (m : nat) (g : grammar) (allow : bool) (tb : lr_table) (lp : lr_parser) (gp : glr_parser).
Hypothesis wf : wf_grammar g.
Hypothesis gen : generates k m g allow = Ok (NoConflicts tb).
Hypothesis lwrt : write_parser g tb = Ok lp.
Hypothesis gwrt : glr_write_parser g tb = Ok gp.

Record both (fs : symbol_sets) (pg : lr_graph) : Prop := {
  bo_au : automaton g (kind_n k) fs (kind_lalr k) pg;
  bo_tf : table_of g (kind_n k) pg tb;
  bo_wr : written g tb lp;
  bo_entry : lp_entry lp = 0;
  bo_det : forall fr w ev o w' ev' o' w'', mstep g (kind_n k) (kind_lalr k) pg fr w ev o w' -> mstep g (kind_n k) (kind_lalr k) pg fr w ev' o' w'' -> ev = ev' /\ o = o' /\ w' = w'';
  bo_result : forall fuel w, let '(ev, r) := glr_parse fuel gp w in result_of_run g (kind_n k) (kind_lalr k) pg tb w [] ev r;
  bo_fuel : forall B fuel w, (forall ev fr w', msteps g (kind_n k) (kind_lalr k) pg [] w ev fr w' -> length ev <= B) -> B + 1 < fuel -> length w + 2 <= fuel -> snd (glr_parse fuel gp w) <> OutOfFuel
}.

Lemma both_ex : exists fs pg, both fs pg.
Proof.
  destruct (generate_inv g wf _ _ _ _ _ (kind_n_le k) gen) as (fs & pg & cs & A & au & C & D). inversion D as [tb' Ecs tf E| |]; subst. exists fs, pg.
  pose proof (write_parser_spec g wf tb (tf_ok _ _ _ _ tf) lp lwrt) as wr. pose proof (glr_write_spec g wf tb (tf_ok _ _ _ _ tf) gp gwrt) as gw.
  split; auto.
  - rewrite (wr_entry _ _ _ wr). apply (tf_entry _ _ _ _ tf).
  - intros fr w ev o w' ev' o' w''. apply (mstep_det g _ fs _ pg au). apply (no_conflict_iff g _ fs (kind_lalr k) pg [] (kind_n_le k) au C). auto.
  - intros fuel w. apply (parse_result g wf _ (kind_n_le k) fs _ pg au tb tf gp gw).
  - intros B fuel w. apply (parse_terminates g wf _ (kind_n_le k) fs _ pg au tb tf gp gw).
Qed.

Section Graph.
Variables (fs : symbol_sets) (pg : lr_graph).
Hypothesis bo : both fs pg.
Notation mstep := (mstep g (kind_n k) (kind_lalr k) pg).
Notation msteps := (msteps g (kind_n k) (kind_lalr k) pg).
Notation maccept := (maccept g (kind_n k) (kind_lalr k) pg).
Notation valid := (valid g pg).
Let n_le := kind_n_le k.
Let au := bo_au _ _ bo.
Let tf := bo_tf _ _ bo.
Let wr := bo_wr _ _ bo.
Let det := bo_det _ _ bo.

Lemma driver_error_inv : forall fuel fr w ev e, valid fr -> lr_run fuel lp (concrete fr) w = (ev, Err e) ->
  exists fr' w', msteps fr w ev fr' w' /\ (forall ev o w'', ~ mstep fr' w' ev o w'') /\ e = UnexpectedTok (peek w') (expected_of g tb (top fr')).
Proof.
  induction fuel as [|fuel IH]; intros fr w ev e Hv H; [discriminate|].
  destruct (driver_cases g wf _ n_le fs _ pg au tb tf lp wr fr w Hv) as [(ev1 & o & w1 & Hm)|[He Hc]].
  - rewrite (driver_step g wf _ n_le fs _ pg au tb tf lp wr fr w ev1 o w1 Hv Hm) in H. destruct o as [fr'|tr].
    + destruct (lr_run fuel lp (concrete fr') w1) as [ev2 r2] eqn:E2. injection H as <- ->. destruct (mstep_valid _ _ _ _ _ _ _ _ _ Hv Hm) as (V1 & _).
      destruct (IH fr' w1 ev2 e V1 E2) as (fr2 & w2 & A & B & C). exists fr2, w2. split; auto. econstructor; eauto.
    + rewrite lr_run_nil in H. destruct fuel; discriminate.
  - rewrite He in H. injection H as <- <-. exists fr, w. split; [constructor|]. split; auto. intros ev o w' Hm. pose proof (driver_step g wf _ n_le fs _ pg au tb tf lp wr fr w ev o w' Hv Hm 0) as X.
    rewrite He in X. destruct o; discriminate.
Qed.

Lemma driver_error : forall fr w ev fr' w', msteps fr w ev fr' w' -> valid fr -> (forall ev o w'', ~ mstep fr' w' ev o w'') -> forall fuel, length ev < fuel ->
  lr_run fuel lp (concrete fr) w = (ev, Err (UnexpectedTok (peek w') (expected_of g tb (top fr')))).
Proof.
  intros fr w ev fr' w' H. induction H as [fr w|fr w e3 f3 w3 e4 f4 w4 A1 A2 IH]; intros Hv Hs fuel Hf.
  - destruct fuel as [|fuel]; [lia|]. destruct (driver_cases g wf _ n_le fs _ pg au tb tf lp wr fr w Hv) as [(ev1 & o & w1 & Hm)|[He _]]; [destruct (Hs _ _ _ Hm)|]. apply He.
  - pose proof (mstep_events _ _ _ _ _ _ _ _ _ A1) as L. rewrite app_length, L in Hf. destruct fuel as [|fuel]; [lia|].
    rewrite (driver_step g wf _ n_le fs _ pg au tb tf lp wr _ _ _ _ _ Hv A1). rewrite IH; auto; [eapply mstep_valid; eauto|lia].
Qed.

Lemma parse_start : forall fuel w, lr_parse fuel lp w = lr_run fuel lp (concrete []) w.
Proof. intros fuel w. unfold lr_parse. rewrite (bo_entry _ _ bo). reflexivity. Qed.

Lemma two_runs_not : forall w0 w, ~ two_runs g (kind_n k) (kind_lalr k) pg w0 w.
Proof.
  intros w0 w (ev1 & fr1 & ev2 & fr2 & A & B & E1 & E2 & Hne).
  assert (forall e1 f1 e2 f2, msteps f1 w e1 f2 w -> ends (e2 ++ e1) -> ends e2 -> e1 = []) as HX.
  { intros e1 f1 e2 f2 H Ha Hb. destruct (msteps_last _ _ _ _ _ _ _ _ _ H) as [[_ Hr]|(ev1' & fr1' & v & fr2' & x & P & Q & R & _)].
    - apply rsteps_reds in Hr. destruct (ends_split (e2 ++ e1) e2 [] e1) as [_ X]; auto; [constructor|rewrite app_nil_r; auto].
    - exfalso. destruct (msteps_suffix _ _ _ _ _ _ _ _ _ P) as [u Eu]. destruct v as [|t v]; [contradiction|]. cbn [tl] in R. subst v. apply (f_equal (@length N)) in Eu. rewrite app_length in Eu. cbn [length] in Eu. lia. }
  destruct (msteps_linear _ _ _ _ det _ _ _ _ _ A _ _ _ B) as [(e & -> & X)|(e & -> & X)]; [pose proof (HX _ _ ev1 _ X E2 E1)|pose proof (HX _ _ ev2 _ X E1 E2)]; subst e; rewrite app_nil_r in Hne; auto.
Qed.

(** What the automaton does decides both parsers. *)
Lemma halted_accept : forall w ev tr w', maccept [] w ev tr w' -> forall ev2 fr2 w2, msteps [] w ev2 fr2 w2 ->
  length ev2 <= length ev /\ (length w' <= length w2).
Proof.
  intros w ev tr w' (e1 & f1 & w1 & e2 & A & B & ->) ev2 fr2 w2 H.
  assert (forall ev fr w', ~ mstep f1 w1 ev (inl fr) w') as Hs by (intros e fr v X; destruct (det _ _ _ _ _ _ _ _ X B) as (_ & Y & _); discriminate).
  destruct (halted_longest _ _ _ _ det _ _ _ _ _ A Hs _ _ _ H) as (e & -> & X). assert (w' = w1) as -> by (inversion B; subst; auto). destruct (msteps_suffix _ _ _ _ _ _ _ _ _ X) as [u ->]. rewrite !app_length. split; lia.
Qed.

Lemma no_panic : forall fuel w, snd (glr_parse fuel gp w) <> Panic.
Proof.
  intros fuel w H. pose proof (bo_result _ _ bo fuel w) as HR. destruct (glr_parse fuel gp w) as [ev r]. cbn [snd] in H. subst r.
  destruct HR as (ev1 & tr1 & w1 & A & [(ev2 & tr2 & B & C)|(ev2 & fr2 & o & w2 & B & C)]).
  - apply C. assert (exists a b, ev1 = a ++ b) by (exists [], ev1; auto). destruct A as (e1 & f1 & v1 & x1 & A1 & A2 & ->), B as (e2 & f2 & v2 & x2 & B1 & B2 & ->).
    assert (forall f v x tr u, mstep f v x (inr tr) u -> forall ev fr w', ~ mstep f v ev (inl fr) w') as Hs by (intros f v x tr u Y e fr z X; destruct (det _ _ _ _ _ _ _ _ X Y) as (_ & Z & _); discriminate).
    destruct (halted_longest _ _ _ _ det _ _ _ _ _ A1 (Hs _ _ _ _ _ A2) _ _ _ B1) as (e & -> & X). inversion X as [|? ? ? ? ? ? ? ? Y]; subst; [|destruct (Hs _ _ _ _ _ B2 _ _ _ Y)].
    rewrite app_nil_r. destruct (det _ _ _ _ _ _ _ _ A2 B2) as (-> & _). auto.
  - assert (exists fr, o = inl fr) as [fr ->] by (inversion C; subst; eauto). assert (msteps [] w (ev2 ++ [EShift (peek w1)]) fr w2) as X by (eapply msteps_trans; eauto; apply msteps_one; auto).
    destruct (halted_accept _ _ _ _ A _ _ _ X) as [_ L]. inversion C; subst. cbn [length] in L. lia.
Qed.

Lemma agree_ok : forall fuel w ev rest, lr_parse fuel lp w = (ev, Ok rest) -> forall fuel', length w + length ev + 3 <= fuel' -> glr_parse fuel' gp w = (ev, Ok (tl rest)).
Proof.
  intros fuel w ev rest H fuel' Hf. rewrite parse_start in H. destruct (driver_accept_inv g wf _ n_le fs _ pg au tb tf lp wr fuel [] w ev rest (va_nil _ _) H) as [tr Ha].
  pose proof (bo_result _ _ bo fuel' w) as HR. pose proof (no_panic fuel' w) as HP.
  assert (snd (glr_parse fuel' gp w) <> OutOfFuel) as HO. { apply (bo_fuel _ _ bo (length ev)); [|lia|lia]. intros ev2 fr2 w2 X. apply (halted_accept _ _ _ _ Ha _ _ _ X). }
  destruct (glr_parse fuel' gp w) as [ev' [out|e| |]]; cbn [snd] in *; try contradiction.
  - destruct HR as (tr' & w' & A & -> & B). destruct (B _ _ _ Ha) as (-> & -> & ->). reflexivity.
  - destruct HR as [X _]. destruct (X _ _ _ Ha).
Qed.

Lemma stuck_bound : forall w ev fr w', msteps [] w ev fr w' -> (forall ev o w'', ~ mstep fr w' ev o w'') -> forall ev2 fr2 w2, msteps [] w ev2 fr2 w2 -> length ev2 <= length ev.
Proof.
  intros w ev fr w' H Hs ev2 fr2 w2 H2. destruct (halted_longest _ _ _ _ det _ _ _ _ _ H (fun e f v => Hs e (inl f) v) _ _ _ H2) as (e & -> & _). rewrite app_length. lia.
Qed.

Lemma stuck_unique : forall w ev fr w', msteps [] w ev fr w' -> (forall ev o w'', ~ mstep fr w' ev o w'') -> forall ev2 fr2 w2, msteps [] w ev2 fr2 w2 -> (forall ev o w'', ~ mstep fr2 w2 ev o w'') -> ev2 = ev /\ fr2 = fr /\ w2 = w'.
Proof.
  intros w ev fr w' H Hs ev2 fr2 w2 H2 Hs2. destruct (halted_longest _ _ _ _ det _ _ _ _ _ H (fun e f v => Hs e (inl f) v) _ _ _ H2) as (e & -> & X).
  inversion X as [|? ? ? ? ? ? ? ? Y]; subst; [rewrite app_nil_r; auto|destruct (Hs2 _ _ _ Y)].
Qed.

Lemma stuck_no_accept : forall w ev fr w', msteps [] w ev fr w' -> (forall ev o w'', ~ mstep fr w' ev o w'') -> forall ev2 tr w2, ~ maccept [] w ev2 tr w2.
Proof.
  intros w ev fr w' H Hs ev2 tr w2 (e1 & f1 & v1 & x1 & A1 & A2 & ->). destruct (halted_longest _ _ _ _ det _ _ _ _ _ H (fun e f v => Hs e (inl f) v) _ _ _ A1) as (e & -> & X).
  inversion X as [|? ? ? ? ? ? ? ? Y]; subst; [destruct (Hs _ _ _ A2)|]. destruct (det _ _ _ _ _ _ _ _ Y A2) as (_ & Z & _). discriminate.
Qed.

Lemma gexpected_in : forall q t, In t (gexpected g tb q) <-> is_token g t /\ exists e, In e (entries tb q (column t)) /\ acts e.
Proof.
  intros q t. destruct (gexpected_spec g tb q) as [_ HS]. rewrite HS. split.
  - intros (s & e & Hs & He & Ht). assert (column t = s /\ acts e) as [<- Ha].
    { destruct e; simpl in Ht; try (destruct Ht; fail); (destruct (column_token s) as [t'|] eqn:Et; [|destruct Ht]; destruct Ht as [->|[]]; apply column_token_inv in Et; rewrite token_symbol_column in Et; simpl; auto). }
    split; [apply (token_columns_is g wf); auto|]. exists e. auto.
  - intros (Ht & e & He & Ha). exists (column t), e. split; [apply (token_columns_is g wf); auto|]. split; auto. rewrite <- token_symbol_column. destruct e; simpl in Ha; try contradiction; simpl; rewrite column_token_symbol; left; auto.
Qed.

Lemma agree_err : forall fuel w ev got expected, lr_parse fuel lp w = (ev, Err (UnexpectedTok got expected)) -> forall fuel', length w + length ev + 3 <= fuel' ->
  exists ev1 ev2 expected', glr_parse fuel' gp w = (ev1, Err (GUnexpectedToken got expected')) /\ ev = ev1 ++ ev2 /\ Forall is_reduction ev2 /\ (ev1 = [] \/ exists l t, ev1 = l ++ [EShift t]) /\ forall t, In t expected' <-> In t expected.
Proof.
  intros fuel w ev got expected H fuel' Hf. rewrite parse_start in H. destruct (driver_error_inv fuel [] w ev _ (va_nil _ _) H) as (fr & v & A & B & [= -> ->]).
  pose proof (bo_result _ _ bo fuel' w) as HR. pose proof (no_panic fuel' w) as HP.
  assert (snd (glr_parse fuel' gp w) <> OutOfFuel) as HO. { apply (bo_fuel _ _ bo (length ev)); [|lia|lia]. intros ev2 fr2 w2 X. eapply stuck_bound; eauto. }
  destruct (glr_parse fuel' gp w) as [ev' [out|e| |]]; cbn [snd] in *; try contradiction.
  - destruct HR as (tr' & w' & X & _). destruct (stuck_no_accept _ _ _ _ A B _ _ _ X).
  - cbn [result_of_run app] in HR. destruct HR as (_ & He & v' & M & _ & -> & HM & HN & HA & [HT|HT]); [|destruct (two_runs_not _ _ HT)].
    destruct M as [|[fr1 e1] [|[fr2 e2] M]]; [contradiction| |].
    + destruct (HA fr1 e1 (or_introl eq_refl)) as [P Q]. destruct (stuck_unique _ _ _ _ A B _ _ _ P Q) as (E1 & -> & ->). exists ev', e1, (gexpected g tb (top fr)). split; [reflexivity|]. split; auto.
      split; [apply (HT fr e1); left; auto|]. split; auto. intros t. rewrite gexpected_in. symmetry. apply (expected_in g tb wf).
      intros s Hs. apply (wr_single _ _ _ wr (top fr) s); [|apply in_or_app; auto]. pose proof (msteps_valid _ _ _ _ _ _ _ _ _ A (va_nil _ _)) as Hv. destruct (valid_state g _ fs _ pg au fr Hv) as [S HS]. rewrite (tf_states _ _ _ _ tf). eapply st_lt; eauto.
    + exfalso. destruct (HA fr1 e1 (or_introl eq_refl)) as [P Q]. destruct (HA fr2 e2 (or_intror (or_introl eq_refl))) as [P' Q']. destruct (stuck_unique _ _ _ _ P Q _ _ _ P' Q') as (E1 & _). apply app_inv_head in E1. subst e2.
      cbn [map snd] in HN. inversion HN as [|? ? X _]; subst. apply X. left. auto.
Qed.

Lemma agree_halt : forall fuel w, snd (glr_parse fuel gp w) <> OutOfFuel -> exists fuel', snd (lr_parse fuel' lp w) <> OutOfFuel.
Proof.
  intros fuel w H. pose proof (bo_result _ _ bo fuel w) as HR. pose proof (no_panic fuel w) as HP.
  destruct (glr_parse fuel gp w) as [ev' [out|e| |]]; cbn [snd] in *; try contradiction.
  - destruct HR as (tr' & w' & X & _). exists (Datatypes.S (length ev')). cbn [app] in X. rewrite parse_start. destruct X as (e1 & f1 & v1 & x1 & A1 & A2 & E).
    assert (lr_run (Datatypes.S (length ev')) lp (concrete []) w = (ev', Ok w')) as Y; [|rewrite Y; discriminate].
    assert (forall fr w e f v, msteps fr w e f v -> valid fr -> forall fu, lr_run (length e + fu) lp (concrete fr) w = (let '(ev', r) := lr_run fu lp (concrete f) v in (e ++ ev', r))) as HX.
    { clear -bo wf n_le au tf wr. intros fr w e f v H. induction H as [fr w|fr w e3 f3 w3 e4 f4 w4 B1 B2 IH]; intros Hv fu; [simpl; destruct (lr_run fu lp (concrete fr) w); auto|].
      rewrite app_length, (mstep_events _ _ _ _ _ _ _ _ _ B1). cbn [plus]. rewrite (driver_step g wf _ n_le fs _ pg au tb tf lp wr _ _ _ _ _ Hv B1). rewrite IH; [|eapply mstep_valid; eauto].
      destruct (lr_run fu lp (concrete f4) w4) as [a b]. rewrite app_assoc. reflexivity. }
    subst ev'. rewrite app_length, (mstep_events _ _ _ _ _ _ _ _ _ A2). replace (Datatypes.S (length e1 + 1)) with (length e1 + 2) by lia. rewrite (HX _ _ _ _ _ A1 (va_nil _ _)).
    rewrite (driver_step g wf _ n_le fs _ pg au tb tf lp wr _ _ _ _ _ (msteps_valid _ _ _ _ _ _ _ _ _ A1 (va_nil _ _)) A2). rewrite lr_run_nil, app_nil_r. reflexivity.
  - cbn [result_of_run app] in HR. destruct HR as (_ & He & v' & M & _ & -> & HM & HN & HA & _). destruct M as [|[fr1 e1] M]; [contradiction|]. destruct (HA fr1 e1 (or_introl eq_refl)) as [P Q].
    exists (Datatypes.S (length (ev' ++ e1))). rewrite parse_start. rewrite (driver_error _ _ _ _ _ P (va_nil _ _) Q); [discriminate|lia].
Qed.
End Graph.

Lemma glr_agrees_ok : forall fuel w ev rest, lr_parse fuel lp w = (ev, Ok rest) -> forall fuel', length w + length ev + 3 <= fuel' -> glr_parse fuel' gp w = (ev, Ok (tl rest)).
Proof. destruct both_ex as (fs & pg & bo). eapply agree_ok; eauto. Qed.
Lemma glr_agrees_err : forall fuel w ev got expected, lr_parse fuel lp w = (ev, Err (UnexpectedTok got expected)) -> forall fuel', length w + length ev + 3 <= fuel' ->
  exists ev1 ev2 expected', glr_parse fuel' gp w = (ev1, Err (GUnexpectedToken got expected')) /\ ev = ev1 ++ ev2 /\ Forall is_reduction ev2 /\ (ev1 = [] \/ exists l t, ev1 = l ++ [EShift t]) /\ forall t, In t expected' <-> In t expected.
Proof. destruct both_ex as (fs & pg & bo). eapply agree_err; eauto. Qed.
Lemma glr_agrees_halt : forall fuel w, snd (glr_parse fuel gp w) <> OutOfFuel -> exists fuel', snd (lr_parse fuel' lp w) <> OutOfFuel.
Proof. destruct both_ex as (fs & pg & bo). eapply agree_halt; eauto. Qed.
Lemma glr_agrees_panic : forall fuel w, snd (glr_parse fuel gp w) <> Panic.
Proof. destruct both_ex as (fs & pg & bo). eapply no_panic; eauto. Qed.
End Agree.
