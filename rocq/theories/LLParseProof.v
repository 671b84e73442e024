(** The predictive parser loop: soundness, completeness, termination. *)
From Coq Require Import String List Arith NArith Bool Lia.
From Verif Require Import Base InputModel GrammarModel GrammarSpec GrammarNamesProof GrammarProof GrammarBuildProof LLModel LLSpec SententialProof SetsProof FirstProof FollowProof LLTableProof.
Import ListNotations.
Local Open Scope nat_scope.

(** ** Trees and derivations *)

Lemma yields_cons : forall t ts, yields (t :: ts) = yield t ++ yields ts.
Proof. auto. Qed.
Lemma yields_app : forall ts us, yields (ts ++ us) = yields ts ++ yields us.
Proof. intros. unfold yields. rewrite map_app, concat_app. auto. Qed.

Lemma parses_derives : forall R al ts, parses R al ts -> derives R al (yields ts).
Proof.
  intros R al ts H. induction H as [|al ts H IH|t al ts H IH|r i al cs ts Hr Hi H1 IH1 H2 IH2]; rewrite ?yields_cons; try (constructor; auto; fail).
  cbn [yield]. apply (d_nt R r i al (yields cs) (yields ts)); auto.
Qed.
Lemma derives_parses : forall R al w, derives R al w -> exists ts, parses R al ts /\ yields ts = w.
Proof.
  intros R al w H. induction H as [|al w H (ts & IH & E)|t al w H (ts & IH & E)|r i al u w Hr Hi H1 (cs & IH1 & E1) H2 (ts & IH2 & E2)].
  - exists []. split; [constructor|auto].
  - exists ts. split; [constructor; auto|auto].
  - exists (Leaf t :: ts). split; [constructor; auto|]. rewrite yields_cons, E. auto.
  - exists (Node r cs :: ts). split; [econstructor; eauto|]. rewrite yields_cons, E2. cbn [yield]. fold (yields cs). rewrite E1. auto.
Qed.

(** ** Runs *)

Definition la (input : list N) : symbol := match input with t :: _ => Terminal t | [] => End end.
Definition add_events (ev : list ll_event) (r : res ll_parse_error (list ll_event)) : res ll_parse_error (list ll_event) := do e <- r; Ok (ev ++ e).

Lemma add_events_nil : forall r, add_events [] r = r.
Proof. intros [| | |]; auto. Qed.
Lemma add_events_app : forall a b r, add_events a (add_events b r) = add_events (a ++ b) r.
Proof. intros a b [| | |]; simpl; auto. rewrite app_assoc. auto. Qed.

Section Run.
Variable look : ll_lookup.

Definition runs (stack : list ll_sym) (input : list N) (ev : list ll_event) (stack' : list ll_sym) (input' : list N) : Prop :=
  exists n, forall fuel, ll_run (n + fuel) look stack input = add_events ev (ll_run fuel look stack' input').

Lemma runs_refl : forall s i, runs s i [] s i.
Proof. intros s i. exists 0. intros fuel. rewrite add_events_nil. auto. Qed.
Lemma runs_trans : forall s1 i1 e1 s2 i2 e2 s3 i3, runs s1 i1 e1 s2 i2 -> runs s2 i2 e2 s3 i3 -> runs s1 i1 (e1 ++ e2) s3 i3.
Proof.
  intros s1 i1 e1 s2 i2 e2 s3 i3 [n1 H1] [n2 H2]. exists (n1 + n2). intros fuel. rewrite <- Nat.add_assoc, H1, H2, add_events_app. auto.
Qed.
Lemma runs_exit : forall i s inp, runs (SExit i :: s) inp [Exit i] s inp.
Proof. intros. exists 1. intros fuel. simpl. auto. Qed.
Lemma runs_term : forall t s inp, runs (STerm t :: s) (t :: inp) [Token t] s inp.
Proof. intros. exists 1. intros fuel. simpl. rewrite N.eqb_refl. auto. Qed.
Lemma runs_nt : forall i s inp l, look i (hd_error inp) = Some l -> runs (SNonTerm i :: s) inp [Enter i] (l ++ SExit i :: s) inp.
Proof. intros i s inp l H. exists 1. intros fuel. cbn [Nat.add ll_run]. rewrite H. auto. Qed.

Definition halts (stack : list ll_sym) (input : list N) : Prop :=
  exists n r, r <> OutOfFuel /\ forall fuel, ll_run (n + fuel) look stack input = r.
Lemma runs_halts : forall s i e s' i', runs s i e s' i' -> halts s' i' -> halts s i.
Proof.
  intros s i e s' i' [n H] (m & r & Hr & Hm). exists (n + m), (add_events e r). split; [destruct r; simpl; congruence|].
  intros fuel. rewrite <- Nat.add_assoc, H, Hm. auto.
Qed.

(** A halting run has one result. *)
Lemma halts_result : forall s i, halts s i -> exists n r, r <> OutOfFuel /\ forall fuel, n <= fuel -> ll_run fuel look s i = r.
Proof.
  intros s i (n & r & Hr & H). exists n, r. split; auto. intros fuel Hf. replace fuel with (n + (fuel - n)) by lia. auto.
Qed.

(** More fuel does not change a result. *)
Lemma ll_run_mono : forall fuel s i r, ll_run fuel look s i = r -> r <> OutOfFuel -> forall k, ll_run (fuel + k) look s i = r.
Proof.
  induction fuel as [|fuel IH]; intros s i r H Hr k; [simpl in H; congruence|]. cbn [Nat.add ll_run] in *.
  destruct s as [|[t| |j|j] s]; auto.
  - destruct i as [|t' i]; auto. destruct (t =? t')%N; auto.
    destruct (ll_run fuel look s i) as [ev|e| |] eqn:E; cbn [bind] in H; try (erewrite IH by (eauto; congruence); cbn [bind]; auto); try congruence.
  - destruct i as [|t' i]; auto.
    destruct (ll_run fuel look s []) as [ev|e| |] eqn:E; cbn [bind] in H; try (erewrite IH by (eauto; congruence); cbn [bind]; auto); try congruence.
  - destruct (look j (hd_error i)) as [l|]; auto.
    destruct (ll_run fuel look (l ++ SExit j :: s) i) as [ev|e| |] eqn:E; cbn [bind] in H; try (erewrite IH by (eauto; congruence); cbn [bind]; auto); try congruence.
  - destruct (ll_run fuel look s i) as [ev|e| |] eqn:E; cbn [bind] in H; try (erewrite IH by (eauto; congruence); cbn [bind]; auto); try congruence.
Qed.

(** ** Soundness, for any table of productions *)

Variable R : list rule.
Variable good : N -> Prop.
Definition sound_look : Prop := forall i la l, good i -> look i la = Some l ->
  exists r, In r R /\ r_lhs r = Some i /\ l = push_sequence (r_rhs r) /\ forall j, In (NonTerminal j) (r_rhs r) -> good j.
Definition no_end (R : list rule) : Prop := forall r, In r R -> ~ In End (r_rhs r).

Lemma run_sound : sound_look -> no_end R -> forall fuel al rest input ev, ~ In End al -> (forall j, In (NonTerminal j) al -> good j) ->
  ll_run fuel look (push_sequence al ++ rest) input = Ok ev ->
  exists ts input2 ev2 fuel2, fuel2 <= fuel /\ parses R al ts /\ input = yields ts ++ input2 /\ ev = concat (map ll_events ts) ++ ev2 /\
    ll_run fuel2 look rest input2 = Ok ev2.
Proof.
  intros HL HE fuel. induction fuel as [fuel IHf] using lt_wf_ind. intros al. induction al as [|s al IHa]; intros rest input ev Hend Hg H.
  - exists [], input, ev, fuel. split; auto. split; [constructor|]. auto.
  - assert (~ In End al) as Hend' by (intros X; apply Hend; right; auto).
    assert (forall j, In (NonTerminal j) al -> good j) as Hg' by (intros j Hj; apply Hg; right; auto). destruct s as [| |i|t].
    + cbn in H. destruct (IHa rest input ev Hend' Hg' H) as (ts & in2 & ev2 & f2 & A & B & C). exists ts, in2, ev2, f2. split; auto. split; auto. constructor; auto.
    + exfalso. apply Hend. left; auto.
    + change (push_sequence (NonTerminal i :: al)) with (SNonTerm i :: push_sequence al) in H. destruct fuel as [|fuel]; [discriminate|]. cbn [app ll_run] in H.
      destruct (look i (hd_error input)) as [l|] eqn:El; [|discriminate]. inv_bind H. injection H as <-.
      destruct (HL _ _ _ (Hg i (or_introl eq_refl)) El) as (r & Hr & Hi & -> & Hgr).
      destruct (IHf fuel (Nat.lt_succ_diag_r _) _ _ _ _ (HE r Hr) Hgr Hb) as (cs & in2 & ev2 & f2 & A & B & -> & -> & D).
      destruct f2 as [|f2]; [discriminate|]. cbn [ll_run] in D. inv_bind D. injection D as <-.
      assert (f2 < S fuel) as Hf2 by lia.
      destruct (IHf f2 Hf2 al rest in2 _ Hend' Hg' Hb0) as (ts & in3 & ev3 & f3 & A3 & B3 & -> & -> & D3).
      exists (Node r cs :: ts), in3, ev3, f3. split; [lia|]. split; [econstructor; eauto|]. split; [|split; auto].
      * rewrite yields_cons. cbn [yield]. fold (yields cs). rewrite app_assoc. auto.
      * cbn [map concat ll_events]. rewrite Hi. simpl. rewrite <- !app_assoc. simpl. rewrite <- ?app_assoc. auto.
    + change (push_sequence (Terminal t :: al)) with (STerm t :: push_sequence al) in H. destruct fuel as [|fuel]; [discriminate|]. cbn [app ll_run] in H.
      destruct input as [|t' input]; [discriminate|]. destruct (t =? t')%N eqn:Et; [|discriminate]. apply N.eqb_eq in Et. subst t'. inv_bind H. injection H as <-.
      destruct (IHf fuel (Nat.lt_succ_diag_r _) al rest input _ Hend' Hg' Hb) as (ts & in3 & ev3 & f3 & A3 & B3 & -> & -> & D3).
      exists (Leaf t :: ts), in3, ev3, f3. split; [lia|]. split; [constructor; auto|]. split; auto.
Qed.

Lemma parse_sound : sound_look -> no_end R -> forall fuel i input ev, good i -> ll_parse fuel look i input = Ok ev ->
  exists r cs, parses R [NonTerminal i] [Node r cs] /\ yield (Node r cs) = input /\ ev = ll_events (Node r cs) ++ [TokenEof].
Proof.
  intros HL HE fuel i input ev Hgi H. unfold ll_parse in H. change [SNonTerm i; SEnd] with (push_sequence [NonTerminal i] ++ [SEnd]) in H.
  apply run_sound in H; auto; [|intros [X|[]]; discriminate|intros j [[= <-]|[]]; auto]. destruct H as (ts & in2 & ev2 & f2 & _ & HP & -> & -> & D).
  destruct f2 as [|f2]; [discriminate|]. cbn [ll_run] in D. destruct in2; [|discriminate]. inv_bind D. injection D as <-.
  destruct f2 as [|f2]; [discriminate|]. injection Hb as <-. inversion HP as [| | |r j al cs ts' Hr Hi H1 H2]; subst. inversion H2; subst.
  exists r, cs. split; auto. rewrite yields_cons. unfold yields at 1. simpl. rewrite !app_nil_r. auto.
Qed.
End Run.

(** ** Completeness and termination, with the generated table *)

Section Generated.
Variable g : grammar.
Hypothesis wf : wf_grammar g.
Hypothesis ne : no_empty_rhs g.
Hypothesis fit : terminals_fit g.
Variable tb : ll_table.
Hypothesis noconf : forall j k x, ~ ll1_conflict g j k x.
Hypothesis cells : forall i x p, lookahead x -> (map_get (i, col x) tb = Some p <-> exists r, In r (g_rules g) /\ r_lhs r = Some i /\ r_rhs r = p /\ predicts g r x).

Notation R := (g_rules g).
Notation look := (table_lookup tb).

(** Symbols of derived forms. *)
Definition fine (s : symbol) : Prop := known g s \/ s = End.
Lemma sstep_fine : forall a b, sstep R a b -> (forall s, In s a -> fine s) -> forall s, In s b -> fine s.
Proof.
  intros a b H Ha s Hs. destruct H as [u v r i Hr Hi|u v].
  - apply in_app_or in Hs. destruct Hs as [Hs|Hs]; [apply Ha, in_or_app; auto|]. apply in_app_or in Hs. destruct Hs as [Hs|Hs].
    + left. eapply wf_rhs; eauto.
    + apply Ha, in_or_app. right; right; auto.
  - apply in_app_or in Hs. apply Ha, in_or_app. destruct Hs; auto. right; right; auto.
Qed.
Lemma ssteps_fine : forall a b, ssteps R a b -> (forall s, In s a -> fine s) -> forall s, In s b -> fine s.
Proof. intros a b H. induction H; auto. intros Ha. apply IHssteps. eapply sstep_fine; eauto. Qed.

Lemma fine_fits : forall x, fine x -> fits x.
Proof. intros x [H| ->] t E; [|discriminate]. subst. apply fit. exact H. Qed.

Lemma predicts_fine : forall r x, In r R -> predicts g r x -> fine x.
Proof.
  intros r x Hr [[_ [be H]]|[_ (i & _ & _ & s & al & be & Hs & H)]].
  - eapply ssteps_fine; [exact H| |left; auto]. intros s Hs. left. eapply wf_rhs; eauto.
  - eapply ssteps_fine; [exact H| |apply in_or_app; right; right; left; auto]. intros y Hy. destruct Hs as [->|(j & Hj & ->)].
    + destruct (wf_entry g wf) as (i0 & E & Hin). destruct Hy as [<-|[<-|[]]]; [left; rewrite E; auto|right; auto].
    + destruct Hy as [<-|[]]. left. exact Hj.
Qed.

Lemma la_look : forall input, lookahead (la input).
Proof. intros [|t input]; [left; auto|right; simpl; eauto]. Qed.

Lemma look_hd : forall i input, look i (hd_error input) = match @get_production ll_error tb (NonTerminal i) (la input) with Ok (Some p) => Some (push_sequence p) | _ => None end.
Proof. intros i [|t input]; auto. Qed.

Lemma look_complete : forall r i input, In r R -> r_lhs r = Some i -> predicts g r (la input) -> look i (hd_error input) = Some (push_sequence (r_rhs r)).
Proof.
  intros r i input Hr Hi Hp. rewrite look_hd, get_production_cell; [|apply la_look|apply fine_fits; eapply predicts_fine; eauto].
  assert (map_get (i, col (la input)) tb = Some (r_rhs r)) as -> by (apply cells; [apply la_look|exists r; auto]). auto.
Qed.
Lemma look_sound : forall i input l, look i (hd_error input) = Some l ->
  exists r, In r R /\ r_lhs r = Some i /\ l = push_sequence (r_rhs r) /\ predicts g r (la input).
Proof.
  intros i input l H. rewrite look_hd in H.
  assert (exists p, map_get (i, col (la input)) tb = Some p /\ l = push_sequence p) as (p & Hg & ->).
  { destruct input as [|t input]; simpl in *.
    - destruct (map_get (i, None) tb) as [p|]; [|discriminate]. injection H as <-. eauto.
    - destruct (@succ_u16 ll_error t) as [k| | |] eqn:E; try discriminate. cbn [bind] in H. unfold succ_u16 in E. destruct (t + 1 <? 65536)%N; [|discriminate]. injection E as <-.
      destruct (map_get (i, Some (t + 1)%N) tb) as [p|]; [|discriminate]. injection H as <-. eauto. }
  apply cells in Hg; [|apply la_look]. destruct Hg as (r & Hr & Hi & <- & Hp). exists r. auto.
Qed.
Lemma table_sound_look : sound_look look R (fun _ => True).
Proof.
  intros i a l _ H. destruct a as [t|].
  - destruct (look_sound i [t] l H) as (r & A & B & C & _). exists r. auto.
  - destruct (look_sound i [] l H) as (r & A & B & C & _). exists r. auto.
Qed.
Lemma rhs_no_end : no_end R.
Proof. intros r Hr X. apply (wf_rhs g wf r End Hr X). Qed.

(** [al] stands in a form where [x] comes next. *)
Definition ctx (al : list symbol) (x : symbol) : Prop := exists s u v, start_form g s /\ ssteps R s (u ++ al ++ x :: v).

Lemma la_cases : forall w rest, (w = [] /\ la (w ++ rest) = la rest) \/ exists t w', w = t :: w' /\ la (w ++ rest) = Terminal t.
Proof. intros [|t w] rest; [left; auto|right; exists t, w; auto]. Qed.

Lemma ctx_steps : forall al be x, ctx al x -> ssteps R al be -> ctx be x.
Proof.
  intros al be x (s & u & v & Hs & HS) H. exists s, u, v. split; auto. eapply ssteps_trans; [exact HS|]. apply ssteps_ctx. auto.
Qed.
Lemma ctx_suffix : forall a b x, ctx (a ++ b) x -> ctx b x.
Proof. intros a b x (s & u & v & Hs & HS). exists s, (u ++ a), v. split; auto. rewrite <- !app_assoc in *. auto. Qed.
(** The first part of a sequence, when the second derives the next tokens. *)
Lemma ctx_prefix : forall a b ts rest, ctx (a ++ b) (la rest) -> parses R b ts -> ctx a (la (yields ts ++ rest)).
Proof.
  intros a b ts rest (s & u & v & Hs & HS) Hp. apply parses_derives, derives_ssteps in Hp.
  assert (ssteps R s (u ++ a ++ map Terminal (yields ts) ++ la rest :: v)) as X.
  { eapply ssteps_trans; [exact HS|]. pose proof (ssteps_ctx R (u ++ a) (la rest :: v) _ _ Hp) as X. rewrite <- !app_assoc in *. exact X. }
  destruct (la_cases (yields ts) rest) as [[E ->]|(t & w' & E & ->)]; rewrite E in X; simpl in X.
  - exists s, u, v. auto.
  - exists s, u, (map Terminal w' ++ la rest :: v). auto.
Qed.

(** The rule of a tree is the one its lookahead predicts. *)
Lemma tree_predicts : forall r i cs rest, In r R -> r_lhs r = Some i -> parses R (r_rhs r) cs -> ctx [NonTerminal i] (la rest) -> predicts g r (la (yields cs ++ rest)).
Proof.
  intros r i cs rest Hr Hi Hp (s & u & v & Hs & HS). apply parses_derives, derives_ssteps in Hp.
  destruct (la_cases (yields cs) rest) as [[E ->]|(t & w' & E & ->)]; rewrite E in Hp; simpl in Hp.
  - right. split; [exact Hp|]. exists i. split; auto. split; [apply la_look|]. exists s, u, v. auto.
  - left. split; [right; eauto|]. eexists; eauto.
Qed.

Definition complete_look (look : ll_lookup) : Prop := forall r i cs rest, In r R -> r_lhs r = Some i -> parses R (r_rhs r) cs ->
  predicts g r (la (yields cs ++ rest)) -> look i (hd_error (yields cs ++ rest)) = Some (push_sequence (r_rhs r)).
Lemma table_complete_look : complete_look look.
Proof. intros r i cs rest Hr Hi _ Hp. apply look_complete; auto. Qed.

Lemma run_complete_gen : forall lk, complete_look lk -> forall al ts, parses R al ts -> forall rest stack, ctx al (la rest) ->
  runs lk (push_sequence al ++ stack) (yields ts ++ rest) (concat (map ll_events ts)) stack rest.
Proof.
  intros lk HL al ts H. induction H as [|al ts H IH|t al ts H IH|r i al cs ts Hr Hi H1 IH1 H2 IH2]; intros rest stack Hc.
  - apply runs_refl.
  - apply IH. apply (ctx_suffix [Epsilon] al); auto.
  - change (concat (map ll_events (Leaf t :: ts))) with ([Token t] ++ concat (map ll_events ts)).
    change (yields (Leaf t :: ts) ++ rest) with (t :: (yields ts ++ rest)). eapply runs_trans; [apply runs_term|]. apply IH. apply (ctx_suffix [Terminal t] al); auto.
  - assert (ctx [NonTerminal i] (la (yields ts ++ rest))) as Hci by (apply (ctx_prefix [NonTerminal i] al ts rest); auto).
    replace (concat (map ll_events (Node r cs :: ts))) with ([Enter i] ++ concat (map ll_events cs) ++ [Exit i] ++ concat (map ll_events ts))
      by (cbn [map concat ll_events]; rewrite Hi; simpl; rewrite <- app_assoc; auto).
    replace (yields (Node r cs :: ts) ++ rest) with (yields cs ++ yields ts ++ rest) by (rewrite yields_cons, <- app_assoc; auto).
    eapply runs_trans.
    + apply (runs_nt lk i (push_sequence al ++ stack) _ (push_sequence (r_rhs r))). apply HL; auto. apply (tree_predicts r i cs); auto.
    + eapply runs_trans; [apply IH1|].
      * apply (ctx_steps [NonTerminal i]); auto. eapply ss_trans; [apply (ss_rule R [] [] r i Hr Hi)|]. rewrite app_nil_r. constructor.
      * eapply runs_trans; [apply runs_exit|]. apply IH2. apply (ctx_suffix [NonTerminal i] al); auto.
Qed.

Lemma run_complete : forall al ts, parses R al ts -> forall rest stack, ctx al (la rest) ->
  runs look (push_sequence al ++ stack) (yields ts ++ rest) (concat (map ll_events ts)) stack rest.
Proof. apply run_complete_gen, table_complete_look. Qed.

(** Erasing. *)
Lemma run_erase : forall al rest stack, derives R al [] -> ctx al (la rest) -> exists ev, runs look (push_sequence al ++ stack) rest ev stack rest.
Proof.
  intros al rest stack Hd Hc. apply derives_parses in Hd. destruct Hd as (ts & Hp & E). exists (concat (map ll_events ts)).
  pose proof (run_complete al ts Hp rest stack Hc) as X. rewrite E in X. auto.
Qed.

(** Reaching the lookahead. *)
Lemma run_reach : forall al x, firstT R al x -> forall t rest stack, x = Terminal t ->
  (exists s u v, start_form g s /\ ssteps R s (u ++ al ++ v)) ->
  exists ev stack', runs look (push_sequence al ++ stack) (t :: rest) ev (STerm t :: stack') (t :: rest).
Proof.
  intros al x H. induction H as [x al H|x al H IH|r i al x Hr Hi H IH|i al x Hn H IH]; intros t rest stack -> (s & u & v & Hs & HS).
  - exists [], (push_sequence al ++ stack). apply runs_refl.
  - apply IH; auto. exists s, (u ++ [Epsilon]), v. split; auto. rewrite <- app_assoc. auto.
  - assert (predicts g r (la (t :: rest))) as Hp by (left; apply firstT_begins; auto).
    destruct (IH t rest (SExit i :: push_sequence al ++ stack) eq_refl) as (ev & stack' & X).
    + exists s, u, (al ++ v). split; auto. eapply ssteps_trans; [exact HS|]. eapply ss_trans; [apply (ss_rule R u (al ++ v) r i Hr Hi)|constructor].
    + exists ([Enter i] ++ ev), stack'. eapply runs_trans; [|exact X]. apply (runs_nt look i (push_sequence al ++ stack) _ (push_sequence (r_rhs r))).
      apply look_complete; auto.
  - pose proof H as Hb. apply firstT_begins in Hb. destruct Hb as [_ [be Hb]].
    assert (ctx [NonTerminal i] (la (t :: rest))) as Hc.
    { exists s, u, (be ++ v). split; auto. eapply ssteps_trans; [exact HS|]. pose proof (ssteps_ctx R (u ++ [NonTerminal i]) v _ _ Hb) as X.
      rewrite <- !app_assoc in X. exact X. }
    destruct (run_erase [NonTerminal i] (t :: rest) (push_sequence al ++ stack) Hn Hc) as (ev1 & X1).
    destruct (IH t rest stack eq_refl) as (ev2 & stack' & X2).
    { exists s, (u ++ [NonTerminal i]), v. split; auto. rewrite <- app_assoc. auto. }
    exists (ev1 ++ ev2), stack'. eapply runs_trans; [exact X1|exact X2].
Qed.

Lemma begins_not_end : forall r, In r R -> ~ begins R (r_rhs r) End.
Proof.
  intros r Hr [_ [be H]].
  assert (forall a b, ssteps R a b -> ~ In End a -> ~ In End b) as G.
  { intros a b HS. induction HS as [|a b c H1 H2 IH]; auto. intros Ha. apply IH. destruct H1 as [u v r' i Hr' Hi|u v]; intros X; apply in_app_or in X.
    - destruct X as [X|X]; [apply Ha, in_or_app; auto|]. apply in_app_or in X. destruct X as [X|X]; [apply (rhs_no_end r' Hr' X)|apply Ha, in_or_app; right; right; auto].
    - apply Ha, in_or_app. destruct X; auto. right; right; auto. }
  apply (G _ _ H); [apply rhs_no_end; auto|left; auto].
Qed.

Lemma run_halts : forall input stack, halts look stack input.
Proof.
  intros input. remember (length input) as n eqn:En. revert input En. induction n as [n IHn] using lt_wf_ind. intros input En stack.
  remember (length stack) as m eqn:Em. revert stack Em. induction m as [m IHm] using lt_wf_ind. intros stack Em. subst m.
  destruct stack as [|[t| |i|i] stack].
  - exists 1, (Ok []). split; [discriminate|auto].
  - destruct input as [|t' input]; [exists 1, (Err (UnexpectedToken (Some t) None)); split; [discriminate|auto]|].
    destruct (N.eq_dec t t') as [<-|Hne].
    + eapply runs_halts; [apply runs_term|]. apply (IHn (length input)); [simpl in En; lia|auto].
    + exists 1, (Err (UnexpectedToken (Some t) (Some t'))). split; [discriminate|]. intros fuel. simpl. apply N.eqb_neq in Hne. rewrite Hne. auto.
  - destruct input as [|t' input].
    + destruct (IHm (length stack) ltac:(simpl; lia) stack eq_refl) as (k & r & Hr & Hk). exists (S k), (add_events [TokenEof] r). split; [destruct r; simpl; congruence|].
      intros fuel. cbn [Nat.add ll_run]. rewrite Hk. auto.
    + exists 1, (Err (UnexpectedToken None (Some t'))). split; [discriminate|auto].
  - destruct (look i (hd_error input)) as [l|] eqn:El.
    + destruct (look_sound i input l El) as (r & Hr & Hi & -> & Hp). destruct (wf_lhs g wf r Hr) as (i' & Hi' & Hin). assert (i' = i) by congruence. subst i'.
      destruct Hp as [Hb|[He (i' & Hi2 & Hf)]].
      * destruct input as [|t input]; [destruct (begins_not_end r Hr Hb)|]. apply firstT_begins in Hb.
        assert (firstT R [NonTerminal i] (Terminal t)) as HF by (eapply f_nt; eauto).
        destruct (run_reach _ _ HF t input stack eq_refl) as (ev & stack' & X).
        { exists [NonTerminal i], [], []. split; [right; eauto|constructor]. }
        eapply runs_halts; [exact X|]. eapply runs_halts; [apply runs_term|]. apply (IHn (length input)); [simpl in En; lia|auto].
      * assert (i' = i) by congruence. subst i'. destruct Hf as (_ & s & al & be & Hs & HS).
        destruct (run_erase [NonTerminal i] input stack) as (ev & X).
        { apply derives_nil_nt. exists r. split; auto. split; auto. apply erasable_iff; auto. }
        { exists s, al, be. auto. }
        eapply runs_halts; [exact X|]. apply (IHm (length stack)); [simpl; lia|auto].
    + exists 1, (Err (UnknownLookahead i (hd_error input))). split; [discriminate|]. intros fuel. cbn [Nat.add ll_run]. rewrite El. auto.
  - eapply runs_halts; [apply runs_exit|]. apply (IHm (length stack)); auto.
Qed.

(** ** Unambiguity *)

Lemma same_rule : forall r r' i x, In r R -> In r' R -> r_lhs r = Some i -> r_lhs r' = Some i -> predicts g r x -> predicts g r' x -> r = r'.
Proof.
  intros r r' i x Hr Hr' Hi Hi' Hp Hp'. destruct (In_nth_error _ _ Hr) as [j Hj]. destruct (In_nth_error _ _ Hr') as [k Hk].
  destruct (Nat.eq_dec j k) as [->|Hne]; [congruence|]. exfalso. apply (noconf j k x). split; auto. exists r, r', i. auto 8.
Qed.

Lemma parses_unique : forall al ts, parses R al ts -> forall ts' rest rest', parses R al ts' -> yields ts ++ rest = yields ts' ++ rest' ->
  ctx al (la rest) -> ctx al (la rest') -> ts = ts' /\ rest = rest'.
Proof.
  intros al ts H. induction H as [|al ts H IH|t al ts H IH|r i al cs ts Hr Hi H1 IH1 H2 IH2]; intros ts' rest rest' H' E Hc Hc'.
  - inversion H'; subst. auto.
  - inversion H' as [|al' ts2 H3| |]; subst. eapply IH; eauto; eapply (ctx_suffix [Epsilon]); eauto.
  - inversion H' as [| |t2 al' ts2 H3|]; subst. rewrite !yields_cons in E. simpl in E. injection E as E.
    destruct (IH ts2 rest rest' H3 E) as [-> ->]; auto; eapply (ctx_suffix [Terminal t]); eauto.
  - inversion H' as [| | |r2 i2 al' cs2 ts2 Hr2 Hi2 H3 H4]; subst.
    rewrite !yields_cons, <- !app_assoc in E. cbn [yield] in E. fold (yields cs) in E. fold (yields cs2) in E.
    pose proof (ctx_prefix [NonTerminal i] al ts rest Hc H2) as Ci. pose proof (ctx_prefix [NonTerminal i] al ts2 rest' Hc' H4) as Ci'.
    assert (r2 = r).
    { pose proof (tree_predicts r i cs (yields ts ++ rest) Hr Hi H1 Ci) as P1. pose proof (tree_predicts r2 i cs2 (yields ts2 ++ rest') Hr2 Hi2 H3 Ci') as P2.
      rewrite E in P1. eapply same_rule; eauto. }
    subst r2.
    assert (ssteps R [NonTerminal i] (r_rhs r)) as HS by (eapply ss_trans; [apply (ss_rule R [] [] r i Hr Hi)|]; rewrite app_nil_r; constructor).
    destruct (IH1 cs2 _ _ H3 E) as [-> E2]; [eapply ctx_steps; eauto|eapply ctx_steps; eauto|].
    destruct (IH2 ts2 _ _ H4 E2) as [-> ->]; auto; eapply (ctx_suffix [NonTerminal i]); eauto.
Qed.

Lemma entry_ctx : ctx [g_entry g] (la []).
Proof. exists [g_entry g; End], [], []. split; [left; auto|constructor]. Qed.

Lemma parse_complete_gen : forall lk, complete_look lk -> forall i tr, g_entry g = NonTerminal i -> parses R [NonTerminal i] [tr] ->
  exists n, forall fuel, n <= fuel -> ll_parse fuel lk i (yield tr) = Ok (ll_events tr ++ [TokenEof]).
Proof.
  intros lk HL i tr Hi Hp. pose proof entry_ctx as Hc. rewrite Hi in Hc. destruct (run_complete_gen lk HL _ _ Hp [] [SEnd] Hc) as [n Hn]. rewrite app_nil_r in Hn.
  exists (n + 2). intros fuel Hf. unfold ll_parse. specialize (Hn (fuel - n)). replace (n + (fuel - n)) with fuel in Hn by lia.
  unfold yields in Hn. cbn [map concat] in Hn. rewrite !app_nil_r in Hn. change ([SNonTerm i; SEnd]) with (push_sequence [NonTerminal i] ++ [SEnd]). rewrite Hn.
  replace (fuel - n) with (S (S (fuel - n - 2))) by lia. auto.
Qed.
End Generated.
