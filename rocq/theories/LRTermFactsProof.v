(** Conflict-free grammars of productive non-terminals have no hidden left recursion and no cycles; the termination theorems. *)
From Coq Require Import String List Arith NArith Bool Lia Relations FinFun.
From Verif Require GrammarBuildProof.
From Verif Require Import Base InputModel GrammarModel GrammarSpec GrammarProof LLModel LLSpec SententialProof SetsProof FirstProof LRModel LRSpec BidiProof ItemProof LRItemsProof LRGraphProof AutomatonProof LRTableProof LRWriteProof LRGenProof LRConflictProof LRRunProof LRCompleteProof LRFactsProof GLRModel GLRSpec GLRWriteProof GLRStepProof GLRSimProof GLRProof GLRFactsProof LRTermSpec LRTermProof.
Import ListNotations.
Local Open Scope nat_scope.
Local Open Scope list_scope.

(** ** Tokens consumed by a run *)

Definition shifted (ev : list lr_event) : list N := flat_map (fun e => match e with EShift (Some t) => [t] | _ => [] end) ev.

Lemma shifted_app : forall a b, shifted (a ++ b) = shifted a ++ shifted b.
Proof. intros a b. apply flat_map_app. Qed.

Lemma shifted_post : forall n t, size t <= n -> shifted (post_order t) = iyield t.
Proof.
  induction n as [|n IH]; intros t Hn.
  - destruct t; unfold size in Hn; cbn [post_order] in Hn; rewrite ?app_length in Hn; cbn [length] in Hn; lia.
  - destruct t as [t|k cs]; [reflexivity|]. cbn [post_order iyield]. rewrite shifted_app. cbn [shifted flat_map]. rewrite app_nil_r.
    assert (forall t, In t cs -> size t <= n) as Hc. { intros t Ht. pose proof (child_size t cs Ht) as X. unfold size, sizes, post_orders in *. cbn [post_order] in Hn. rewrite app_length in Hn. cbn [length] in Hn. lia. }
    clear Hn. induction cs as [|t cs IHc]; [reflexivity|]. cbn [map concat]. rewrite shifted_app, IH by (apply Hc; left; auto). rewrite IHc; auto. intros t' Ht'. apply Hc. right; auto.
Qed.
Lemma shifted_tree : forall t, shifted (post_order t) = iyield t.
Proof. intros t. apply (shifted_post (size t)). auto. Qed.

Lemma size_pos : forall t, post_order t <> [].
Proof. intros [t|k cs] H; [discriminate|]. cbn [post_order] in H. apply app_eq_nil in H. destruct H; discriminate. Qed.

Fixpoint times {A} (n : nat) (l : list A) : list A := match n with 0 => [] | S n => l ++ times n l end.
Lemma times_length : forall A n (l : list A), length (times n l) = n * length l.
Proof. intros A n l. induction n as [|n IH]; cbn; auto. rewrite app_length, IH. auto. Qed.
Lemma times_shifted : forall n l, shifted (times n l) = times n (shifted l).
Proof. intros n l. induction n as [|n IH]; cbn [times]; auto. rewrite shifted_app, IH. auto. Qed.
Lemma times_snoc : forall A n (l : list A), times n l ++ l = l ++ times n l.
Proof. intros A n l. induction n as [|n IH]; cbn [times]; [rewrite app_nil_r; auto|]. rewrite <- app_assoc, IH. auto. Qed.

(** ** Contexts: a tree of [i] around any tree of [j] *)

Section Context.
Variable g : grammar.
Hypothesis wf : wf_grammar g.
Let R := g_rules g.

Definition context (i j : N) (before after : list lr_event) : Prop :=
  exists C, forall t, iparses R [NonTerminal j] [t] -> iparses R [NonTerminal i] [C t] /\ post_order (C t) = before ++ post_order t ++ after.

Lemma context_refl : forall i, context i i [] [].
Proof. intros i. exists (fun t => t). intros t H. split; auto. cbn [app]. rewrite app_nil_r. auto. Qed.

Lemma context_trans : forall i j k b a b' a', context i j b a -> context j k b' a' -> context i k (b ++ b') (a' ++ a).
Proof.
  intros i j k b a b' a' [C H] [C' H']. exists (fun t => C (C' t)). intros t Ht. destruct (H' t Ht) as [A B]. destruct (H _ A) as [A' B']. split; auto. rewrite B', B, !app_assoc. auto.
Qed.

Lemma context_step : forall i j r al be ta tb k, nth_error R k = Some r -> r_lhs r = Some i -> r_rhs r = al ++ NonTerminal j :: be -> iparses R al ta -> iparses R be tb ->
  context i j (post_orders ta) (post_orders tb ++ [EReduce k]).
Proof.
  intros i j r al be ta tb k Hr Hl E Ha Hb. exists (fun t => INode k (ta ++ t :: tb)). intros t Ht. split.
  - apply (ip_nt R k r); auto; [|constructor]. rewrite E. apply iparses_app; auto. change (NonTerminal j :: be) with ([NonTerminal j] ++ be). change (t :: tb) with ([t] ++ tb). apply iparses_app; auto.
  - cbn [post_order]. change (concat (map post_order (ta ++ t :: tb))) with (post_orders (ta ++ t :: tb)). rewrite post_orders_app. change (post_orders (t :: tb)) with (post_order t ++ post_orders tb). rewrite <- !app_assoc. auto.
Qed.

Hypothesis pr : all_productive g.

Lemma trees_exist : forall al, (forall s, In s al -> known g s) -> (forall j, In (NonTerminal j) al -> reachable g j) -> exists ts, iparses R al ts.
Proof.
  induction al as [|s al IH]; intros Hk Hr; [exists []; constructor|]. destruct IH as [ts Hts]; [intros; apply Hk; right; auto|intros; apply Hr; right; auto|].
  destruct s as [| |j|t].
  - exists ts. constructor. auto.
  - destruct (Hk End (or_introl eq_refl)).
  - destruct (pr j (Hr j (or_introl eq_refl))) as [w Hw]. apply derives_iparses in Hw. destruct Hw as (us & Hu & _). exists (us ++ ts). change (NonTerminal j :: al) with ([NonTerminal j] ++ al). apply iparses_app; auto.
  - exists (ILeaf t :: ts). constructor. auto.
Qed.

(** Contexts along the steps between non-terminals. *)
Lemma rule_known : forall i al j be, rule_step g i al j be -> exists k r, nth_error R k = Some r /\ r_lhs r = Some i /\ r_rhs r = al ++ NonTerminal j :: be /\
  (forall s, In s al \/ In s be -> known g s) /\ (forall x, In (NonTerminal x) al \/ In (NonTerminal x) be -> reachable g x) /\ reachable g j.
Proof.
  intros i al j be (Hi & r & Hr & Hl & E). destruct (In_nth_error _ _ Hr) as [k Hk]. exists k, r. split; auto. split; auto. split; auto.
  assert (forall s, In s al \/ In s be -> In s (r_rhs r)) as X by (intros s [H|H]; rewrite E; apply in_or_app; [left|right; right]; auto). split; [|split].
  - intros s Hs. apply (wf_rhs g wf r); auto.
  - intros x Hx. apply (reachable_step g i r x); auto.
  - apply (reachable_step g i r j); auto. rewrite E. apply in_or_app. right. left. auto.
Qed.

Lemma null_trees : forall al, nullable g al -> exists ts, iparses R al ts /\ shifted (post_orders ts) = [].
Proof.
  intros al H. apply derives_iparses in H. destruct H as (ts & A & B). exists ts. split; auto. rewrite <- B. clear. unfold post_orders, iyields. induction ts as [|t ts IH]; [reflexivity|].
  cbn [map concat]. rewrite shifted_app, shifted_tree, IH. auto.
Qed.

Lemma left_context : forall i j, left_step g i j -> exists b a, context i j b a /\ shifted b = [].
Proof.
  intros i j (al & be & Hs & Hn). destruct (rule_known _ _ _ _ Hs) as (k & r & Hk & Hl & E & K1 & K2 & _). destruct (null_trees al Hn) as (ta & Ta & Sa).
  destruct (trees_exist be) as [tb Tb]; [auto|auto|]. exists (post_orders ta), (post_orders tb ++ [EReduce k]). split; auto. eapply context_step; eauto.
Qed.

Lemma lefts_context : forall i j, clos_refl_trans N (left_step g) i j -> exists b a, context i j b a /\ shifted b = [].
Proof.
  intros i j H. induction H as [i j H|i|i j k _ (b & a & C1 & S1) _ (b' & a' & C2 & S2)].
  - apply left_context; auto.
  - exists [], []. split; [apply context_refl|auto].
  - exists (b ++ b'), (a' ++ a). split; [eapply context_trans; eauto|]. rewrite shifted_app, S1, S2. auto.
Qed.

Lemma hidden_context : forall i j, hidden_step g i j -> exists b a, context i j b a /\ shifted b = [] /\ b <> [].
Proof.
  intros i j (al & be & Hs & Hn & s & Hin & Hse). destruct (rule_known _ _ _ _ Hs) as (k & r & Hk & Hl & E & K1 & K2 & _). destruct (null_trees al Hn) as (ta & Ta & Sa).
  destruct (trees_exist be) as [tb Tb]; [auto|auto|]. exists (post_orders ta), (post_orders tb ++ [EReduce k]). split; [eapply context_step; eauto|]. split; auto.
  assert (ta <> []) as Hne. { intros X. subst ta. clear -Ta Hin Hse. remember [] as l eqn:El. induction Ta; try discriminate; [destruct Hin|]. destruct Hin as [<-|Hin]; auto. }
  destruct ta as [|t ta]; [contradiction|]. unfold post_orders. cbn [map concat]. intros X. apply app_eq_nil in X. destruct X as [X _]. apply (size_pos t X).
Qed.

Lemma whole_context : forall i j, clos_trans N (whole_step g) i j -> exists b a, context i j b a /\ shifted b = [] /\ shifted a = [] /\ a <> [].
Proof.
  intros i j H. induction H as [i j (al & be & Hs & Ha & Hb)|i j k _ (b & a & C1 & S1 & T1 & N1) _ (b' & a' & C2 & S2 & T2 & N2)].
  - destruct (rule_known _ _ _ _ Hs) as (k & r & Hk & Hl & E & _). destruct (null_trees al Ha) as (ta & Ta & Sa). destruct (null_trees be Hb) as (tb & Tb & Sb).
    exists (post_orders ta), (post_orders tb ++ [EReduce k]). split; [eapply context_step; eauto|]. split; auto. split; [rewrite shifted_app, Sb; auto|]. intros X. apply app_eq_nil in X. destruct X; discriminate.
  - exists (b ++ b'), (a' ++ a). split; [eapply context_trans; eauto|]. rewrite !shifted_app, S1, S2, T1, T2. split; auto. split; auto. intros X. apply app_eq_nil in X. destruct X; auto.
Qed.

Lemma reach_context : forall j, reachable g j -> exists i b a, g_entry g = NonTerminal i /\ context i j b a.
Proof.
  intros j (i & Ei & H). exists i. apply clos_rt_rtn1 in H. induction H as [|j k (r & Hr & Hl & Hk) H (b & a & _ & IH)].
  - exists [], []. split; auto. apply context_refl.
  - apply in_split in Hk. destruct Hk as (al & be & E). assert (rule_step g j al k be) as Hs.
    { split; [|eauto]. exists i. split; auto. apply clos_rtn1_rt. auto. }
    destruct (rule_known _ _ _ _ Hs) as (x & r' & Hx & Hl' & E' & K1 & K2 & _). destruct (trees_exist al) as [ta Ta]; [auto|auto|]. destruct (trees_exist be) as [tb Tb]; [auto|auto|].
    do 2 eexists. split; auto. eapply context_trans; [exact IH|]. eapply context_step; eauto.
Qed.

Lemma context_times : forall i b a, context i i b a -> forall n, context i i (times n b) (times n a).
Proof.
  intros i b a H n. induction n as [|n IH]; cbn [times]; [apply context_refl|]. rewrite <- (times_snoc _ n a). eapply context_trans; eauto.
Qed.

(** ** Deterministic automata *)

Variables (n : nat) (lalr : bool) (pg : lr_graph).
Notation mstep := (mstep g n lalr pg).
Notation msteps := (msteps g n lalr pg).
Notation maccept := (maccept g n lalr pg).
Hypothesis det : forall fr w ev o w' ev' o' w'', mstep fr w ev o w' -> mstep fr w ev' o' w'' -> ev = ev' /\ o = o' /\ w' = w''.
Hypothesis comp : forall tr, parse_tree g tr -> maccept [] (iyield tr) (post_order tr) tr [].

Lemma msteps_split : forall fr w ev fr' w', msteps fr w ev fr' w' -> forall a b, ev = a ++ b -> exists f1 w1, msteps fr w a f1 w1 /\ msteps f1 w1 b fr' w'.
Proof.
  intros fr w ev fr' w' H. induction H as [fr w|fr w ev fr1 w1 ev' fr' w' H1 H2 IH]; intros a b E.
  - symmetry in E. apply app_eq_nil in E. destruct E as [-> ->]. exists fr, w. split; constructor.
  - pose proof (mstep_events _ _ _ _ _ _ _ _ _ H1) as L. destruct ev as [|e [|e' ev]]; try discriminate. destruct a as [|e' a].
    + exists fr, w. split; [constructor|]. cbn [app] in E. rewrite <- E. change (e :: ev') with ([e] ++ ev'). econstructor; eauto.
    + injection E as <- E. destruct (IH a b E) as (f1 & v1 & A & B). exists f1, v1. split; auto. change (e :: a) with ([e] ++ a). econstructor; eauto.
Qed.

Lemma msteps_shifted : forall fr w ev fr' w', msteps fr w ev fr' w' -> w = shifted ev ++ w'.
Proof.
  intros fr w ev fr' w' H. induction H as [fr w|fr w ev fr1 w1 ev' fr' w' H1 H2 IH]; auto. rewrite shifted_app.
  destruct (mstep_peek _ _ _ _ _ _ _ _ _ H1) as [(? & k & _ & -> & -> & _)|[(tr & k & X & _)|(t & fr1' & _ & -> & -> & _)]]; [exact IH|discriminate|]. cbn. f_equal. exact IH.
Qed.

Lemma accept_longest : forall w ev tr w', maccept [] w ev tr w' -> forall ev2 fr2 w2, msteps [] w ev2 fr2 w2 -> length ev2 <= length ev.
Proof.
  intros w ev tr w' (e1 & f1 & w1 & e2 & A & B & ->) ev2 fr2 w2 H.
  assert (forall ev fr w', ~ mstep f1 w1 ev (inl fr) w') as Hs by (intros e fr v X; destruct (det _ _ _ _ _ _ _ _ X B) as (_ & Y & _); discriminate).
  destruct (halted_longest _ _ _ _ det _ _ _ _ _ A Hs _ _ _ H) as (e & -> & X). rewrite !app_length. lia.
Qed.

Lemma accept_prefix : forall w a b tr, maccept [] w (a ++ b) tr [] -> b <> [] -> exists fr v, msteps [] w a fr v /\ w = shifted a ++ v.
Proof.
  intros w a b tr (e1 & f1 & w1 & e2 & A & B & E) Hb. assert (exists x, e2 = [x]) as [x ->] by (inversion B; subst; eauto).
  destruct (exists_last Hb) as (b' & y & ->). rewrite app_assoc in E. apply app_inj_tail in E. destruct E as [E _]. destruct (msteps_split _ _ _ _ _ A a b' (eq_sym E)) as (fr & v & P & _).
  exists fr, v. split; auto. apply (msteps_shifted _ _ _ _ _ P).
Qed.

Lemma no_cycle : ~ cyclic g.
Proof.
  intros (i & H). destruct (whole_context i i H) as (b & a & C & Sb & Sa & Na).
  assert (reachable g i) as Hi by (clear -H; apply clos_trans_t1n in H; inversion H as [y Hy|y z Hy _]; destruct Hy as (? & ? & [? _] & _); auto).
  destruct (reach_context i Hi) as (e & b0 & a0 & Ee & C0). destruct (pr i Hi) as [w Hw]. apply derives_iparses in Hw. destruct Hw as (ts & Ht & _).
  assert (exists t, ts = [t]) as [t ->] by (inversion Ht as [| | |? ? ? ? ? ? ? ? ? X]; subst; inversion X; eauto).
  destruct C0 as [F0 H0], C as [F H1]. destruct (H1 t Ht) as [T1 P1]. destruct (H0 _ Ht) as [T2 P2]. destruct (H0 _ T1) as [T3 P3].
  assert (forall x, iparses R [NonTerminal e] [x] -> maccept [] (iyield x) (post_order x) x []) as HC by (intros x Hx; apply comp; unfold parse_tree; rewrite Ee; auto).
  pose proof (HC _ T2) as A2. pose proof (HC _ T3) as A3.
  assert (iyield (F0 (F t)) = iyield (F0 t)) as Ey. { rewrite <- !shifted_tree, P3, P2, P1. rewrite !shifted_app, Sb, Sa. cbn [app]. rewrite app_nil_r. auto. }
  rewrite Ey in A3. assert (length (post_order (F0 (F t))) <= length (post_order (F0 t))) as L.
  { destruct A3 as (e1 & f1 & w1 & e2 & M1 & M2 & E3). pose proof A2 as A2'. destruct A2' as (e1' & f1' & w1' & e2' & M1' & M2' & E2').
    assert (forall f v x tr u, mstep f v x (inr tr) u -> forall ev fr w', ~ mstep f v ev (inl fr) w') as Hs by (intros f v x tr u Y e0 fr z X; destruct (det _ _ _ _ _ _ _ _ X Y) as (_ & Z & _); discriminate).
    destruct (halted_longest _ _ _ _ det _ _ _ _ _ M1' (Hs _ _ _ _ _ M2') _ _ _ M1) as (x & Ex & _). rewrite E3, E2', Ex. rewrite !app_length.
    assert (forall f v y tr u, mstep f v y (inr tr) u -> length y = 1) as L1 by (intros; eapply mstep_events; eauto). rewrite (L1 _ _ _ _ _ M2), (L1 _ _ _ _ _ M2'). lia. }
  rewrite P3, P2, P1 in L. rewrite !app_length in L. destruct a; [contradiction|]. cbn [length] in L. lia.
Qed.

Lemma no_hidden : ~ hidden_left_recursive g.
Proof.
  intros (i & j & H1 & H2). destruct (hidden_context i j H1) as (b1 & a1 & C1 & S1 & N1). destruct (lefts_context j i H2) as (b2 & a2 & C2 & S2).
  pose proof (context_trans _ _ _ _ _ _ _ C1 C2) as C. set (b := b1 ++ b2) in *. set (a := a2 ++ a1) in *.
  assert (shifted b = []) as Sb by (unfold b; rewrite shifted_app, S1, S2; auto). assert (1 <= length b) as Lb by (unfold b; rewrite app_length; destruct b1; [contradiction|cbn; lia]).
  assert (reachable g i) as Hi by (destruct H1 as (? & ? & [? _] & _); auto).
  destruct (reach_context i Hi) as (e & b0 & a0 & Ee & C0). destruct (pr i Hi) as [w Hw]. apply derives_iparses in Hw. destruct Hw as (ts & Ht & _).
  assert (exists t, ts = [t]) as [t ->] by (inversion Ht as [| | |? ? ? ? ? ? ? ? ? X]; subst; inversion X; eauto).
  assert (forall m, exists x, maccept [] (shifted b0 ++ iyield t ++ times m (shifted a) ++ shifted a0) ((b0 ++ times m b) ++ post_order t ++ times m a ++ a0) x []) as HX.
  { intros m. destruct (context_trans _ _ _ _ _ _ _ C0 (context_times i b a C m)) as [F HF]. destruct (HF t Ht) as [T P]. exists (F t).
    assert (parse_tree g (F t)) as Hp by (unfold parse_tree; rewrite Ee; auto). pose proof (comp _ Hp) as A. rewrite <- (shifted_tree (F t)), P in A.
    rewrite !shifted_app, !times_shifted, Sb, shifted_tree in A. assert (times m (@nil N) = []) as E by (clear; induction m; auto). rewrite E in A. cbn [app] in A. rewrite app_nil_r in A. exact A. }
  destruct (HX 1) as [x1 A1]. set (w1 := iyield t ++ times 1 (shifted a) ++ shifted a0) in *. set (m := S (length ((b0 ++ times 1 b) ++ post_order t ++ times 1 a ++ a0))).
  destruct (HX m) as [xm Am]. set (wm := iyield t ++ times m (shifted a) ++ shifted a0) in *.
  destruct (accept_prefix _ _ _ _ Am) as (fr & v & P & E). { intros X. apply app_eq_nil in X. destruct X as [X _]. apply (size_pos t X). }
  assert (v = wm) as ->. { rewrite shifted_app, times_shifted, Sb in E. assert (times m (@nil N) = []) as E' by (clear; generalize m; clear; induction m; auto). rewrite E', app_nil_r in E. apply app_inv_head in E. auto. }
  assert (peek wm = peek w1) as Ep.
  { unfold wm, w1. destruct (iyield t) as [|c l]; [|reflexivity]. cbn [app]. unfold m. generalize (length ((b0 ++ times 1 b) ++ post_order t ++ times 1 a ++ a0)). intros m0. cbn [times]. destruct (shifted a) as [|c l]; [|reflexivity].
    cbn [app]. assert (times m0 (@nil N) = []) as -> by (clear; induction m0; auto). reflexivity. }
  destruct (msteps_prefix _ _ _ _ _ _ _ _ _ P (shifted b0) wm w1 eq_refl (le_n _) Ep) as (u' & _ & Hm). pose proof (accept_longest _ _ _ _ A1 _ _ _ Hm) as L.
  rewrite app_length, times_length in L. unfold m in L. nia.
Qed.
End Context.

(** ** The LR parser comes to an end *)

Section Halt.
Variables (k : table_kind) (m : nat) (g : grammar) (allow : bool) (tb : lr_table) (p : lr_parser).
Hypothesis wf : wf_grammar g.
Hypothesis gen : generates k m g allow = Ok (NoConflicts tb).
Hypothesis wrt : write_parser g tb = Ok p.

Lemma bounded_settles : forall fs pg, setup k g tb fs pg -> written g tb p -> forall B fr w, valid g pg fr ->
  (forall ev fr' w', msteps g (kind_n k) (kind_lalr k) pg fr w ev fr' w' -> length ev <= B) -> exists ev r, r <> OutOfFuel /\ forall fuel, B + 2 <= fuel -> lr_run fuel p (concrete fr) w = (ev, r).
Proof.
  intros fs pg su wr. pose proof (su_au _ _ _ _ _ su) as au. pose proof (su_tb _ _ _ _ _ su) as tf. pose proof (kind_n_le k) as n_le.
  induction B as [B IH] using lt_wf_ind. intros fr w Hv HB.
  destruct (driver_cases g wf _ n_le fs _ pg au tb tf p wr fr w Hv) as [(ev1 & o & w1 & Hm)|[He _]].
  - pose proof (driver_step g wf _ n_le fs _ pg au tb tf p wr fr w ev1 o w1 Hv Hm) as Hd. destruct o as [fr1|tr].
    + assert (1 <= B) as H1. { specialize (HB _ _ _ (msteps_one _ _ _ _ _ _ _ _ _ Hm)). rewrite (mstep_events _ _ _ _ _ _ _ _ _ Hm) in HB. auto. }
      destruct (IH (B - 1) ltac:(lia) fr1 w1) as (ev & r & Hr & Hf).
      * eapply mstep_valid; eauto.
      * intros ev fr' w' X. specialize (HB _ _ _ (mt_step _ _ _ _ _ _ _ _ _ _ _ _ Hm X)). rewrite app_length, (mstep_events _ _ _ _ _ _ _ _ _ Hm) in HB. lia.
      * exists (ev1 ++ ev), r. split; auto. intros fuel Hl. destruct fuel as [|fuel]; [lia|]. rewrite Hd, Hf by lia. auto.
    + exists ev1, (Ok w1). split; [discriminate|]. intros fuel Hl. destruct fuel as [|[|fuel]]; try lia. rewrite Hd, lr_run_nil, app_nil_r. auto.
  - exists [], (Err (UnexpectedTok (peek w) (expected_of g tb (top fr)))). split; [discriminate|]. intros fuel Hl. destruct fuel as [|fuel]; [lia|]. apply He.
Qed.

Lemma lr_settles : ~ hidden_left_recursive g -> ~ cyclic g -> forall w, settles (fun fuel => lr_parse fuel p w).
Proof.
  intros nh nc w. destruct (setup_ex k m g allow tb p wf gen wrt) as (fs & pg & su & wr & E).
  destruct (bounded_settles fs pg su wr (run_bound g w) [] w (va_nil _ _)) as (ev & r & Hr & Hf).
  - intros ev fr' w' H. apply (runs_finite g wf _ fs _ pg (su_au _ _ _ _ _ su) nh nc _ _ _ _ H).
  - exists (run_bound g w + 2), ev, r. split; auto. intros fuel Hl. rewrite (parse_concrete p fuel w E). auto.
Qed.

Section Productive.
Hypothesis eps : epsilon_in_front g.
Hypothesis ne : no_empty_rhs g.
Hypothesis nl : ~ entry_left_recursive g.
Hypothesis pr : all_productive g.

Lemma conflict_free_shape : ~ hidden_left_recursive g /\ ~ cyclic g.
Proof.
  destruct (setup_ex k m g allow tb p wf gen wrt) as (fs & pg & su & wr & E). pose proof (su_au _ _ _ _ _ su) as au. pose proof (su_first _ _ _ _ _ su) as fc.
  pose proof (mstep_det g _ fs _ pg au (proj1 (no_conflict_iff g _ _ _ _ _ (kind_n_le k) au (su_cs _ _ _ _ _ su)) eq_refl)) as det.
  assert (forall tr, parse_tree g tr -> maccept g (kind_n k) (kind_lalr k) pg [] (iyield tr) (post_order tr) tr []) as comp.
  { intros tr H. destruct (complete_tree g wf _ (kind_n_le k) fs fc _ pg au eps (fun _ => ne) tr H) as [A|[A _]]; auto. exfalso. apply nl. apply (entry_rec_left g wf _ (kind_n_le k) fs fc _ pg au); auto. }
  split; [apply (no_hidden g wf pr _ _ _ det comp)|apply (no_cycle g wf pr _ _ _ det comp)].
Qed.

Lemma productive_settles : forall w, settles (fun fuel => lr_parse fuel p w).
Proof. intros w. destruct conflict_free_shape. apply lr_settles; auto. Qed.

Lemma parser_decides : k = KindLR1 \/ k <> KindLR0 /\ entry_fresh g -> forall w, exists n, forall fuel, n <= fuel ->
  match lr_parse fuel p w with
  | (ev, Ok rest) => rest = [] /\ exists tr, parse_tree g tr /\ iyield tr = w /\ ev = post_order tr
  | (_, Err _) => ~ derives (g_rules g) [g_entry g] w
  | _ => False
  end.
Proof.
  intros Hk w. destruct (productive_settles w) as (n & ev & r & Hr & Hf). exists n. intros fuel Hl. pose proof (Hf fuel Hl) as Hfl. rewrite Hfl. destruct r as [rest|e| |].
  - assert (rest = []) as -> by (destruct Hk as [A|(A & B)]; [apply (lr1_whole k m g allow tb p wf gen wrt A nl fuel w ev); auto|apply (fresh_whole k m g allow tb p wf gen wrt A B fuel w ev); auto]). split; auto.
    destruct (accepts_tree k m g allow tb p wf gen wrt _ _ _ _ Hfl) as (tr & A & B & C). exists tr. rewrite app_nil_r in C. auto.
  - intros H. destruct (complete_accepts k m g allow tb p wf gen wrt eps ne w H) as (ev' & rest & A). specialize (Hf (n + S (length ev')) ltac:(lia)). rewrite (A (n + S (length ev')) ltac:(lia)) in Hf. discriminate.
  - pose proof (never_panics k m g allow tb p wf gen wrt fuel w) as X. rewrite Hfl in X. apply X. auto.
  - auto.
Qed.
End Productive.
End Halt.

(** ** The GLR parser comes to an end *)

Lemma glr_settles : forall k m g allow r tb, wf_grammar g -> generates k m g allow = Ok r -> table_of_result r tb -> forall p, glr_write_parser g tb = Ok p ->
  ~ hidden_left_recursive g -> ~ cyclic g -> forall w, exists n, forall fuel, n <= fuel -> snd (glr_parse fuel p w) <> OutOfFuel.
Proof.
  intros k m g allow r tb wf gen tor p wrt nh nc w. destruct (gresult k m g allow r tb wf gen tor p wrt) as (fs & pg & fc & au & tf & gw & _ & HT).
  exists (run_bound g w + length w + 3). intros fuel Hl. apply (HT (run_bound g w)); [|lia|lia]. intros ev fr w' H. apply (runs_finite g wf _ fs _ pg au nh nc _ _ _ _ H).
Qed.

(** ** Deciding the conditions *)

Definition prod_symbol (P : list N) (s : symbol) : bool := match s with Epsilon | Terminal _ => true | NonTerminal j => existsb (N.eqb j) P | End => false end.
Definition prod_pass (g : grammar) (P : list N) : list N := flat_map (fun r => match r_lhs r with Some i => if forallb (prod_symbol P) (r_rhs r) then [i] else [] | None => [] end) (g_rules g).
Definition prod_set (g : grammar) : list N := Nat.iter (length (g_rules g)) (prod_pass g) [].
Definition productiveb (g : grammar) : bool := forallb (fun s => match s with NonTerminal i => existsb (N.eqb i) (prod_set g) | _ => true end) (non_terminals g).

Lemma existsb_eqb : forall i P, existsb (N.eqb i) P = true <-> In i P.
Proof. intros i P. rewrite existsb_exists. split; [intros (x & A & B); apply N.eqb_eq in B; subst; auto|intros H; exists i; split; auto; apply N.eqb_refl]. Qed.

Lemma prod_pass_ok : forall g P, (forall i, In i P -> productive g i) -> forall i, In i (prod_pass g P) -> productive g i.
Proof.
  intros g P HP i Hi. unfold prod_pass in Hi. apply in_flat_map in Hi. destruct Hi as (r & Hr & Hi). destruct (r_lhs r) as [j|] eqn:El; [|destruct Hi]. destruct (forallb (prod_symbol P) (r_rhs r)) eqn:Ef; [|destruct Hi].
  destruct Hi as [<-|[]]. assert (exists w, derives (g_rules g) (r_rhs r) w) as [w Hw].
  { clear -HP Ef. induction (r_rhs r) as [|s al IH]; [exists []; constructor|]. cbn in Ef. apply andb_true_iff in Ef. destruct Ef as [E1 E2]. destruct (IH E2) as [w Hw]. destruct s as [| |j|t]; cbn in E1; try discriminate.
    - exists w. constructor. auto.
    - apply existsb_eqb in E1. destruct (HP j E1) as [u Hu]. exists (u ++ w). change (NonTerminal j :: al) with ([NonTerminal j] ++ al). apply GrammarBuildProof.derives_app; auto.
    - exists (t :: w). constructor. auto. }
  exists (w ++ []). apply (d_nt _ r); auto. constructor.
Qed.

Lemma reachable_known : forall g, wf_grammar g -> forall i, reachable g i -> In (NonTerminal i) (non_terminals g).
Proof.
  intros g wf i (e & He & H). apply clos_rt_rtn1 in H. destruct H as [|j i (r & Hr & Hl & Hj) _].
  - destruct (wf_entry g wf) as (e' & E & X). congruence.
  - apply (wf_rhs g wf r _ Hr Hj).
Qed.

Lemma productiveb_ok : forall g, wf_grammar g -> productiveb g = true -> all_productive g.
Proof.
  intros g wf H i Hi. unfold productiveb in H. rewrite forallb_forall in H. specialize (H _ (reachable_known g wf i Hi)). cbn in H. apply existsb_eqb in H. revert i H Hi. unfold prod_set.
  induction (length (g_rules g)) as [|n IH]; cbn [Nat.iter]; intros i H Hi; [destruct H|]. eapply prod_pass_ok; [|exact H].
  assert (forall n i, In i (Nat.iter n (prod_pass g) []) -> productive g i) as X; [|apply X]. clear. induction n as [|n IH]; intros i H; [destruct H|]. eapply prod_pass_ok; [exact IH|exact H].
Qed.

Definition null_symbol (P : list N) (s : symbol) : bool := match s with Epsilon => true | NonTerminal j => existsb (N.eqb j) P | _ => false end.
Definition null_closedb (g : grammar) (P : list N) : bool :=
  forallb (fun r => match r_lhs r with Some i => if forallb (null_symbol P) (r_rhs r) then existsb (N.eqb i) P else true | None => true end) (g_rules g).
Fixpoint splits (al : list symbol) : list (list symbol * symbol * list symbol) :=
  match al with [] => [] | s :: al => ([], s, al) :: map (fun x => (s :: fst (fst x), snd (fst x), snd x)) (splits al) end.
Definition steps_ok (g : grammar) (f : N -> list symbol -> N -> list symbol -> bool) : bool :=
  forallb (fun r => match r_lhs r with Some i => forallb (fun x => match snd (fst x) with NonTerminal j => f i (fst (fst x)) j (snd x) | _ => true end) (splits (r_rhs r)) | None => true end) (g_rules g).
Definition acyclicb (g : grammar) (P : list N) (rank : N -> nat) : bool :=
  steps_ok g (fun i al j be => if (forallb (null_symbol P) al && forallb (null_symbol P) be)%bool then rank j <? rank i else true).
Definition unhiddenb (g : grammar) (P : list N) (rank : N -> nat) : bool :=
  steps_ok g (fun i al j be => if forallb (null_symbol P) al then if existsb not_epsilon al then rank j <? rank i else rank j <=? rank i else true).

Lemma null_closed : forall g P, null_closedb g P = true -> forall al, nullable g al -> forallb (null_symbol P) al = true.
Proof.
  intros g P HP al H. unfold nullable in H. remember (@nil N) as w eqn:E. induction H as [|al w H IH|t al w H IH|r i al u w Hr Hi H1 IH1 H2 IH2]; auto; try discriminate.
  apply app_eq_nil in E. destruct E as [-> ->]. cbn. rewrite IH2 by auto. rewrite andb_true_r. unfold null_closedb in HP. rewrite forallb_forall in HP. specialize (HP r Hr). rewrite Hi, IH1 in HP by auto. auto.
Qed.

Lemma splits_in : forall al s be, In (al, s, be) (splits (al ++ s :: be)).
Proof. induction al as [|a al IH]; intros s be; cbn; [left; auto|]. right. apply in_map_iff. exists (al, s, be). split; auto. Qed.

Lemma steps_all : forall g f, steps_ok g f = true -> forall i al j be, rule_step g i al j be -> f i al j be = true.
Proof.
  intros g f H i al j be (_ & r & Hr & Hl & E). unfold steps_ok in H. rewrite forallb_forall in H. specialize (H r Hr). rewrite Hl, E in H. rewrite forallb_forall in H.
  specialize (H _ (splits_in al (NonTerminal j) be)). exact H.
Qed.

Lemma acyclicb_ok : forall g P rank, null_closedb g P = true -> acyclicb g P rank = true -> ~ cyclic g.
Proof.
  intros g P rank HP H (i & X). assert (forall a b, clos_trans N (whole_step g) a b -> rank b < rank a) as Y; [|specialize (Y _ _ X); lia].
  intros a b Z. induction Z as [a b (al & be & Hs & Ha & Hb)|a b c _ IH1 _ IH2]; [|lia]. pose proof (steps_all _ _ H _ _ _ _ Hs) as W. cbv beta in W.
  rewrite (null_closed g P HP al Ha), (null_closed g P HP be Hb) in W. apply Nat.ltb_lt. auto.
Qed.

Lemma unhiddenb_ok : forall g P rank, null_closedb g P = true -> unhiddenb g P rank = true -> ~ hidden_left_recursive g.
Proof.
  intros g P rank HP H (i & j & (al & be & Hs & Ha & s & Hin & Hse) & X).
  assert (forall a b, clos_refl_trans N (left_step g) a b -> rank b <= rank a) as Y.
  { intros a b Z. induction Z as [a b (al' & be' & Hs' & Ha')| |a b c _ IH1 _ IH2]; [|lia|lia]. pose proof (steps_all _ _ H _ _ _ _ Hs') as W. cbv beta in W. rewrite (null_closed g P HP al' Ha') in W.
    destruct (existsb not_epsilon al'); [apply Nat.ltb_lt in W|apply Nat.leb_le in W]; lia. }
  specialize (Y _ _ X). pose proof (steps_all _ _ H _ _ _ _ Hs) as W. cbv beta in W. rewrite (null_closed g P HP al Ha) in W.
  assert (existsb not_epsilon al = true) as E by (apply existsb_exists; exists s; split; auto; apply not_epsilon_iff; auto). rewrite E in W. apply Nat.ltb_lt in W. lia.
Qed.
