(** LR(0), LALR(1), LR(1) and LL(1) grammars. *)
From Coq Require Import String List Arith NArith Bool Lia Relations Wellfounded.
From Verif Require Import Base InputModel GrammarModel GrammarSpec GrammarProof LLModel LLSpec SententialProof LRModel LRSpec LRTermSpec CanonSpec HierarchySpec.
Import ListNotations.
Local Open Scope nat_scope.
Local Open Scope list_scope.

(** ** LR(0), LALR(1) and LR(1) *)

Lemma valid1_valid0 : forall g ga k d a, valid1 g ga k d a -> valid0 g ga k d.
Proof. intros g ga k d a H. induction H; [constructor|eapply v0_expand; eauto|apply v0_move; auto]. Qed.

Lemma completes_lalr_progress : forall g ga k s, completes KindLALR g ga k s -> exists a, valid1 g ga k (length (right_side g k)) a.
Proof. intros g ga k s (de & SS & V). apply SS. eauto. Qed.

Lemma clash_lr0_lalr : forall g, clash_free KindLR0 g -> clash_free KindLALR g.
Proof.
  intros g CF ga s k H. destruct (completes_lalr_progress _ _ _ _ H) as (a & V). destruct (CF ga s k (valid1_valid0 _ _ _ _ _ V)) as [A B]. split.
  - intros k' H'. destruct (completes_lalr_progress _ _ _ _ H') as (a' & V'). apply A. exact (valid1_valid0 _ _ _ _ _ V').
  - intros (k2 & d2 & Hn & b & V2). apply B. exists k2, d2. split; auto. exact (valid1_valid0 _ _ _ _ _ V2).
Qed.

Lemma clash_lalr_lr1 : forall g, clash_free KindLALR g -> clash_free KindLR1 g.
Proof.
  intros g CF ga s k H. assert (forall k, completes KindLR1 g ga k s -> completes KindLALR g ga k s) as X by (intros k' V; exists ga; split; auto; intros ? ?; reflexivity).
  destruct (CF ga s k (X _ H)) as [A B]. split; auto.
Qed.

(** A symbol which may come in an LALR(1) state may come wherever the state is reached. *)
Lemma lr1_shift_lalr : forall g, clash_free KindLR1 g -> forall ga s k, completes KindLALR g ga k s -> ~ shifts_at KindLALR g ga s.
Proof.
  intros g CF ga s k (de & SS & V) (k2 & d2 & Hn & b & V2). destruct (CF de s k V) as [_ X]. apply X. exists k2, d2. split; auto. apply SS. eauto.
Qed.

Lemma same_lr1_lalr : forall g ga de, same_state KindLR1 g ga de -> same_state KindLALR g ga de.
Proof. intros g ga de H k d. split; intros (a & V); exists a; apply H; auto. Qed.

(** ** Reachable and productive non-terminals *)

Lemma right_side_in : forall g k d s, nth_error (right_side g (Some k)) d = Some s -> exists r, nth_error (g_rules g) k = Some r /\ nth_error (r_rhs r) d = Some s.
Proof. intros g k d s H. unfold right_side in H. destruct (nth_error (g_rules g) k) as [r|]; eauto. destruct d; discriminate. Qed.

Lemma reach_step : forall g i r j, reachable g i -> In r (g_rules g) -> r_lhs r = Some i -> In (NonTerminal j) (r_rhs r) -> reachable g j.
Proof. intros g i r j (e & E & H) Hr Hi Hj. exists e. split; auto. eapply rt_trans; eauto. apply rt_step. exists r. auto. Qed.

Lemma valid0_reachable : forall g ga k d, wf_grammar g -> valid0 g ga k d -> (forall j, In (NonTerminal j) (right_side g k) -> reachable g j) /\
  forall k', k = Some k' -> exists r i, nth_error (g_rules g) k' = Some r /\ r_lhs r = Some i /\ reachable g i.
Proof.
  intros g ga k d wf H. induction H as [|ga k d i k' r H [IH1 IH2] H1 H2 H3|ga k d s H IH H1]; auto.
  - split; [|discriminate]. intros j [E|[]]. exists j. split; auto. apply rt_refl.
  - assert (reachable g i) as Hi by (apply IH1; eapply nth_error_In; eauto). split.
    + intros j Hj. unfold right_side in Hj. rewrite H2 in Hj. eapply reach_step; eauto. eapply nth_error_In; eauto.
    + intros k2 E. injection E as <-. eauto.
Qed.

(** ** Every valid LR(0) item has a lookahead when every reachable non-terminal is productive *)

Lemma derives_begins : forall R al w a, derives R al w -> lookahead a -> exists b, begins R (al ++ [a]) b.
Proof.
  intros R al w a H Ha. destruct w as [|t w].
  - exists a. apply firstT_begins. apply firstT_app_r; auto. constructor. auto.
  - exists (Terminal t). split; [right; eauto|]. exists (map Terminal w ++ [a]). apply (ssteps_app R al (map Terminal (t :: w)) [a] [a]); [apply derives_ssteps; auto|constructor].
Qed.

Lemma productive_seq : forall g al, all_productive g -> (forall j, In (NonTerminal j) al -> reachable g j) -> ~ In End al -> exists w, derives (g_rules g) al w.
Proof.
  intros g al ap. induction al as [|s al IH]; intros Hr He.
  - exists []. constructor.
  - destruct IH as (w & Hw); [intros; apply Hr; right; auto|intros X; apply He; right; auto|]. destruct s as [| |i|t].
    + exists w. constructor. auto.
    + destruct He. left; auto.
    + destruct (ap i) as (u & Hu); [apply Hr; left; auto|]. exists (u ++ w). inversion Hu as [| | |r i' al' u' w' Hin Hl D1 D2]; subst. inversion D2; subst. rewrite app_nil_r. econstructor; eauto.
    + exists (t :: w). constructor. auto.
Qed.

Lemma no_end : forall g k, wf_grammar g -> ~ In End (right_side g k).
Proof.
  intros g [k|] wf; simpl.
  - destruct (nth_error (g_rules g) k) as [r|] eqn:E; [|intros []]. intros H. apply nth_error_In in E. apply (wf_rhs g wf r End E H).
  - destruct (wf_entry g wf) as (i & E & _). rewrite E. intros [X|[]]. discriminate.
Qed.

Lemma skipn_In : forall A (l : list A) n x, In x (skipn n l) -> In x l.
Proof. intros A l n x H. rewrite <- (firstn_skipn n l). apply in_or_app. auto. Qed.

Lemma valid1_lookahead : forall g ga k d a, valid1 g ga k d a -> lookahead a.
Proof. intros g ga k d a H. induction H as [|ga k d a i k' r b H IH H1 H2 H3 H4|]; auto; [left; auto|apply H4]. Qed.

Lemma valid0_valid1 : forall g ga k d, wf_grammar g -> all_productive g -> valid0 g ga k d -> exists a, valid1 g ga k d a.
Proof.
  intros g ga k d wf ap H. induction H as [|ga k d i k' r H [a IH] H1 H2 H3|ga k d s H [a IH] H1].
  - exists End. constructor.
  - destruct (productive_seq g (skipn (S d) (right_side g k)) ap) as (w & Hw).
    + intros j Hj. apply skipn_In in Hj. apply (valid0_reachable g ga k d wf H); auto.
    + intros X. apply skipn_In in X. apply (no_end g k wf X).
    + destruct (derives_begins _ _ _ a Hw) as (b & Hb); [eapply valid1_lookahead; eauto|]. exists b. eapply v1_expand; eauto.
  - exists a. apply v1_move; auto.
Qed.

Lemma same_lr0_lalr : forall g ga de, wf_grammar g -> all_productive g -> (same_state KindLR0 g ga de <-> same_state KindLALR g ga de).
Proof.
  intros g ga de wf ap. assert (forall x k d, valid0 g x k d <-> exists a, valid1 g x k d a) as X.
  { intros x k d. split; [apply valid0_valid1; auto|intros (a & V); eapply valid1_valid0; eauto]. }
  split; intros H k d; [rewrite <- !X|rewrite !X]; apply H.
Qed.

(** ** LL(1) grammars *)

Section LL.
Variable g : grammar.
Hypothesis wf : wf_grammar g.
Hypothesis ll : forall j k x, ~ ll1_conflict g j k x.
Notation R := (g_rules g).

Lemma unique_rule : forall j k r r' i u, nth_error R j = Some r -> nth_error R k = Some r' -> r_lhs r = Some i -> r_lhs r' = Some i -> predicts g r u -> predicts g r' u -> j = k.
Proof.
  intros j k r r' i u Hj Hk Hi Hi' P P'. destruct (Nat.eq_dec j k) as [|Hn]; auto. exfalso. apply (ll j k u). split; auto. exists r, r', i. auto 10.
Qed.

(** Contexts in which FOLLOW is read off. *)
Definition context (al : list symbol) : Prop := exists s pre post, start_form g s /\ ssteps R s (pre ++ al ++ post).

Lemma context_follows : forall i al x, context (NonTerminal i :: al) -> begins R al x -> follows g i x.
Proof.
  intros i al x (s & pre & post & Hs & H) [Hx [be Hb]]. split; auto. exists s, pre, (be ++ post). split; auto. eapply ssteps_trans; [exact H|].
  replace (pre ++ NonTerminal i :: x :: be ++ post) with ((pre ++ [NonTerminal i]) ++ (x :: be) ++ post) by (rewrite <- app_assoc; auto).
  replace (pre ++ (NonTerminal i :: al) ++ post) with ((pre ++ [NonTerminal i]) ++ al ++ post) by (rewrite <- app_assoc; auto). apply ssteps_ctx. auto.
Qed.

Lemma context_rule : forall i al r, context (NonTerminal i :: al) -> In r R -> r_lhs r = Some i -> context (r_rhs r ++ al).
Proof.
  intros i al r (s & pre & post & Hs & H) Hr Hi. exists s, pre, post. split; auto. eapply ssteps_trans; [exact H|]. econstructor; [|constructor].
  rewrite <- app_assoc. apply (ss_rule R pre (al ++ post) r i Hr Hi).
Qed.

Lemma context_tail : forall s al, context (s :: al) -> context al.
Proof. intros s al (f & pre & post & Hs & H). exists f, (pre ++ [s]), post. split; auto. rewrite <- app_assoc. exact H. Qed.

Lemma context_app : forall be al, context (be ++ al) -> context al.
Proof. induction be as [|s be IH]; intros al H; auto. apply IH. apply (context_tail s). exact H. Qed.

(** The rest of a valid item in its context. *)
Lemma valid1_context : forall ga k d a, valid1 g ga k d a -> context (right_side g k ++ [a]).
Proof.
  intros ga k d a H. induction H as [|ga k d a i k' r b H IH H1 H2 H3 H4|ga k d a s H IH H1]; auto.
  - exists [g_entry g; End], [], []. split; [left; auto|]. simpl. constructor.
  - assert (right_side g k = firstn d (right_side g k) ++ NonTerminal i :: skipn (S d) (right_side g k)) as E.
    { clear - H1. revert d H1. induction (right_side g k) as [|x l IH]; intros [|d] H; simpl in *; try discriminate; [congruence|]. f_equal. apply IH. auto. }
    remember (skipn (S d) (right_side g k)) as rest eqn:Er. clear Er. rewrite E in IH. rewrite <- app_assoc in IH. apply context_app in IH. cbn [app] in IH.
    unfold right_side. rewrite H2. destruct H4 as [Hb (be & H4)].
    assert (context (NonTerminal i :: b :: be)) as C.
    { destruct IH as (s & pre & post & Hs & IH). exists s, pre, post. split; auto. eapply ssteps_trans; [exact IH|].
      replace (pre ++ (NonTerminal i :: b :: be) ++ post) with ((pre ++ [NonTerminal i]) ++ (b :: be) ++ post) by (rewrite <- app_assoc; auto).
      replace (pre ++ (NonTerminal i :: rest ++ [a]) ++ post) with ((pre ++ [NonTerminal i]) ++ (rest ++ [a]) ++ post) by (rewrite <- app_assoc; auto).
      apply ssteps_ctx. auto. }
    apply (context_rule i (b :: be) r) in C; [|eapply nth_error_In; eauto|auto].
    destruct C as (s & pre & post & Hs & C). exists s, pre, (be ++ post). split; auto. repeat rewrite <- app_assoc in *. exact C.
Qed.

(** ** Chains of predictions *)

Section Token.
Variable u : symbol.

Definition skip_eps (al : list symbol) : list symbol := skipn (first_dot al) al.
Definition final (al : list symbol) : Prop := forall i be, al <> NonTerminal i :: be.

Inductive ends : list symbol -> Prop :=
| en_final : forall al, final al -> ends al
| en_step : forall i be r, In r R -> r_lhs r = Some i -> predicts g r u -> ends (skip_eps (r_rhs r)) -> ends (NonTerminal i :: be).

Lemma ends_null : forall al w, derives R al w -> w = [] -> forall be, context (al ++ be) -> begins R be u -> ends (skip_eps al).
Proof.
  intros al w H. induction H as [|al w H IH|t al w H IH|r i al v w Hr Hi H1 IH1 H2 IH2]; intros E be C B.
  - apply en_final. intros i be' X. discriminate.
  - unfold skip_eps. simpl. apply (IH E be); auto. apply (context_tail Epsilon). exact C.
  - discriminate.
  - apply app_eq_nil in E. destruct E as [-> ->]. unfold skip_eps. simpl. assert (begins R (al ++ be) u) as B'.
    { apply firstT_begins. apply firstT_app_r; [auto|]. apply firstT_begins. auto. }
    apply en_step with (r := r); auto.
    + right. split; [apply erasable_iff; auto|]. exists i. split; auto. apply (context_follows i (al ++ be)); auto.
    + apply (IH1 eq_refl (al ++ be)); auto. eapply context_rule; eauto.
Qed.

Lemma ends_first : forall al x, firstT R al x -> x = u -> forall be, context (al ++ be) -> ends (skip_eps al).
Proof.
  intros al x H. induction H as [x al Hl|x al H IH|r i al x Hr Hi H IH|i al x Hn H IH]; intros E be C; subst x.
  - apply en_final. unfold skip_eps. destruct Hl as [->|[t ->]]; intros i be' X; discriminate.
  - unfold skip_eps. simpl. apply (IH eq_refl be). apply (context_tail Epsilon). exact C.
  - unfold skip_eps at 1. simpl. apply en_step with (r := r); auto; [left; apply firstT_begins; auto|]. apply (IH eq_refl (al ++ be)). eapply context_rule; eauto.
  - inversion Hn as [| | |r i' al' v w Hr Hi D1 D2 E1 E2]; subst. apply app_eq_nil in E2. destruct E2 as [-> ->].
    change (skip_eps (NonTerminal i :: al)) with (NonTerminal i :: al). apply en_step with (r := r); auto.
    + right. split; [apply erasable_iff; auto|]. exists i. split; auto. apply (context_follows i (al ++ be)); auto. apply firstT_begins. apply firstT_app_l. auto.
    + eapply ends_null with (be := al ++ be); eauto; [|apply firstT_begins; apply firstT_app_l; auto]. eapply context_rule; eauto.
Qed.

Lemma skip_eps_nt : forall i be, skip_eps (NonTerminal i :: be) = NonTerminal i :: be.
Proof. reflexivity. Qed.

Lemma ends_rest : forall al a, firstT R (al ++ [a]) u -> context (al ++ [a]) -> ends al.
Proof.
  intros al a H C. destruct al as [|[| |i|t] al]; try (apply en_final; intros i' be X; discriminate).
  pose proof (ends_first _ _ H eq_refl []) as X. rewrite app_nil_r in X. specialize (X C). cbn [app] in X. rewrite skip_eps_nt in X.
  inversion X as [al' F|i' be r Hr Hi P En]; subst; [destruct (F i (al ++ [a])); auto|]. eapply en_step; eauto.
Qed.

(** Steps between items without lookahead. *)
Definition core : Type := option nat * nat.
Definition rest_c (c : core) : list symbol := skipn (snd c) (right_side g (fst c)).
Definition step (c c' : core) : Prop := exists i be k r, rest_c c = NonTerminal i :: be /\ nth_error R k = Some r /\ r_lhs r = Some i /\ predicts g r u /\ c' = (Some k, first_dot (r_rhs r)).
Definition live (c : core) (a : symbol) : Prop := firstT R (rest_c c ++ [a]) u.

Lemma step_det : forall c c1 c2, step c c1 -> step c c2 -> c1 = c2.
Proof.
  intros c c1 c2 (i & be & k & r & E & Hk & Hi & P & ->) (i' & be' & k' & r' & E' & Hk' & Hi' & P' & ->). rewrite E in E'. injection E' as <- <-.
  assert (k = k') as <- by (eapply unique_rule; eauto). assert (r = r') as <- by congruence. auto.
Qed.

Lemma rest_rule : forall k r, nth_error R k = Some r -> rest_c (Some k, first_dot (r_rhs r)) = skip_eps (r_rhs r).
Proof. intros k r H. unfold rest_c, right_side, skip_eps. simpl. rewrite H. auto. Qed.

Lemma ends_acc : forall al, ends al -> forall c, rest_c c = al -> Acc (fun c' c => step c c') c.
Proof.
  intros al H. induction H as [al F|i be r Hr Hi P En IH]; intros c E; constructor; intros c' (i' & be' & k & r' & E' & Hk & Hi' & P' & ->).
  - destruct (F i' be'). congruence.
  - apply IH. rewrite E in E'. injection E' as <- <-. apply In_nth_error in Hr. destruct Hr as (j & Hj).
    assert (j = k) as -> by (eapply (unique_rule j k); eauto). assert (r' = r) as -> by congruence. apply rest_rule. auto.
Qed.

Notation steps := (clos_refl_trans core step).

Lemma steps_cases : forall c c', steps c c' -> c = c' \/ exists c1, step c c1 /\ steps c1 c'.
Proof. intros c c' H. apply clos_rt_rt1n in H. destruct H as [|c1 c' H1 H2]; auto. right. exists c1. split; auto. apply clos_rt1n_rt. auto. Qed.

Lemma steps_linear : forall c c1 c2, steps c c1 -> steps c c2 -> steps c1 c2 \/ steps c2 c1.
Proof.
  intros c c1 c2 H. apply clos_rt_rt1n in H. induction H as [c|c c' c1 H1 H2 IH]; intros H'; auto.
  destruct (steps_cases _ _ H') as [<-|(c3 & A & B)].
  - right. apply clos_rt1n_rt. econstructor; eauto.
  - assert (c3 = c') as -> by (eapply step_det; eauto). auto.
Qed.

Lemma steps_final : forall c c', steps c c' -> final (rest_c c) -> c = c'.
Proof. intros c c' H F. destruct (steps_cases _ _ H) as [|(c1 & (i & be & k & r & E & _) & _)]; auto. destruct (F i be E). Qed.

Lemma acc_no_cycle : forall c, Acc (fun c' c => step c c') c -> forall c', step c c' -> ~ steps c' c.
Proof.
  intros c H. induction H as [c _ IH]. intros c' S1 S2. destruct (steps_cases _ _ S2) as [->|(c2 & A & B)].
  - apply (IH c S1 c S1). apply rt_refl.
  - apply (IH c' S1 c2 A). eapply rt_trans; [exact B|]. apply rt_step. auto.
Qed.

Lemma steps_same : forall c c' i be be', steps c c' -> Acc (fun c' c => step c c') c -> rest_c c = NonTerminal i :: be -> rest_c c' = NonTerminal i :: be' -> c = c'.
Proof.
  intros c c' i be be' H HA E E'. destruct (steps_cases _ _ H) as [|(c1 & S1 & S2)]; auto. exfalso.
  assert (step c' c1) as S3. { destruct S1 as (i1 & be1 & k & r & E1 & X). rewrite E in E1. injection E1 as <- <-. exists i, be', k, r. auto. }
  apply (acc_no_cycle c1) with (c' := c1).
  - destruct HA as [HA]. apply HA. auto.
  - destruct (steps_cases _ _ S2) as [->|(c2 & A & B)]; auto. exfalso. 
    assert (Acc (fun c' c => step c c') c1) as HA1 by (destruct HA as [HA]; apply HA; auto).
    apply (acc_no_cycle c1 HA1 c2 A). eapply rt_trans; [exact B|]. apply rt_step. auto.
  - apply rt_refl.
Qed.
End Token.

Lemma nth_skipn_cons : forall A (l : list A) d x, nth_error l d = Some x -> skipn d l = x :: skipn (S d) l.
Proof. induction l as [|y l IH]; intros [|d] x H; simpl in *; try discriminate; [congruence|]. apply IH in H. exact H. Qed.

Lemma skip_first : forall al x, firstT R (skip_eps al) x -> firstT R al x.
Proof. induction al as [|[| |i|t] al IH]; intros x H; auto. constructor. apply IH. exact H. Qed.

Lemma skip_null : forall al, derives R (skip_eps al) [] -> derives R al [].
Proof. induction al as [|[| |i|t] al IH]; intros H; auto. constructor. apply IH. exact H. Qed.

Lemma valid1_rest_context : forall ga k d a, valid1 g ga k d a -> context (rest_c (k, d) ++ [a]).
Proof. intros ga k d a H. apply valid1_context in H. rewrite <- (firstn_skipn d (right_side g k)), <- app_assoc in H. apply context_app in H. exact H. Qed.

Lemma live_acc : forall u ga k d a, valid1 g ga k d a -> live u (k, d) a -> Acc (fun c' c => step u c c') (k, d).
Proof. intros u ga k d a V L. apply (ends_acc u (rest_c (k, d))); auto. apply (ends_rest u _ a); auto. eapply valid1_rest_context; eauto. Qed.

(** Items which begin the closure for [ga]. *)
Definition kernel (ga : list symbol) (k : option nat) (d : nat) (a : symbol) : Prop :=
  (ga = [] /\ k = None /\ d = 0) \/
  exists de s k' d', ga = de ++ [s] /\ k = Some k' /\ d = S d' /\ valid1 g de (Some k') d' a /\ nth_error (right_side g (Some k')) d' = Some s.

Lemma live_kernel : forall ga k d a, valid1 g ga k d a -> forall u, live u (k, d) a ->
  exists k0 d0 a0, kernel ga k0 d0 a0 /\ live u (k0, d0) a0 /\ clos_refl_trans core (step u) (k0, d0) (k, d).
Proof.
  intros ga k d a H. induction H as [|ga k d a i k' r b H IH H1 H2 H3 H4|ga k d a s H IH H1]; intros u L.
  - exists None, 0, End. split; [left; auto|]. split; auto. apply rt_refl.
  - pose proof (nth_skipn_cons _ _ _ _ H1) as Er. pose proof (valid1_rest_context _ _ _ _ H) as C. unfold rest_c in C. cbn [fst snd] in C. rewrite Er in C. cbn [app] in C.
    unfold live in L. rewrite (rest_rule k' r H2) in L. apply firstT_begins in H4.
    assert (live u (k, d) a /\ predicts g r u) as [Lp P].
    { unfold live, rest_c. cbn [fst snd]. rewrite Er. cbn [app]. apply firstT_app_inv in L. destruct L as [L|[L1 L2]].
      - apply skip_first in L. split; [|left; apply firstT_begins; auto]. eapply f_nt; eauto. eapply nth_error_In; eauto.
      - apply skip_null in L1. assert (u = b) as ->.
        { destruct (firstT_lookahead _ _ _ H4) as [->|[t ->]]; inversion L2; auto. }
        assert (derives R [NonTerminal i] []) as D. { apply (d_nt R r i [] [] []); auto; [eapply nth_error_In; eauto|constructor]. }
        split; [apply f_null; auto|]. right. split; [apply erasable_iff; auto|]. exists i. split; auto. eapply context_follows; eauto. apply firstT_begins. auto. }
    destruct (IH u Lp) as (k0 & d0 & a0 & K & L0 & St). exists k0, d0, a0. split; auto. split; auto. eapply rt_trans; [exact St|]. apply rt_step.
    exists i, (skipn (S d) (right_side g k)), k', r. unfold rest_c. cbn [fst snd]. auto.
  - exists (Some k), (S d), a. split; [|split; auto; apply rt_refl]. right. exists ga, s, k, d. auto.
Qed.

Hypothesis ap : all_productive g.

Definition one_kernel (ga : list symbol) : Prop :=
  forall u k1 d1 a1 k2 d2 a2, kernel ga k1 d1 a1 -> kernel ga k2 d2 a2 -> live u (k1, d1) a1 -> live u (k2, d2) a2 -> (k1, d1) = (k2, d2).

Lemma same_item : forall ga, one_kernel ga -> forall u k1 d1 a1 k2 d2 a2, valid1 g ga k1 d1 a1 -> valid1 g ga k2 d2 a2 -> live u (k1, d1) a1 -> live u (k2, d2) a2 ->
  (final (rest_c (k1, d1)) /\ final (rest_c (k2, d2))) \/ (exists i be be', rest_c (k1, d1) = NonTerminal i :: be /\ rest_c (k2, d2) = NonTerminal i :: be') ->
  (k1, d1) = (k2, d2).
Proof.
  intros ga OK u k1 d1 a1 k2 d2 a2 V1 V2 L1 L2 Hs. destruct (live_kernel _ _ _ _ V1 u L1) as (e1 & f1 & b1 & K1 & M1 & S1).
  destruct (live_kernel _ _ _ _ V2 u L2) as (e2 & f2 & b2 & K2 & M2 & S2). pose proof (OK u _ _ _ _ _ _ K1 K2 M1 M2) as E. rewrite <- E in S2.
  pose proof (live_acc _ _ _ _ _ V1 L1) as A1. pose proof (live_acc _ _ _ _ _ V2 L2) as A2.
  destruct (steps_linear u _ _ _ S1 S2) as [X|X]; destruct Hs as [[F1 F2]|(i & be & be' & R1 & R2)].
  - eapply steps_final; eauto.
  - eapply steps_same; eauto.
  - symmetry. eapply steps_final; eauto.
  - symmetry. eapply steps_same; eauto.
Qed.

Lemma kernel_unique : forall ga, one_kernel ga.
Proof.
  intros ga. induction ga as [|s ga IH] using rev_ind; intros u k1 d1 a1 k2 d2 a2 K1 K2 L1 L2.
  - destruct K1 as [(_ & -> & ->)|(de & s & k' & d' & E & _)]; [|destruct de; discriminate]. destruct K2 as [(_ & -> & ->)|(de & s & k' & d' & E & _)]; [|destruct de; discriminate]. auto.
  - destruct K1 as [(E & _)|(de & s' & k1' & d1' & E & -> & -> & V1 & N1)]; [destruct ga; discriminate|]. apply app_inj_tail in E. destruct E as [<- <-].
    destruct K2 as [(E & _)|(de & s' & k2' & d2' & E & -> & -> & V2 & N2)]; [destruct ga; discriminate|]. apply app_inj_tail in E. destruct E as [<- <-].
    assert ((Some k1', d1') = (Some k2', d2')) as X; [|congruence].
    pose proof (nth_skipn_cons _ _ _ _ N1) as R1. pose proof (nth_skipn_cons _ _ _ _ N2) as R2. unfold live, rest_c in L1, L2. cbn [fst snd] in L1, L2.
    destruct s as [| |i|t].
    + apply (same_item ga IH u _ _ a1 _ _ a2 V1 V2).
      * unfold live, rest_c. cbn [fst snd]. rewrite R1. constructor. auto.
      * unfold live, rest_c. cbn [fst snd]. rewrite R2. constructor. auto.
      * left. unfold rest_c. cbn [fst snd]. rewrite R1, R2. split; intros j be X; discriminate.
    + exfalso. apply nth_error_In in N1. apply (no_end g (Some k1') wf N1).
    + assert (productive g i) as (w & D).
      { apply ap. apply (valid0_reachable g ga (Some k1') d1' wf (valid1_valid0 _ _ _ _ _ V1)). eapply nth_error_In; eauto. }
      assert (exists v, live v (Some k1', d1') a1 /\ live v (Some k2', d2') a2) as (v & M1 & M2).
      { unfold live, rest_c. cbn [fst snd]. rewrite R1, R2. cbn [app]. destruct w as [|t w].
        - exists u. split; apply f_null; auto.
        - exists (Terminal t). assert (firstT R [NonTerminal i] (Terminal t)) as F.
          { apply firstT_begins. split; [right; eauto|]. exists (map Terminal w). apply (derives_ssteps _ _ _ D). }
          split; [apply (firstT_app_l R [NonTerminal i]); auto|apply (firstT_app_l R [NonTerminal i]); auto]. }
      apply (same_item ga IH v _ _ a1 _ _ a2 V1 V2 M1 M2). right. unfold rest_c. cbn [fst snd]. rewrite R1, R2. eauto.
    + apply (same_item ga IH (Terminal t) _ _ a1 _ _ a2 V1 V2).
      * unfold live, rest_c. cbn [fst snd]. rewrite R1. constructor. right. eauto.
      * unfold live, rest_c. cbn [fst snd]. rewrite R2. constructor. right. eauto.
      * left. unfold rest_c. cbn [fst snd]. rewrite R1, R2. split; intros j be X; discriminate.
Qed.

Lemma complete_live : forall ga k s, valid1 g ga k (length (right_side g k)) s -> live s (k, length (right_side g k)) s /\ final (rest_c (k, length (right_side g k))).
Proof.
  intros ga k s V. assert (rest_c (k, length (right_side g k)) = []) as E by (unfold rest_c; cbn [fst snd]; apply skipn_all). unfold live. rewrite E. split.
  - constructor. eapply valid1_lookahead; eauto.
  - intros i be X. discriminate.
Qed.

Lemma ll1_clash_free : clash_free KindLR1 g.
Proof.
  intros ga s k V. simpl in V. destruct (complete_live _ _ _ V) as [L F]. split.
  - intros k' V'. simpl in V'. destruct (complete_live _ _ _ V') as [L' F'].
    pose proof (same_item ga (kernel_unique ga) s _ _ _ _ _ _ V V' L L' (or_introl (conj F F'))) as E. congruence.
  - intros (k' & d & Hn & a & V'). pose proof (nth_skipn_cons _ _ _ _ Hn) as Er. pose proof (valid1_lookahead _ _ _ _ _ V) as Hl.
    assert (live s (Some k', d) a) as L'. { unfold live, rest_c. cbn [fst snd]. rewrite Er. constructor. auto. }
    assert (final (rest_c (Some k', d))) as F'. { unfold rest_c. cbn [fst snd]. rewrite Er. intros i be X. destruct Hl as [->|[t ->]]; discriminate. }
    pose proof (same_item ga (kernel_unique ga) s _ _ _ _ _ _ V V' L L' (or_introl (conj F F'))) as E. injection E as -> E.
    assert (d < length (right_side g (Some k'))) as X by (apply nth_error_Some; congruence). simpl in *. lia.
Qed.

(** ** LL(1) grammars in which every non-terminal derives some word: the kernels are single items *)

Lemma valid0_dot : forall ga k d, valid0 g ga k d -> first_dot (right_side g k) <= d.
Proof.
  intros ga k d H. induction H as [|ga k d i k' r H IH H1 H2 H3|ga k d s H IH H1].
  - destruct (wf_entry g wf) as (i & E & _). simpl. rewrite E. auto.
  - unfold right_side. rewrite H2. auto.
  - lia.
Qed.

Lemma kernel_dot : forall ga k d a, valid1 g ga (Some k) d a -> first_dot (right_side g (Some k)) < d -> kernel ga (Some k) d a.
Proof.
  intros ga k d a H. remember (Some k) as k1 eqn:Ek. revert k Ek. destruct H as [|ga k d a i k' r b H H1 H2 H3 H4|ga k d a s H H1]; intros k1 Ek Hd.
  - discriminate.
  - exfalso. unfold right_side in Hd. rewrite H2 in Hd. lia.
  - right. exists ga, s, k, d. auto.
Qed.

Lemma kernel_valid : forall ga k d a, kernel ga k d a -> k = None \/ (valid1 g ga k d a /\ first_dot (right_side g k) < d).
Proof.
  intros ga k d a [(_ & -> & _)|(de & s & k' & d' & -> & -> & -> & V & N)]; auto. right. split; [apply v1_move; auto|].
  apply valid1_valid0 in V. apply valid0_dot in V. lia.
Qed.

Lemma kernel_none : forall ga d a, kernel ga None d a -> ga = [] /\ d = 0.
Proof. intros ga d a [(-> & _ & ->)|(de & s & k' & d' & _ & E & _)]; auto. discriminate. Qed.

Lemma valid1_none : forall ga k d a, valid1 g ga k d a -> k = None -> ga = [].
Proof. intros ga k d a H. destruct H; intros E; auto; discriminate. Qed.

Lemma first_not_eps : forall al d, nth_error al d = Some Epsilon -> d <> first_dot al.
Proof. induction al as [|s al IH]; intros [|d] H E; simpl in *; try discriminate; [injection H as ->; discriminate|]. destruct s; try discriminate. injection E as E. eapply IH; eauto. Qed.

Section Words.
Hypothesis sw : some_word g.

Lemma kernel_one : forall ga k1 d1 a1 k2 d2 a2, kernel ga k1 d1 a1 -> kernel ga k2 d2 a2 -> (k1, d1) = (k2, d2).
Proof.
  intros ga. induction ga as [|s ga IH] using rev_ind; intros k1 d1 a1 k2 d2 a2 K1 K2.
  - destruct K1 as [(_ & -> & ->)|(de & s & k' & d' & E & _)]; [|destruct de; discriminate]. destruct K2 as [(_ & -> & ->)|(de & s & k' & d' & E & _)]; [|destruct de; discriminate]. auto.
  - destruct K1 as [(E & _)|(de & s' & k1' & d1' & E & -> & -> & V1 & N1)]; [destruct ga; discriminate|]. apply app_inj_tail in E. destruct E as [<- <-].
    destruct K2 as [(E & _)|(de & s' & k2' & d2' & E & -> & -> & V2 & N2)]; [destruct ga; discriminate|]. apply app_inj_tail in E. destruct E as [<- <-].
    assert ((Some k1', d1') = (Some k2', d2')) as X; [|congruence].
    pose proof (nth_skipn_cons _ _ _ _ N1) as R1. pose proof (nth_skipn_cons _ _ _ _ N2) as R2.
    destruct s as [| |i|t].
    + pose proof (first_not_eps _ _ N1) as M1. pose proof (first_not_eps _ _ N2) as M2.
      pose proof (valid0_dot _ _ _ (valid1_valid0 _ _ _ _ _ V1)) as Q1. pose proof (valid0_dot _ _ _ (valid1_valid0 _ _ _ _ _ V2)) as Q2.
      apply (IH _ _ a1 _ _ a2); apply kernel_dot; auto; lia.
    + exfalso. apply nth_error_In in N1. apply (no_end g (Some k1') wf N1).
    + destruct (sw i) as (t & w & D).
      { apply (valid0_reachable g ga (Some k1') d1' wf (valid1_valid0 _ _ _ _ _ V1)). eapply nth_error_In; eauto. }
      assert (firstT R [NonTerminal i] (Terminal t)) as F.
      { apply firstT_begins. split; [right; eauto|]. exists (map Terminal w). apply (derives_ssteps _ _ _ D). }
      apply (same_item ga (kernel_unique ga) (Terminal t) _ _ a1 _ _ a2 V1 V2).
      * unfold live, rest_c. cbn [fst snd]. rewrite R1. apply (firstT_app_l R [NonTerminal i]); auto.
      * unfold live, rest_c. cbn [fst snd]. rewrite R2. apply (firstT_app_l R [NonTerminal i]); auto.
      * right. unfold rest_c. cbn [fst snd]. rewrite R1, R2. eauto.
    + apply (same_item ga (kernel_unique ga) (Terminal t) _ _ a1 _ _ a2 V1 V2).
      * unfold live, rest_c. cbn [fst snd]. rewrite R1. constructor. right. eauto.
      * unfold live, rest_c. cbn [fst snd]. rewrite R2. constructor. right. eauto.
      * left. unfold rest_c. cbn [fst snd]. rewrite R1, R2. split; intros j be X; discriminate.
Qed.

Lemma kernel_same : forall ga de k1 d1 a1 k2 d2 a2, same_state KindLALR g ga de -> kernel ga k1 d1 a1 -> kernel de k2 d2 a2 -> (k1, d1) = (k2, d2).
Proof.
  intros ga de k1 d1 a1 k2 d2 a2 Hs K1 K2. destruct k1 as [k1|].
  - destruct (kernel_valid _ _ _ _ K1) as [X|[V D]]; [discriminate|]. destruct (proj1 (Hs (Some k1) d1)) as (a & V'); [eauto|].
    apply (kernel_one de _ _ a _ _ a2); auto. apply kernel_dot; auto.
  - destruct (kernel_none _ _ _ K1) as [-> ->]. destruct (proj1 (Hs None 0)) as (a & V'); [exists End; constructor|]. apply valid1_none in V'; auto. subst de.
    apply (kernel_one [] _ _ a1 _ _ a2); auto.
Qed.

Lemma same_final : forall ga de u k1 d1 a1 k2 d2 a2, same_state KindLALR g ga de -> valid1 g ga k1 d1 a1 -> valid1 g de k2 d2 a2 -> live u (k1, d1) a1 -> live u (k2, d2) a2 ->
  final (rest_c (k1, d1)) -> final (rest_c (k2, d2)) -> (k1, d1) = (k2, d2).
Proof.
  intros ga de u k1 d1 a1 k2 d2 a2 Hs V1 V2 L1 L2 F1 F2. destruct (live_kernel _ _ _ _ V1 u L1) as (e1 & f1 & b1 & K1 & M1 & S1).
  destruct (live_kernel _ _ _ _ V2 u L2) as (e2 & f2 & b2 & K2 & M2 & S2). pose proof (kernel_same _ _ _ _ _ _ _ _ Hs K1 K2) as E. rewrite <- E in S2.
  destruct (steps_linear u _ _ _ S1 S2) as [X|X]; [|symmetry]; eapply steps_final; eauto.
Qed.

Lemma ll1_clash_lalr : clash_free KindLALR g.
Proof.
  intros ga s k (de & Hs & V). destruct (complete_live _ _ _ V) as [L F]. split.
  - intros k' (de' & Hs' & V'). destruct (complete_live _ _ _ V') as [L' F'].
    assert (same_state KindLALR g de de') as Hd by (intros x y; rewrite <- (Hs x y); apply Hs').
    pose proof (same_final _ _ s _ _ _ _ _ _ Hd V V' L L' F F') as E. congruence.
  - intros (k' & d & Hn & a & V'). pose proof (nth_skipn_cons _ _ _ _ Hn) as Er. pose proof (valid1_lookahead _ _ _ _ _ V) as Hl.
    assert (live s (Some k', d) a) as L'. { unfold live, rest_c. cbn [fst snd]. rewrite Er. constructor. auto. }
    assert (final (rest_c (Some k', d))) as F'. { unfold rest_c. cbn [fst snd]. rewrite Er. intros i be X. destruct Hl as [->|[t ->]]; discriminate. }
    assert (same_state KindLALR g de ga) as Hd by (intros x y; symmetry; apply Hs).
    pose proof (same_final _ _ s _ _ _ _ _ _ Hd V V' L L' F F') as E. injection E as -> E.
    assert (d < length (right_side g (Some k'))) as X by (apply nth_error_Some; congruence). simpl in *. lia.
Qed.

(** Complete items which are not kernels belong to empty rules. *)
Hypothesis nw : no_empty_word g.

Lemma all_eps : forall al, first_dot al = length al -> derives R al [].
Proof. induction al as [|s al IH]; intros H; [constructor|]. destruct s; try discriminate. injection H as H. constructor. auto. Qed.

Lemma complete_kernel : forall ga k a, valid1 g ga k (length (right_side g k)) a -> kernel ga k (length (right_side g k)) a.
Proof.
  intros ga k a H. remember (length (right_side g k)) as n eqn:En. destruct H as [|ga k d a i k' r b H H1 H2 H3 H4|ga k d a s H H1].
  - left. auto.
  - exfalso. apply (nw i).
    + apply (valid0_reachable g ga k d wf (valid1_valid0 _ _ _ _ _ H)). eapply nth_error_In; eauto.
    + unfold right_side in En. rewrite H2 in En. apply (d_nt R r i [] [] []); [eapply nth_error_In; eauto|auto|apply all_eps; auto|constructor].
  - right. exists ga, s, k, d. auto.
Qed.

Lemma valid1_from_kernel : forall ga k d a, valid1 g ga k d a -> kernel ga k d a \/ exists k0 d0 a0 i, kernel ga k0 d0 a0 /\ nth_error (right_side g k0) d0 = Some (NonTerminal i).
Proof.
  intros ga k d a H. induction H as [|ga k d a i k' r b H IH H1 H2 H3 H4|ga k d a s H IH H1].
  - left. left. auto.
  - right. destruct IH as [K|X]; [|exact X]. exists k, d, a, i. auto.
  - left. right. exists ga, s, k, d. auto.
Qed.

Lemma complete_alone : forall ga k a k' d' a', valid1 g ga k (length (right_side g k)) a -> valid1 g ga k' d' a' -> (k, length (right_side g k)) = (k', d').
Proof.
  intros ga k a k' d' a' V V'. apply complete_kernel in V. destruct (valid1_from_kernel _ _ _ _ V') as [K|(k0 & d0 & a0 & i & K & N)]; [eapply kernel_one; eauto|].
  pose proof (kernel_one _ _ _ _ _ _ _ V K) as E. injection E as <- <-. assert (length (right_side g k) < length (right_side g k)) as X by (apply nth_error_Some; congruence). lia.
Qed.

Lemma ll1_clash_lr0 : clash_free KindLR0 g.
Proof.
  intros ga s k V. simpl in V. apply (valid0_valid1 g ga k _ wf ap) in V. destruct V as (a & V). split.
  - intros k' V'. simpl in V'. apply (valid0_valid1 g ga k' _ wf ap) in V'. destruct V' as (a' & V'). pose proof (complete_alone _ _ _ _ _ _ V V') as E. congruence.
  - intros (k' & d & N & V'). apply (valid0_valid1 g ga _ _ wf ap) in V'. destruct V' as (a' & V'). pose proof (complete_alone _ _ _ _ _ _ V V') as E. injection E as -> E.
    assert (d < length (right_side g (Some k'))) as X by (apply nth_error_Some; congruence). simpl in *. lia.
Qed.
End Words.
End LL.
