(** Sentential forms, derivations, FIRST characterised by structural recursion. *)
From Coq Require Import String List Arith NArith Bool Lia.
From Verif Require Import Base InputModel GrammarModel GrammarSpec GrammarNamesProof GrammarProof GrammarBuildProof LLModel LLSpec.
Import ListNotations.

Lemma ssteps_trans : forall R a b c, ssteps R a b -> ssteps R b c -> ssteps R a c.
Proof. intros R a b c H. revert c. induction H; intros d Hd; auto. econstructor; eauto. Qed.

Lemma sstep_ctx : forall R u v a b, sstep R a b -> sstep R (u ++ a ++ v) (u ++ b ++ v).
Proof.
  intros R u v a b H. destruct H as [x y r i Hr Hi|x y].
  - replace (u ++ (x ++ NonTerminal i :: y) ++ v) with ((u ++ x) ++ NonTerminal i :: (y ++ v)) by (rewrite <- !app_assoc; auto).
    replace (u ++ (x ++ r_rhs r ++ y) ++ v) with ((u ++ x) ++ r_rhs r ++ (y ++ v)) by (rewrite <- !app_assoc; auto).
    constructor; auto.
  - replace (u ++ (x ++ Epsilon :: y) ++ v) with ((u ++ x) ++ Epsilon :: (y ++ v)) by (rewrite <- !app_assoc; auto).
    replace (u ++ (x ++ y) ++ v) with ((u ++ x) ++ (y ++ v)) by (rewrite <- !app_assoc; auto).
    constructor.
Qed.
Lemma ssteps_ctx : forall R u v a b, ssteps R a b -> ssteps R (u ++ a ++ v) (u ++ b ++ v).
Proof. intros R u v a b H. induction H; [constructor|]. econstructor; [apply sstep_ctx; eauto|auto]. Qed.

Lemma ssteps_app : forall R a b c d, ssteps R a b -> ssteps R c d -> ssteps R (a ++ c) (b ++ d).
Proof.
  intros R a b c d H1 H2. eapply ssteps_trans.
  - apply (ssteps_ctx R [] c a b H1).
  - simpl. pose proof (ssteps_ctx R b [] c d H2) as X. rewrite !app_nil_r in X. auto.
Qed.

Lemma app_cons_split : forall A (u : list A) x v a b, u ++ x :: v = a ++ b ->
  (exists v', a = u ++ x :: v' /\ v = v' ++ b) \/ (exists u', u = a ++ u' /\ b = u' ++ x :: v).
Proof.
  induction u as [|y u IH]; intros x v a b H; simpl in H.
  - destruct a as [|a0 a]; simpl in H.
    + right. exists []. auto.
    + injection H as -> ->. left. exists a. auto.
  - destruct a as [|a0 a]; simpl in H.
    + right. exists (y :: u). auto.
    + injection H as -> H. apply IH in H. destruct H as [(v' & -> & ->)|(u' & -> & ->)]; [left|right]; eexists; simpl; auto.
Qed.

Lemma sstep_app_inv : forall R a b c, sstep R (a ++ b) c ->
  (exists a', c = a' ++ b /\ sstep R a a') \/ (exists b', c = a ++ b' /\ sstep R b b').
Proof.
  intros R a b c H. remember (a ++ b) as s eqn:E. destruct H as [u v r i Hr Hi|u v]; symmetry in E; symmetry in E; apply app_cons_split in E.
  - destruct E as [(v' & -> & ->)|(u' & -> & ->)].
    + left. exists (u ++ r_rhs r ++ v'). split; [rewrite <- !app_assoc; auto|constructor; auto].
    + right. exists (u' ++ r_rhs r ++ v). split; [rewrite <- !app_assoc; auto|constructor; auto].
  - destruct E as [(v' & -> & ->)|(u' & -> & ->)].
    + left. exists (u ++ v'). split; [rewrite <- !app_assoc; auto|constructor; auto].
    + right. exists (u' ++ v). split; [rewrite <- !app_assoc; auto|constructor; auto].
Qed.

Lemma ssteps_app_inv : forall R s c, ssteps R s c -> forall a b, s = a ++ b ->
  exists c1 c2, c = c1 ++ c2 /\ ssteps R a c1 /\ ssteps R b c2.
Proof.
  intros R s c H. induction H as [s|s s' c H1 H2 IH]; intros a b ->.
  - exists a, b. repeat split; constructor.
  - apply sstep_app_inv in H1. destruct H1 as [(a' & -> & H1)|(b' & -> & H1)].
    + destruct (IH a' b eq_refl) as (c1 & c2 & -> & A & B). exists c1, c2. split; auto. split; auto. econstructor; eauto.
    + destruct (IH a b' eq_refl) as (c1 & c2 & -> & A & B). exists c1, c2. split; auto. split; auto. econstructor; eauto.
Qed.

Lemma derives_terms : forall R w, derives R (map Terminal w) w.
Proof. induction w; simpl; constructor; auto. Qed.

Lemma derives_ssteps : forall R al w, derives R al w -> ssteps R al (map Terminal w).
Proof.
  intros R al w H. induction H as [|al w H IH|t al w H IH|r i al u w Hr Hi H1 IH1 H2 IH2].
  - constructor.
  - econstructor; [apply (ss_eps R [] al)|auto].
  - pose proof (ssteps_ctx R [Terminal t] [] _ _ IH) as X. rewrite !app_nil_r in X. auto.
  - rewrite map_app. econstructor; [apply (ss_rule R [] al r i Hr Hi)|]. simpl. apply ssteps_app; auto.
Qed.

Lemma sstep_derives_back : forall R a b w, sstep R a b -> derives R b w -> derives R a w.
Proof.
  intros R a b w H Hd. destruct H as [u v r i Hr Hi|u v].
  - apply derives_app_inv in Hd. destruct Hd as (w1 & w2 & -> & H1 & H2). apply derives_app_inv in H2. destruct H2 as (w3 & w4 & -> & H3 & H4).
    apply derives_app; auto. econstructor; eauto.
  - apply derives_app_inv in Hd. destruct Hd as (w1 & w2 & -> & H1 & H2). apply derives_app; auto. constructor; auto.
Qed.
Lemma ssteps_derives_back : forall R a b w, ssteps R a b -> derives R b w -> derives R a w.
Proof. intros R a b w H. induction H; intros Hd; auto. eapply sstep_derives_back; eauto. Qed.

Lemma derives_iff_ssteps : forall R al w, derives R al w <-> ssteps R al (map Terminal w).
Proof.
  intros. split; [apply derives_ssteps|]. intros H. eapply ssteps_derives_back; eauto. apply derives_terms.
Qed.
Lemma erasable_iff : forall R al, erasable R al <-> derives R al [].
Proof. intros. symmetry. apply (derives_iff_ssteps R al []). Qed.

(** ** First symbols, structurally *)

Inductive firstT (R : list rule) : list symbol -> symbol -> Prop :=
| f_look : forall x al, lookahead x -> firstT R (x :: al) x
| f_eps : forall x al, firstT R al x -> firstT R (Epsilon :: al) x
| f_nt : forall r i al x, In r R -> r_lhs r = Some i -> firstT R (r_rhs r) x -> firstT R (NonTerminal i :: al) x
| f_null : forall i al x, derives R [NonTerminal i] [] -> firstT R al x -> firstT R (NonTerminal i :: al) x.

Lemma firstT_lookahead : forall R al x, firstT R al x -> lookahead x.
Proof. intros R al x H. induction H; auto. Qed.

Lemma derives_nil_app : forall R a b, derives R (a ++ b) [] <-> derives R a [] /\ derives R b [].
Proof.
  intros. split.
  - intros H. apply derives_app_inv in H. destruct H as (u & v & E & Ha & Hb). symmetry in E. apply app_eq_nil in E. destruct E as [-> ->]. auto.
  - intros [Ha Hb]. apply (derives_app R a b [] []); auto.
Qed.
Lemma derives_nil_cons : forall R s b, derives R (s :: b) [] <-> derives R [s] [] /\ derives R b [].
Proof. intros. apply (derives_nil_app R [s] b). Qed.

Lemma firstT_app_l : forall R a b x, firstT R a x -> firstT R (a ++ b) x.
Proof. intros R a b x H. induction H; simpl; [constructor; auto|constructor; auto|eapply f_nt; eauto|apply f_null; auto]. Qed.
Lemma firstT_app_r : forall R a b x, derives R a [] -> firstT R b x -> firstT R (a ++ b) x.
Proof.
  intros R a b x Ha Hb. induction a as [|s a IH]; auto. apply derives_nil_cons in Ha. destruct Ha as [Hs Ha]. simpl.
  destruct s as [| |i|t].
  - constructor; auto.
  - inversion Hs.
  - apply f_null; auto.
  - inversion Hs.
Qed.
Lemma firstT_app_inv : forall R a b x, firstT R (a ++ b) x -> firstT R a x \/ (derives R a [] /\ firstT R b x).
Proof.
  intros R a b x. induction a as [|s a IH]; intros H; simpl in H.
  - right. split; [constructor|auto].
  - inversion H as [y al Hl|y al H'|r i al y Hr Hi H'|i al y Hn H']; subst.
    + left. constructor; auto.
    + destruct (IH H') as [X|[X Y]]; [left; constructor; auto|right; split; auto; constructor; auto].
    + left. eapply f_nt; eauto.
    + destruct (IH H') as [X|[X Y]]; [left; apply f_null; auto|right; split; auto]. apply derives_nil_cons; auto.
Qed.

Lemma derives_nil_nt : forall R i, derives R [NonTerminal i] [] <-> exists r, In r R /\ r_lhs r = Some i /\ derives R (r_rhs r) [].
Proof.
  intros R i. split.
  - intros H. inversion H as [| | |r i' al u w Hr Hi H1 H2 E1 E2]; subst. apply app_eq_nil in E2. destruct E2 as [-> ->]. eauto.
  - intros (r & Hr & Hi & H). apply (d_nt R r i [] [] []); auto. constructor.
Qed.

Lemma firstT_step_back : forall R a b x, sstep R a b -> firstT R b x -> firstT R a x.
Proof.
  intros R a b x H Hf. destruct H as [u v r i Hr Hi|u v].
  - apply firstT_app_inv in Hf. destruct Hf as [Hf|[Hn Hf]]; [apply firstT_app_l; auto|]. apply firstT_app_r; auto.
    apply firstT_app_inv in Hf. destruct Hf as [Hf|[Hn' Hf]]; [eapply f_nt; eauto|]. apply f_null; auto. apply derives_nil_nt; eauto.
  - apply firstT_app_inv in Hf. destruct Hf as [Hf|[Hn Hf]]; [apply firstT_app_l; auto|]. apply firstT_app_r; auto. constructor; auto.
Qed.

Lemma firstT_begins : forall R al x, firstT R al x <-> begins R al x.
Proof.
  intros R al x. split.
  - intros H. split; [eapply firstT_lookahead; eauto|]. induction H as [x al Hl|x al H [be IH]|r i al x Hr Hi H [be IH]|i al x Hn H [be IH]].
    + exists al. constructor.
    + exists be. econstructor; [apply (ss_eps R [] al)|auto].
    + exists (be ++ al). econstructor; [apply (ss_rule R [] al r i Hr Hi)|]. simpl. apply (ssteps_ctx R [] al _ _ IH).
    + exists be. apply (ssteps_app R [NonTerminal i] [] al (x :: be)); auto. apply (derives_ssteps _ _ _ Hn).
  - intros (Hl & be & H). remember (x :: be) as c eqn:E. revert E. induction H as [a|a b c H1 H2 IH]; intros E; subst.
    + constructor; auto.
    + eapply firstT_step_back; eauto.
Qed.
