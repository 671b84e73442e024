(** Results of generating tables of different kinds for one grammar. *)
From Coq Require Import String List Arith NArith Bool Lia.
From Verif Require Import Base InputModel GrammarModel GrammarSpec GrammarProof LLModel LLSpec SententialProof SetsProof FirstProof LLTableProof LRModel LRSpec GLRSpec LRTermSpec BidiProof ItemProof LRItemsProof LRGraphProof AutomatonProof LRTableProof LRWriteProof LRGenProof LRConflictProof LRFactsProof CanonSpec CanonProof CanonFactsProof HierarchySpec HierarchyProof.
Import ListNotations.
Local Open Scope nat_scope.
Local Open Scope list_scope.

(** ** Conflicts *)

Lemma lr0_then_lalr : forall g m m' allow allow' r r', wf_grammar g -> no_empty_rhs g -> generates KindLR0 m g allow = Ok r -> generates KindLALR m' g allow' = Ok r' ->
  conflict_free r -> conflict_free r'.
Proof.
  intros g m m' allow allow' r r' wf ne H H' C. apply (generated_clash _ _ _ _ _ wf ne H'). apply clash_lr0_lalr. apply (generated_clash _ _ _ _ _ wf ne H). auto.
Qed.

Lemma lalr_then_lr1 : forall g m m' allow allow' r r', wf_grammar g -> no_empty_rhs g -> generates KindLALR m g allow = Ok r -> generates KindLR1 m' g allow' = Ok r' ->
  conflict_free r -> conflict_free r'.
Proof.
  intros g m m' allow allow' r r' wf ne H H' C. apply (generated_clash _ _ _ _ _ wf ne H'). apply clash_lalr_lr1. apply (generated_clash _ _ _ _ _ wf ne H). auto.
Qed.

Lemma lr1_then_no_shift_reduce : forall g m m' allow allow' r r', wf_grammar g -> no_empty_rhs g -> generates KindLR1 m g allow = Ok r -> generates KindLALR m' g allow' = Ok r' ->
  conflict_free r -> forall c, In c (reported r') -> ~ is_shift_reduce c.
Proof.
  intros g m m' allow allow' r r' wf ne H H' C c Hc (q & it & s & ->). apply (generated_clash _ _ _ _ _ wf ne H) in C.
  destruct (generate_inv g wf _ _ _ _ _ (kind_n_le KindLALR) H') as (fs & pg & cs & A & B & [_ D] & F). 
  assert (In (ShiftReduce q it s) cs) as Hin by (destruct F; simpl in Hc; auto; contradiction). apply D in Hin.
  destruct Hin as (q' & S & HS & Co). inversion Co as [it' s' t I1 I2 I3 I4 I5 E|]; subst.
  destruct (node_path g _ fs (kind_n_le KindLALR) A _ pg B q) as (ga & Hp); [apply (gi_nodes _ _ _ _ _ (au_inv _ _ _ _ _ B)); eauto|].
  apply (lr1_shift_lalr g C ga s (it_rule it')).
  - apply (completes_reducing KindLALR g wf ne fs A pg B ga q S _ s Hp HS). exists it'. split; auto. split; auto.
  - apply (shifts_edge KindLALR g wf ne fs A pg B ga q s Hp). exists t. exact I4.
Qed.

Lemma ll1_then_lr1 : forall g m m' tb allow r, wf_grammar g -> no_empty_rhs g -> terminals_fit g -> all_productive g ->
  ll_generate_table m g = Ok tb -> generates KindLR1 m' g allow = Ok r -> conflict_free r.
Proof.
  intros g m m' tb allow r wf ne fit ap H H'. apply (generated_clash _ _ _ _ _ wf ne H'). apply ll1_clash_free; auto.
  intros j k x. destruct (generate_ok_exact g wf ne fit m tb H) as (N & _). apply N.
Qed.

Lemma ll1_then_lalr : forall g m m' tb allow r, wf_grammar g -> no_empty_rhs g -> terminals_fit g -> some_word g ->
  ll_generate_table m g = Ok tb -> generates KindLALR m' g allow = Ok r -> conflict_free r.
Proof.
  intros g m m' tb allow r wf ne fit sw H H'. assert (all_productive g) as ap by (intros i Hi; destruct (sw i Hi) as (t & w & D); exists (t :: w); exact D).
  apply (generated_clash _ _ _ _ _ wf ne H'). apply ll1_clash_lalr; auto.
  intros j k x. destruct (generate_ok_exact g wf ne fit m tb H) as (N & _). apply N.
Qed.

Lemma ll1_then_lr0 : forall g m m' tb allow r, wf_grammar g -> no_empty_rhs g -> terminals_fit g -> all_productive g -> no_empty_word g ->
  ll_generate_table m g = Ok tb -> generates KindLR0 m' g allow = Ok r -> conflict_free r.
Proof.
  intros g m m' tb allow r wf ne fit ap nw H H'. 
  assert (some_word g) as sw by (intros i Hi; destruct (ap i Hi) as ([|t w] & D); [destruct (nw i Hi D)|exists t, w; exact D]).
  apply (generated_clash _ _ _ _ _ wf ne H'). apply ll1_clash_lr0; auto.
  intros j k x. destruct (generate_ok_exact g wf ne fit m tb H) as (N & _). apply N.
Qed.

(** ** Numbers of states *)

Lemma injection_le : forall (rel : nat -> nat -> Prop) N M, (forall q, q < N -> exists q', q' < M /\ rel q q') -> (forall q1 q2 q', rel q1 q' -> rel q2 q' -> q1 = q2) -> N <= M.
Proof.
  intros rel N M H Hi.
  assert (forall n, n <= N -> exists l, length l = n /\ NoDup l /\ forall q', In q' l -> q' < M /\ exists q, q < n /\ rel q q') as X.
  { induction n as [|n IH]; intros Hn.
    - exists []. split; auto. split; [constructor|]. intros q' [].
    - destruct IH as (l & L & ND & Hl); [lia|]. destruct (H n) as (q' & Hq & Hr); [lia|]. exists (q' :: l). split; [simpl; auto|]. split.
      + constructor; auto. intros Hin. destruct (Hl q' Hin) as (_ & q & Hq' & Hr'). assert (q = n) by (eapply Hi; eauto). lia.
      + intros x [<-|Hx]; [split; auto; exists n; auto|]. destruct (Hl x Hx) as (A & q & B & C). split; auto. exists q. split; auto. }
  destruct (X N (le_n N)) as (l & <- & ND & Hl). rewrite <- (seq_length M 0). apply NoDup_incl_length; auto. intros x Hx. apply in_seq. destruct (Hl x Hx) as [A _]. lia.
Qed.

Section Graph.
Variable kind : table_kind.
Variable g : grammar.
Hypothesis wf : wf_grammar g.
Hypothesis ne : no_empty_rhs g.
Variable fs : symbol_sets.
Hypothesis fc : kind_n kind = 1 -> first_sets_correct g fs.
Variable pg : lr_graph.
Hypothesis au : automaton g (kind_n kind) fs (kind_lalr kind) pg.

Lemma path_iff : forall ga, (exists q, gpath pg ga q) <-> exists k d, in_progress kind g ga k d.
Proof.
  intros ga. split.
  - intros (q & H). destruct H as [|ga q s t H He].
    + exists None, 0. apply (progress_vitem kind g wf ne fs fc pg au). exists (entry_item (kind_n kind)). split; auto. constructor.
    + pose proof (au_inv _ _ _ _ _ au) as gi. destruct (gi_edge _ _ _ _ _ gi _ _ _ He) as (S & T & A & B & _ & (it & M1 & M2 & M3) & _).
      destruct (in_core g wf _ fs (kind_n_le kind) fc _ pg au ga q H S it A M1) as (y & V & Ec). apply to_lr0_fields in Ec. destruct Ec as [F1 F2].
      exists (it_rule (adv y)), (it_dot (adv y)). apply (progress_vitem kind g wf ne fs fc pg au). exists (adv y). split; auto. apply vi_move; auto.
      * unfold symbol_after_dot in *. rewrite F1, F2. auto.
      * rewrite F1. auto.
  - intros (k & d & V). apply (progress_vitem kind g wf ne fs fc pg au) in V. destruct V as (x & V & _). eapply vitem_path; eauto.
Qed.
End Graph.

Lemma states_le : forall k1 k2 g m1 m2 a1 a2 r1 r2 t1 t2, wf_grammar g -> no_empty_rhs g -> generates k1 m1 g a1 = Ok r1 -> generates k2 m2 g a2 = Ok r2 ->
  table_of_result r1 t1 -> table_of_result r2 t2 ->
  (forall ga, (exists k d, in_progress k1 g ga k d) -> exists k d, in_progress k2 g ga k d) ->
  (forall ga de, same_state k2 g ga de -> same_state k1 g ga de) -> tb_states t1 <= tb_states t2.
Proof.
  intros k1 k2 g m1 m2 a1 a2 r1 r2 t1 t2 wf ne H1 H2 T1 T2 HP HE.
  destruct (generate_inv g wf _ _ _ _ _ (kind_n_le k1) H1) as (fs1 & pg1 & cs1 & A1 & B1 & _ & D1). destruct (generate_inv g wf _ _ _ _ _ (kind_n_le k2) H2) as (fs2 & pg2 & cs2 & A2 & B2 & _ & D2).
  assert (table_of g (kind_n k1) pg1 t1) as F1 by (destruct T1; inversion D1; auto). assert (table_of g (kind_n k2) pg2 t2) as F2 by (destruct T2; inversion D2; auto).
  rewrite (tf_states _ _ _ _ F1), (tf_states _ _ _ _ F2).
  apply (injection_le (fun q q' => exists ga, gpath pg1 ga q /\ gpath pg2 ga q')).
  - intros q Hq. destruct (node_path g _ fs1 (kind_n_le k1) A1 _ pg1 B1 q Hq) as (ga & Hp).
    destruct (proj2 (path_iff k2 g wf ne fs2 A2 pg2 B2 ga)) as (q' & Hp'); [apply HP; apply (path_iff k1 g wf ne fs1 A1 pg1 B1); eauto|].
    exists q'. split; [eapply (path_node g _ fs2 _ pg2 B2); eauto|]. eauto.
  - intros q1 q2 q' (ga & P1 & P2) (de & P3 & P4). apply (same_state_paths k1 g wf ne fs1 A1 pg1 B1 ga q1 de q2 P1 P3). apply HE.
    apply (same_state_paths k2 g wf ne fs2 A2 pg2 B2 ga q' de q' P2 P4). auto.
Qed.

Lemma lalr_states_le : forall g m m' a a' r r' tb tb', wf_grammar g -> no_empty_rhs g -> generates KindLALR m g a = Ok r -> generates KindLR1 m' g a' = Ok r' ->
  table_of_result r tb -> table_of_result r' tb' -> tb_states tb <= tb_states tb'.
Proof.
  intros g m m' a a' r r' tb tb' wf ne H H' T T'. eapply (states_le KindLALR KindLR1); eauto. apply same_lr1_lalr.
Qed.

Lemma lr0_states_eq : forall g m m' a a' r r' tb tb', wf_grammar g -> no_empty_rhs g -> all_productive g -> generates KindLR0 m g a = Ok r -> generates KindLALR m' g a' = Ok r' ->
  table_of_result r tb -> table_of_result r' tb' -> tb_states tb = tb_states tb'.
Proof.
  intros g m m' a a' r r' tb tb' wf ne ap H H' T T'. apply Nat.le_antisymm.
  - eapply (states_le KindLR0 KindLALR); eauto.
    + intros ga (k & d & V). exists k, d. apply (valid0_valid1 g ga k d wf ap V).
    + intros ga de. apply (same_lr0_lalr g ga de wf ap).
  - eapply (states_le KindLALR KindLR0); eauto.
    + intros ga (k & d & b & V). exists k, d. apply (valid1_valid0 _ _ _ _ _ V).
    + intros ga de. apply (same_lr0_lalr g ga de wf ap).
Qed.
