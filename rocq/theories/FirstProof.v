(** FIRST sets: termination, soundness, completeness. *)
From Coq Require Import String List Arith NArith Bool Lia.
From Verif Require Import Base InputModel GrammarModel GrammarSpec GrammarNamesProof GrammarProof GrammarBuildProof LLModel LLSpec SententialProof SetsProof.
Import ListNotations.
Local Open Scope nat_scope.

(** ** FIRST of a sequence relative to given sets *)

Fixpoint seqF (fs : symbol_sets) (al : list symbol) (x : symbol) : Prop :=
  match al with
  | [] => False
  | Epsilon :: r => seqF fs r x
  | NonTerminal i :: r => (x <> Epsilon /\ inS fs (NonTerminal i) x) \/ (inS fs (NonTerminal i) Epsilon /\ seqF fs r x)
  | s :: _ => x = s
  end.
Fixpoint nullF (fs : symbol_sets) (al : list symbol) : Prop :=
  match al with
  | [] => True
  | Epsilon :: r => nullF fs r
  | NonTerminal i :: r => inS fs (NonTerminal i) Epsilon /\ nullF fs r
  | _ :: _ => False
  end.

Definition nts_known (g : grammar) (al : list symbol) : Prop := forall i, In (NonTerminal i) al -> In (NonTerminal i) (non_terminals g).

Definition in_first (fs : symbol_sets) (al : list symbol) (x : symbol) : Prop :=
  (x <> Epsilon /\ seqF fs al x) \/ (x = Epsilon /\ al <> [] /\ nullF fs al).

Lemma not_epsilon_iff : forall s, not_epsilon s = true <-> s <> Epsilon.
Proof. intros s. unfold not_epsilon. rewrite negb_true_iff. apply eqc_false. Qed.

Lemma sorted_one : forall (x : symbol), sorted [x].
Proof. intros. constructor; [constructor|intros b []]. Qed.

Lemma eps_step : forall fs s r x, in_first fs (s :: r) x <->
  match s with
  | Epsilon => in_first fs r x \/ (r = [] /\ x = Epsilon)
  | NonTerminal i => (x <> Epsilon /\ inS fs (NonTerminal i) x) \/ (inS fs (NonTerminal i) Epsilon /\ (in_first fs r x \/ (r = [] /\ x = Epsilon)))
  | _ => x = s
  end.
Proof.
  intros fs s r x. unfold in_first. destruct s as [| |i|t]; cbn [seqF nullF].
  - split.
    + intros [[A B]|(A & _ & B)]; [left; left; auto|]. destruct r; [right; auto|left; right; split; auto; split; auto; discriminate].
    + intros [[[A B]|(A & B & C)]|[-> ->]]; [left; auto|right; split; auto; split; auto; discriminate|].
      right. split; auto. split; [discriminate|constructor].
  - split; [intros [[_ A]|(_ & _ & [])]; auto|intros ->; left; split; auto; discriminate].
  - split.
    + intros [[A [B|B]]|(A & _ & B1 & B2)]; [left; auto|right; tauto|]. right. split; auto.
      destruct r; [right; auto|left; right; split; auto; split; auto; discriminate].
    + intros [[A B]|[A [[[B C]|(B & C & D)]|[-> ->]]]]; [left; auto|left; auto|right; split; auto; split; auto; discriminate|].
      right. split; auto. split; [discriminate|simpl; auto].
  - split; [intros [[_ A]|(_ & _ & [])]; auto|intros ->; left; split; auto; discriminate].
Qed.

Lemma first_of_seq_acc_spec : forall E g fs al acc, sets_ok g fs -> nts_known g al -> sorted acc ->
  exists S, @first_of_seq_acc E al fs acc = Ok S /\ sorted S /\ forall x, In x S <-> In x acc \/ in_first fs al x.
Proof.
  intros E g fs al. induction al as [|s r IH]; intros acc Hok Hk Hs; cbn [first_of_seq_acc].
  - exists acc. split; auto. split; auto. intros x. split; auto. intros [?|[[_ []]|(_ & X & _)]]; auto. contradiction.
  - assert (nts_known g r) as Hk' by (intros i Hi; apply Hk; right; auto).
    assert (forall set, sorted set ->
      exists S, (let acc0 := set_union acc (filter not_epsilon set) in
        if set_mem Epsilon set then @first_of_seq_acc E r fs (match r with [] => set_insert Epsilon acc0 | _ => acc0 end) else Ok acc0) = Ok S /\
        sorted S /\ forall x, In x S <-> In x acc \/ (x <> Epsilon /\ In x set) \/ (In Epsilon set /\ (in_first fs r x \/ (r = [] /\ x = Epsilon)))) as G.
    { intros set Hset. cbn zeta. set (acc0 := set_union acc (filter not_epsilon set)).
      assert (sorted acc0) as H0 by (apply set_union_sorted; auto).
      assert (forall x, In x acc0 <-> In x acc \/ (x <> Epsilon /\ In x set)) as H1.
      { intros x. unfold acc0. rewrite set_union_In, filter_In, not_epsilon_iff. tauto. }
      destruct (set_mem Epsilon set) eqn:M.
      - apply set_mem_In in M; auto.
        destruct r as [|s' r'].
        + exists (set_insert Epsilon acc0). split; auto. split; [apply set_insert_sorted; auto|]. intros x. rewrite set_insert_In, H1.
          split.
          * intros [->|[?|?]]; auto. right; right; auto.
          * intros [?|[?|[_ [X|[_ X]]]]]; auto. destruct X as [[_ []]|(_ & X & _)]. contradiction.
        + destruct (IH acc0 Hok Hk' H0) as (S & ES & SS & IS). exists S. split; auto. split; auto. intros x. rewrite IS, H1. split.
          * intros [[?|?]|?]; auto.
          * intros [?|[?|[_ [X|[X _]]]]]; auto. discriminate.
      - exists acc0. split; auto. split; auto. intros x. rewrite H1. split; [intros [?|?]; auto|intros [?|[?|[X _]]]; auto].
        apply set_mem_In in X; auto. congruence. }
    destruct s as [| |i|t].
    + change (eqc Epsilon Epsilon) with true. cbn iota. cbn [bind]. destruct (G [Epsilon] (sorted_one _)) as (S & ES & SS & IS).
      exists S. split; auto. split; auto. intros x. rewrite IS, eps_step. split.
      * intros [A|[[A B]|[_ A]]]; [left; exact A| |right; exact A]. destruct B as [<-|[]]. destruct (A eq_refl).
      * intros [?|?]; auto. right; right; split; auto. left; auto.
    + exists (set_insert End acc). split; auto. split; [apply set_insert_sorted; auto|]. intros x. rewrite set_insert_In, eps_step. tauto.
    + destruct (so_get g fs (NonTerminal i) Hok) as [set Hset]; [apply Hk; left; auto|].
      replace (eqc (NonTerminal i) Epsilon) with false by (symmetry; apply eqc_false; discriminate). cbn iota.
      unfold get_set. rewrite Hset. cbn [bind]. destruct (so_set _ _ Hok _ _ Hset) as [Hss _].
      destruct (G set Hss) as (S & ES & SS & IS). exists S. split; auto. split; auto. intros x. rewrite IS, eps_step, !(inS_get _ _ _ _ Hset). tauto.
    + exists (set_insert (Terminal t) acc). split; auto. split; [apply set_insert_sorted; auto|]. intros x. rewrite set_insert_In, eps_step. tauto.
Qed.

Lemma first_of_seq_spec : forall E g fs al, sets_ok g fs -> nts_known g al ->
  exists S, @first_of_seq E al fs = Ok S /\ sorted S /\ forall x, In x S <-> in_first fs al x.
Proof.
  intros E g fs al H1 H2. destruct (first_of_seq_acc_spec E g fs al [] H1 H2 (sorted_nil)) as (S & A & B & C).
  exists S. split; auto. split; auto. intros x. rewrite C. simpl. tauto.
Qed.

(** The result does not depend on the error type. *)
Lemma in_first_universe : forall g fs al x, sets_ok g fs -> (forall s, In s al -> known g s \/ s = End) -> in_first fs al x -> In x (universe g).
Proof.
  intros g fs al x Hok Hk [[Hx H]|[-> _]]; [|left; auto]. induction al as [|s r IH]; [destruct H|]. cbn [seqF] in H.
  assert (seqF fs r x -> In x (universe g)) as IH' by (apply IH; intros; apply Hk; right; auto).
  destruct s as [| |i|t]; auto.
  - subst. right; left; auto.
  - destruct H as [[_ (set & E & H)]|[_ H]]; auto. eapply (so_set _ _ Hok); eauto.
  - subst. destruct (Hk (Terminal t) (or_introl eq_refl)) as [X|X]; [|discriminate]. simpl in X. right; right; auto.
Qed.

(** ** One rule of a round *)

Section First.
Variable g : grammar.
Hypothesis wf : wf_grammar g.

Lemma nts_nodup : NoDup (non_terminals g).
Proof.
  pose proof (wf_symbols g wf) as H. unfold all_symbols in H. induction (terminals g) as [|t l IH]; simpl in H; auto. inversion H; auto.
Qed.

Lemma rhs_known : forall r, In r (g_rules g) -> nts_known g (r_rhs r).
Proof. intros r Hr i Hi. apply (wf_rhs g wf r _ Hr Hi). Qed.
Lemma rhs_known' : forall r, In r (g_rules g) -> forall s, In s (r_rhs r) -> known g s \/ s = End.
Proof. intros r Hr s Hs. left. eapply wf_rhs; eauto. Qed.

Lemma first_step_spec : forall E fs any r, sets_ok g fs -> In r (g_rules g) ->
  exists i fs' any', r_lhs r = Some i /\ @first_step E (fs, any) r = Ok (fs', any') /\ sets_ok g fs' /\ grew (fs, any) (fs', any') /\
    (forall k x, inS fs' k x <-> inS fs k x \/ (k = NonTerminal i /\ in_first fs (r_rhs r) x)).
Proof.
  intros E fs any r Hok Hr. destruct (wf_lhs g wf r Hr) as (i & Hi & Hin).
  destruct (first_of_seq_spec E g fs (r_rhs r) Hok (rhs_known r Hr)) as (new & Hn & Hns & Hnew).
  destruct (so_get g fs (NonTerminal i) Hok Hin) as [set Hset].
  destruct (insert_all set new any) as [set' any'] eqn:HI.
  destruct (update_set g fs any (NonTerminal i) set new set' any' Hok Hset) as (A & B & C); auto.
  { intros x Hx. apply Hnew in Hx. eapply in_first_universe; eauto. apply rhs_known'; auto. }
  exists i, (map_insert (NonTerminal i) set' fs), any'. split; auto. split.
  - unfold first_step. rewrite Hn. cbn [bind]. unfold rule_lhs. rewrite Hi. cbn [bind]. unfold get_set. rewrite Hset. cbn [bind]. rewrite HI. auto.
  - split; auto. split; auto. intros k x. rewrite C, Hnew. tauto.
Qed.

(** ** Soundness *)

Definition first_sound (fs : symbol_sets) : Prop := forall i x, inS fs (NonTerminal i) x ->
  (x = Epsilon /\ derives (g_rules g) [NonTerminal i] []) \/ firstT (g_rules g) [NonTerminal i] x.

Lemma firstT_not_eps : forall R al, ~ firstT R al Epsilon.
Proof. intros R al H. apply firstT_lookahead in H. destruct H as [H|[t H]]; discriminate. Qed.

Lemma nullF_sound : forall fs al, first_sound fs -> nullF fs al -> derives (g_rules g) al [].
Proof.
  intros fs al Hs. induction al as [|s r IH]; intros H; [constructor|]. cbn [nullF] in H. destruct s as [| |i|t]; try contradiction.
  - constructor; auto.
  - destruct H as [H1 H2]. apply derives_nil_cons. split; auto. destruct (Hs _ _ H1) as [[_ X]|X]; auto. destruct (firstT_not_eps _ _ X).
Qed.
Lemma seqF_sound : forall fs al x, first_sound fs -> x <> Epsilon -> seqF fs al x -> firstT (g_rules g) al x.
Proof.
  intros fs al x Hs Hx. induction al as [|s r IH]; intros H; [destruct H|]. cbn [seqF] in H. destruct s as [| |i|t].
  - constructor; auto.
  - subst. constructor. left; auto.
  - destruct H as [[_ H]|[H1 H2]].
    + destruct (Hs _ _ H) as [[X _]|X]; [contradiction|]. apply (firstT_app_l _ [NonTerminal i] r); auto.
    + apply f_null; auto. destruct (Hs _ _ H1) as [[_ X]|X]; auto. destruct (firstT_not_eps _ _ X).
  - subst. constructor. right; eauto.
Qed.

Lemma first_step_sound : forall E fs any r fs' any', sets_ok g fs -> In r (g_rules g) -> first_sound fs ->
  @first_step E (fs, any) r = Ok (fs', any') -> first_sound fs'.
Proof.
  intros E fs any r fs' any' Hok Hr Hs H. destruct (first_step_spec E fs any r Hok Hr) as (i & f1 & a1 & Hi & H1 & _ & _ & Hin).
  rewrite H in H1. injection H1 as <- <-. intros j x Hj. apply Hin in Hj. destruct Hj as [Hj|[[= ->] Hj]]; [apply Hs; auto|].
  destruct Hj as [[Hx Hj]|(-> & _ & Hj)].
  - right. eapply f_nt; eauto. eapply seqF_sound; eauto.
  - left. split; auto. apply derives_nil_nt. exists r. split; auto. split; auto. eapply nullF_sound; eauto.
Qed.

(** ** Closure and completeness *)

Definition first_closed (fs : symbol_sets) : Prop := forall r i x, In r (g_rules g) -> r_lhs r = Some i -> in_first fs (r_rhs r) x -> inS fs (NonTerminal i) x.

Lemma nullF_app : forall fs a b, nullF fs (a ++ b) <-> nullF fs a /\ nullF fs b.
Proof. intros fs a b. induction a as [|s a IH]; simpl; [tauto|]. destruct s; tauto. Qed.

Section Complete.
Variable fs : symbol_sets.
Hypothesis ne : no_empty_rhs g.
Hypothesis closed : first_closed fs.

Lemma nullF_complete : forall al w, derives (g_rules g) al w -> w = [] -> nullF fs al.
Proof.
  intros al w H. induction H as [|al w H IH|t al w H IH|r i al u w Hr Hi H1 IH1 H2 IH2]; intros E; cbn [nullF]; auto.
  - discriminate.
  - apply app_eq_nil in E. destruct E as [-> ->]. split; [|auto]. apply (closed r i Epsilon Hr Hi). right. split; [auto|]. split; [apply ne; auto|auto].
Qed.
Lemma seqF_complete : forall al x, firstT (g_rules g) al x -> seqF fs al x.
Proof.
  intros al x H. pose proof (firstT_lookahead _ _ _ H) as Hl.
  assert (x <> Epsilon) as Hx by (intros ->; destruct (firstT_not_eps _ _ H)).
  induction H as [x al H|x al H IH|r i al x Hr Hi H IH|i al x Hn H IH]; cbn [seqF].
  - destruct H as [->|[t ->]]; auto.
  - auto.
  - left. split; auto. eapply closed; eauto. left. auto.
  - right. split; auto. apply nullF_complete in Hn; auto. simpl in Hn. tauto.
Qed.
End Complete.

(** ** The loop *)

Definition first_inv (fs : symbol_sets) : Prop := sets_ok g fs /\ first_sound fs.

Definition first_round {E} (fs : symbol_sets) : res E (symbol_sets * bool) := foldM first_step (g_rules g) (fs, false).

Lemma first_loop_gloop : forall E fuel fs, @first_loop E fuel g fs = gloop first_round fuel fs.
Proof. intros E fuel. induction fuel as [|fuel IH]; intros fs; simpl; auto. unfold first_round at 1. destruct (foldM first_step (g_rules g) (fs, false)) as [[fs' [|]]| | |]; simpl; auto. Qed.

Lemma first_step_inv : forall E st r, In r (g_rules g) -> first_inv (fst st) ->
  exists st', @first_step E st r = Ok st' /\ first_inv (fst st') /\ grew st st'.
Proof.
  intros E [fs any] r Hr [H1 H2]. destruct (first_step_spec E fs any r H1 Hr) as (i & fs' & any' & Hi & HS & A & B & C).
  exists (fs', any'). cbn [fst]. split; [exact HS|]. split; [|exact B]. split; [exact A|]. exact (first_step_sound E fs any r fs' any' H1 Hr H2 HS).
Qed.

Lemma first_round_ok : forall E fs, first_inv fs -> exists fs' any, @first_round E fs = Ok (fs', any) /\ first_inv fs' /\ grew (fs, false) (fs', any).
Proof.
  intros E fs H. destruct (foldM_grow E rule first_step first_inv (g_rules g) (fs, false)) as ([fs' any] & A & B & C); auto.
  { intros st r Hr. apply first_step_inv; auto. }
  exists fs', any. auto.
Qed.

Lemma init_first_inv : first_inv (init_sets g).
Proof. split; [apply init_sets_ok|]. intros i x H. destruct (init_sets_empty _ _ _ H). Qed.

Lemma first_fixpoint_closed : forall E fs, first_inv fs -> @first_round E fs = Ok (fs, false) -> first_closed fs.
Proof.
  intros E fs H HR r i x Hr Hi Hx.
  pose proof (foldM_unchanged E rule first_step first_inv (g_rules g) fs (fun st a Ha HP => first_step_inv E st a Ha HP) H HR r Hr) as HU.
  destruct H as [H1 H2]. destruct (first_step_spec E fs false r H1 Hr) as (i' & fs' & any' & Hi' & HS & A & B & C).
  rewrite HU in HS. injection HS as <- <-. assert (i' = i) by congruence. subst. apply C. right; auto.
Qed.

Definition fuel_bound : nat := S (length (non_terminals g) * (length (terminals g) + 2)).
Lemma universe_bound : length (non_terminals g) * length (universe g) < fuel_bound.
Proof. unfold fuel_bound, universe. simpl. rewrite (Nat.add_comm _ 2). simpl. lia. Qed.

Lemma compute_first_ok : forall E fuel, fuel_bound <= fuel -> exists fs, @compute_first_sets E fuel g = Ok fs.
Proof.
  intros E fuel Hf. unfold compute_first_sets. rewrite first_loop_gloop.
  destruct (gloop_ok first_round first_inv g nts_nodup (fun fs H => proj1 H) (first_round_ok E) fuel (init_sets g) init_first_inv) as (fs & A & _); eauto.
  pose proof universe_bound. lia.
Qed.
Lemma compute_first_cases : forall E fuel, (exists fs, @compute_first_sets E fuel g = Ok fs) \/ @compute_first_sets E fuel g = OutOfFuel.
Proof. intros E fuel. unfold compute_first_sets. rewrite first_loop_gloop. apply (gloop_cases first_round first_inv (first_round_ok E)). apply init_first_inv. Qed.

Record first_sets_correct (fs : symbol_sets) : Prop := {
  fc_ok : sets_ok g fs;
  fc_sound : first_sound fs;
  fc_closed : first_closed fs
}.

Lemma compute_first_correct : forall E fuel fs, @compute_first_sets E fuel g = Ok fs -> first_sets_correct fs.
Proof.
  intros E fuel fs H. unfold compute_first_sets in H. rewrite first_loop_gloop in H.
  destruct (gloop_fix first_round first_inv (first_round_ok E) _ _ _ init_first_inv H) as [[A B] C].
  constructor; auto. eapply first_fixpoint_closed; eauto. split; auto.
Qed.

(** Membership for sequences. *)
Lemma in_first_iff : forall fs al x, no_empty_rhs g -> first_sets_correct fs ->
  (in_first fs al x <-> firstT (g_rules g) al x \/ (x = Epsilon /\ al <> [] /\ derives (g_rules g) al [])).
Proof.
  intros fs al x ne [H1 H2 H3]. unfold in_first. split.
  - intros [[A B]|(A & B & C)]; [left; eapply seqF_sound; eauto|right; split; auto; split; auto; eapply nullF_sound; eauto].
  - intros [A|(A & B & C)].
    + left. split; [intros ->; destruct (firstT_not_eps _ _ A)|]. apply seqF_complete; auto.
    + right. split; auto. split; auto. eapply nullF_complete; eauto.
Qed.
Lemma inS_first_iff : forall fs i x, no_empty_rhs g -> first_sets_correct fs ->
  (inS fs (NonTerminal i) x <-> firstT (g_rules g) [NonTerminal i] x \/ (x = Epsilon /\ derives (g_rules g) [NonTerminal i] [])).
Proof.
  intros fs i x ne H. pose proof (in_first_iff fs [NonTerminal i] x ne H) as X.
  assert (in_first fs [NonTerminal i] x <-> inS fs (NonTerminal i) x) as Y.
  { unfold in_first. cbn [seqF nullF]. destruct (cmp_dec x Epsilon) as [->|Hx].
    - split; [intros [[? _]|(_ & _ & ? & _)]; auto; contradiction|intros ?; right; split; auto; split; auto; discriminate].
    - split; [intros [[_ [[_ ?]|[_ []]]]|[? _]]; auto; contradiction|intros ?; left; split; auto]. }
  rewrite <- Y, X. split; [intros [?|(? & _ & ?)]; auto|intros [?|[? ?]]; auto]. right. split; auto. split; auto. discriminate.
Qed.
End First.
