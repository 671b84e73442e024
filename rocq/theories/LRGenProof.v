(** Table generation as a whole: the graph behind a table, its cells and its conflicts. *)
From Coq Require Import String List Arith NArith Bool Lia.
From Verif Require Import Base InputModel GrammarModel GrammarSpec GrammarProof LLModel LLSpec SententialProof SetsProof FirstProof LRModel LRSpec BidiProof ItemProof LRItemsProof LRGraphProof AutomatonProof LRTableProof LRWriteProof.
Import ListNotations.
Local Open Scope nat_scope.
Local Open Scope list_scope.

Section Gen.
Variable g : grammar.
Hypothesis wf : wf_grammar g.

(** [tb] is the table of the graph [pg]. *)
Record table_of (n : nat) (pg : lr_graph) (tb : lr_table) : Prop := {
  tf_ok : tb_ok tb;
  tf_states : tb_states tb = lg_nodes pg;
  tf_entry : tb_entry tb = 0;
  tf_cell : forall q S s, st pg q = Some S -> cell tb q s = cell_list g n pg q S s;
  tf_none : forall q s, lg_nodes pg <= q -> cell tb q s = []
}.

Definition conflicts_of (n : nat) (pg : lr_graph) (cs : list conflict) : Prop :=
  sorted cs /\ forall c, In c cs <-> exists q S, st pg q = Some S /\ conflict_of g n pg q S c.

Lemma iter_nodup : forall A B (CA : Cmp A) (CB : Cmp B) (m : bidi A B), bidi_ok m -> NoDup (map snd (bidi_iter m)).
Proof.
  intros A B CA CB m [H1 H2 H3]. unfold bidi_iter. assert (forall l, msorted l -> incl l (bd_ab m) -> NoDup (map snd l)) as X.
  { induction l as [|[a b] l IH]; intros Hs Hi; simpl; [constructor|]. constructor.
    - intros Hin. apply in_map_iff in Hin. destruct Hin as ((a' & b') & E & Hin). simpl in E. subst b'.
      assert (map_get a (bd_ab m) = Some b) as E1 by (apply map_get_In; auto; apply Hi; left; auto).
      assert (map_get a' (bd_ab m) = Some b) as E2 by (apply map_get_In; auto; apply Hi; right; auto).
      apply H3 in E1. apply H3 in E2. assert (a' = a) as -> by congruence.
      unfold msorted in Hs. simpl in Hs. apply sorted_NoDup in Hs. inversion Hs; subst. apply H4. apply in_map_iff. exists (a, b). auto.
    - apply IH; [|intros x Hx; apply Hi; right; auto]. unfold msorted in *. simpl in Hs. inversion Hs; auto. }
  apply X; auto. apply incl_refl.
Qed.

Section One.
Variable n : nat.
Hypothesis n_le : n <= 1.
Variable fs : symbol_sets.
Variable lalr : bool.
Variable pg : lr_graph.
Hypothesis au : automaton g n fs lalr pg.
Let gi := au_inv g n fs lalr pg au.

Lemma iter_st : forall S q, In (S, q) (bidi_iter (lg_map pg)) <-> st pg q = Some S.
Proof. intros S q. apply bidi_iter_In. apply (gi_map _ _ _ _ _ gi). Qed.

Lemma build_table_of : exists tb, build_table g pg n 0 = Ok tb /\ table_of n pg tb.
Proof.
  unfold build_table. destruct (build_states_cell g wf n n_le pg (bidi_iter (lg_map pg)) (mkTable [] (lg_nodes pg) 0)) as (tb & E & A & B & C & D & F).
  - split; cbn [tb_entries]; [apply msorted_nil|discriminate].
  - intros S q H. apply iter_st in H. apply (gi_sets _ _ _ _ _ gi q S H).
  - eapply iter_nodup. apply (gi_map _ _ _ _ _ gi).
  - reflexivity.
  - exists tb. split; auto. split; auto.
    + intros q S s H. apply D. apply iter_st. auto.
    + intros q s H. rewrite F; auto. intros X. apply in_map_iff in X. destruct X as ((S & q') & E' & X). simpl in E'. subst q'. apply iter_st in X.
      assert (q < lg_nodes pg) by (apply (gi_nodes _ _ _ _ _ gi); eauto). lia.
Qed.

Lemma find_conflicts_of : exists cs, find_conflicts g pg n = Ok cs /\ conflicts_of n pg cs.
Proof.
  destruct (find_conflicts_spec g n n_le pg) as (cs & A & B & C).
  - intros S q H. apply iter_st in H. destruct (gi_sets _ _ _ _ _ gi q S H) as (X & Y & _). auto.
  - exists cs. split; auto. split; auto. intros c. rewrite C. split; intros (x & y & X & Y); exists y, x; (split; auto); apply iter_st; auto.
Qed.
End One.

(** What a finished generation knows. *)
Inductive result_of (n : nat) (allow : bool) (pg : lr_graph) (cs : list conflict) : generation_result -> Prop :=
| ro_none : forall tb, cs = [] -> table_of n pg tb -> result_of n allow pg cs (NoConflicts tb)
| ro_allowed : forall tb, cs <> [] -> allow = true -> table_of n pg tb -> result_of n allow pg cs (AllowedConflicts tb cs)
| ro_bad : cs <> [] -> allow = false -> result_of n allow pg cs (BadConflicts cs).

Lemma generate_inv : forall fuel n allow lalr r, n <= 1 -> generate_table fuel g n allow lalr = Ok r ->
  exists fs pg cs, (n = 1 -> first_sets_correct g fs) /\ automaton g n fs lalr pg /\ conflicts_of n pg cs /\ result_of n allow pg cs r.
Proof.
  intros fuel n allow lalr r Hn H. unfold generate_table in H. inv_bind H. rename a into fs. inv_bind H. destruct a as [entry pg].
  assert (n = 1 -> first_sets_correct g fs) as Hfs.
  { intros ->. cbn [Nat.ltb Nat.leb] in Hb. eapply compute_first_correct; eauto. }
  destruct (graph_automaton g wf n fs Hn (fun E => fc_ok g fs (Hfs E)) lalr fuel entry pg Hb0) as [-> au].
  destruct (find_conflicts_of n Hn fs lalr pg au) as (cs & Ec & Hcs). rewrite Ec in H. cbn [bind] in H.
  destruct (build_table_of n Hn fs lalr pg au) as (tb & Et & Ht). rewrite Et in H. cbn [bind] in H.
  exists fs, pg, cs. split; auto. split; auto. split; auto. destruct cs as [|c cs].
  - rewrite andb_false_r in H. injection H as <-. apply ro_none; auto.
  - rewrite andb_true_r in H. destruct allow; cbn [negb] in H; injection H as <-; [apply ro_allowed|apply ro_bad]; auto; discriminate.
Qed.

(** ** Totality *)

Lemma generate_total : forall fuel n allow lalr fs e pg, n <= 1 -> (if 0 <? n then compute_first_sets fuel g else Ok []) = @Ok Empty_set _ fs ->
  generate_parser_graph fuel g n lalr fs = Ok (e, pg) -> exists r, generate_table fuel g n allow lalr = Ok r.
Proof.
  intros fuel n allow lalr fs e pg Hn E1 E2. unfold generate_table. rewrite E1. cbn [bind]. rewrite E2. cbn [bind].
  assert (n = 1 -> sets_ok g fs) as Hfs.
  { intros ->. cbn [Nat.ltb Nat.leb] in E1. apply fc_ok. eapply compute_first_correct; eauto. }
  destruct (graph_automaton g wf n fs Hn Hfs lalr fuel e pg E2) as [-> au].
  destruct (find_conflicts_of n Hn fs lalr pg au) as (cs & Ec & Hcs). rewrite Ec. cbn [bind].
  destruct (build_table_of n Hn fs lalr pg au) as (tb & Et & Ht). rewrite Et. cbn [bind]. destruct (negb allow && _); eauto.
Qed.

Definition generation_fuel (n : nat) : nat := fuel_bound g + graph_fuel g n.

Lemma generate_fuel : forall fuel n allow lalr, n <= 1 -> generation_fuel n <= fuel -> generate_table fuel g n allow lalr <> OutOfFuel.
Proof.
  intros fuel n allow lalr Hn Hf. unfold generation_fuel in Hf.
  assert (exists fs, (if 0 <? n then compute_first_sets fuel g else Ok []) = @Ok Empty_set _ fs) as [fs E1].
  { destruct (0 <? n); [|eauto]. apply compute_first_ok; auto. lia. }
  assert (n = 1 -> sets_ok g fs) as Hfs.
  { intros ->. cbn [Nat.ltb Nat.leb] in E1. apply fc_ok. eapply compute_first_correct; eauto. }
  destruct (generate_parser_graph fuel g n lalr fs) as [[e pg]|x| |] eqn:E2.
  - destruct (generate_total fuel n allow lalr fs e pg Hn E1 E2) as [r ->]. discriminate.
  - destruct x.
  - unfold generate_table. rewrite E1. cbn [bind]. rewrite E2. discriminate.
  - exfalso. apply (generate_graph_fuel g wf n fs Hn Hfs lalr fuel); auto. lia.
Qed.

Lemma generate_cases : forall fuel n allow lalr, n <= 1 -> epsilon_in_front g -> rhs_fit g ->
  (exists r, generate_table fuel g n allow lalr = Ok r) \/ generate_table fuel g n allow lalr = OutOfFuel.
Proof.
  intros fuel n allow lalr Hn eps fit.
  assert ((exists fs, (if 0 <? n then compute_first_sets fuel g else Ok []) = @Ok Empty_set _ fs) \/ (if 0 <? n then compute_first_sets fuel g else Ok []) = @OutOfFuel Empty_set _) as [[fs E1]|E1].
  { destruct (0 <? n); [|eauto]. apply compute_first_cases; auto. }
  2: { unfold generate_table. rewrite E1. auto. }
  assert (n = 1 -> sets_ok g fs) as Hfs.
  { intros ->. cbn [Nat.ltb Nat.leb] in E1. apply fc_ok. eapply compute_first_correct; eauto. }
  destruct (generate_graph_cases g wf n fs Hn Hfs lalr eps fit fuel) as [[[e pg] E2]|E2].
  - left. eapply generate_total; eauto.
  - right. unfold generate_table. rewrite E1. cbn [bind]. rewrite E2. reflexivity.
Qed.

(** ** Conflicts *)

Definition reducing (n : nat) (S : list item) (s : symbol) (it : item) : Prop :=
  In it S /\ symbol_after_dot g it = None /\ (n = 1 -> it_la it = [s]).

Record no_conflict (n : nat) (pg : lr_graph) : Prop := {
  nc_reduce : forall q S s it it', st pg q = Some S -> reducing n S s it -> reducing n S s it' -> it = it';
  nc_shift : forall q S s it t, st pg q = Some S -> reducing n S s it -> ~ edge pg q s t
}.

Lemma no_conflict_iff : forall n fs lalr pg cs, n <= 1 -> automaton g n fs lalr pg -> conflicts_of n pg cs -> (cs = [] <-> no_conflict n pg).
Proof.
  intros n fs lalr pg cs Hn au [_ Hcs]. pose proof (au_inv _ _ _ _ _ au) as gi. split.
  - intros ->.
    assert (forall q S it it', st pg q = Some S -> In it S -> In it' S -> symbol_after_dot g it = None -> symbol_after_dot g it' = None -> it_la it' = it_la it -> it' = it) as HR.
    { intros q S it it' HS H1 H2 H3 H4 H5. destruct (cmp_dec it' it) as [|Hne]; auto. exfalso.
      assert (In it (filter (reducing_on g (it_la it)) S)) as X1 by (apply filter_In; split; auto; apply reducing_on_true; auto).
      assert (In it' (filter (reducing_on g (it_la it)) S)) as X2 by (apply filter_In; split; auto; apply reducing_on_true; auto).
      destruct (filter (reducing_on g (it_la it)) S) as [|a l] eqn:E; [destruct X1|].
      apply (proj2 (Hcs (ReduceReduce q (map to_lr0 (a :: l))))). exists q, S. split; auto. eapply co_reduce; eauto.
      intros ->. destruct X1 as [->|[]]. destruct X2 as [->|[]]. contradiction. }
    assert (forall q S s it it', st pg q = Some S -> reducing n S s it -> reducing n S s it' -> it = it') as HR'.
    { intros q S s it it' HS (A & B & C) (A' & B' & C'). apply (HR q S it' it); auto. assert (n = 0 \/ n = 1) as [->| ->] by lia.
      - pose proof (ik_len _ _ _ (state_ok _ _ _ _ _ au _ _ _ HS A)) as L. pose proof (ik_len _ _ _ (state_ok _ _ _ _ _ au _ _ _ HS A')) as L'.
        destruct (it_la it); [|discriminate]. destruct (it_la it'); [|discriminate]. auto.
      - rewrite C, C'; auto. }
    split; auto. intros q S s it t HS (A & B & C) He. apply (proj2 (Hcs (ShiftReduce q (to_lr0 it) s))). exists q, S. split; auto.
    eapply co_shift; eauto.
  - intros [N1 N2]. destruct cs as [|c cs]; auto. exfalso. destruct (proj1 (Hcs c) (or_introl eq_refl)) as (q & S & HS & Hc).
    destruct Hc as [it s t A B C D F|la it it' A B].
    + apply (N2 q S s it t HS); [split; auto|exact D].
    + destruct it' as [|it' l]; [contradiction|].
      assert (NoDup (it :: it' :: l)) as Hnd by (rewrite <- A; apply NoDup_filter, sorted_NoDup; apply (gi_sets _ _ _ _ _ gi q S HS)).
      assert (In it (filter (reducing_on g la) S)) as X1 by (rewrite A; left; auto). assert (In it' (filter (reducing_on g la) S)) as X2 by (rewrite A; right; left; auto).
      apply filter_In in X1. apply filter_In in X2. destruct X1 as [X1 Y1]. destruct X2 as [X2 Y2]. apply reducing_on_true in Y1. apply reducing_on_true in Y2.
      assert (it = it') as <-; [|inversion Hnd; subst; apply H1; left; auto].
      assert (n = 0 \/ exists s, la = [s]) as Hla.
      { assert (n = 0 \/ n = 1) as [->| ->] by lia; auto. right. pose proof (ik_len _ _ _ (state_ok _ _ _ _ _ au _ _ _ HS X1)) as L. destruct Y1 as [_ Y1]. rewrite Y1 in L.
        destruct la as [|s [|]]; try discriminate. eauto. }
      destruct Hla as [->|[s ->]]; [apply (N1 q S End)|apply (N1 q S s)]; auto; (split; [tauto|split; [tauto|]]); [discriminate|discriminate|tauto|tauto].
Qed.

End Gen.
