(** Where [Epsilon] occurs in the rules built from a rule set. *)
From Coq Require Import String List Arith NArith Bool Lia.
From Verif Require Import Base InputModel GrammarModel GrammarSpec GrammarNamesProof GrammarProof LLSpec LRModel LRSpec.
Import ListNotations.
Local Open Scope nat_scope.
Local Open Scope list_scope.

Definition is_eps (s : symbol) : bool := match s with Epsilon => true | _ => false end.
Definition bshapes (b : builder) : list (list bool) := map (fun r => map is_eps (r_rhs r)) (b_rules b).
Definition names_ok (b : builder) : Prop := forall n s, map_get n (b_symbols b) = Some s -> is_eps s = false.

Lemma push_rule_shape : forall b lhs rhs p b', push_rule b lhs rhs p = Ok b' -> bshapes b' = bshapes b ++ [map is_eps rhs] /\ b_symbols b' = b_symbols b.
Proof.
  intros b lhs rhs p b' H. unfold push_rule in H. inv_bind H. injection H as <-. split; auto. unfold bshapes. cbn [b_rules]. rewrite map_app. cbn [map].
  unfold rule_new in Hb. destruct lhs; try discriminate; injection Hb as <-; reflexivity.
Qed.

Lemma temp_shape : forall b s b', get_temp_symbol b = Ok (s, b') -> bshapes b' = bshapes b /\ b_symbols b' = b_symbols b /\ is_eps s = false.
Proof. intros b s b' H. unfold get_temp_symbol in H. inv_bind H. inv_bind H. inv_bind H. injection H as <- <-. auto. Qed.

Definition tr_shape (parent : prod_rule) (p : prod_pattern) : Prop := forall b ss b', transform_pattern parent p b = Ok (ss, b') -> names_ok b ->
  bshapes b' = bshapes b ++ shapes p /\ b_symbols b' = b_symbols b /\ map is_eps ss = flat p.

Lemma names_same : forall b b', b_symbols b' = b_symbols b -> names_ok b -> names_ok b'.
Proof. intros b b' E H n s. rewrite E. apply H. Qed.

Lemma transform_shape : forall parent p, tr_shape parent p.
Proof.
  intros parent p. induction p as [l IH|l IH|q IH|q IH|q IH|s|] using prod_pattern_ind'; intros b ss b' H Hb; cbn [transform_pattern] in H; cbn [shapes flat].
  - revert b ss b' H Hb. induction IH as [|p l Hp HF IHl]; intros b ss b' H Hb; cbn [map transform_seq flat_map] in *.
    + injection H as <- <-. rewrite app_nil_r. auto.
    + inv_bind H. destruct a as [s1 b1]. inv_bind H. destruct a as [s2 b2]. injection H as <- <-. destruct (Hp _ _ _ Hb0 Hb) as (A1 & A2 & A3).
      destruct (IHl _ _ _ Hb1 (names_same _ _ A2 Hb)) as (B1 & B2 & B3). rewrite B1, A1, B2, A2, map_app, A3, B3, app_assoc. auto.
  - inv_bind H. destruct a as [alt b1]. inv_bind H. injection H as <- <-. destruct (temp_shape _ _ _ Hb0) as (T1 & T2 & T3). simpl. rewrite T3. rename a into b2.
    apply (names_same _ b1) in Hb; [|auto]. rewrite <- T1, <- T2. clear T1 T2 T3 Hb0.
    assert (bshapes b2 = bshapes b1 ++ flat_map (fun q => shapes q ++ [flat q]) l /\ b_symbols b2 = b_symbols b1) as [X Y]; [|auto].
    revert b1 Hb Hb1. induction IH as [|p l Hp HF IHl]; intros b1 Hb H; cbn [map transform_alts flat_map] in *.
    + injection H as <-. rewrite app_nil_r. auto.
    + inv_bind H. destruct a as [s1 b3]. inv_bind H. destruct (Hp _ _ _ Hb0 Hb) as (A1 & A2 & A3). destruct (push_rule_shape _ _ _ _ _ Hb1) as [P1 P2].
      destruct (IHl a) as [B1 B2]; auto; [eapply names_same; [|eauto]; congruence|]. rewrite B1, P1, A1, A3, <- !app_assoc. split; auto. congruence.
  - inv_bind H. destruct a as [rep b1]. inv_bind H. destruct a as [inner b2]. inv_bind H. inv_bind H. injection H as <- <-. destruct (temp_shape _ _ _ Hb0) as (T1 & T2 & T3).
    destruct (IH _ _ _ Hb1 (names_same _ _ T2 Hb)) as (A1 & A2 & A3). destruct (push_rule_shape _ _ _ _ _ Hb2) as [P1 P2]. destruct (push_rule_shape _ _ _ _ _ Hb3) as [Q1 Q2].
    simpl. rewrite Q1, P1, A1, T1, map_app, A3. simpl. rewrite T3, <- !app_assoc. split; auto. split; congruence.
  - inv_bind H. destruct a as [rep b1]. inv_bind H. destruct a as [inner b2]. inv_bind H. inv_bind H. injection H as <- <-. destruct (temp_shape _ _ _ Hb0) as (T1 & T2 & T3).
    destruct (IH _ _ _ Hb1 (names_same _ _ T2 Hb)) as (A1 & A2 & A3). destruct (push_rule_shape _ _ _ _ _ Hb2) as [P1 P2]. destruct (push_rule_shape _ _ _ _ _ Hb3) as [Q1 Q2].
    simpl. rewrite Q1, P1, A1, T1, map_app, A3. simpl. rewrite T3, <- !app_assoc. split; auto. split; congruence.
  - inv_bind H. destruct a as [rep b1]. inv_bind H. destruct a as [inner b2]. inv_bind H. inv_bind H. injection H as <- <-. destruct (temp_shape _ _ _ Hb0) as (T1 & T2 & T3).
    destruct (IH _ _ _ Hb1 (names_same _ _ T2 Hb)) as (A1 & A2 & A3). destruct (push_rule_shape _ _ _ _ _ Hb2) as [P1 P2]. destruct (push_rule_shape _ _ _ _ _ Hb3) as [Q1 Q2].
    simpl. rewrite Q1, P1, A1, T1, A3, <- !app_assoc, T3. split; auto. split; congruence.
  - inv_bind H. injection H as <- <-. rewrite app_nil_r. split; auto. split; auto. unfold get_symbol_by_name in Hb0. destruct (map_get s (b_symbols b)) as [x|] eqn:E; [|discriminate].
    injection Hb0 as <-. simpl. rewrite (Hb _ _ E). auto.
  - injection H as <- <-. rewrite app_nil_r. auto.
Qed.

Lemma built_shapes : forall rs g, from_rule_set rs = Ok g -> map (fun r => map is_eps (r_rhs r)) (g_rules g) = rule_shapes rs.
Proof.
  intros rs g H. unfold from_rule_set in H. inv_bind H. unfold build in H. inv_bind H. inv_bind H. rename a0 into b.
  destruct (find (fun r => eqc (pr_name r) (rs_entry rs)) (rs_prods rs)); [|discriminate]. injection H as <-. cbn [g_rules].
  change (bshapes b = rule_shapes rs).
  assert (names_ok a /\ b_rules a = []) as [Na Ra].
  { pose proof (builder_start rs) as G0. rewrite Hb in G0. destruct G0 as [[? ? ? ? ? G] _]. split; auto. intros n s E. apply G in E. destruct E as [(i & _ & ->)|(i & _ & ->)]; reflexivity. }
  assert (bshapes a = []) as Ba by (unfold bshapes; rewrite Ra; reflexivity). clear Hb Hb1 Ra. unfold rule_shapes. 
  assert (bshapes b = bshapes a ++ flat_map (fun p => shapes (pr_pattern p) ++ [flat (pr_pattern p)]) (rs_prods rs)) as X; [|rewrite X, Ba; auto].
  clear Ba p. revert a Na Hb0. induction (rs_prods rs) as [|p l IH]; intros a Na H; cbn [foldM flat_map] in *.
  - injection H as <-. rewrite app_nil_r. auto.
  - inv_bind H. unfold add_production_rule in Hb. inv_bind Hb. inv_bind Hb. destruct a3 as [ss b1]. destruct (transform_shape _ _ _ _ _ Hb1 Na) as (A1 & A2 & A3).
    destruct (push_rule_shape _ _ _ _ _ Hb) as [P1 P2]. rewrite (IH a0); auto; [|eapply names_same; [|exact Na]; congruence]. rewrite P1, A1, A3, <- !app_assoc. auto.
Qed.

Lemma front_spec : forall l, front (map is_eps l) = true <-> exists m al, l = repeat Epsilon m ++ al /\ ~ In Epsilon al.
Proof.
  induction l as [|s l IH]; [split; [exists 0, []; auto|auto]|]. cbn [map front]. destruct (is_eps s) eqn:E.
  - assert (s = Epsilon) as -> by (destruct s; auto; discriminate). rewrite IH. split.
    + intros (m & al & -> & H). exists (S m), al. auto.
    + intros (m & al & E1 & H). destruct m as [|m]; simpl in E1; [subst al; destruct H; left; auto|]. injection E1 as ->. eauto.
  - assert (forallb negb (map is_eps l) = true <-> ~ In Epsilon l) as X.
    { clear. induction l as [|s l IH]; simpl; [tauto|]. rewrite andb_true_iff, IH, negb_true_iff. split; [intros [A B] [->|C]; [discriminate|auto]|].
      intros H. split; [|tauto]. destruct s; auto. destruct H. auto. }
    rewrite X. split.
    + intros H. exists 0, (s :: l). split; auto. intros [->|H']; [discriminate|auto].
    + intros (m & al & E1 & H). destruct m as [|m]; simpl in E1; [subst al; intros H'; apply H; right; auto|]. injection E1 as -> _. discriminate.
Qed.

Lemma built_rules : forall rs g (f : list bool -> bool) (P : rule -> Prop), from_rule_set rs = Ok g -> (forall r, f (map is_eps (r_rhs r)) = true <-> P r) ->
  ((forall r, In r (g_rules g) -> P r) <-> forallb f (rule_shapes rs) = true).
Proof.
  intros rs g f P H HP. rewrite <- (built_shapes _ _ H), forallb_forall. split.
  - intros A x Hx. apply in_map_iff in Hx. destruct Hx as (r & <- & Hr). apply HP. auto.
  - intros A r Hr. apply HP. apply A. apply in_map_iff. eauto.
Qed.

Lemma built_epsilon_in_front : forall rs g, from_rule_set rs = Ok g -> (epsilon_in_front g <-> forallb front (rule_shapes rs) = true).
Proof. intros rs g H. apply (built_rules rs g front (fun r => exists m al, r_rhs r = repeat Epsilon m ++ al /\ ~ In Epsilon al) H). intros r. apply front_spec. Qed.

Lemma built_rhs_fit : forall rs g, from_rule_set rs = Ok g -> (rhs_fit g <-> forallb (fun l => length l <=? 255) (rule_shapes rs) = true).
Proof. intros rs g H. apply (built_rules rs g (fun l => length l <=? 255) (fun r => length (r_rhs r) <= 255) H). intros r. rewrite map_length. apply Nat.leb_le. Qed.

Lemma built_no_empty : forall rs g, from_rule_set rs = Ok g -> (no_empty_rhs g <-> forallb (fun l => negb (length l =? 0)) (rule_shapes rs) = true).
Proof.
  intros rs g H. apply (built_rules rs g (fun l => negb (length l =? 0)) (fun r => r_rhs r <> []) H). intros r. rewrite map_length, negb_true_iff, Nat.eqb_neq.
  destruct (r_rhs r); simpl; split; intros; auto; try congruence; try lia.
Qed.
