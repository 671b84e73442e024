(** From the graph of state sets to the DFA (C04, continued). *)
From Coq Require Import String List Arith NArith Bool Lia.
From Verif Require Import Base InputModel LexerModel LexerSpec GraphProof PowersetProof.
Import ListNotations.
Open Scope nat_scope.

Lemma out_edges_In : forall es u t v, In (t, v) (out_edges es u) <-> In (u, t, v) es.
Proof.
  intros es u t v. unfold out_edges. rewrite in_flat_map. split.
  - intros [[[s l] x] [H1 H2]]. destruct (Nat.eqb_spec s u); [|destruct H2].
    destruct H2 as [H2|[]]. injection H2 as -> ->. subst. auto.
  - intros H. exists (u, t, v). split; auto. rewrite Nat.eqb_refl. left. auto.
Qed.

Section Convert.
Context {A : Type}.
Variable g : nfa A.
Variable pg : pgraph.
Hypothesis Hpg : forall j t k, In (j, t, k) (pg_edges pg) -> j < length (pg_nodes pg) /\ k < length (pg_nodes pg).

(** The DFA node for a set of NFA states. *)
Definition node_ok (c : list nat) (s : astate (list A)) : Prop :=
  match accepts_of g c with
  | [] => exists m, s = Intermediate m
  | l => s = Accepting l
  end.

(** [vis] numbers the visited state sets; entries from [lo] on are complete except those of [skip]. *)
Record cinv (lo : nat) (d : dfa (list A)) (vis : list (nat * nat)) : Prop := {
  ci_sorted : msorted vis;
  ci_inj : forall p q k, map_get p vis = Some k -> map_get q vis = Some k -> p = q;
  ci_range : forall p k, map_get p vis = Some k -> k < length (dfa_nodes d) /\ p < length (pg_nodes pg);
  ci_onto : forall k, lo <= k < length (dfa_nodes d) -> exists p, map_get p vis = Some k
}.

Definition cnode (d : dfa (list A)) (vis : list (nat * nat)) (p k : nat) : Prop :=
  map_get p vis = Some k ->
  exists c s, nth_error (pg_nodes pg) p = Some c /\ nth_error (dfa_nodes d) k = Some s /\ node_ok c s.

Definition ccomplete (d : dfa (list A)) (vis : list (nat * nat)) (p k : nat) : Prop :=
  (forall t k', In (k, t, k') (dfa_edges d) -> exists p', In (p, t, p') (pg_edges pg) /\ map_get p' vis = Some k') /\
  (forall t p', In (p, t, p') (pg_edges pg) -> exists k', In (k, t, k') (dfa_edges d) /\ map_get p' vis = Some k').

Record cext (d d' : dfa (list A)) (vis vis' : list (nat * nat)) : Prop := {
  ce_nodes : exists ns, dfa_nodes d' = dfa_nodes d ++ ns;
  ce_edges : exists es, dfa_edges d' = es ++ dfa_edges d /\
    forall j t k, In (j, t, k) es -> length (dfa_nodes d) <= j;
  ce_vis : forall p k, map_get p vis = Some k -> map_get p vis' = Some k;
  ce_new : forall p k, map_get p vis' = Some k -> map_get p vis = Some k \/ length (dfa_nodes d) <= k;
}.

Lemma cext_len : forall d d' v v', cext d d' v v' -> length (dfa_nodes d) <= length (dfa_nodes d').
Proof. intros d d' v v' [[ns H] _ _ _]. rewrite H, app_length. lia. Qed.

Lemma ccomplete_ext : forall d d' v v' p k, cext d d' v v' -> k < length (dfa_nodes d) ->
  ccomplete d v p k -> ccomplete d' v' p k.
Proof.
  intros d d' v v' p k [_ [es [E1 E2]] V _] Hk [H1 H2]. split.
  - intros t k' Hin. rewrite E1 in Hin. apply in_app_or in Hin. destruct Hin as [Hin|Hin].
    + apply E2 in Hin. lia.
    + destruct (H1 t k' Hin) as [p' [Q1 Q2]]. eauto.
  - intros t p' Hin. destruct (H2 t p' Hin) as [k' [Q1 Q2]]. exists k'. split; auto. rewrite E1. apply in_or_app; auto.
Qed.

Lemma run_app_edges : forall es (E : list (nat * nat * nat)) u w v, run E u w v -> run (es ++ E) u w v.
Proof. induction 1; econstructor; eauto. apply in_or_app; auto. Qed.

Lemma run_trans : forall E u w v w' x, run E u w v -> run E v w' x -> run E u (w ++ w') x.
Proof. induction 1; intros; simpl; auto. econstructor; eauto. Qed.

Lemma run_incl : forall (E E' : list (nat * nat * nat)) u w v, incl E E' -> run E u w v -> run E' u w v.
Proof. induction 2; econstructor; eauto. Qed.

Lemma convert_spec : forall f d vis p d' vis' start,
  msorted vis -> map_get p vis = None -> p < length (pg_nodes pg) ->
  (forall p q k, map_get p vis = Some k -> map_get q vis = Some k -> p = q) ->
  (forall p k, map_get p vis = Some k -> k < length (dfa_nodes d) /\ p < length (pg_nodes pg)) ->
  (forall j t k, In (j, t, k) (dfa_edges d) -> j < length (dfa_nodes d) /\ k < length (dfa_nodes d)) ->
  convert_powerset_to_dfa g pg f d vis p = Ok (d', vis', start) ->
  start = length (dfa_nodes d) /\ cext d d' vis vis' /\ msorted vis' /\ map_get p vis' = Some start /\
  (forall p q k, map_get p vis' = Some k -> map_get q vis' = Some k -> p = q) /\
  (forall p k, map_get p vis' = Some k -> k < length (dfa_nodes d') /\ p < length (pg_nodes pg)) /\
  (forall j t k, In (j, t, k) (dfa_edges d') -> j < length (dfa_nodes d') /\ k < length (dfa_nodes d')) /\
  (forall k, length (dfa_nodes d) <= k < length (dfa_nodes d') ->
     exists q c s, map_get q vis' = Some k /\ nth_error (pg_nodes pg) q = Some c /\
       nth_error (dfa_nodes d') k = Some s /\ node_ok c s /\ ccomplete d' vis' q k /\
       exists w, run (dfa_edges d') start w k).
Proof.
  induction f as [|f IH]; intros d vis p d' vis' start Hms Hp Hpn Hinj Hrng Hed H; [discriminate|].
  cbn [convert_powerset_to_dfa] in H.
  destruct (nth_error_ex _ (pg_nodes pg) p Hpn) as [c Hc]. rewrite Hc in H.
  set (acc := accepts_of g c) in *.
  assert (Hd1 : exists s cnt, (match acc with [] => dfa_add_intermediate d | _ :: _ => dfa_add_accepting d acc end)
      = (mkDfa (dfa_nodes d ++ [s]) (dfa_edges d) cnt, length (dfa_nodes d)) /\ node_ok c s).
  { unfold node_ok. fold acc. destruct acc as [|a l].
    - exists (Intermediate (dfa_count d)), (S (dfa_count d)). split; [reflexivity|]. eauto.
    - exists (Accepting (a :: l)), (dfa_count d). split; reflexivity. }
  destruct Hd1 as [s [cnt [Hd1 Hnode]]]. rewrite Hd1 in H.
  set (d1 := mkDfa (dfa_nodes d ++ [s]) (dfa_edges d) cnt) in *.
  set (st := length (dfa_nodes d)) in *.
  inv_bind H. destruct a as [d2 vis2]. injection H as <- <- <-.
  set (vis1 := map_insert p st vis) in *.
  assert (Hget1 : forall q, map_get q vis1 = if cmp_dec q p then Some st else map_get q vis).
  { intros q. unfold vis1. apply map_get_insert; auto. }
  assert (Hp1 : map_get p vis1 = Some st). { rewrite Hget1. destruct (cmp_dec p p); congruence. }
  assert (L1 : length (dfa_nodes d1) = S st). { simpl. rewrite app_length. simpl. unfold st. lia. }
  split; auto.
  eapply (foldM_inv _ _ _ _ (fun done (sv : dfa (list A) * list (nat * nat)) => let (dd, vv) := sv in
    (exists ns, dfa_nodes dd = dfa_nodes d1 ++ ns) /\
    (exists es, dfa_edges dd = es ++ dfa_edges d1 /\ forall j t k, In (j, t, k) es -> st <= j) /\
    (forall q k, map_get q vis1 = Some k -> map_get q vv = Some k) /\
    (forall q k, map_get q vv = Some k -> map_get q vis1 = Some k \/ S st <= k) /\
    msorted vv /\
    (forall p q k, map_get p vv = Some k -> map_get q vv = Some k -> p = q) /\
    (forall p k, map_get p vv = Some k -> k < length (dfa_nodes dd) /\ p < length (pg_nodes pg)) /\
    (forall j t k, In (j, t, k) (dfa_edges dd) -> j < length (dfa_nodes dd) /\ k < length (dfa_nodes dd)) /\
    (forall k, S st <= k < length (dfa_nodes dd) ->
     exists q c s, map_get q vv = Some k /\ nth_error (pg_nodes pg) q = Some c /\
       nth_error (dfa_nodes dd) k = Some s /\ node_ok c s /\ ccomplete dd vv q k /\
       exists w, run (dfa_edges dd) st w k) /\
    (forall t k', In (st, t, k') (dfa_edges dd) -> exists p', In (t, p') done /\ map_get p' vv = Some k') /\
    (forall t p', In (t, p') done -> exists k', In (st, t, k') (dfa_edges dd) /\ map_get p' vv = Some k'))) in Hb.
  - destruct Hb as [[ns N] [[es [E1 E2]] [V1 [V2 [MS [Inj [Rng [Edg [New [T1 T2]]]]]]]]]].
    assert (Lst : st < length (dfa_nodes d2)). { rewrite N, app_length, L1. lia. }
    split; [|split; [|split; [|split; [|split; [|split]]]]]; auto.
    + constructor.
      * exists ([s] ++ ns). rewrite N. simpl. rewrite <- app_assoc. auto.
      * exists es. split; auto.
      * intros q k Hq. apply V1. rewrite Hget1. destruct (cmp_dec q p) as [->|]; auto. congruence.
      * intros q k Hq. apply V2 in Hq. destruct Hq as [Hq|Hq]; [|fold st; lia].
        rewrite Hget1 in Hq. destruct (cmp_dec q p) as [->|]; auto. injection Hq as <-. right. auto.
    + intros k Hk. destruct (Nat.eq_dec k st) as [->|Hne]; [|apply New; fold st in Hk; lia].
      exists p, c, s. split; [auto|]. split; [auto|]. split.
      * rewrite N. simpl. rewrite <- app_assoc. rewrite nth_error_app2 by (unfold st; lia).
        replace (st - length (dfa_nodes d)) with 0 by (unfold st; lia). reflexivity.
      * split; [auto|]. split; [|exists []; constructor]. split.
        -- intros t k' Hin. destruct (T1 t k' Hin) as [p' [Q1 Q2]]. exists p'. split; auto. apply out_edges_In; auto.
        -- intros t p' Hin. apply T2. apply out_edges_In; auto.
  - split; [exists []; rewrite app_nil_r; auto|]. split; [exists []; split; [auto|intros j t k []]|].
    split; [auto|]. split; [auto|]. split; [apply map_insert_sorted; auto|]. split.
    { intros a b k Ha Hb'. rewrite Hget1 in Ha, Hb'. destruct (cmp_dec a p) as [->|]; destruct (cmp_dec b p) as [->|]; auto.
      - injection Ha as <-. apply Hrng in Hb'. unfold st in Hb'. lia.
      - injection Hb' as <-. apply Hrng in Ha. unfold st in Ha. lia.
      - eauto. }
    split.
    { intros q k Hq. rewrite L1. rewrite Hget1 in Hq. destruct (cmp_dec q p) as [->|].
      - injection Hq as <-. split; auto.
      - apply Hrng in Hq. unfold st. lia. }
    split; [intros j t k Hin; rewrite L1; simpl in Hin; apply Hed in Hin; unfold st; lia|].
    split; [intros k Hk; rewrite L1 in Hk; lia|].
    split; [|intros t p' []].
    intros t k' Hin. exfalso. simpl in Hin. apply Hed in Hin. unfold st in Hin. lia.
  - clear Hb d2 vis2. intros done [t p'] rest [dd vv] [dd' vv'] Hl
      [[ns N] [[es [E1 E2]] [V1 [V2 [MS [Inj [Rng [Edg [New [T1 T2]]]]]]]]]] H.
    assert (Hpe : In (p, t, p') (pg_edges pg)).
    { apply out_edges_In. rewrite Hl. apply in_or_app; right; left; auto. }
    inv_bind H. destruct a as [[d3 v3] k3]. injection H as <- <-.
    (* what the recursive call (or the lookup) gives *)
    assert (X : cext dd d3 vv v3 /\ msorted v3 /\ map_get p' v3 = Some k3 /\
      (forall p q k, map_get p v3 = Some k -> map_get q v3 = Some k -> p = q) /\
      (forall p k, map_get p v3 = Some k -> k < length (dfa_nodes d3) /\ p < length (pg_nodes pg)) /\
      (forall j t k, In (j, t, k) (dfa_edges d3) -> j < length (dfa_nodes d3) /\ k < length (dfa_nodes d3)) /\
      (forall k, length (dfa_nodes dd) <= k < length (dfa_nodes d3) ->
         exists q c s, map_get q v3 = Some k /\ nth_error (pg_nodes pg) q = Some c /\
         nth_error (dfa_nodes d3) k = Some s /\ node_ok c s /\ ccomplete d3 v3 q k /\
         exists w, run (dfa_edges d3) k3 w k)).
    { destruct (map_get p' vv) as [fin|] eqn:Eg.
      - injection Hb as <- <- <-. split; [|split; [|split; [|split; [|split; [|split]]]]]; auto.
        + constructor; auto.
          * exists []. rewrite app_nil_r. auto.
          * exists []. split; auto. intros j t0 k [].
        + intros k Hk. lia.
      - apply IH in Hb; auto; [|apply Hpg in Hpe; tauto].
        destruct Hb as [Q0 [Q1 [Q2 [Q3 [Q4 [Q5 [Q6 Q7]]]]]]]. auto 8. }
    clear Hb IH. destruct X as [CE [M3 [G3 [I3 [R3 [Ed3 N3]]]]]].
    assert (Lst : st < length (dfa_nodes dd)). { rewrite N, app_length, L1. lia. }
    pose proof (cext_len _ _ _ _ CE) as Lle.
    assert (Hk3 : k3 < length (dfa_nodes d3)) by (eapply R3; eauto).
    assert (Hcc : forall q k, k <> st -> ccomplete d3 v3 q k -> ccomplete (dfa_add_transition st k3 t d3) v3 q k).
    { intros q k Hne [C1 C2]. split; simpl.
      - intros t0 k0 [Hin|Hin]; [congruence|]. eauto.
      - intros t0 q0 Hin. destruct (C2 t0 q0 Hin) as [k0 [Y1 Y2]]. eauto. }
    assert (Hst3 : forall t0 k0, In (st, t0, k0) (dfa_edges d3) -> In (st, t0, k0) (dfa_edges dd)).
    { intros t0 k0 Hin. destruct (ce_edges _ _ _ _ CE) as [es' [E3 E4]]. rewrite E3 in Hin. apply in_app_or in Hin.
      destruct Hin as [Hin|]; auto. apply E4 in Hin. lia. }
    assert (Inc : incl (dfa_edges dd) (dfa_edges d3)).
    { destruct (ce_edges _ _ _ _ CE) as [es' [E3 E4]]. rewrite E3. intros z Hz. apply in_or_app; auto. }
    split; [|split; [|split; [|split; [|split; [|split; [|split; [|split; [|split; [|split]]]]]]]]]; simpl; auto.
    + destruct (ce_nodes _ _ _ _ CE) as [ns' N']. exists (ns ++ ns'). rewrite N', N. simpl. rewrite <- !app_assoc. auto.
    + destruct (ce_edges _ _ _ _ CE) as [es' [E3 E4]]. exists ((st, t, k3) :: es' ++ es). split.
      * rewrite E3, E1. simpl. rewrite app_assoc. auto.
      * intros j t0 k0 [Hin|Hin]; [injection Hin as <- _ _; auto|].
        apply in_app_or in Hin. destruct Hin as [Hin|Hin]; [apply E4 in Hin; lia|eapply E2; eauto].
    + intros q k Hq. apply (ce_vis _ _ _ _ CE). auto.
    + intros q k Hq. apply (ce_new _ _ _ _ CE) in Hq. destruct Hq as [Hq|Hq]; [auto|lia].
    + intros j t0 k0 [Hin|Hin]; [injection Hin as <- <- <-; lia|eapply Ed3; eauto].
    + intros k Hk. destruct (Nat.lt_ge_cases k (length (dfa_nodes dd))) as [Hlt|Hge].
      * destruct (New k) as [q [c0 [s0 [Y1 [Y2 [Y3 [Y4 [Y5 [w Y6]]]]]]]]]; [lia|].
        exists q, c0, s0. split; [apply (ce_vis _ _ _ _ CE); auto|]. split; auto. split.
        { destruct (ce_nodes _ _ _ _ CE) as [ns' N']. rewrite N'. apply nth_error_app_l; auto. }
        split; auto. split; [apply Hcc; [lia|]; eapply ccomplete_ext; eauto|].
        exists w. eapply run_incl; [|exact Y6]. intros z Hz. right. auto.
      * destruct (N3 k) as [q [c0 [s0 [Y1 [Y2 [Y3 [Y4 [Y5 [w Y6]]]]]]]]]; [lia|].
        exists q, c0, s0. split; auto. split; auto. split; auto. split; auto. split; [apply Hcc; [lia|auto]|].
        exists (t :: w). econstructor; [left; reflexivity|]. eapply run_incl; [|exact Y6]. intros z Hz. right. auto.
    + intros t0 k0 [Hin|Hin].
      * injection Hin as <- <-. exists p'. split; auto. apply in_or_app; right; left; auto.
      * apply Hst3 in Hin. destruct (T1 t0 k0 Hin) as [q [Y1 Y2]]. exists q. split; [apply in_or_app; auto|].
        apply (ce_vis _ _ _ _ CE). auto.
    + intros t0 q Hin. apply in_app_or in Hin. destruct Hin as [Hin|[Hin|[]]].
      * destruct (T2 t0 q Hin) as [k0 [Y1 Y2]]. exists k0. split; [right; auto|]. apply (ce_vis _ _ _ _ CE). auto.
      * injection Hin as <- <-. exists k3. split; auto.
Qed.

Lemma convert_mono : forall f f' d vis p r, f <= f' ->
  convert_powerset_to_dfa g pg f d vis p = Ok r -> convert_powerset_to_dfa g pg f' d vis p = Ok r.
Proof.
  induction f as [|f IH]; intros f' d vis p r Hle H; [discriminate|]. destruct f' as [|f']; [lia|].
  cbn [convert_powerset_to_dfa] in *. destruct (nth_error (pg_nodes pg) p); [|discriminate].
  destruct (match accepts_of g l with [] => _ | _ :: _ => _ end) as [d1 st].
  inv_bind H. match goal with |- bind ?X _ = _ => assert (HX : X = Ok a) end.
  { eapply foldM_mono; [|exact Hb]. intros [d0 v0] [t q] r' _ H0. inv_bind H0.
    assert (Q : match map_get q v0 with Some fin => Ok (d0, v0, fin) | None => convert_powerset_to_dfa g pg f' d0 v0 q end = Ok a0).
    { destruct (map_get q v0); auto. eapply IH; eauto. lia. }
    rewrite Q. exact H0. }
  rewrite HX. exact H.
Qed.

Lemma convert_vis : forall f d vis p d' vis' st, msorted vis ->
  convert_powerset_to_dfa g pg f d vis p = Ok (d', vis', st) ->
  msorted vis' /\ incl (map fst vis) (map fst vis').
Proof.
  induction f as [|f IH]; intros d vis p d' vis' st Hs H; [discriminate|].
  cbn [convert_powerset_to_dfa] in *. destruct (nth_error (pg_nodes pg) p); [|discriminate].
  destruct (match accepts_of g l with [] => _ | _ :: _ => _ end) as [d1 st1].
  inv_bind H. destruct a as [d2 v2]. injection H as <- <- <-.
  eapply (foldM_inv _ _ _ _ (fun _ (sv : dfa (list A) * list (nat * nat)) => msorted (snd sv) /\ incl (map fst vis) (map fst (snd sv)))) in Hb; auto.
  - split; [apply map_insert_sorted; auto|]. intros x Hx. simpl. apply map_insert_keys. auto.
  - intros done [t q] rest [d0 v0] [d3 v3] Hl [Q1 Q2] H. simpl in Q1, Q2. inv_bind H. destruct a as [[d4 v4] k4]. injection H as <- <-.
    simpl. destruct (map_get q v0).
    + injection Hb0 as <- <- <-. auto.
    + apply IH in Hb0; auto. destruct Hb0 as [R1 R2]. split; auto. intros x Hx. auto.
Qed.

Lemma convert_total : forall f d vis p, msorted vis -> p < length (pg_nodes pg) -> map_get p vis = None ->
  unseen (length (pg_nodes pg)) (map fst vis) <= f -> exists r, convert_powerset_to_dfa g pg f d vis p = Ok r.
Proof.
  set (m := length (pg_nodes pg)) in *.
  induction f as [|f IH]; intros d vis p Hs Hp Hg Hf.
  - exfalso. assert (X : unseen m (p :: map fst vis) < unseen m (map fst vis)).
    { apply unseen_lt with (a := p); auto.
      - intros x Hx. right. auto.
      - left; auto.
      - apply map_get_None in Hg; auto. }
    lia.
  - cbn [convert_powerset_to_dfa]. destruct (nth_error_ex _ (pg_nodes pg) p Hp) as [c ->].
    destruct (match accepts_of g c with [] => _ | _ :: _ => _ end) as [d1 st].
    assert (X : unseen m (map fst (map_insert p st vis)) < unseen m (map fst vis)).
    { apply unseen_lt with (a := p); auto.
      - intros x Hx. apply map_insert_keys. auto.
      - apply map_insert_keys. auto.
      - apply map_get_None in Hg; auto. }
    match goal with |- exists r, bind (foldM ?F ?L ?I) _ = _ =>
      destruct (foldM_ok _ _ _ F (fun _ (sv : dfa (list A) * list (nat * nat)) => msorted (snd sv) /\
         incl (map fst (map_insert p st vis)) (map fst (snd sv))) L I) as [[d2 v2] [Hr _]] end.
    + split; [apply map_insert_sorted; auto|apply incl_refl].
    + intros done [t q] rest [d0 v0] Hl [Q1 Q2]. simpl in Q1, Q2.
      assert (Hpe : In (p, t, q) (pg_edges pg)).
      { apply out_edges_In. rewrite Hl. apply in_or_app; right; left; auto. }
      destruct (map_get q v0) as [k|] eqn:Eg.
      * cbn [bind]. eexists. split; [reflexivity|]. auto.
      * destruct (IH d0 v0 q) as [[[d3 v3] k3] H3]; auto.
        { apply Hpg in Hpe. tauto. }
        { apply unseen_le with (n := m) in Q2. lia. }
        rewrite H3. cbn [bind]. eexists. split; [reflexivity|]. simpl. apply convert_vis in H3; auto.
        destruct H3 as [R1 R2]. split; auto. intros x Hx. auto.
    + rewrite Hr. cbn [bind]. eauto.
Qed.

End Convert.

Section Final.
Context {A : Type}.
Variable g : nfa A.
Let E := nfa_edges g.
Let n := length (nfa_nodes g).
Hypothesis Hwf : forall u l v, In (u, l, v) E -> u < n /\ v < n.

Definition eps_closed (c : list nat) : Prop := forall x y, In x c -> In (x, None, y) E -> In y c.

Lemma closure_closed : forall S c, closure_of g S c -> eps_closed c.
Proof.
  intros S c [_ H] x y Hx He. apply H in Hx. destruct Hx as [s [Hs Hp]]. apply H. exists s. split; auto.
  change (@nil nat) with (@nil nat ++ []). eapply path_trans; eauto. econstructor 2; [exact He|constructor].
Qed.

Lemma path_cons_inv : forall u t w x, path E u (t :: w) x ->
  exists u1 v, path E u [] u1 /\ In (u1, Some t, v) E /\ path E v w x.
Proof.
  intros u t w x H. remember (t :: w) as tw. induction H; try discriminate.
  - destruct (IHpath Heqtw) as [u1 [v1 [H1 [H2 H3]]]]. exists u1, v1. split; auto. econstructor 2; eauto.
  - injection Heqtw as -> ->. exists u, v. split; [constructor|auto].
Qed.

Section Pg.
Variable pg : pgraph.
Hypothesis Hcomp : forall j, complete g pg j.

Lemma closed_path : forall c u v, eps_closed c -> In u c -> path E u [] v -> In v c.
Proof. intros. eapply path_nil_closed; eauto. Qed.

Lemma pg_run_sound : forall s w p, run (pg_edges pg) s w p -> forall c0 c,
  nth_error (pg_nodes pg) s = Some c0 -> nth_error (pg_nodes pg) p = Some c -> eps_closed c0 ->
  forall x, In x c <-> exists u, In u c0 /\ path E u w x.
Proof.
  induction 1 as [u|s t k w p Hst Hr IH]; intros c0 c H0 Hc Hcl x.
  - rewrite H0 in Hc. injection Hc as <-. split.
    + intros Hx. exists x. split; auto. constructor.
    + intros [y [Hy Hp]]. eapply closed_path; eauto.
  - destruct (Hcomp s c0 H0) as [C1 C2]. destruct (C1 t k Hst) as [vs [c1 [M1 [M2 M3]]]].
    rewrite (IH c1 c M3 Hc (closure_closed _ _ M2)).
    destruct (tmm_spec g c0) as [_ Hm]. destruct (Hm t) as [_ Hm']. destruct (Hm' vs M1) as [_ Hvs]. destruct M2 as [_ M2].
    split.
    + intros [y [Hy Hp]]. apply M2 in Hy. destruct Hy as [v [Hv Hvy]]. apply Hvs in Hv. destruct Hv as [u0 [Hu0 He]].
      exists u0. split; auto. econstructor 3; eauto. change w with ([] ++ w). eapply path_trans; eauto.
    + intros [u0 [Hu0 Hp]]. apply path_cons_inv in Hp. destruct Hp as [u1 [v [P1 [P2 P3]]]].
      exists v. split; auto. apply M2. exists v. split; [|constructor]. apply Hvs. exists u1. split; auto.
      eapply closed_path; eauto.
Qed.

Lemma pg_run_total : forall w s c0 x u, nth_error (pg_nodes pg) s = Some c0 -> eps_closed c0 ->
  In u c0 -> path E u w x -> exists p, run (pg_edges pg) s w p.
Proof.
  induction w as [|t w IH]; intros s c0 x u H0 Hcl Hu Hp.
  - exists s. constructor.
  - apply path_cons_inv in Hp. destruct Hp as [u1 [v [P1 [P2 P3]]]].
    assert (Hu1 : In u1 c0) by (eapply closed_path; eauto).
    destruct (tmm_spec g c0) as [_ Hm]. destruct (Hm t) as [Hn Hm'].
    destruct (map_get t (target_multi_map g c0)) as [vs|] eqn:Eg.
    + destruct (Hcomp s c0 H0) as [C1 C2]. destruct (C2 t vs Eg) as [k Hk]. destruct (C1 t k Hk) as [vs' [c1 [M1 [M2 M3]]]].
      rewrite Eg in M1. injection M1 as <-. destruct (Hm' vs eq_refl) as [_ Hvs].
      destruct (IH k c1 x v) as [p Hp]; auto.
      * eapply closure_closed; eauto.
      * apply M2. exists v. split; [|constructor]. apply Hvs. eauto.
      * exists p. econstructor; eauto.
    + exfalso. eapply (proj1 Hn eq_refl); eauto.
Qed.

End Pg.

Lemma run_app_inv : forall (D : list (nat * nat * nat)) w1 u w2 v, run D u (w1 ++ w2) v -> exists x, run D u w1 x /\ run D x w2 v.
Proof.
  induction w1 as [|t w1 IH]; intros u w2 v H; simpl in *.
  - exists u. split; auto. constructor.
  - inversion H; subst. apply IH in H5. destruct H5 as [x [H1 H2]]. exists x. split; auto. econstructor; eauto.
Qed.

Theorem powerset_correct : forall fuel entry d, entry < n -> powerset_construction fuel g entry = Ok d ->
  deterministic (dfa_edges d) /\
  0 < length (dfa_nodes d) /\
  (forall j t k, In (j, t, k) (dfa_edges d) -> j < length (dfa_nodes d) /\ k < length (dfa_nodes d)) /\
  (forall k, k < length (dfa_nodes d) -> exists w, run (dfa_edges d) 0 w k) /\
  (forall w, (exists k, run (dfa_edges d) 0 w k) <-> exists x, path E entry w x) /\
  (forall w k, run (dfa_edges d) 0 w k -> exists c s, sorted c /\ (forall x, In x c <-> path E entry w x) /\
     nth_error (dfa_nodes d) k = Some s /\ node_ok g c s) /\
  (forall w w' k, run (dfa_edges d) 0 w k -> run (dfa_edges d) 0 w' k -> forall x, path E entry w x <-> path E entry w' x).
Proof.
  intros fuel entry d He H. unfold powerset_construction in H. inv_bind H. destruct a as [pg s0].
  inv_bind H. destruct a as [[d0 vis] st]. injection H as ->.
  assert (W0 : wfp (mkPgraph [] [])). { split; simpl; [constructor|intros j t k []]. }
  apply add_powerset_spec in Hb; auto. destruct Hb as [P [[c0 [N0 C0]] Comp]].
  assert (Hcomp : forall j, complete g pg j). { intros j. apply Comp. simpl. lia. }
  destruct (pe_wf _ _ P) as [Hnd Hed].
  assert (Ls0 : s0 < length (pg_nodes pg)) by (eapply nth_error_lt; eauto).
  apply convert_spec in Hb0; auto.
  2:{ constructor. }
  2:{ intros; discriminate. }
  2:{ intros; discriminate. }
  2:{ simpl. intros j t k []. }
  simpl in Hb0. destruct Hb0 as [-> [_ [Hms [Hg0 [Inj [Rng [Edg New]]]]]]].
  assert (Hpdet : deterministic (pg_edges pg)).
  { intros u t v v' H1 H2.
    destruct (nth_error_ex _ (pg_nodes pg) u) as [c Hc]; [apply Hed in H1; tauto|].
    destruct (Hcomp u c Hc) as [C1 _]. destruct (C1 t v H1) as [vs [x [M1 [M2 M3]]]]. destruct (C1 t v' H2) as [vs' [x' [M1' [M2' M3']]]].
    rewrite M1 in M1'. injection M1' as <-. assert (x = x') by (eapply closure_of_unique; eauto). subst x'.
    eapply NoDup_nth_eq; eauto. }
  assert (Back : forall k w k', run (dfa_edges d) k w k' -> forall p, map_get p vis = Some k ->
     exists p', map_get p' vis = Some k' /\ run (pg_edges pg) p w p').
  { induction 1 as [k|k t k1 w k' He1 Hr IH]; intros p Hp.
    - exists p. split; auto. constructor.
    - destruct (New k) as [q [c [s [Y1 [Y2 [Y3 [Y4 [[Y5 Y6] _]]]]]]]]; [apply Rng in Hp; lia|].
      assert (q = p) by eauto. subst q. destruct (Y5 t k1 He1) as [p1 [Z1 Z2]].
      destruct (IH p1 Z2) as [p' [Z3 Z4]]. exists p'. split; auto. econstructor; eauto. }
  assert (Fwd : forall p w p', run (pg_edges pg) p w p' -> forall k, map_get p vis = Some k ->
     exists k', map_get p' vis = Some k' /\ run (dfa_edges d) k w k').
  { induction 1 as [p|p t p1 w p' He1 Hr IH]; intros k Hp.
    - exists k. split; auto. constructor.
    - destruct (New k) as [q [c [s [Y1 [Y2 [Y3 [Y4 [[Y5 Y6] _]]]]]]]]; [apply Rng in Hp; lia|].
      assert (q = p) by eauto. subst q. destruct (Y6 t p1 He1) as [k1 [Z1 Z2]].
      destruct (IH k1 Z2) as [k' [Z3 Z4]]. exists k'. split; auto. econstructor; eauto. }
  assert (Hentry : forall w x, path E entry w x <-> exists u, In u c0 /\ path E u w x).
  { intros w x. split.
    - intros Hp. exists entry. split; auto. apply C0. exists entry. split; [left; auto|constructor].
    - intros [u [Hu Hp]]. apply C0 in Hu. destruct Hu as [e [[<-|[]] Hpe]]. change w with ([] ++ w). eapply path_trans; eauto. }
  pose proof (closure_closed _ _ C0) as Cl0.
  split; [|split; [|split; [|split; [|split; [|split]]]]]; auto.
  - intros k t k1 k2 H1 H2.
    destruct (New k) as [q [c [s [Y1 [Y2 [Y3 [Y4 [[Y5 Y6] _]]]]]]]]; [apply Edg in H1; lia|].
    destruct (Y5 t k1 H1) as [p1 [Z1 Z2]]. destruct (Y5 t k2 H2) as [p2 [Z3 Z4]].
    assert (p1 = p2) by (eapply Hpdet; eauto). subst p2. congruence.
  - apply Rng in Hg0. tauto.
  - intros k Hk. destruct (New k) as [q [c [s [Y1 [Y2 [Y3 [Y4 [_ Y5]]]]]]]]; [lia|]. auto.
  - intros w. split.
    + intros [k Hr]. destruct (Back _ _ _ Hr _ Hg0) as [p [Z1 Z2]].
      assert (Hne : exists x c, nth_error (pg_nodes pg) p = Some c /\ In x c).
      { clear - Z2 N0 C0 Hcomp. assert (G : exists x c, nth_error (pg_nodes pg) s0 = Some c /\ In x c).
        { exists entry, c0. split; auto. apply C0. exists entry. split; [left; auto|constructor]. }
        clear N0 C0. induction Z2; auto. apply IHZ2. destruct G as [x0 [c [G1 G2]]].
        destruct (Hcomp u c G1) as [C1 _]. destruct (C1 t v H) as [vs [c1 [M1 [M2 M3]]]].
        destruct (tmm_spec g c) as [_ Hm]. destruct (Hm t) as [_ Hm']. destruct (Hm' vs M1) as [Hne _].
        destruct vs as [|y vs]; [congruence|]. exists y, c1. split; auto. apply M2. exists y. split; [left; auto|constructor]. }
      destruct Hne as [x [c [Hc Hx]]]. exists x. apply Hentry.
      eapply (pg_run_sound pg Hcomp _ _ _ Z2 c0 c); eauto.
    + intros [x Hp]. apply Hentry in Hp. destruct Hp as [u [Hu Hp]].
      destruct (pg_run_total pg Hcomp w s0 c0 x u) as [p Hr]; auto.
      destruct (Fwd _ _ _ Hr _ Hg0) as [k [Z1 Z2]]. eauto.
  - intros w k Hr. destruct (Back _ _ _ Hr _ Hg0) as [p [Z1 Z2]].
    destruct (New k) as [q [c [s [Y1 [Y2 [Y3 [Y4 _]]]]]]]; [apply Rng in Z1; lia|].
    assert (q = p) by eauto. subst q. exists c, s. split; [|split; [|auto]].
    + (* every reachable set is a closure *)
      clear - Z2 Y2 N0 C0 Hcomp. revert c Y2. assert (G : exists c, nth_error (pg_nodes pg) s0 = Some c /\ sorted c).
      { exists c0. split; auto. apply C0. }
      clear N0 C0. induction Z2; intros c Hc.
      * destruct G as [c' [G1 G2]]. congruence.
      * apply IHZ2; auto. destruct G as [c1 [G1 G2]].
        destruct (Hcomp u c1 G1) as [C1 _]. destruct (C1 t v H) as [vs [c2 [M1 [M2 M3]]]]. exists c2. split; auto. apply M2.
    + intros x0. rewrite Hentry. eapply (pg_run_sound pg Hcomp _ _ _ Z2 c0 c); eauto.
  - intros w w' k H1 H2 x. destruct (Back _ _ _ H1 _ Hg0) as [p [Z1 Z2]]. destruct (Back _ _ _ H2 _ Hg0) as [p' [Z1' Z2']].
    assert (p' = p) by eauto. subst p'.
    destruct (nth_error_ex _ (pg_nodes pg) p) as [c Hc]; [apply Rng in Z1; tauto|].
    rewrite !Hentry, <- (pg_run_sound pg Hcomp _ _ _ Z2 c0 c N0 Hc Cl0 x), <- (pg_run_sound pg Hcomp _ _ _ Z2' c0 c N0 Hc Cl0 x). tauto.
Qed.

Theorem powerset_total : forall entry, entry < n -> forall fuel, 2 ^ n + n + 1 <= fuel ->
  exists d, powerset_construction fuel g entry = Ok d.
Proof.
  intros entry He fuel Hf. unfold powerset_construction.
  assert (W0 : wfp (mkPgraph [] [])). { split; simpl; [constructor|intros j t k []]. }
  assert (S0 : wfs g (mkPgraph [] [])) by (intros c []).
  assert (HS : forall s, In s [entry] -> s < n) by (intros s [<-|[]]; auto).
  destruct (add_powerset_total g Hwf fuel (mkPgraph [] []) [entry]) as [[pg s0] H1]; auto.
  { fold n. cbn [pg_nodes length]. lia. }
  rewrite H1. cbn [bind].
  pose proof (add_powerset_wfs g Hwf _ _ _ _ _ W0 S0 HS H1) as S1.
  apply add_powerset_spec in H1; auto. destruct H1 as [P [[c0 [N0 C0]] Comp]].
  destruct (pe_wf _ _ P) as [Hnd Hed].
  destruct (convert_total g pg Hed fuel dfa_new [] s0) as [[[d v] st] H2].
  - constructor.
  - eapply nth_error_lt; eauto.
  - reflexivity.
  - pose proof (unseen_bound (length (pg_nodes pg)) (map fst (@nil (nat * nat)))) as U.
    pose proof (wfs_bound g pg (pe_wf _ _ P) S1) as B. fold n in B. lia.
  - rewrite H2. simpl. eauto.
Qed.

Lemma powerset_mono : forall f f' entry d, f <= f' -> powerset_construction f g entry = Ok d -> powerset_construction f' g entry = Ok d.
Proof.
  intros f f' entry d Hle H. unfold powerset_construction in *. inv_bind H. destruct a as [pg s0].
  rewrite (add_powerset_mono g _ _ _ _ _ Hle Hb). cbn [bind]. inv_bind H. destruct a as [[d0 v0] k0].
  rewrite (convert_mono g pg _ _ _ _ _ _ Hle Hb0). exact H.
Qed.

End Final.
