(** The powerset construction (C04). *)
From Coq Require Import String List Arith NArith Bool Lia.
From Verif Require Import Base InputModel LexerModel LexerSpec GraphProof.
Import ListNotations.
Open Scope nat_scope.

Lemma foldM_mono : forall E S A (f f' : S -> A -> res E S) l s r,
  (forall s a r, In a l -> f s a = Ok r -> f' s a = Ok r) -> foldM f l s = Ok r -> foldM f' l s = Ok r.
Proof.
  induction l as [|a l IH]; intros s r H Hr; simpl in *; auto.
  inv_bind Hr. rewrite (H s a a0); auto. simpl. apply IH; auto.
Qed.

(** Number of numbers below [n] outside [s]. *)
Definition unseen (n : nat) (s : list nat) : nat := length (filter (fun x => negb (existsb (Nat.eqb x) s)) (seq 0 n)).

Lemma existsb_In : forall x s, existsb (Nat.eqb x) s = true <-> In x s.
Proof.
  intros. rewrite existsb_exists. split.
  - intros [y [H1 H2]]. apply Nat.eqb_eq in H2. congruence.
  - intros H. exists x. rewrite Nat.eqb_refl. auto.
Qed.

Lemma filter_length_le : forall A (f h : A -> bool) l, (forall x, In x l -> f x = true -> h x = true) ->
  length (filter f l) <= length (filter h l).
Proof.
  induction l as [|a l IH]; intros H; simpl; auto.
  assert (IHl := IH (fun x Hx => H x (or_intror Hx))).
  destruct (f a) eqn:Ef.
  - rewrite (H a (or_introl eq_refl) Ef). simpl. lia.
  - destruct (h a); simpl; lia.
Qed.

Lemma filter_length_lt : forall A (f h : A -> bool) l a, (forall x, In x l -> f x = true -> h x = true) ->
  In a l -> f a = false -> h a = true -> length (filter f l) < length (filter h l).
Proof.
  induction l as [|b l IH]; intros a H Hin Hf Hh; [destruct Hin|]. simpl.
  assert (Hl := filter_length_le _ f h l (fun x Hx => H x (or_intror Hx))).
  destruct Hin as [->|Hin].
  - rewrite Hf, Hh. simpl. lia.
  - specialize (IH a (fun x Hx => H x (or_intror Hx)) Hin Hf Hh).
    destruct (f b) eqn:Ef; [rewrite (H b (or_introl eq_refl) Ef); simpl; lia|].
    destruct (h b); simpl; lia.
Qed.

Lemma unseen_le : forall n s t, incl s t -> unseen n t <= unseen n s.
Proof.
  intros n s t H. unfold unseen. apply filter_length_le. intros x _. rewrite !negb_true_iff, <- !not_true_iff_false, !existsb_In. auto.
Qed.

Lemma unseen_lt : forall n s t a, incl s t -> In a t -> ~ In a s -> a < n -> unseen n t < unseen n s.
Proof.
  intros n s t a H Ha Hs Hn. unfold unseen. apply filter_length_lt with (a := a).
  - intros x _. rewrite !negb_true_iff, <- !not_true_iff_false, !existsb_In. auto.
  - apply in_seq. lia.
  - rewrite negb_false_iff, existsb_In. auto.
  - rewrite negb_true_iff, <- not_true_iff_false, existsb_In. auto.
Qed.

Lemma unseen_bound : forall n s, unseen n s <= n.
Proof.
  intros. unfold unseen. rewrite <- (seq_length n 0) at 2.
  generalize (seq 0 n). induction l; simpl; auto. destruct (negb _); simpl; lia.
Qed.

Section Closure.
Context {A : Type}.
Variable g : nfa A.
Let E := nfa_edges g.
Let n := length (nfa_nodes g).
Hypothesis Hwf : forall u l v, In (u, l, v) E -> u < n /\ v < n.

Lemma eps_targets_In : forall u v, In v (eps_targets g u) <-> In (u, None, v) E.
Proof.
  intros u v. unfold eps_targets. rewrite in_map_iff. split.
  - intros [[[s l] t] [H1 H2]]. apply filter_In in H2. simpl in H1. subst t. destruct l; destruct H2 as [H2 H3]; [discriminate|].
    apply Nat.eqb_eq in H3. subst. auto.
  - intros H. exists (u, None, v). split; auto. apply filter_In. split; auto. apply Nat.eqb_refl.
Qed.

Lemma label_targets_In : forall u t v, In (t, v) (label_targets g u) <-> In (u, Some t, v) E.
Proof.
  intros u t v. unfold label_targets. rewrite in_flat_map. split.
  - intros [[[s l] x] [H1 H2]]. destruct l as [l|]; [|destruct H2]. destruct (Nat.eqb_spec s u); [|destruct H2].
    destruct H2 as [H2|[]]. injection H2 as -> ->. subst. auto.
  - intros H. exists (u, Some t, v). split; auto. rewrite Nat.eqb_refl. left. auto.
Qed.

Lemma epsilon_closure_inv : forall f starts cl cl', sorted cl -> epsilon_closure g f starts cl = Ok cl' ->
  sorted cl' /\ incl cl cl' /\ incl starts cl' /\
  (forall x, In x cl' -> In x cl \/ exists s, In s starts /\ path E s [] x) /\
  (forall x, In x cl' -> ~ In x cl \/ In x starts -> forall y, In (x, None, y) E -> In y cl').
Proof.
  induction f as [|f IH]; intros starts cl cl' Hs H; [discriminate|]. cbn [epsilon_closure] in H.
  eapply (foldM_inv _ _ _ _ (fun done c => sorted c /\ incl cl c /\ incl done c /\
    (forall x, In x c -> In x cl \/ exists s, In s done /\ path E s [] x) /\
    (forall x, In x c -> ~ In x cl \/ In x done -> forall y, In (x, None, y) E -> In y c))) in H; auto.
  - repeat split; auto.
    + apply incl_refl.
    + intros x [].
    + intros x Hx [Hn|[]]. tauto.
  - clear H cl'. intros done s rest c c' Hl [P1 [P2 [P3 [P4 P5]]]] H.
    eapply (foldM_inv _ _ _ _ (fun dn c' => sorted c' /\ incl (set_insert s c) c' /\ incl dn c' /\
      (forall x, In x c' -> In x c \/ path E s [] x) /\
      (forall x, In x c' -> ~ In x (set_insert s c) -> forall y, In (x, None, y) E -> In y c'))) in H.
    + destruct H as [Q1 [Q2 [Q3 [Q4 Q5]]]]. repeat split; auto.
      * intros x Hx. apply Q2. apply set_insert_In. auto.
      * intros x Hx. apply in_app_or in Hx. destruct Hx as [Hx|[<-|[]]]; apply Q2, set_insert_In; auto.
      * intros x Hx. destruct (Q4 x Hx) as [Hc|Hp].
        -- destruct (P4 x Hc) as [|[s' [H1 H2]]]; auto. right. exists s'. split; auto. apply in_or_app; auto.
        -- right. exists s. split; auto. apply in_or_app; right; left; auto.
      * intros x Hx Hor y Hy. destruct (Nat.eq_dec x s) as [->|Hne].
        -- apply Q3. apply eps_targets_In. auto.
        -- destruct (in_dec Nat.eq_dec x (set_insert s c)) as [Hin|Hnin].
           ++ apply set_insert_In in Hin. destruct Hin as [|Hin]; [congruence|].
              apply Q2, set_insert_In. right. apply (P5 x); auto.
              destruct Hor as [|Hor]; auto. apply in_app_or in Hor. destruct Hor as [|[|[]]]; auto; congruence.
           ++ eapply Q5; eauto.
    + repeat split.
      * apply set_insert_sorted; auto.
      * apply incl_refl.
      * intros x [].
      * intros x Hx. apply set_insert_In in Hx. destruct Hx as [->|]; auto. right. constructor.
      * tauto.
    + clear c' H. intros dn t rest' c1 c2 Ht [R1 [R2 [R3 [R4 R5]]]] H.
      assert (Hst : In (s, None, t) E). { apply eps_targets_In. rewrite Ht. apply in_or_app; right; left; auto. }
      destruct (set_mem t c1) eqn:Em.
      * injection H as <-. apply set_mem_In in Em; auto. repeat split; auto.
        intros x Hx. apply in_app_or in Hx. destruct Hx as [|[<-|[]]]; auto.
      * assert (Hnt : ~ In t c1). { intros Hin. apply set_mem_In in Hin; auto. congruence. }
        apply IH in H; auto. destruct H as [S1 [S2 [S3 [S4 S5]]]]. repeat split; auto.
        -- intros x Hx. apply S2, R2. auto.
        -- intros x Hx. apply in_app_or in Hx. destruct Hx as [Hx|[<-|[]]]; auto. apply S3. left. auto.
        -- intros x Hx. destruct (S4 x Hx) as [Hx1|[t' [[<-|[]] Hp]]]; auto.
           right. econstructor 2; eauto.
        -- intros x Hx Hn y Hy. destruct (in_dec Nat.eq_dec x c1) as [Hi|Hi].
           ++ apply S2. eapply R5; eauto.
           ++ eapply S5; eauto.
Qed.

(** [c] is the set of states silently reachable from [S]. *)
Definition closure_of (S : list nat) (c : list nat) : Prop :=
  sorted c /\ forall x, In x c <-> exists s, In s S /\ path E s [] x.

Lemma path_nil_closed : forall u w v, path E u w v -> w = [] -> forall c, In u c ->
  (forall x, In x c -> forall y, In (x, None, y) E -> In y c) -> In v c.
Proof.
  intros u w v Hp. induction Hp; intros Hw c Hu Hc; auto.
  - apply IHHp; auto. eapply Hc; eauto.
  - discriminate.
Qed.

Lemma epsilon_closure_spec : forall f S c, epsilon_closure g f S [] = Ok c -> closure_of S c.
Proof.
  intros f S c H. apply epsilon_closure_inv in H; [|constructor]. destruct H as [H1 [_ [H3 [H4 H5]]]].
  split; auto. intros x. split.
  - intros Hx. destruct (H4 x Hx) as [[]|H]; auto.
  - intros [s [Hs Hp]]. eapply path_nil_closed; eauto.
Qed.

Lemma closure_of_unique : forall S c c', closure_of S c -> closure_of S c' -> c = c'.
Proof.
  intros S c c' [H1 H2] [H3 H4]. apply sorted_ext; auto. intros x. rewrite H2, H4. tauto.
Qed.

Lemma epsilon_closure_mono : forall f f' S c r, f <= f' -> epsilon_closure g f S c = Ok r -> epsilon_closure g f' S c = Ok r.
Proof.
  induction f as [|f IH]; intros f' S c r Hle H; [discriminate|].
  destruct f' as [|f']; [lia|]. cbn [epsilon_closure] in *.
  eapply foldM_mono; [|exact H]. intros s a r' _ H'. eapply foldM_mono; [|exact H'].
  intros c1 t c2 _ H1. simpl in *. destruct (set_mem t c1); auto. eapply IH; eauto. lia.
Qed.

Lemma epsilon_closure_total : forall f S c, sorted c -> (forall s, In s S -> s < n) ->
  (forall s, In s S -> unseen n (set_insert s c) < f) -> 0 < f ->
  exists r, epsilon_closure g f S c = Ok r.
Proof.
  induction f as [|f IH]; intros S c Hs Hlt Hu Hf; [lia|]. cbn [epsilon_closure].
  match goal with |- exists r, foldM ?F _ _ = _ => destruct (foldM_ok _ _ _ F (fun _ c' => sorted c' /\ incl c c') S c) as [r [Hr _]] end; eauto.
  - split; auto. apply incl_refl.
  - intros done s rest c1 HS [H1 H2].
    assert (Hin : In s S). { rewrite HS. apply in_or_app; right; left; auto. }
    assert (Hsu : unseen n (set_insert s c1) < Datatypes.S f).
    { eapply Nat.le_lt_trans; [|apply (Hu s Hin)]. apply unseen_le. intros x Hx. apply set_insert_In. apply set_insert_In in Hx.
      destruct Hx; auto. }
    destruct (foldM_ok _ _ _ (fun cl target => if set_mem target cl then Ok cl else epsilon_closure g f [target] cl)
      (fun _ c' => sorted c' /\ incl (set_insert s c1) c') (eps_targets g s) (set_insert s c1)) as [r [Hr [Hr1 Hr2]]].
    + split; [apply set_insert_sorted; auto|apply incl_refl].
    + intros dn t rest' c2 Ht [Q1 Q2]. destruct (set_mem t c2) eqn:Em; eauto.
      assert (Hst : In (s, None, t) E). { apply eps_targets_In. rewrite Ht. apply in_or_app; right; left; auto. }
      assert (Htn : t < n) by (apply Hwf in Hst; tauto).
      assert (Hnt : ~ In t c2). { intros Hin'. apply set_mem_In in Hin'; auto. congruence. }
      assert (Hd : unseen n (set_insert t c2) < unseen n c2).
      { apply unseen_lt with (a := t); auto.
        - intros x Hx. apply set_insert_In; auto.
        - apply set_insert_In; auto. }
      assert (Hd2 : unseen n c2 <= unseen n (set_insert s c1)) by (apply unseen_le; auto).
      destruct (IH [t] c2) as [r Hr]; auto.
      * intros x [<-|[]]; auto.
      * intros x [<-|[]]. lia.
      * lia.
      * exists r. split; auto. apply epsilon_closure_inv in Hr; auto. destruct Hr as [R1 [R2 _]]. split; auto.
        intros x Hx. auto.
    + exists r. split; auto. split; auto. intros x Hx. apply Hr2, set_insert_In. auto.
Qed.

Lemma epsilon_closure_top : forall f S, (forall s, In s S -> s < n) -> n < f ->
  exists c, epsilon_closure g f S [] = Ok c.
Proof.
  intros f S HS Hf. apply epsilon_closure_total; auto; [constructor| |lia].
  intros s _. pose proof (unseen_bound n (set_insert s [])). lia.
Qed.

(** Grouped transitions. *)
Lemma tmm_inner : forall l (m : list (nat * list nat)), msorted m ->
  let m' := fold_left (fun m tv => let '(t, v) := tv in
      map_insert t (match map_get t m with Some l => l ++ [v] | None => [v] end) m) l m in
  msorted m' /\ forall t,
    (map_get t m' = None <-> map_get t m = None /\ (forall v, ~ In (t, v) l)) /\
    (forall vs, map_get t m' = Some vs ->
      (forall v, In v vs <-> In (t, v) l \/ exists vs0, map_get t m = Some vs0 /\ In v vs0) /\
      (vs <> [] \/ map_get t m = Some vs)).
Proof.
  induction l as [|[t0 v0] l IH]; intros m Hm; simpl.
  - split; auto. intros t. split.
    + split; auto. tauto.
    + intros vs H. split; auto. intros v. split; eauto. intros [[]|[vs0 [H1 H2]]]. congruence.
  - set (m1 := map_insert t0 (match map_get t0 m with Some l => l ++ [v0] | None => [v0] end) m).
    assert (Hm1 : msorted m1) by (apply map_insert_sorted; auto).
    destruct (IH m1 Hm1) as [H1 H2]. split; auto. intros t. destruct (H2 t) as [H3 H4]. clear IH H2.
    assert (Hg : map_get t m1 = if cmp_dec t t0 then Some (match map_get t0 m with Some l => l ++ [v0] | None => [v0] end) else map_get t m).
    { apply map_get_insert; auto. }
    destruct (cmp_dec t t0) as [->|Hne].
    + split.
      * rewrite H3, Hg. split; [intros [X _]; discriminate|]. intros [_ X]. exfalso. apply (X v0). auto.
      * intros vs Hvs. destruct (H4 vs Hvs) as [H5 H6]. split.
        -- intros v. rewrite H5, Hg. split.
           ++ intros [H|[vs0 [X Y]]]; auto. injection X as <-. destruct (map_get t0 m) as [vs1|].
              ** apply in_app_or in Y. destruct Y as [Y|[<-|[]]]; eauto.
              ** destruct Y as [<-|[]]; auto.
           ++ intros [[H|H]|[vs0 [X Y]]]; auto.
              ** injection H as <-. right. eexists. split; [reflexivity|]. destruct (map_get t0 m); [apply in_or_app; right|]; left; auto.
              ** right. eexists. split; [reflexivity|]. rewrite X. apply in_or_app; auto.
        -- left. destruct H6 as [|H6]; auto. rewrite Hg in H6. injection H6 as <-. destruct (map_get t0 m) as [[|]|]; discriminate.
    + split.
      * rewrite H3, Hg. split.
        -- intros [X Y]. split; auto. intros v [Q|Q]; [injection Q as; congruence|]. eapply Y; eauto.
        -- intros [X Y]. split; auto. intros v Q. eapply Y; eauto.
      * intros vs Hvs. destruct (H4 vs Hvs) as [H5 H6]. rewrite Hg in *. split; auto.
        intros v. rewrite H5. split.
        -- intros [H|H]; auto.
        -- intros [[H|H]|H]; auto. injection H as; congruence.
Qed.

Lemma tmm_spec : forall c, msorted (target_multi_map g c) /\ forall t,
  (map_get t (target_multi_map g c) = None <-> forall u v, In u c -> ~ In (u, Some t, v) E) /\
  (forall vs, map_get t (target_multi_map g c) = Some vs ->
     vs <> [] /\ forall v, In v vs <-> exists u, In u c /\ In (u, Some t, v) E).
Proof.
  intros c. unfold target_multi_map.
  match goal with |- context[fold_left ?F c []] => set (f := F) end.
  assert (X : forall c m, msorted m ->
    let m' := fold_left f c m in msorted m' /\ forall t,
      (map_get t m' = None <-> map_get t m = None /\ forall u v, In u c -> ~ In (u, Some t, v) E) /\
      (forall vs, map_get t m' = Some vs ->
        (forall v, In v vs <-> (exists u, In u c /\ In (u, Some t, v) E) \/ exists vs0, map_get t m = Some vs0 /\ In v vs0) /\
        (vs <> [] \/ map_get t m = Some vs))).
  { clear c. induction c as [|x c IH]; intros m Hm; cbn [fold_left].
    - cbv zeta. split; auto. intros t. split.
      + split; [intros H; split; auto|tauto].
      + intros vs H. split; auto. intros v. split; eauto. intros [[u [[] _]]|[vs0 [H1 H2]]]. congruence.
    - destruct (tmm_inner (label_targets g x) m Hm) as [Hs Hi].
      change (fold_left _ (label_targets g x) m) with (f m x) in *.
      destruct (IH (f m x) Hs) as [H1 H2]. cbv zeta. split; auto. intros t.
      destruct (H2 t) as [H3 H4]. destruct (Hi t) as [H5 H6]. split.
      + rewrite H3, H5. split.
        * intros [[Ha Hb] Hc]. split; auto. intros u v [<-|Hu]; auto. rewrite <- label_targets_In. auto.
        * intros [Ha Hb]. split; [split; auto|].
          -- intros v Hv. apply label_targets_In in Hv. eapply Hb; eauto. left; auto.
          -- intros u v Hu. apply Hb. right; auto.
      + intros vs Hvs. destruct (H4 vs Hvs) as [H7 H8]. split.
        * intros v. rewrite H7. split.
          -- intros [[u [Hu Hv]]|[vs0 [Hg Hv]]].
             ++ left. exists u. split; auto. right; auto.
             ++ apply (proj1 (H6 vs0 Hg)) in Hv. destruct Hv as [Hv|Hv]; auto.
                left. exists x. split; [left; auto|]. apply label_targets_In; auto.
          -- intros [[u [[<-|Hu] Hv]]|[vs0 [Hg Hv]]]; eauto.
             ++ right. destruct (map_get t (f m x)) as [vs1|] eqn:Eg.
                ** exists vs1. split; auto. apply (proj1 (H6 vs1 eq_refl)). left. apply label_targets_In; auto.
                ** exfalso. apply (proj2 (proj1 H5 eq_refl) v). apply label_targets_In; auto.
             ++ right. destruct (map_get t (f m x)) as [vs1|] eqn:Eg.
                ** exists vs1. split; auto. apply (proj1 (H6 vs1 eq_refl)). right. eauto.
                ** exfalso. destruct (proj1 H5 eq_refl) as [Q _]. congruence.
        * destruct H8 as [H8|H8]; auto. destruct (H6 vs H8) as [_ [H9|H9]]; auto. }
  destruct (X c [] (@msorted_nil _ _ _)) as [H1 H2]. split; auto. intros t. destruct (H2 t) as [H3 H4]. split.
  - rewrite H3. simpl. tauto.
  - intros vs Hvs. destruct (H4 vs Hvs) as [H5 H6]. split.
    + destruct H6 as [H6|H6]; auto. discriminate.
    + intros v. rewrite H5. split; auto. intros [H|[vs0 [H _]]]; auto. discriminate.
Qed.

(** ** State sets *)

Definition wfp (d : pgraph) : Prop :=
  NoDup (pg_nodes d) /\
  forall j t k, In (j, t, k) (pg_edges d) -> j < length (pg_nodes d) /\ k < length (pg_nodes d).

(** The transitions of state set [j] are those of the NFA. *)
Definition complete (d : pgraph) (j : nat) : Prop :=
  forall c, nth_error (pg_nodes d) j = Some c ->
    (forall t k, In (j, t, k) (pg_edges d) ->
       exists vs c', map_get t (target_multi_map g c) = Some vs /\ closure_of vs c' /\ nth_error (pg_nodes d) k = Some c') /\
    (forall t vs, map_get t (target_multi_map g c) = Some vs -> exists k, In (j, t, k) (pg_edges d)).

Record pext (d d' : pgraph) : Prop := {
  pe_nodes : exists ns, pg_nodes d' = pg_nodes d ++ ns;
  pe_edges : exists es, pg_edges d' = es ++ pg_edges d /\
               forall j t k, In (j, t, k) es -> length (pg_nodes d) <= j;
  pe_wf : wfp d'
}.

Lemma pext_len : forall d d', pext d d' -> length (pg_nodes d) <= length (pg_nodes d').
Proof. intros d d' [[ns H] _ _]. rewrite H, app_length. lia. Qed.

Lemma pext_refl : forall d, wfp d -> pext d d.
Proof.
  intros d H. constructor; auto.
  - exists []. rewrite app_nil_r. auto.
  - exists []. split; auto. intros j t k [].
Qed.

Lemma pext_nth : forall d d' j c, pext d d' -> nth_error (pg_nodes d) j = Some c -> nth_error (pg_nodes d') j = Some c.
Proof. intros d d' j c [[ns H] _ _] Hj. rewrite H. apply nth_error_app_l. auto. Qed.

Lemma pext_edge : forall d d' j t k, pext d d' -> In (j, t, k) (pg_edges d) -> In (j, t, k) (pg_edges d').
Proof. intros d d' j t k [_ [es [H _]] _] Hj. rewrite H. apply in_or_app; auto. Qed.

Lemma pext_edge_inv : forall d d' j t k, pext d d' -> j < length (pg_nodes d) -> In (j, t, k) (pg_edges d') -> In (j, t, k) (pg_edges d).
Proof.
  intros d d' j t k [_ [es [H H1]] _] Hj Hin. rewrite H in Hin. apply in_app_or in Hin.
  destruct Hin as [Hin|Hin]; auto. apply H1 in Hin. lia.
Qed.

Lemma pext_trans : forall d1 d2 d3, pext d1 d2 -> pext d2 d3 -> pext d1 d3.
Proof.
  intros d1 d2 d3 H1 H2. pose proof (pext_len _ _ H1). destruct H1 as [[n1 A1] [e1 [B1 C1]] W1]. destruct H2 as [[n2 A2] [e2 [B2 C2]] W2].
  constructor; auto.
  - exists (n1 ++ n2). rewrite A2, A1, app_assoc. auto.
  - exists (e2 ++ e1). split; [rewrite B2, B1, app_assoc; auto|].
    intros j t k Hin. apply in_app_or in Hin. destruct Hin as [Hin|Hin]; [apply C2 in Hin; lia|eapply C1; eauto].
Qed.

Lemma NoDup_nth_eq : forall (l : list (list nat)) i j c, NoDup l -> nth_error l i = Some c -> nth_error l j = Some c -> i = j.
Proof.
  intros l i j c Hnd Hi Hj. eapply NoDup_nth_error; eauto; [eapply nth_error_lt; eauto|congruence].
Qed.

Lemma complete_pext : forall d d' j, pext d d' -> complete d j -> j < length (pg_nodes d) -> complete d' j.
Proof.
  intros d d' j He Hc Hj c Hn.
  destruct (nth_error_ex _ (pg_nodes d) j Hj) as [c1 Hc1].
  assert (c1 = c). { rewrite (pext_nth _ _ _ _ He Hc1) in Hn. congruence. } subst c1.
  destruct (Hc c Hc1) as [H1 H2]. split.
  - intros t k Hin. apply (pext_edge_inv d) in Hin; auto. destruct (H1 t k Hin) as [vs [c' [Q1 [Q2 Q3]]]].
    exists vs, c'. split; [auto|split; [auto|]]. eapply pext_nth; eauto.
  - intros t vs Hvs. destruct (H2 t vs Hvs) as [k Hk]. exists k. eapply pext_edge; eauto.
Qed.

Lemma add_powerset_spec : forall f d nodes d' i, wfp d -> add_powerset_to_dfa g f d nodes = Ok (d', i) ->
  pext d d' /\ (exists c, nth_error (pg_nodes d') i = Some c /\ closure_of nodes c) /\
  (forall j, length (pg_nodes d) <= j -> complete d' j).
Proof.
  induction f as [|f IH]; intros d nodes d' i Hw H; [discriminate|]. cbn [add_powerset_to_dfa] in H.
  inv_bind H. rename a into c. apply epsilon_closure_spec in Hb. rename Hb into Hc.
  destruct (find_index (eqc c) (pg_nodes d)) as [i0|] eqn:Ef.
  - injection H as <- <-. apply find_index_Some in Ef. destruct Ef as [c' [H1 [H2 _]]]. apply eqc_true in H2. subst c'.
    split; [apply pext_refl; auto|]. split; [eauto|].
    intros j Hj x Hx. apply nth_error_lt in Hx. lia.
  - inv_bind H. injection H as <- <-. rename a into d2.
    assert (Hnew : ~ In c (pg_nodes d)).
    { intros Hin. rewrite find_index_None in Ef. apply Ef in Hin. rewrite eqc_refl in Hin. discriminate. }
    set (nd := length (pg_nodes d)) in *.
    set (d1 := mkPgraph (pg_nodes d ++ [c]) (pg_edges d)) in *.
    assert (Hw1 : wfp d1).
    { destruct Hw as [Hnd He]. split; simpl.
      - apply NoDup_app_intro; auto.
        + constructor; [intros []|constructor].
        + intros x Hx [<-|[]]. auto.
      - intros j t k Hin. apply He in Hin. rewrite app_length. simpl. lia. }
    destruct (tmm_spec c) as [Hms Hmm].
    eapply (foldM_inv _ _ _ _ (fun done dd =>
      wfp dd /\ (exists ns, pg_nodes dd = pg_nodes d1 ++ ns) /\
      (exists es, pg_edges dd = es ++ pg_edges d1 /\ forall j t k, In (j, t, k) es -> nd <= j) /\
      (forall j, S nd <= j -> complete dd j) /\
      (forall t k, In (nd, t, k) (pg_edges dd) -> exists vs c', In (t, vs) done /\ closure_of vs c' /\ nth_error (pg_nodes dd) k = Some c') /\
      (forall t vs, In (t, vs) done -> exists k, In (nd, t, k) (pg_edges dd)))) in Hb.
    + destruct Hb as [W [[ns N1] [[es [E1 E2]] [C1 [C2 C3]]]]].
      assert (P : pext d d2).
      { constructor; auto.
        - exists ([c] ++ ns). rewrite N1. simpl. rewrite <- app_assoc. auto.
        - exists es. split; auto. }
      split; auto. split.
      * exists c. split; auto. rewrite N1. simpl. rewrite <- app_assoc. rewrite nth_error_app2 by (unfold nd; lia).
        replace (nd - length (pg_nodes d)) with 0 by (unfold nd; lia). reflexivity.
      * intros j Hj. destruct (Nat.eq_dec j nd) as [->|]; [|apply C1; lia].
        intros c' Hc'. rewrite N1 in Hc'. simpl in Hc'. rewrite <- app_assoc in Hc'. rewrite nth_error_app2 in Hc' by (unfold nd; lia).
        replace (nd - length (pg_nodes d)) with 0 in Hc' by (unfold nd; lia). simpl in Hc'. injection Hc' as <-. split.
        -- intros t k Hin. destruct (C2 t k Hin) as [vs [c' [Q1 Q2]]]. exists vs, c'. split; auto.
           apply map_get_In; auto.
        -- intros t vs Hvs. eapply C3. apply map_get_In; eauto.
    + split; [auto|]. split; [exists []; rewrite app_nil_r; auto|]. split; [exists []; split; [auto|intros j t k []]|]. split.
      * intros j Hj x Hx. apply nth_error_lt in Hx. simpl in Hx. rewrite app_length in Hx. simpl in Hx. unfold nd in Hj. lia.
      * split.
        -- intros t k Hin. simpl in Hin. apply (proj2 Hw) in Hin. unfold nd in Hin. lia.
        -- intros t vs [].
    + clear Hb d2. intros done [t vs] rest dd dd' Hl [W [[ns N1] [[es [E1 E2]] [C1 [C2 C3]]]]] H.
      inv_bind H. destruct a as [d' k]. injection H as <-. apply IH in Hb; auto.
      destruct Hb as [P [[c' [K1 K2]] K3]].
      assert (Lnd : nd < length (pg_nodes dd)). { rewrite N1. simpl. rewrite !app_length. simpl. unfold nd. lia. }
      assert (P2 : pext dd {| pg_nodes := pg_nodes d'; pg_edges := (nd, t, k) :: pg_edges d' |} -> True) by auto.
      assert (Cm : forall j, j <> nd -> complete d' j -> complete {| pg_nodes := pg_nodes d'; pg_edges := (nd, t, k) :: pg_edges d' |} j).
      { intros j Hj Hc0 x Hx. simpl in Hx. destruct (Hc0 x Hx) as [Q1 Q2]. split.
        - intros t0 k0 [Hin|Hin]; [congruence|]. simpl. auto.
        - intros t0 vs0 H0. destruct (Q2 t0 vs0 H0) as [k0 Hk]. exists k0. right. auto. }
      assert (Lk : k < length (pg_nodes d')) by (eapply nth_error_lt; eauto).
      pose proof (pext_len _ _ P) as Lle.
      split; [|split; [|split; [|split; [|split]]]]; simpl.
      * destruct (pe_wf _ _ P) as [Y1 Y2]. split; simpl; auto. intros j t0 k0 [Hin|Hin].
        -- injection Hin as <- <- <-. lia.
        -- apply Y2 in Hin. auto.
      * destruct (pe_nodes _ _ P) as [ns' N2]. exists (ns ++ ns'). rewrite N2, N1. simpl. rewrite <- !app_assoc. auto.
      * destruct (pe_edges _ _ P) as [es' [E3 E4]]. exists ((nd, t, k) :: es' ++ es). split.
        -- rewrite E3, E1. simpl. rewrite app_assoc. auto.
        -- intros j t0 k0 [Hin|Hin]; [injection Hin as <- _ _; lia|].
           apply in_app_or in Hin. destruct Hin as [Hin|Hin].
           ++ apply E4 in Hin. lia.
           ++ eapply E2; eauto.
      * intros j Hj. apply Cm; [lia|]. destruct (Nat.lt_ge_cases j (length (pg_nodes dd))).
        -- eapply complete_pext; eauto.
        -- apply K3. auto.
      * intros t0 k0 [Hin|Hin].
        -- injection Hin as <- <-. exists vs, c'. split; [apply in_or_app; right; left; auto|]. auto.
        -- apply (pext_edge_inv dd) in Hin; auto. destruct (C2 t0 k0 Hin) as [vs0 [c0 [Q1 [Q2 Q3]]]].
           exists vs0, c0. split; [apply in_or_app; auto|]. split; auto. eapply pext_nth; eauto.
      * intros t0 vs0 Hin. apply in_app_or in Hin. destruct Hin as [Hin|[Hin|[]]].
        -- destruct (C3 t0 vs0 Hin) as [k0 Hk]. exists k0. right. eapply pext_edge; eauto.
        -- injection Hin as <- <-. exists k. left. auto.
Qed.

Lemma add_powerset_mono : forall f f' d S r, f <= f' -> add_powerset_to_dfa g f d S = Ok r -> add_powerset_to_dfa g f' d S = Ok r.
Proof.
  induction f as [|f IH]; intros f' d S r Hle H; [discriminate|].
  destruct f' as [|f']; [lia|]. cbn [add_powerset_to_dfa] in *.
  inv_bind H. rewrite (epsilon_closure_mono _ (Datatypes.S f') _ _ _ Hle Hb). cbn [bind].
  destruct (find_index (eqc a) (pg_nodes d)); auto.
  inv_bind H. match goal with |- bind ?X _ = _ => assert (HX : X = Ok a0) end.
  { eapply foldM_mono; [|exact Hb0]. intros d0 [t vs] r' _ H0. inv_bind H0. destruct a1 as [d' k].
    rewrite (IH f' _ _ _ ltac:(lia) Hb1). exact H0. }
  rewrite HX. exact H.
Qed.

(** All sorted lists of numbers below [k]. *)
Fixpoint subsets (k : nat) : list (list nat) :=
  match k with
  | 0 => [[]]
  | S k' => subsets k' ++ map (fun s => s ++ [k']) (subsets k')
  end.

Lemma subsets_length : forall k, length (subsets k) = 2 ^ k.
Proof. induction k; simpl; auto. rewrite app_length, map_length. lia. Qed.

Lemma subsets_In : forall k s, sorted s -> (forall x, In x s -> x < k) -> In s (subsets k).
Proof.
  induction k as [|k IH]; intros s Hs Hlt; simpl.
  - left. destruct s as [|a s]; auto. specialize (Hlt a (or_introl eq_refl)). lia.
  - apply in_or_app. destruct (in_dec Nat.eq_dec k s) as [Hin|Hin].
    + right. apply in_split in Hin. destruct Hin as [s1 [s2 ->]].
      assert (s2 = []).
      { destruct s2 as [|b s2]; auto. exfalso. apply sorted_app_inv in Hs. destruct Hs as [_ [Hs _]].
        inversion Hs; subst. assert (ltc k b) by (apply H2; left; auto). unfold ltc in H. simpl in H. apply Nat.compare_lt_iff in H.
        specialize (Hlt b). rewrite in_app_iff in Hlt. simpl in Hlt. assert (b < S k) by (apply Hlt; auto). lia. }
      subst s2. apply in_map_iff. exists s1. split; auto. apply IH.
      * apply sorted_app_inv in Hs. tauto.
      * intros x Hx. apply sorted_app_inv in Hs. destruct Hs as [_ [_ Hs]].
        assert (ltc x k) by (apply Hs; auto; left; auto). unfold ltc in H. simpl in H. apply Nat.compare_lt_iff in H. auto.
    + left. apply IH; auto. intros x Hx. specialize (Hlt x Hx). assert (x <> k) by congruence. lia.
Qed.

Definition wfs (d : pgraph) : Prop := forall c, In c (pg_nodes d) -> sorted c /\ forall x, In x c -> x < n.

Lemma wfs_bound : forall d, wfp d -> wfs d -> length (pg_nodes d) <= 2 ^ n.
Proof.
  intros d [Hn _] Hs. rewrite <- subsets_length. apply NoDup_incl_length; auto.
  intros c Hc. apply Hs in Hc. apply subsets_In; tauto.
Qed.

Lemma path_lt : forall u w v, path E u w v -> u < n -> v < n.
Proof.
  induction 1; intros; auto; apply IHpath; apply Hwf in H; tauto.
Qed.

Lemma closure_of_lt : forall S c x, closure_of S c -> (forall s, In s S -> s < n) -> In x c -> x < n.
Proof.
  intros S c x [_ Hc] HS Hx. apply Hc in Hx. destruct Hx as [s [Hs Hp]]. eapply path_lt; eauto.
Qed.

Lemma add_powerset_wfs : forall f d S d' i, wfp d -> wfs d -> (forall s, In s S -> s < n) ->
  add_powerset_to_dfa g f d S = Ok (d', i) -> wfs d'.
Proof.
  induction f as [|f IH]; intros d S d' i Hw Hd HS H; [discriminate|]. cbn [add_powerset_to_dfa] in H.
  inv_bind H. rename a into c. apply epsilon_closure_spec in Hb. rename Hb into Hc.
  destruct (find_index (eqc c) (pg_nodes d)) as [i0|] eqn:Ef; [injection H as <- <-; auto|].
  inv_bind H. injection H as <- <-. rename a into d2.
  assert (Hnew : ~ In c (pg_nodes d)).
  { intros Hin. rewrite find_index_None in Ef. apply Ef in Hin. rewrite eqc_refl in Hin. discriminate. }
  eapply (foldM_inv _ _ _ _ (fun _ dd => wfp dd /\ wfs dd /\ length (pg_nodes d) < length (pg_nodes dd))) in Hb; [tauto| |].
  - split; [|split].
    + destruct Hw as [Hnd He]. split; simpl.
      * apply NoDup_app_intro; auto.
        -- constructor; [intros []|constructor].
        -- intros x Hx [<-|[]]. auto.
      * intros j t k Hin. apply He in Hin. rewrite app_length. simpl. lia.
    + intros x Hx. simpl in Hx. apply in_app_or in Hx. destruct Hx as [Hx|[<-|[]]]; auto.
      split; [apply Hc|]. intros y Hy. eapply closure_of_lt; eauto.
    + simpl. rewrite app_length. simpl. lia.
  - intros done [t vs] rest dd dd' Hl [W1 [W2 W3]] H. inv_bind H. destruct a as [d' k]. injection H as <-.
    pose proof (add_powerset_spec _ _ _ _ _ W1 Hb0) as [P [[c' [K1 _]] _]].
    pose proof (pext_len _ _ P).
    assert (HV : forall v, In v vs -> v < n).
    { intros v Hv. destruct (tmm_spec c) as [Hms Hmm]. destruct (Hmm t) as [_ Q].
      assert (Hg : map_get t (target_multi_map g c) = Some vs).
      { apply map_get_In; auto. rewrite Hl. apply in_or_app; right; left; auto. }
      apply Q in Hg. destruct Hg as [_ Hg]. apply Hg in Hv. destruct Hv as [u [_ Hu]]. apply Hwf in Hu. tauto. }
    split; [|split].
    + destruct (pe_wf _ _ P) as [Y1 Y2]. split; simpl; auto. intros j t0 k0 [Hin|Hin].
      * injection Hin as <- <- <-. apply nth_error_lt in K1. lia.
      * apply Y2 in Hin. auto.
    + eapply IH in Hb0; eauto.
    + simpl. lia.
Qed.

Lemma add_powerset_total : forall f d S, wfp d -> wfs d -> (forall s, In s S -> s < n) ->
  2 ^ n - length (pg_nodes d) + n + 1 <= f -> exists r, add_powerset_to_dfa g f d S = Ok r.
Proof.
  induction f as [|f IH]; intros d S Hw Hd HS Hf; [lia|]. cbn [add_powerset_to_dfa].
  destruct (epsilon_closure_top (Datatypes.S f) S) as [c Hc]; auto; [lia|]. rewrite Hc. cbn [bind].
  apply epsilon_closure_spec in Hc.
  destruct (find_index (eqc c) (pg_nodes d)) as [i0|] eqn:Ef; eauto.
  assert (Hnew : ~ In c (pg_nodes d)).
  { intros Hin. rewrite find_index_None in Ef. apply Ef in Hin. rewrite eqc_refl in Hin. discriminate. }
  set (d1 := mkPgraph (pg_nodes d ++ [c]) (pg_edges d)) in *.
  assert (Hw1 : wfp d1).
  { destruct Hw as [Hnd He]. split; simpl.
    - apply NoDup_app_intro; auto.
      + constructor; [intros []|constructor].
      + intros x Hx [<-|[]]. auto.
    - intros j t k Hin. apply He in Hin. rewrite app_length. simpl. lia. }
  assert (Hs1 : wfs d1).
  { intros x Hx. simpl in Hx. apply in_app_or in Hx. destruct Hx as [Hx|[<-|[]]]; auto.
    split; [apply Hc|]. intros y Hy. eapply closure_of_lt; eauto. }
  assert (L1 : length (pg_nodes d1) = Datatypes.S (length (pg_nodes d))) by (simpl; rewrite app_length; simpl; lia).
  pose proof (wfs_bound d1 Hw1 Hs1) as B1.
  match goal with |- exists r, bind (foldM ?F ?L ?I) _ = _ =>
    destruct (foldM_ok _ _ _ F (fun _ dd => wfp dd /\ wfs dd /\ length (pg_nodes d) < length (pg_nodes dd)) L I) as [r [Hr _]] end.
  - split; [auto|]. split; auto. lia.
  - intros done [t vs] rest dd Hl [W1 [W2 W3]].
    assert (HV : forall v, In v vs -> v < n).
    { intros v Hv. destruct (tmm_spec c) as [Hms Hmm]. destruct (Hmm t) as [_ Q].
      assert (Hg : map_get t (target_multi_map g c) = Some vs).
      { apply map_get_In; auto. rewrite Hl. apply in_or_app; right; left; auto. }
      apply Q in Hg. destruct Hg as [_ Hg]. apply Hg in Hv. destruct Hv as [u [_ Hu]]. apply Hwf in Hu. tauto. }
    destruct (IH dd vs) as [[d' k] Hdk]; auto; [lia|]. rewrite Hdk. cbn [bind]. eexists. split; [reflexivity|].
    pose proof (add_powerset_spec _ _ _ _ _ W1 Hdk) as [P [[c' [K1 _]] _]].
    pose proof (pext_len _ _ P).
    split; [|split].
    + destruct (pe_wf _ _ P) as [Y1 Y2]. split; simpl; auto. intros j t0 k0 [Hin|Hin].
      * injection Hin as <- <- <-. apply nth_error_lt in K1. lia.
      * apply Y2 in Hin. auto.
    + eapply add_powerset_wfs in Hdk; eauto.
    + simpl. lia.
  - rewrite Hr. cbn [bind]. eauto.
Qed.

End Closure.
