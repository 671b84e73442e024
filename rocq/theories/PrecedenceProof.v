(** Precedence resolution (C05). *)
From Coq Require Import String List Arith NArith Bool Lia.
From Verif Require Import Base InputModel LexerModel LexerSpec GraphProof PowersetProof ConvertProof.
Import ListNotations.
Open Scope nat_scope.

Lemma res_list_Forall2 : forall E A (f : A -> res E N) l ps, res_list (map f l) = Ok ps <-> Forall2 (fun a n => f a = Ok n) l ps.
Proof.
  induction l as [|a l IH]; intros ps; simpl; split; intros H.
  - injection H as <-. constructor.
  - inversion H; subst. reflexivity.
  - inv_bind H. inv_bind H. injection H as <-. constructor; auto. apply IH. auto.
  - inversion H; subst. rewrite H2. cbn [bind]. apply IH in H4. rewrite H4. reflexivity.
Qed.

Lemma list_min_spec : forall l m, list_min l = Some m <-> In m l /\ forall n, In n l -> (m <= n)%N.
Proof.
  assert (X : forall l a, In (fold_left N.min l a) (a :: l) /\ forall n, In n (a :: l) -> (fold_left N.min l a <= n)%N).
  { induction l as [|b l IH]; intros a; simpl; [split; [auto|intros n [<-|[]]; lia]|].
    destruct (IH (N.min a b)) as [H1 H2]. split.
    - destruct H1 as [H1|H1]; auto. destruct (N.min_spec a b) as [[_ E]|[_ E]]; rewrite E in *; auto.
    - intros n [<-|[<-|Hn]].
      + specialize (H2 (N.min a b) (or_introl eq_refl)). lia.
      + specialize (H2 (N.min a b) (or_introl eq_refl)). lia.
      + apply H2. right. auto. }
  intros [|a l] m; simpl.
  - split; [discriminate|intros [[] _]].
  - destruct (X l a) as [H1 H2]. split.
    + intros H. injection H as <-. auto.
    + intros [H3 H4]. f_equal. apply N.le_antisymm; auto.
Qed.

Lemma pattern_prec_iff : forall E p n, @pattern_precedence E p = Ok n <-> pattern_prec p n.
Proof.
  intros E p. induction p as [l IH|l IH|mn mx p IH|cs b|c] using pattern_ind'; intros n; simpl.
  - assert (Y : forall ps, res_list (map (@pattern_precedence E) l) = Ok ps <-> Forall2 pattern_prec l ps).
    { intros ps. rewrite res_list_Forall2. clear n. revert ps. induction IH as [|p l Hp Hl IHl]; intros ps; split; intros H; inversion H; subst; constructor.
      - apply Hp. auto.
      - apply IHl. auto.
      - apply Hp. auto.
      - apply IHl. auto. }
    split.
    + intros H. inv_bind H. injection H as <-. constructor. apply Y. auto.
    + intros H. inversion H; subst. apply Y in H1. rewrite H1. reflexivity.
  - assert (Y : forall ps, res_list (map (@pattern_precedence E) l) = Ok ps <-> Forall2 pattern_prec l ps).
    { intros ps. rewrite res_list_Forall2. clear n. revert ps. induction IH as [|p l Hp Hl IHl]; intros ps; split; intros H; inversion H; subst; constructor.
      - apply Hp. auto.
      - apply IHl. auto.
      - apply Hp. auto.
      - apply IHl. auto. }
    split.
    + intros H. inv_bind H. destruct (list_min a) eqn:Em; [|discriminate]. injection H as ->. apply list_min_spec in Em.
      econstructor; try apply Em. apply Y. auto.
    + intros H. inversion H; subst. apply Y in H1. rewrite H1. cbn [bind].
      assert (Em : list_min ns = Some n) by (apply list_min_spec; auto). rewrite Em. reflexivity.
  - split.
    + intros H. inv_bind H. injection H as <-. constructor. apply IH. auto.
    + intros H. inversion H as [| |? ? ? k Hk| |]; subst. apply IH in Hk. rewrite Hk. reflexivity.
  - split; intros H; inversion H; subst; constructor.
  - split; intros H; inversion H; subst; constructor.
Qed.

Lemma prec_iff : forall E r n, @rule_precedence E r = Ok n <-> has_precedence r n.
Proof.
  intros E r n. unfold rule_precedence, has_precedence. destruct (tr_prec r); [split; congruence|].
  destruct (tr_pattern r); [|apply pattern_prec_iff]. split; intros H; [injection H as <-|subst]; [|f_equal]; lia.
Qed.

Lemma filter_insert_desc : forall (h : N) (x : token_rule * N) l,
  filter (fun rp => (snd rp =? h)%N) (insert_desc x l) = (if (snd x =? h)%N then [x] else []) ++ filter (fun rp => (snd rp =? h)%N) l.
Proof.
  intros h x l. induction l as [|y l IH]; simpl.
  - destruct (snd x =? h)%N; reflexivity.
  - destruct (N.leb_spec (snd y) (snd x)).
    + simpl. destruct (snd x =? h)%N; reflexivity.
    + simpl. rewrite IH. destruct (N.eqb_spec (snd x) h); simpl; auto.
      destruct (N.eqb_spec (snd y) h); auto. lia.
Qed.

Lemma filter_sort_desc : forall (h : N) (l : list (token_rule * N)),
  filter (fun rp => (snd rp =? h)%N) (sort_desc l) = filter (fun rp => (snd rp =? h)%N) l.
Proof.
  intros h l. induction l as [|x l IH]; simpl; auto. unfold sort_desc in *. simpl.
  rewrite filter_insert_desc, IH. destruct (snd x =? h)%N; auto.
Qed.

Lemma insert_desc_cons : forall (x : token_rule * N) l, exists y l', insert_desc x l = y :: l' /\ (y = x \/ exists l'', l = y :: l'') /\
  (snd x <= snd y)%N /\ (forall z l'', l = z :: l'' -> (snd z <= snd y)%N).
Proof.
  intros x [|z l]; simpl.
  - exists x, []. split; auto. split; auto. split; [lia|]. intros; discriminate.
  - destruct (N.leb_spec (snd z) (snd x)).
    + eexists; eexists; split; [reflexivity|]. split; auto. split; [lia|]. intros z' l'' Hz. injection Hz as <- <-. auto.
    + eexists; eexists; split; [reflexivity|]. split; eauto. split; [lia|]. intros z' l'' Hz. injection Hz as <- <-. lia.
Qed.

Lemma sort_desc_head : forall (l : list (token_rule * N)), l <> [] -> exists y l', sort_desc l = y :: l' /\ In y l /\
  forall x, In x l -> (snd x <= snd y)%N.
Proof.
  induction l as [|x l IH]; intros H; [congruence|]. change (sort_desc (x :: l)) with (insert_desc x (sort_desc l)).
  destruct (insert_desc_cons x (sort_desc l)) as [y [l' [H1 [H2 [H3 H4]]]]]. exists y, l'. split; auto.
  destruct l as [|x2 l].
  - simpl in H2. split.
    + destruct H2 as [->|[l'' H2]]; [left; auto|discriminate].
    + intros z [<-|[]]; auto.
  - destruct IH as [y0 [l0 [I1 [I2 I3]]]]; [discriminate|]. split.
    + destruct H2 as [->|[l'' H2]]; [left; auto|]. rewrite I1 in H2. injection H2 as <- <-. right. auto.
    + intros z [<-|Hz]; auto. specialize (I3 z Hz). specialize (H4 y0 l0 I1). lia.
Qed.

Lemma res_list_ok : forall E A (f : A -> res E N) l ps, res_list (map f l) = Ok ps -> Forall2 (fun a n => f a = Ok n) l ps.
Proof.
  induction l as [|a l IH]; intros ps H; simpl in H.
  - injection H as <-. constructor.
  - inv_bind H. inv_bind H. injection H as <-. constructor; auto.
Qed.

Lemma res_list_total : forall E A (f : A -> res E N) l, (forall a, In a l -> exists n, f a = Ok n) -> exists ps, res_list (map f l) = Ok ps.
Proof.
  induction l as [|a l IH]; intros H; simpl; eauto.
  destruct (H a (or_introl eq_refl)) as [n ->]. destruct IH as [ps ->]; [intros; apply H; right; auto|]. simpl. eauto.
Qed.

(** [r] is the only element of [sel] of highest precedence. *)
Definition sole_max (sel : list token_rule) (r : token_rule) : Prop :=
  exists before after, sel = before ++ r :: after /\
  forall r', In r' (before ++ after) ->
    exists n n', @rule_precedence lex_err r = Ok n /\ @rule_precedence lex_err r' = Ok n' /\ (n' < n)%N.

Lemma filter_single : forall (rules : list token_rule) ps h r,
  Forall2 (fun a n => @rule_precedence lex_err a = Ok n) rules ps -> (forall n, In n ps -> (n <= h)%N) ->
  map fst (filter (fun rp => (snd rp =? h)%N) (combine rules ps)) = [r] -> sole_max rules r.
Proof.
  induction 1 as [|a n rules ps Ha Hf IH]; intros Hmax H; simpl in H; [discriminate|].
  destruct (N.eqb_spec n h) as [->|Hne].
  - simpl in H. injection H as -> H. exists [], rules. split; auto. intros r' Hr'. simpl in Hr'.
    exists h. assert (X : forall rules ps, Forall2 (fun a n => @rule_precedence lex_err a = Ok n) rules ps ->
       map fst (filter (fun rp => (snd rp =? h)%N) (combine rules ps)) = [] -> (forall n, In n ps -> (n <= h)%N) ->
       forall r', In r' rules -> exists n', @rule_precedence lex_err r' = Ok n' /\ (n' < h)%N).
    { clear. induction 1 as [|b m l ps Hb Hl IHl]; intros H Hm r' Hr; [destruct Hr|]. simpl in H.
      destruct (N.eqb_spec m h); [discriminate|]. destruct Hr as [<-|Hr].
      - exists m. split; auto. specialize (Hm m (or_introl eq_refl)). lia.
      - apply IHl; auto. intros; apply Hm; right; auto. }
    destruct (X rules ps Hf H) with (r' := r') as [n' [Q1 Q2]]; auto.
    + intros; apply Hmax; right; auto.
    + eauto.
  - destruct IH as [b [c [-> Hall]]]; auto.
    { intros; apply Hmax; right; auto. }
    exists (a :: b), c. split; auto. intros r' [<-|Hr']; auto.
    (* [r] itself has precedence [h] *)
    assert (Hr : In r (map fst (filter (fun rp => (snd rp =? h)%N) (combine (b ++ r :: c) ps)))) by (rewrite H; left; auto).
    apply in_map_iff in Hr. destruct Hr as [[r0 m] [E0 Hr]]. simpl in E0. subst r0. apply filter_In in Hr.
    destruct Hr as [Hin Hm]. simpl in Hm. apply N.eqb_eq in Hm. subst m.
    assert (Hpr : @rule_precedence lex_err r = Ok h).
    { clear - Hf Hin. revert Hin. generalize (b ++ r :: c) as l, Hf. clear. intros l Hf. induction Hf; simpl; intros Hin; [destruct Hin|].
      destruct Hin as [Hin|Hin]; auto. injection Hin as -> ->. auto. }
    exists h, n. split; auto. split; auto. specialize (Hmax n (or_introl eq_refl)). lia.
Qed.

Lemma filter_prec : forall (rules : list token_rule) ps h,
  Forall2 (fun a n => @rule_precedence lex_err a = Ok n) rules ps ->
  filtered (fun r => @rule_precedence lex_err r = Ok h) rules (map fst (filter (fun rp => (snd rp =? h)%N) (combine rules ps))).
Proof.
  induction 1 as [|a n rules ps Ha Hf IH]; simpl; [constructor|].
  destruct (N.eqb_spec n h) as [->|Hne]; simpl; constructor; auto.
  intros X. rewrite Ha in X. congruence.
Qed.

Lemma resolve_cases : forall sel, sel <> [] -> (forall r, In r sel -> exists n, @rule_precedence lex_err r = Ok n) ->
  exists h tied, filtered (fun r => @rule_precedence lex_err r = Ok h) sel tied /\ tied <> [] /\
   (forall r, In r sel -> exists n, @rule_precedence lex_err r = Ok n /\ (n <= h)%N) /\
   ((exists r, tied = [r] /\ resolve_precedence sel = Ok r /\ sole_max sel r) \/
    (2 <= length tied /\ resolve_precedence sel = Err (PrecedenceError tied h))).
Proof.
  intros sel Hne Hp. unfold resolve_precedence.
  destruct (res_list_total _ _ (@rule_precedence lex_err) sel Hp) as [ps Hps].
  pose proof (res_list_ok _ _ _ _ _ Hps) as HF. rewrite Hps.
  assert (Hc : combine sel ps <> []). { destruct HF; [congruence|discriminate]. }
  destruct (sort_desc_head _ Hc) as [[y h] [l' [Hs [Hin Hmax]]]]. simpl in Hmax.
  set (tied := map fst (filter (fun rp => (snd rp =? h)%N) (combine sel ps))).
  assert (Hle : forall n, In n ps -> (n <= h)%N).
  { intros n Hn. assert (exists a, In (a, n) (combine sel ps)).
    { clear - HF Hn. induction HF; simpl in *; [destruct Hn|]. destruct Hn as [<-|Hn]; [eauto|]. destruct (IHHF Hn); eauto. }
    destruct H as [a Ha]. apply (Hmax (a, n)). auto. }
  exists h, tied. split; [apply filter_prec; auto|].
  assert (Hyt : In y tied).
  { apply in_map_iff. exists (y, h). split; auto. apply filter_In. split; auto. simpl. apply N.eqb_refl. }
  split; [intros X; rewrite X in Hyt; destruct Hyt|]. split.
  - intros r Hr. clear - HF Hr Hle. induction HF; [destruct Hr|]. destruct Hr as [->|Hr].
    + exists y. split; auto. apply Hle. left; auto.
    + apply IHHF; auto. intros; apply Hle; right; auto.
  - destruct sel as [|s0 sel0]; [congruence|]. cbn [bind]. rewrite Hs.
    assert (Hm : map fst (filter (fun rp => (snd rp =? h)%N) ((y, h) :: l')) = tied).
    { rewrite <- Hs, filter_sort_desc. reflexivity. }
    rewrite Hm. destruct tied as [|r [|r' tied']] eqn:Et; [destruct Hyt| |].
    + left. exists r. split; auto. split; auto. eapply filter_single; eauto.
    + right. simpl. split; auto. lia.
Qed.

(** ** Relabelling the DFA *)

Definition relabel (s : astate (list token_rule)) (s' : astate token_rule) : Prop :=
  match s with
  | Accepting l => exists r, resolve_precedence l = Ok r /\ s' = Accepting r
  | Intermediate _ => exists m, s' = Intermediate m
  end.

Definition id_map (k : nat) : list (nat * nat) := map (fun i => (i, i)) (seq 0 k).

Lemma id_map_insert : forall k, map_insert k k (id_map k) = id_map (S k).
Proof.
  intros k. unfold id_map. rewrite seq_S, map_app. simpl.
  assert (X : forall l, (forall p, In p l -> fst p < k) -> map_insert k k l = l ++ [(k, k)]).
  { induction l as [|[a b] l IH]; intros H; simpl; auto.
    assert (a < k) by (apply (H (a, b)); left; auto).
    replace (Nat.compare k a) with Gt by (symmetry; apply Nat.compare_gt_iff; auto).
    f_equal. apply IH. intros p Hp. apply H. right; auto. }
  apply X. intros p Hp. apply in_map_iff in Hp. destruct Hp as [i [<- Hi]]. apply in_seq in Hi. simpl. lia.
Qed.

Lemma id_map_get : forall k i, i < k -> map_get i (id_map k) = Some i.
Proof.
  intros k i H. apply map_get_In.
  - unfold msorted, id_map. rewrite map_map. simpl. rewrite map_id. clear H.
    generalize 0 as a. induction k; intros a; simpl; constructor; auto.
    intros b Hb. apply in_seq in Hb. unfold ltc. simpl. apply Nat.compare_lt_iff. lia.
  - apply in_map_iff. exists i. split; auto. apply in_seq. lia.
Qed.

Lemma apply_states_inv : forall l st, foldM apply_state l (dfa_new, [], 0) = Ok st ->
  exists d, st = (d, id_map (length l), length l) /\ dfa_edges d = [] /\ Forall2 relabel l (dfa_nodes d).
Proof.
  intros l st H.
  eapply (foldM_inv _ _ _ _ (fun done st => exists d, st = (d, id_map (length done), length done) /\ dfa_edges d = [] /\
    Forall2 relabel done (dfa_nodes d))) in H; auto.
  - exists dfa_new. repeat split; auto. constructor.
  - intros done s rest s1 s2 _ [d [-> [H1 H2]]] Hs. unfold apply_state in Hs.
    assert (L : length (dfa_nodes d) = length done). { clear - H2. induction H2; simpl; auto. }
    destruct s as [acc|m].
    + inv_bind Hs. unfold dfa_add_accepting in Hs. injection Hs as <-. eexists. rewrite app_length. simpl. rewrite L, id_map_insert.
      replace (length done + 1) with (S (length done)) by lia. repeat split; auto. simpl.
      apply Forall2_app; auto. constructor; [|constructor]. simpl. eauto.
    + unfold dfa_add_intermediate in Hs. injection Hs as <-. eexists. rewrite app_length. simpl. rewrite L, id_map_insert.
      replace (length done + 1) with (S (length done)) by lia. repeat split; auto. simpl.
      apply Forall2_app; auto. constructor; [|constructor]. simpl. eauto.
Qed.

Lemma apply_edges_fold : forall old k l (d : dfa token_rule),
  (forall j t v, In (j, t, v) (dfa_edges old) -> v < k) ->
  (forall i, In i l -> i < k) ->
  exists d', foldM (apply_edges old (id_map k)) (map (fun i => (i, i)) l) d = Ok d' /\ dfa_nodes d' = dfa_nodes d /\
  forall j t v, In (j, t, v) (dfa_edges d') <-> In (j, t, v) (dfa_edges d) \/ (In j l /\ In (j, t, v) (dfa_edges old)).
Proof.
  intros old k l. induction l as [|i l IH]; intros d Hold Hl; cbn [map foldM].
  - exists d. repeat split; auto. intros [H|[[] _]]; auto.
  - assert (X : forall es (d : dfa token_rule), (forall t v, In (t, v) es -> v < k) ->
      exists d', foldM (fun d tv => let '(t, old_target) := tv in
          match map_get old_target (id_map k) with None => Panic | Some new_target => Ok (dfa_add_transition i new_target t d) end) es d = @Ok lex_err _ d' /\
        dfa_nodes d' = dfa_nodes d /\
        forall j t v, In (j, t, v) (dfa_edges d') <-> In (j, t, v) (dfa_edges d) \/ (j = i /\ In (t, v) es)).
    { clear. induction es as [|[t v] es IH]; intros d Hes; cbn [foldM].
      - exists d. repeat split; auto. intros [H|[_ []]]; auto.
      - rewrite id_map_get by (eapply Hes; left; eauto). cbn [bind].
        destruct (IH (dfa_add_transition i v t d)) as [d' [H1 [H2 H3]]]; [intros; eapply Hes; right; eauto|].
        exists d'. split; auto. split; auto. intros j t0 v0. rewrite H3. simpl. split.
        + intros [[H|H]|[H4 H5]]; auto. injection H as <- <- <-. right. auto.
        + intros [H|[-> [H|H]]]; auto. injection H as <- <-. auto. }
    unfold apply_edges at 1.
    destruct (X (transitions_from old i) d) as [d1 [H1 [H2 H3]]].
    { intros t v Hin. unfold transitions_from in Hin. apply out_edges_In in Hin. eauto. }
    rewrite H1. cbn [bind]. destruct (IH d1) as [d' [H4 [H5 H6]]]; auto.
    { intros; apply Hl; right; auto. }
    exists d'. split; auto. split; [congruence|]. intros j t v. rewrite H6, H3.
    unfold transitions_from. rewrite out_edges_In. simpl. split.
    + intros [[H|[-> H]]|[H7 H8]]; auto.
    + intros [H|[[-> |H7] H8]]; auto.
Qed.

Lemma apply_precedence_ok : forall old d,
  (forall j t v, In (j, t, v) (dfa_edges old) -> j < length (dfa_nodes old) /\ v < length (dfa_nodes old)) ->
  apply_precedence_to_dfa old = Ok d ->
  Forall2 relabel (dfa_nodes old) (dfa_nodes d) /\
  forall j t v, In (j, t, v) (dfa_edges d) <-> In (j, t, v) (dfa_edges old).
Proof.
  intros old d Hed H. unfold apply_precedence_to_dfa in H. inv_bind H. destruct a as [[d1 m] x].
  destruct (apply_states_inv _ _ Hb) as [d' [E1 [E2 E3]]]. injection E1 as <- -> ->.
  destruct (apply_edges_fold old (length (dfa_nodes old)) (seq 0 (length (dfa_nodes old))) d1) as [d2 [H1 [H2 H3]]].
  - intros j t v Hin. apply Hed in Hin. tauto.
  - intros i Hi. apply in_seq in Hi. lia.
  - change (map (fun i => (i, i)) (seq 0 (length (dfa_nodes old)))) with (id_map (length (dfa_nodes old))) in H1.
    rewrite H in H1. injection H1 as <-. split; [rewrite H2; auto|]. intros j t v. rewrite H3, E2. simpl. split.
    + intros [[]|[_ Hx]]; auto.
    + intros Hx. right. split; auto. apply Hed in Hx. apply in_seq. lia.
Qed.

(** Outcome of relabelling: success, or the error of one of the states. *)
Lemma apply_precedence_cases : forall old,
  (forall j t v, In (j, t, v) (dfa_edges old) -> j < length (dfa_nodes old) /\ v < length (dfa_nodes old)) ->
  (forall k sel, nth_error (dfa_nodes old) k = Some (Accepting sel) -> sel <> [] /\
     forall r, In r sel -> exists n, @rule_precedence lex_err r = Ok n) ->
  (exists d, apply_precedence_to_dfa old = Ok d) \/
  (exists k sel e, nth_error (dfa_nodes old) k = Some (Accepting sel) /\ resolve_precedence sel = Err e /\
     apply_precedence_to_dfa old = Err e).
Proof.
  intros old Hed Hacc. unfold apply_precedence_to_dfa.
  assert (X : forall rest done st, dfa_nodes old = done ++ rest ->
    (exists st', foldM apply_state rest st = Ok st') \/
    (exists k sel e, nth_error (dfa_nodes old) k = Some (Accepting sel) /\ resolve_precedence sel = Err e /\ foldM apply_state rest st = Err e)).
  { induction rest as [|s rest IH]; intros done [[d m] i] Hn; cbn [foldM]; eauto.
    assert (Hk : nth_error (dfa_nodes old) (length done) = Some s).
    { rewrite Hn. rewrite nth_error_app2 by lia. rewrite Nat.sub_diag. reflexivity. }
    assert (Hn' : dfa_nodes old = (done ++ [s]) ++ rest) by (rewrite <- app_assoc; auto).
    destruct s as [sel|x]; unfold apply_state at 1 3.
    - destruct (Hacc _ _ Hk) as [Hne Hp].
      destruct (resolve_cases sel Hne Hp) as [h [tied [_ [_ [_ [[r [_ [Hr _]]]|[_ He]]]]]]].
      + rewrite Hr. cbn [bind]. unfold dfa_add_accepting. cbn [bind]. eapply IH; eauto.
      + right. exists (length done), sel. eexists. split; [auto|]. split; [exact He|]. rewrite He. reflexivity.
    - cbn [bind]. unfold dfa_add_intermediate. eapply IH; eauto. }
  destruct (X (dfa_nodes old) [] (dfa_new, [], 0) eq_refl) as [[st Hst]|[k [sel [e [H1 [H2 H3]]]]]].
  - left. rewrite Hst. destruct (apply_states_inv _ _ Hst) as [d' [-> [E2 E3]]]. cbn [bind].
    destruct (apply_edges_fold old (length (dfa_nodes old)) (seq 0 (length (dfa_nodes old))) d') as [d2 [Q1 _]]; eauto.
    + intros j t v Hin. apply Hed in Hin. tauto.
    + intros i Hi. apply in_seq in Hi. lia.
  - right. exists k, sel, e. rewrite H3. auto.
Qed.
