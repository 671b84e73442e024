(** Proofs about the alphabet (C01). *)
From Coq Require Import String List Arith NArith Bool Lia.
From Verif Require Import Base InputModel LexerModel LexerSpec.
Import ListNotations.
Open Scope N_scope.

(** The ranges of [al] are non-empty, adjacent and increasing, from [lo] up to (excluding) [hi]. *)
Inductive contiguous : N -> alphabet -> N -> Prop :=
| cont_nil : forall n, contiguous n [] n
| cont_cons : forall s e rest n, s <= e -> contiguous (e + 1) rest n -> contiguous s ((s, e) :: rest) n.

Lemma contiguous_le : forall lo al hi, contiguous lo al hi -> lo <= hi.
Proof. induction 1; lia. Qed.

Lemma contiguous_cover : forall lo al hi, contiguous lo al hi -> forall c, lo <= c < hi ->
  exists i s e, nth_error al i = Some (s, e) /\ s <= c <= e.
Proof.
  induction 1; intros c Hc; [lia|].
  destruct (N.le_gt_cases c e).
  - exists 0%nat, s, e. split; auto. lia.
  - destruct (IHcontiguous c) as [i [s' [e' [H2 H3]]]]; [lia|]. exists (S i), s', e'. auto.
Qed.

Lemma contiguous_bounds : forall lo al hi, contiguous lo al hi -> forall i s e,
  nth_error al i = Some (s, e) -> lo <= s /\ s <= e /\ e < hi.
Proof.
  induction 1; intros i s' e' Hi; destruct i; simpl in Hi; try discriminate.
  - injection Hi as <- <-. apply contiguous_le in H0. lia.
  - apply IHcontiguous in Hi. lia.
Qed.

Lemma contiguous_order : forall lo al hi, contiguous lo al hi -> forall i j s e s' e',
  (i < j)%nat -> nth_error al i = Some (s, e) -> nth_error al j = Some (s', e') -> e < s'.
Proof.
  induction 1; intros i j s1 e1 s2 e2 Hij Hi Hj.
  - destruct i; discriminate.
  - destruct j; [lia|]. simpl in Hj. destruct i; simpl in Hi.
    + injection Hi as <- <-. apply (contiguous_bounds _ _ _ H0) in Hj. lia.
    + eapply IHcontiguous; [|eauto|eauto]. lia.
Qed.

Lemma contiguous_unique : forall lo al hi, contiguous lo al hi -> forall i j s e s' e' c,
  nth_error al i = Some (s, e) -> nth_error al j = Some (s', e') ->
  s <= c <= e -> s' <= c <= e' -> i = j.
Proof.
  intros lo al hi H i j s e s' e' c Hi Hj Hc Hc'.
  destruct (lt_eq_lt_dec i j) as [[Hlt|Heq]|Hgt]; auto.
  - pose proof (contiguous_order _ _ _ H _ _ _ _ _ _ Hlt Hi Hj). lia.
  - pose proof (contiguous_order _ _ _ H _ _ _ _ _ _ Hgt Hj Hi). lia.
Qed.

Lemma contiguous_app : forall lo a mid b hi, contiguous lo a mid -> contiguous mid b hi -> contiguous lo (a ++ b) hi.
Proof. induction 1; intros; simpl; auto. constructor; auto. Qed.

(** Characters collected from patterns. *)

Lemma get_chars_characters_In : forall c chars x,
  In x (get_chars_from_characters chars c) <-> In x chars \/ match c with Single y => x = y | CRange a b => x = a \/ x = b end.
Proof.
  intros [y|a b] chars x; simpl; rewrite ?set_insert_In; intuition.
Qed.

Lemma get_chars_characters_sorted : forall c chars, sorted chars -> sorted (get_chars_from_characters chars c).
Proof. intros [y|a b] chars H; simpl; auto using set_insert_sorted. Qed.

Lemma get_chars_set_In : forall cs chars x,
  In x (fold_left get_chars_from_characters cs chars) <->
  In x chars \/ exists c, In c cs /\ match c with Single y => x = y | CRange a b => x = a \/ x = b end.
Proof.
  induction cs as [|c cs IH]; intros chars x; simpl.
  - split; auto. intros [H|[c [[] _]]]; auto.
  - rewrite IH, get_chars_characters_In. split.
    + intros [[H|H]|[d [H1 H2]]]; eauto.
    + intros [H|[d [[->|H1] H2]]]; eauto.
Qed.

Lemma get_chars_set_sorted : forall cs chars, sorted chars -> sorted (fold_left get_chars_from_characters cs chars).
Proof. induction cs; intros; simpl; auto using get_chars_characters_sorted. Qed.

Lemma get_chars_list_In : forall l,
  Forall (fun p => forall chars x, In x (get_chars_from_pattern p chars) <-> In x chars \/ mentions x p) l ->
  forall chars x,
  In x (fold_left (fun acc f => f acc) (map get_chars_from_pattern l) chars) <->
  In x chars \/ exists p, In p l /\ mentions x p.
Proof.
  induction 1 as [|p l Hp Hl IH]; intros chars x; simpl.
  - split; auto. intros [H|[p [[] _]]]; auto.
  - rewrite IH, Hp. split.
    + intros [[H|H]|[q [H1 H2]]]; eauto.
    + intros [H|[q [[->|H1] H2]]]; eauto.
Qed.

Lemma get_chars_In : forall p chars x,
  In x (get_chars_from_pattern p chars) <-> In x chars \/ mentions x p.
Proof.
  induction p as [l IH|l IH|mn mx p IH|cs b|c] using pattern_ind'; intros chars x; simpl.
  - rewrite get_chars_list_In by auto. split.
    + intros [H|[q [H1 H2]]]; eauto using mentions.
    + intros [H|H]; auto. inversion H; subst; eauto.
  - rewrite get_chars_list_In by auto. split.
    + intros [H|[q [H1 H2]]]; eauto using mentions.
    + intros [H|H]; auto. inversion H; subst; eauto.
  - rewrite IH. split; intros [H|H]; eauto using mentions. inversion H; auto.
  - rewrite get_chars_set_In. split.
    + intros [H|[[y|y z] [H1 H2]]]; auto; right; subst; try (destruct H2; subst); eauto using mentions.
    + intros [H|H]; auto. right. inversion H; subst; eexists; (split; [eassumption|]); simpl; auto.
  - rewrite get_chars_characters_In. split.
    + intros [H|H]; auto. right. destruct c; subst; try (destruct H; subst); eauto using mentions.
    + intros [H|H]; auto. right. inversion H; subst; simpl; auto.
Qed.

Lemma get_chars_sorted : forall p chars, sorted chars -> sorted (get_chars_from_pattern p chars).
Proof.
  induction p as [l IH|l IH|mn mx p IH|cs b|c] using pattern_ind'; intros chars Hs; simpl;
    auto using get_chars_set_sorted, get_chars_characters_sorted.
  - revert chars Hs. induction IH; intros; simpl; auto.
  - revert chars Hs. induction IH; intros; simpl; auto.
Qed.

Lemma rules_chars_spec : forall rules chars,
  sorted chars ->
  let r := fold_left (fun acc r => get_chars_from_pattern (rule_pattern r) acc) rules chars in
  sorted r /\ forall x, In x r <-> In x chars \/ exists t, In t rules /\ mentions x (rule_pattern t).
Proof.
  induction rules as [|t rules IH]; intros chars Hs; simpl.
  - split; auto. intros x. split; auto. intros [H|[u [[] _]]]; auto.
  - destruct (IH (get_chars_from_pattern (rule_pattern t) chars)) as [H1 H2].
    { now apply get_chars_sorted. }
    split; auto. intros x. rewrite H2, get_chars_In. split.
    + intros [[H|H]|[u [H3 H4]]]; eauto.
    + intros [H|[u [[->|H3] H4]]]; eauto.
Qed.

Lemma alphabet_chars_sorted : forall rules, sorted (alphabet_chars rules).
Proof.
  intros. unfold alphabet_chars. apply set_insert_sorted, set_insert_sorted.
  apply rules_chars_spec. constructor.
Qed.

Lemma alphabet_chars_In : forall rules x, In x (alphabet_chars rules) <->
  x = CHAR_MAX \/ x = 0 \/ exists t, In t rules /\ mentions x (rule_pattern t).
Proof.
  intros. unfold alphabet_chars. cbv zeta. rewrite !set_insert_In.
  destruct (rules_chars_spec rules [] (@sorted_nil _ _)) as [_ H]. cbv zeta in H. rewrite H. simpl. tauto.
Qed.

Lemma gap_ranges_contiguous : forall l prev, sorted (prev :: l) ->
  contiguous (prev + 1) (gap_ranges prev l) (last l prev + 1).
Proof.
  induction l as [|ch l IH]; intros prev Hs.
  - simpl. constructor.
  - inversion Hs; subst. assert (Hlt : prev < ch). { apply N.compare_lt_iff. apply H2. left; auto. }
    assert (Hl : last (ch :: l) prev = last l ch).
    { destruct l; auto. simpl. clear. revert n. induction l; intros; simpl; auto. }
    rewrite Hl. specialize (IH ch H1). cbn [gap_ranges].
    destruct (1 <? ch - prev) eqn:E.
    + apply N.ltb_lt in E. cbn [app]. constructor; [lia|].
      replace (ch - 1 + 1) with ch by lia. constructor; [lia|auto].
    + apply N.ltb_ge in E. cbn [app]. replace (prev + 1) with ch by lia. constructor; [lia|auto].
Qed.

Lemma gap_ranges_In : forall l prev c, In c l -> In (c, c) (gap_ranges prev l).
Proof.
  induction l as [|ch l IH]; intros prev c []; simpl; subst.
  - apply in_or_app. right. left. auto.
  - apply in_or_app. right. right. auto.
Qed.

Lemma sorted_last_max : forall (l : list N) a, sorted (a :: l) -> forall x, In x (a :: l) -> x <= last l a.
Proof.
  induction l as [|b l IH]; intros a Hs x Hx.
  - destruct Hx as [->|[]]. simpl. lia.
  - inversion Hs; subst. assert (Hab : a < b) by (apply N.compare_lt_iff; apply H2; left; auto).
    assert (Hl : last (b :: l) a = last l b).
    { destruct l; auto. simpl. clear. revert n. induction l; intros; simpl; auto. }
    rewrite Hl. destruct Hx as [->|Hx].
    + specialize (IH b H1 b (or_introl eq_refl)). lia.
    + apply (IH b H1 x Hx).
Qed.

Lemma last_In : forall A (l : list A) a, In (last l a) (a :: l).
Proof.
  induction l as [|b l IH]; intros a; simpl; auto.
  destruct l as [|c l']; auto. right.
  specialize (IH a). change (In (last (c :: l') a) (b :: c :: l')).
  destruct IH as [H|H]; [|right; auto].
  right. change (last (c :: l') a) with (last (c :: l') a).
  assert (X : forall (l : list A) c, In (last (c :: l) a) (c :: l)).
  { clear. induction l as [|d l IH]; intros c; simpl; auto. right. apply IH. }
  apply X.
Qed.

(** Main facts about the generated alphabet. *)
Lemma generate_alphabet_total : forall rules, exists al, generate_alphabet rules = Ok al.
Proof.
  intros. unfold generate_alphabet. destruct (alphabet_chars rules) eqn:E; eauto.
  exfalso. assert (X : In 0 (alphabet_chars rules)) by (apply alphabet_chars_In; auto). rewrite E in X. destruct X.
Qed.

Lemma generate_alphabet_spec : forall rules al, valid_rules rules -> generate_alphabet rules = Ok al ->
  contiguous 0 al (CHAR_MAX + 1) /\
  (forall t c, In t rules -> mentions c (rule_pattern t) -> In (c, c) al) /\
  exists rest, al = (0, 0) :: rest.
Proof.
  intros rules al Hv H. unfold generate_alphabet in H.
  destruct (alphabet_chars rules) as [|prev rest] eqn:E; [discriminate|]. injection H as <-.
  pose proof (alphabet_chars_sorted rules) as Hs. rewrite E in Hs.
  assert (Hin : forall x, In x (prev :: rest) <-> x = CHAR_MAX \/ x = 0 \/ exists t, In t rules /\ mentions x (rule_pattern t)).
  { intros x. rewrite <- E. apply alphabet_chars_In. }
  assert (Hprev : prev = 0).
  { assert (X : In 0 (prev :: rest)) by (apply Hin; auto). destruct X as [X|X]; auto.
    inversion Hs; subst. apply H2 in X. unfold ltc in X. simpl in X. rewrite N.compare_lt_iff in X. lia. }
  subst prev.
  assert (Hlast : last rest 0 = CHAR_MAX).
  { apply N.le_antisymm.
    - assert (X : In (last rest 0) (0 :: rest)) by apply last_In. apply Hin in X.
      destruct X as [X|[X|[t [X Y]]]]; try (rewrite X; unfold CHAR_MAX; lia).
      exact (Hv _ _ X Y).
    - apply sorted_last_max; auto. apply Hin; auto. }
  split; [|split].
  - constructor; [lia|]. rewrite <- Hlast. apply gap_ranges_contiguous. exact Hs.
  - intros t c Ht Hc. assert (X : In c (0 :: rest)) by (apply Hin; eauto).
    destruct X as [<-|X]; [left; auto|right]. now apply gap_ranges_In.
  - eauto.
Qed.

(** Lookup. *)
Lemma bsearch_spec : forall al lo hi c k, contiguous lo al hi -> lo <= c < hi ->
  exists i s e, nth_error al i = Some (s, e) /\ s <= c <= e /\
  (bsearch c al k = inl (k + i)%nat \/ bsearch c al k = inr (k + S i)%nat).
Proof.
  intros al lo hi c k H. revert k. induction H; intros k Hc; [lia|].
  simpl. destruct (N.compare_spec s c).
  - exists 0%nat, s, e. split; [auto|split; [lia|left; f_equal; lia]].
  - destruct (N.le_gt_cases c e).
    + exists 0%nat, s, e. split; [auto|split; [lia|right]].
      clear IHcontiguous. inversion H0; subst; simpl; [f_equal; lia|].
      destruct (N.compare_spec (e + 1) c); try lia. f_equal; lia.
    + destruct (IHcontiguous (S k)) as [i [s' [e' [A [B C]]]]]; [lia|].
      exists (S i), s', e'. split; [auto|split; [lia|]].
      destruct C as [C|C]; rewrite C; [left|right]; f_equal; lia.
  - lia.
Qed.

Lemma find_range_spec : forall al hi c, contiguous 0 al hi -> c < hi ->
  exists i s e, find_range al c = Ok (Some i) /\ nth_error al i = Some (s, e) /\ s <= c <= e.
Proof.
  intros al hi c H Hc. unfold find_range.
  destruct (bsearch_spec al 0 hi c 0 H) as [i [s [e [A [B C]]]]]; [lia|].
  exists i, s, e. destruct C as [C|C]; rewrite C; simpl; auto.
  rewrite A. destruct B as [B1 B2]. apply N.leb_le in B1. apply N.leb_le in B2. rewrite B1, B2. simpl.
  repeat split; auto; apply N.leb_le; auto.
Qed.

Lemma get_alphabet_index_spec : forall al lo hi c, contiguous lo al hi -> lo <= c < hi ->
  exists i s e, get_alphabet_index al c = Some i /\ nth_error al i = Some (s, e) /\ s <= c <= e.
Proof.
  intros al lo hi c H Hc. destruct (contiguous_cover _ _ _ H c Hc) as [i [s [e [A B]]]].
  unfold get_alphabet_index.
  destruct (find_index (fun r : N * N => (fst r <=? c) && (c <=? snd r)) al) as [j|] eqn:E.
  - apply find_index_Some in E. destruct E as [[s' e'] [E1 [E2 _]]]. simpl in E2.
    apply andb_true_iff in E2. rewrite !N.leb_le in E2.
    exists j, s', e'. auto.
  - rewrite find_index_None in E. apply nth_error_In in A. apply E in A. simpl in A.
    apply andb_false_iff in A. rewrite !N.leb_gt in A. lia.
Qed.

(** Index of a code point, total version used in proofs. *)
Definition idx (al : alphabet) (c : N) : nat :=
  match get_alphabet_index al c with Some i => i | None => 0%nat end.

Section Idx.
Variable al : alphabet.
Hypothesis Hal : contiguous 0 al (CHAR_MAX + 1).

Lemma idx_spec : forall c, valid_char c -> exists s e,
  get_alphabet_index al c = Some (idx al c) /\ nth_error al (idx al c) = Some (s, e) /\ s <= c <= e.
Proof.
  intros c Hc. unfold valid_char in Hc.
  destruct (get_alphabet_index_spec al 0 (CHAR_MAX + 1) c Hal) as [i [s [e [A [B C]]]]]; [lia|].
  unfold idx. rewrite A. exists s, e. auto.
Qed.

Lemma find_range_idx : forall c, valid_char c -> find_range al c = Ok (Some (idx al c)).
Proof.
  intros c Hc. destruct (find_range_spec al (CHAR_MAX + 1) c Hal) as [i [s [e [A [B C]]]]].
  { unfold valid_char in Hc; lia. }
  destruct (idx_spec c Hc) as [s' [e' [A' [B' C']]]].
  rewrite A. do 2 f_equal. eapply contiguous_unique; eauto.
Qed.

Lemma idx_lt : forall c, valid_char c -> (idx al c < length al)%nat.
Proof.
  intros c Hc. destruct (idx_spec c Hc) as [s [e [_ [B _]]]]. apply nth_error_lt in B. auto.
Qed.

Lemma idx_mono : forall c d, valid_char c -> valid_char d -> c <= d -> (idx al c <= idx al d)%nat.
Proof.
  intros c d Hc Hd Hle. destruct (idx_spec c Hc) as [s [e [_ [B C]]]].
  destruct (idx_spec d Hd) as [s' [e' [_ [B' C']]]].
  destruct (le_lt_dec (idx al c) (idx al d)) as [|Hlt]; auto.
  pose proof (contiguous_order _ _ _ Hal _ _ _ _ _ _ Hlt B' B). lia.
Qed.

Lemma idx_single : forall c d, valid_char d -> In (c, c) al -> idx al d = idx al c -> d = c.
Proof.
  intros c d Hd Hc Heq. apply In_nth_error in Hc. destruct Hc as [i Hi].
  pose proof (contiguous_bounds _ _ _ Hal _ _ _ Hi) as Hb.
  assert (Hvc : valid_char c) by (unfold valid_char; lia).
  destruct (idx_spec c Hvc) as [s [e [_ [B C]]]].
  destruct (idx_spec d Hd) as [s' [e' [_ [B' C']]]].
  assert (Hi' : i = idx al c).
  { eapply contiguous_unique; eauto. lia. }
  rewrite Heq in B'. rewrite <- Hi', Hi in B'. injection B' as <- <-. lia.
Qed.

Lemma idx_range : forall a b c, valid_char c -> valid_char a -> valid_char b -> In (a, a) al -> In (b, b) al ->
  (a <= c <= b <-> (idx al a <= idx al c <= idx al b)%nat).
Proof.
  intros a b c Hc Ha Hb Sa Sb. split.
  - intros [H1 H2]. split; apply idx_mono; auto.
  - intros [H1 H2]. split.
    + destruct (N.le_gt_cases a c); auto.
      assert (X : (idx al c <= idx al a)%nat) by (apply idx_mono; auto; lia).
      assert (Y : c = a) by (apply idx_single; auto; lia). lia.
    + destruct (N.le_gt_cases c b); auto.
      assert (X : (idx al b <= idx al c)%nat) by (apply idx_mono; auto; lia).
      assert (Y : c = b) by (apply idx_single; auto; lia). lia.
Qed.

Lemma idx_surj : forall i, (i < length al)%nat -> exists c, valid_char c /\ idx al c = i.
Proof.
  intros i Hi. destruct (nth_error_ex _ _ _ Hi) as [[s e] He].
  pose proof (contiguous_bounds _ _ _ Hal _ _ _ He) as Hb.
  assert (Hv : valid_char s) by (unfold valid_char; lia).
  exists s. split; auto. destruct (idx_spec s Hv) as [s' [e' [_ [B C]]]].
  eapply contiguous_unique; eauto. lia.
Qed.

End Idx.
