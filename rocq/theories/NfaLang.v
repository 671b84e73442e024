(** The language of generated NFAs (C02) and when generation panics (C03). *)
From Coq Require Import String List Arith NArith Bool Lia.
From Verif Require Import Base InputModel LexerModel LexerSpec GraphProof AlphabetProof NfaProof.
Import ListNotations.
Open Scope nat_scope.

Section Lang.
Variable al : alphabet.
Hypothesis Hal : contiguous 0%N al (CHAR_MAX + 1)%N.

(** Characters written in [p] are code points with a range of their own. *)
Definition known (p : pattern) : Prop := forall c, mentions c p -> valid_char c /\ In (c, c) al.

Definition lin (s : characters) (i : nat) : Prop :=
  match s with
  | Single c => i = idx al c
  | CRange a b => idx al a <= i <= idx al b
  end.

(** Languages of patterns over alphabet indices. *)
Fixpoint lmatches (p : pattern) : lang nat :=
  match p with
  | PSeq [] => fun _ => False
  | PSeq l => lseq (map lmatches l)
  | PAlt l => lunion (map lmatches l)
  | PRep mn mx q => lrep mn mx (lmatches q)
  | PSet cs neg => fun w => exists i, w = [i] /\ i < length al /\
      (if neg then ~ Exists (fun s => lin s i) cs else Exists (fun s => lin s i) cs)
  | PChar s => fun w => exists i, w = [i] /\ i < length al /\ lin s i
  end.

Definition known_chars (c : characters) : Prop :=
  match c with
  | Single x => valid_char x /\ In (x, x) al
  | CRange a b => (valid_char a /\ In (a, a) al) /\ (valid_char b /\ In (b, b) al)
  end.

Lemma char_indices_spec : forall c, known_chars c ->
  exists l, char_indices al c = Ok (Some l) /\ forall i, In i l <-> lin c i.
Proof.
  intros [x|a b] H; cbn [known_chars char_indices lin] in *.
  - rewrite find_range_idx by tauto. simpl. eexists. split; [reflexivity|]. simpl. intuition.
  - rewrite !find_range_idx by tauto. cbn [bind]. eexists. split; [reflexivity|].
    intros i. rewrite in_seq. split; intros; lia.
Qed.

Lemma lin_lt : forall c i, known_chars c -> lin c i -> i < length al.
Proof.
  intros [x|a b] i H Hi; simpl in *.
  - subst. apply idx_lt; tauto.
  - destruct H as [_ [Hb _]]. pose proof (idx_lt al Hal b Hb). lia.
Qed.

Lemma set_indices_spec : forall cs acc, Forall known_chars cs -> sorted acc ->
  exists l, set_indices al cs acc = Ok (Some l) /\ sorted l /\
    forall i, In i l <-> In i acc \/ Exists (fun s => lin s i) cs.
Proof.
  induction cs as [|c cs IH]; intros acc Hk Hs; simpl.
  - exists acc. repeat split; auto. intros [H|H]; auto. inversion H.
  - inversion Hk; subst. destruct (char_indices_spec c H1) as [l [Hl Hin]]. rewrite Hl. simpl.
    destruct (IH (set_union acc l)) as [l' [Q1 [Q2 Q3]]]; auto.
    { apply set_union_sorted; auto. }
    exists l'. repeat split; auto.
    + intros H. apply Q3 in H. rewrite set_union_In, Hin in H. rewrite Exists_cons. tauto.
    + intros H. apply Q3. rewrite set_union_In, Hin. rewrite Exists_cons in H. tauto.
Qed.

Lemma known_set : forall cs b, known (PSet cs b) -> Forall known_chars cs.
Proof.
  intros cs b H. apply Forall_forall. intros [x|x y] Hin; simpl.
  - apply H. econstructor; eauto.
  - split; apply H.
    + eapply men_set_l; eauto.
    + eapply men_set_r; eauto.
Qed.

Lemma known_char : forall c, known (PChar c) -> known_chars c.
Proof.
  intros [x|x y] H; simpl.
  - apply H. constructor.
  - split; apply H; constructor.
Qed.

Lemma known_seq : forall l, known (PSeq l) -> Forall known l.
Proof.
  intros l H. apply Forall_forall. intros p Hp c Hc. apply H. econstructor; eauto.
Qed.
Lemma known_alt : forall l, known (PAlt l) -> Forall known l.
Proof.
  intros l H. apply Forall_forall. intros p Hp c Hc. apply H. eapply men_alt; eauto.
Qed.
Lemma known_rep : forall mn mx p, known (PRep mn mx p) -> known p.
Proof. intros mn mx p H c Hc. apply H. constructor. auto. Qed.

(** Every part has a word. *)
Definition linh (p : pattern) : Prop := forall q, subpattern q p -> exists w, lmatches q w.

Lemma frag_weaken : forall A (b : @builder A) L (inh inh' : Prop), (inh' -> inh) -> frag al b L inh -> frag al b L inh'.
Proof.
  intros A b L inh inh' Hi Hb s e g g' Hs He Hse H. destruct (Hb s e g g' Hs He Hse H) as [F [H1 H2 H3]].
  exists F. constructor; auto.
Qed.

Lemma Forall2_map_same : forall A B C (R : B -> C -> Prop) (f : A -> B) (h : A -> C) l,
  Forall (fun a => R (f a) (h a)) l -> Forall2 R (map f l) (map h l).
Proof. induction 1; simpl; auto. Qed.

Lemma build_frag : forall A p, known p -> frag al (@build_nfa_from_pattern A al p) (lmatches p) (linh p).
Proof.
  intros A p. induction p as [l IH|l IH|mn mx p IH|cs b|c] using pattern_ind'; intros Hk.
  - destruct l as [|p l].
    + apply frag_none. intros w [].
    + apply frag_ext with (b := fun s e g => do (g', _) <- chain_pattern_iterator (map (build_nfa_from_pattern al) (p :: l)) s e g; Ok g').
      { reflexivity. }
      apply frag_seq.
      * apply Forall2_map_same. apply known_seq in Hk. rewrite Forall_forall in *. intros q Hq.
        eapply frag_weaken; [|apply IH; auto]. intros Hi r Hr. apply Hi. econstructor; eauto.
      * discriminate.
      * intros Hi. apply Forall_forall. intros L HL. apply in_map_iff in HL. destruct HL as [q [<- Hq]].
        apply Hi. econstructor; eauto. constructor.
  - simpl. apply frag_alt.
    + apply Forall2_map_same. apply known_alt in Hk. rewrite Forall_forall in *. intros q Hq.
      eapply frag_weaken; [|apply IH; auto]. intros Hi r Hr. apply Hi. eapply sub_alt; eauto.
    + intros Hi. apply Forall_forall. intros L HL. apply in_map_iff in HL. destruct HL as [q [<- Hq]].
      apply Hi. eapply sub_alt; eauto. constructor.
  - apply known_rep in Hk. specialize (IH Hk).
    assert (IH' : frag al (@build_nfa_from_pattern A al p) (lmatches p) (linh (PRep mn mx p))).
    { eapply frag_weaken; [|exact IH]. intros Hi r Hr. apply Hi. constructor; auto. }
    assert (Hi : linh (PRep mn mx p) -> exists w, lmatches p w).
    { intros Hi. apply Hi. constructor. constructor. }
    simpl. destruct mx as [m|].
    + eapply frag_lang; [apply frag_bounded; eauto|]. intros w. unfold lbetween, lrep. split; intros [k [H1 [H2 H3]]]; exists k; repeat split; auto; lia.
    + destruct mn as [|mn].
      * eapply frag_lang; [apply frag_star; eauto|]. intros w. unfold lge, lrep. split.
        -- intros [k [H1 H2]]; exists k; repeat split; auto; lia.
        -- intros [k [H1 [_ H2]]]; exists k; split; auto; lia.
      * eapply frag_lang; [apply frag_plus; eauto; discriminate|]. intros w. unfold lge, lrep. split.
        -- intros [k [H1 H2]]; exists k; repeat split; auto; lia.
        -- intros [k [H1 [_ H2]]]; exists k; split; auto; lia.
  - apply known_set in Hk.
    destruct (set_indices_spec cs [] Hk (@sorted_nil _ _)) as [l [Hl [Hs Hin]]].
    destruct b.
    + apply frag_ext with (b := fun s e g => Ok (add_all s e (filter (fun i => negb (set_mem i l)) (seq 0 (length al))) g)).
      { intros. simpl. rewrite Hl. reflexivity. }
      assert (Hf : forall i, In i (filter (fun i => negb (set_mem i l)) (seq 0 (length al))) <-> i < length al /\ ~ Exists (fun s => lin s i) cs).
      { intros i. rewrite filter_In, in_seq, negb_true_iff. rewrite <- not_true_iff_false, set_mem_In, Hin by auto. simpl. split.
        - intros [H1 H2]. split; [lia|]. tauto.
        - intros [H1 H2]. split; [lia|]. tauto. }
      eapply frag_lang; [apply frag_all|].
      * intros i Hi. apply Hf in Hi. tauto.
      * intros w. simpl. split.
        -- intros [i [Hi ->]]. apply Hf in Hi. exists i. tauto.
        -- intros [i [-> Hi]]. exists i. rewrite Hf. tauto.
    + apply frag_ext with (b := fun s e g => Ok (add_all s e l g)).
      { intros. simpl. rewrite Hl. reflexivity. }
      assert (Hlt : forall i, In i l -> i < length al).
      { intros i Hi. apply Hin in Hi. destruct Hi as [[]|Hi]. apply Exists_exists in Hi. destruct Hi as [s [H1 H2]].
        rewrite Forall_forall in Hk. eapply lin_lt; eauto. }
      eapply frag_lang; [apply frag_all; auto|].
      intros w. simpl. split.
      * intros [i [Hi ->]]. exists i. repeat split; auto. apply Hin in Hi. destruct Hi as [[]|Hi]; auto.
      * intros [i [-> [_ Hi]]]. exists i. split; auto. apply Hin. auto.
  - apply known_char in Hk. destruct (char_indices_spec c Hk) as [l [Hl Hin]].
    apply frag_ext with (b := fun s e g => Ok (add_all s e l g)).
    { intros. simpl. rewrite Hl. reflexivity. }
    assert (Hlt : forall i, In i l -> i < length al).
    { intros i Hi. apply Hin in Hi. eapply lin_lt; eauto. }
    eapply frag_lang; [apply frag_all; auto|].
    intros w. simpl. split.
    + intros [i [Hi ->]]. exists i. repeat split; auto. apply Hin; auto.
    + intros [i [-> [_ Hi]]]. exists i. split; auto. apply Hin. auto.
Qed.

(** ** From indices to characters *)

Definition vword (w : list N) : Prop := Forall valid_char w.

Lemma map_app_split : forall (w : list N) l1 l2, map (idx al) w = l1 ++ l2 -> vword w ->
  exists w1 w2, w = w1 ++ w2 /\ l1 = map (idx al) w1 /\ l2 = map (idx al) w2 /\ vword w1 /\ vword w2.
Proof.
  intros w l1 l2 H Hv. apply map_eq_app in H. destruct H as [w1 [w2 [-> [<- <-]]]].
  apply Forall_app in Hv. destruct Hv. exists w1, w2. auto.
Qed.

Lemma lcat_map : forall (L M : lang nat) (L' M' : lang N),
  (forall w, vword w -> (L (map (idx al) w) <-> L' w)) -> (forall w, vword w -> (M (map (idx al) w) <-> M' w)) ->
  forall w, vword w -> (lcat L M (map (idx al) w) <-> lcat L' M' w).
Proof.
  intros L M L' M' HL HM w Hv. split.
  - intros [a [b [Hab [H1 H2]]]]. destruct (map_app_split w a b Hab Hv) as [w1 [w2 [-> [-> [-> [V1 V2]]]]]].
    exists w1, w2. repeat split; auto; [apply HL|apply HM]; auto.
  - intros [w1 [w2 [-> [H1 H2]]]]. apply Forall_app in Hv. destruct Hv as [V1 V2].
    exists (map (idx al) w1), (map (idx al) w2). rewrite map_app. repeat split; auto; [apply HL|apply HM]; auto.
Qed.

Lemma nil_map : forall w, (map (idx al) w = [] <-> w = []).
Proof. intros [|a w]; simpl; split; congruence. Qed.

Lemma lseq_map : forall (f : pattern -> lang nat) (h : pattern -> lang N) l,
  Forall (fun p => forall w, vword w -> (f p (map (idx al) w) <-> h p w)) l ->
  forall w, vword w -> (lseq (map f l) (map (idx al) w) <-> lseq (map h l) w).
Proof.
  induction 1 as [|p l Hp Hl IH]; intros w Hv; simpl.
  - apply nil_map.
  - apply lcat_map; auto.
Qed.

Lemma lpow_map : forall (L : lang nat) (L' : lang N),
  (forall w, vword w -> (L (map (idx al) w) <-> L' w)) ->
  forall k w, vword w -> (lpow L k (map (idx al) w) <-> lpow L' k w).
Proof.
  intros L L' H. induction k; intros w Hv; simpl.
  - apply nil_map.
  - apply lcat_map; auto.
Qed.

Lemma lin_in : forall s c, known_chars s -> valid_char c -> (lin s (idx al c) <-> in_characters s c).
Proof.
  intros [x|a b] c Hk Hc; simpl in *.
  - split; [|congruence]. intros H. eapply idx_single; eauto; tauto.
  - symmetry. apply idx_range; tauto.
Qed.

Lemma Exists_lin : forall cs c, Forall known_chars cs -> valid_char c ->
  (Exists (fun s => lin s (idx al c)) cs <-> Exists (fun s => in_characters s c) cs).
Proof.
  intros cs c Hk Hc. rewrite !Exists_exists. rewrite Forall_forall in Hk.
  split; intros [s [H1 H2]]; exists s; (split; [auto|]); apply lin_in; auto.
Qed.

Lemma map_singleton : forall (w : list N) i, map (idx al) w = [i] -> exists c, w = [c] /\ i = idx al c.
Proof.
  intros [|c [|d w]] i H; try discriminate. injection H as <-. eauto.
Qed.

Lemma lmatches_matches : forall p, known p -> forall w, vword w ->
  (lmatches p (map (idx al) w) <-> matches (norm p) w).
Proof.
  induction p as [l IH|l IH|mn mx p IH|cs b|c] using pattern_ind'; intros Hk w Hv.
  - destruct l as [|p l].
    + simpl. tauto.
    + change (lseq (map lmatches (p :: l)) (map (idx al) w) <-> lseq (map matches (map norm (p :: l))) w).
      rewrite map_map. apply lseq_map; auto. apply known_seq in Hk. rewrite Forall_forall in *. auto.
  - simpl. rewrite map_map. apply known_alt in Hk. rewrite !lunion_In. rewrite Forall_forall in *. split.
    + intros [L [HL HLw]]. apply in_map_iff in HL. destruct HL as [q [<- Hq]]. exists (matches (norm q)). split.
      * apply in_map_iff. eauto.
      * apply IH; auto.
    + intros [L [HL HLw]]. apply in_map_iff in HL. destruct HL as [q [<- Hq]]. exists (lmatches q). split.
      * apply in_map_iff. eauto.
      * apply IH; auto.
  - apply known_rep in Hk. simpl. unfold lrep.
    split; intros [k [H1 [H2 H3]]]; exists k; (split; [auto|split; [auto|]]); eapply lpow_map; eauto.
  - apply known_set in Hk. simpl. split.
    + intros [i [Hi [Hlt H]]]. apply map_singleton in Hi. destruct Hi as [c [-> ->]].
      inversion Hv; subst. exists c. split; auto. destruct b; rewrite Exists_lin in H; auto.
    + intros [c [-> H]]. inversion Hv; subst. exists (idx al c). split; auto. split; [apply idx_lt; auto|].
      destruct b; rewrite Exists_lin; auto.
  - apply known_char in Hk. simpl. split.
    + intros [i [Hi [Hlt H]]]. apply map_singleton in Hi. destruct Hi as [x [-> ->]].
      inversion Hv; subst. exists x. split; auto. apply lin_in; auto.
    + intros [x [-> H]]. inversion Hv; subst. exists (idx al x). split; auto. split; [apply idx_lt; auto|]. apply lin_in; auto.
Qed.

Lemma norm_id : forall p, (forall q, subpattern q p -> q <> PSeq []) -> norm p = p.
Proof.
  induction p as [l IH|l IH|mn mx p IH|cs b|c] using pattern_ind'; intros H; auto.
  - destruct l as [|p l]; [exfalso; apply (H (PSeq [])); [constructor|auto]|].
    change (PSeq (map norm (p :: l)) = PSeq (p :: l)). f_equal. rewrite <- (map_id (p :: l)) at 2.
    apply map_ext_in. intros q Hq. rewrite Forall_forall in IH. apply IH; auto.
    intros r Hr. apply H. econstructor; eauto.
  - simpl. f_equal. rewrite <- (map_id l) at 2.
    apply map_ext_in. intros q Hq. rewrite Forall_forall in IH. apply IH; auto.
    intros r Hr. apply H. eapply sub_alt; eauto.
  - simpl. f_equal. apply IH. intros r Hr. apply H. constructor; auto.
Qed.

Lemma subpattern_known : forall q p, subpattern q p -> known p -> known q.
Proof.
  induction 1; intros Hk; auto.
  - apply IHsubpattern. apply known_seq in Hk. rewrite Forall_forall in Hk. auto.
  - apply IHsubpattern. apply known_alt in Hk. rewrite Forall_forall in Hk. auto.
  - apply IHsubpattern. apply known_rep in Hk. auto.
Qed.

Lemma subpattern_trans : forall p q r, subpattern p q -> subpattern q r -> subpattern p r.
Proof.
  intros p q r Hpq Hqr. induction Hqr; auto.
  - eapply sub_seq; eauto.
  - eapply sub_alt; eauto.
  - eapply sub_rep; eauto.
Qed.

Lemma proper_linh : forall p, known p -> proper_pattern p -> linh p.
Proof.
  intros p Hk Hp q Hq. destruct (Hp q Hq) as [Hne [w [Hv Hw]]]. exists (map (idx al) w).
  apply lmatches_matches; auto.
  - eapply subpattern_known; eauto.
  - rewrite norm_id; auto. intros r Hr. apply Hp. eapply subpattern_trans; eauto.
Qed.

End Lang.

(** ** The whole NFA *)

Section Gen.
Variable al : alphabet.
Hypothesis Hal : contiguous 0%N al (CHAR_MAX + 1)%N.

Definition edges_in (E : list (nat * option nat * nat)) (Z : nat -> Prop) (E1 : list (nat * option nat * nat)) : Prop :=
  forall u l v, In (u, l, v) E -> Z u -> In (u, l, v) E1 /\ Z v.

Lemma path_closed : forall E Z E1, edges_in E Z E1 -> forall u w v, path E u w v -> Z u -> path E1 u w v /\ Z v.
Proof.
  intros E Z E1 H u w v Hp. induction Hp; intros Hu.
  - split; [constructor|auto].
  - destruct (H _ _ _ H0 Hu) as [H1 H2]. destruct (IHHp H2). split; auto. econstructor 2; eauto.
  - destruct (H _ _ _ H0 Hu) as [H1 H2]. destruct (IHHp H2). split; auto. econstructor 3; eauto.
Qed.

Record nfa_inv (rules : list token_rule) (g : nfa token_rule) (accs : list nat) : Prop := {
  ni_len : length accs = length rules;
  ni_sorted : sorted accs;
  ni_sz : 0 < sz g;
  ni_acc : forall x a, nth_error (nfa_nodes g) x = Some (Accepting a) <->
             exists i, nth_error accs i = Some x /\ nth_error rules i = Some a;
  ni_edges : forall u l v, In (u, l, v) (nfa_edges g) -> u < sz g /\ v < sz g /\ v <> 0 /\
              match l with Some t => t < length al | None => True end;
  ni_lang : forall i x r, nth_error accs i = Some x -> nth_error rules i = Some r ->
             forall w, path (nfa_edges g) 0 w x <-> lmatches al (rule_pattern r) w;
  ni_co : (forall r, In r rules -> linh al (rule_pattern r)) -> forall x, 0 < x < sz g ->
           exists w y, In y accs /\ path (nfa_edges g) x w y
}.

Lemma nth_error_snoc_inv : forall A (l : list A) a i x, nth_error (l ++ [a]) i = Some x ->
  (i < length l /\ nth_error l i = Some x) \/ (i = length l /\ x = a).
Proof.
  intros A l a i x H. destruct (Nat.lt_ge_cases i (length l)).
  - left. rewrite nth_error_app1 in H; auto.
  - right. rewrite nth_error_app2 in H by lia. destruct (i - length l) eqn:E; simpl in H.
    + injection H as <-. split; auto; lia.
    + destruct n; discriminate.
Qed.

Lemma generate_nfa_rule_inv : forall rules g accs r g',
  nfa_inv rules g accs -> known al (rule_pattern r) -> generate_nfa_rule al 0 g r = Ok g' ->
  exists x, nfa_inv (rules ++ [r]) g' (accs ++ [x]).
Proof.
  intros rules g accs r g' HI Hk H. unfold generate_nfa_rule in H.
  destruct (add_intermediate g) as [g1 rs] eqn:Eg1.
  apply add_intermediate_sz in Eg1. destruct Eg1 as [Z1 [I1 [E1 N1]]].
  unfold add_accepting in H. set (g2 := mkNfa (nfa_nodes g1 ++ [Accepting r]) (nfa_edges g1) (nfa_count g1)) in *.
  set (re := length (nfa_nodes g1)) in *. set (g3 := add_eps 0 rs g2) in *.
  assert (Z3 : sz g3 = S (S (sz g))). { unfold sz in *. simpl. rewrite app_length. simpl. lia. }
  assert (Ire : re = S (sz g)). { unfold re. unfold sz in *. lia. }
  destruct (build_frag al Hal token_rule (rule_pattern r) Hk rs re g3 g') as [F [HX HL HC]]; auto; try lia.
  destruct HI as [I_len I_sorted I_sz I_acc I_edges I_lang I_co].
  pose proof (ext_sz _ _ _ _ _ _ HX) as Z4. destruct HX as [[ns [A1 B1]] C1 D1 T1].
  assert (HN : nfa_nodes g' = (nfa_nodes g ++ [Intermediate (nfa_count g)]) ++ [Accepting r] ++ ns).
  { rewrite A1. simpl. rewrite N1, <- !app_assoc. reflexivity. }
  assert (HE : nfa_edges g' = F ++ (0, None, rs) :: nfa_edges g).
  { rewrite C1. simpl. rewrite E1. reflexivity. }
  exists re.
  assert (Hold : edges_in (nfa_edges g') (fun x => 0 < x < sz g) (nfa_edges g)).
  { intros u l v Hin Hu. rewrite HE, in_app_iff in Hin. destruct Hin as [Hin|[Hin|Hin]].
    - apply D1 in Hin. unfold zone in Hin. lia.
    - injection Hin as <- _ _. lia.
    - split; auto. apply I_edges in Hin. lia. }
  assert (Hnew : edges_in (nfa_edges g') (fun x => sz g <= x) F).
  { intros u l v Hin Hu. rewrite HE, in_app_iff in Hin. destruct Hin as [Hin|[Hin|Hin]].
    - split; auto. apply D1 in Hin. unfold zone in Hin. lia.
    - injection Hin as <- _ _. lia.
    - apply I_edges in Hin. lia. }
  assert (Inc : incl (nfa_edges g) (nfa_edges g')).
  { rewrite HE. intros z Hz. rewrite in_app_iff. simpl. auto. }
  assert (IncF : incl F (nfa_edges g')).
  { rewrite HE. intros z Hz. rewrite in_app_iff. auto. }
  assert (Hto0 : forall u l, ~ In (u, l, 0) (nfa_edges g')).
  { intros u l Hin. rewrite HE, in_app_iff in Hin. destruct Hin as [Hin|[Hin|Hin]].
    - apply D1 in Hin. unfold zone in Hin. lia.
    - injection Hin as _ _ Hin. lia.
    - apply I_edges in Hin. lia. }
  assert (Hno : forall u w v, path (nfa_edges g') u w v -> v = 0 -> u = 0 /\ w = []).
  { intros u w v Hp. induction Hp; intros ->; auto; destruct (IHHp eq_refl); subst; exfalso; eapply Hto0; eauto. }
  assert (Hno0 : forall w, path (nfa_edges g') 0 w 0 -> w = []).
  { intros w Hp. eapply Hno; eauto. }
  assert (Hfrom0 : forall w x, path (nfa_edges g') 0 w x -> x <> 0 ->
            (x < sz g /\ path (nfa_edges g) 0 w x) \/ (sz g <= x /\ path F rs w x)).
  { intros w x Hp Hx.
    assert (X : forall l v w', In (0, l, v) (nfa_edges g') -> path (nfa_edges g') v w' x ->
              (x < sz g /\ In (0, l, v) (nfa_edges g) /\ path (nfa_edges g) v w' x) \/ (sz g <= x /\ l = None /\ path F rs w' x)).
    { intros l v w' Hin Hp'. rewrite HE, in_app_iff in Hin. destruct Hin as [Hin|[Hin|Hin]].
      - apply D1 in Hin. unfold zone in Hin. lia.
      - injection Hin as <- <-. right.
        destruct (path_closed _ _ _ Hnew _ _ _ Hp') as [Q1 Q2]; [lia|]. auto.
      - left. destruct (I_edges _ _ _ Hin) as [_ [Q1 [Q2 _]]].
        destruct (path_closed _ _ _ Hold _ _ _ Hp') as [Q3 Q4]; [lia|]. split; [lia|auto]. }
    inversion Hp; subst; [congruence| |].
    - destruct (X _ _ _ H0 H1) as [[Q1 [Q2 Q3]]|[Q1 [_ Q3]]]; [left|right; auto]. split; auto. econstructor 2; eauto.
    - destruct (X _ _ _ H0 H1) as [[Q1 [Q2 Q3]]|[Q1 [Q2 Q3]]]; [left|discriminate]. split; auto. econstructor 3; eauto. }
  assert (Hacc_lt : forall x i, nth_error accs i = Some x -> 0 < x < sz g \/ x < sz g).
  { intros x i Hi. right. destruct (nth_error_ex _ rules i) as [a Ha].
    { rewrite <- I_len. eapply nth_error_lt; eauto. }
    assert (Y : nth_error (nfa_nodes g) x = Some (Accepting a)) by (apply I_acc; eauto).
    apply nth_error_lt in Y. exact Y. }
  constructor.
  - rewrite !app_length. simpl. lia.
  - apply sorted_app; auto.
    + constructor; [constructor|intros b []].
    + intros a b Ha [<-|[]]. apply In_nth_error in Ha. destruct Ha as [i Hi].
      unfold ltc. simpl. apply Nat.compare_lt_iff. specialize (Hacc_lt _ _ Hi). lia.
  - lia.
  - intros x a. rewrite HN. rewrite <- app_assoc. split.
    + intros Hx. destruct (Nat.lt_ge_cases x (sz g)).
      * rewrite nth_error_app1 in Hx by exact H0. apply I_acc in Hx. destruct Hx as [i [Q1 Q2]].
        exists i. split; apply nth_error_app_l; auto.
      * rewrite nth_error_app2 in Hx by exact H0. fold (sz g) in Hx. change (length (nfa_nodes g)) with (sz g) in Hx.
        destruct (x - sz g) as [|[|k]] eqn:Ek; simpl in Hx.
        -- discriminate.
        -- injection Hx as <-. assert (x = re) by lia. subst x. exists (length accs). split.
           ++ apply nth_error_snoc.
           ++ rewrite I_len. apply nth_error_snoc.
        -- apply nth_error_In in Hx. rewrite Forall_forall in B1. apply B1 in Hx. destruct Hx. discriminate.
    + intros [i [Q1 Q2]]. apply nth_error_snoc_inv in Q1. apply nth_error_snoc_inv in Q2.
      destruct Q1 as [[Q1 Q1']|[Q1 ->]]; destruct Q2 as [[Q2 Q2']|[Q2 ->]]; try lia.
      * apply nth_error_app_l. apply I_acc. eauto.
      * rewrite nth_error_app2; [|unfold sz in *; lia]. change (length (nfa_nodes g)) with (sz g).
        replace (re - sz g) with 1 by lia. reflexivity.
  - intros u l v Hin. rewrite HE, in_app_iff in Hin. destruct Hin as [Hin|[Hin|Hin]].
    + pose proof (D1 _ _ _ Hin) as Q. unfold zone in Q. repeat split; try lia. destruct l; auto. eapply T1; eauto.
    + injection Hin as <- <- <-. repeat split; lia.
    + apply I_edges in Hin. destruct Hin as [Q1 [Q2 [Q3 Q4]]]. repeat split; auto; lia.
  - intros i x r' Q1 Q2 w. apply nth_error_snoc_inv in Q1. apply nth_error_snoc_inv in Q2.
    destruct Q1 as [[Q1 Q1']|[Q1 ->]]; destruct Q2 as [[Q2 Q2']|[Q2 ->]]; try lia.
    + rewrite <- (I_lang _ _ _ Q1' Q2'). split.
      * intros Hp. assert (Hlt : x < sz g) by (specialize (Hacc_lt _ _ Q1'); lia).
        destruct (Nat.eq_dec x 0) as [->|Hx].
        -- apply Hno0 in Hp. subst w. constructor.
        -- destruct (Hfrom0 _ _ Hp Hx) as [[_ Q]|[Q _]]; [auto|lia].
      * intros Hp. eapply path_incl; [exact Inc|exact Hp].
    + rewrite <- HL. split.
      * intros Hp. destruct (Hfrom0 _ _ Hp) as [[Q _]|[_ Q]]; [lia|lia|]. apply path_gpath in Q. exact Q.
      * intros Hp. apply path_gpath in Hp. econstructor 2; [|eapply path_incl; [exact IncF|exact Hp]].
        rewrite HE, in_app_iff. right. left. reflexivity.
  - intros Hl x Hx. destruct (Nat.lt_ge_cases x (sz g)).
    + destruct I_co with (x := x) as [w [y [Q1 Q2]]]; [|lia|].
      * intros q Hq. apply Hl. apply in_or_app; auto.
      * exists w, y. split; [apply in_or_app; auto|]. eapply path_incl; [exact Inc|exact Q2].
    + assert (Hlr : linh al (rule_pattern r)). { apply Hl. apply in_or_app. right. left. auto. }
      assert (Q : exists w, gpath (map gen F) x w re).
      { destruct (Nat.lt_ge_cases x (sz g3)).
        - destruct (Nat.eq_dec x rs) as [->|].
          + destruct (Hlr (rule_pattern r)) as [w Hw]; [constructor|]. exists w. apply HL. auto.
          + assert (x = re) by lia. subst x. exists []. constructor.
        - apply HC; auto. unfold zone. lia. }
      destruct Q as [w Q]. exists w, re. split; [apply in_or_app; right; left; auto|].
      apply path_gpath in Q. eapply path_incl; [exact IncF|exact Q].
Qed.

Lemma generate_nfa_spec : forall rules start g,
  (forall r, In r rules -> known al (rule_pattern r)) ->
  generate_nfa al rules = Ok (start, g) ->
  start = 0 /\ exists accs, nfa_inv rules g accs.
Proof.
  intros rules start g Hk H. unfold generate_nfa in H. simpl in H. inv_bind H. injection H as <- <-.
  split; auto.
  eapply (foldM_inv _ _ _ (generate_nfa_rule al 0) (fun done g => exists accs, nfa_inv done g accs)) in Hb; auto.
  - exists []. constructor; auto.
    + constructor.
    + intros x b. split.
      * intros Hx. destruct x as [|[|x]]; discriminate.
      * intros [[|i] [Q _]]; discriminate.
    + intros u l v [].
    + intros [|i] x r Q; discriminate.
    + intros _ x Hx. unfold sz in Hx. simpl in Hx. lia.
  - intros done r rest s1 s2 -> [accs HI] Hstep.
    destruct (generate_nfa_rule_inv done s1 accs r s2) as [x Hx]; eauto.
    apply Hk. apply in_or_app. right. left. auto.
Qed.

End Gen.

(** ** When generation panics *)

Section Total.
Variable al : alphabet.
Hypothesis Hal : contiguous 0%N al (CHAR_MAX + 1)%N.
Context {A : Type}.

Definition always_ok (b : @builder A) : Prop := forall s e g, exists g', b s e g = Ok g'.
Definition always_panic (b : @builder A) : Prop := forall s e g, b s e g = Panic.
Definition uniform (b : @builder A) : Prop := always_ok b \/ always_panic b.

Lemma chain_go_ok : forall bs, Forall always_ok bs -> forall s e g i, exists r, @chain_go A bs s e g i = Ok r.
Proof.
  induction 1 as [|b bs Hb Hbs IH]; intros s e g i; [simpl; eauto|].
  destruct bs as [|b' bs].
  - simpl. destruct (Hb s e g) as [g' ->]. simpl. eauto.
  - cbn [chain_go]. destruct (add_intermediate g) as [g1 m]. destruct (Hb s m g1) as [g2 ->]. apply IH.
Qed.

Lemma chain_go_panic : forall bs, Forall uniform bs -> Exists always_panic bs ->
  forall s e g i, @chain_go A bs s e g i = Panic.
Proof.
  induction 1 as [|b bs Hb Hbs IH]; intros Hex s e g i; [inversion Hex|].
  destruct Hb as [Hb|Hb].
  - assert (Hr : Exists always_panic bs).
    { inversion Hex; subst; auto. destruct (Hb 0 0 nfa_new) as [x Hx]. rewrite H0 in Hx. discriminate. }
    destruct bs as [|b' bs]; [inversion Hr|].
    cbn [chain_go]. destruct (add_intermediate g) as [g1 m]. destruct (Hb s m g1) as [g2 ->]. apply IH; auto.
  - destruct bs as [|b' bs].
    + simpl. rewrite Hb. auto.
    + cbn [chain_go]. destruct (add_intermediate g) as [g1 m]. rewrite Hb. auto.
Qed.

Lemma alternatives_ok : forall bs, Forall always_ok bs -> forall s e g, exists g', @build_alternatives A bs s e g = Ok g'.
Proof.
  induction 1 as [|b bs Hb Hbs IH]; intros s e g; [simpl; eauto|].
  cbn [build_alternatives]. destruct (add_intermediate g) as [g1 x]. destruct (add_intermediate g1) as [g2 y].
  destruct (Hb x y g2) as [g3 ->]. apply IH.
Qed.

Lemma alternatives_panic : forall bs, Forall uniform bs -> Exists always_panic bs ->
  forall s e g, @build_alternatives A bs s e g = Panic.
Proof.
  induction 1 as [|b bs Hb Hbs IH]; intros Hex s e g; [inversion Hex|].
  cbn [build_alternatives]. destruct (add_intermediate g) as [g1 x]. destruct (add_intermediate g1) as [g2 y].
  destruct Hb as [Hb|Hb].
  - destruct (Hb x y g2) as [g3 ->]. apply IH.
    inversion Hex; subst; auto. destruct (Hb 0 0 nfa_new) as [z Hz]. rewrite H0 in Hz. discriminate.
  - rewrite Hb. auto.
Qed.

Lemma times_ok : forall n b, n <> 0 -> always_ok b -> forall s e g, exists r, @chain_pattern_times A n b s e g = Ok r.
Proof.
  intros [|n] b Hn Hb s e g; [congruence|]. unfold chain_pattern_times, chain_pattern_iterator.
  apply chain_go_ok. apply Forall_repeat'; auto.
Qed.

Lemma times_panic : forall n b, n = 0 \/ always_panic b -> forall s e g, @chain_pattern_times A n b s e g = Panic.
Proof.
  intros [|n] b Hn s e g; [reflexivity|]. destruct Hn as [|Hn]; [discriminate|].
  unfold chain_pattern_times, chain_pattern_iterator.
  apply chain_go_panic.
  - apply Forall_repeat'. right. auto.
  - left. auto.
Qed.

Lemma repetition_ok : forall mn mx b, always_ok b -> match mx with Some m => (mn < m)%N | None => True end ->
  forall s e g, exists g', @build_repetition A mn mx b s e g = Ok g'.
Proof.
  intros mn mx b Hb Hm s e g. unfold build_repetition.
  destruct (add_intermediate g) as [g1 x]. destruct (add_intermediate g1) as [g2 y].
  destruct mx as [m|].
  - match goal with |- exists g', match mn with 0%N => ?X | N.pos _ => _ end = _ => assert (H : exists g', X = Ok g'); [|destruct mn; exact H] end.
    assert (Hr : exists r, (if (mn =? 0)%N then Ok (add_eps x y (add_eps s x g2), [])
       else chain_pattern_times (N.to_nat mn) b x y (add_eps s x g2)) = Ok r).
    { destruct (N.eqb_spec mn 0); [eauto|]. apply times_ok; auto. lia. }
    destruct Hr as [[g4 i] ->]. cbn [bind]. destruct (N.ltb_spec m mn); [lia|].
    destruct (add_intermediate g4) as [g5 ms]. destruct (add_intermediate (add_eps y ms g5)) as [g7 me].
    destruct (times_ok (N.to_nat (m - mn)) b) with (s := ms) (e := me) (g := g7) as [[g8 j] ->]; auto; [lia|].
    cbn [bind]. eauto.
  - destruct mn as [|mn].
    + destruct (Hb x y (add_eps s x g2)) as [g4 ->]. cbn [bind]. eauto.
    + change (N.pos mn =? 0)%N with false. cbv iota.
      destruct (times_ok (N.to_nat (N.pos mn)) b) with (s := x) (e := y) (g := add_eps s x g2) as [[g8 j] ->]; auto; [lia|].
      cbn [bind]. eauto.
Qed.

Lemma repetition_panic : forall mn mx b,
  always_panic b \/ (always_ok b /\ exists m, mx = Some m /\ (m <= mn)%N) ->
  forall s e g, @build_repetition A mn mx b s e g = Panic.
Proof.
  intros mn mx b Hb s e g. unfold build_repetition.
  destruct (add_intermediate g) as [g1 x]. destruct (add_intermediate g1) as [g2 y].
  destruct mx as [m|].
  - match goal with |- match mn with 0%N => ?X | N.pos _ => _ end = _ => assert (H : X = Panic); [|destruct mn; exact H] end.
    assert (Hr : (exists r, (if (mn =? 0)%N then Ok (add_eps x y (add_eps s x g2), [])
       else chain_pattern_times (N.to_nat mn) b x y (add_eps s x g2)) = Ok r) \/ (if (mn =? 0)%N then Ok (add_eps x y (add_eps s x g2), [])
       else chain_pattern_times (N.to_nat mn) b x y (add_eps s x g2)) = Panic).
    { destruct (N.eqb_spec mn 0); [eauto|]. destruct Hb as [Hb|[Hb _]].
      - right. apply times_panic; auto.
      - left. apply times_ok; auto. lia. }
    destruct Hr as [[[g4 i] ->]| ->]; [|reflexivity]. cbn [bind]. destruct (N.ltb_spec m mn); [reflexivity|].
    destruct (add_intermediate g4) as [g5 ms]. destruct (add_intermediate (add_eps y ms g5)) as [g7 me].
    rewrite times_panic; [reflexivity|]. destruct Hb as [Hb|[_ [m' [Em Hm]]]]; [auto|]. injection Em as <-. left. lia.
  - destruct Hb as [Hb|[_ [m [Hm _]]]]; [|discriminate]. destruct mn as [|mn].
    + rewrite Hb. reflexivity.
    + change (N.pos mn =? 0)%N with false. cbv iota. rewrite times_panic; auto.
Qed.

Lemma all_or_bad : forall (l : list pattern), Forall (fun p => (bad_repetition p /\ always_panic (build_nfa_from_pattern al p)) \/
   (~ bad_repetition p /\ always_ok (build_nfa_from_pattern al p))) l ->
  Forall uniform (map (build_nfa_from_pattern al) l) /\
  ((Exists bad_repetition l /\ Exists always_panic (map (build_nfa_from_pattern al) l)) \/
   (~ Exists bad_repetition l /\ Forall always_ok (map (build_nfa_from_pattern al) l))).
Proof.
  induction 1 as [|p l Hp Hl [IH1 IH2]]; simpl.
  - split; auto. right. split; auto. intros H; inversion H.
  - split.
    + constructor; auto. unfold uniform. tauto.
    + destruct Hp as [[H1 H2]|[H1 H2]].
      * left. split; left; auto.
      * destruct IH2 as [[H3 H4]|[H3 H4]].
        -- left. split; right; auto.
        -- right. split; auto. intros H. inversion H; subst; auto.
Qed.

Lemma build_total : forall p, known al p ->
  (bad_repetition p /\ always_panic (build_nfa_from_pattern al p)) \/
  (~ bad_repetition p /\ always_ok (build_nfa_from_pattern al p)).
Proof.
  induction p as [l IH|l IH|mn mx p IH|cs b|c] using pattern_ind'; intros Hk.
  - assert (IH' := all_or_bad l). destruct IH' as [HU IH'].
    { apply known_seq in Hk. rewrite Forall_forall in *. auto. }
    assert (Hsub : bad_repetition (PSeq l) <-> Exists bad_repetition l).
    { rewrite Exists_exists. split.
      - intros [mn [m [q [H1 H2]]]]. inversion H1; subst. exists p. split; auto. exists mn, m, q. auto.
      - intros [p [Hp [mn [m [q [H1 H2]]]]]]. exists mn, m, q. split; auto. econstructor; eauto. }
    destruct l as [|p l].
    + right. rewrite Hsub. split; [intros H; inversion H|]. intros s e g. simpl. eauto.
    + rewrite Hsub. destruct IH' as [[H1 H2]|[H1 H2]]; [left|right]; (split; [auto|]).
      * intros s e g. cbn [build_nfa_from_pattern]. unfold chain_pattern_iterator.
        change (map (build_nfa_from_pattern al) (p :: l)) with (build_nfa_from_pattern (A := A) al p :: map (build_nfa_from_pattern al) l) in *.
        cbv iota. rewrite chain_go_panic; auto.
      * intros s e g. cbn [build_nfa_from_pattern]. unfold chain_pattern_iterator.
        change (map (build_nfa_from_pattern al) (p :: l)) with (build_nfa_from_pattern (A := A) al p :: map (build_nfa_from_pattern al) l) in *.
        cbv iota. destruct (chain_go_ok _ H2 s e g []) as [[g' i] ->]. simpl. eauto.
  - assert (IH' := all_or_bad l). destruct IH' as [HU IH'].
    { apply known_alt in Hk. rewrite Forall_forall in *. auto. }
    assert (Hsub : bad_repetition (PAlt l) <-> Exists bad_repetition l).
    { rewrite Exists_exists. split.
      - intros [mn [m [q [H1 H2]]]]. inversion H1; subst. exists p. split; auto. exists mn, m, q. auto.
      - intros [p [Hp [mn [m [q [H1 H2]]]]]]. exists mn, m, q. split; auto. eapply sub_alt; eauto. }
    rewrite Hsub. destruct IH' as [[H1 H2]|[H1 H2]]; [left|right]; (split; [auto|]).
    + intros s e g. simpl. apply alternatives_panic; auto.
    + intros s e g. simpl. apply alternatives_ok; auto.
  - specialize (IH (known_rep _ _ _ _ Hk)). destruct IH as [[H1 H2]|[H1 H2]].
    + left. split.
      * destruct H1 as [a [m [q [H1 H3]]]]. exists a, m, q. split; auto. constructor. auto.
      * intros s e g. simpl. apply repetition_panic. auto.
    + assert (D : (exists m, mx = Some m /\ (m <= mn)%N) \/ match mx with Some m => (mn < m)%N | None => True end).
      { destruct mx as [m|]; auto. destruct (N.le_gt_cases m mn); eauto. }
      destruct D as [D|D].
      * left. split.
        -- destruct D as [m [-> D]]. exists mn, m, p. split; auto. constructor.
        -- intros s e g. simpl. apply repetition_panic. auto.
      * right. split.
        -- intros [a [m [q [Hs Hm]]]]. inversion Hs; subst.
           ++ lia.
           ++ apply H1. exists a, m, q. auto.
        -- intros s e g. simpl. apply repetition_ok; auto.
  - right. split; [intros [a [m [q [Hs Hm]]]]; inversion Hs|].
    apply known_set in Hk. destruct (set_indices_spec al Hal cs [] Hk (@sorted_nil _ _)) as [l [Hl _]].
    intros s e g. simpl. rewrite Hl. simpl. destruct b; eauto.
  - right. split; [intros [a [m [q [Hs Hm]]]]; inversion Hs|].
    apply known_char in Hk. destruct (char_indices_spec al Hal c Hk) as [l [Hl _]].
    intros s e g. simpl. rewrite Hl. simpl. eauto.
Qed.

End Total.

Lemma generate_nfa_total : forall al rules, contiguous 0%N al (CHAR_MAX + 1)%N ->
  (forall r, In r rules -> known al (rule_pattern r)) ->
  (Exists (fun r => bad_repetition (rule_pattern r)) rules /\ generate_nfa al rules = Panic) \/
  (~ Exists (fun r => bad_repetition (rule_pattern r)) rules /\ exists r, generate_nfa al rules = Ok r).
Proof.
  intros al rules Hal Hk. unfold generate_nfa. cbn [add_intermediate].
  assert (X : forall rules, (forall r, In r rules -> known al (rule_pattern r)) -> forall g start,
    (Exists (fun r => bad_repetition (rule_pattern r)) rules /\ foldM (generate_nfa_rule al start) rules g = Panic) \/
    (~ Exists (fun r => bad_repetition (rule_pattern r)) rules /\ exists r, foldM (generate_nfa_rule al start) rules g = Ok r)).
  { clear rules Hk. induction rules as [|r rules IH]; intros Hk g start.
    - right. split; [intros H; inversion H|]. simpl. eauto.
    - cbn [foldM]. destruct (@build_total al Hal token_rule (rule_pattern r)) as [[H1 H2]|[H1 H2]].
      + apply Hk. left. auto.
      + left. split; [left; auto|]. unfold generate_nfa_rule.
        destruct (add_intermediate g) as [g1 rs]. destruct (add_accepting g1 r) as [g2 re]. rewrite H2. reflexivity.
      + assert (Q : exists g', generate_nfa_rule al start g r = Ok g').
        { unfold generate_nfa_rule. destruct (add_intermediate g) as [g1 rs]. destruct (add_accepting g1 r) as [g2 re]. apply H2. }
        destruct Q as [g' ->]. cbn [bind]. destruct (IH (fun r Hr => Hk r (or_intror Hr)) g' start) as [[H3 H4]|[H3 H4]].
        * left. split; auto.
        * right. split; auto. intros H. inversion H; subst; auto. }
  destruct (X rules Hk (fst (add_intermediate nfa_new)) 0) as [[H1 H2]|[H1 [g H2]]]; [left|right]; (split; [auto|]);
    change (length (nfa_nodes nfa_new)) with 0; unfold add_intermediate in H2; cbn [fst] in H2; rewrite H2; simpl; eauto.
Qed.
