(** Expansion of EBNF operators into rules, and the language of the resulting grammar. *)
From Coq Require Import String List Arith NArith Bool Lia.
From Verif Require Import Base InputModel GrammarModel GrammarSpec GrammarNamesProof.
Import ListNotations.

(** ** What the rules of a pattern look like in the final grammar *)

Definition rhs_of (R : list rule) (i : N) (be : list symbol) : Prop :=
  exists r, In r R /\ r_lhs r = Some i /\ r_rhs r = be.

Lemma rhs_of_app : forall R R' i be, rhs_of (R ++ R') i be <-> rhs_of R i be \/ rhs_of R' i be.
Proof.
  intros. unfold rhs_of. split.
  - intros (r & Hin & H). apply in_app_or in Hin. destruct Hin; [left|right]; exists r; auto.
  - intros [(r & Hin & H)|(r & Hin & H)]; exists r; (split; [apply in_or_app; auto|auto]).
Qed.
Lemma rhs_of_single : forall i0 al p i be, rhs_of [mkRule (Some i0) al p] i be <-> i = i0 /\ be = al.
Proof.
  intros. unfold rhs_of. split.
  - intros (r & [<-|[]] & H1 & H2). simpl in *. split; congruence.
  - intros [-> ->]. exists (mkRule (Some i0) al p). simpl. auto.
Qed.

Definition pred_app {A} (P : A -> Prop) (a : A) : Prop := P a.

Fixpoint compiled (R : list rule) (lk : string -> option symbol) (p : prod_pattern) (al : list symbol) {struct p} : Prop :=
  match p with
  | QSeq l => exists als, Forall2 pred_app (map (compiled R lk) l) als /\ al = concat als
  | QAlt l => exists i als, al = [NonTerminal i] /\ Forall2 pred_app (map (compiled R lk) l) als /\
      forall be, rhs_of R i be <-> In be als
  | QPlus q => exists i a, al = [NonTerminal i] /\ compiled R lk q a /\
      forall be, rhs_of R i be <-> be = a \/ be = a ++ [NonTerminal i]
  | QStar q => exists i a, al = [NonTerminal i] /\ compiled R lk q a /\
      forall be, rhs_of R i be <-> be = [Epsilon] \/ be = a ++ [NonTerminal i]
  | QOpt q => exists i a, al = [NonTerminal i] /\ compiled R lk q a /\
      forall be, rhs_of R i be <-> be = a \/ be = [Epsilon]
  | QRule n => exists s, lk n = Some s /\ al = [s]
  | QEps => al = [Epsilon]
  end.

(** ** Builder steps *)

Definition lk (b : builder) (n : string) : option symbol := map_get n (b_symbols b).

Definition same_tables (b b' : builder) : Prop :=
  b_symbols b' = b_symbols b /\ b_max b' = b_max b /\ b_tokens b' = b_tokens b /\ b_prods b' = b_prods b.

Lemma same_refl : forall b, same_tables b b.
Proof. intros b. unfold same_tables. auto. Qed.
Lemma same_trans : forall a b c, same_tables a b -> same_tables b c -> same_tables a c.
Proof. intros a b c (?&?&?&?) (?&?&?&?). unfold same_tables. repeat split; congruence. Qed.

Record binv (b : builder) : Prop := {
  bi_nodup : NoDup (b_anon b);
  bi_anon : forall s, In s (b_anon b) <-> exists i, s = NonTerminal i /\ (b_max b < i <= b_max b + b_temp b)%N;
  bi_u16 : (b_max b + b_temp b <= 65535)%N
}.

(** [b'] arises from [b] by adding [new]; [k] anonymous non-terminals were created. *)
Record step (b b' : builder) (new : list rule) (k : N) : Prop := {
  sp_same : same_tables b b';
  sp_rules : b_rules b' = b_rules b ++ new;
  sp_temp : b_temp b' = (b_temp b + k)%N;
  sp_inv : binv b'
}.

(** Index range of the non-terminals created. *)
Definition created (b : builder) (k : N) (i : N) : Prop :=
  (b_max b + b_temp b < i <= b_max b + b_temp b + k)%N.

Lemma get_temp_ok : forall b, binv b ->
  match get_temp_symbol b with
  | Ok (s, b') => s = NonTerminal (b_max b + b_temp b + 1) /\ step b b' [] 1
  | Err _ => False
  | Panic => (b_max b + b_temp b + 1 > 65535)%N
  | OutOfFuel => False
  end.
Proof.
  intros b [Hnd Han Hu]. unfold get_temp_symbol, add_u16.
  destruct (b_temp b + b_max b <? 65536)%N eqn:E1; cbn [bind]; [|apply N.ltb_ge in E1; lia].
  destruct (b_temp b + b_max b + 1 <? 65536)%N eqn:E2; cbn [bind]; [|apply N.ltb_ge in E2; lia].
  apply N.ltb_lt in E1, E2.
  destruct (b_temp b + 1 <? 65536)%N eqn:E3; cbn [bind]; [|apply N.ltb_ge in E3; lia].
  split; [f_equal; lia|]. constructor; simpl; auto.
  - unfold same_tables; auto.
  - rewrite app_nil_r; auto.
  - constructor; simpl.
    + apply NoDup_app_intro; auto; [repeat constructor; intros []|].
      intros s Hs [<-|[]]. apply Han in Hs. destruct Hs as (i & Hi & ?). injection Hi as <-. lia.
    + intros s. rewrite in_app_iff, Han. simpl. split.
      * intros [(i & -> & ?)|[<-|[]]]; eexists; (split; [reflexivity|lia]).
      * intros (i & -> & Hi). destruct (N.eq_dec i (b_temp b + b_max b + 1)) as [->|Hne]; auto.
        left. exists i. split; auto. lia.
    + lia.
Qed.

Lemma push_ok : forall b i al p, binv b ->
  exists b', push_rule b (NonTerminal i) al p = Ok b' /\ step b b' [mkRule (Some i) al p] 0.
Proof.
  intros b i al p Hb. unfold push_rule, rule_new. cbn [bind]. eexists. split; [reflexivity|].
  constructor; simpl; auto.
  - unfold same_tables; auto.
  - lia.
  - destruct Hb. constructor; simpl; auto.
Qed.

Lemma step_trans : forall a b c n1 n2 k1 k2, step a b n1 k1 -> step b c n2 k2 -> step a c (n1 ++ n2) (k1 + k2).
Proof.
  intros a b c n1 n2 k1 k2 [S1 R1 T1 I1] [S2 R2 T2 I2]. constructor; auto.
  - eapply same_trans; eauto.
  - rewrite R2, R1, app_assoc. auto.
  - lia.
Qed.

Lemma step_max : forall a b n k, step a b n k -> b_max b = b_max a.
Proof. intros a b n k [(_&H&_) _ _ _]. auto. Qed.
Lemma step_lk : forall a b n k x, step a b n k -> lk b x = lk a x.
Proof. intros a b n k x [(H&_) _ _ _]. unfold lk. rewrite H. auto. Qed.

(** Outcome of translating [p] starting from [b]. *)
Definition transform_spec (p : prod_pattern) (b : builder) (r : res grammar_error (list symbol * builder)) : Prop :=
  match r with
  | Ok (al, b') =>
    (forall n, mentions p n -> lk b n <> None) /\
    exists new, step b b' new (operators p) /\
      (forall r, In r new -> exists i, r_lhs r = Some i /\ created b (operators p) i) /\
      (forall s, In s al -> s = Epsilon \/ (exists i, s = NonTerminal i /\ created b (operators p) i) \/ exists n, lk b n = Some s) /\
      (forall r s, In r new -> In s (r_rhs r) ->
         s = Epsilon \/ (exists i, s = NonTerminal i /\ created b (operators p) i) \/ exists n, lk b n = Some s) /\
      (forall R, (forall i be, created b (operators p) i -> (rhs_of R i be <-> rhs_of new i be)) -> compiled R (lk b) p al)
  | Err e => exists n, e = MissingSymbol n /\ mentions p n /\ lk b n = None
  | Panic => (b_max b + b_temp b + operators p > 65535)%N
  | OutOfFuel => False
  end.

Definition seq_ops (l : list prod_pattern) : N := fold_right N.add 0%N (map operators l).
Definition seq_mentions (l : list prod_pattern) (n : string) : Prop := fold_right or False (map (fun q => mentions q n) l).

Definition good_sym (b : builder) (k : N) (s : symbol) : Prop :=
  s = Epsilon \/ (exists i, s = NonTerminal i /\ created b k i) \/ exists n, lk b n = Some s.

Lemma created_le : forall b k k' i, (k <= k')%N -> created b k i -> created b k' i.
Proof. unfold created. intros. lia. Qed.
Lemma created_shift : forall b b' n k k' i, step b b' n k -> created b' k' i -> created b (k + k') i.
Proof. unfold created. intros b b' n k k' i H. rewrite (step_max _ _ _ _ H), (sp_temp _ _ _ _ H). lia. Qed.
Lemma good_le : forall b k k' s, (k <= k')%N -> good_sym b k s -> good_sym b k' s.
Proof. intros b k k' s Hle [H|[(i & H & C)|H]]; [left|right; left|right; right]; auto. exists i; split; auto. eapply created_le; eauto. Qed.
Lemma good_shift : forall b b' n k k' s, step b b' n k -> good_sym b' k' s -> good_sym b (k + k') s.
Proof.
  intros b b' n k k' s Hs [H|[(i & H & C)|[x H]]]; [left|right; left|right; right]; auto.
  - exists i; split; auto. eapply created_shift; eauto.
  - exists x. rewrite <- H. symmetry. eapply step_lk; eauto.
Qed.

Lemma rhs_of_none : forall new i be, (forall r, In r new -> r_lhs r <> Some i) -> ~ rhs_of new i be.
Proof. intros new i be H (r & Hin & Hl & _). apply (H r Hin Hl). Qed.

Lemma compiled_ext : forall R lk1 lk2, (forall n, lk1 n = lk2 n) -> forall p al, compiled R lk1 p al -> compiled R lk2 p al.
Proof.
  intros R lk1 lk2 E. induction p as [l IH|l IH|q IH|q IH|q IH|n|] using prod_pattern_ind'; intros al H; simpl in *; auto.
  - destruct H as (als & H & ->). exists als. split; auto. clear - IH H. revert als H.
    induction l as [|p l IHl]; intros als H; simpl in *; inversion H as [|? a ? als' Ha Hl]; subst; constructor.
    + inversion IH; subst. apply H2. exact Ha.
    + inversion IH; subst. apply IHl; auto.
  - destruct H as (i & als & -> & H & Hr). exists i, als. split; auto. split; auto. clear - IH H. revert als H.
    induction l as [|p l IHl]; intros als H; simpl in *; inversion H as [|? a ? als' Ha Hl]; subst; constructor.
    + inversion IH; subst. apply H2. exact Ha.
    + inversion IH; subst. apply IHl; auto.
  - destruct H as (i & a & H1 & H2 & H3). exists i, a. auto.
  - destruct H as (i & a & H1 & H2 & H3). exists i, a. auto.
  - destruct H as (i & a & H1 & H2 & H3). exists i, a. auto.
  - destruct H as (s & H1 & H2). exists s. rewrite <- E. auto.
Qed.

(** Sequences. *)
Lemma transform_seq_ok : forall parent l, Forall (fun p => forall b, binv b -> transform_spec p b (transform_pattern parent p b)) l ->
  forall b, binv b ->
  match transform_seq (map (transform_pattern parent) l) b with
  | Ok (al, b') =>
    (forall n, seq_mentions l n -> lk b n <> None) /\
    exists new, step b b' new (seq_ops l) /\
      (forall r, In r new -> exists i, r_lhs r = Some i /\ created b (seq_ops l) i) /\
      (forall s, In s al -> good_sym b (seq_ops l) s) /\
      (forall r s, In r new -> In s (r_rhs r) -> good_sym b (seq_ops l) s) /\
      (forall R, (forall i be, created b (seq_ops l) i -> (rhs_of R i be <-> rhs_of new i be)) ->
         exists als, Forall2 pred_app (map (compiled R (lk b)) l) als /\ al = concat als)
  | Err e => exists n, e = MissingSymbol n /\ seq_mentions l n /\ lk b n = None
  | Panic => (b_max b + b_temp b + seq_ops l > 65535)%N
  | OutOfFuel => False
  end.
Proof.
  intros parent l Hl. induction Hl as [|p l Hp Hl IH]; intros b Hb; cbn [map transform_seq].
  - split; [intros n []|]. exists []. split.
    { constructor; simpl; auto using same_refl, app_nil_r; unfold seq_ops; simpl; lia || (symmetry; apply app_nil_r). }
    split; [intros r []|]. split; [intros s []|]. split; [intros r s []|].
    intros R _. exists []. split; [constructor|reflexivity].
  - pose proof (Hp b Hb) as H. unfold transform_spec in H.
    destruct (transform_pattern parent p b) as [[al1 b1]|e| |]; cbn [bind].
    + destruct H as (Hm1 & new1 & S1 & L1 & G1 & GR1 & C1).
      pose proof (IH b1 (sp_inv _ _ _ _ S1)) as H2.
      destruct (transform_seq (map (transform_pattern parent) l) b1) as [[al2 b2]|e| |]; cbn [bind].
      * destruct H2 as (Hm2 & new2 & S2 & L2 & G2 & GR2 & C2).
        change (seq_ops (p :: l)) with (operators p + seq_ops l)%N.
        split.
        { intros n [Hn|Hn]; auto. rewrite <- (step_lk _ _ _ _ n S1). auto. }
        exists (new1 ++ new2). split; [eapply step_trans; eauto|]. split.
        { intros r Hr. apply in_app_or in Hr. destruct Hr as [Hr|Hr].
          - destruct (L1 r Hr) as (i & Hi & Hc). exists i. split; auto. eapply created_le; [|eauto]. lia.
          - destruct (L2 r Hr) as (i & Hi & Hc). exists i. split; auto. eapply created_shift; eauto. }
        split.
        { intros s Hs. apply in_app_or in Hs. destruct Hs as [Hs|Hs].
          - eapply good_le; [|apply G1; auto]. lia.
          - eapply good_shift; [exact S1|]. apply G2; auto. }
        split.
        { intros r s Hr Hs. apply in_app_or in Hr. destruct Hr as [Hr|Hr].
          - eapply good_le; [|eapply GR1; eauto]. lia.
          - eapply good_shift; [eassumption|]. eapply GR2; eauto. }
        { intros R HR.
          assert (X1 : compiled R (lk b) p al1).
          { apply C1. intros i be Hi. rewrite HR by (eapply created_le; [|eauto]; lia). rewrite rhs_of_app.
            split; [intros [X|X]; [auto|]|auto]. exfalso. revert X. apply rhs_of_none. intros r Hr E.
            destruct (L2 r Hr) as (j & Hj & Hc). assert (i = j) by congruence. subst j.
            unfold created in *. rewrite (sp_temp _ _ _ _ S1), (step_max _ _ _ _ S1) in Hc. lia. }
          destruct (C2 R) as (als & F & ->).
          { intros i be Hi. rewrite HR by (eapply created_shift; eauto). rewrite rhs_of_app.
            split; [intros [X|X]; [|auto]|auto]. exfalso. revert X. apply rhs_of_none. intros r Hr E.
            destruct (L1 r Hr) as (j & Hj & Hc). assert (i = j) by congruence. subst j.
            unfold created in *. rewrite (sp_temp _ _ _ _ S1), (step_max _ _ _ _ S1) in Hi. lia. }
          exists (al1 :: als). split; auto. constructor; [exact X1|].
          assert (E : forall x, lk b1 x = lk b x) by (intros; eapply step_lk; eauto).
          clear - F E. revert als F. induction l as [|q l IHl]; intros als F; simpl in *; inversion F; subst; constructor; auto.
          eapply compiled_ext; [|eassumption]. auto. }
      * destruct H2 as (n & -> & Hn & Hk). exists n. split; auto. split; [right; auto|].
        rewrite <- (step_lk _ _ _ _ n S1). auto.
      * change (seq_ops (p :: l)) with (operators p + seq_ops l)%N.
        rewrite (step_max _ _ _ _ S1), (sp_temp _ _ _ _ S1) in H2. lia.
      * auto.
    + destruct H as (n & -> & Hn & Hk). exists n. split; auto. split; auto. left; auto.
    + change (seq_ops (p :: l)) with (operators p + seq_ops l)%N. lia.
    + auto.
Qed.

(** Alternatives; [i0] is the non-terminal of the alternative, outside the created range. *)
Lemma transform_alts_ok : forall parent i0 l, Forall (fun p => forall b, binv b -> transform_spec p b (transform_pattern parent p b)) l ->
  forall b, binv b -> (i0 <= b_max b + b_temp b)%N ->
  match transform_alts (map (transform_pattern parent) l) (NonTerminal i0) parent b with
  | Ok b' =>
    (forall n, seq_mentions l n -> lk b n <> None) /\
    exists new als, step b b' new (seq_ops l) /\
      (forall r, In r new -> exists i, r_lhs r = Some i /\ (i = i0 \/ created b (seq_ops l) i)) /\
      (forall r s, In r new -> In s (r_rhs r) -> good_sym b (seq_ops l) s) /\
      (forall be, rhs_of new i0 be <-> In be als) /\
      (forall R, (forall i be, created b (seq_ops l) i -> (rhs_of R i be <-> rhs_of new i be)) ->
         Forall2 pred_app (map (compiled R (lk b)) l) als)
  | Err e => exists n, e = MissingSymbol n /\ seq_mentions l n /\ lk b n = None
  | Panic => (b_max b + b_temp b + seq_ops l > 65535)%N
  | OutOfFuel => False
  end.
Proof.
  intros parent i0 l Hl. induction Hl as [|p l Hp Hl IH]; intros b Hb Hi0; cbn [map transform_alts].
  - split; [intros n []|]. exists [], []. split.
    { constructor; simpl; auto using same_refl, app_nil_r; unfold seq_ops; simpl; lia || (symmetry; apply app_nil_r). }
    split; [intros r []|]. split; [intros r s []|]. split.
    { intros be. split; [intros (r & [] & _)|intros []]. }
    intros R _. constructor.
  - pose proof (Hp b Hb) as H. unfold transform_spec in H.
    destruct (transform_pattern parent p b) as [[al1 b1]|e| |]; cbn [bind].
    + destruct H as (Hm1 & new1 & S1 & L1 & G1 & GR1 & C1).
      destruct (push_ok b1 i0 al1 parent (sp_inv _ _ _ _ S1)) as (b1' & -> & S1'). cbn [bind].
      assert (S1'' : step b b1' (new1 ++ [mkRule (Some i0) al1 parent]) (operators p)).
      { replace (operators p) with (operators p + 0)%N by lia. eapply step_trans; eauto. }
      assert (Hi1 : (i0 <= b_max b1' + b_temp b1')%N).
      { rewrite (step_max _ _ _ _ S1''), (sp_temp _ _ _ _ S1''). lia. }
      pose proof (IH b1' (sp_inv _ _ _ _ S1'') Hi1) as H2.
      destruct (transform_alts (map (transform_pattern parent) l) (NonTerminal i0) parent b1') as [b2|e| |].
      * destruct H2 as (Hm2 & new2 & als & S2 & L2 & GR2 & A2 & C2).
        change (seq_ops (p :: l)) with (operators p + seq_ops l)%N.
        split.
        { intros n [Hn|Hn]; auto. rewrite <- (step_lk _ _ _ _ n S1''). auto. }
        exists ((new1 ++ [mkRule (Some i0) al1 parent]) ++ new2), (al1 :: als).
        split; [eapply step_trans; eauto|]. split.
        { intros r Hr. rewrite !in_app_iff in Hr. destruct Hr as [[Hr|[<-|[]]]|Hr].
          - destruct (L1 r Hr) as (i & Hi & Hc). exists i. split; auto. right. eapply created_le; [|eauto]. lia.
          - exists i0. simpl. auto.
          - destruct (L2 r Hr) as (i & Hi & [Hc|Hc]); exists i; split; auto. right. eapply created_shift; eauto. }
        split.
        { intros r s Hr Hs. rewrite !in_app_iff in Hr. destruct Hr as [[Hr|[<-|[]]]|Hr].
          - eapply good_le; [|eapply GR1; eauto]. lia.
          - simpl in Hs. eapply good_le; [|eapply G1; eauto]. lia.
          - eapply good_shift; [eassumption|]. eapply GR2; eauto. }
        assert (N1 : forall be, ~ rhs_of new1 i0 be).
        { intros be. apply rhs_of_none. intros r Hr E. destruct (L1 r Hr) as (i & Hi & Hc).
          unfold created in Hc. assert (i = i0) by congruence. lia. }
        split.
        { intros be. rewrite !rhs_of_app, rhs_of_single, A2. simpl. split.
          - intros [[X|[_ ->]]|X]; auto. elim (N1 _ X).
          - intros [<-|X]; auto. }
        { intros R HR. constructor.
          - apply C1. intros i be Hi. rewrite HR by (eapply created_le; [|eauto]; lia). rewrite !rhs_of_app, rhs_of_single.
            assert (Hne : i <> i0) by (unfold created in Hi; lia).
            split; [|auto]. intros [[X|[X _]]|X]; [auto|contradiction|]. exfalso. revert X. apply rhs_of_none. intros r Hr E.
            destruct (L2 r Hr) as (j & Hj & [Hc|Hc]); assert (i = j) by congruence; subst j; [contradiction|].
            unfold created in *. rewrite (sp_temp _ _ _ _ S1''), (step_max _ _ _ _ S1'') in Hc. lia.
          - assert (F : Forall2 pred_app (map (compiled R (lk b1')) l) als).
            { apply C2. intros i be Hi. rewrite HR by (eapply created_shift; eauto). rewrite !rhs_of_app, rhs_of_single.
              assert (Hne : i <> i0) by (unfold created in Hi; lia).
              split; [|auto]. intros [[X|[X _]]|X]; [|contradiction|auto]. exfalso. revert X. apply rhs_of_none. intros r Hr E.
              destruct (L1 r Hr) as (j & Hj & Hc). assert (i = j) by congruence. subst j.
              unfold created in *. rewrite (sp_temp _ _ _ _ S1''), (step_max _ _ _ _ S1'') in Hi. lia. }
            assert (E : forall x, lk b1' x = lk b x) by (intros; eapply step_lk; eauto).
            clear - F E. revert als F. induction l as [|q l IHl]; intros als F; simpl in *; inversion F; subst; constructor; auto.
            eapply compiled_ext; [|eassumption]. auto. }
      * destruct H2 as (n & -> & Hn & Hk). exists n. split; auto. split; [right; auto|].
        rewrite <- (step_lk _ _ _ _ n S1''). auto.
      * change (seq_ops (p :: l)) with (operators p + seq_ops l)%N.
        rewrite (step_max _ _ _ _ S1''), (sp_temp _ _ _ _ S1'') in H2. lia.
      * auto.
    + destruct H as (n & -> & Hn & Hk). exists n. split; auto. split; auto. left; auto.
    + change (seq_ops (p :: l)) with (operators p + seq_ops l)%N. lia.
    + auto.
Qed.

(** A unary operator: temporary symbol, inner pattern, two rules. *)
Lemma unary_ok : forall parent q (f1 f2 : list symbol -> symbol -> list symbol)
  (T : res grammar_error (list symbol * builder)) b,
  (forall b, binv b -> transform_spec q b (transform_pattern parent q b)) -> binv b ->
  (forall a s x, In x (f1 a s) -> x = Epsilon \/ x = s \/ In x a) ->
  (forall a s x, In x (f2 a s) -> x = Epsilon \/ x = s \/ In x a) ->
  T = (do (s, b1) <- get_temp_symbol b;
       do (a, b2) <- transform_pattern parent q b1;
       do b3 <- push_rule b2 s (f1 a s) parent;
       do b4 <- push_rule b3 s (f2 a s) parent;
       Ok ([s], b4)) ->
  match T with
  | Ok (al, b') =>
    (forall n, mentions q n -> lk b n <> None) /\
    exists new, step b b' new (1 + operators q) /\
      (forall r, In r new -> exists i, r_lhs r = Some i /\ created b (1 + operators q) i) /\
      (forall s, In s al -> good_sym b (1 + operators q) s) /\
      (forall r s, In r new -> In s (r_rhs r) -> good_sym b (1 + operators q) s) /\
      (forall R, (forall i be, created b (1 + operators q) i -> (rhs_of R i be <-> rhs_of new i be)) ->
         exists i a, al = [NonTerminal i] /\ compiled R (lk b) q a /\
           forall be, rhs_of R i be <-> be = f1 a (NonTerminal i) \/ be = f2 a (NonTerminal i))
  | Err e => exists n, e = MissingSymbol n /\ mentions q n /\ lk b n = None
  | Panic => (b_max b + b_temp b + (1 + operators q) > 65535)%N
  | OutOfFuel => False
  end.
Proof.
  intros parent q f1 f2 T b Hq Hb Hf1 Hf2 ->.
  pose proof (get_temp_ok b Hb) as Ht. destruct (get_temp_symbol b) as [[s b1]|e| |]; cbn [bind]; try contradiction; [|lia].
  destruct Ht as [-> S0]. pose proof (Hq b1 (sp_inv _ _ _ _ S0)) as H. unfold transform_spec in H.
  set (i0 := (b_max b + b_temp b + 1)%N) in *.
  destruct (transform_pattern parent q b1) as [[a b2]|e| |]; cbn [bind].
  - destruct H as (Hm & new & S1 & L & G & GR & C).
    destruct (push_ok b2 i0 (f1 a (NonTerminal i0)) parent (sp_inv _ _ _ _ S1)) as (b3 & -> & S2). cbn [bind].
    destruct (push_ok b3 i0 (f2 a (NonTerminal i0)) parent (sp_inv _ _ _ _ S2)) as (b4 & -> & S3). cbn [bind].
    assert (SS : step b b4 (new ++ [mkRule (Some i0) (f1 a (NonTerminal i0)) parent] ++ [mkRule (Some i0) (f2 a (NonTerminal i0)) parent]) (1 + operators q)).
    { pose proof (step_trans _ _ _ _ _ _ _ S2 S3) as X. pose proof (step_trans _ _ _ _ _ _ _ S1 X) as Y.
      pose proof (step_trans _ _ _ _ _ _ _ S0 Y) as Z. replace (1 + operators q)%N with (1 + (operators q + (0 + 0)))%N by lia. exact Z. }
    assert (Hc0 : created b (1 + operators q) i0) by (unfold created, i0; lia).
    assert (Hg0 : good_sym b (1 + operators q) (NonTerminal i0)) by (right; left; exists i0; auto).
    assert (HgA : forall x, In x a -> good_sym b (1 + operators q) x).
    { intros x Hx. eapply good_shift; [exact S0|]. apply G; auto. }
    split; [intros n Hn; rewrite <- (step_lk _ _ _ _ n S0); auto|].
    eexists. split; [exact SS|]. split.
    { intros r Hr. rewrite !in_app_iff in Hr. destruct Hr as [Hr|[[<-|[]]|[<-|[]]]].
      - destruct (L r Hr) as (i & Hi & Hc). exists i. split; auto. eapply created_shift; eauto.
      - exists i0. auto.
      - exists i0. auto. }
    split; [intros s [<-|[]]; auto|]. split.
    { intros r s Hr Hs. rewrite !in_app_iff in Hr. destruct Hr as [Hr|[[<-|[]]|[<-|[]]]].
      - eapply good_shift; [exact S0|]. eapply GR; eauto.
      - simpl in Hs. apply Hf1 in Hs. destruct Hs as [->|[->|Hs]]; auto. left; auto.
      - simpl in Hs. apply Hf2 in Hs. destruct Hs as [->|[->|Hs]]; auto. left; auto. }
    intros R HR. exists i0, a. split; auto.
    assert (N1 : forall be, ~ rhs_of new i0 be).
    { intros be. apply rhs_of_none. intros r Hr E. destruct (L r Hr) as (i & Hi & Hc).
      unfold created in Hc. rewrite (step_max _ _ _ _ S0), (sp_temp _ _ _ _ S0) in Hc. assert (i = i0) by congruence. unfold i0 in *. lia. }
    split.
    + eapply compiled_ext; [intros n; apply (step_lk _ _ _ _ n S0)|]. apply C. intros i be Hi.
      rewrite HR by (eapply created_shift; eauto). rewrite !rhs_of_app, !rhs_of_single.
      assert (Hne : i <> i0).
      { unfold created in Hi. rewrite (step_max _ _ _ _ S0), (sp_temp _ _ _ _ S0) in Hi. unfold i0. lia. }
      split; [|auto]. intros [X|[[X _]|[X _]]]; auto; contradiction.
    + intros be. rewrite HR by auto. rewrite !rhs_of_app, !rhs_of_single. split.
      * intros [X|[[_ X]|[_ X]]]; auto. elim (N1 _ X).
      * intros [X|X]; auto.
  - destruct H as (n & -> & Hn & Hk). exists n. split; auto. split; auto. rewrite <- (step_lk _ _ _ _ n S0). auto.
  - rewrite (step_max _ _ _ _ S0), (sp_temp _ _ _ _ S0) in H. lia.
  - auto.
Qed.

Theorem transform_ok : forall parent p b, binv b -> transform_spec p b (transform_pattern parent p b).
Proof.
  intros parent. induction p as [l IH|l IH|q IH|q IH|q IH|n|] using prod_pattern_ind'; intros b Hb.
  - pose proof (transform_seq_ok parent l IH b Hb) as H. unfold transform_spec. cbn [transform_pattern].
    destruct (transform_seq (map (transform_pattern parent) l) b) as [[al b']|e| |]; exact H.
  - unfold transform_spec. cbn [transform_pattern].
    pose proof (get_temp_ok b Hb) as Ht. destruct (get_temp_symbol b) as [[s b1]|e| |]; cbn [bind]; try contradiction.
    2:{ change (operators (QAlt l)) with (1 + seq_ops l)%N. lia. }
    destruct Ht as [-> S0].
    assert (Hle : (b_max b + b_temp b + 1 <= b_max b1 + b_temp b1)%N).
    { rewrite (step_max _ _ _ _ S0), (sp_temp _ _ _ _ S0). lia. }
    pose proof (transform_alts_ok parent (b_max b + b_temp b + 1)%N l IH b1 (sp_inv _ _ _ _ S0) Hle) as H.
    set (i0 := (b_max b + b_temp b + 1)%N) in *. change (operators (QAlt l)) with (1 + seq_ops l)%N.
    destruct (transform_alts (map (transform_pattern parent) l) (NonTerminal i0) parent b1) as [b2|e| |]; cbn [bind].
    + destruct H as (Hm & new & als & S1 & L & GR & A & C).
      assert (Hc0 : created b (1 + seq_ops l) i0) by (unfold created, i0; lia).
      split; [intros n Hn; rewrite <- (step_lk _ _ _ _ n S0); auto|].
      exists new. split; [exact (step_trans _ _ _ _ _ _ _ S0 S1)|]. split.
      { intros r Hr. destruct (L r Hr) as (i & Hi & [->|Hc]); [exists i0; auto|]. exists i. split; auto. eapply created_shift; eauto. }
      split; [intros s [<-|[]]; right; left; exists i0; auto|]. split.
      { intros r s Hr Hs. eapply good_shift; [exact S0|]. eapply GR; eauto. }
      intros R HR. exists i0, als. split; auto. split.
      * assert (F : Forall2 pred_app (map (compiled R (lk b1)) l) als).
        { apply C. intros i be Hi. apply HR. eapply created_shift; eauto. }
        assert (E : forall x, lk b1 x = lk b x) by (intros; eapply step_lk; eauto).
        clear - F E. revert als F. induction l as [|q l IHl]; intros als F; simpl in *; inversion F; subst; constructor; auto.
        eapply compiled_ext; [|eassumption]. auto.
      * intros be. rewrite HR by auto. apply A.
    + destruct H as (n & -> & Hn & Hk). exists n. split; auto. split; auto. rewrite <- (step_lk _ _ _ _ n S0). auto.
    + rewrite (step_max _ _ _ _ S0), (sp_temp _ _ _ _ S0) in H. lia.
    + auto.
  - pose proof (unary_ok parent q (fun a s => a) (fun a s => a ++ [s]) (transform_pattern parent (QPlus q) b) b IH Hb) as H.
    apply H; auto.
    intros a s x Hx. apply in_app_or in Hx. destruct Hx as [Hx|[<-|[]]]; auto.
  - pose proof (unary_ok parent q (fun a s => [Epsilon]) (fun a s => a ++ [s]) (transform_pattern parent (QStar q) b) b IH Hb) as H.
    apply H; auto.
    + intros a s x [<-|[]]; auto.
    + intros a s x Hx. apply in_app_or in Hx. destruct Hx as [Hx|[<-|[]]]; auto.
  - pose proof (unary_ok parent q (fun a s => a) (fun a s => [Epsilon]) (transform_pattern parent (QOpt q) b) b IH Hb) as H.
    apply H; auto.
    intros a s x [<-|[]]; auto.
  - unfold transform_spec. cbn [transform_pattern]. unfold get_symbol_by_name.
    destruct (map_get n (b_symbols b)) as [s|] eqn:E; cbn [bind].
    + split; [intros m Hm; simpl in Hm; subst; unfold lk; congruence|]. exists []. split.
      { constructor; simpl; auto using same_refl; [symmetry; apply app_nil_r|lia]. }
      split; [intros r []|]. split; [intros x [<-|[]]; right; right; exists n; auto|]. split; [intros r x []|].
      intros R _. exists s. auto.
    + exists n. simpl. auto.
  - unfold transform_spec. cbn [transform_pattern]. split; [intros m []|]. exists []. split.
    { constructor; simpl; auto using same_refl; [symmetry; apply app_nil_r|lia]. }
    split; [intros r []|]. split; [intros x [<-|[]]; left; auto|]. split; [intros r x []|].
    intros R _. simpl. auto.
Qed.
