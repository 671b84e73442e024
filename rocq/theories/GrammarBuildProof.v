(** [GrammarBuilder::build]: outcome, well-formedness and language of the grammar. *)
From Coq Require Import String List Arith NArith Bool Lia.
From Verif Require Import Base InputModel GrammarModel GrammarSpec GrammarNamesProof GrammarProof.
Import ListNotations.

Definition ops_of (l : list prod_rule) : N := fold_right N.add 0%N (map (fun p => operators (pr_pattern p)) l).
Lemma ops_of_app : forall l l', ops_of (l ++ l') = (ops_of l + ops_of l')%N.
Proof. induction l as [|p l IH]; intros l'; unfold ops_of in *; simpl; auto. rewrite IH. lia. Qed.

Definition range (b0 : builder) (k i : N) : Prop := (b_max b0 < i <= b_max b0 + k)%N.
Definition sym_ok (b0 : builder) (k : N) (s : symbol) : Prop :=
  s = Epsilon \/ (exists i, s = NonTerminal i /\ range b0 k i) \/ exists n, lk b0 n = Some s.

Record built (b0 : builder) (l : list prod_rule) (b : builder) (als : list (list symbol)) : Prop := {
  bu_same : same_tables b0 b;
  bu_inv : binv b;
  bu_temp : b_temp b = ops_of l;
  bu_defined : forall p n, In p l -> mentions (pr_pattern p) n -> lk b0 n <> None;
  bu_compiled : forall R, (forall i be, range b0 (ops_of l) i -> (rhs_of R i be <-> rhs_of (b_rules b) i be)) ->
     Forall2 (fun p al => compiled R (lk b0) (pr_pattern p) al) l als;
  bu_named : forall j be, (j <= b_max b0)%N ->
     (rhs_of (b_rules b) j be <-> exists k p, nth_error l k = Some p /\ nth_error als k = Some be /\ lk b0 (pr_name p) = Some (NonTerminal j));
  bu_lhs : forall r, In r (b_rules b) -> exists i, r_lhs r = Some i /\
     (range b0 (ops_of l) i \/ exists p, In p l /\ lk b0 (pr_name p) = Some (NonTerminal i));
  bu_rhs : forall r s, In r (b_rules b) -> In s (r_rhs r) -> sym_ok b0 (ops_of l) s;
  bu_len : length als = length l
}.

Lemma sym_ok_le : forall b0 k k' s, (k <= k')%N -> sym_ok b0 k s -> sym_ok b0 k' s.
Proof. intros b0 k k' s Hk [H|[(i & H & Hr)|H]]; [left|right; left|right; right]; auto. exists i. split; auto. unfold range in *. lia. Qed.

Lemma Forall2_snoc : forall A B (P : A -> B -> Prop) l l' a b, Forall2 P l l' -> P a b -> Forall2 P (l ++ [a]) (l' ++ [b]).
Proof. intros. apply Forall2_app; auto. Qed.

Lemma add_rules_ok : forall b0, binv b0 -> b_temp b0 = 0%N -> b_rules b0 = [] -> forall l,
  (forall p, In p l -> exists j, lk b0 (pr_name p) = Some (NonTerminal j) /\ (j <= b_max b0)%N) ->
  match foldM add_production_rule l b0 with
  | Ok b => exists als, built b0 l b als
  | Err e => exists n p, e = MissingSymbol n /\ In p l /\ mentions (pr_pattern p) n /\ lk b0 n = None
  | Panic => (b_max b0 + ops_of l > 65535)%N
  | OutOfFuel => False
  end.
Proof.
  intros b0 Hb0 Ht0 Hr0. induction l as [|p l IH] using rev_ind; intros Hnames.
  - simpl. exists []. constructor; simpl; auto using same_refl.
    + intros j be _. rewrite Hr0. split; [intros (r & [] & _)|intros (k & p & H & _); destruct k; discriminate].
    + rewrite Hr0. intros r [].
    + rewrite Hr0. intros r s [].
  - assert (Hn' : forall p, In p l -> exists j, lk b0 (pr_name p) = Some (NonTerminal j) /\ (j <= b_max b0)%N).
    { intros q Hq. apply Hnames. apply in_or_app; auto. }
    specialize (IH Hn'). rewrite foldM_app.
    assert (Eops : ops_of (l ++ [p]) = (ops_of l + operators (pr_pattern p))%N).
    { rewrite ops_of_app. unfold ops_of at 2. simpl. lia. }
    destruct (foldM add_production_rule l b0) as [b| | |]; cbn [bind].
    + destruct IH as (als & B). cbn [foldM]. unfold add_production_rule, get_symbol_by_name.
      destruct (Hnames p) as (j & Hj & Hjm); [apply in_or_app; simpl; auto|].
      assert (Elk : forall n, lk b n = lk b0 n) by (intros n; unfold lk; destruct (bu_same _ _ _ _ B) as (-> & _); auto).
      assert (Emax : b_max b = b_max b0) by (destruct (bu_same _ _ _ _ B) as (_ & -> & _); auto).
      fold (lk b (pr_name p)). rewrite Elk, Hj. cbn [bind].
      pose proof (transform_ok p (pr_pattern p) b (bu_inv _ _ _ _ B)) as HT. unfold transform_spec in HT.
      destruct (transform_pattern p (pr_pattern p) b) as [[al b1]|e| |]; cbn [bind].
      * destruct HT as (Hm & new & S1 & L & G & GR & C).
        destruct (push_ok b1 j al p (sp_inv _ _ _ _ S1)) as (b2 & -> & S2). cbn [bind].
        pose proof (step_trans _ _ _ _ _ _ _ S1 S2) as S. rewrite N.add_0_r in S.
        assert (Hcr : forall i, created b (operators (pr_pattern p)) i -> range b0 (ops_of (l ++ [p])) i).
        { intros i Hi. unfold created in Hi. unfold range. rewrite Emax, (bu_temp _ _ _ _ B) in Hi. rewrite Eops. lia. }
        assert (Hgood : forall s, good_sym b (operators (pr_pattern p)) s -> sym_ok b0 (ops_of (l ++ [p])) s).
        { intros s [X|[(i & X & Hc)|(n & X)]]; [left|right; left|right; right]; auto.
          - exists i. auto.
          - exists n. rewrite <- Elk. auto. }
        assert (Ebr : b_rules b2 = b_rules b ++ new ++ [mkRule (Some j) al p]) by apply (sp_rules _ _ _ _ S).
        assert (Hnew : forall r i, In r new -> r_lhs r = Some i -> (b_max b0 + ops_of l < i)%N).
        { intros r i Hr Hi. destruct (L r Hr) as (i' & Hi' & Hc). assert (i' = i) by congruence. subst i'.
          unfold created in Hc. rewrite Emax, (bu_temp _ _ _ _ B) in Hc. lia. }
        assert (Hold : forall i be, range b0 (ops_of l) i -> rhs_of (b_rules b2) i be <-> rhs_of (b_rules b) i be).
        { intros i be Hi. unfold range in Hi. rewrite Ebr, !rhs_of_app, rhs_of_single. split; [|auto].
          intros [X|[X|[X _]]]; auto.
          - exfalso. revert X. apply rhs_of_none. intros r Hr E. pose proof (Hnew r i Hr E). lia.
          - lia. }
        exists (als ++ [al]). constructor.
        -- eapply same_trans; [apply (bu_same _ _ _ _ B)|apply (sp_same _ _ _ _ S)].
        -- apply (sp_inv _ _ _ _ S).
        -- rewrite (sp_temp _ _ _ _ S), (bu_temp _ _ _ _ B), Eops. auto.
        -- intros q n Hq Hn. apply in_app_or in Hq. destruct Hq as [Hq|[<-|[]]].
           ++ eapply (bu_defined _ _ _ _ B); eauto.
           ++ rewrite <- Elk. auto.
        -- intros R HR. apply Forall2_snoc.
           ++ apply (bu_compiled _ _ _ _ B). intros i be Hi. rewrite <- Hold by auto. apply HR.
              unfold range in *. rewrite Eops. lia.
           ++ eapply compiled_ext; [apply Elk|]. apply C. intros i be Hi. rewrite HR by auto.
              rewrite Ebr, !rhs_of_app, rhs_of_single. unfold created in Hi. rewrite Emax, (bu_temp _ _ _ _ B) in Hi.
              split; [|auto]. intros [X|[X|[X _]]]; auto; [|lia].
              exfalso. revert X. apply rhs_of_none. intros r Hr E. destruct (bu_lhs _ _ _ _ B r Hr) as (i' & Hi' & H').
              assert (i' = i) by congruence. subst i'. destruct H' as [H'|(q & Hq & H')].
              ** unfold range in H'. lia.
              ** destruct (Hn' q Hq) as (j' & Hj' & ?). assert (X : NonTerminal j' = NonTerminal i) by congruence. injection X as ->. lia.
        -- intros j' be Hj'. rewrite Ebr, !rhs_of_app, rhs_of_single, (bu_named _ _ _ _ B) by auto. split.
           ++ intros [(k & q & Hq & Hbe & Hk)|[X|[-> ->]]].
              ** exists k, q. rewrite !nth_error_snoc_iff. auto.
              ** exfalso. revert X. apply rhs_of_none. intros r Hr E. pose proof (Hnew r j' Hr E). lia.
              ** exists (length l), p. rewrite !nth_error_snoc_iff, (bu_len _ _ _ _ B). auto.
           ++ intros (k & q & Hq & Hbe & Hk). rewrite nth_error_snoc_iff in Hq, Hbe.
              destruct Hq as [Hq|[-> ->]].
              ** left. exists k, q. split; auto. split; auto. destruct Hbe as [Hbe|[-> _]]; auto.
                 apply nth_error_lt in Hq. rewrite (bu_len _ _ _ _ B) in Hq. lia.
              ** right. right. destruct Hbe as [Hbe|[_ ->]].
                 --- apply nth_error_lt in Hbe. rewrite (bu_len _ _ _ _ B) in Hbe. lia.
                 --- split; auto. assert (X : NonTerminal j' = NonTerminal j) by congruence. injection X. auto.
        -- intros r Hr. rewrite Ebr, !in_app_iff in Hr. destruct Hr as [Hr|[Hr|[<-|[]]]].
           ++ destruct (bu_lhs _ _ _ _ B r Hr) as (i & Hi & [H|(q & Hq & H)]); exists i; split; auto.
              ** left. unfold range in *. rewrite Eops. lia.
              ** right. exists q. split; auto. apply in_or_app; auto.
           ++ destruct (L r Hr) as (i & Hi & Hc). exists i. auto.
           ++ exists j. split; auto. right. exists p. split; auto. apply in_or_app; simpl; auto.
        -- intros r s Hr Hs. rewrite Ebr, !in_app_iff in Hr. destruct Hr as [Hr|[Hr|[<-|[]]]].
           ++ eapply sym_ok_le; [|eapply (bu_rhs _ _ _ _ B); eauto]. rewrite Eops. lia.
           ++ apply Hgood. eapply GR; eauto.
           ++ apply Hgood. apply G. auto.
        -- rewrite !app_length, (bu_len _ _ _ _ B). auto.
      * destruct HT as (n & -> & Hn & Hk). exists n, p. split; auto. split; [apply in_or_app; simpl; auto|].
        split; auto. rewrite <- Elk. auto.
      * rewrite Emax, (bu_temp _ _ _ _ B) in HT. rewrite Eops. lia.
      * auto.
    + destruct IH as (n & q & -> & Hq & Hm & Hk). exists n, q. split; auto. split; [apply in_or_app; auto|auto].
    + rewrite Eops. lia.
    + auto.
Qed.

(** ** Languages *)

Inductive derivesn (R : list rule) : nat -> list symbol -> list N -> Prop :=
| dn_nil : derivesn R O [] []
| dn_eps : forall n al w, derivesn R n al w -> derivesn R (S n) (Epsilon :: al) w
| dn_term : forall n t al w, derivesn R n al w -> derivesn R (S n) (Terminal t :: al) (t :: w)
| dn_nt : forall n m r i al u w, In r R -> r_lhs r = Some i ->
    derivesn R n (r_rhs r) u -> derivesn R m al w -> derivesn R (S (n + m)) (NonTerminal i :: al) (u ++ w).

Lemma derives_sized : forall R al w, derives R al w <-> exists n, derivesn R n al w.
Proof.
  intros R al w. split.
  - induction 1 as [|al w H [n IH]|t al w H [n IH]|r i al u w Hr Hi H1 [n1 IH1] H2 [n2 IH2]]; eexists; econstructor; eauto.
  - intros [n H]. induction H; econstructor; eauto.
Qed.

Lemma derives_app : forall R a b u w, derives R a u -> derives R b w -> derives R (a ++ b) (u ++ w).
Proof.
  intros R a b u w Ha Hb. induction Ha; simpl; auto; try (constructor; auto).
  rewrite <- app_assoc. econstructor; eauto.
Qed.

Lemma derivesn_app_inv : forall R a b n w, derivesn R n (a ++ b) w ->
  exists n1 n2 u v, (n1 + n2 = n)%nat /\ w = u ++ v /\ derivesn R n1 a u /\ derivesn R n2 b v.
Proof.
  intros R. induction a as [|s a IH]; intros b n w H; simpl in H.
  - exists O, n, [], w. repeat split; auto. constructor.
  - inversion H as [|n' al' w' H'|n' t al' w' H'|n' m r i al' u' w' Hr Hi H1 H2]; subst.
    + destruct (IH _ _ _ H') as (n1 & n2 & u & v & <- & -> & Ha & Hb).
      exists (S n1), n2, u, v. repeat split; auto. constructor; auto.
    + destruct (IH _ _ _ H') as (n1 & n2 & u & v & <- & -> & Ha & Hb).
      exists (S n1), n2, (t :: u), v. repeat split; auto. constructor; auto.
    + destruct (IH _ _ _ H2) as (n1 & n2 & u & v & <- & -> & Ha & Hb).
      exists (S (n' + n1)), n2, (u' ++ u), v. split; [lia|]. split; [rewrite app_assoc; auto|].
      split; auto. econstructor; eauto.
Qed.

Lemma derives_app_inv : forall R a b w, derives R (a ++ b) w -> exists u v, w = u ++ v /\ derives R a u /\ derives R b v.
Proof.
  intros R a b w H. apply derives_sized in H. destruct H as [n H].
  destruct (derivesn_app_inv _ _ _ _ _ H) as (n1 & n2 & u & v & _ & -> & Ha & Hb).
  exists u, v. split; auto. split; apply derives_sized; eauto.
Qed.

Section Language.
Variables (rs : rule_set) (R : list rule) (look : string -> option symbol) (named : N -> string -> Prop).
Variable prods_rhs : list (list symbol).
Hypothesis look_spec : forall n s, look n = Some s -> (exists t, s = Terminal t) \/ (exists j, s = NonTerminal j).
Hypothesis look_tok : forall n t, look n = Some (Terminal t) -> is_token rs n /\ named t n.
Hypothesis tok_look : forall n s, is_token rs n -> look n = Some s -> exists t, s = Terminal t /\ named t n.
Hypothesis prod_look : forall p s, In p (rs_prods rs) -> look (pr_name p) = Some s -> exists j, s = NonTerminal j.
Hypothesis look_inj : forall n n' j, look n = Some (NonTerminal j) -> look n' = Some (NonTerminal j) -> n = n'.
Hypothesis prods_compiled : Forall2 (fun p al => compiled R look (pr_pattern p) al) (rs_prods rs) prods_rhs.
Hypothesis prods_rules : forall n j be, look n = Some (NonTerminal j) ->
  (rhs_of R j be <-> exists k p, nth_error (rs_prods rs) k = Some p /\ nth_error prods_rhs k = Some be /\ look (pr_name p) = Some (NonTerminal j)).

Lemma Forall2_nth : forall A B (P : A -> B -> Prop) l l' k a b, Forall2 P l l' ->
  nth_error l k = Some a -> nth_error l' k = Some b -> P a b.
Proof.
  intros A B P l l' k a b H. revert k. induction H; intros [|k] H1 H2; simpl in *; try discriminate; [congruence|eauto].
Qed.
Lemma Forall2_nth_ex : forall A B (P : A -> B -> Prop) l l' k a, Forall2 P l l' ->
  nth_error l k = Some a -> exists b, nth_error l' k = Some b.
Proof.
  intros A B P l l' k a H. revert k. induction H; intros [|k] H1; simpl in *; try discriminate; [eauto|eauto].
Qed.

Lemma ebnf_derives : forall p ts, ebnf rs p ts -> forall al, compiled R look p al ->
  exists w, derives R al w /\ Forall2 named w ts.
Proof.
  assert (Rn : forall i al w, rhs_of R i al -> derives R al w -> derives R [NonTerminal i] w).
  { intros i al w (r & Hr & Hi & <-) H. rewrite <- (app_nil_r w). econstructor; eauto. constructor. }
  induction 1 as [|p l ts ts' H1 IH1 H2 IH2|p l ts Hin H IH|p ts H IH|p ts ts' H1 IH1 H2 IH2|p|p ts ts' H1 IH1 H2 IH2|p|p ts H IH|name Ht|p ts Hin H IH|];
    intros al HC; cbn [compiled] in HC.
  - destruct HC as (als & F & ->). inversion F; subst. exists []. split; constructor.
  - destruct HC as (als & F & ->). cbn [map] in F. inversion F as [|? a ? als' Ha Hl]; subst.
    destruct (IH1 a Ha) as (u & Hu & Fu). destruct (IH2 (concat als')) as (v & Hv & Fv).
    { cbn [compiled]. exists als'. auto. }
    exists (u ++ v). split; [simpl; apply derives_app; auto|apply Forall2_app; auto].
  - destruct HC as (i & als & -> & F & Hrhs).
    apply In_nth_error in Hin. destruct Hin as [k Hk].
    assert (Hk' : nth_error (map (compiled R look) l) k = Some (compiled R look p)) by (apply map_nth_error; auto).
    destruct (Forall2_nth_ex _ _ _ _ _ _ _ F Hk') as [a Ha].
    pose proof (Forall2_nth _ _ _ _ _ _ _ _ F Hk' Ha) as Hc. unfold pred_app in Hc.
    destruct (IH a Hc) as (w & Hw & Fw). exists w. split; auto. eapply Rn; eauto. apply Hrhs. eapply nth_error_In; eauto.
  - destruct HC as (i & a & -> & HC & Hrhs). destruct (IH a HC) as (w & Hw & Fw). exists w. split; auto.
    apply (Rn i a); auto. apply Hrhs; auto.
  - destruct HC as (i & a & -> & HC & Hrhs). destruct (IH1 a HC) as (u & Hu & Fu).
    destruct (IH2 [NonTerminal i]) as (v & Hv & Fv); [cbn [compiled]; eauto|].
    exists (u ++ v). split; [|apply Forall2_app; auto]. apply (Rn i (a ++ [NonTerminal i])); [apply Hrhs; auto|apply derives_app; auto].
  - destruct HC as (i & a & -> & HC & Hrhs). exists []. split; [|constructor]. apply (Rn i [Epsilon]); [apply Hrhs; auto|repeat constructor].
  - destruct HC as (i & a & -> & HC & Hrhs). destruct (IH1 a HC) as (u & Hu & Fu).
    destruct (IH2 [NonTerminal i]) as (v & Hv & Fv); [cbn [compiled]; eauto|].
    exists (u ++ v). split; [|apply Forall2_app; auto]. apply (Rn i (a ++ [NonTerminal i])); [apply Hrhs; auto|apply derives_app; auto].
  - destruct HC as (i & a & -> & HC & Hrhs). exists []. split; [|constructor]. apply (Rn i [Epsilon]); [apply Hrhs; auto|repeat constructor].
  - destruct HC as (i & a & -> & HC & Hrhs). destruct (IH a HC) as (w & Hw & Fw). exists w. split; auto.
    apply (Rn i a); auto. apply Hrhs; auto.
  - destruct HC as (s & Hs & ->). destruct (tok_look _ _ Ht Hs) as (t & -> & Hn).
    exists [t]. split; [repeat constructor|repeat constructor; auto].
  - destruct HC as (s & Hs & ->). destruct (prod_look _ _ Hin Hs) as (j & ->).
    apply In_nth_error in Hin. destruct Hin as [k Hk].
    destruct (Forall2_nth_ex _ _ _ _ _ _ _ prods_compiled Hk) as [a Ha].
    pose proof (Forall2_nth _ _ _ _ _ _ _ _ prods_compiled Hk Ha) as Hc. cbn beta in Hc.
    destruct (IH a Hc) as (w & Hw & Fw). exists w. split; auto. apply (Rn j a); auto.
    apply (prods_rules _ _ _ Hs). exists k, p. auto.
  - subst al. exists []. split; [repeat constructor|constructor].
Qed.

Lemma nt_inv : forall n i w, derivesn R n [NonTerminal i] w -> exists m be, (m < n)%nat /\ rhs_of R i be /\ derivesn R m be w.
Proof.
  intros n i w H. inversion H as [| | |n' m r i' al' u' w' Hr Hi H1 H2]; subst.
  inversion H2; subst. rewrite app_nil_r. exists n', (r_rhs r). split; [lia|]. split; auto. exists r. auto.
Qed.

Lemma derives_ebnf_sized : forall n p al w, derivesn R n al w -> compiled R look p al ->
  exists ts, Forall2 named w ts /\ ebnf rs p ts.
Proof.
  induction n as [n IHn] using lt_wf_ind.
  assert (Hle : forall p m al w, (m <= n)%nat -> derivesn R m al w -> compiled R look p al -> exists ts, Forall2 named w ts /\ ebnf rs p ts).
  2:{ intros p al w H HC. apply (Hle p n al w); auto. }
  induction p as [l IH|l IH|q IH|q IH|q IH|name|] using prod_pattern_ind'; intros m al w Hm H HC; cbn [compiled] in HC.
  - destruct HC as (als & F & ->). revert als m w F Hm H. induction IH as [|p l Hp Hl IHl]; intros als m w F Hm H.
    + inversion F; subst. simpl in H. inversion H; subst. exists []. split; constructor.
    + cbn [map] in F. inversion F as [|? a ? als' Ha Hl']; subst. simpl in H.
      destruct (derivesn_app_inv _ _ _ _ _ H) as (n1 & n2 & u & v & <- & -> & Hu & Hv).
      destruct (Hp n1 a u) as (ts & F1 & E1); auto; [lia|].
      destruct (IHl als' n2 v) as (ts' & F2 & E2); auto; [lia|].
      exists (ts ++ ts'). split; [apply Forall2_app; auto|constructor; auto].
  - destruct HC as (i & als & -> & F & Hrhs). destruct (nt_inv _ _ _ H) as (k & be & Hk & Hbe & Hd).
    apply Hrhs in Hbe. apply In_nth_error in Hbe. destruct Hbe as [x Hx].
    assert (Hp : exists p, In p l /\ compiled R look p be).
    { clear - F Hx. revert als x F Hx. induction l as [|p l IHl]; intros als x F Hx; cbn [map] in F; inversion F as [|? a ? als' Ha Hl]; subst.
      - destruct x; discriminate.
      - destruct x as [|x]; simpl in Hx.
        + injection Hx as ->. exists p. split; [left; auto|auto].
        + destruct (IHl _ _ Hl Hx) as (q & Hq & Hc). exists q. split; [right; auto|auto]. }
    destruct Hp as (p & Hp & Hc). destruct (IHn k) with (p := p) (al := be) (w := w) as (ts & F1 & E1); auto; [lia|].
    exists ts. split; auto. econstructor; eauto.
  - destruct HC as (i & a & -> & HC & Hrhs). destruct (nt_inv _ _ _ H) as (k & be & Hk & Hbe & Hd).
    apply Hrhs in Hbe. destruct Hbe as [->| ->].
    + destruct (IHn k) with (p := q) (al := a) (w := w) as (ts & F1 & E1); auto; [lia|]. exists ts. split; auto. apply e_plus_one; auto.
    + destruct (derivesn_app_inv _ _ _ _ _ Hd) as (n1 & n2 & u & v & <- & -> & Hu & Hv).
      destruct (IHn n1) with (p := q) (al := a) (w := u) as (ts & F1 & E1); auto; [lia|].
      destruct (IHn n2) with (p := QPlus q) (al := [NonTerminal i]) (w := v) as (ts' & F2 & E2); auto; [lia|cbn [compiled]; eauto|].
      exists (ts ++ ts'). split; [apply Forall2_app; auto|apply e_plus_more; auto].
  - destruct HC as (i & a & -> & HC & Hrhs). destruct (nt_inv _ _ _ H) as (k & be & Hk & Hbe & Hd).
    apply Hrhs in Hbe. destruct Hbe as [->| ->].
    + inversion Hd as [|? ? ? Hd'| |]; subst. inversion Hd'; subst. exists []. split; constructor.
    + destruct (derivesn_app_inv _ _ _ _ _ Hd) as (n1 & n2 & u & v & <- & -> & Hu & Hv).
      destruct (IHn n1) with (p := q) (al := a) (w := u) as (ts & F1 & E1); auto; [lia|].
      destruct (IHn n2) with (p := QStar q) (al := [NonTerminal i]) (w := v) as (ts' & F2 & E2); auto; [lia|cbn [compiled]; eauto|].
      exists (ts ++ ts'). split; [apply Forall2_app; auto|apply e_star_more; auto].
  - destruct HC as (i & a & -> & HC & Hrhs). destruct (nt_inv _ _ _ H) as (k & be & Hk & Hbe & Hd).
    apply Hrhs in Hbe. destruct Hbe as [->| ->].
    + destruct (IHn k) with (p := q) (al := a) (w := w) as (ts & F1 & E1); auto; [lia|]. exists ts. split; auto. apply e_opt_some; auto.
    + inversion Hd as [|? ? ? Hd'| |]; subst. inversion Hd'; subst. exists []. split; constructor.
  - destruct HC as (s & Hs & ->). destruct (look_spec _ _ Hs) as [[t ->]|[j ->]].
    + destruct (look_tok _ _ Hs) as [Ht Hn]. inversion H as [| |? ? ? ? H'|]; subst. inversion H'; subst.
      exists [name]. split; [repeat constructor; auto|constructor; auto].
    + destruct (nt_inv _ _ _ H) as (k & be & Hk & Hbe & Hd).
      apply (prods_rules _ _ _ Hs) in Hbe. destruct Hbe as (x & p & Hp & Hbe & Hl).
      pose proof (Forall2_nth _ _ _ _ _ _ _ _ prods_compiled Hp Hbe) as Hc. cbn beta in Hc.
      destruct (IHn k) with (p := pr_pattern p) (al := be) (w := w) as (ts & F1 & E1); auto; [lia|].
      exists ts. split; auto. rewrite <- (look_inj _ _ _ Hl Hs). constructor; auto. eapply nth_error_In; eauto.
  - subst al. inversion H as [|? ? ? H'| |]; subst. inversion H'; subst. exists []. split; constructor.
Qed.
End Language.

(** ** The whole builder *)

Record grammar_built (rs : rule_set) (b : builder) (g : grammar) (als : list (list symbol)) : Prop := {
  gb_start : start_ok rs b;
  gb_built : exists b', built b (rs_prods rs) b' als /\ g_rules g = b_rules b' /\ g_tokens g = b_tokens b /\
               g_prods g = b_prods b /\ g_anon g = b_anon b' /\ foldM add_production_rule (rs_prods rs) b = Ok b';
  gb_entry : exists p, find (fun r => eqc (pr_name r) (rs_entry rs)) (rs_prods rs) = Some p /\
               lk b (rs_entry rs) = Some (g_entry g) /\ g_entry_rule g = mkRule None [g_entry g] p
}.

Lemma find_name_None : forall l n, find (fun r => eqc (pr_name r) n) l = None <-> forall i, ~ prd_at l i n.
Proof.
  intros l n. split.
  - intros H i (r & Hr & Hn). apply find_none with (x := r) in H; [|eapply nth_error_In; eauto].
    apply eqc_false in H. contradiction.
  - intros H. destruct (find (fun r => eqc (pr_name r) n) l) as [p|] eqn:E; auto. exfalso.
    apply find_some in E. destruct E as [Hin E]. apply eqc_true in E. apply In_nth_error in Hin. destruct Hin as [k Hk].
    apply (H k). exists p. auto.
Qed.

Lemma introduces_lt : forall i, (as_u16 (N.of_nat i) <= 65535)%N.
Proof. intros. pose proof (as_u16_lt (N.of_nat i)). lia. Qed.

Lemma start_binv : forall rs b, start_ok rs b -> binv b.
Proof.
  intros rs b H. constructor.
  - rewrite (so_anon _ _ H). constructor.
  - intros s. rewrite (so_anon _ _ H), (so_temp _ _ H). split; [intros []|]. intros (i & _ & ?). lia.
  - rewrite (so_temp _ _ H). destruct (so_max_in _ _ H) as (i & _ & ->). pose proof (introduces_lt i). lia.
Qed.

Lemma start_prod : forall rs b, start_ok rs b -> forall p, In p (rs_prods rs) ->
  exists j, lk b (pr_name p) = Some (NonTerminal j) /\ (j <= b_max b)%N.
Proof.
  intros rs b H p Hp. apply In_nth_error in Hp. destruct Hp as [k Hk].
  assert (Hat : prd_at (rs_prods rs) k (pr_name p)) by (exists p; auto).
  destruct (first_exists _ _ _ Hat) as [j Hj]. exists (as_u16 (N.of_nat j)). split.
  - unfold lk. apply (so_get _ _ H). right. exists j. auto.
  - apply (so_max_ub _ _ H). right. exists (pr_name p). auto.
Qed.

Lemma lk_None : forall rs b, start_ok rs b -> forall n, lk b n = None <-> ~ defined rs n.
Proof.
  intros rs b H n. unfold lk. split.
  - intros E [[i Hi]|[i Hi]].
    + assert (X : map_get n (b_symbols b) = Some (Terminal (as_u16 (N.of_nat i)))) by (apply (so_get _ _ H); eauto). congruence.
    + destruct (first_exists _ _ _ Hi) as [j Hj].
      assert (X : map_get n (b_symbols b) = Some (NonTerminal (as_u16 (N.of_nat j)))) by (apply (so_get _ _ H); eauto). congruence.
  - intros Hn. destruct (map_get n (b_symbols b)) as [s|] eqn:E; auto. exfalso. apply Hn.
    apply (so_get _ _ H) in E. destruct E as [(i & Hi & _)|(i & [Hi _] & _)]; [left|right]; eauto.
Qed.

Lemma enough_max : forall rs b, start_ok rs b -> (enough_indices rs <-> (b_max b + ops_of (rs_prods rs) <= 65535)%N).
Proof.
  intros rs b H. unfold enough_indices. change (total_operators rs) with (ops_of (rs_prods rs)). split.
  - intros He. destruct (so_max_in _ _ H) as (i & Hi & ->). apply He. auto.
  - intros He i Hi. pose proof (so_max_ub _ _ H i Hi). unfold as_u16 in *. lia.
Qed.

Theorem from_rule_set_outcome : forall rs,
  match from_rule_set rs with
  | Ok g => (exists b als, grammar_built rs b g als) /\ (forall n, ~ missing rs n) /\ enough_indices rs
  | Err e => (exists x y, clash rs x y /\ e = ConflictingRules [x; y]) \/
             ((forall x y, ~ clash rs x y) /\ (rs_tokens rs <> [] \/ rs_prods rs <> []) /\ exists n, missing rs n /\ e = MissingSymbol n)
  | Panic => (forall x y, ~ clash rs x y) /\ ((rs_tokens rs = [] /\ rs_prods rs = []) \/ ~ enough_indices rs)
  | OutOfFuel => False
  end.
Proof.
  intros rs. unfold from_rule_set. pose proof (builder_start rs) as H.
  destruct (builder_from_rule_set rs) as [b|e| |]; cbn [bind]; auto.
  - destruct H as [Hs Hne]. unfold build.
    pose proof (add_rules_ok b (start_binv _ _ Hs) (so_temp _ _ Hs) (so_rules _ _ Hs) (rs_prods rs) (start_prod _ _ Hs)) as HA.
    destruct (foldM add_production_rule (rs_prods rs) b) as [b'|e| |] eqn:Erun; cbn [bind].
    + destruct HA as (als & B). unfold get_symbol_by_name.
      destruct (bu_same _ _ _ _ B) as (Es & Em & Et & Ep). rewrite Es. fold (lk b (rs_entry rs)).
      destruct (lk b (rs_entry rs)) as [s|] eqn:E; cbn [bind].
      * destruct (find (fun r => eqc (pr_name r) (rs_entry rs)) (rs_prods rs)) as [p|] eqn:Ef.
        -- split.
           ++ exists b, als. constructor; auto.
              ** exists b'. split; [exact B|]. cbn. rewrite Et, Ep. auto.
              ** exists p. auto.
           ++ split.
              ** intros n [(q & Hq & Hm & Hd)|[-> Hd]].
                 --- apply (bu_defined _ _ _ _ B q n Hq Hm). apply (lk_None _ _ Hs). auto.
                 --- apply find_name_None in Hd. congruence.
              ** apply (enough_max _ _ Hs). pose proof (bi_u16 _ (bu_inv _ _ _ _ B)) as X.
                 rewrite Em, (bu_temp _ _ _ _ B) in X. auto.
        -- right. split; [apply (clash_none _ _ Hs)|]. split; auto. exists (rs_entry rs). split; auto. right. split; auto.
           apply find_name_None; auto.
      * right. split; [apply (clash_none _ _ Hs)|]. split; auto. exists (rs_entry rs). split; auto. right. split; auto.
        intros i Hi. apply (lk_None _ _ Hs) in E. apply E. right. exists i. auto.
    + destruct HA as (n & p & -> & Hp & Hm & Hk). right. split; [apply (clash_none _ _ Hs)|]. split; auto.
      exists n. split; auto. left. exists p. split; auto. split; auto. apply (lk_None _ _ Hs). auto.
    + split; [apply (clash_none _ _ Hs)|]. right. intros X. apply (enough_max _ _ Hs) in X. lia.
    + auto.
  - split; auto. intros [i|i] [j|j] X; simpl in X; auto.
    + destruct X as (_ & name & (r & Hr & _) & _). destruct H as [H _]. rewrite H in Hr. destruct i; discriminate.
    + destruct X as (name & (r & Hr & _) & _). destruct H as [H _]. rewrite H in Hr. destruct i; discriminate.
Qed.

(** ** Well-formedness *)

Lemma built_wf : forall rs b g als, grammar_built rs b g als -> wf_grammar g.
Proof.
  intros rs b g als [Hs (b' & B & Er & Et & Ep & Ea & Hrun) (p & Hf & He & Hrule)].
  destruct (bu_same _ _ _ _ B) as (Ssy & Sm & St & Sp).
  pose proof (bu_inv _ _ _ _ B) as I. pose proof (bu_temp _ _ _ _ B) as T.
  assert (Hnt : forall i, In (NonTerminal i) (non_terminals g) <-> (exists name k, first_prod_at rs k name /\ i = as_u16 (N.of_nat k)) \/ range b (ops_of (rs_prods rs)) i).
  { intros i. unfold non_terminals. rewrite in_app_iff, Ep, Ea, (bi_anon _ I). rewrite Sm, T. split.
    - intros [X|(j & Hj & Hr)].
      + apply in_map_iff in X. destruct X as ((s & name) & X1 & X2). simpl in X1. subst s.
        destruct (so_prd _ _ Hs _ _ X2) as (k & Hk & E). injection E as ->. left. exists name, k. auto.
      + injection Hj as <-. right. auto.
    - intros [(name & k & Hk & ->)|Hr].
      + left. eapply so_prdkeys; eauto.
      + right. exists i. auto. }
  assert (Hlk : forall n s, lk b n = Some s -> known g s).
  { intros n s E. unfold lk in E. apply (so_get _ _ Hs) in E. destruct E as [(i & Hi & ->)|(i & Hi & ->)].
    - simpl. unfold terminals. rewrite Et. eapply so_tokkeys; eauto.
    - simpl. apply Hnt. left. exists n, i. auto. }
  constructor.
  - apply find_some in Hf. destruct Hf as [Hin Hn]. apply eqc_true in Hn.
    destruct (start_prod _ _ Hs p Hin) as (j & Hj & _). rewrite Hn in Hj. exists j.
    assert (E : g_entry g = NonTerminal j) by congruence. split; auto. rewrite <- E. 
    pose proof (Hlk _ _ He) as X. rewrite E in *. auto.
  - rewrite Hrule. auto.
  - intros r Hr. rewrite Er in Hr. destruct (bu_lhs _ _ _ _ B r Hr) as (i & Hi & [H|(q & Hq & H)]); exists i; split; auto.
    + apply Hnt. auto.
    + apply (Hlk _ _ H).
  - intros r s Hr Hin. rewrite Er in Hr. destruct (bu_rhs _ _ _ _ B r s Hr Hin) as [->|[(i & -> & H)|(n & H)]].
    + exact Logic.I.
    + simpl. apply Hnt. auto.
    + eapply Hlk; eauto.
  - unfold all_symbols, terminals, non_terminals. rewrite Et, Ep, Ea. apply NoDup_app_intro; [|apply NoDup_app_intro|].
    + apply sorted_NoDup. apply (so_tsorted _ _ Hs).
    + apply sorted_NoDup. apply (so_psorted _ _ Hs).
    + apply (bi_nodup _ I).
    + intros s H1 H2. apply (bi_anon _ I) in H2. destruct H2 as (i & -> & Hr). rewrite Sm in Hr.
      apply in_map_iff in H1. destruct H1 as ((s & name) & X1 & X2). simpl in X1. subst s.
      destruct (so_prd _ _ Hs _ _ X2) as (k & Hk & E). injection E as ->.
      assert (Hin : introduces rs k) by (right; eauto). pose proof (so_max_ub _ _ Hs k Hin). lia.
    + intros s H1 H2. apply in_map_iff in H1. destruct H1 as ((s' & name) & X1 & X2). simpl in X1. subst s'.
      destruct (so_tok _ _ Hs _ _ X2) as (k & Hk & ->). apply in_app_or in H2. destruct H2 as [H2|H2].
      * apply in_map_iff in H2. destruct H2 as ((s' & name') & Y1 & Y2). simpl in Y1. subst s'.
        destruct (so_prd _ _ Hs _ _ Y2) as (k' & Hk' & E). discriminate.
      * apply (bi_anon _ I) in H2. destruct H2 as (i & E & _). discriminate.
  - intros s H. unfold non_terminals in H. rewrite Ep, Ea in H. apply in_app_or in H. destruct H as [H|H].
    + apply in_map_iff in H. destruct H as ((s' & name') & Y1 & Y2). simpl in Y1. subst s'.
      destruct (so_prd _ _ Hs _ _ Y2) as (k' & Hk' & E). eauto.
    + apply (bi_anon _ I) in H. destruct H as (i & E & _). eauto.
  - intros s H. unfold terminals in H. rewrite Et in H. apply in_map_iff in H. destruct H as ((s' & name') & Y1 & Y2). simpl in Y1. subst s'.
    destruct (so_tok _ _ Hs _ _ Y2) as (k & Hk & ->). eauto.
  - intros s H. unfold all_symbols in H. apply in_app_or in H. destruct H as [H|H].
    + unfold terminals in H. rewrite Et in H. apply in_map_iff in H. destruct H as ((s' & name') & Y1 & Y2). simpl in Y1. subst s'.
      destruct (so_tok _ _ Hs _ _ Y2) as (k & Hk & ->). simpl. apply as_u16_lt.
    + unfold non_terminals in H. rewrite Ep, Ea in H. apply in_app_or in H. destruct H as [H|H].
      * apply in_map_iff in H. destruct H as ((s' & name') & Y1 & Y2). simpl in Y1. subst s'.
        destruct (so_prd _ _ Hs _ _ Y2) as (k' & Hk' & ->). simpl. apply as_u16_lt.
      * apply (bi_anon _ I) in H. destruct H as (i & -> & Hr). simpl. pose proof (bi_u16 _ I). lia.
Qed.

(** ** Language of the grammar *)

Lemma built_language : forall rs b g als, grammar_built rs b g als -> small rs ->
  forall ts, ebnf rs (QRule (rs_entry rs)) ts <->
    exists w, derives (g_rules g) [g_entry g] w /\ Forall2 (token_named g) w ts.
Proof.
  intros rs b g als [Hs (b' & B & Er & Et & Ep & Ea & Hrun) (p & Hf & He & Hrule)] [Hst Hsp] ts.
  assert (Hidx : forall i (l : nat), (i < l)%nat -> (N.of_nat l <= 65536)%N -> as_u16 (N.of_nat i) = N.of_nat i).
  { intros i l Hi Hl. apply as_u16_small. lia. }
  assert (Hget : forall n s, lk b n = Some s <-> (exists i, token_at rs i n /\ s = Terminal (N.of_nat i)) \/ (exists i, first_prod_at rs i n /\ s = NonTerminal (N.of_nat i))).
  { intros n s. unfold lk. rewrite (so_get _ _ Hs). split; (intros [(i & Hi & ->)|(i & Hi & ->)]; [left|right]; exists i; split; auto; f_equal).
    - apply Hidx with (l := length (rs_tokens rs)); auto. eapply tok_at_lt; eauto.
    - apply Hidx with (l := length (rs_prods rs)); auto. eapply prd_at_lt; apply Hi.
    - symmetry. apply Hidx with (l := length (rs_tokens rs)); auto. eapply tok_at_lt; eauto.
    - symmetry. apply Hidx with (l := length (rs_prods rs)); auto. eapply prd_at_lt; apply Hi. }
  assert (Hnamed : forall i n, token_at rs i n -> token_named g (N.of_nat i) n).
  { intros i n Hi. unfold token_named. rewrite Et. apply (so_toknames _ _ Hs); auto. }
  assert (HT : forall n, is_token rs n <-> exists i, token_at rs i n).
  { intros n. split.
    - intros (r & Hin & Hn). apply In_nth_error in Hin. destruct Hin as [k Hk]. exists k, r. auto.
    - intros (i & r & Hr & Hn). exists r. split; auto. eapply nth_error_In; eauto. }
  assert (C : compiled (g_rules g) (lk b) (QRule (rs_entry rs)) [g_entry g]) by (exists (g_entry g); auto).
  assert (P1 : forall n s, lk b n = Some s -> (exists t, s = Terminal t) \/ (exists j, s = NonTerminal j)).
  { intros n s H. apply Hget in H. destruct H as [(i & _ & ->)|(i & _ & ->)]; eauto. }
  assert (P2 : forall n t, lk b n = Some (Terminal t) -> is_token rs n /\ token_named g t n).
  { intros n t H. apply Hget in H. destruct H as [(i & Hi & E)|(i & _ & E)]; [|discriminate]. injection E as ->.
    split; [apply HT; eauto|apply Hnamed; auto]. }
  assert (P3 : forall n s, is_token rs n -> lk b n = Some s -> exists t, s = Terminal t /\ token_named g t n).
  { intros n s Ht H. apply HT in Ht. destruct Ht as [i Hi]. apply Hget in H. destruct H as [(k & Hk & ->)|(k & [Hk _] & _)].
    - eauto.
    - elim (so_disj _ _ Hs _ _ _ Hi Hk). }
  assert (P4 : forall p s, In p (rs_prods rs) -> lk b (pr_name p) = Some s -> exists j, s = NonTerminal j).
  { intros q s Hq H. destruct (start_prod _ _ Hs q Hq) as (j & Hj & _). exists j. congruence. }
  assert (P5 : forall n n' j, lk b n = Some (NonTerminal j) -> lk b n' = Some (NonTerminal j) -> n = n').
  { intros n n' j H H'. apply Hget in H, H'. destruct H as [(i & _ & E)|(i & [[r [Hr Hn]] _] & E)]; [discriminate|].
    destruct H' as [(i' & _ & E')|(i' & [[r' [Hr' Hn']] _] & E')]; [discriminate|]. injection E as ->. injection E' as E'.
    assert (i = i') by lia. subst i'. congruence. }
  assert (P6 : Forall2 (fun p al => compiled (g_rules g) (lk b) (pr_pattern p) al) (rs_prods rs) als).
  { apply (bu_compiled _ _ _ _ B). intros i be Hi. rewrite Er. tauto. }
  assert (P7 : forall n j be, lk b n = Some (NonTerminal j) -> (rhs_of (g_rules g) j be <->
    exists k p, nth_error (rs_prods rs) k = Some p /\ nth_error als k = Some be /\ lk b (pr_name p) = Some (NonTerminal j))).
  { intros n j be H. rewrite Er. apply (bu_named _ _ _ _ B). unfold lk in H. apply (so_get _ _ Hs) in H. destruct H as [(i & _ & E)|(i & Hi & E)]; [discriminate|]. injection E as ->.
    apply (so_max_ub _ _ Hs). right. eauto. }
  split.
  - intros H. eapply ebnf_derives; eauto.
  - intros (w & Hd & Hw). apply derives_sized in Hd. destruct Hd as [n Hd].
    destruct (derives_ebnf_sized rs (g_rules g) (lk b) (token_named g) als P1 P2 P5 P6 P7 n _ _ _ Hd C) as (ts' & F & E).
    assert (ts' = ts); [|subst; auto]. clear - F Hw Hs Et Hst Hidx. revert ts Hw. induction F as [|t n w ts' H F IH]; intros ts Hw; inversion Hw as [|? n' ? ts0 Hn' Hr]; subst; auto.
    f_equal; auto. unfold token_named in *. rewrite Et in *.
    assert (So := so_tsorted _ _ Hs). apply map_get_In in H, Hn'; auto. congruence.
Qed.
