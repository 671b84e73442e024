(** Proofs about NFA generation (C02, C03). *)
From Coq Require Import String List Arith NArith Bool Lia.
From Verif Require Import Base InputModel LexerModel LexerSpec GraphProof AlphabetProof.
Import ListNotations.
Open Scope nat_scope.

Lemma gen_In : forall F u (L : lang nat) v, In (u, L, v) (map gen F) ->
  exists l, In (u, l, v) F /\ L = (fun w => w = olist l).
Proof.
  intros F u L v H. apply in_map_iff in H. destruct H as [[[a l] b] [Heq Hin]].
  simpl in Heq. injection Heq as <- <- <-. eauto.
Qed.

Lemma In_gen : forall F u l v, In (u, l, v) F -> In (u, (fun w => w = olist l) : lang nat, v) (map gen F).
Proof. intros F u l v H. apply (in_map gen) in H. exact H. Qed.

Lemma Forall2_len : forall A B (R : A -> B -> Prop) l l', Forall2 R l l' -> length l = length l'.
Proof. induction 1; simpl; auto. Qed.

(** ** Chains of generalised edges *)

Fixpoint chain_edges (Ls : list (lang nat)) (nodes : list nat) : list gedge :=
  match Ls, nodes with
  | L :: Ls', a :: ((b :: _) as ns') => (a, L, b) :: chain_edges Ls' ns'
  | _, _ => []
  end.

Lemma chain_edges_In : forall Ls nodes u L v, In (u, L, v) (chain_edges Ls nodes) ->
  exists i, nth_error nodes i = Some u /\ nth_error Ls i = Some L /\ nth_error nodes (S i) = Some v.
Proof.
  induction Ls as [|M Ls IH]; intros nodes u L v H; simpl in H; [destruct H|].
  destruct nodes as [|a [|b ns]]; simpl in H; try (destruct H; fail).
  destruct H as [H|H].
  - injection H as <- <- <-. exists 0. auto.
  - destruct (IH _ _ _ _ H) as [i [H1 [H2 H3]]]. exists (S i). auto.
Qed.

Lemma chain_edges_nth : forall Ls nodes i u L v,
  nth_error nodes i = Some u -> nth_error Ls i = Some L -> nth_error nodes (S i) = Some v ->
  In (u, L, v) (chain_edges Ls nodes).
Proof.
  induction Ls as [|M Ls IH]; intros nodes i u L v H1 H2 H3; [destruct i; discriminate|].
  destruct nodes as [|a [|b ns]]; [destruct i; discriminate|destruct i as [|[|]]; discriminate|].
  destruct i as [|i].
  - simpl in *. injection H1 as <-. injection H2 as <-. injection H3 as <-. left. auto.
  - right. eapply (IH (b :: ns) i); eauto.
Qed.

Lemma NoDup_nth_inj : forall A (l : list A) i j x, NoDup l ->
  nth_error l i = Some x -> nth_error l j = Some x -> i = j.
Proof.
  intros A l i j x H Hi Hj. apply (NoDup_nth_error l); auto.
  - apply nth_error_Some. congruence.
  - congruence.
Qed.

Lemma skipn_nth : forall A (l : list A) i x, nth_error l i = Some x -> skipn i l = x :: skipn (S i) l.
Proof.
  induction l; intros [|i] x H; simpl in *; try discriminate.
  - injection H as ->. auto.
  - rewrite (IHl _ _ H). destruct l; auto.
Qed.

Lemma chain_lang : forall Ls s ms e w, length Ls = S (length ms) -> NoDup (s :: ms ++ [e]) ->
  (gpath (chain_edges Ls (s :: ms ++ [e])) s w e <-> lseq Ls w).
Proof.
  intros Ls s ms e w Hlen Hnd. split.
  - intros Hp.
    pose (Phi := fun x w => exists i, nth_error (s :: ms ++ [e]) i = Some x /\ lseq (skipn i Ls) w).
    assert (X : Phi s w).
    { eapply gpath_label0; [| |exact Hp].
      - intros u L v Hin w1 w2 HL [i [Hi Hw2]].
        apply chain_edges_In in Hin. destruct Hin as [j [H1 [H2 H3]]].
        assert (i = S j) by (eapply NoDup_nth_inj; eauto). subst i.
        exists j. split; auto. rewrite (skipn_nth _ _ _ _ H2). exists w1, w2. auto.
      - exists (length Ls). split.
        + rewrite Hlen. simpl. apply nth_error_snoc.
        + rewrite skipn_all. simpl. auto. }
    destruct X as [i [Hi Hw]]. assert (i = 0) by (eapply NoDup_nth_inj; eauto). subst i. exact Hw.
  - clear Hnd. revert s ms w Hlen. induction Ls as [|L Ls IH]; intros s ms w Hlen Hw; [discriminate|].
    destruct Hw as [w1 [w2 [-> [H1 H2]]]]. destruct ms as [|m ms].
    + destruct Ls; [|discriminate]. simpl in H2. subst w2.
      econstructor; [left; reflexivity|auto|constructor].
    + simpl. econstructor; [left; reflexivity|exact H1|].
      eapply gpath_incl; [|apply (IH m ms w2)]; auto. apply incl_tl, incl_refl.
Qed.

(** In a chain of copies of [L], [j] steps. *)
Lemma chain_steps : forall L n nodes j i u v w, j + i <= n ->
  nth_error nodes i = Some u -> nth_error nodes (j + i) = Some v -> lpow L j w ->
  gpath (chain_edges (repeat L n) nodes) u w v.
Proof.
  induction j; intros i u v w Hle Hu Hv Hw; cbn [lpow Nat.add] in *.
  - subst w. rewrite Hu in Hv. injection Hv as <-. constructor.
  - destruct Hw as [w1 [w2 [-> [H1 H2]]]].
    destruct (nth_error nodes (S i)) as [x|] eqn:Ex.
    + econstructor.
      * eapply chain_edges_nth; eauto. apply nth_error_repeat. lia.
      * exact H1.
      * apply (IHj (S i)); auto; try lia. rewrite <- Hv. f_equal. lia.
    + exfalso. apply nth_error_None in Ex. apply nth_error_lt in Hv. lia.
Qed.

(** ** Fragments *)

Section Frag.
Variable al : alphabet.
Context {A : Type}.

Definition sz (g : nfa A) : nat := length (nfa_nodes g).
Definition zone (g g' : nfa A) (x : nat) : Prop := sz g <= x < sz g'.
Definition is_inter (s : astate A) : Prop := exists n, s = Intermediate n.

Record ext (s e : nat) (g g' : nfa A) (F : list (nat * option nat * nat)) : Prop := {
  ext_nodes : exists ns, nfa_nodes g' = nfa_nodes g ++ ns /\ Forall is_inter ns;
  ext_edges : nfa_edges g' = F ++ nfa_edges g;
  ext_bound : forall u l v, In (u, l, v) F -> (u = s \/ zone g g' u) /\ (v = e \/ zone g g' v);
  ext_label : forall u t v, In (u, Some t, v) F -> t < length al
}.

Record isfrag (s e : nat) (g g' : nfa A) (F : list (nat * option nat * nat)) (L : lang nat) (inh : Prop) : Prop := {
  fr_ext : ext s e g g' F;
  fr_lang : forall w, gpath (map gen F) s w e <-> L w;
  fr_co : inh -> forall x, zone g g' x -> exists w, gpath (map gen F) x w e
}.

Definition frag (b : builder) (L : lang nat) (inh : Prop) : Prop :=
  forall s e g g', s < sz g -> e < sz g -> s <> e -> b s e g = Ok g' -> exists F, isfrag s e g g' F L inh.

Lemma ext_sz : forall s e g g' F, ext s e g g' F -> sz g <= sz g'.
Proof.
  intros s e g g' F [[ns [H _]] _ _ _]. unfold sz. rewrite H, app_length. lia.
Qed.

Lemma zone_dec : forall g g' x, zone g g' x \/ ~ zone g g' x.
Proof. unfold zone. intros. lia. Qed.

Lemma ext_bounded : forall s e g g' F, ext s e g g' F -> bounded (map gen F) s e (zone g g').
Proof.
  intros s e g g' F [_ _ Hb _] u L v H. apply gen_In in H. destruct H as [l [H _]]. eauto.
Qed.

Lemma frag_sim : forall s e g g' F L inh, s < sz g -> e < sz g -> isfrag s e g g' F L inh ->
  simulates (map gen F) [(s, L, e)] (zone g g').
Proof.
  intros s e g g' F L inh Hs He [Hx HL _]. eapply sim_lang; [|exact HL].
  apply sim_elim; auto using zone_dec.
  - apply ext_bounded; auto.
  - unfold zone; lia.
  - unfold zone; lia.
Qed.

(** Edges whose ends lie outside an interval avoid it. *)
Lemma ext_avoids : forall s e g g' F (N : nat -> Prop), ext s e g g' F ->
  ~ N s -> ~ N e -> (forall x, zone g g' x -> ~ N x) -> avoids (map gen F) N.
Proof.
  intros s e g g' F N Hx Hs He HN u L v H. destruct (ext_bounded _ _ _ _ _ Hx _ _ _ H) as [H1 H2].
  split.
  - destruct H1 as [->|H1]; auto.
  - destruct H2 as [->|H2]; auto.
Qed.

Lemma add_intermediate_sz : forall (g : nfa A) g' m, add_intermediate g = (g', m) ->
  sz g' = S (sz g) /\ m = sz g /\ nfa_edges g' = nfa_edges g /\
  nfa_nodes g' = nfa_nodes g ++ [Intermediate (nfa_count g)].
Proof.
  intros g g' m H. unfold add_intermediate in H. injection H as <- <-. unfold sz. simpl.
  rewrite app_length. simpl. repeat split. lia.
Qed.

Lemma chain_go_spec : forall bs Ls inh, Forall2 (fun b L => frag b L inh) bs Ls -> bs <> [] ->
  (inh -> Forall (fun L : lang nat => exists w, L w) Ls) ->
  forall s e g inter g' inter', s < sz g -> e < sz g -> s <> e ->
  chain_go bs s e g inter = Ok (g', inter') ->
  exists ms F, inter' = inter ++ ms /\ S (length ms) = length bs /\ NoDup ms /\
    (forall m, In m ms -> zone g g' m) /\ ext s e g g' F /\
    simulates (map gen F) (chain_edges Ls (s :: ms ++ [e])) (fun x => zone g g' x /\ ~ In x ms) /\
    (inh -> forall x, zone g g' x -> exists w, gpath (map gen F) x w e).
Proof.
  intros bs Ls inh HF. induction HF as [|b L bs Ls Hb HF IH]; intros Hne Hinh s e g inter g' inter' Hs He Hse H.
  - congruence.
  - destruct bs as [|b2 bs].
    + inversion HF; subst. simpl in H. inv_bind H. injection H as <- <-.
      destruct (Hb _ _ _ _ Hs He Hse Hb0) as [F Hfr].
      exists [], F. rewrite app_nil_r.
      split; [auto|]. split; [auto|]. split; [constructor|]. split; [intros x []|]. split; [apply Hfr|].
      split; [|apply Hfr]. simpl.
      eapply sim_weaken; [eapply frag_sim; eauto|]. intros x Hx. split; auto.
    + remember (b2 :: bs) as rest eqn:Erest.
      assert (H' : (let '(g1, m) := add_intermediate g in
                    do g2 <- b s m g1; chain_go rest m e g2 (inter ++ [m])) = Ok (g', inter')).
      { rewrite Erest in *. exact H. }
      clear H. destruct (add_intermediate g) as [g1 m] eqn:Eg1.
      apply add_intermediate_sz in Eg1. destruct Eg1 as [Hsz1 [Hm [He1 Hn1]]].
      inv_bind H'. rename a into g2.
      destruct (Hb s m g1 g2) as [F1 Hfr1]; auto; try lia.
      pose proof (ext_sz _ _ _ _ _ (fr_ext _ _ _ _ _ _ _ Hfr1)) as Hsz2.
      assert (Hinh' : inh -> Forall (fun L : lang nat => exists w, L w) Ls).
      { intros i. specialize (Hinh i). inversion Hinh; auto. }
      destruct (IH ltac:(subst; discriminate) Hinh' m e g2 (inter ++ [m]) g' inter') as
        [ms [F2 [Hi [Hlen [Hnd [Hz [Hx2 [Hsim2 Hco2]]]]]]]]; auto; try lia.
      pose proof (ext_sz _ _ _ _ _ Hx2) as Hsz3.
      destruct Hfr1 as [Hx1 HL1 Hco1].
      assert (Hsim1 : simulates (map gen F1) [(s, L, m)] (zone g1 g2)).
      { apply frag_sim with (inh := inh); try lia. constructor; auto. }
      exists (m :: ms), (F2 ++ F1).
      split; [rewrite Hi, <- app_assoc; auto|]. split; [simpl; lia|].
      split. { constructor; auto. intros X. apply Hz in X. unfold zone in X. lia. }
      split. { intros x [<-|X]; [unfold zone; lia|]. apply Hz in X. unfold zone in *. lia. }
      split.
      { destruct Hx1 as [[ns1 [N1 M1]] E1 B1 T1]. destruct Hx2 as [[ns2 [N2 M2]] E2 B2 T2]. constructor.
        - exists ([Intermediate (nfa_count g)] ++ ns1 ++ ns2). rewrite N2, N1, Hn1, <- !app_assoc. split; auto.
          constructor; [eexists; eauto|]. apply Forall_app; auto.
        - rewrite E2, E1, He1, app_assoc. auto.
        - intros u l v X. apply in_app_or in X. destruct X as [X|X].
          + apply B2 in X. unfold zone in *. lia.
          + apply B1 in X. unfold zone in *. lia.
        - intros u t v X. apply in_app_or in X. destruct X; eauto. }
      split.
      { eapply sim_perm.
        - eapply sim_app; [exact Hsim1|exact Hsim2| |].
          + eapply ext_avoids; eauto; unfold zone; lia.
          + intros u M v [X|[]]. injection X as <- <- <-. unfold zone; lia.
        - intros x. rewrite map_app, !in_app_iff. tauto.
        - intros x. simpl. tauto.
        - intros x. simpl. split.
          + intros [X|[X Y]]; unfold zone in *; (split; [lia|]).
            * intros [Z|Z]; [lia|]. apply Hz in Z. unfold zone in Z. lia.
            * intros [Z|Z]; [lia|]. tauto.
          + intros [X Y]. unfold zone in *. destruct (Nat.lt_ge_cases x (sz g2)).
            * left. assert (m <> x) by tauto. lia.
            * right. split; [lia|tauto]. }
      { intros i x Hx.
        assert (Hme : exists w, gpath (map gen (F2 ++ F1)) m w e).
        { (* by chaining the languages *)
          assert (HLs := Hinh' i).
          assert (Y : exists w, lseq Ls w).
          { clear -HLs. induction HLs as [|M Ms [w Hw] HMs [w' IH']]; [exists []; reflexivity|].
            exists (w ++ w'), w, w'. auto. }
          destruct Y as [w Hw]. exists w.
          eapply gpath_incl with (G := map gen F2).
          - rewrite map_app. apply incl_appl, incl_refl.
          - apply (sim_path _ _ _ m w e Hsim2).
            + unfold zone; lia.
            + unfold zone; lia.
            + apply chain_lang; auto.
              * rewrite <- (Forall2_len _ _ _ _ _ HF). lia.
              * constructor.
                -- intros X. apply in_app_or in X. destruct X as [X|[X|[]]]; [apply Hz in X; unfold zone in X; lia|lia].
                -- apply NoDup_app_intro; auto.
                   ++ constructor; [intros []|constructor].
                   ++ intros y Y1 [Y2|[]]. apply Hz in Y1. unfold zone in Y1. lia. }
        destruct (Nat.lt_ge_cases x (sz g1)).
        - assert (x = m) by (unfold zone in Hx; lia). subst x. exact Hme.
        - destruct (Nat.lt_ge_cases x (sz g2)).
          + destruct (Hco1 i x) as [w1 P1]; [unfold zone; lia|]. destruct Hme as [w2 P2].
            exists (w1 ++ w2). eapply gpath_trans; [|exact P2].
            eapply gpath_incl; [|exact P1]. rewrite map_app. apply incl_appr, incl_refl.
          + destruct (Hco2 i x) as [w1 P1]; [unfold zone in *; lia|]. exists w1.
            eapply gpath_incl; [|exact P1]. rewrite map_app. apply incl_appl, incl_refl. }
Qed.

Lemma frag_seq : forall bs Ls inh, Forall2 (fun b L => frag b L inh) bs Ls -> bs <> [] ->
  (inh -> Forall (fun L : lang nat => exists w, L w) Ls) ->
  frag (fun s e g => do (g', _) <- chain_pattern_iterator bs s e g; Ok g') (lseq Ls) inh.
Proof.
  intros bs Ls inh HF Hne Hinh s e g g' Hs He Hse H. inv_bind H. destruct a as [g1 inter].
  injection H as <-. destruct bs as [|b bs]; [congruence|].
  change (chain_go (b :: bs) s e g [] = Ok (g1, inter)) in Hb.
  destruct (chain_go_spec _ _ _ HF Hne Hinh s e g [] g1 inter Hs He Hse Hb)
    as [ms [F [_ [Hlen [Hnd [Hz [Hx [Hsim Hco]]]]]]]].
  exists F. constructor; auto.
  intros w. rewrite (sim_path _ _ _ s w e Hsim) by (unfold zone; lia).
  apply chain_lang.
  - rewrite <- (Forall2_len _ _ _ _ _ HF). lia.
  - constructor.
    + intros X. apply in_app_or in X. destruct X as [X|[X|[]]]; [apply Hz in X; unfold zone in X; lia|lia].
    + apply NoDup_app_intro; auto.
      * constructor; [intros []|constructor].
      * intros y Y1 [Y2|[]]. apply Hz in Y1. unfold zone in Y1. lia.
Qed.

Lemma frag_alt : forall bs Ls inh, Forall2 (fun b L => frag b L inh) bs Ls ->
  (inh -> Forall (fun L : lang nat => exists w, L w) Ls) ->
  frag (build_alternatives bs) (lunion Ls) inh.
Proof.
  intros bs Ls inh HF. induction HF as [|b L bs Ls Hb HF IH]; intros Hinh s e g g' Hs He Hse H.
  - simpl in H. injection H as <-. exists []. constructor.
    + constructor.
      * exists []. rewrite app_nil_r. auto.
      * auto.
      * intros u l v [].
      * intros u t v [].
    + intros w. split; [|intros []]. intros Hp. inversion Hp; subst; [congruence|]. destruct H.
    + intros _ x Hx. unfold zone in Hx. lia.
  - cbn [build_alternatives] in H. destruct (add_intermediate g) as [g1 is] eqn:Eg1. destruct (add_intermediate g1) as [g2 ie] eqn:Eg2.
    apply add_intermediate_sz in Eg1. destruct Eg1 as [Z1 [I1 [E1 N1]]].
    apply add_intermediate_sz in Eg2. destruct Eg2 as [Z2 [I2 [E2 N2]]].
    inv_bind H. rename a into g3.
    destruct (Hb is ie g2 g3) as [Fb Hfr]; auto; try lia.
    pose proof (ext_sz _ _ _ _ _ (fr_ext _ _ _ _ _ _ _ Hfr)) as Z3.
    set (g5 := add_eps ie e (add_eps s is g3)) in *.
    assert (Z5 : sz g5 = sz g3) by reflexivity.
    assert (Hinh' : inh -> Forall (fun L : lang nat => exists w, L w) Ls).
    { intros i. specialize (Hinh i). inversion Hinh; auto. }
    destruct (IH Hinh' s e g5 g') as [Fr Hfr2]; auto; try lia.
    pose proof (ext_sz _ _ _ _ _ (fr_ext _ _ _ _ _ _ _ Hfr2)) as Z6.
    assert (S1 : simulates (map gen Fb) [(is, L, ie)] (zone g2 g3)) by (eapply frag_sim; eauto; lia).
    assert (S2 : simulates (map gen Fr) [(s, lunion Ls, e)] (zone g5 g')) by (eapply frag_sim; eauto; lia).
    set (X := [(ie, None, e); (s, None, is)] : list (nat * option nat * nat)).
    pose proof (fr_ext _ _ _ _ _ _ _ Hfr) as X1. pose proof (fr_ext _ _ _ _ _ _ _ Hfr2) as X2.
    assert (AX : forall N : nat -> Prop, ~ N is -> ~ N ie -> ~ N s -> ~ N e -> avoids (map gen X) N).
    { intros N HN1 HN2 HN3 HN4 u M v [Y|[Y|[]]]; injection Y as <- _ <-; auto. }
    assert (S12 : simulates (map gen (Fr ++ X ++ Fb)) ([(s, lunion Ls, e)] ++ map gen X ++ [(is, L, ie)])
              (fun x => zone g5 g' x \/ (False \/ zone g2 g3 x))).
    { rewrite !map_app. apply sim_app; auto.
      - apply sim_app; auto using sim_refl.
        + intros u M v Hin. tauto.
        + apply AX; unfold zone; lia.
      - intros u M v Hin. apply in_app_or in Hin. destruct Hin as [Hin|Hin].
        + apply (AX (zone g5 g')) in Hin; auto; unfold zone; lia.
        + apply (ext_avoids _ _ _ _ _ (zone g5 g') X1) in Hin; auto; unfold zone; lia.
      - intros u M v [Y|[]]. injection Y as <- <- <-. unfold zone. lia. }
    exists (Fr ++ X ++ Fb). constructor.
    + destruct X1 as [[ns1 [A1 B1]] C1 D1 T1]. destruct X2 as [[ns2 [A2 B2]] C2 D2 T2]. constructor.
      * exists ([Intermediate (nfa_count g)] ++ [Intermediate (nfa_count g1)] ++ ns1 ++ ns2). split.
        -- rewrite A2. simpl. rewrite A1, N2, N1, <- !app_assoc. auto.
        -- constructor; [eexists; eauto|]. constructor; [eexists; eauto|]. apply Forall_app; auto.
      * rewrite C2. simpl. rewrite C1, E2, E1, <- !app_assoc. auto.
      * intros u l v Hin. rewrite !in_app_iff in Hin. destruct Hin as [Hin|[Hin|Hin]].
        -- apply D2 in Hin. unfold zone in *. lia.
        -- destruct Hin as [Y|[Y|[]]]; injection Y as <- <- <-; unfold zone; lia.
        -- apply D1 in Hin. unfold zone in *. lia.
      * intros u t v Hin. rewrite !in_app_iff in Hin. destruct Hin as [Hin|[Hin|Hin]]; eauto.
        destruct Hin as [Y|[Y|[]]]; discriminate.
    + intros w. rewrite (sim_path _ _ _ s w e S12) by (unfold zone; lia). split.
      * intros Hp.
        pose (Phi := fun x (w : list nat) => (x = s /\ (L w \/ lunion Ls w)) \/ (x = is /\ L w) \/
                        (x = ie /\ w = []) \/ (x = e /\ w = [])).
        assert (Y : Phi s w).
        { eapply gpath_label0; [| |exact Hp].
          - intros u M v Hin w1 w2 HM HPhi. unfold Phi in *. simpl in Hin.
            destruct Hin as [Y|[Y|[Y|[Y|[]]]]]; injection Y as <- <- <-; simpl in HM.
            + assert (w2 = []) by intuition (try lia). subst w2. rewrite app_nil_r. auto.
            + subst w1. assert (w2 = []) by intuition (try lia). subst w2. right. right. auto.
            + subst w1. left. split; auto. left. simpl. intuition (try lia); subst; auto.
            + assert (w2 = []) by intuition (try lia). subst w2. rewrite app_nil_r. right. left. auto.
          - right. right. right. auto. }
        unfold Phi in Y. destruct Y as [[_ Y]|[[Y _]|[[Y _]|[Y _]]]]; try lia; exact Y.
      * intros [Hw|Hw].
        -- assert (P : gpath ([(s, lunion Ls, e)] ++ map gen X ++ [(is, L, ie)]) s ([] ++ w ++ []) e).
           { eapply gpath_trans; [|eapply gpath_trans].
             - eapply gpath_one with (v := is); [right; right; left; reflexivity|reflexivity].
             - eapply gpath_one with (v := ie); [right; right; right; left; reflexivity|exact Hw].
             - eapply gpath_one; [right; left; reflexivity|reflexivity]. }
           rewrite app_nil_r in P. exact P.
        -- eapply gpath_one; [left; reflexivity|exact Hw].
    + intros i x Hx.
      assert (Pe : forall w x, gpath (map gen Fb) x w ie -> exists w', gpath (map gen (Fr ++ X ++ Fb)) x w' e).
      { intros w y Hy. exists (w ++ []). eapply gpath_trans.
        - eapply gpath_incl; [|exact Hy]. rewrite !map_app. intros z Hz. rewrite !in_app_iff. auto.
        - eapply gpath_one with (L := fun w => w = []); [|reflexivity].
          rewrite !map_app, !in_app_iff. right. left. left. reflexivity. }
      destruct Hfr as [_ HL1 Hco1]. destruct Hfr2 as [_ HL2 Hco2].
      destruct (Nat.lt_ge_cases x (sz g2)).
      * destruct (Nat.eq_dec x is) as [->|].
        -- specialize (Hinh i). inversion Hinh as [|? ? [w Hw]]; subst. apply HL1 in Hw. eapply Pe; eauto.
        -- assert (x = ie) by (unfold zone in Hx; lia). subst x. eapply (Pe []). constructor.
      * destruct (Nat.lt_ge_cases x (sz g3)).
        -- destruct (Hco1 i x) as [w P1]; [unfold zone; lia|]. eapply Pe; eauto.
        -- destruct (Hco2 i x) as [w P1]; [unfold zone in *; lia|]. exists w.
           eapply gpath_incl; [|exact P1]. rewrite map_app. apply incl_appl, incl_refl.
Qed.

Lemma Forall2_repeat : forall B C (R : B -> C -> Prop) b c n, R b c -> Forall2 R (repeat b n) (repeat c n).
Proof. induction n; simpl; auto. Qed.

Lemma Forall_repeat' : forall B (P : B -> Prop) b n, P b -> Forall P (repeat b n).
Proof. induction n; simpl; auto. Qed.

Lemma chain_nodes_NoDup : forall (g g' : nfa A) s ms e, s < sz g -> e < sz g -> s <> e -> NoDup ms ->
  (forall m, In m ms -> zone g g' m) -> NoDup (s :: ms ++ [e]).
Proof.
  intros g g' s ms e Hs He Hse Hnd Hz. constructor.
  - intros X. apply in_app_or in X. destruct X as [X|[X|[]]]; [apply Hz in X; unfold zone in X; lia|lia].
  - apply NoDup_app_intro; auto.
    + constructor; [intros []|constructor].
    + intros y Y1 [Y2|[]]. apply Hz in Y1. unfold zone in Y1. lia.
Qed.

Lemma lpow_inh : forall (L : lang nat) n, (exists w, L w) -> exists w, lpow L n w.
Proof.
  intros L n [w Hw]. induction n as [|n [w' IH]].
  - exists []. reflexivity.
  - exists (w ++ w'), w, w'. auto.
Qed.

(** Words of at most / at least [k] factors. *)
Definition lle (L : lang nat) (k : nat) : lang nat := fun w => exists j, j <= k /\ lpow L j w.
Definition lge (L : lang nat) (k : nat) : lang nat := fun w => exists j, k <= j /\ lpow L j w.

Lemma lle_nil : forall L k, lle L k [].
Proof. intros. exists 0. split; [lia|reflexivity]. Qed.
Lemma lge_nil : forall L, lge L 0 [].
Proof. intros. exists 0. split; [lia|reflexivity]. Qed.

(** Repetition without upper bound, lower bound 0. *)
Lemma frag_star : forall b L inh, frag b L inh -> (inh -> exists w, L w) ->
  frag (build_repetition 0 None b) (lge L 0) inh.
Proof.
  intros b L inh Hb Hinh s e g g' Hs He Hse H. unfold build_repetition in H.
  destruct (add_intermediate g) as [g1 is] eqn:Eg1. destruct (add_intermediate g1) as [g2 ie] eqn:Eg2.
  apply add_intermediate_sz in Eg1. destruct Eg1 as [Z1 [I1 [E1 N1]]].
  apply add_intermediate_sz in Eg2. destruct Eg2 as [Z2 [I2 [E2 N2]]].
  inv_bind H. rename a into g4. injection H as <-.
  set (g3 := add_eps s is g2) in *. assert (Z3 : sz g3 = sz g2) by reflexivity.
  destruct (Hb is ie g3 g4) as [Fb Hfr]; auto; try lia.
  pose proof (fr_ext _ _ _ _ _ _ _ Hfr) as X1.
  pose proof (ext_sz _ _ _ _ _ X1) as Z4.
  set (X := [(ie, None, e); (ie, None, is); (s, None, e); (s, None, is)] : list (nat * option nat * nat)).
  assert (S1 : simulates (map gen Fb) [(is, L, ie)] (zone g3 g4)) by (eapply frag_sim; eauto; lia).
  assert (S2 : simulates (map gen X ++ map gen Fb) (map gen X ++ [(is, L, ie)]) (fun x => False \/ zone g3 g4 x)).
  { apply sim_app; auto using sim_refl.
    - intros u M v Hin. tauto.
    - intros u M v [Y|[Y|[Y|[Y|[]]]]]; injection Y as <- _ <-; unfold zone; lia. }
  set (F := [(ie, None, e); (ie, None, is); (s, None, e)] ++ Fb ++ [(s, None, is)] : list (nat * option nat * nat)).
  assert (HF : forall x, In x (map gen X ++ map gen Fb) <-> In x (map gen F)).
  { intros x. unfold F. rewrite !map_app, !in_app_iff. simpl. tauto. }
  assert (S3 : simulates (map gen F) (map gen X ++ [(is, L, ie)]) (fun x => False \/ zone g3 g4 x)).
  { eapply sim_perm; eauto; tauto. }
  set (G := map gen X ++ [(is, L, ie)]) in *.
  exists F. constructor.
  - destruct X1 as [[ns1 [A1 B1]] C1 D1 T1]. constructor.
    + exists ([Intermediate (nfa_count g)] ++ [Intermediate (nfa_count g1)] ++ ns1). split.
      * simpl. rewrite A1. simpl. rewrite N2, N1, <- !app_assoc. auto.
      * constructor; [eexists; eauto|]. constructor; [eexists; eauto|]. auto.
    + simpl. rewrite C1. simpl. rewrite E2, E1, <- !app_assoc. auto.
    + intros u l v Hin. unfold F in Hin. rewrite !in_app_iff in Hin. simpl in Hin.
      assert (Zz : forall x, zone g3 g4 x -> zone g g4 x) by (unfold zone; intros; lia).
      change (zone g (add_eps ie e (add_eps ie is (add_eps s e g4)))) with (zone g g4).
      assert (zone g g4 is) by (unfold zone; lia). assert (zone g g4 ie) by (unfold zone; lia).
      destruct Hin as [[Y|[Y|[Y|[]]]]|[Hin|[Y|[]]]]; try (injection Y as <- <- <-; auto).
      apply D1 in Hin. destruct Hin as [[->|Y1] [->|Y2]]; auto.
    + intros u t v Hin. unfold F in Hin. rewrite !in_app_iff in Hin. simpl in Hin.
      destruct Hin as [[Y|[Y|[Y|[]]]]|[Hin|[Y|[]]]]; try discriminate; eauto.
  - intros w. rewrite (sim_path _ _ _ s w e S3) by (unfold zone; lia). split.
    + intros Hp.
      pose (Phi := fun x (w : list nat) => (x = s /\ lge L 0 w) \/ (x = is /\ lge L 1 w) \/
                      (x = ie /\ lge L 0 w) \/ (x = e /\ w = [])).
      assert (Y : Phi s w).
      { eapply gpath_label0; [| |exact Hp].
        - assert (Q : forall w, lge L 1 w -> lge L 0 w) by (intros q [j [Hj Hq]]; exists j; split; [lia|auto]).
          intros u M v Hin w1 w2 HM HPhi. unfold Phi in *. unfold G, X in Hin. simpl in Hin.
          destruct Hin as [Y|[Y|[Y|[Y|[Y|[]]]]]]; injection Y as <- <- <-; simpl in HM.
          + subst w1. destruct HPhi as [[? _]|[[? _]|[[? _]|[_ ->]]]]; try lia. right. right. left. split; auto. apply lge_nil.
          + subst w1. destruct HPhi as [[? _]|[[_ Q1]|[[? _]|[? _]]]]; try lia. right. right. left. auto.
          + subst w1. destruct HPhi as [[? _]|[[? _]|[[? _]|[_ ->]]]]; try lia. left. split; auto. apply lge_nil.
          + subst w1. destruct HPhi as [[? _]|[[_ Q1]|[[? _]|[? _]]]]; try lia. left. auto.
          + destruct HPhi as [[? _]|[[? _]|[[_ Q1]|[? _]]]]; try lia. right. left. split; auto.
            destruct Q1 as [j [_ Hj]]. exists (S j). split; [lia|]. exists w1, w2. auto.
        - right. right. right. auto. }
      unfold Phi in Y. destruct Y as [[_ Y]|[[Y _]|[[Y _]|[Y _]]]]; try lia; exact Y.
    + intros [k [_ Hk]].
      assert (Pk : forall k w, lpow L (S k) w -> gpath G is w ie).
      { clear k w Hk. induction k; intros w Hw.
        - destruct Hw as [w1 [w2 [-> [H1 H2]]]]. simpl in H2. subst w2. rewrite app_nil_r.
          eapply gpath_one; [|exact H1]. unfold G. apply in_or_app. right. left. reflexivity.
        - destruct Hw as [w1 [w2 [-> [H1 H2]]]]. eapply gpath_trans with (v := ie).
          + eapply gpath_one; [|exact H1]. unfold G. apply in_or_app. right. left. reflexivity.
          + change w2 with ([] ++ w2). eapply gpath_trans with (v := is); [|apply IHk; exact H2].
            eapply gpath_one; [right; left; reflexivity|reflexivity]. }
      destruct k.
      * simpl in Hk. subst w. eapply gpath_one; [right; right; left; reflexivity|reflexivity].
      * change w with ([] ++ w). eapply gpath_trans with (v := is).
        -- eapply gpath_one; [right; right; right; left; reflexivity|reflexivity].
        -- rewrite <- (app_nil_r w). eapply gpath_trans with (v := ie); [eapply Pk; exact Hk|].
           eapply gpath_one; [left; reflexivity|reflexivity].
  - intros i x Hx.
    assert (Pe : forall w x, gpath (map gen Fb) x w ie -> exists w', gpath (map gen F) x w' e).
    { intros w y Hy. exists (w ++ []). eapply gpath_trans.
      - eapply gpath_incl; [|exact Hy]. unfold F. rewrite !map_app. intros z Hz. rewrite !in_app_iff. auto.
      - eapply gpath_one with (L := fun w => w = []); [left; reflexivity|reflexivity]. }
    destruct Hfr as [_ HL1 Hco1]. unfold zone in Hx. change (sz (add_eps ie e (add_eps ie is (add_eps s e g4)))) with (sz g4) in Hx.
    destruct (Nat.lt_ge_cases x (sz g3)).
    + destruct (Nat.eq_dec x is) as [->|].
      * destruct (Hinh i) as [w Hw]. apply HL1 in Hw. eapply Pe; eauto.
      * assert (x = ie) by lia. subst x. eapply (Pe []). constructor.
    + destruct (Hco1 i x) as [w P1]; [unfold zone; lia|]. eapply Pe; eauto.
Qed.

Lemma last_nth : forall (ms : list nat) s e, nth_error (s :: ms ++ [e]) (length ms) = Some (last ms s).
Proof.
  induction ms as [|m ms IH]; intros s e; auto.
  change (nth_error (m :: ms ++ [e]) (length ms) = Some (last (m :: ms) s)).
  rewrite IH. f_equal. destruct ms; auto. simpl. clear. revert n. induction ms; intros; simpl; auto.
Qed.

Lemma nth_chain_end : forall (ms : list nat) s e, nth_error (s :: ms ++ [e]) (S (length ms)) = Some e.
Proof. intros. simpl. apply nth_error_snoc. Qed.

(** Repetition without upper bound, lower bound positive. *)
Lemma frag_plus : forall b L inh mn, mn <> 0%N -> frag b L inh -> (inh -> exists w, L w) ->
  frag (build_repetition mn None b) (lge L (N.to_nat mn)) inh.
Proof.
  intros b L inh mn Hmn Hb Hinh s e g g' Hs He Hse H. unfold build_repetition in H.
  destruct (add_intermediate g) as [g1 is] eqn:Eg1. destruct (add_intermediate g1) as [g2 ie] eqn:Eg2.
  apply add_intermediate_sz in Eg1. destruct Eg1 as [Z1 [I1 [E1 N1]]].
  apply add_intermediate_sz in Eg2. destruct Eg2 as [Z2 [I2 [E2 N2]]].
  set (g3 := add_eps s is g2) in *. assert (Z3 : sz g3 = sz g2) by reflexivity.
  assert (H' : (do (g4, inter) <- chain_pattern_times (N.to_nat mn) b is ie g3;
                Ok (add_eps ie e (add_eps ie (last inter is) g4))) = Ok g').
  { destruct mn; [congruence|]. simpl in H. exact H. }
  clear H. apply bind_Ok in H'. destruct H' as [[g4 inter] [Hch H]]. injection H as <-.
  remember (N.to_nat mn) as n eqn:En. assert (Hn : n <> 0) by lia. clear En Hmn mn.
  unfold chain_pattern_times in Hch.
  assert (Hch' : chain_go (repeat b n) is ie g3 [] = Ok (g4, inter)).
  { destruct n; [congruence|]. exact Hch. }
  clear Hch.
  destruct (chain_go_spec (repeat b n) (repeat L n) inh) with (s := is) (e := ie) (g := g3) (inter := @nil nat) (g' := g4) (inter' := inter)
    as [ms [Fc [Hi [Hlen [Hnd [Hz [X1 [S1 Hco]]]]]]]]; auto; try lia.
  { apply Forall2_repeat. auto. }
  { destruct n; [congruence|discriminate]. }
  { intros i. apply Forall_repeat'. auto. }
  simpl in Hi. subst inter. rewrite repeat_length in Hlen.
  pose proof (ext_sz _ _ _ _ _ X1) as Z4.
  set (prev := last ms is) in *.
  set (nodes := is :: ms ++ [ie]) in *.
  assert (Hndn : NoDup nodes) by (eapply chain_nodes_NoDup; eauto; lia).
  assert (Hnodes : forall x, In x nodes -> sz g <= x).
  { intros x [<-|X]; [lia|]. apply in_app_or in X. destruct X as [X|[<-|[]]]; [|lia]. apply Hz in X. unfold zone in X. lia. }
  assert (Hprev : nth_error nodes (n - 1) = Some prev).
  { replace (n - 1) with (length ms) by lia. apply last_nth. }
  assert (Hie : nth_error nodes n = Some ie).
  { replace n with (S (length ms)) by lia. apply nth_chain_end. }
  assert (Hpz : ~ (zone g3 g4 prev /\ ~ In prev ms)).
  { apply nth_error_In in Hprev. destruct Hprev as [<-|X]; [unfold zone; lia|].
    apply in_app_or in X. destruct X as [X|[<-|[]]]; [tauto|unfold zone; lia]. }
  set (X := [(ie, None, e); (ie, None, prev); (s, None, is)] : list (nat * option nat * nat)).
  assert (S2 : simulates (map gen X ++ map gen Fc) (map gen X ++ chain_edges (repeat L n) nodes)
     (fun x => False \/ (zone g3 g4 x /\ ~ In x ms))).
  { apply sim_app; auto using sim_refl.
    - intros u M v Hin. tauto.
    - intros u M v [Y|[Y|[Y|[]]]]; injection Y as <- _ <-; (split; [|auto; try (unfold zone; lia)]); unfold zone; lia. }
  set (F := [(ie, None, e); (ie, None, prev)] ++ Fc ++ [(s, None, is)] : list (nat * option nat * nat)).
  assert (HF : forall x, In x (map gen X ++ map gen Fc) <-> In x (map gen F)).
  { intros x. unfold F. rewrite !map_app, !in_app_iff. simpl. tauto. }
  assert (S3 : simulates (map gen F) (map gen X ++ chain_edges (repeat L n) nodes) (fun x => False \/ (zone g3 g4 x /\ ~ In x ms))).
  { eapply sim_perm; eauto; tauto. }
  set (G := map gen X ++ chain_edges (repeat L n) nodes) in *.
  exists F. constructor.
  - destruct X1 as [[ns1 [A1 B1]] C1 D1 T1]. constructor.
    + exists ([Intermediate (nfa_count g)] ++ [Intermediate (nfa_count g1)] ++ ns1). split.
      * simpl. rewrite A1. simpl. rewrite N2, N1, <- !app_assoc. auto.
      * constructor; [eexists; eauto|]. constructor; [eexists; eauto|]. auto.
    + simpl. rewrite C1. simpl. rewrite E2, E1, <- !app_assoc. auto.
    + intros u l v Hin. unfold F in Hin. rewrite !in_app_iff in Hin. simpl in Hin.
      assert (Zz : forall x, zone g3 g4 x -> zone g g4 x) by (unfold zone; intros; lia).
      change (zone g (add_eps ie e (add_eps ie prev g4))) with (zone g g4).
      assert (zone g g4 is) by (unfold zone; lia). assert (zone g g4 ie) by (unfold zone; lia).
      assert (zone g g4 prev).
      { apply nth_error_In in Hprev. destruct Hprev as [<-|Y]; auto.
        apply in_app_or in Y. destruct Y as [Y|[<-|[]]]; auto. }
      destruct Hin as [[Y|[Y|[]]]|[Hin|[Y|[]]]]; try (injection Y as <- <- <-; auto).
      apply D1 in Hin. destruct Hin as [[->|Y1] [->|Y2]]; auto.
    + intros u t v Hin. unfold F in Hin. rewrite !in_app_iff in Hin. simpl in Hin.
      destruct Hin as [[Y|[Y|[]]]|[Hin|[Y|[]]]]; try discriminate; eauto.
  - intros w. rewrite (sim_path _ _ _ s w e S3) by (unfold zone; lia). split.
    + intros Hp.
      pose (Phi := fun x (w : list nat) => (x = s /\ lge L n w) \/
                      (exists i, nth_error nodes i = Some x /\ lge L (n - i) w) \/ (x = e /\ w = [])).
      assert (Y : Phi s w).
      { eapply gpath_label0; [| |exact Hp].
        - assert (Hnn : forall x i, nth_error nodes i = Some x -> sz g <= x) by (intros; eapply Hnodes, nth_error_In; eauto).
          intros u M v Hin w1 w2 HM HPhi. unfold Phi in *. unfold G in Hin. rewrite in_app_iff in Hin. simpl in Hin.
          destruct Hin as [[Y|[Y|[Y|[]]]]|Hin]; try (injection Y as <- <- <-; simpl in HM).
          + subst w1. destruct HPhi as [[? _]|[[i [Q1 Q2]]|[_ ->]]]; [lia|apply Hnn in Q1; lia|].
            right. left. exists n. split; auto. rewrite Nat.sub_diag. apply lge_nil.
          + subst w1. destruct HPhi as [[Q1 _]|[[i [Q1 Q2]]|[Q1 _]]]; [apply Hnn in Hprev; lia| |apply Hnn in Hprev; lia].
            assert (i = n - 1) by (eapply NoDup_nth_inj; eauto). subst i.
            right. left. exists n. split; auto. rewrite Nat.sub_diag. destruct Q2 as [j [_ Q2]]. exists j. split; [lia|auto].
          + subst w1. destruct HPhi as [[Q1 _]|[[i [Q1 Q2]]|[Q1 _]]]; [lia| |lia].
            assert (i = 0) by (eapply NoDup_nth_inj; eauto; reflexivity). subst i.
            left. rewrite Nat.sub_0_r in Q2. auto.
          + apply chain_edges_In in Hin. destruct Hin as [i [Q1 [Q2 Q3]]].
            assert (M = L). { apply nth_error_In in Q2. apply repeat_spec in Q2. auto. } subst M.
            apply nth_error_lt in Q2. rewrite repeat_length in Q2.
            destruct HPhi as [[Q4 _]|[[i' [Q4 Q5]]|[Q4 _]]]; [apply Hnn in Q3; lia| |apply Hnn in Q3; lia].
            assert (i' = S i) by (eapply NoDup_nth_inj; eauto). subst i'.
            right. left. exists i. split; auto. destruct Q5 as [j [Q5 Q6]]. exists (S j). split; [lia|].
            exists w1, w2. auto.
        - right. right. auto. }
      unfold Phi in Y. destruct Y as [[_ Y]|[[i [Y _]]|[Y _]]]; [exact Y| |lia].
      apply nth_error_In in Y. apply Hnodes in Y. lia.
    + intros [k [Hk Hw]].
      assert (Inc : incl (chain_edges (repeat L n) nodes) G) by (apply incl_appr, incl_refl).
      assert (Pl : forall k w, lpow L k w -> gpath G ie w ie).
      { clear k Hk w Hw. induction k; intros w Hw; simpl in Hw.
        - subst w. constructor.
        - destruct Hw as [w1 [w2 [-> [H1 H2]]]]. change (w1 ++ w2) with ([] ++ w1 ++ w2).
          eapply gpath_trans with (v := prev).
          + eapply gpath_one; [right; left; reflexivity|reflexivity].
          + eapply gpath_trans with (v := ie); [|apply IHk; auto].
            eapply gpath_incl; [exact Inc|]. eapply (chain_steps L n nodes 1 (n - 1)); eauto; try lia.
            * rewrite <- Hie. f_equal. lia.
            * exists w1, []. rewrite app_nil_r. repeat split; auto. }
      replace k with (n + (k - n)) in Hw by lia. apply lpow_split in Hw.
      destruct Hw as [w1 [w2 [-> [H1 H2]]]].
      change (w1 ++ w2) with ([] ++ w1 ++ w2). eapply gpath_trans with (v := is).
      * eapply gpath_one; [right; right; left; reflexivity|reflexivity].
      * eapply gpath_trans with (v := ie).
        -- eapply gpath_incl; [exact Inc|]. eapply (chain_steps L n nodes n 0); eauto; try lia. rewrite Nat.add_0_r. auto.
        -- rewrite <- (app_nil_r w2). eapply gpath_trans; [eapply Pl; eauto|].
           eapply gpath_one; [left; reflexivity|reflexivity].
  - intros i x Hx.
    assert (Pe : forall w x, gpath (map gen Fc) x w ie -> exists w', gpath (map gen F) x w' e).
    { intros w y Hy. exists (w ++ []). eapply gpath_trans.
      - eapply gpath_incl; [|exact Hy]. unfold F. rewrite !map_app. intros z Hzz. rewrite !in_app_iff. auto.
      - eapply gpath_one with (L := fun w => w = []); [left; reflexivity|reflexivity]. }
    unfold zone in Hx. change (sz (add_eps ie e (add_eps ie prev g4))) with (sz g4) in Hx.
    destruct (Nat.lt_ge_cases x (sz g3)).
    + destruct (Nat.eq_dec x is) as [->|].
      * destruct (lpow_inh L n (Hinh i)) as [w Hw]. eapply (Pe w).
        apply (sim_path _ _ _ is w ie S1); try (unfold zone; lia).
        eapply (chain_steps L n nodes n 0); eauto; try lia. rewrite Nat.add_0_r. auto.
      * assert (x = ie) by lia. subst x. eapply (Pe []). constructor.
    + destruct (Hco i x) as [w P1]; [unfold zone; lia|]. eapply Pe; eauto.
Qed.

Lemma fold_add_eps : forall e l (g : nfa A),
  nfa_nodes (fold_left (fun h mi => add_eps mi e h) l g) = nfa_nodes g /\
  nfa_edges (fold_left (fun h mi => add_eps mi e h) l g) = rev (map (fun mi => (mi, None, e)) l) ++ nfa_edges g.
Proof.
  induction l as [|m l IH]; intros g; simpl; auto.
  destruct (IH (add_eps m e g)) as [H1 H2]. rewrite H1, H2. simpl. split; auto.
  rewrite <- app_assoc. auto.
Qed.

(** The mandatory part of a bounded repetition. *)
Lemma frag_exact : forall b L inh mn, frag b L inh -> (inh -> exists w, L w) ->
  forall s e g g' inter, s < sz g -> e < sz g -> s <> e ->
  (if (mn =? 0)%N then Ok (add_eps s e g, []) else chain_pattern_times (N.to_nat mn) b s e g) = Ok (g', inter) ->
  exists F, isfrag s e g g' F (lpow L (N.to_nat mn)) inh.
Proof.
  intros b L inh mn Hb Hinh s e g g' inter Hs He Hse H.
  destruct (N.eqb_spec mn 0) as [->|Hmn].
  - injection H as <- <-. exists [(s, None, e)]. constructor.
    + constructor.
      * exists []. rewrite app_nil_r. auto.
      * reflexivity.
      * intros u l v [Y|[]]. injection Y as <- <- <-. auto.
      * intros u t v [Y|[]]. discriminate.
    + intros w. simpl. split.
      * intros Hp. inversion Hp; subst; [congruence|]. destruct H as [Y|[]]. injection Y as <- <-. simpl in H0. subst w1.
        inversion H1; subst; auto. destruct H as [Y|[]]. injection Y as <- _ _. congruence.
      * intros ->. eapply gpath_one; [left; reflexivity|reflexivity].
    + intros _ x Hx. unfold zone, sz in Hx. simpl in Hx. lia.
  - remember (N.to_nat mn) as n eqn:En. assert (Hn : n <> 0) by lia. clear En Hmn mn.
    destruct (frag_seq (repeat b n) (repeat L n) inh) with (s := s) (e := e) (g := g) (g' := g') as [F Hfr]; auto.
    { apply Forall2_repeat. auto. }
    { destruct n; [congruence|discriminate]. }
    { intros i. apply Forall_repeat'. auto. }
    { unfold chain_pattern_times in H. rewrite H. reflexivity. }
    exists F. destruct Hfr as [Q1 Q2 Q3]. constructor; auto.
    intros w. rewrite Q2. apply lseq_repeat.
Qed.

Definition lbetween (L : lang nat) (a k : nat) : lang nat :=
  fun w => exists j, a <= j /\ j <= k /\ lpow L j w.

Lemma frag_bounded : forall b L inh mn m, frag b L inh -> (inh -> exists w, L w) ->
  frag (build_repetition mn (Some m) b) (lbetween L (N.to_nat mn) (N.to_nat m)) inh.
Proof.
  intros b L inh mn m Hb Hinh s e g g' Hs He Hse H. unfold build_repetition in H.
  destruct (add_intermediate g) as [g1 is] eqn:Eg1. destruct (add_intermediate g1) as [g2 ie] eqn:Eg2.
  apply add_intermediate_sz in Eg1. destruct Eg1 as [Z1 [I1 [E1 N1]]].
  apply add_intermediate_sz in Eg2. destruct Eg2 as [Z2 [I2 [E2 N2]]].
  set (g3 := add_eps s is g2) in *. assert (Z3 : sz g3 = sz g2) by reflexivity.
  assert (H' : (do (g4, _) <- (if (mn =? 0)%N then Ok (add_eps is ie g3, [])
                       else chain_pattern_times (N.to_nat mn) b is ie g3);
     if (m <? mn)%N then Panic else
      let '(g5, ms) := add_intermediate g4 in
      let g6 := add_eps ie ms g5 in
      let '(g7, me) := add_intermediate g6 in
      do (g8, minter) <- chain_pattern_times (N.to_nat (m - mn)) b ms me g7;
      Ok (fold_left (fun h mi => add_eps mi e h) (minter ++ [ms; me]) g8)) = Ok g').
  { destruct mn; exact H. }
  clear H. apply bind_Ok in H'. destruct H' as [[g4 inter] [Hex H]].
  destruct (frag_exact b L inh mn Hb Hinh is ie g3 g4 inter) as [F0 Hfr0]; auto; try lia.
  pose proof (fr_ext _ _ _ _ _ _ _ Hfr0) as X0. pose proof (ext_sz _ _ _ _ _ X0) as Z4.
  destruct (N.ltb_spec m mn) as [|Hmm]; [discriminate|].
  destruct (add_intermediate g4) as [g5 ms0] eqn:Eg5.
  apply add_intermediate_sz in Eg5. destruct Eg5 as [Z5 [I5 [E5 N5]]].
  set (g6 := add_eps ie ms0 g5) in *. assert (Z6 : sz g6 = sz g5) by reflexivity.
  cbv zeta in H. destruct (add_intermediate g6) as [g7 me] eqn:Eg7.
  apply add_intermediate_sz in Eg7. destruct Eg7 as [Z7 [I7 [E7 N7]]].
  apply bind_Ok in H. destruct H as [[g8 minter] [Hch H]].
  remember (N.to_nat (m - mn)) as n eqn:En.
  assert (Hm : N.to_nat m = N.to_nat mn + n) by lia. rewrite Hm.
  remember (N.to_nat mn) as a eqn:Ea. clear En Hm Hmm.
  unfold chain_pattern_times in Hch.
  assert (Hn : n <> 0). { intros ->. discriminate Hch. }
  assert (Hch' : chain_go (repeat b n) ms0 me g7 [] = Ok (g8, minter)).
  { destruct n; [congruence|]. exact Hch. }
  clear Hch.
  destruct (chain_go_spec (repeat b n) (repeat L n) inh) with (s := ms0) (e := me) (g := g7) (inter := @nil nat) (g' := g8) (inter' := minter)
    as [ms [Fc [Hi [Hlen [Hnd [Hz [X1 [S1 Hco]]]]]]]]; auto; try lia.
  { apply Forall2_repeat. auto. }
  { destruct n; [congruence|discriminate]. }
  { intros i. apply Forall_repeat'. auto. }
  simpl in Hi. subst minter. rewrite repeat_length in Hlen.
  pose proof (ext_sz _ _ _ _ _ X1) as Z8.
  set (nodes := ms0 :: ms ++ [me]) in *.
  assert (Hndn : NoDup nodes) by (eapply chain_nodes_NoDup; eauto; lia).
  assert (Hnodes : forall x, In x nodes -> sz g4 <= x < sz g8 /\ ~ (zone g7 g8 x /\ ~ In x ms)).
  { intros x [<-|X]; [unfold zone; split; lia|]. apply in_app_or in X. destruct X as [X|[<-|[]]]; [|unfold zone; split; lia].
    split; [|tauto]. apply Hz in X. unfold zone in X. lia. }
  assert (Hme : nth_error nodes n = Some me).
  { replace n with (S (length ms)) by lia. apply nth_chain_end. }
  assert (Hlist : forall x, In x (ms ++ [ms0; me]) <-> In x nodes).
  { intros x. unfold nodes. simpl. rewrite !in_app_iff. simpl. tauto. }
  set (X := map (fun mi => (mi, None, e)) (ms ++ [ms0; me]) ++ [(ie, None, ms0); (s, None, is)] : list (nat * option nat * nat)).
  assert (HX : forall u l v, In (u, l, v) X -> l = None /\ ((In u nodes /\ v = e) \/ (u = ie /\ v = ms0) \/ (u = s /\ v = is))).
  { intros u l v Hin. unfold X in Hin. apply in_app_or in Hin. destruct Hin as [Hin|[Y|[Y|[]]]].
    - apply in_map_iff in Hin. destruct Hin as [x [Q1 Q2]]. injection Q1 as <- <- <-. apply Hlist in Q2. auto.
    - injection Y as <- <- <-. auto.
    - injection Y as <- <- <-. auto. }
  assert (AX : avoids (map gen X) (zone g3 g4) /\ avoids (map gen X) (fun x => zone g7 g8 x /\ ~ In x ms)).
  { split; intros u M v Hin; apply gen_In in Hin; destruct Hin as [l [Hin _]]; apply HX in Hin;
      destruct Hin as [_ [[Q1 ->]|[[-> ->]|[-> ->]]]]; try (apply Hnodes in Q1);
      (split; [try tauto|try tauto]); unfold zone; try lia. }
  destruct AX as [AX1 AX2].
  assert (S0 : simulates (map gen F0) [(is, lpow L a, ie)] (zone g3 g4)) by (eapply frag_sim; eauto; lia).
  assert (S2 : simulates (map gen X ++ (map gen Fc ++ map gen F0)) (map gen X ++ (chain_edges (repeat L n) nodes ++ [(is, lpow L a, ie)]))
     (fun x => False \/ ((zone g7 g8 x /\ ~ In x ms) \/ zone g3 g4 x))).
  { apply sim_app; auto using sim_refl.
    - apply sim_app; auto.
      + eapply ext_avoids; eauto; unfold zone; try lia.
      + intros u M v Hin. apply chain_edges_In in Hin. destruct Hin as [i [Q1 [_ Q2]]].
        apply nth_error_In in Q1. apply nth_error_In in Q2. apply Hnodes in Q1. apply Hnodes in Q2.
        unfold zone. lia.
    - intros u M v Hin. tauto.
    - intros u M v Hin. destruct (AX1 _ _ _ Hin), (AX2 _ _ _ Hin). tauto. }
  set (F := rev (map (fun mi => (mi, None, e)) (ms ++ [ms0; me])) ++ Fc ++ [(ie, None, ms0)] ++ F0 ++ [(s, None, is)] : list (nat * option nat * nat)).
  assert (HFin : forall x, In x F <-> In x X \/ In x Fc \/ In x F0).
  { intros x. unfold F, X. rewrite !in_app_iff, <- in_rev. simpl. tauto. }
  assert (HF : forall x, In x (map gen X ++ (map gen Fc ++ map gen F0)) <-> In x (map gen F)).
  { intros x. rewrite <- !map_app. rewrite !in_map_iff. split; intros [y [Y1 Y2]]; exists y; (split; auto).
    - apply HFin. rewrite !in_app_iff in Y2. tauto.
    - apply HFin in Y2. rewrite !in_app_iff. tauto. }
  pose proof (sim_perm _ _ _ _ _ _ S2 HF (fun x => iff_refl _) (fun x => iff_refl _)) as S3.
  set (G := map gen X ++ (chain_edges (repeat L n) nodes ++ [(is, lpow L a, ie)])) in *.
  destruct (fold_add_eps e (ms ++ [ms0; me]) g8) as [Hfn Hfe].
  injection H as H. rewrite H in Hfn, Hfe.
  assert (Zg' : sz g' = sz g8) by (unfold sz; rewrite Hfn; auto).
  exists F. constructor.
  - destruct X1 as [[ns1 [A1 B1]] C1 D1 T1]. destruct X0 as [[ns0 [A0 B0]] C0 D0 T0]. constructor.
    + exists ([Intermediate (nfa_count g)] ++ [Intermediate (nfa_count g1)] ++ ns0 ++ [Intermediate (nfa_count g4)] ++ [Intermediate (nfa_count g6)] ++ ns1). split.
      * rewrite Hfn, A1, N7. simpl. rewrite N5, A0. simpl. rewrite N2, N1, <- !app_assoc. reflexivity.
      * constructor; [eexists; eauto|]. constructor; [eexists; eauto|]. apply Forall_app; split; auto.
        constructor; [eexists; eauto|]. constructor; [eexists; eauto|]. auto.
    + rewrite Hfe, C1, E7. simpl. rewrite E5, C0. simpl. rewrite E2, E1. unfold F. rewrite <- !app_assoc. reflexivity.
    + intros u l v Hin. apply HFin in Hin.
      assert (Zz0 : forall x, zone g3 g4 x -> zone g g' x) by (unfold zone; intros; lia).
      assert (Zz1 : forall x, zone g7 g8 x -> zone g g' x) by (unfold zone; intros; lia).
      assert (Zn : forall x, In x nodes -> zone g g' x) by (intros x Hx; apply Hnodes in Hx; unfold zone; lia).
      assert (zone g g' is) by (unfold zone; lia). assert (zone g g' ie) by (unfold zone; lia).
      assert (zone g g' ms0) by (unfold zone; lia). assert (zone g g' me) by (unfold zone; lia).
      destruct Hin as [Hin|[Hin|Hin]].
      * apply HX in Hin. destruct Hin as [_ [[Q1 ->]|[[-> ->]|[-> ->]]]]; auto.
      * apply D1 in Hin. destruct Hin as [[->|Y1] [->|Y2]]; auto.
      * apply D0 in Hin. destruct Hin as [[->|Y1] [->|Y2]]; auto.
    + intros u t v Hin. apply HFin in Hin. destruct Hin as [Hin|[Hin|Hin]]; eauto.
      apply HX in Hin. destruct Hin as [Y _]. discriminate.
  - intros w. rewrite (sim_path _ _ _ s w e S3) by (unfold zone; lia). split.
    + intros Hp.
      pose (Phi := fun x (w : list nat) => ((x = s \/ x = is) /\ lcat (lpow L a) (lle L n) w) \/ (x = ie /\ lle L n w) \/
                      (exists i, nth_error nodes i = Some x /\ lle L (n - i) w) \/ (x = e /\ w = [])).
      assert (Y : Phi s w).
      { eapply gpath_label0; [| |exact Hp].
        - assert (Hnn : forall x i, nth_error nodes i = Some x -> sz g4 <= x < sz g8) by (intros; eapply Hnodes, nth_error_In; eauto).
          assert (Hms0 : nth_error nodes 0 = Some ms0) by reflexivity.
          intros u M v Hin w1 w2 HM HPhi. unfold Phi in *. unfold G in Hin. rewrite !in_app_iff in Hin.
          destruct Hin as [Hin|[Hin|[Hin|[]]]].
          + apply gen_In in Hin. destruct Hin as [l [Hin ->]]. apply HX in Hin. destruct Hin as [-> Hin]. simpl in HM. subst w1.
            destruct Hin as [[Q1 ->]|[[-> ->]|[-> ->]]].
            * apply In_nth_error in Q1. destruct Q1 as [i Q1].
              destruct HPhi as [[[?|?] _]|[[? _]|[[j [R1 _]]|[_ ->]]]]; try lia.
              -- apply Hnn in R1. lia.
              -- right. right. left. exists i. split; auto. apply lle_nil.
            * destruct HPhi as [[[?|?] _]|[[? _]|[[j [R1 R2]]|[? _]]]]; try lia.
              assert (j = 0) by (eapply NoDup_nth_inj; eauto). subst j. rewrite Nat.sub_0_r in R2.
              right. left. auto.
            * destruct HPhi as [[[?|_] R]|[[? _]|[[j [R1 R2]]|[? _]]]]; try lia.
              -- left. auto.
              -- apply Hnn in R1. lia.
          + apply chain_edges_In in Hin. destruct Hin as [i [Q1 [Q2 Q3]]].
            assert (M = L). { apply nth_error_In in Q2. apply repeat_spec in Q2. auto. } subst M.
            apply nth_error_lt in Q2. rewrite repeat_length in Q2.
            destruct HPhi as [[[?|?] _]|[[? _]|[[j [R1 R2]]|[? _]]]]; try (apply Hnn in Q3; lia).
            assert (j = S i) by (eapply NoDup_nth_inj; eauto). subst j.
            right. right. left. exists i. split; auto. destruct R2 as [j [R2 R3]]. exists (S j). split; [lia|].
            exists w1, w2. auto.
          + injection Hin as <- <- <-.
            destruct HPhi as [[[?|?] _]|[[_ R]|[[j [R1 R2]]|[? _]]]]; try lia.
            * left. split; auto. exists w1, w2. auto.
            * apply Hnn in R1. lia.
        - right. right. right. auto. }
      unfold Phi in Y. destruct Y as [[_ Y]|[[Y _]|[[i [Y _]]|[Y _]]]]; try lia.
      * destruct Y as [w1 [w2 [-> [Q1 [j [Q2 Q3]]]]]]. exists (a + j). split; [lia|]. split; [lia|]. now apply lpow_app.
      * apply nth_error_In in Y. apply Hnodes in Y. lia.
    + intros [k [Hk1 [Hk2 Hw]]].
      assert (Inc : incl (chain_edges (repeat L n) nodes) G) by (apply incl_appr, incl_appl, incl_refl).
      replace k with (a + (k - a)) in Hw by lia. apply lpow_split in Hw.
      destruct Hw as [w1 [w2 [-> [H1 H2]]]].
      assert (PX : forall u v, In (u, None, v) X -> gpath G u [] v).
      { intros u v Hin. apply In_gen in Hin. eapply gpath_one; [unfold G; apply in_or_app; left; exact Hin|reflexivity]. }
      change (w1 ++ w2) with ([] ++ w1 ++ w2). eapply gpath_trans with (v := is).
      * apply PX. unfold X. rewrite in_app_iff. simpl. tauto.
      * eapply gpath_trans with (v := ie).
        -- eapply gpath_one; [|exact H1]. unfold G. rewrite !in_app_iff. right. right. left. reflexivity.
        -- change w2 with ([] ++ w2). eapply gpath_trans with (v := ms0).
           ++ apply PX. unfold X. rewrite in_app_iff. simpl. tauto.
           ++ destruct (nth_error_ex _ nodes (k - a)) as [x Hx].
              { unfold nodes. simpl. rewrite app_length. simpl. lia. }
              rewrite <- (app_nil_r w2). eapply gpath_trans with (v := x).
              ** eapply gpath_incl; [exact Inc|]. eapply (chain_steps L n nodes (k - a) 0 ms0 x); auto; try lia.
                 rewrite Nat.add_0_r. auto.
              ** apply PX. unfold X. rewrite in_app_iff. left. apply in_map_iff. exists x. split; auto.
                 apply Hlist. eapply nth_error_In; eauto.
  - intros i x Hx.
    assert (PX : forall u v, In (u, None, v) X -> gpath (map gen F) u [] v).
    { intros u v Hin. eapply gpath_one with (L := fun w => w = []); [|reflexivity].
      apply (in_map gen _ (u, None, v)). apply HFin. auto. }
    assert (Pn : forall x, In x nodes -> gpath (map gen F) x [] e).
    { intros y Hy. apply PX. unfold X. rewrite in_app_iff. left. apply in_map_iff. exists y. split; auto. apply Hlist; auto. }
    assert (Pie : gpath (map gen F) ie [] e).
    { change (@nil nat) with (@nil nat ++ []). eapply gpath_trans with (v := ms0).
      - apply PX. unfold X. rewrite in_app_iff. simpl. tauto.
      - apply Pn. left. auto. }
    assert (Inc0 : incl (map gen F0) (map gen F)).
    { intros y Hy. apply in_map_iff in Hy. destruct Hy as [z [<- Hy]]. apply in_map. apply HFin. auto. }
    assert (Inc1 : incl (map gen Fc) (map gen F)).
    { intros y Hy. apply in_map_iff in Hy. destruct Hy as [z [<- Hy]]. apply in_map. apply HFin. auto. }
    destruct Hfr0 as [_ HL0 Hco0]. unfold zone in Hx.
    destruct (Nat.lt_ge_cases x (sz g3)).
    + destruct (Nat.eq_dec x is) as [->|].
      * destruct (lpow_inh L a (Hinh i)) as [w Hw]. apply HL0 in Hw. exists (w ++ []).
        eapply gpath_trans; [|exact Pie]. eapply gpath_incl; [exact Inc0|exact Hw].
      * assert (x = ie) by lia. subst x. exists []. exact Pie.
    + destruct (Nat.lt_ge_cases x (sz g4)).
      * destruct (Hco0 i x) as [w P1]; [unfold zone; lia|]. exists (w ++ []).
        eapply gpath_trans; [|exact Pie]. eapply gpath_incl; [exact Inc0|exact P1].
      * destruct (Nat.lt_ge_cases x (sz g7)).
        -- exists []. apply Pn. assert (D : x = ms0 \/ x = me) by lia. destruct D as [-> | ->]; [left; auto|].
           unfold nodes. simpl. rewrite in_app_iff. simpl. auto.
        -- destruct (Hco i x) as [w P1]; [unfold zone; lia|]. exists (w ++ []).
           eapply gpath_trans with (v := me); [eapply gpath_incl; [exact Inc1|exact P1]|]. apply Pn.
           unfold nodes. simpl. rewrite in_app_iff. simpl. auto.
Qed.

Lemma add_all_spec : forall s e l (g : nfa A),
  nfa_nodes (add_all s e l g) = nfa_nodes g /\
  nfa_edges (add_all s e l g) = rev (map (fun i => (s, Some i, e)) l) ++ nfa_edges g.
Proof.
  unfold add_all. induction l as [|m l IH]; intros g; simpl; auto.
  destruct (IH (add_trans s e m g)) as [H1 H2]. rewrite H1, H2. simpl. split; auto.
  rewrite <- app_assoc. auto.
Qed.

Lemma frag_all : forall l inh, (forall i, In i l -> i < length al) ->
  frag (fun s e g => Ok (add_all s e l g)) (fun w => exists i, In i l /\ w = [i]) inh.
Proof.
  intros l inh Hl s e g g' Hs He Hse H. injection H as <-.
  destruct (add_all_spec s e l g) as [Hn He'].
  exists (rev (map (fun i => (s, Some i, e)) l)).
  assert (HF : forall u t v, In (u, t, v) (rev (map (fun i => (s, Some i, e)) l)) <-> u = s /\ v = e /\ exists i, t = Some i /\ In i l).
  { intros u t v. rewrite <- in_rev, in_map_iff. split.
    - intros [i [Y1 Y2]]. injection Y1 as <- <- <-. eauto.
    - intros [-> [-> [i [-> Y]]]]. eauto. }
  constructor.
  - constructor.
    + exists []. rewrite app_nil_r. auto.
    + auto.
    + intros u t v Hin. apply HF in Hin. destruct Hin as [-> [-> _]]. auto.
    + intros u t v Hin. apply HF in Hin. destruct Hin as [_ [_ [i [Y Z]]]]. injection Y as ->. auto.
  - intros w. split.
    + intros Hp. inversion Hp; subst; [congruence|]. apply gen_In in H. destruct H as [t [H ->]].
      apply HF in H. destruct H as [_ [-> [i [-> Hi]]]]. simpl in H0. subst w1.
      inversion H1; subst.
      * exists i. auto.
      * apply gen_In in H. destruct H as [t [H ->]]. apply HF in H. destruct H as [Y _]. congruence.
    + intros [i [Hi ->]]. eapply gpath_one with (L := fun w => w = [i]); [|reflexivity].
      apply (In_gen _ s (Some i) e). apply HF. eauto.
  - intros _ x Hx. unfold zone, sz in Hx. rewrite Hn in Hx. lia.
Qed.

Lemma frag_none : forall L inh, (forall w : list nat, ~ L w) -> frag (fun s e g => Ok g) L inh.
Proof.
  intros L inh HL s e g g' Hs He Hse H. injection H as <-. exists []. constructor.
  - constructor.
    + exists []. rewrite app_nil_r. auto.
    + auto.
    + intros u l v [].
    + intros u t v [].
  - intros w. split; [|intros X; exfalso; eapply HL; eauto].
    intros Hp. inversion Hp; subst; [congruence|]. destruct H.
  - intros _ x Hx. unfold zone in Hx. lia.
Qed.

Lemma frag_lang : forall b L L' inh, frag b L inh -> (forall w, L w <-> L' w) -> frag b L' inh.
Proof.
  intros b L L' inh Hb HL s e g g' Hs He Hse H. destruct (Hb s e g g' Hs He Hse H) as [F [H1 H2 H3]].
  exists F. constructor; auto. intros w. rewrite H2. auto.
Qed.

Lemma frag_ext : forall (b b' : builder) L inh, (forall s e g, b s e g = b' s e g) -> frag b L inh -> frag b' L inh.
Proof.
  intros b b' L inh He Hb s e g g' Hs Hee Hse H. rewrite <- He in H. eauto.
Qed.

End Frag.
