(** No edge of a generated automaton is there twice, and labels are numbers of ranges. *)
From Coq Require Import String List Arith NArith Bool Lia.
From Verif Require Import Base InputModel LexerModel LexerSpec GraphProof AlphabetProof NfaProof NfaLang PowersetProof ConvertProof PrecedenceProof LexerProof.
Import ListNotations.
Local Open Scope list_scope.

Definition keys (es : list (nat * nat * nat)) : list (nat * nat) := map fst es.
(** Edges [es'] put in front of [es], with new sources. *)
Definition grown (lo : nat) (es es' : list (nat * nat * nat)) : Prop :=
  exists new, es' = new ++ es /\ NoDup (keys new) /\ forall s t v, In (s, t, v) new -> lo <= s.
Lemma grown_refl : forall lo es, grown lo es es.
Proof. intros lo es. exists []. split; [reflexivity|]. split; [constructor|intros s t v []]. Qed.

Section Pg.
Context {A : Type}.
Variable g : nfa A.
Lemma add_powerset_nodup : forall f d nodes d' i, add_powerset_to_dfa g f d nodes = Ok (d', i) ->
  (forall s t v, In (s, t, v) (pg_edges d) -> s < length (pg_nodes d)) ->
  grown (length (pg_nodes d)) (pg_edges d) (pg_edges d') /\ length (pg_nodes d) <= length (pg_nodes d') /\ (forall s t v, In (s, t, v) (pg_edges d') -> s < length (pg_nodes d')).
Proof.
  induction f as [|f IH]; intros d nodes d' i H B; [discriminate|]. cbn [add_powerset_to_dfa] in H. inv_bind H. rename a into c. destruct (find_index (eqc c) (pg_nodes d)) as [i0|].
  - injection H as <- <-. split; [apply grown_refl|]. split; [lia|exact B].
  - inv_bind H. injection H as <- <-. rename a into d2, Hb0 into HF. set (k := length (pg_nodes d)) in *.
    destruct (tmm_spec g c) as (MS & _). unfold msorted in MS.
    assert (ND : NoDup (map fst (target_multi_map g c))) by (apply sorted_NoDup; exact MS). clear MS. revert HF ND. generalize (target_multi_map g c). intros l HF ND.
    assert (X : forall l dd d2, foldM (fun d e => let '(t, targets) := e in do (d', target_dfa) <- add_powerset_to_dfa g f d targets; Ok (mkPgraph (pg_nodes d') ((k, t, target_dfa) :: pg_edges d'))) l dd = @Ok lex_err _ d2 ->
       NoDup (map fst l) -> k < length (pg_nodes dd) -> (forall s t v, In (s, t, v) (pg_edges dd) -> s < length (pg_nodes dd)) -> (forall t v, In t (map fst l) -> ~ In (k, t, v) (pg_edges dd)) ->
       (exists new, pg_edges d2 = new ++ pg_edges dd /\ NoDup (keys new) /\ forall s t v, In (s, t, v) new -> length (pg_nodes dd) <= s \/ s = k /\ In t (map fst l)) /\ length (pg_nodes dd) <= length (pg_nodes d2) /\
       (forall s t v, In (s, t, v) (pg_edges d2) -> s < length (pg_nodes d2))).
    { clear l HF ND d2. induction l as [|(t, targets) l IHl]; intros dd d2 HF ND K BB NK.
      - injection HF as <-. split; [exists []; split; [reflexivity|]; split; [constructor|intros s t v []]|]. split; [lia|exact BB].
      - cbn [foldM] in HF. inv_bind HF. inv_bind Hb0. destruct a0 as (d3, j). injection Hb0 as <-. rename Hb1 into HA. destruct (IH _ _ _ _ HA BB) as ((n1 & E1 & N1 & S1) & L1 & B1). cbn [map fst] in ND. inversion ND as [|? ? NI ND']. subst.
        destruct (IHl _ _ HF ND') as ((n2 & E2 & N2 & S2) & L2 & B2); cbn [pg_nodes pg_edges] in *.
        + lia.
        + intros s t' v [Q|I]; [injection Q as <- <- <-; lia|eapply B1; exact I].
        + intros t' v I [Q|Q]; [injection Q as <- <-; contradiction|]. rewrite E1 in Q. apply in_app_or in Q. destruct Q as [Q|Q]; [apply S1 in Q; lia|]. exact (NK t' v (or_intror I) Q).
        + split; [|split; [lia|exact B2]]. exists (n2 ++ (k, t, j) :: n1). split; [rewrite E2, E1, <- app_assoc; reflexivity|]. split.
          * unfold keys in *. rewrite map_app. apply NoDup_app_intro; [exact N2| |].
            -- cbn [map fst]. constructor; [|exact N1]. intros Q. apply in_map_iff in Q. destruct Q as (((s, t'), v) & Q & I). cbn [fst] in Q. injection Q as -> ->. apply S1 in I. lia.
            -- intros (s, t') I1 I2. apply in_map_iff in I1. destruct I1 as (((s1, t1), v1) & Q1 & I1). cbn [fst] in Q1. injection Q1 as -> ->. apply S2 in I1. destruct I2 as [Q|I2].
               ++ cbn [fst] in Q. injection Q as <- <-. destruct I1 as [I1|(_ & I1)]; [lia|contradiction].
               ++ apply in_map_iff in I2. destruct I2 as (((s2, t2), v2) & Q2 & I2). cbn [fst] in Q2. injection Q2 as -> ->. pose proof (S1 _ _ _ I2) as Y. assert (Z : s < length (pg_nodes d3)) by (eapply B1; rewrite E1; apply in_or_app; left; exact I2). destruct I1 as [I1|(-> & _)]; lia.
          * intros s t' v I. apply in_app_or in I. destruct I as [I|[Q|I]].
            -- apply S2 in I. destruct I as [I|(-> & I)]; [left; lia|right; split; [reflexivity|right; exact I]].
            -- injection Q as <- <- <-. right. split; [reflexivity|left; reflexivity].
            -- left. exact (S1 _ _ _ I). }
    destruct (X _ _ _ HF ND) as ((new & E & N & S) & L & BB); cbn [pg_nodes pg_edges] in *.
    + rewrite app_length. cbn. lia.
    + intros s t v I. rewrite app_length. apply B in I. lia.
    + intros t v _ I. apply B in I. lia.
    + rewrite app_length in *. cbn [length] in *. split; [|split; [lia|exact BB]]. exists new. split; [exact E|]. split; [exact N|]. intros s t v I. apply S in I. fold k in I. lia.
Qed.

Variable pg : pgraph.
Hypothesis pg_distinct : NoDup (keys (pg_edges pg)).
Lemma out_edges_distinct : forall es n, NoDup (keys es) -> NoDup (map fst (out_edges es n)).
Proof.
  induction es as [|((s, t), v) es IH]; intros n D; [constructor|]. cbn in D. inversion D as [|? ? NI D']. subst. cbn [out_edges flat_map]. destruct (Nat.eqb_spec s n) as [->|_]; [|apply IH; exact D']. cbn [Datatypes.app map fst]. constructor; [|apply IH; exact D'].
  intros I. apply NI. apply in_map_iff in I. destruct I as ((t', v') & Q & I). cbn [fst] in Q. subst t'. apply out_edges_In in I. apply in_map_iff. exists (n, t, v'). split; [reflexivity|exact I].
Qed.
Lemma convert_nodup : forall f (d : dfa (list A)) vis p d' vis' start, convert_powerset_to_dfa g pg f d vis p = Ok (d', vis', start) ->
  (forall s t v, In (s, t, v) (dfa_edges d) -> s < length (dfa_nodes d)) ->
  grown (length (dfa_nodes d)) (dfa_edges d) (dfa_edges d') /\ length (dfa_nodes d) <= length (dfa_nodes d') /\ (forall s t v, In (s, t, v) (dfa_edges d') -> s < length (dfa_nodes d')).
Proof.
  induction f as [|f IH]; intros d vis p d' vis' start H B; [discriminate|]. cbn [convert_powerset_to_dfa] in H. destruct (nth_error (pg_nodes pg) p) as [ps|]; [|discriminate].
  set (k := length (dfa_nodes d)) in *.
  assert (D1 : exists d1 : dfa (list A), (match accepts_of g ps with [] => dfa_add_intermediate d | _ => dfa_add_accepting d (accepts_of g ps) end) = (d1, k) /\ dfa_edges d1 = dfa_edges d /\ length (dfa_nodes d1) = S k).
  { destruct (accepts_of g ps); eexists; (split; [reflexivity|]); (split; [reflexivity|]); cbn [dfa_nodes]; rewrite app_length; cbn; unfold k; lia. }
  destruct D1 as (d1 & E1 & F1 & L1). cbv zeta in H. rewrite E1 in H. clear E1. inv_bind H. destruct a as (d2, vis2). injection H as <- <- <-. rename Hb into HF.
  pose proof (out_edges_distinct (pg_edges pg) p pg_distinct) as ND. revert HF ND. generalize (out_edges (pg_edges pg) p). generalize (map_insert p k vis). intros v0 l HF ND.
  assert (X : forall l dd v0 d2 vis2, foldM (fun st e => let '(d, visited) := st in let '(t, target) := e in
        do (d', visited', fin) <- match map_get target visited with Some fin => Ok (d, visited, fin) | None => convert_powerset_to_dfa g pg f d visited target end;
        Ok (dfa_add_transition k fin t d', visited')) l (dd, v0) = @Ok lex_err _ (d2, vis2) ->
       NoDup (map fst l) -> k < length (dfa_nodes dd) -> (forall s t v, In (s, t, v) (dfa_edges dd) -> s < length (dfa_nodes dd)) ->
       (exists new, dfa_edges d2 = new ++ dfa_edges dd /\ NoDup (keys new) /\ forall s t v, In (s, t, v) new -> length (dfa_nodes dd) <= s \/ s = k /\ In t (map fst l)) /\ length (dfa_nodes dd) <= length (dfa_nodes d2) /\
       (forall s t v, In (s, t, v) (dfa_edges d2) -> s < length (dfa_nodes d2))).
  { clear l HF ND d2 v0 vis2 d1 F1 L1. induction l as [|(t, target) l IHl]; intros dd v0 d2 vis2 HF ND K BB.
    - injection HF as <- <-. split; [exists []; split; [reflexivity|]; split; [constructor|intros s t v []]|]. split; [lia|exact BB].
    - cbn [foldM] in HF. inv_bind HF. inv_bind Hb. destruct a0 as ((d3, v3), j). injection Hb as <-. rename Hb0 into HA.
      assert (Y : grown (length (dfa_nodes dd)) (dfa_edges dd) (dfa_edges d3) /\ length (dfa_nodes dd) <= length (dfa_nodes d3) /\ (forall s t v, In (s, t, v) (dfa_edges d3) -> s < length (dfa_nodes d3))).
      { destruct (map_get target v0); [injection HA as <- <- <-; split; [apply grown_refl|split; [lia|exact BB]]|]. exact (IH _ _ _ _ _ _ HA BB). }
      destruct Y as ((n1 & E1 & N1 & S1) & L1 & B1). cbn [map fst] in ND. inversion ND as [|? ? NI ND']. subst.
      destruct (IHl _ _ _ _ HF ND') as ((n2 & E2 & N2 & S2) & L2 & B2); cbn [dfa_add_transition dfa_nodes dfa_edges] in *.
      + lia.
      + intros s t' v [Q|I]; [injection Q as <- <- <-; lia|eapply B1; exact I].
      + split; [|split; [lia|exact B2]]. exists (n2 ++ (k, t, j) :: n1). split; [rewrite E2, E1, <- app_assoc; reflexivity|]. split.
        * unfold keys in *. rewrite map_app. apply NoDup_app_intro; [exact N2| |].
          -- cbn [map fst]. constructor; [|exact N1]. intros Q. apply in_map_iff in Q. destruct Q as (((s, t'), v) & Q & I). cbn [fst] in Q. injection Q as -> ->. apply S1 in I. lia.
          -- intros (s, t') I1 I2. apply in_map_iff in I1. destruct I1 as (((s1, t1), v1) & Q1 & I1). cbn [fst] in Q1. injection Q1 as -> ->. apply S2 in I1. destruct I2 as [Q|I2].
             ++ cbn [fst] in Q. injection Q as <- <-. destruct I1 as [I1|(_ & I1)]; [lia|contradiction].
             ++ apply in_map_iff in I2. destruct I2 as (((s2, t2), v2) & Q2 & I2). cbn [fst] in Q2. injection Q2 as -> ->. pose proof (S1 _ _ _ I2) as Y. assert (Z : s < length (dfa_nodes d3)) by (eapply B1; rewrite E1; apply in_or_app; left; exact I2). destruct I1 as [I1|(-> & _)]; lia.
        * intros s t' v I. apply in_app_or in I. destruct I as [I|[Q|I]].
          -- apply S2 in I. destruct I as [I|(-> & I)]; [left; lia|right; split; [reflexivity|right; exact I]].
          -- injection Q as <- <- <-. right. split; [reflexivity|left; reflexivity].
          -- left. exact (S1 _ _ _ I). }
  destruct (X _ _ _ _ _ HF ND) as ((new & E & N & S) & L & BB).
  - lia.
  - intros s t v I. rewrite F1 in I. apply B in I. lia.
  - split; [|split; [lia|exact BB]]. exists new. split; [rewrite E, F1; reflexivity|]. split; [exact N|]. intros s t v I. apply S in I. lia.
Qed.
End Pg.

Lemma powerset_nodup : forall {A} (g : nfa A) fuel entry d, powerset_construction fuel g entry = Ok d -> NoDup (keys (dfa_edges d)).
Proof.
  intros A g fuel entry d H. unfold powerset_construction in H. inv_bind H. destruct a as (pg, s0). inv_bind H. destruct a as ((d0, vis), st). injection H as ->.
  destruct (add_powerset_nodup g _ _ _ _ _ Hb) as ((new & E & N & _) & _); [intros s t v []|]. cbn in E. rewrite app_nil_r in E. rewrite <- E in N.
  destruct (convert_nodup g pg N _ _ _ _ _ _ _ Hb0) as ((new' & E' & N' & _) & _); [intros s t v []|]. cbn in E'. rewrite app_nil_r in E'. rewrite <- E' in N'. exact N'.
Qed.

Lemma apply_edges_nodup : forall old k l (d d' : dfa token_rule), NoDup (keys (dfa_edges old)) -> foldM (apply_edges old (id_map k)) (map (fun i => (i, i)) l) d = Ok d' -> NoDup l ->
  NoDup (keys (dfa_edges d)) -> (forall s t v, In (s, t, v) (dfa_edges d) -> ~ In s l) -> NoDup (keys (dfa_edges d')).
Proof.
  intros old k l. induction l as [|i l IH]; intros d d' DO H D N F; cbn [map foldM] in H; [injection H as <-; exact N|]. inv_bind H. rename a into d1, Hb into HA. inversion D as [|? ? NI D']. subst.
  unfold apply_edges in HA. pose proof (out_edges_distinct (dfa_edges old) i DO) as ND. fold (transitions_from old i) in ND.
  assert (X : forall es (d d1 : dfa token_rule), foldM (fun d tv => let '(t, old_target) := tv in match map_get old_target (id_map k) with None => Panic | Some new_target => Ok (dfa_add_transition i new_target t d) end) es d = @Ok lex_err _ d1 ->
     NoDup (map fst es) -> NoDup (keys (dfa_edges d)) -> (forall t v, In t (map fst es) -> ~ In (i, t, v) (dfa_edges d)) -> NoDup (keys (dfa_edges d1)) /\ forall s t v, In (s, t, v) (dfa_edges d1) -> In (s, t, v) (dfa_edges d) \/ s = i).
  { clear. induction es as [|(t, v) es IH]; intros d d1 H ND N F; cbn [foldM] in H; [injection H as <-; split; [exact N|intros s t v I; left; exact I]|]. cbn [map fst] in ND. inversion ND as [|? ? NI ND']. subst.
    destruct (map_get v (id_map k)) as [w|]; cbn [bind] in H; [|discriminate]. destruct (IH _ _ H ND') as (A & B).
    - cbn [dfa_add_transition dfa_edges keys map fst]. constructor; [|exact N]. intros Q. apply in_map_iff in Q. destruct Q as (((s, t'), u) & Q & I). cbn [fst] in Q. injection Q as -> ->. exact (F t u (or_introl eq_refl) I).
    - cbn [dfa_add_transition dfa_edges]. intros t' u I [Q|Q]; [injection Q as <- <-; contradiction|]. exact (F t' u (or_intror I) Q).
    - split; [exact A|]. intros s t' u I. apply B in I. cbn [dfa_add_transition dfa_edges] in I. destruct I as [[Q|I]|I]; [injection Q as <- <- <-; right; reflexivity|left; exact I|right; exact I]. }
  destruct (X _ _ _ HA ND N) as (A & B); [intros t v _ I; apply F in I; apply I; left; reflexivity|]. apply (IH _ _ DO H D' A). intros s t v I L. apply B in I. destruct I as [I| ->]; [apply (F _ _ _ I); right; exact L|contradiction].
Qed.
Lemma apply_precedence_nodup : forall old d, NoDup (keys (dfa_edges old)) -> apply_precedence_to_dfa old = Ok d -> NoDup (keys (dfa_edges d)).
Proof.
  intros old d D H. unfold apply_precedence_to_dfa in H. inv_bind H. destruct a as ((d1, m), x). destruct (apply_states_inv _ _ Hb) as (d' & E1 & E2 & E3). injection E1 as <- -> ->.
  apply (apply_edges_nodup old _ _ d1 d D H); [apply seq_NoDup|rewrite E2; constructor|rewrite E2; intros s t v []].
Qed.

Lemma generated_distinct : forall fuel rules al d, generate_lexer fuel rules = Ok (al, d) -> forall q, NoDup (map fst (transitions_from d q)).
Proof.
  intros fuel rules al d H q. unfold generate_lexer in H. inv_bind H. inv_bind H. destruct a0 as (st, g). inv_bind H. inv_bind H. injection H as <- <-. apply out_edges_distinct. eapply apply_precedence_nodup; [|eassumption]. eapply powerset_nodup. eassumption.
Qed.
Lemma generated_labels : forall fuel rules al d, valid_rules rules -> no_empty_sequence rules -> generate_lexer fuel rules = Ok (al, d) -> forall j t k, In (j, t, k) (dfa_edges d) -> t < length al.
Proof.
  intros fuel rules al d HV HN H j t k I. unfold generate_lexer in H. inv_bind H. inv_bind H. destruct a0 as (st, g). inv_bind H. inv_bind H. injection H as <- <-. rename a into al, a0 into d0, a1 into d.
  destruct (generate_nfa_spec al (pipeline_al rules HV al Hb) rules st g (rules_known rules HV al Hb) Hb0) as (-> & accs & HI).
  assert (NE : 0 < length (nfa_nodes g)) by exact (ni_sz _ _ _ _ HI).
  assert (NB : forall u l v, In (u, l, v) (nfa_edges g) -> u < length (nfa_nodes g) /\ v < length (nfa_nodes g)) by (intros u l v Q; apply (ni_edges _ _ _ _ HI) in Q; unfold sz in Q; tauto).
  destruct (powerset_correct g fuel 0 d0 NE Hb1) as (_ & _ & R & RE & RP & _). destruct (apply_precedence_ok d0 d R Hb2) as (_ & EQ). apply EQ in I. destruct (R _ _ _ I) as (J & _). destruct (RE j J) as (w & W).
  destruct (proj1 (RP (w ++ [t]))) as (x & PX); [exists k; eapply run_trans; [exact W|]; econstructor; [exact I|constructor]|].
  pose proof (path_labels rules HV al Hb g Hb0 _ _ _ PX) as F. apply Forall_app in F. destruct F as (_ & F). inversion F. assumption.
Qed.
