(** FOLLOW sets: termination, soundness, completeness. *)
From Coq Require Import String List Arith NArith Bool Lia.
From Verif Require Import Base InputModel GrammarModel GrammarSpec GrammarNamesProof GrammarProof GrammarBuildProof LLModel LLSpec SententialProof SetsProof FirstProof.
Import ListNotations.
Local Open Scope nat_scope.

(** ** Right-hand sides as folds over positions *)

Fixpoint tails (l : list symbol) : list (symbol * list symbol) :=
  match l with
  | [] => []
  | s :: r => (s, r) :: tails r
  end.
Lemma tails_In : forall l s r, In (s, r) (tails l) <-> exists a, l = a ++ s :: r.
Proof.
  induction l as [|x l IH]; intros s r; simpl.
  - split; [intros []|intros ([|? ?] & H); discriminate].
  - rewrite IH. split.
    + intros [[= -> ->]|[a ->]]; [exists []; auto|exists (x :: a); auto].
    + intros ([|y a] & H); simpl in H; injection H as -> ->; [left; auto|right; eauto].
Qed.

Definition follow_pos {E} (lhs : option symbol) (first : symbol_sets) (st : symbol_sets * bool) (p : symbol * list symbol) : res E (symbol_sets * bool) :=
  match fst p with
  | NonTerminal _ =>
    let '(follow, any) := st in
    do new <- follow_of_remainder lhs (snd p) first follow;
    do set <- get_set (fst p) follow;
    let '(set', any') := insert_all set new any in
    Ok (map_insert (fst p) set' follow, any')
  | _ => Ok st
  end.

Lemma follow_seq_fold : forall E lhs seq first st, @follow_seq E lhs seq first st = foldM (follow_pos lhs first) (tails seq) st.
Proof.
  intros E lhs seq first. induction seq as [|s r IH]; intros st; cbn [follow_seq tails foldM]; auto.
  change (match s with
      | NonTerminal _ => let '(follow, any) := st in
        do new <- follow_of_remainder lhs r first follow;
        do set <- get_set s follow;
        let '(set', any') := insert_all set new any in
        Ok (map_insert s set' follow, any')
      | _ => Ok st end) with (@follow_pos E lhs first st (s, r)).
  destruct (follow_pos lhs first st (s, r)); cbn [bind]; auto.
Qed.

Definition entries (g : grammar) : list (option symbol * list symbol) :=
  (None, [g_entry g; End]) :: map (fun r => (option_map NonTerminal (r_lhs r), r_rhs r)) (g_rules g).

Section Follow.
Variable g : grammar.
Hypothesis wf : wf_grammar g.

Lemma follow_rules_ok : forall E, @follow_rules E g = Ok (entries g).
Proof.
  intros E. unfold follow_rules, entries.
  assert (forall l acc, (forall r, In r l -> exists i, r_lhs r = Some i) ->
    foldM (fun acc r => do l <- rule_lhs r; Ok (acc ++ [(Some l, r_rhs r)])) l acc =
    @Ok E _ (acc ++ map (fun r => (option_map NonTerminal (r_lhs r), r_rhs r)) l)) as G.
  { induction l as [|r l IH]; intros acc H; cbn [foldM map]; [rewrite app_nil_r; auto|].
    destruct (H r (or_introl eq_refl)) as [i Hi]. unfold rule_lhs at 1. rewrite Hi. cbn [bind option_map].
    rewrite IH by (intros; apply H; right; auto). rewrite <- app_assoc. auto. }
  rewrite G; [auto|]. intros r Hr. destruct (wf_lhs g wf r Hr) as (i & Hi & _). eauto.
Qed.

Lemma entry_In : forall e, In e (entries g) -> e = (None, [g_entry g; End]) \/
  exists r i, In r (g_rules g) /\ r_lhs r = Some i /\ In (NonTerminal i) (non_terminals g) /\ e = (Some (NonTerminal i), r_rhs r).
Proof.
  intros e [<-|H]; auto. apply in_map_iff in H. destruct H as (r & <- & Hr). right. destruct (wf_lhs g wf r Hr) as (i & Hi & Hin).
  exists r, i. rewrite Hi. auto.
Qed.
Lemma entry_known : forall e s, In e (entries g) -> In s (snd e) -> known g s \/ s = End.
Proof.
  intros e s He Hs. apply entry_In in He. destruct He as [->|(r & i & Hr & Hi & Hin & ->)]; simpl in Hs.
  - destruct (wf_entry g wf) as (i & Hi & Hin). rewrite Hi in Hs. destruct Hs as [<-|[<-|[]]]; auto.
  - left. eapply wf_rhs; eauto.
Qed.

Variable fs : symbol_sets.
Hypothesis fsc : first_sets_correct g fs.

(** What one position adds. *)
Definition rem_null (be : list symbol) : Prop := be = [] \/ in_first fs be Epsilon.
Definition adds (lhs : option symbol) (fo : symbol_sets) (be : list symbol) (x : symbol) : Prop :=
  (x <> Epsilon /\ in_first fs be x) \/ (rem_null be /\ exists l, lhs = Some l /\ inS fo l x).

Lemma follow_of_remainder_spec : forall E e fo a j be, sets_ok g fo -> In e (entries g) -> snd e = a ++ NonTerminal j :: be ->
  exists new, @follow_of_remainder E (fst e) be fs fo = Ok new /\ (forall x, In x new <-> adds (fst e) fo be x).
Proof.
  intros E e fo a j be Hok He Hse.
  assert (nts_known g be) as Hk.
  { intros i Hi. destruct (entry_known e (NonTerminal i) He) as [X|X]; [rewrite Hse; apply in_or_app; right; right; auto|exact X|discriminate]. }
  destruct (first_of_seq_spec E g fs be (fc_ok _ _ fsc) Hk) as (rf & Hrf & Hs & Hin). unfold follow_of_remainder. rewrite Hrf. cbn [bind].
  assert (set_mem Epsilon rf || match be with [] => true | _ => false end = true <-> rem_null be) as Hn.
  { rewrite orb_true_iff, set_mem_In, Hin by auto. unfold rem_null. destruct be; split; intros [?|?]; auto; discriminate. }
  destruct (set_mem Epsilon rf || match be with [] => true | _ => false end) eqn:Eb.
  - assert (rem_null be) as Hr by (apply Hn; auto).
    assert (exists l set, fst e = Some l /\ map_get l fo = Some set) as (l & set & Hl & Hset).
    { apply entry_In in He. destruct He as [->|(r & i & Hr' & Hi & Hi' & ->)].
      - simpl in Hse. destruct (wf_entry g wf) as (i & Hi & _). destruct a as [|x [|y a]]; simpl in Hse.
        + injection Hse as _ <-. exfalso. destruct Hr as [Hr|Hr]; [discriminate|]. apply eps_step in Hr. discriminate.
        + injection Hse as _ Hse _. discriminate.
        + injection Hse as _ _ Hse. destruct a; discriminate.
      - destruct (so_get g fo (NonTerminal i) Hok Hi') as [set Hset]. simpl. eauto. }
    rewrite Hl, <- Hl. unfold get_set. rewrite Hl, Hset. cbn [bind]. eexists. split; [reflexivity|]. intros x.
    rewrite !set_union_In, filter_In, not_epsilon_iff, Hin. unfold adds. simpl. split.
    + intros [[[]|X]|[X Y]]; [right; split; auto; exists l; split; auto; exists set; auto|left; auto].
    + intros [[X Y]|[_ (l' & Hl' & set' & Hs' & X)]]; [right; auto|left; right]. congruence.
  - cbn [bind]. eexists. split; [reflexivity|]. intros x. rewrite !set_union_In, filter_In, not_epsilon_iff, Hin. unfold adds. simpl. split.
    + intros [[[]|[]]|[X Y]]. left; auto.
    + intros [[X Y]|[X _]]; [right; auto|]. apply Hn in X. discriminate.
Qed.

Lemma follow_pos_spec : forall E e fo any a j be, sets_ok g fo -> In e (entries g) -> snd e = a ++ NonTerminal j :: be ->
  exists fo' any', @follow_pos E (fst e) fs (fo, any) (NonTerminal j, be) = Ok (fo', any') /\ sets_ok g fo' /\ grew (fo, any) (fo', any') /\
    (forall k x, inS fo' k x <-> inS fo k x \/ (k = NonTerminal j /\ adds (fst e) fo be x)).
Proof.
  intros E e fo any a j be Hok He Hse. unfold follow_pos. cbn [fst snd].
  destruct (follow_of_remainder_spec E e fo a j be Hok He Hse) as (new & Hn & Hnew). rewrite Hn. cbn [bind].
  assert (In (NonTerminal j) (non_terminals g)) as Hj.
  { destruct (entry_known e (NonTerminal j) He) as [X|X]; [rewrite Hse; apply in_elt|exact X|discriminate]. }
  destruct (so_get g fo _ Hok Hj) as [set Hset]. unfold get_set. rewrite Hset. cbn [bind].
  destruct (insert_all set new any) as [set' any'] eqn:HI.
  destruct (update_set g fo any (NonTerminal j) set new set' any' Hok Hset) as (A & B & C); auto.
  { intros x Hx. apply Hnew in Hx. destruct Hx as [[_ Hx]|[_ (l & _ & set1 & E1 & Hx)]].
    - eapply in_first_universe; [apply (fc_ok _ _ fsc)| |exact Hx]. intros s Hs. apply (entry_known e s He). rewrite Hse. apply in_or_app. right; right; auto.
    - destruct (so_set _ _ Hok _ _ E1) as [_ Hi]. auto. }
  exists (map_insert (NonTerminal j) set' fo), any'. split; auto. split; auto. split; auto.
  intros k x. rewrite C, Hnew. tauto.
Qed.

(** ** Soundness *)

Definition follow_sound (fo : symbol_sets) : Prop := forall i x, inS fo (NonTerminal i) x -> follows g i x.

Lemma rem_null_derives : forall be, rem_null be -> derives (g_rules g) be [].
Proof.
  intros be [->|[[X _]|(_ & _ & H)]]; [constructor|contradiction|]. eapply nullF_sound; eauto. apply (fc_sound _ _ fsc).
Qed.

Lemma adds_sound : forall e fo a j be x, In e (entries g) -> snd e = a ++ NonTerminal j :: be -> follow_sound fo ->
  adds (fst e) fo be x -> follows g j x.
Proof.
  intros e fo a j be x He Hse Hs Ha.
  destruct Ha as [[Hx [[_ Hf]|[Hf _]]]|[Hn (l & Hl & Hin)]]; [|contradiction|].
  - apply (seqF_sound g fs be x (fc_sound _ _ fsc) Hx) in Hf. apply firstT_begins in Hf. destruct Hf as [Hla [de Hde]]. split; auto.
    pose proof (ssteps_ctx (g_rules g) (a ++ [NonTerminal j]) [] _ _ Hde) as X. rewrite !app_nil_r, <- !app_assoc in X. simpl in X.
    apply entry_In in He. destruct He as [->|(r & i & Hr & Hi & Hin & ->)]; simpl in Hse.
    + exists [g_entry g; End], a, de. split; [left; auto|]. rewrite Hse. auto.
    + exists [NonTerminal i], a, de. split; [right; eauto|]. eapply ss_trans; [apply (ss_rule (g_rules g) [] [] r i Hr Hi)|]. rewrite app_nil_r. simpl. rewrite Hse. auto.
  - apply entry_In in He. destruct He as [->|(r & i & Hr & Hi & Hni & ->)]; simpl in Hse, Hl; [discriminate|]. injection Hl as <-.
    apply Hs in Hin. destruct Hin as (Hla & s & al & de & Hst & HS). split; auto. exists s, (al ++ a), de. split; auto.
    eapply ssteps_trans; [exact HS|]. eapply ss_trans; [apply (ss_rule (g_rules g) al (x :: de) r i Hr Hi)|]. rewrite Hse.
    pose proof (rem_null_derives _ Hn) as Hd. apply derives_ssteps in Hd. simpl in Hd.
    pose proof (ssteps_ctx (g_rules g) (al ++ a ++ [NonTerminal j]) (x :: de) _ _ Hd) as X.
    rewrite <- !app_assoc in *. simpl in *. exact X.
Qed.

Definition follow_inv (fo : symbol_sets) : Prop := sets_ok g fo /\ follow_sound fo.

Lemma follow_pos_inv : forall E e, In e (entries g) -> forall st p, In p (tails (snd e)) -> follow_inv (fst st) ->
  exists st', @follow_pos E (fst e) fs st p = Ok st' /\ follow_inv (fst st') /\ grew st st'.
Proof.
  intros E e He [fo any] [s be] Hp [H1 H2]. apply tails_In in Hp. destruct Hp as [a Ha]. cbn [fst] in *.
  destruct s as [| |j|t]; try (exists (fo, any); split; [reflexivity|]; split; [split; auto|apply grew_refl]).
  destruct (follow_pos_spec E e fo any a j be H1 He Ha) as (fo' & any' & A & B & C & D). exists (fo', any'). split; [exact A|]. split; [|exact C].
  split; [exact B|]. intros i x Hi. apply D in Hi. destruct Hi as [Hi|[[= ->] Hi]]; [apply H2; auto|]. eapply adds_sound; eauto.
Qed.

Lemma follow_entry_inv : forall E st e, In e (entries g) -> follow_inv (fst st) ->
  exists st', @follow_seq E (fst e) (snd e) fs st = Ok st' /\ follow_inv (fst st') /\ grew st st'.
Proof.
  intros E st e He H. rewrite follow_seq_fold.
  apply (foldM_grow E _ (follow_pos (fst e) fs) follow_inv (tails (snd e)) st); auto.
  intros st' p. apply follow_pos_inv; auto.
Qed.

Definition follow_round {E} (fo : symbol_sets) : res E (symbol_sets * bool) :=
  foldM (fun st e => follow_seq (fst e) (snd e) fs st) (entries g) (fo, false).

Lemma follow_loop_gloop : forall E fuel fo, @follow_loop E fuel (entries g) fs fo = gloop follow_round fuel fo.
Proof.
  intros E fuel. induction fuel as [|fuel IH]; intros fo; cbn [follow_loop gloop]; auto. unfold follow_round at 1.
  destruct (foldM (fun st e => follow_seq (fst e) (snd e) fs st) (entries g) (fo, false)) as [[fo' [|]]| | |]; cbn [bind]; auto.
Qed.

Lemma follow_round_ok : forall E fo, follow_inv fo -> exists fo' any, @follow_round E fo = Ok (fo', any) /\ follow_inv fo' /\ grew (fo, false) (fo', any).
Proof.
  intros E fo H. destruct (foldM_grow E _ (fun st e => follow_seq (fst e) (snd e) fs st) follow_inv (entries g) (fo, false)) as ([fo' any] & A & B & C); auto.
  { intros st e He. apply follow_entry_inv; auto. }
  exists fo', any. auto.
Qed.

Lemma init_follow_inv : follow_inv (init_sets g).
Proof. split; [apply init_sets_ok|]. intros i x H. destruct (init_sets_empty _ _ _ H). Qed.

(** ** Completeness *)

Definition follow_closed (fo : symbol_sets) : Prop := forall e a j be x, In e (entries g) -> snd e = a ++ NonTerminal j :: be ->
  adds (fst e) fo be x -> inS fo (NonTerminal j) x.

Lemma follow_fixpoint_closed : forall E fo, follow_inv fo -> @follow_round E fo = Ok (fo, false) -> follow_closed fo.
Proof.
  intros E fo H HR e a j be x He Hse Hx.
  pose proof (foldM_unchanged E _ (fun st e => follow_seq (fst e) (snd e) fs st) follow_inv (entries g) fo
    (fun st e He HP => follow_entry_inv E st e He HP) H HR e He) as HU. cbn beta in HU. rewrite follow_seq_fold in HU.
  assert (In (NonTerminal j, be) (tails (snd e))) as Ht by (apply tails_In; eauto).
  pose proof (foldM_unchanged E _ (follow_pos (fst e) fs) follow_inv (tails (snd e)) fo (follow_pos_inv E e He) H HU _ Ht) as HP.
  destruct H as [H1 H2]. destruct (follow_pos_spec E e fo false a j be H1 He Hse) as (fo' & any' & A & _ & _ & D).
  rewrite HP in A. injection A as <- <-. apply D. right; auto.
Qed.

Lemma lookahead_not_eps : forall x, lookahead x -> x <> Epsilon.
Proof. intros x [->|[t ->]]; discriminate. Qed.

Section Complete.
Variable fo : symbol_sets.
Hypothesis ne : no_empty_rhs g.
Hypothesis closed : follow_closed fo.

Definition form_ok (phi : list symbol) : Prop := forall al j be x, phi = al ++ NonTerminal j :: be -> firstT (g_rules g) be x -> inS fo (NonTerminal j) x.

Lemma firstT_in_first : forall be x, firstT (g_rules g) be x -> x <> Epsilon /\ in_first fs be x.
Proof.
  intros be x H. split; [apply lookahead_not_eps; eapply firstT_lookahead; eauto|]. apply (in_first_iff g fs be x ne fsc). auto.
Qed.
Lemma derives_rem_null : forall be, derives (g_rules g) be [] -> rem_null be.
Proof.
  intros be H. destruct be as [|s be]; [left; auto|right]. apply (in_first_iff g fs _ _ ne fsc). right. split; auto. split; auto. discriminate.
Qed.

Lemma rule_entry : forall r i, In r (g_rules g) -> r_lhs r = Some i -> In (Some (NonTerminal i), r_rhs r) (entries g).
Proof. intros r i Hr Hi. right. apply in_map_iff. exists r. rewrite Hi. auto. Qed.

Lemma form_ok_step : forall a b, form_ok a -> sstep (g_rules g) a b -> form_ok b.
Proof.
  intros a b Ha H. destruct H as [u v r i Hr Hi|u v]; intros al j be x E Hf; symmetry in E; apply app_cons_split in E.
  - destruct E as [(v' & -> & ->)|(u' & -> & E)].
    + eapply (Ha al j (v' ++ NonTerminal i :: v)); [rewrite <- app_assoc; auto|].
      eapply firstT_step_back; [|exact Hf]. constructor; auto.
    + symmetry in E. symmetry in E. symmetry in E. apply app_cons_split in E. destruct E as [(v' & E & ->)|(u'' & -> & ->)].
      * apply firstT_app_inv in Hf. destruct Hf as [Hf|[Hn Hf]].
        -- apply (closed (Some (NonTerminal i), r_rhs r) u' j v' x); auto; [apply rule_entry; auto|]. left. apply firstT_in_first; auto.
        -- apply (closed (Some (NonTerminal i), r_rhs r) u' j v' x); auto; [apply rule_entry; auto|]. right. split; [apply derives_rem_null; auto|].
           exists (NonTerminal i). split; auto. eapply (Ha u i v); auto.
      * eapply (Ha (u ++ NonTerminal i :: u'') j be x); [rewrite <- app_assoc; auto|auto].
  - destruct E as [(v' & -> & ->)|(u' & -> & ->)].
    + eapply (Ha al j (v' ++ Epsilon :: v)); [rewrite <- app_assoc; auto|]. eapply firstT_step_back; [|exact Hf]. constructor.
    + eapply (Ha (u ++ Epsilon :: u') j be x); [rewrite <- app_assoc; auto|auto].
Qed.
Lemma form_ok_steps : forall a b, ssteps (g_rules g) a b -> form_ok a -> form_ok b.
Proof. intros a b H. induction H; intros Ha; auto. apply IHssteps. eapply form_ok_step; eauto. Qed.

Lemma start_ok : forall s, start_form g s -> form_ok s.
Proof.
  intros s [->|(i & Hi & ->)] al j be x E Hf.
  - destruct al as [|y [|z al]]; simpl in E.
    + injection E as E <-. apply (closed (None, [g_entry g; End]) [] j [End] x); [left; auto|rewrite E; auto|]. left. apply firstT_in_first; auto.
    + discriminate.
    + injection E as _ _ E. destruct al; discriminate.
  - destruct al as [|y al]; simpl in E; [|injection E as _ E; destruct al; discriminate]. injection E as _ <-. inversion Hf.
Qed.

Lemma follows_complete : forall i x, follows g i x -> inS fo (NonTerminal i) x.
Proof.
  intros i x (Hl & s & al & be & Hs & HS). pose proof (form_ok_steps _ _ HS (start_ok s Hs)) as X.
  apply (X al i (x :: be) x eq_refl). constructor; auto.
Qed.
End Complete.

Lemma compute_follow_ok : forall E fuel, fuel_bound g <= fuel -> exists fo, @compute_follow_sets E fuel g fs = Ok fo.
Proof.
  intros E fuel Hf. unfold compute_follow_sets. rewrite follow_rules_ok. cbn [bind]. rewrite follow_loop_gloop.
  destruct (gloop_ok follow_round follow_inv g (nts_nodup g wf) (fun fs H => proj1 H) (follow_round_ok E) fuel (init_sets g) init_follow_inv) as (fo & A & _); eauto.
  pose proof (universe_bound g). lia.
Qed.
Lemma compute_follow_cases : forall E fuel, (exists fo, @compute_follow_sets E fuel g fs = Ok fo) \/ @compute_follow_sets E fuel g fs = OutOfFuel.
Proof.
  intros E fuel. unfold compute_follow_sets. rewrite follow_rules_ok. cbn [bind]. rewrite follow_loop_gloop.
  apply (gloop_cases follow_round follow_inv (follow_round_ok E)). apply init_follow_inv.
Qed.

Lemma compute_follow_fix : forall E fuel fo, @compute_follow_sets E fuel g fs = Ok fo -> sets_ok g fo /\ follow_sound fo /\ follow_closed fo.
Proof.
  intros E fuel fo H. unfold compute_follow_sets in H. rewrite follow_rules_ok in H. cbn [bind] in H. rewrite follow_loop_gloop in H.
  destruct (gloop_fix follow_round follow_inv (follow_round_ok E) _ _ _ init_follow_inv H) as [[A B] C].
  split; auto. split; auto. eapply follow_fixpoint_closed; eauto. split; auto.
Qed.

Lemma compute_follow_correct : forall E fuel fo i x, no_empty_rhs g -> @compute_follow_sets E fuel g fs = Ok fo ->
  (inS fo (NonTerminal i) x <-> follows g i x).
Proof.
  intros E fuel fo i x ne H. destruct (compute_follow_fix E fuel fo H) as (A & B & C). split; [apply B|apply follows_complete; auto].
Qed.
End Follow.
