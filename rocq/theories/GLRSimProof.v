(** The emitted GLR parser explores the moves of the automaton breadth first: a version without heap. *)
From Coq Require Import String List Arith NArith Bool Lia.
From Verif Require Import Base InputModel GrammarModel GrammarSpec GrammarProof LLModel LLSpec SententialProof SetsProof FirstProof LRModel LRSpec BidiProof ItemProof LRItemsProof LRGraphProof AutomatonProof LRTableProof LRWriteProof LRGenProof LRConflictProof LRRunProof LRCompleteProof GLRModel GLRWriteProof GLRStepProof.
Import ListNotations.
Local Open Scope nat_scope.
Local Open Scope list_scope.

Definition conf : Type := (list frame * list lr_event)%type.
Definition ael : Type := ((list frame + itree) * list lr_event)%type.
Definition is_acc (x : ael) : bool := match fst x with inl _ => false | inr _ => true end.
Definition accs (l : list ael) : nat := length (filter is_acc l).

Lemma accs_app : forall a b, accs (a ++ b) = accs a + accs b.
Proof. intros a b. unfold accs. rewrite filter_app, app_length. auto. Qed.

Section Sim.
Variable g : grammar.
Hypothesis wf : wf_grammar g.
Variable n : nat.
Hypothesis n_le : n <= 1.
Variable fs : symbol_sets.
Variable lalr : bool.
Variable pg : lr_graph.
Hypothesis au : automaton g n fs lalr pg.
Variable tb : lr_table.
Hypothesis tf : table_of g n pg tb.
Variable p : glr_parser.
Hypothesis gw : gwritten g tb p.
Notation mstep := (mstep g n lalr pg).
Notation valid := (valid g pg).
Notation ared := (ared p).
Notation acts_of := (acts_of p).

Definition done1 (c : conf) (a : lr_action) : list ael :=
  match a with
  | ActShift => [(inl (fst c), snd c)]
  | ActReduce k => match ared (fst c) k with Some (inr tr) => [(inr tr, snd c ++ [EReduce k])] | _ => [] end
  end.
Definition todo1 (c : conf) (a : lr_action) : list conf :=
  match a with
  | ActShift => []
  | ActReduce k => match ared (fst c) k with Some (inl fr) => [(fr, snd c ++ [EReduce k])] | _ => [] end
  end.
Definition cacts (w : list N) (c : conf) : list lr_action := acts_of (top (fst c)) (peek w).
Definition cdone (w : list N) (c : conf) : list ael := flat_map (done1 c) (cacts w c).
Definition ctodo (w : list N) (c : conf) : list conf := flat_map (todo1 c) (cacts w c).
Definition ldone (w : list N) (L : list conf) : list ael := flat_map (cdone w) L.
Definition ltodo (w : list N) (L : list conf) : list conf := flat_map (ctodo w) L.
Definition stuck (w : list N) (c : conf) : bool := match cacts w c with [] => true | _ => false end.
Definition lerr (w : list N) (L : list conf) : list (token * list token) := map (fun c => (peek w, gexpected g tb (top (fst c)))) (filter (stuck w) L).

Definition trep (h : gss_heap) (s : gss) (c : conf) : Prop := rep h (gs_node s) (fst c) /\ gs_recorded s = snd c /\ valid (fst c).
Definition srep (h : gss_heap) (s : gss) (x : ael) : Prop :=
  gs_recorded s = snd x /\ match fst x with inl fr => rep h (gs_node s) fr /\ valid fr | inr _ => gs_node s = 0 end.

Lemma trep_ext : forall h h' s c, ext h h' -> trep h s c -> trep h' s c.
Proof. intros h h' s c He (A & B & C). split; [eapply rep_ext; eauto|]. auto. Qed.
Lemma srep_ext : forall h h' s x, ext h h' -> srep h s x -> srep h' s x.
Proof. intros h h' s [[fr|tr] ev] He (A & B); split; simpl in *; auto. destruct B as [B C]. split; auto. eapply rep_ext; eauto. Qed.
Lemma Forall2_mono : forall A B (P Q : A -> B -> Prop) l l', (forall a b, P a b -> Q a b) -> Forall2 P l l' -> Forall2 Q l l'.
Proof. intros A B P Q l l' H F. induction F; constructor; auto. Qed.

Section Level.
(** Stacks accepted before. *)
Variable b0 : nat.
Definition baccs (D : list ael) : nat := b0 + accs D.
Lemma baccs_app : forall D D', baccs (D ++ D') = baccs D + accs D'.
Proof using Type. intros D D'. unfold baccs. rewrite accs_app. apply Nat.add_assoc. Qed.

Record sim (st : glr_state) (D : list ael) (T : list conf) : Prop := {
  sm_hp : hp (gt_heap st) (0 <? baccs D);
  sm_done : Forall2 (srep (gt_heap st)) (gt_reduced st) D;
  sm_todo : Forall2 (trep (gt_heap st)) (gt_todo st) T;
  sm_acc : baccs D <= 1
}.

(** Result of a step which would make the accepted stacks [D] and the pending stacks [T]. *)
Definition outcome {A} (r : gres A) (D : list ael) (Q : A -> Prop) : Prop :=
  if baccs D <=? 1 then exists a, r = Ok a /\ Q a else r = Panic.

Lemma hp_low : forall h h' b, hp h b -> (forall m, m < 2 -> nth_error h' m = nth_error h m) -> hp h' b.
Proof. intros h h' b [A B] H. split; rewrite H; auto. Qed.

Lemma apply_reduce_sim : forall c s st D T k o w, sim st D T -> trep (gt_heap st) s c -> mstep (fst c) w [EReduce k] o w ->
  outcome (apply_reduce p k s st) (D ++ done1 c (ActReduce k)) (fun st' => sim st' (D ++ done1 c (ActReduce k)) (T ++ todo1 c (ActReduce k)) /\ ext (gt_heap st) (gt_heap st')).
Proof.
  intros [fr ev] s [h dn td] D T k o w [S1 S2 S3 S4] (Hr & Hrec & Hv) Hm. cbn [gt_heap gt_reduced gt_todo fst snd] in *.
  destruct (gred g wf n n_le fs lalr pg au tb tf p gw fr w k o w Hv Hm) as (_ & Ha & m & i & Hk & Hle & Hacc).
  unfold apply_reduce. rewrite Hk. cbn [gt_heap gt_reduced gt_todo].
  destruct (unwind_rep m h (gs_node s) fr Hr Hle) as (x & i' & j & Hu & Hj & Hp). rewrite Hu. cbn [bind foldM]. unfold reduce_path. cbn [gt_heap gt_reduced gt_todo].
  destruct (pops_path m (h ++ x) (length h) (length (h ++ x)) i' j Hp) as (h1 & Hpop & Hl & Hsame). rewrite Hpop. cbn [bind].
  assert (2 <= length h) as H2. { destruct S1 as [_ S1]. assert (nth_error h 1 <> None) as X by congruence. apply nth_error_Some in X. lia. }
  assert (forall m, m < length h -> nth_error h1 m = nth_error h m) as Hlow by (intros m' Hm'; rewrite Hsame by auto; apply nth_error_app1; auto).
  assert (ext h h1) as He. { split; [rewrite Hl, app_length; lia|]. intros m' _ Hm'. auto. }
  assert (hp h1 (0 <? baccs D)) as Hhp by (eapply hp_low; eauto; intros; apply Hlow; lia).
  assert (rep h1 j (skipn m fr)) as Hj1 by (eapply rep_ext; eauto).
  rewrite (rep_top h1 _ _ j Hhp Hj1). cbn [bind]. pose proof Ha as Ha'. unfold GLRStepProof.ared in Ha. rewrite Hk in Ha.
  unfold outcome, done1, todo1. cbn [fst snd]. rewrite Ha'.
  destruct (glr_next_goto (gp_gotos p) (top (skipn m fr)) (KNonTerminal i)) as [[|q]|]; [| |discriminate]; injection Ha as <-.
  2: { rewrite app_nil_r. rewrite (proj2 (Nat.leb_le _ _) S4). unfold gss_push, gss_alloc. cbn [bind]. eexists. split; [reflexivity|].
    assert (ext h (h1 ++ [mkNode (Some q) [(Some (KNonTerminal i), j)]])) as He2 by (eapply ext_trans; [exact He|apply ext_app]).
    split; [|exact He2]. split; cbn [gt_heap gt_reduced gt_todo]; auto.
    + eapply hp_low; [exact Hhp|]. intros m' Hm'. apply nth_error_app1. destruct He. lia.
    + eapply Forall2_mono; [|exact S2]. intros a b. apply srep_ext; auto.
    + apply Forall2_app; [eapply Forall2_mono; [|exact S3]; intros a b; apply trep_ext; auto|]. constructor; [|constructor]. split; [|split; [cbn [gs_recorded snd]; congruence|]].
      * cbn [gs_node fst rep fr_state fr_sym]. split; [destruct He; lia|]. exists j. split; [rewrite nth_error_app2, Nat.sub_diag by lia; reflexivity|].
        eapply rep_ext; [apply ext_app|]. auto.
      * apply (mstep_valid g n lalr pg fr w [EReduce k] _ w Hv Hm). }
  - specialize (Hacc _ eq_refl). rewrite Hacc in Hj1. simpl in Hj1. subst j. unfold gss_pop, gss_inner. destruct Hhp as [Hh0 Hh1]. rewrite Hh1. cbn [bind gn_neighbors gn_value].
    rewrite baccs_app. change (accs [(inr (INode k (trees (firstn m fr))), ev ++ [EReduce k])]) with 1. destruct (baccs D) as [|a] eqn:Ea.
    + cbn [Nat.ltb Nat.leb Nat.add]. cbn [bind]. eexists. split; [reflexivity|]. rewrite app_nil_r.
      assert (ext h (gss_set h1 1 (mkNode (Some 0) []))) as He2. { split; [rewrite gss_set_length; apply He|]. intros m' A B. rewrite gss_set_other by lia. apply He; auto. }
      split; [|exact He2]. split; cbn [gt_heap gt_reduced gt_todo].
      * rewrite baccs_app, Ea. cbn. split; [rewrite gss_set_other by lia; auto|]. apply gss_set_same. destruct He. lia.
      * apply Forall2_app; [eapply Forall2_mono; [|exact S2]; intros a b; apply srep_ext; auto|]. constructor; [|constructor]. split; [cbn [gs_recorded snd]; congruence|reflexivity].
      * eapply Forall2_mono; [|exact S3]. intros a b. apply trep_ext; auto.
      * rewrite baccs_app, Ea. cbn. auto.
    + replace (S a + 1 <=? 1) with false by (symmetry; apply Nat.leb_gt; lia). reflexivity.
Qed.

Lemma outcome_le : forall A (r : gres A) D D' Q, baccs D' <= baccs D -> outcome r D' Q -> baccs D <= 1 -> exists a, r = Ok a /\ Q a.
Proof. intros A r D D' Q H Ho Hl. unfold outcome in Ho. rewrite (proj2 (Nat.leb_le _ _)) in Ho by lia. auto. Qed.

(** All actions of a stack. *)
Lemma apply_actions_sim : forall l c s st D T w, sim st D T -> trep (gt_heap st) s c -> (forall a, In a l -> exists o w', mstep (fst c) w [event a (peek w)] o w') ->
  outcome (foldM (apply_action p s) l st) (D ++ flat_map (done1 c) l) (fun st' => sim st' (D ++ flat_map (done1 c) l) (T ++ flat_map (todo1 c) l) /\ ext (gt_heap st) (gt_heap st')).
Proof.
  induction l as [|a l IH]; intros c s st D T w Hs Ht Hl; cbn [foldM flat_map].
  - rewrite !app_nil_r. unfold outcome. rewrite (proj2 (Nat.leb_le _ _) (sm_acc _ _ _ Hs)). exists st. split; auto. split; auto. apply ext_refl.
  - assert (outcome (apply_action p s st a) (D ++ done1 c a) (fun st' => sim st' (D ++ done1 c a) (T ++ todo1 c a) /\ ext (gt_heap st) (gt_heap st'))) as H1.
    { destruct a as [|k].
      - unfold outcome. cbn [done1 todo1 apply_action]. rewrite baccs_app. change (accs [(inl (fst c), snd c)]) with 0. rewrite Nat.add_0_r, (proj2 (Nat.leb_le _ _) (sm_acc _ _ _ Hs)), app_nil_r.
        eexists. split; [reflexivity|]. split; [|apply ext_refl]. destruct Hs as [S1 S2 S3 S4]. split; cbn [gt_heap gt_reduced gt_todo]; auto.
        + rewrite baccs_app. change (accs [(inl (fst c), snd c)]) with 0. rewrite Nat.add_0_r. auto.
        + apply Forall2_app; auto. constructor; [|constructor]. destruct Ht as (A & B & C). split; auto. split; auto.
        + rewrite baccs_app. change (accs [(inl (fst c), snd c)]) with 0. lia.
      - destruct (Hl _ (or_introl eq_refl)) as (o & w' & Hm). simpl in Hm.
        destruct (gred g wf n n_le fs lalr pg au tb tf p gw _ _ _ _ _ (proj2 (proj2 Ht)) Hm) as (-> & _). eapply apply_reduce_sim; eauto. }
    unfold outcome in *. rewrite (app_assoc D). destruct (baccs (D ++ done1 c a) <=? 1) eqn:E1.
    + destruct H1 as (st1 & E & S1 & X1). rewrite E. cbn [bind]. specialize (IH c s st1 _ _ w S1 (trep_ext _ _ _ _ X1 Ht) (fun b Hb => Hl b (or_intror Hb))).
      destruct (baccs ((D ++ done1 c a) ++ flat_map (done1 c) l) <=? 1); auto. destruct IH as (st2 & E2 & S2 & X2). exists st2. split; auto. rewrite app_assoc. split; auto. eapply ext_trans; eauto.
    + rewrite baccs_app. apply Nat.leb_gt in E1. rewrite (proj2 (Nat.leb_gt _ _)) by lia. rewrite H1. reflexivity.
Qed.

(** One stack. *)
Lemma reduce_stack_sim : forall c s st D T w errs, sim st D T -> trep (gt_heap st) s c ->
  outcome (reduce_stack_glr p (peek w) (st, errs) s) (D ++ cdone w c)
    (fun r => sim (fst r) (D ++ cdone w c) (T ++ ctodo w c) /\ ext (gt_heap st) (gt_heap (fst r)) /\ snd r = errs ++ lerr w [c]).
Proof.
  intros c s st D T w errs Hs Ht. unfold reduce_stack_glr. destruct Ht as (Hr & Hrec & Hv). rewrite (rep_top _ _ _ _ (sm_hp _ _ _ Hs) Hr). cbn [bind].
  unfold cdone, ctodo, lerr, stuck, cacts, GLRStepProof.acts_of.
  destruct (gacts g wf n n_le fs lalr pg au tb tf p gw (fst c) w Hv) as [(a & l & E & _ & Hl)|[E Hn]]; cbn [filter]; rewrite E.
  - pose proof (apply_actions_sim (a :: l) c s st D T w Hs (conj Hr (conj Hrec Hv)) (fun b Hb => proj1 (Hl b) Hb)) as H. unfold outcome in *. destruct (baccs (D ++ flat_map (done1 c) (a :: l)) <=? 1).
    + destruct H as (st' & -> & S' & X'). cbn [bind]. eexists. split; [reflexivity|]. cbn [fst snd map]. rewrite app_nil_r. auto.
    + rewrite H. reflexivity.
  - cbn [flat_map]. rewrite !app_nil_r. unfold outcome. rewrite (proj2 (Nat.leb_le _ _) (sm_acc _ _ _ Hs)). eexists. split; [reflexivity|]. cbn [fst snd map]. split; auto. split; auto. apply ext_refl.
Qed.

Lemma level_sim : forall L Lc st D T w errs, sim st D T -> Forall2 (trep (gt_heap st)) Lc L ->
  outcome (foldM (reduce_stack_glr p (peek w)) Lc (st, errs)) (D ++ ldone w L)
    (fun r => sim (fst r) (D ++ ldone w L) (T ++ ltodo w L) /\ ext (gt_heap st) (gt_heap (fst r)) /\ snd r = errs ++ lerr w L).
Proof.
  induction L as [|c L IH]; intros Lc st D T w errs Hs HL; inversion HL as [|s ? Lc' ? Ht HL']; subst; cbn [foldM]; unfold ldone, ltodo; cbn [flat_map].
  - rewrite !app_nil_r. unfold outcome. rewrite (proj2 (Nat.leb_le _ _) (sm_acc _ _ _ Hs)). eexists. split; [reflexivity|]. cbn [fst snd lerr filter map]. unfold lerr; cbn [filter map]. rewrite ?app_nil_r. split; auto. split; auto. apply ext_refl.
  - pose proof (reduce_stack_sim c s st D T w errs Hs Ht) as H1. unfold outcome in *. fold (ldone w L). fold (ltodo w L). rewrite (app_assoc D). destruct (baccs (D ++ cdone w c) <=? 1) eqn:E1.
    + destruct H1 as ([st1 e1] & -> & S1 & X1 & Ee). cbn [bind fst snd] in *. subst e1. assert (Forall2 (trep (gt_heap st1)) Lc' L) as HL1 by (eapply Forall2_mono; [|exact HL']; intros a b; apply trep_ext; auto).
      specialize (IH Lc' st1 _ _ w (errs ++ lerr w [c]) S1 HL1). destruct (baccs ((D ++ cdone w c) ++ ldone w L) <=? 1); auto. destruct IH as (r & E & S2 & X2 & Er). exists r. split; auto. rewrite app_assoc. split; auto.
      split; [eapply ext_trans; eauto|]. rewrite Er, <- app_assoc. f_equal. unfold lerr. cbn [filter]. destruct (stuck w c); reflexivity.
    + rewrite baccs_app. apply Nat.leb_gt in E1. rewrite (proj2 (Nat.leb_gt _ _)) by lia. rewrite H1. reflexivity.
Qed.

End Level.

(** ** Without heap *)

Definition comb (errors : list (token * list token)) : glr_error :=
  match errors with [(got, expected)] => GUnexpectedToken got expected | _ => GUnexpectedTokens errors end.

Fixpoint preduces (fuel : nat) (w : list N) (D : list ael) (L : list conf) : gres (list ael) :=
  match fuel with
  | O => OutOfFuel
  | Datatypes.S fuel =>
    match L with
    | [] => Ok D
    | _ =>
      if accs (D ++ ldone w L) <=? 1 then
        match D ++ ldone w L with
        | [] => if forallb (stuck w) L then Err (comb (lerr w L)) else preduces fuel w [] (ltodo w L)
        | D' => preduces fuel w D' (ltodo w L)
        end
      else Panic
    end
  end.

Lemma lerr_length : forall w L, (length (lerr w L) =? length L) = forallb (stuck w) L.
Proof.
  intros w L. unfold lerr. rewrite map_length. induction L as [|c L IH]; auto. cbn [filter forallb length]. destruct (stuck w c); cbn [length andb]; auto.
  apply Nat.eqb_neq. intros X. apply (Nat.nle_succ_diag_l (length L)). rewrite <- X. apply filter_length_le.
Qed.

Definition same {A B} (r : gres A) (r' : gres B) (Q : A -> B -> Prop) : Prop :=
  match r' with Ok b => exists a, r = Ok a /\ Q a b | Err e => r = Err e | Panic => r = Panic | OutOfFuel => r = OutOfFuel end.

Lemma apply_reduces_sim : forall fuel h Dc Lc D L w, hp h (0 <? accs D) -> Forall2 (srep h) Dc D -> Forall2 (trep h) Lc L -> accs D <= 1 ->
  same (apply_reduces fuel p (peek w) h Dc Lc) (preduces fuel w D L) (fun r D' => hp (fst r) (0 <? accs D') /\ Forall2 (srep (fst r)) (snd r) D' /\ accs D' <= 1).
Proof.
  induction fuel as [|fuel IH]; intros h Dc Lc D L w H1 H2 H3 H4; [reflexivity|]. cbn [apply_reduces preduces].
  destruct H3 as [|s c Lc L Ht HL]; [eexists; split; [reflexivity|]; auto|].
  pose proof (level_sim 0 (c :: L) (s :: Lc) (mkGState h Dc []) D [] w [] (Build_sim 0 (mkGState h Dc []) D [] H1 H2 (Forall2_nil _) H4) (Forall2_cons _ _ Ht HL)) as HV. unfold outcome, baccs in HV. cbn [Nat.add] in HV.
  destruct (accs (D ++ ldone w (c :: L)) <=? 1); [|rewrite HV; reflexivity]. destruct HV as ([st e] & E & S1 & X1 & Ee). cbn [fst snd gt_heap] in *. rewrite E. cbn [bind]. cbn [app] in Ee. subst e.
  destruct S1 as [S1 S2 S3 S4]. unfold baccs in S1, S4. cbn [Nat.add] in S1, S4.
  assert (length (lerr w (c :: L)) =? length (s :: Lc) = forallb (stuck w) (c :: L)) as Ee.
  { rewrite <- lerr_length. f_equal. simpl. f_equal. clear -HL. induction HL; simpl; auto. }
  remember (D ++ ldone w (c :: L)) as D' eqn:ED. destruct S2 as [|s' x' Dc' D' Hx HD].
  - rewrite Ee. destruct (forallb (stuck w) (c :: L)) eqn:Ef.
    + assert (lerr w (c :: L) <> []) as Hne. { cbn [forallb] in Ef. apply andb_true_iff in Ef. unfold lerr. cbn [filter]. rewrite (proj1 Ef). discriminate. }
      unfold same, comb, combine_errors. destruct (lerr w (c :: L)) as [|[got exp] [|]]; auto. congruence.
    + apply IH; auto; constructor.
  - apply IH; auto.
Qed.

(** The stacks after the shift. *)
Definition pshift (w : list N) (x : ael) : list ael :=
  match fst x, w with
  | inl fr, t :: _ =>
    match glr_next_goto (gp_gotos p) (top fr) (KTerminal (Some t)) with
    | Some (GotoState q) => [(inl (mkFrame (Terminal t) q (ILeaf t) :: fr), snd x ++ [EShift (Some t)])]
    | _ => []
    end
  | _, _ => []
  end.
Definition after (w : list N) (D : list ael) : list ael := if existsb is_acc D then D else flat_map (pshift w) D.
Definition confs (D : list ael) : list conf := flat_map (fun x => match fst x with inl fr => [(fr, snd x)] | inr _ => [] end) D.

Fixpoint prun (fuel rfuel : nat) (S : list ael) (w : list N) : list lr_event * gres (list N) :=
  match fuel with
  | O => ([], OutOfFuel)
  | Datatypes.S fuel =>
    if match S with [x] => is_acc x | _ => false end then ([], Ok w)
    else if existsb is_acc S then ([], match rfuel with O => OutOfFuel | _ => Panic end)
    else
      match preduces rfuel w [] (confs S) with
      | Ok D =>
        match after w D with
        | [x] => let '(ev, r) := prun fuel rfuel [(fst x, [])] (tl w) in (snd x ++ ev, r)
        | S' => prun fuel rfuel S' (tl w)
        end
      | Err e => ([], Err e)
      | Panic => ([], Panic)
      | OutOfFuel => ([], OutOfFuel)
      end
  end.

Lemma srep_root : forall h b s x, hp h b -> srep h s x -> gss_is_root h s = is_acc x.
Proof.
  intros h b s [[fr|tr] ev] Hh (A & B); unfold gss_is_root, is_acc; cbn [fst] in *.
  - destruct B as [B _]. pose proof (rep_top h b fr _ Hh B) as X. unfold gss_top, gss_inner in X. destruct (nth_error h (gs_node s)) as [m|]; [|reflexivity]. cbn [bind] in X. injection X as ->. reflexivity.
  - rewrite B. destruct Hh as [-> _]. reflexivity.
Qed.

Lemma root_exists : forall h b Sc S, hp h b -> Forall2 (srep h) Sc S -> existsb (gss_is_root h) Sc = existsb is_acc S.
Proof. intros h b Sc S Hh H. induction H as [|s x Sc S Hx H IH]; auto. cbn [existsb]. rewrite IH, (srep_root h b s x Hh Hx). auto. Qed.

Lemma no_acc_confs : forall h Sc S, existsb is_acc S = false -> Forall2 (srep h) Sc S -> Forall2 (trep h) Sc (confs S).
Proof.
  intros h Sc S He H. induction H as [|s [[fr|tr] ev] Sc S (A & B) H IH]; [constructor| |discriminate]. simpl in He. unfold confs. cbn [flat_map fst snd app]. constructor; [|apply IH; auto].
  cbn [fst] in B. split; [apply B|]. split; auto. apply B.
Qed.

(** A stack list with a root in it. *)
Lemma root_panics : forall b S Sc st errs w, Forall2 (srep (gt_heap st)) Sc S -> existsb is_acc S = true -> (exists D T, sim b st D T) ->
  foldM (reduce_stack_glr p (peek w)) Sc (st, errs) = Panic.
Proof.
  intros b S. induction S as [|x S IH]; intros Sc st errs w HS He (D & T & Hs); inversion HS as [|s ? Sc' ? Hx HS']; subst; [discriminate|]. cbn [foldM].
  destruct x as [[fr|tr] ev].
  - cbn [existsb is_acc fst orb] in He. destruct Hx as [A [B C]]. cbn [fst snd] in *.
    pose proof (reduce_stack_sim b (fr, ev) s st D T w errs Hs (conj B (conj A C))) as H. unfold outcome in H. destruct (baccs b (D ++ cdone w (fr, ev)) <=? 1).
    + destruct H as ([st1 e1] & -> & S1 & X1 & _). cbn [bind fst snd] in *. apply IH; eauto.
      eapply Forall2_mono; [|exact HS']. intros y z. apply srep_ext; auto.
    + rewrite H. reflexivity.
  - destruct Hx as [_ Hx]. cbn [fst] in Hx. unfold reduce_stack_glr. unfold gss_top, gss_inner. rewrite Hx. destruct (sm_hp _ _ _ _ Hs) as [-> _]. reflexivity.
Qed.

(** Properties of finished levels. *)
Lemma cdone_In : forall w c o ev, valid (fst c) -> In (o, ev) (cdone w c) <->
  (o = inl (fst c) /\ ev = snd c /\ exists o' w', mstep (fst c) w [EShift (peek w)] o' w') \/
  (exists tr k, o = inr tr /\ ev = snd c ++ [EReduce k] /\ mstep (fst c) w [EReduce k] (inr tr) w).
Proof.
  intros w c o ev Hv. unfold cdone, cacts, GLRStepProof.acts_of. destruct (gacts g wf n n_le fs lalr pg au tb tf p gw (fst c) w Hv) as [(a & l & E & _ & Hl)|[E Hn]]; rewrite E.
  - rewrite in_flat_map. split.
    + intros (b & Hb & Hi). apply Hl in Hb. destruct Hb as (o' & w' & Hm). destruct b as [|k]; cbn [event done1] in *.
      * destruct Hi as [[= <- <-]|[]]. left. eauto.
      * destruct (gred g wf n n_le fs lalr pg au tb tf p gw _ _ _ _ _ Hv Hm) as (-> & Ha & _). rewrite Ha in Hi. destruct o' as [fr'|tr]; [destruct Hi|]. destruct Hi as [[= <- <-]|[]]. right. eauto.
    + intros [(-> & -> & o' & w' & Hm)|(tr & k & -> & -> & Hm)].
      * exists ActShift. split; [apply Hl; eauto|left; auto].
      * exists (ActReduce k). split; [apply Hl; eauto|]. destruct (gred g wf n n_le fs lalr pg au tb tf p gw _ _ _ _ _ Hv Hm) as (_ & Ha & _). cbn [done1]. rewrite Ha. left. auto.
  - split; [intros []|]. intros [(_ & _ & o' & w' & Hm)|(tr & k & _ & _ & Hm)]; destruct (Hn _ _ _ Hm).
Qed.

Lemma ctodo_In : forall w c fr ev, valid (fst c) -> In (fr, ev) (ctodo w c) <-> exists k, ev = snd c ++ [EReduce k] /\ mstep (fst c) w [EReduce k] (inl fr) w.
Proof.
  intros w c fr ev Hv. unfold ctodo, cacts, GLRStepProof.acts_of. destruct (gacts g wf n n_le fs lalr pg au tb tf p gw (fst c) w Hv) as [(a & l & E & _ & Hl)|[E Hn]]; rewrite E.
  - rewrite in_flat_map. split.
    + intros (b & Hb & Hi). apply Hl in Hb. destruct Hb as (o' & w' & Hm). destruct b as [|k]; cbn [event todo1] in *; [destruct Hi|].
      destruct (gred g wf n n_le fs lalr pg au tb tf p gw _ _ _ _ _ Hv Hm) as (-> & Ha & _). rewrite Ha in Hi. destruct o' as [fr'|tr]; [|destruct Hi]. destruct Hi as [[= <- <-]|[]]. eauto.
    + intros (k & -> & Hm). exists (ActReduce k). split; [apply Hl; eauto|]. destruct (gred g wf n n_le fs lalr pg au tb tf p gw _ _ _ _ _ Hv Hm) as (_ & Ha & _). cbn [todo1]. rewrite Ha. left. auto.
  - split; [intros []|]. intros (k & _ & Hm). destruct (Hn _ _ _ Hm).
Qed.

Lemma stuck_spec : forall w c, valid (fst c) -> stuck w c = true <-> forall ev o w', ~ mstep (fst c) w ev o w'.
Proof.
  intros w c Hv. unfold stuck, cacts, GLRStepProof.acts_of. destruct (gacts g wf n n_le fs lalr pg au tb tf p gw (fst c) w Hv) as [(a & l & E & _ & Hl)|[E Hn]]; rewrite E.
  - split; [discriminate|]. intros H. destruct (proj1 (Hl a) (or_introl eq_refl)) as (o & w' & Hm). destruct (H _ _ _ Hm).
  - tauto.
Qed.

(** Stacks which wait for the token. *)
Definition shifting (w : list N) (x : ael) : Prop := match fst x with inl fr => valid fr /\ exists o w', mstep fr w [EShift (peek w)] o w' | inr _ => True end.

Lemma ldone_shifting : forall w L, Forall (fun c => valid (fst c)) L -> Forall (shifting w) (ldone w L).
Proof.
  intros w L H. apply Forall_forall. intros [o ev] Hi. unfold ldone in Hi. apply in_flat_map in Hi. destruct Hi as (c & Hc & Hi). pose proof (proj1 (Forall_forall _ _) H c Hc) as Hv. simpl in Hv.
  apply cdone_In in Hi; auto. destruct Hi as [(-> & -> & Hm)|(tr & k & -> & _)]; unfold shifting; cbn [fst]; auto.
Qed.

Lemma ltodo_valid : forall w L, Forall (fun c => valid (fst c)) L -> Forall (fun c => valid (fst c)) (ltodo w L).
Proof.
  intros w L H. apply Forall_forall. intros [fr ev] Hi. unfold ltodo in Hi. apply in_flat_map in Hi. destruct Hi as (c & Hc & Hi). pose proof (proj1 (Forall_forall _ _) H c Hc) as Hv. simpl in Hv.
  apply ctodo_In in Hi; auto. destruct Hi as (k & _ & Hm). simpl. apply (mstep_valid g n lalr pg _ _ _ _ _ Hv Hm).
Qed.

Lemma preduces_shifting : forall fuel w D L D', Forall (fun c => valid (fst c)) L -> Forall (shifting w) D -> preduces fuel w D L = Ok D' -> Forall (shifting w) D'.
Proof.
  induction fuel as [|fuel IH]; intros w D L D' HL HD H; [discriminate|]. cbn [preduces] in H. destruct L as [|c L]; [congruence|].
  destruct (accs (D ++ ldone w (c :: L)) <=? 1); [|discriminate].
  assert (Forall (shifting w) (D ++ ldone w (c :: L))) as HD' by (apply Forall_app; split; auto; apply ldone_shifting; auto).
  pose proof (ltodo_valid w _ HL) as HT. destruct (D ++ ldone w (c :: L)) as [|x l].
  - destruct (forallb (stuck w) (c :: L)); [discriminate|]. eapply IH; eauto.
  - eapply IH; eauto.
Qed.

Lemma shift_sim : forall D Dc h b S Sc w, hp h b -> Forall2 (srep h) Dc D -> Forall2 (srep h) Sc S -> existsb is_acc D = false -> Forall (shifting w) D ->
  exists h' Sc', foldM (shift_stack p (peek w)) Dc (h, Sc) = Ok (h', Sc') /\ hp h' b /\ Forall2 (srep h') Sc' (S ++ flat_map (pshift w) D).
Proof.
  induction D as [|x D IH]; intros Dc h b S Sc w Hh HD HS He Hsh; inversion HD as [|s ? Dc' ? Hx HD']; subst; cbn [foldM flat_map].
  - exists h, Sc. rewrite app_nil_r. auto.
  - destruct x as [[fr|tr] ev]; [|discriminate]. cbn [existsb is_acc fst orb] in He. inversion Hsh as [|? ? H1 H2]; subst. cbn [shifting fst] in H1. destruct H1 as [Hv (o & w' & Hm)].
    destruct (gshift g wf n n_le fs lalr pg au tb tf p gw fr w o w' Hv Hm) as (t & q & Ew & -> & Hg). destruct Hx as [A [B _]]. cbn [fst snd] in *.
    unfold shift_stack at 1. rewrite (rep_top _ _ _ _ Hh B). cbn [bind]. rewrite Hg. unfold gss_push, gss_alloc.
    remember (h ++ [mkNode (Some q) [(Some (KTerminal (peek w)), gs_node s)]]) as h1 eqn:Eh. assert (ext h h1) as Hext by (subst h1; apply ext_app).
    assert (2 <= length h) as Hlen. { destruct Hh as [_ Hh]. assert (nth_error h 1 <> None) as X by congruence. apply nth_error_Some in X. lia. }
    destruct (IH Dc' h1 b (S ++ pshift w (inl fr, ev)) (Sc ++ [mkGss (length h) (gs_recorded s ++ [EShift (peek w)])]) w) as (h' & Sc' & E & Hh' & HS').
    + eapply hp_low; [exact Hh|]. intros m Hm'. subst h1. apply nth_error_app1. lia.
    + eapply Forall2_mono; [|exact HD']. intros y z. apply srep_ext; auto.
    + apply Forall2_app; [eapply Forall2_mono; [|exact HS]; intros y z; apply srep_ext; auto|]. unfold pshift. cbn [fst snd]. rewrite Ew in *. cbn [peek hd_error] in *. rewrite Hg. constructor; [|constructor].
      split; [cbn [gs_recorded snd]; congruence|]. cbn [fst]. split; [|apply (mstep_valid g n lalr pg _ _ _ _ _ Hv Hm)].
      cbn [gs_node rep fr_state fr_sym]. split; auto. exists (gs_node s). split; [subst h1; rewrite nth_error_app2, Nat.sub_diag by lia; reflexivity|]. eapply rep_ext; eauto.
    + auto.
    + auto.
    + exists h', Sc'. split; auto. split; auto. rewrite app_assoc. auto.
Qed.

Lemma accs_exists : forall D, existsb is_acc D = (0 <? accs D).
Proof. intros D. unfold accs. induction D as [|x D IH]; auto. cbn [existsb filter]. destruct (is_acc x); auto. Qed.

Lemma run_sim : forall fuel rfuel S Sc h w, hp h (existsb is_acc S) -> Forall2 (srep h) Sc S -> glr_run fuel rfuel p h Sc w = prun fuel rfuel S w.
Proof.
  induction fuel as [|fuel IH]; intros rfuel S Sc h w Hh HS; [reflexivity|]. cbn [glr_run prun].
  assert (match Sc with [s] => gss_is_root h s | _ => false end = match S with [x] => is_acc x | _ => false end) as ->.
  { destruct HS as [|s x Sc S Hx HS]; auto. destruct HS; auto. eapply srep_root; eauto. }
  destruct (match S with [x] => is_acc x | _ => false end); auto. destruct (existsb is_acc S) eqn:Ea.
  - unfold glr_pass. destruct rfuel as [|rfuel]; [reflexivity|]. cbn [apply_reduces]. destruct Sc as [|s Sc]; [inversion HS; subst; discriminate|].
    rewrite (root_panics 1 S (s :: Sc) (mkGState h [] []) [] w HS Ea); [reflexivity|]. exists [], []. split; cbn [gt_heap gt_reduced gt_todo]; auto.
  - unfold glr_pass. pose proof (no_acc_confs h Sc S Ea HS) as HL.
    pose proof (apply_reduces_sim rfuel h [] Sc [] (confs S) w Hh (Forall2_nil _) HL (Nat.le_0_l _)) as HR.
    assert (Forall (fun c => valid (fst c)) (confs S)) as HV. { clear -HL. induction HL as [|s c Sc L (A & B & C) HL IH]; constructor; auto. }
    destruct (preduces rfuel w [] (confs S)) as [D|e| |] eqn:ED; unfold same in HR; try (rewrite HR; reflexivity).
    destruct HR as ([h1 Dc] & -> & H1 & H2 & H3). cbn [bind fst snd] in *. rewrite (root_exists h1 _ Dc D H1 H2). unfold after. rewrite <- accs_exists in H1.
    assert (forall h2 Sc2 S2, hp h2 (existsb is_acc S2) -> Forall2 (srep h2) Sc2 S2 ->
      match Sc2 with [s] => let '(ev, r) := glr_run fuel rfuel p h2 [mkGss (gs_node s) []] (tl w) in (gs_recorded s ++ ev, r) | _ => glr_run fuel rfuel p h2 Sc2 (tl w) end =
      match S2 with [x] => let '(ev, r) := prun fuel rfuel [(fst x, [])] (tl w) in (snd x ++ ev, r) | _ => prun fuel rfuel S2 (tl w) end) as HN.
    { intros h2 Sc2 S2 Hh2 HS2. pose proof (IH rfuel S2 Sc2 h2 (tl w) Hh2 HS2) as H0. destruct HS2 as [|s x Sc2 S2 Hx HS2]; auto. destruct HS2 as [|s' x' Sc2 S2 Hx' HS2]; auto.
      rewrite (IH rfuel [(fst x, [])] [mkGss (gs_node s) []] h2 (tl w)).
      - destruct Hx as [-> _]. reflexivity.
      - cbn [existsb] in *. exact Hh2.
      - constructor; [|constructor]. destruct Hx as [_ Hx]. split; auto. }
    destruct (existsb is_acc D) eqn:Ed.
    + cbn [bind]. specialize (HN h1 Dc D). rewrite Ed in HN. specialize (HN H1 H2). destruct Dc as [|s [|]], D as [|x [|]]; exact HN.
    + pose proof (preduces_shifting rfuel w [] _ D HV (Forall_nil _) ED) as Hsh.
      destruct (shift_sim D Dc h1 _ [] [] w H1 H2 (Forall2_nil _) Ed Hsh) as (h2 & Sc2 & -> & Hh2 & HS2). cbn [bind app] in *.
      assert (existsb is_acc (flat_map (pshift w) D) = false) as E0.
      { apply not_true_is_false. intros X. apply existsb_exists in X. destruct X as (y & Hy & Hy'). apply in_flat_map in Hy. destruct Hy as ([[fr|tr] ev] & _ & Hy); unfold pshift in Hy; cbn [fst] in Hy; [|destruct Hy].
        destruct w as [|t w]; [destruct Hy|]. destruct (glr_next_goto _ _ _) as [[|q]|]; [destruct Hy| |destruct Hy]. destruct Hy as [<-|[]]. discriminate. }
      specialize (HN h2 Sc2 (flat_map (pshift w) D)). rewrite E0 in HN. specialize (HN Hh2 HS2). destruct Sc2 as [|s [|]], (flat_map (pshift w) D) as [|x [|]]; exact HN.
Qed.

Lemma parse_sim : forall fuel w, glr_parse fuel p w = prun fuel fuel [(inl [], [])] w.
Proof.
  intros fuel w. unfold glr_parse. rewrite (gw_entry _ _ _ gw), (tf_entry _ _ _ _ tf). apply run_sim; [split; reflexivity|]. constructor; [|constructor]. split; auto. split; simpl; auto. constructor.
Qed.
End Sim.
