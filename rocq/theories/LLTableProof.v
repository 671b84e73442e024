(** LL(1) table generation is exact. *)
From Coq Require Import String List Arith NArith Bool Lia.
From Verif Require Import Base InputModel GrammarModel GrammarSpec GrammarNamesProof GrammarProof GrammarBuildProof LLModel LLSpec SententialProof SetsProof FirstProof FollowProof.
Import ListNotations.
Local Open Scope nat_scope.

(** ** Table generation as a list of insertions *)

Definition isLook (x : symbol) : bool := match x with End | Terminal _ => true | _ => false end.
Lemma isLook_iff : forall x, isLook x = true <-> lookahead x.
Proof.
  intros x. unfold lookahead. destruct x; simpl; split; intros H; try discriminate; auto; try (destruct H as [H|[? H]]; discriminate). right; eauto.
Qed.

Definition fits (x : symbol) : Prop := forall t, x = Terminal t -> (t < 65535)%N.
Definition col (x : symbol) : option N := match x with Terminal t => Some (t + 1)%N | _ => None end.

Lemma col_inj : forall x y, lookahead x -> lookahead y -> col x = col y -> x = y.
Proof. intros x y [->|[t ->]] [->|[t' ->]] H; simpl in H; try discriminate; auto. injection H as H. f_equal. lia. Qed.

Definition insertion : Type := (N * symbol) * list symbol.
Definition ins_of (i : N) (p : list symbol) (x : symbol) : insertion := ((i, x), p).
Definition put (tb : ll_table) (e : insertion) : res ll_error ll_table := check_and_insert tb (fst (fst e)) (col (snd (fst e))) (snd e).

Lemma insert_symbol_put : forall i x p tb, isLook x = true -> fits x -> insert_symbol (NonTerminal i) p tb x = put tb (ins_of i p x).
Proof.
  intros i x p tb Hx Hf. destruct x as [| |j|t]; simpl in Hx; try discriminate; auto. simpl. unfold succ_u16.
  specialize (Hf t eq_refl). destruct (N.ltb_spec (t + 1) 65536); [auto|lia].
Qed.

Lemma foldM_insert : forall i p l tb, (forall x, In x l -> fits x) ->
  foldM (insert_symbol (NonTerminal i) p) l tb = foldM put (map (ins_of i p) (filter isLook l)) tb.
Proof.
  intros i p l. induction l as [|x l IH]; intros tb H; cbn [foldM filter map]; auto.
  destruct (isLook x) eqn:E; cbn [map foldM].
  - rewrite insert_symbol_put by (auto; apply H; left; auto). destruct (put tb (ins_of i p x)); cbn [bind]; auto. apply IH. intros; apply H; right; auto.
  - replace (insert_symbol (NonTerminal i) p tb x) with (@Ok ll_error _ tb) by (destruct x; simpl in E; try discriminate; auto). cbn [bind].
    apply IH. intros; apply H; right; auto.
Qed.
Lemma foldM_insert' : forall i p l r tb, r_lhs r = Some i -> (forall x, In x l -> fits x) ->
  foldM (fun tb s => do lhs <- (match s with End | Terminal _ => rule_lhs r | _ => Ok Epsilon end); insert_symbol lhs p tb s) l tb =
  foldM put (map (ins_of i p) (filter isLook l)) tb.
Proof.
  intros i p l r tb Hi. revert tb. induction l as [|x l IH]; intros tb H; cbn [foldM filter map]; auto.
  destruct (isLook x) eqn:E; cbn [map foldM].
  - replace (do lhs <- (match x with End | Terminal _ => rule_lhs r | _ => Ok Epsilon end); insert_symbol lhs p tb x)
      with (insert_symbol (NonTerminal i) p tb x) by (unfold rule_lhs; rewrite Hi; destruct x; simpl in E; try discriminate; auto).
    rewrite insert_symbol_put by (auto; apply H; left; auto). destruct (put tb (ins_of i p x)); cbn [bind]; auto. apply IH. intros; apply H; right; auto.
  - replace (do lhs <- (match x with End | Terminal _ => rule_lhs r | _ => Ok Epsilon end); insert_symbol lhs p tb x)
      with (@Ok ll_error _ tb) by (destruct x; simpl in E; try discriminate; auto). cbn [bind].
    apply IH. intros; apply H; right; auto.
Qed.

(** ** Inserting into a table *)

Definition cell (e : insertion) : N * option N := (fst (fst e), col (snd (fst e))).

Lemma put_all_ok : forall l tb tb', msorted tb -> foldM put l tb = Ok tb' ->
  NoDup (map cell l) /\ (forall e, In e l -> map_get (cell e) tb = None) /\ msorted tb' /\
  (forall k p, map_get k tb' = Some p <-> map_get k tb = Some p \/ exists e, In e l /\ cell e = k /\ snd e = p).
Proof.
  induction l as [|e l IH]; intros tb tb' Hs H; cbn [foldM] in H.
  - injection H as <-. split; [constructor|]. split; [intros e []|]. split; auto. intros k p. split; auto. intros [?|(e & [] & _)]; auto.
  - inv_bind H. unfold put, check_and_insert in Hb. fold (cell e) in Hb. destruct (map_get (cell e) tb) as [prev|] eqn:Eg; [discriminate|]. injection Hb as <-.
    apply IH in H; [|apply map_insert_sorted; auto]. destruct H as (A & B & C & D). split; [|split; [|split]].
    + cbn [map]. constructor; auto. intros Hin. apply in_map_iff in Hin. destruct Hin as (e' & E & Hin). apply B in Hin. rewrite E, map_get_insert_eq in Hin. discriminate.
    + intros e' [<-|He]; auto. pose proof (B _ He) as X. rewrite map_get_insert in X by auto. destruct (cmp_dec (cell e') (cell e)); [discriminate|auto].
    + auto.
    + intros k p. rewrite D, map_get_insert by auto. destruct (cmp_dec k (cell e)) as [->|Hk].
      * split.
        -- intros [[= <-]|(e' & He & E & <-)]; [right; exists e; split; [left; auto|auto]|].
           exfalso. apply B in He. rewrite E, map_get_insert_eq in He. discriminate.
        -- intros [X|(e' & [<-|He] & E & <-)]; [congruence|left; auto|right; exists e'; auto].
      * split.
        -- intros [X|(e' & He & E & <-)]; [left; auto|right; exists e'; split; [right; auto|auto]].
        -- intros [X|(e' & [<-|He] & E & <-)]; [left; auto|exfalso; auto|right; exists e'; auto].
Qed.

Lemma put_all_cases : forall l tb, msorted tb -> (forall e, In e l -> lookahead (snd (fst e))) ->
  (exists tb', foldM put l tb = Ok tb') \/
  (exists l1 e l2 tb1 prev, l = l1 ++ e :: l2 /\ foldM put l1 tb = Ok tb1 /\ map_get (cell e) tb1 = Some prev /\
     foldM put l tb = Err (ParserTableConflict (NonTerminal (fst (fst e))) (snd (fst e)) (snd e) prev)).
Proof.
  induction l as [|e l IH]; intros tb Hs Hl; cbn [foldM]; [left; eauto|].
  destruct (map_get (cell e) tb) as [prev|] eqn:Eg.
  - right. exists [], e, l, tb, prev. split; auto. split; auto. split; auto. unfold put at 1, check_and_insert. fold (cell e). rewrite Eg. cbn [bind].
    assert (lookahead (snd (fst e))) as Hla by (apply Hl; left; auto). repeat f_equal. destruct Hla as [->|[t ->]]; simpl; auto. f_equal. lia.
  - assert (put tb e = Ok (map_insert (cell e) (snd e) tb)) as E by (unfold put, check_and_insert; fold (cell e); rewrite Eg; auto).
    rewrite E. cbn [bind]. destruct (IH (map_insert (cell e) (snd e) tb)) as [[tb' H]|(l1 & e' & l2 & tb1 & prev & -> & H1 & H2 & H3)].
    + apply map_insert_sorted; auto.
    + intros; apply Hl; right; auto.
    + left. eauto.
    + right. exists (e :: l1), e', l2, tb1, prev. split; auto. cbn [foldM]. rewrite E. cbn [bind]. auto.
Qed.

(** ** All insertions of a grammar *)

Section Table.
Variable g : grammar.
Hypothesis wf : wf_grammar g.
Hypothesis ne : no_empty_rhs g.
Hypothesis fit : terminals_fit g.
Variables fs fo : symbol_sets.
Hypothesis fsc : first_sets_correct g fs.
Hypothesis foc : sets_ok g fo.
Hypothesis fox : forall i x, inS fo (NonTerminal i) x <-> follows g i x.

Definition fr (r : rule) : list symbol := match @first_of_seq ll_error (r_rhs r) fs with Ok s => s | _ => [] end.
Definition fo_of (i : N) : list symbol := match map_get (NonTerminal i) fo with Some s => s | None => [] end.
Definition rule_cols (r : rule) (i : N) : list symbol :=
  filter isLook (fr r) ++ (if set_mem Epsilon (fr r) then filter isLook (fo_of i) else []).
Definition rule_ins (r : rule) : list insertion :=
  match r_lhs r with Some i => map (ins_of i (r_rhs r)) (rule_cols r i) | None => [] end.
Definition all_ins : list insertion := flat_map rule_ins (g_rules g).

Lemma universe_fits : forall x, In x (universe g) -> fits x.
Proof. intros x [<-|[<-|H]] t E; try discriminate. subst. apply fit; auto. Qed.

Lemma fr_spec : forall r, In r (g_rules g) -> @first_of_seq ll_error (r_rhs r) fs = Ok (fr r) /\ sorted (fr r) /\ incl (fr r) (universe g) /\
  (forall x, In x (fr r) <-> in_first fs (r_rhs r) x).
Proof.
  intros r Hr. destruct (first_of_seq_spec ll_error g fs (r_rhs r) (fc_ok _ _ fsc) (rhs_known g wf r Hr)) as (S & A & B & C).
  unfold fr. rewrite A. split; auto. split; auto. split; auto. intros x Hx. apply C in Hx. eapply in_first_universe; [apply (fc_ok _ _ fsc)| |exact Hx].
  apply rhs_known'; auto.
Qed.

Lemma insert_rule_ins : forall r tb, In r (g_rules g) -> insert_rule fs fo tb r = foldM put (rule_ins r) tb.
Proof.
  intros r tb Hr. destruct (wf_lhs g wf r Hr) as (i & Hi & Hin). destruct (fr_spec r Hr) as (A & B & C & D).
  unfold insert_rule, rule_ins. rewrite A, Hi. cbn [bind]. unfold rule_cols.
  rewrite (foldM_insert' i (r_rhs r) (fr r) r tb Hi) by (intros x Hx; apply universe_fits; auto).
  rewrite map_app, foldM_app. destruct (foldM put (map (ins_of i (r_rhs r)) (filter isLook (fr r))) tb) as [tb1| | |]; cbn [bind]; auto.
  destruct (set_mem Epsilon (fr r)); cbn [map foldM]; auto. unfold rule_lhs. rewrite Hi. cbn [bind]. unfold get_set, fo_of.
  destruct (so_get g fo (NonTerminal i) foc Hin) as [set Hset]. rewrite Hset. cbn [bind].
  apply foldM_insert. intros x Hx. apply universe_fits. destruct (so_set _ _ foc _ _ Hset) as [_ X]. auto.
Qed.

Lemma insert_rules_ins : forall l tb, incl l (g_rules g) -> foldM (insert_rule fs fo) l tb = foldM put (flat_map rule_ins l) tb.
Proof.
  induction l as [|r l IH]; intros tb Hl; cbn [foldM flat_map]; auto. rewrite foldM_app, insert_rule_ins by (apply Hl; left; auto).
  destruct (foldM put (rule_ins r) tb); cbn [bind]; auto. apply IH. intros x Hx; apply Hl; right; auto.
Qed.

Lemma first_of_rule : forall r x, In r (g_rules g) -> (In x (filter isLook (fr r)) <-> begins (g_rules g) (r_rhs r) x).
Proof.
  intros r x Hr. destruct (fr_spec r Hr) as (A & B & C & D). rewrite filter_In, D, isLook_iff, (in_first_iff g fs _ _ ne fsc). rewrite <- firstT_begins. split.
  - intros [[X|[-> _]] Y]; auto. destruct (lookahead_not_eps _ Y eq_refl).
  - intros X. split; auto. eapply firstT_lookahead; eauto.
Qed.
Lemma null_of_rule : forall r, In r (g_rules g) -> (set_mem Epsilon (fr r) = true <-> erasable (g_rules g) (r_rhs r)).
Proof.
  intros r Hr. destruct (fr_spec r Hr) as (A & B & C & D). rewrite set_mem_In, D, (in_first_iff g fs _ _ ne fsc), erasable_iff by auto. split.
  - intros [X|(_ & _ & X)]; auto. destruct (firstT_not_eps _ _ X).
  - intros X. right. split; auto.
Qed.
Lemma fo_of_spec : forall i x, In x (filter isLook (fo_of i)) <-> follows g i x.
Proof.
  intros i x. rewrite filter_In, isLook_iff. assert (In x (fo_of i) <-> follows g i x) as E.
  { rewrite <- fox. unfold fo_of, inS. destruct (map_get (NonTerminal i) fo) as [s|]; split.
    - eauto.
    - intros (s' & [= <-] & H); auto.
    - intros [].
    - intros (s' & H & _); discriminate. }
  rewrite E. split; [tauto|]. intros H. split; auto. destruct H as [H _]; auto.
Qed.

Lemma rule_cols_spec : forall r i x, In r (g_rules g) -> r_lhs r = Some i -> (In x (rule_cols r i) <-> predicts g r x).
Proof.
  intros r i x Hr Hi. unfold rule_cols, predicts. rewrite in_app_iff, first_of_rule by auto.
  pose proof (null_of_rule r Hr) as Hn. destruct (set_mem Epsilon (fr r)) eqn:E.
  - rewrite fo_of_spec. split.
    + intros [X|X]; auto. right. split; [apply Hn; auto|eauto].
    + intros [X|[_ (i' & E' & X)]]; auto. assert (i' = i) by congruence. subst. auto.
  - split; [intros [X|[]]; auto|]. intros [X|[X _]]; auto. apply Hn in X. discriminate.
Qed.

Lemma all_ins_spec : forall i x p, In ((i, x), p) all_ins <-> exists r, In r (g_rules g) /\ r_lhs r = Some i /\ r_rhs r = p /\ predicts g r x.
Proof.
  intros i x p. unfold all_ins. rewrite in_flat_map. unfold rule_ins. split.
  - intros (r & Hr & H). destruct (wf_lhs g wf r Hr) as (i' & Hi & _). rewrite Hi in H. apply in_map_iff in H. destruct H as (y & [= -> -> <-] & Hy).
    exists r. split; auto. split; auto. split; auto. eapply rule_cols_spec; eauto.
  - intros (r & Hr & Hi & <- & Hp). exists r. split; auto. rewrite Hi. apply in_map_iff. exists x. split; auto. apply rule_cols_spec; auto.
Qed.

Lemma predicts_lookahead : forall r x, predicts g r x -> lookahead x.
Proof. intros r x [[H _]|[_ (i & _ & H & _)]]; auto. Qed.
Lemma all_ins_look : forall e, In e all_ins -> lookahead (snd (fst e)).
Proof. intros [[i x] p] H. apply all_ins_spec in H. destruct H as (r & _ & _ & _ & H). eapply predicts_lookahead; eauto. Qed.

(** ** One rule inserting twice *)

Lemma nullable_first_conflict : forall al x, firstT (g_rules g) al x -> derives (g_rules g) al [] ->
  (exists s u v, start_form g s /\ ssteps (g_rules g) s (u ++ al ++ x :: v)) -> exists j k, ll1_conflict g j k x.
Proof.
  intros al x H. induction H as [x al H|x al H IH|r i al x Hr Hi H IH|i al x Hn H IH]; intros Hd (s & u & v & Hs & HS).
  - destruct H as [->|[t ->]]; inversion Hd.
  - apply IH.
    + apply derives_nil_cons in Hd. tauto.
    + exists s, u, v. split; auto. eapply ssteps_trans; [exact HS|]. eapply ss_trans; [apply ss_eps|constructor].
  - apply derives_nil_cons in Hd. destruct Hd as [Hni Hal]. apply derives_ssteps in Hal. simpl in Hal.
    assert (ssteps (g_rules g) s (u ++ NonTerminal i :: x :: v)) as HS'.
    { eapply ssteps_trans; [exact HS|]. pose proof (ssteps_ctx (g_rules g) (u ++ [NonTerminal i]) (x :: v) _ _ Hal) as X.
      rewrite <- !app_assoc in X. exact X. }
    apply derives_nil_nt in Hni. destruct Hni as (r' & Hr' & Hi' & Hd').
    destruct (In_nth_error _ _ Hr) as [j Hj]. destruct (In_nth_error _ _ Hr') as [k Hk].
    destruct (Nat.eq_dec j k) as [->|Hne].
    + assert (r' = r) by congruence. subst r'. apply IH; auto. exists s, u, v. split; auto. eapply ssteps_trans; [exact HS'|].
      eapply ss_trans; [apply (ss_rule _ u (x :: v) r i Hr Hi)|constructor].
    + exists j, k. split; auto. exists r, r', i. split; [auto|]. split; [auto|]. split; [auto|]. split; [auto|]. split.
      * left. apply firstT_begins. auto.
      * right. split; [apply erasable_iff; auto|]. exists i. split; auto. split; [eapply firstT_lookahead; eauto|]. exists s, u, v. auto.
  - apply derives_nil_cons in Hd. destruct Hd as [_ Hal]. apply IH; auto. exists s, u, v. split; auto. eapply ssteps_trans; [exact HS|].
    apply derives_ssteps in Hn. simpl in Hn. pose proof (ssteps_ctx (g_rules g) u (al ++ x :: v) _ _ Hn) as X. exact X.
Qed.

Lemma twice_conflict : forall r i x, In r (g_rules g) -> r_lhs r = Some i -> begins (g_rules g) (r_rhs r) x -> erasable (g_rules g) (r_rhs r) ->
  follows g i x -> exists j k, ll1_conflict g j k x.
Proof.
  intros r i x Hr Hi Hb He (Hl & s & al & be & Hs & HS). apply (nullable_first_conflict (r_rhs r) x).
  - apply firstT_begins; auto.
  - apply erasable_iff; auto.
  - exists s, al, be. split; auto. eapply ssteps_trans; [exact HS|]. eapply ss_trans; [apply (ss_rule _ al (x :: be) r i Hr Hi)|constructor].
Qed.

(** ** No duplicate insertions iff no conflict *)

Lemma cell_ins : forall i x p i' x' p', lookahead x -> lookahead x' -> cell ((i, x), p) = cell ((i', x'), p') -> i = i' /\ x = x'.
Proof. intros i x p i' x' p' H1 H2 H. unfold cell in H. simpl in H. injection H as -> H. split; auto. apply col_inj; auto. Qed.

Lemma flat_map_split : forall A B (f : A -> list B) l j a, nth_error l j = Some a -> exists l1 l2, l = l1 ++ a :: l2 /\ length l1 = j /\ flat_map f l = flat_map f l1 ++ f a ++ flat_map f l2.
Proof.
  intros A B f l j a H. apply nth_error_split in H. destruct H as (l1 & l2 & -> & E). exists l1, l2. split; auto. split; auto.
  rewrite flat_map_app. auto.
Qed.

Lemma conflict_dup : forall j k x, ll1_conflict g j k x -> ~ NoDup (map cell all_ins).
Proof.
  intros j k x (Hne & r1 & r2 & i & H1 & H2 & Hi1 & Hi2 & P1 & P2) HN.
  assert (forall a b, a < b -> forall ra rb, nth_error (g_rules g) a = Some ra -> nth_error (g_rules g) b = Some rb -> r_lhs ra = Some i -> r_lhs rb = Some i ->
    predicts g ra x -> predicts g rb x -> False) as G.
  { intros a b Hab ra rb Ha Hb Ia Ib Pa Pb. destruct (flat_map_split _ _ rule_ins _ _ _ Ha) as (l1 & l2 & E & L & F). unfold all_ins in HN. rewrite F in HN.
    assert (In rb l2) as Hin. { rewrite E, nth_error_app2 in Hb by lia. destruct (b - length l1) as [|n] eqn:En; [lia|]. simpl in Hb. eapply nth_error_In; eauto. }
    rewrite !map_app in HN.
    assert (NoDup (map cell (rule_ins ra) ++ map cell (flat_map rule_ins l2))) as HN'.
    { clear - HN. induction (map cell (flat_map rule_ins l1)); auto. simpl in HN. inversion HN; auto. }
    assert (In (cell (i, x, r_rhs ra)) (map cell (rule_ins ra))) as Hc1.
    { apply in_map. unfold rule_ins. rewrite Ia. apply in_map_iff. exists x. split; auto. apply rule_cols_spec; auto. eapply nth_error_In; eauto. }
    assert (In (cell (i, x, r_rhs ra)) (map cell (flat_map rule_ins l2))) as Hc2.
    { apply in_map_iff. exists (i, x, r_rhs rb). split; auto. apply in_flat_map. exists rb. split; auto. unfold rule_ins. rewrite Ib. apply in_map_iff. exists x. split; auto.
      apply rule_cols_spec; auto. eapply nth_error_In; eauto. }
    revert HN' Hc1 Hc2. generalize (map cell (rule_ins ra)) (map cell (flat_map rule_ins l2)) (cell (i, x, r_rhs ra)). clear.
    intros u v c HN. induction u as [|y u IH]; [intros []|]. simpl in HN. inversion HN as [|? ? Hn HN']; subst. intros [->|Hu] Hv; [|auto].
    apply Hn. apply in_or_app. auto. }
  destruct (Nat.lt_ge_cases j k) as [H|H]; [eapply (G j k); eauto|eapply (G k j); eauto; lia].
Qed.

Lemma dup_in_flat : forall A B (f : A -> list B) l l1 e l2 e', flat_map f l = l1 ++ e :: l2 -> In e' l1 ->
  (exists a m1 m2, In a l /\ f a = m1 ++ e :: m2 /\ In e' m1) \/
  (exists j k a b, j < k /\ nth_error l j = Some a /\ nth_error l k = Some b /\ In e' (f a) /\ In e (f b)).
Proof.
  intros A B f l. induction l as [|a l IH]; intros l1 e l2 e' E Hin; cbn [flat_map] in E; [destruct l1; discriminate|].
  symmetry in E. apply app_cons_split in E. destruct E as [(v' & E & ->)|(u' & -> & E)].
  - left. exists a, l1, v'. split; [left; auto|auto].
  - apply in_app_or in Hin. destruct Hin as [Hin|Hin].
    + right. assert (In e (flat_map f l)) as X by (rewrite E; apply in_elt). apply in_flat_map in X. destruct X as (b & Hb & Hf).
      destruct (In_nth_error _ _ Hb) as [k Hk]. exists 0, (S k), a, b. split; [lia|auto].
    + destruct (IH _ _ _ _ E Hin) as [(b & m1 & m2 & X & Y & Z)|(j & k & b & c & X & Y)].
      * left. exists b, m1, m2. split; [right; auto|auto].
      * right. exists (S j), (S k), b, c. split; [lia|auto].
Qed.

Lemma dup_in_app : forall A (a b : list A) m1 x m2, NoDup a -> NoDup b -> a ++ b = m1 ++ x :: m2 -> In x m1 -> In x a /\ In x b.
Proof.
  intros A a b m1 x m2 Ha Hb E Hin. symmetry in E. apply app_cons_split in E. destruct E as [(v' & -> & ->)|(u' & -> & ->)].
  - apply NoDup_remove_2 in Ha. exfalso. apply Ha. apply in_or_app. auto.
  - split; [|apply in_elt]. apply in_app_or in Hin. destruct Hin as [Hin|Hin]; auto. apply NoDup_remove_2 in Hb. exfalso. apply Hb. apply in_or_app. auto.
Qed.

Lemma ins_rule : forall r i e, In r (g_rules g) -> r_lhs r = Some i -> In e (rule_ins r) -> fst (fst e) = i /\ snd e = r_rhs r /\ predicts g r (snd (fst e)).
Proof.
  intros r i e Hr Hi He. unfold rule_ins in He. rewrite Hi in He. apply in_map_iff in He. destruct He as (x & <- & Hx). split; auto. split; auto.
  apply (rule_cols_spec r i); auto.
Qed.

Lemma dup_conflict : forall l1 e l2 tb1 prev, all_ins = l1 ++ e :: l2 -> foldM put l1 [] = Ok tb1 -> map_get (cell e) tb1 = Some prev ->
  exists r r' j k, In r (g_rules g) /\ In r' (g_rules g) /\ r_lhs r = Some (fst (fst e)) /\ r_lhs r' = Some (fst (fst e)) /\
    r_rhs r = snd e /\ r_rhs r' = prev /\ predicts g r (snd (fst e)) /\ predicts g r' (snd (fst e)) /\ ll1_conflict g j k (snd (fst e)).
Proof.
  intros l1 [[i x] p] l2 tb1 prev E H1 H2. cbn [fst snd].
  destruct (put_all_ok l1 [] tb1 msorted_nil H1) as (_ & _ & _ & D). apply D in H2. destruct H2 as [H2|([[i' x'] p'] & Hin & Ec & Ep)]; [discriminate|].
  assert (In (i, x, p) all_ins) as I1 by (rewrite E; apply in_elt). assert (In (i', x', p') all_ins) as I2 by (rewrite E; apply in_or_app; auto).
  pose proof (all_ins_look _ I1) as L1. pose proof (all_ins_look _ I2) as L2. simpl in L1, L2.
  apply cell_ins in Ec; auto. destruct Ec as [-> ->]. simpl in Ep. subst p'.
  destruct (dup_in_flat _ _ rule_ins _ _ _ _ _ E Hin) as [(r & m1 & m2 & Hr & Em & Hm)|(j & k & a & b & Hjk & Hj & Hk & Ha & Hb)].
  - destruct (wf_lhs g wf r Hr) as (i' & Hi & Hnt).
    assert (In (i, x, p) (rule_ins r)) as X1 by (rewrite Em; apply in_elt). assert (In (i, x, prev) (rule_ins r)) as X2 by (rewrite Em; apply in_or_app; auto).
    apply (ins_rule r i' _ Hr Hi) in X1. apply (ins_rule r i' _ Hr Hi) in X2. cbn [fst snd] in X1, X2. destruct X1 as (<- & -> & X1). destruct X2 as (_ & -> & _).
    assert (exists n1 n2, rule_cols r i = n1 ++ x :: n2 /\ In x n1) as (n1 & n2 & En & Hn).
    { unfold rule_ins in Em. rewrite Hi in Em. apply map_eq_app in Em. destruct Em as (n1 & n2' & En & <- & Em). apply map_eq_cons in Em. destruct Em as (y & n2 & -> & Ey & _).
      injection Ey as ->. exists n1, n2. split; auto. apply in_map_iff in Hm. destruct Hm as (y & [= ->] & Hy). auto. }
    assert (exists j k, ll1_conflict g j k x) as (j & k & C).
    { destruct (fr_spec r Hr) as (_ & Hs & _). unfold rule_cols in En. pose proof (null_of_rule r Hr) as Hnull.
      apply dup_in_app in En; auto.
      - destruct En as [N1 N2]. destruct (set_mem Epsilon (fr r)); [|destruct N2]. apply (twice_conflict r i x); auto.
        + apply first_of_rule; auto.
        + apply Hnull; auto.
        + apply fo_of_spec; auto.
      - apply NoDup_filter, sorted_NoDup; auto.
      - destruct (set_mem Epsilon (fr r)); [|constructor]. apply NoDup_filter. unfold fo_of. destruct (so_get g fo (NonTerminal i) foc Hnt) as [set Hset].
        rewrite Hset. apply sorted_NoDup. eapply so_set; eauto. }
    exists r, r, j, k. auto 10.
  - assert (In a (g_rules g)) as Ra by (eapply nth_error_In; eauto). assert (In b (g_rules g)) as Rb by (eapply nth_error_In; eauto).
    destruct (wf_lhs g wf a Ra) as (ia & Ia & _). destruct (wf_lhs g wf b Rb) as (ib & Ib & _).
    apply (ins_rule a ia _ Ra Ia) in Ha. apply (ins_rule b ib _ Rb Ib) in Hb. cbn [fst snd] in Ha, Hb. destruct Ha as (<- & -> & Ha). destruct Hb as (<- & -> & Hb).
    exists b, a, j, k. assert (ll1_conflict g j k x). { split; [lia|]. exists a, b, i. auto 10. } auto 12.
Qed.
End Table.

(** ** [generate_table] *)

Section Generate.
Variable g : grammar.
Hypothesis wf : wf_grammar g.
Hypothesis ne : no_empty_rhs g.
Hypothesis fit : terminals_fit g.

(** With the sets computed, generation is the list of insertions. *)
Lemma generate_ins : forall fuel, (exists fs fo, first_sets_correct g fs /\ sets_ok g fo /\ (forall i x, inS fo (NonTerminal i) x <-> follows g i x) /\
    ll_generate_table fuel g = foldM put (all_ins g fs fo) []) \/ ll_generate_table fuel g = OutOfFuel.
Proof.
  intros fuel. unfold ll_generate_table. destruct (compute_first_cases g wf ll_error fuel) as [[fs Hfs]|H]; [|right; rewrite H; auto].
  rewrite Hfs. cbn [bind]. pose proof (compute_first_correct g wf ll_error fuel fs Hfs) as Hc.
  destruct (compute_follow_cases g wf fs Hc ll_error fuel) as [[fo Hfo]|H]; [|right; rewrite H; auto]. rewrite Hfo. cbn [bind]. left.
  destruct (compute_follow_fix g wf fs Hc ll_error fuel fo Hfo) as (A & B & C).
  assert (forall i x, inS fo (NonTerminal i) x <-> follows g i x) as D by (intros i x; apply (compute_follow_correct g wf fs Hc ll_error fuel fo i x ne Hfo)).
  exists fs, fo. split; auto. split; auto. split; auto. unfold all_ins. apply (insert_rules_ins g wf fit fs fo Hc A). apply incl_refl.
Qed.

Lemma generate_terminates : forall fuel, fuel_bound g <= fuel -> ll_generate_table fuel g <> OutOfFuel.
Proof.
  intros fuel Hf. destruct (compute_first_ok g wf ll_error fuel Hf) as [fs Hfs]. pose proof (compute_first_correct g wf ll_error fuel fs Hfs) as Hc.
  destruct (compute_follow_ok g wf fs Hc ll_error fuel Hf) as [fo Hfo].
  destruct (compute_follow_fix g wf fs Hc ll_error fuel fo Hfo) as (A & B & C).
  assert (forall i x, inS fo (NonTerminal i) x <-> follows g i x) as D by (intros i x; apply (compute_follow_correct g wf fs Hc ll_error fuel fo i x ne Hfo)).
  unfold ll_generate_table. rewrite Hfs. cbn [bind]. rewrite Hfo. cbn [bind].
  rewrite (insert_rules_ins g wf fit fs fo Hc A) by apply incl_refl. intros X.
  destruct (put_all_cases (all_ins g fs fo) [] msorted_nil (all_ins_look g wf ne fs fo Hc D)) as [[tb Y]|(l1 & e & l2 & tb1 & prev & _ & _ & _ & Y)];
    unfold all_ins in Y; rewrite X in Y; discriminate.
Qed.

Lemma generate_ok_exact : forall fuel tb, ll_generate_table fuel g = Ok tb ->
  (forall j k x, ~ ll1_conflict g j k x) /\ msorted tb /\
  (forall i x p, lookahead x -> (map_get (i, col x) tb = Some p <-> exists r, In r (g_rules g) /\ r_lhs r = Some i /\ r_rhs r = p /\ predicts g r x)).
Proof.
  intros fuel tb H. destruct (generate_ins fuel) as [(fs & fo & Hc & A & D & E)|E]; [|congruence]. rewrite H in E. symmetry in E.
  destruct (put_all_ok _ _ _ msorted_nil E) as (N & _ & S & G). split; [|split; auto].
  - intros j k x X. eapply conflict_dup; eauto.
  - intros i x p Hx. rewrite G. rewrite <- (all_ins_spec g wf ne fs fo Hc D). split.
    + intros [X|([[i' x'] p'] & Hin & Ec & Ep)]; [discriminate|]. pose proof (all_ins_look g wf ne fs fo Hc D _ Hin) as L. simpl in L, Ep. subst p'.
      change (i, col x) with (cell (i, x, p)) in Ec. apply cell_ins in Ec; auto. destruct Ec as [-> ->]. auto.
    + intros X. right. exists (i, x, p). auto.
Qed.

Lemma generate_err : forall fuel e, ll_generate_table fuel g = Err e ->
  exists i x r r' j k, e = ParserTableConflict (NonTerminal i) x (r_rhs r) (r_rhs r') /\ In r (g_rules g) /\ In r' (g_rules g) /\
    r_lhs r = Some i /\ r_lhs r' = Some i /\ predicts g r x /\ predicts g r' x /\ ll1_conflict g j k x.
Proof.
  intros fuel e H. destruct (generate_ins fuel) as [(fs & fo & Hc & A & D & E)|E]; [|congruence]. rewrite H in E. symmetry in E.
  destruct (put_all_cases (all_ins g fs fo) [] msorted_nil (all_ins_look g wf ne fs fo Hc D)) as [[tb Y]|(l1 & e' & l2 & tb1 & prev & E1 & E2 & E3 & Y)]; [congruence|].
  rewrite Y in E. injection E as <-. destruct (dup_conflict g wf ne fs fo Hc A D l1 e' l2 tb1 prev E1 E2 E3) as (r & r' & j & k & R1 & R2 & R3 & R4 & R5 & R6 & R7 & R8 & R9).
  exists (fst (fst e')), (snd (fst e')), r, r', j, k. rewrite R5, R6. auto 12.
Qed.

Lemma generate_no_panic : forall fuel, ll_generate_table fuel g <> Panic.
Proof.
  intros fuel H. destruct (generate_ins fuel) as [(fs & fo & Hc & A & D & E)|E]; [|congruence].
  destruct (put_all_cases (all_ins g fs fo) [] msorted_nil (all_ins_look g wf ne fs fo Hc D)) as [[tb Y]|(l1 & e' & l2 & tb1 & prev & E1 & E2 & E3 & Y)]; congruence.
Qed.

Lemma generate_conflict_iff : forall fuel, fuel_bound g <= fuel ->
  ((exists e, ll_generate_table fuel g = Err e) <-> exists j k x, ll1_conflict g j k x).
Proof.
  intros fuel Hf. split.
  - intros [e H]. destruct (generate_err fuel e H) as (i & x & r & r' & j & k & _ & _ & _ & _ & _ & _ & _ & C). eauto.
  - intros (j & k & x & C). destruct (ll_generate_table fuel g) as [tb|e| |] eqn:E.
    + destruct (generate_ok_exact fuel tb E) as [X _]. destruct (X j k x C).
    + eauto.
    + destruct (generate_no_panic fuel E).
    + destruct (generate_terminates fuel Hf E).
Qed.
Lemma generate_ok_iff : forall fuel, fuel_bound g <= fuel ->
  ((exists tb, ll_generate_table fuel g = Ok tb) <-> forall j k x, ~ ll1_conflict g j k x).
Proof.
  intros fuel Hf. split.
  - intros [tb H]. destruct (generate_ok_exact fuel tb H) as [X _]. auto.
  - intros X. destruct (ll_generate_table fuel g) as [tb|e| |] eqn:E; [eauto| | |].
    + destruct (generate_err fuel e E) as (i & x & r & r' & j & k & _ & _ & _ & _ & _ & _ & _ & C). destruct (X j k x C).
    + destruct (generate_no_panic fuel E).
    + destruct (generate_terminates fuel Hf E).
Qed.

(** Cells as seen through [get_production]. *)
Lemma get_production_cell : forall E tb i x, lookahead x -> fits x -> @get_production E tb (NonTerminal i) x = Ok (map_get (i, col x) tb).
Proof.
  intros E tb i x [->|[t ->]] Hx; simpl; auto. unfold succ_u16. specialize (Hx t eq_refl). destruct (N.ltb_spec (t + 1) 65536); [auto|lia].
Qed.
End Generate.
