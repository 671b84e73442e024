(** Results of the GLR parser in terms of the accepting runs of the automaton. *)
From Coq Require Import String List Arith NArith Bool Lia.
From Verif Require Import Base InputModel GrammarModel GrammarSpec GrammarProof LLModel LLSpec SententialProof SetsProof FirstProof LRModel LRSpec BidiProof ItemProof LRItemsProof LRGraphProof AutomatonProof LRTableProof LRWriteProof LRGenProof LRConflictProof LRRunProof LRCompleteProof GLRModel GLRSpec GLRWriteProof GLRStepProof GLRSimProof.
Import ListNotations.
Local Open Scope nat_scope.
Local Open Scope list_scope.

(** ** Sequences of visitor calls *)

Definition reds (l : list lr_event) : Prop := Forall is_reduction l.
Definition ends (l : list lr_event) : Prop := l = [] \/ exists l' t, l = l' ++ [EShift t].

Lemma reds_snoc : forall l k, reds l -> reds (l ++ [EReduce k]).
Proof. intros l k H. apply Forall_app. split; auto. constructor; [exists k; auto|constructor]. Qed.

Lemma ends_split : forall a b x y, ends a -> ends b -> reds x -> reds y -> a ++ x = b ++ y -> a = b /\ x = y.
Proof.
  intros a b x. revert a b. induction x as [|e x IH] using rev_ind; intros a b y Ha Hb Hx Hy E.
  - rewrite app_nil_r in E. destruct y as [|e y _] using rev_ind; [rewrite app_nil_r in E; auto|]. exfalso. apply Forall_app in Hy. destruct Hy as [_ Hy]. inversion Hy as [|? ? [k ->] _]; subst.
    rewrite app_assoc in Ha. destruct Ha as [Ha|(l & t & Ha)]; [destruct (b ++ y); discriminate|]. apply app_inj_tail in Ha. destruct Ha as [_ Ha]. discriminate.
  - apply Forall_app in Hx. destruct Hx as [Hx He]. inversion He as [|? ? [k ->] _]; subst. destruct y as [|e y _] using rev_ind.
    + exfalso. rewrite app_nil_r in E. subst b. rewrite app_assoc in Hb. destruct Hb as [Hb|(l & t & Hb)]; [destruct (a ++ x); discriminate|]. apply app_inj_tail in Hb. destruct Hb as [_ Hb]. discriminate.
    + apply Forall_app in Hy. destruct Hy as [Hy He']. inversion He' as [|? ? [k' ->] _]; subst. rewrite !app_assoc in E. apply app_inj_tail in E. destruct E as [E Ek].
      destruct (IH a b y Ha Hb Hx Hy E) as [-> ->]. rewrite Ek. auto.
Qed.

Lemma NoDup_flat : forall A B (F : A -> list B) (kA : A -> list lr_event) (kB : B -> list lr_event) L,
  NoDup (map kA L) -> (forall c, In c L -> NoDup (map kB (F c))) ->
  (forall c c' x x', In c L -> In c' L -> In x (F c) -> In x' (F c') -> kB x = kB x' -> kA c = kA c') -> NoDup (map kB (flat_map F L)).
Proof.
  intros A B F kA kB L. induction L as [|c L IH]; intros H1 H2 H3; [constructor|]. cbn [flat_map]. rewrite map_app. inversion H1 as [|? ? N1 N2]; subst. apply NoDup_app_intro.
  - apply H2. left; auto.
  - apply IH; auto; [intros; apply H2; right; auto|]. intros c1 c2 x x' X Y. apply H3; right; auto.
  - intros k Hk Hk'. apply in_map_iff in Hk. destruct Hk as (x & Ex & Hx). apply in_map_iff in Hk'. destruct Hk' as (x' & Ex' & Hx'). apply in_flat_map in Hx'. destruct Hx' as (c' & Hc' & Hx').
    apply N1. rewrite (H3 c c' x x'); auto; [apply in_map; auto|left; auto|right; auto|congruence].
Qed.

Lemma filter_flat_map : forall A B (f : B -> bool) (F : A -> list B) L, filter f (flat_map F L) = flat_map (fun c => filter f (F c)) L.
Proof. intros A B f F L. induction L as [|c L IH]; auto. cbn [flat_map]. rewrite filter_app, IH. auto. Qed.

Section Result.
Variable g : grammar.
Hypothesis wf : wf_grammar g.
Variable n : nat.
Hypothesis n_le : n <= 1.
Variable fs : symbol_sets.
Variable lalr : bool.
Variable pg : lr_graph.
Hypothesis au : automaton g n fs lalr pg.
Variable tb : lr_table.
Hypothesis tf : table_of g n pg tb.
Variable p : glr_parser.
Hypothesis gw : gwritten g tb p.
Notation mstep := (mstep g n lalr pg).
Notation msteps := (msteps g n lalr pg).
Notation maccept := (maccept g n lalr pg).
Notation valid := (valid g pg).
Notation ldone := (ldone p).
Notation ltodo := (ltodo p).
Notation cdone := (cdone p).
Notation ctodo := (ctodo p).
Notation stuck := (stuck p).
Notation preduces := (preduces g tb p).
Notation prun := (prun g tb p).

Definition vals (L : list conf) : Prop := Forall (fun c => valid (fst c)) L.

(** ** One level *)

Lemma ldone_In : forall w L o ev, vals L -> In (o, ev) (ldone w L) <->
  (exists fr, o = inl fr /\ In (fr, ev) L /\ exists o' w', mstep fr w [EShift (peek w)] o' w') \/
  (exists tr fr e k, o = inr tr /\ ev = e ++ [EReduce k] /\ In (fr, e) L /\ mstep fr w [EReduce k] (inr tr) w).
Proof.
  intros w L o ev HL. unfold GLRSimProof.ldone. rewrite in_flat_map. split.
  - intros ([fr e] & Hc & Hi). pose proof (proj1 (Forall_forall _ _) HL _ Hc) as Hv. apply (cdone_In g wf n n_le fs lalr pg au tb tf p gw w (fr, e) o ev Hv) in Hi. cbn [fst snd] in Hi.
    destruct Hi as [(-> & -> & Hm)|(tr & k & -> & -> & Hm)]; [left; exists fr; auto|right; exists tr, fr, e, k; auto].
  - intros [(fr & -> & Hc & Hm)|(tr & fr & e & k & -> & -> & Hc & Hm)]; [exists (fr, ev)|exists (fr, e)]; (split; auto); pose proof (proj1 (Forall_forall _ _) HL _ Hc) as Hv;
      apply (cdone_In g wf n n_le fs lalr pg au tb tf p gw w _ _ _ Hv); cbn [fst snd]; [left; auto|right; eauto].
Qed.

Lemma ltodo_In : forall w L fr ev, vals L -> In (fr, ev) (ltodo w L) <-> exists fr0 e k, ev = e ++ [EReduce k] /\ In (fr0, e) L /\ mstep fr0 w [EReduce k] (inl fr) w.
Proof.
  intros w L fr ev HL. unfold GLRSimProof.ltodo. rewrite in_flat_map. split.
  - intros ([fr0 e] & Hc & Hi). pose proof (proj1 (Forall_forall _ _) HL _ Hc) as Hv. apply (ctodo_In g wf n n_le fs lalr pg au tb tf p gw w (fr0, e) fr ev Hv) in Hi. cbn [fst snd] in Hi.
    destruct Hi as (k & -> & Hm). exists fr0, e, k. auto.
  - intros (fr0 & e & k & -> & Hc & Hm). exists (fr0, e). split; auto. pose proof (proj1 (Forall_forall _ _) HL _ Hc) as Hv. apply (ctodo_In g wf n n_le fs lalr pg au tb tf p gw w (fr0, e) _ _ Hv). eauto.
Qed.

Lemma cacts_nodup : forall w c, valid (fst c) -> NoDup (cacts p w c).
Proof.
  intros w c Hv. unfold cacts, acts_of. destruct (gacts g wf n n_le fs lalr pg au tb tf p gw (fst c) w Hv) as [(a & l & E & Hn & _)|[E _]]; rewrite E; [auto|constructor].
Qed.

Lemma ctodo_nodup : forall w c, valid (fst c) -> NoDup (map snd (ctodo w c)).
Proof.
  intros w c Hv. unfold GLRSimProof.ctodo. pose proof (cacts_nodup w c Hv) as H. induction H as [|a l Ha H IH]; [constructor|]. cbn [flat_map]. rewrite map_app. apply NoDup_app_intro; auto.
  - destruct a as [|k]; cbn [todo1]; [constructor|]. destruct (ared p (fst c) k) as [[|]|]; simpl; repeat constructor. intros [].
  - intros e He He'. apply in_map_iff in He. destruct He as ([fr1 e1] & <- & He). apply in_map_iff in He'. destruct He' as ([fr2 e2] & E & He'). apply in_flat_map in He'. destruct He' as (b & Hb & He').
    destruct a as [|k]; cbn [todo1] in He; [destruct He|]. destruct (ared p (fst c) k) as [[|]|]; [destruct He as [[= <- <-]|[]]|destruct He|destruct He].
    destruct b as [|k']; cbn [todo1] in He'; [destruct He'|]. destruct (ared p (fst c) k') as [[|]|]; [destruct He' as [[= <- <-]|[]]|destruct He'|destruct He'].
    cbn [snd] in E. apply app_inj_tail in E. destruct E as [_ [= ->]]. contradiction.
Qed.

Lemma cdone_nodup : forall w c, valid (fst c) -> NoDup (map snd (filter is_acc (cdone w c))) /\ NoDup (map snd (filter (fun x => negb (is_acc x)) (cdone w c))).
Proof.
  intros w c Hv. unfold GLRSimProof.cdone. pose proof (cacts_nodup w c Hv) as H.
  assert (forall a x, In x (done1 p c a) -> is_acc x = true -> exists k, a = ActReduce k /\ snd x = snd c ++ [EReduce k]) as HA.
  { intros [|k] x Hx Ex; cbn [done1] in Hx; [destruct Hx as [<-|[]]; discriminate|]. destruct (ared p (fst c) k) as [[|]|]; [destruct Hx|destruct Hx as [<-|[]]; eauto|destruct Hx]. }
  assert (forall a x, In x (done1 p c a) -> is_acc x = false -> a = ActShift) as HS.
  { intros [|k] x Hx Ex; auto. cbn [done1] in Hx. destruct (ared p (fst c) k) as [[|]|]; [destruct Hx|destruct Hx as [<-|[]]; discriminate|destruct Hx]. }
  assert (forall f a, NoDup (map snd (filter f (done1 p c a)))) as HO.
  { intros f [|k]; cbn [done1]; [|destruct (ared p (fst c) k) as [[|]|]; try constructor]; cbn [filter]; destruct (f _); simpl; repeat constructor; intros []. }
  split; (induction H as [|a l Ha H IH]; [constructor|]; cbn [flat_map]; rewrite filter_app, map_app; apply NoDup_app_intro; auto);
    intros e He He'; apply in_map_iff in He; destruct He as (x & <- & He); apply in_map_iff in He'; destruct He' as (x' & E & He');
    apply filter_In in He; destruct He as [He Fe]; apply filter_In in He'; destruct He' as [He' Fe']; apply in_flat_map in He'; destruct He' as (b & Hb & He').
  - destruct (HA _ _ He Fe) as (k & -> & E1). destruct (HA _ _ He' Fe') as (k' & -> & E2). rewrite E1, E2 in E. apply app_inj_tail in E. destruct E as [_ [= ->]]. contradiction.
  - apply negb_true_iff in Fe, Fe'. rewrite (HS _ _ He Fe) in Ha. rewrite (HS _ _ He' Fe') in Hb. contradiction.
Qed.

Lemma ltodo_nodup : forall w L, vals L -> NoDup (map snd L) -> NoDup (map snd (ltodo w L)).
Proof.
  intros w L HL H. unfold GLRSimProof.ltodo. apply (NoDup_flat conf conf (ctodo w) snd snd); auto.
  - intros c Hc. apply ctodo_nodup. exact (proj1 (Forall_forall _ _) HL c Hc).
  - intros c c' [f1 e1] [f2 e2] Hc Hc' Hx Hx' E. apply (ctodo_In g wf n n_le fs lalr pg au tb tf p gw) in Hx; [|exact (proj1 (Forall_forall _ _) HL c Hc)].
    apply (ctodo_In g wf n n_le fs lalr pg au tb tf p gw) in Hx'; [|exact (proj1 (Forall_forall _ _) HL c' Hc')]. destruct Hx as (k & -> & _). destruct Hx' as (k' & -> & _). cbn [snd] in E. apply app_inj_tail in E. apply E.
Qed.

Lemma ldone_nodup : forall w L, vals L -> NoDup (map snd L) -> NoDup (map snd (filter is_acc (ldone w L))) /\ NoDup (map snd (filter (fun x => negb (is_acc x)) (ldone w L))).
Proof.
  intros w L HL H. unfold GLRSimProof.ldone. rewrite !filter_flat_map. split; eapply (NoDup_flat conf ael _ snd snd); auto.
  - intros c Hc. apply cdone_nodup. exact (proj1 (Forall_forall _ _) HL c Hc).
  - intros c c' [o1 e1] [o2 e2] Hc Hc' Hx Hx' E. apply filter_In in Hx, Hx'. destruct Hx as [Hx Fx], Hx' as [Hx' Fx']. apply (cdone_In g wf n n_le fs lalr pg au tb tf p gw) in Hx; [|exact (proj1 (Forall_forall _ _) HL c Hc)].
    apply (cdone_In g wf n n_le fs lalr pg au tb tf p gw) in Hx'; [|exact (proj1 (Forall_forall _ _) HL c' Hc')]. destruct Hx as [(-> & _)|(tr & k & -> & -> & _)]; [discriminate|]. destruct Hx' as [(-> & _)|(tr' & k' & -> & -> & _)]; [discriminate|].
    cbn [snd] in E. apply app_inj_tail in E. apply E.
  - intros c Hc. apply cdone_nodup. exact (proj1 (Forall_forall _ _) HL c Hc).
  - intros c c' [o1 e1] [o2 e2] Hc Hc' Hx Hx' E. apply filter_In in Hx, Hx'. destruct Hx as [Hx Fx], Hx' as [Hx' Fx']. apply (cdone_In g wf n n_le fs lalr pg au tb tf p gw) in Hx; [|exact (proj1 (Forall_forall _ _) HL c Hc)].
    apply (cdone_In g wf n n_le fs lalr pg au tb tf p gw) in Hx'; [|exact (proj1 (Forall_forall _ _) HL c' Hc')]. destruct Hx as [(-> & -> & _)|(tr & k & -> & -> & _)]; [|discriminate]. destruct Hx' as [(-> & -> & _)|(tr' & k' & -> & -> & _)]; [|discriminate].
    exact E.
Qed.

(** ** All levels *)

Fixpoint lev (m : nat) (w : list N) (L : list conf) : list conf := match m with O => L | Datatypes.S m => lev m w (ltodo w L) end.
Fixpoint dn (m : nat) (w : list N) (L : list conf) : list ael := match m with O => [] | Datatypes.S m => ldone w L ++ dn m w (ltodo w L) end.

Lemma preduces_inv : forall fuel w D L, accs D <= 1 ->
  match preduces fuel w D L with
  | Ok D' => exists m, lev m w L = [] /\ D' = D ++ dn m w L /\ accs D' <= 1 /\ forall j, j < m -> D' = [] -> forallb (stuck w) (lev j w L) = false
  | Err e => exists m, D ++ dn (Datatypes.S m) w L = [] /\ lev m w L <> [] /\ forallb (stuck w) (lev m w L) = true /\ e = comb (lerr g tb p w (lev m w L))
  | Panic => exists m, 2 <= accs (D ++ dn m w L)
  | OutOfFuel => True
  end.
Proof.
  induction fuel as [|fuel IH]; intros w D L HD; [exact I|]. cbn [GLRSimProof.preduces]. destruct L as [|c L].
  - exists 0. cbn. rewrite app_nil_r. split; auto. split; auto. split; auto. intros j Hj. lia.
  - destruct (accs (D ++ ldone w (c :: L)) <=? 1) eqn:E1.
    + apply Nat.leb_le in E1.
      assert (match preduces fuel w (D ++ ldone w (c :: L)) (ltodo w (c :: L)) with
        | Ok D' => exists m, lev m w (c :: L) = [] /\ D' = D ++ dn m w (c :: L) /\ accs D' <= 1 /\ forall j, j < m -> D' = [] -> forallb (stuck w) (c :: L) = false -> forallb (stuck w) (lev j w (c :: L)) = false
        | Err e => exists m, D ++ dn (Datatypes.S m) w (c :: L) = [] /\ lev m w (c :: L) <> [] /\ forallb (stuck w) (lev m w (c :: L)) = true /\ e = comb (lerr g tb p w (lev m w (c :: L)))
        | Panic => exists m, 2 <= accs (D ++ dn m w (c :: L))
        | OutOfFuel => True
        end) as HI.
      { specialize (IH w (D ++ ldone w (c :: L)) (ltodo w (c :: L)) E1). destruct (preduces fuel w (D ++ ldone w (c :: L)) (ltodo w (c :: L))) as [D'|e| |]; auto;
          destruct IH as (m & IH); exists (Datatypes.S m); cbn [lev dn] in *; rewrite ?app_assoc; rewrite <- ?app_assoc in *; auto.
        destruct IH as (A & B & C & E). split; auto. split; auto. split; auto. intros [|j] Hj Hd Hs; auto. cbn [lev]. apply E; auto. lia. }
      destruct (D ++ ldone w (c :: L)) as [|x l] eqn:ED.
      2: { destruct (preduces fuel w (x :: l) (ltodo w (c :: L))); auto. destruct HI as (m & A & B & C & E). exists m. split; auto. split; auto. split; auto. intros j Hj Hd. exfalso.
           rewrite Hd in B. destruct m as [|m]; [discriminate|]. cbn [dn] in B. rewrite app_assoc, ED in B. discriminate. }
      destruct (forallb (stuck w) (c :: L)) eqn:Es.
      2: { destruct (preduces fuel w [] (ltodo w (c :: L))); auto. destruct HI as (m & A & B & C & E). exists m. split; auto. }
      exists 0. cbn [lev dn]. split; [rewrite app_nil_r; exact ED|]. split; [discriminate|]. split; auto.
    + exists 1. cbn [dn]. rewrite app_nil_r. apply Nat.leb_gt in E1. lia.
Qed.

Lemma lev_vals : forall m w L, vals L -> vals (lev m w L).
Proof. induction m as [|m IH]; intros w L H; auto. cbn [lev]. apply IH. apply (ltodo_valid g wf n n_le fs lalr pg au tb tf p gw); auto. Qed.
Lemma lev_nodup : forall m w L, vals L -> NoDup (map snd L) -> NoDup (map snd (lev m w L)).
Proof. induction m as [|m IH]; intros w L H1 H2; auto. cbn [lev]. apply IH; [apply (ltodo_valid g wf n n_le fs lalr pg au tb tf p gw); auto|apply ltodo_nodup; auto]. Qed.

(** Runs of [m] reductions. *)
Inductive rsteps (fr : list frame) (w : list N) : list lr_event -> list frame -> Prop :=
| rs_nil : rsteps fr w [] fr
| rs_snoc : forall x fr1 k fr2, rsteps fr w x fr1 -> mstep fr1 w [EReduce k] (inl fr2) w -> rsteps fr w (x ++ [EReduce k]) fr2.

Lemma rsteps_reds : forall fr w x fr', rsteps fr w x fr' -> reds x.
Proof. intros fr w x fr' H. induction H; [constructor|]. apply reds_snoc; auto. Qed.

Lemma rsteps_msteps : forall fr w x fr', rsteps fr w x fr' -> msteps fr w x fr' w.
Proof. intros fr w x fr' H. induction H; [constructor|]. eapply msteps_trans; eauto. apply msteps_one; auto. Qed.

Lemma rsteps_cons : forall fr w k fr1 x fr2, mstep fr w [EReduce k] (inl fr1) w -> rsteps fr1 w x fr2 -> rsteps fr w (EReduce k :: x) fr2.
Proof.
  intros fr w k fr1 x fr2 H Hx. induction Hx as [|x fr2 k' fr3 Hx IH Hm].
  - apply (rs_snoc fr w [] fr k fr1); [constructor|auto].
  - rewrite app_comm_cons. econstructor; eauto.
Qed.

Lemma lev_In : forall m w L fr ev, vals L -> In (fr, ev) (lev m w L) <-> exists fr0 e x, In (fr0, e) L /\ rsteps fr0 w x fr /\ length x = m /\ ev = e ++ x.
Proof.
  induction m as [|m IH]; intros w L fr ev HL; cbn [lev].
  - split.
    + intros H. exists fr, ev, []. rewrite app_nil_r. split; auto. split; [constructor|auto].
    + intros (fr0 & e & x & H & Hx & Hl & ->). destruct x; [|discriminate]. rewrite app_nil_r. inversion Hx as [|x fr1 k fr2 _ _ E]; [subst; auto|]. destruct x; discriminate.
  - rewrite IH by (apply (ltodo_valid g wf n n_le fs lalr pg au tb tf p gw); auto). split.
    + intros (fr0 & e & x & H & Hx & Hl & ->). apply ltodo_In in H; auto. destruct H as (fr1 & e1 & k & -> & Hi & Hm). exists fr1, e1, (EReduce k :: x). split; auto. split; [eapply rsteps_cons; eauto|].
      split; [simpl; congruence|]. rewrite <- app_assoc. reflexivity.
    + intros (fr0 & e & x & H & Hx & Hl & ->).
      assert (forall x fr, rsteps fr0 w x fr -> x <> [] -> exists k fr1 x', x = EReduce k :: x' /\ mstep fr0 w [EReduce k] (inl fr1) w /\ rsteps fr1 w x' fr) as HD.
      { clear. intros x fr H. induction H as [|x fr1 k fr2 H IH Hm]; [congruence|]. intros _. destruct x as [|e x].
        - inversion H as [|x fr1' k' fr2' _ _ E]; [subst|destruct x; discriminate]. exists k, fr2, []. split; auto. split; auto. constructor.
        - destruct IH as (k' & fr' & x' & [= -> ->] & A & B); [discriminate|]. exists k', fr', (x' ++ [EReduce k]). split; auto. split; auto. econstructor; eauto. }
      destruct (HD x fr Hx) as (k & fr1 & x' & -> & Hm & Hx'); [destruct x; discriminate|]. exists fr1, (e ++ [EReduce k]), x'. split; [apply ltodo_In; auto; exists fr0, e, k; auto|]. split; auto.
      split; [simpl in Hl; congruence|]. rewrite <- app_assoc. reflexivity.
Qed.

Lemma dn_In : forall m w L x, In x (dn m w L) <-> exists j, j < m /\ In x (ldone w (lev j w L)).
Proof.
  induction m as [|m IH]; intros w L x; cbn [dn].
  - split; [intros []|]. intros (j & H & _). lia.
  - rewrite in_app_iff, IH. split.
    + intros [H|(j & Hj & H)]; [exists 0; split; auto; lia|exists (Datatypes.S j); split; auto; lia].
    + intros ([|j] & Hj & H); auto. right. exists j. split; auto. lia.
Qed.

(** Finished stacks. *)
Lemma dn_shift : forall m w L fr ev, vals L -> In (inl fr, ev) (dn m w L) <->
  exists fr0 e x, In (fr0, e) L /\ rsteps fr0 w x fr /\ length x < m /\ ev = e ++ x /\ exists o w', mstep fr w [EShift (peek w)] o w'.
Proof.
  intros m w L fr ev HL. rewrite dn_In. split.
  - intros (j & Hj & H). apply ldone_In in H; [|apply lev_vals; auto]. destruct H as [(fr' & [= <-] & Hi & Hm)|(tr & fr' & e & k & X & _)]; [|discriminate].
    apply lev_In in Hi; auto. destruct Hi as (fr0 & e & x & A & B & C & D). exists fr0, e, x. subst j. auto.
  - intros (fr0 & e & x & A & B & C & D & Hm). exists (length x). split; auto. apply ldone_In; [apply lev_vals; auto|]. left. exists fr. split; auto. split; auto. apply lev_In; auto. exists fr0, e, x. auto.
Qed.

Lemma dn_acc : forall m w L tr ev, vals L -> In (inr tr, ev) (dn m w L) <->
  exists fr0 e x fr k, In (fr0, e) L /\ rsteps fr0 w x fr /\ length x < m /\ mstep fr w [EReduce k] (inr tr) w /\ ev = e ++ x ++ [EReduce k].
Proof.
  intros m w L tr ev HL. rewrite dn_In. split.
  - intros (j & Hj & H). apply ldone_In in H; [|apply lev_vals; auto]. destruct H as [(fr' & X & _)|(tr' & fr & e' & k & [= <-] & -> & Hi & Hm)]; [discriminate|].
    apply lev_In in Hi; auto. destruct Hi as (fr0 & e & x & A & B & C & ->). exists fr0, e, x, fr, k. subst j. rewrite <- app_assoc. auto 6.
  - intros (fr0 & e & x & fr & k & A & B & C & Hm & ->). exists (length x). split; auto. apply ldone_In; [apply lev_vals; auto|]. right. exists tr, fr, (e ++ x), k. split; auto. split; [rewrite app_assoc; auto|]. split; auto.
    apply lev_In; auto. exists fr0, e, x. auto.
Qed.

(** ** Termination *)

Lemma preduces_fuel : forall m fuel w D L, lev m w L = [] -> m < fuel -> preduces fuel w D L <> OutOfFuel.
Proof.
  induction m as [|m IH]; intros fuel w D L H Hf; (destruct fuel as [|fuel]; [lia|]); cbn [GLRSimProof.preduces lev] in *.
  - subst L. discriminate.
  - destruct L as [|c L]; [discriminate|]. destruct (_ <=? 1); [|discriminate]. assert (forall D, preduces fuel w D (ltodo w (c :: L)) <> OutOfFuel) as X by (intros D'; apply IH; auto; lia).
    destruct (D ++ _); [destruct (forallb _ _); [discriminate|]|]; apply X.
Qed.

(** Different stacks have different visitor calls. *)
Definition good (fl : list lr_event) (L : list conf) : Prop := NoDup (map snd L) /\ forall fr ev, In (fr, ev) L -> ends (fl ++ ev).

Lemma good_split : forall fl L fr e fr' e' x x', good fl L -> In (fr, e) L -> In (fr', e') L -> reds x -> reds x' -> e ++ x = e' ++ x' -> e = e' /\ x = x'.
Proof.
  intros fl L fr e fr' e' x x' [_ H] A B Hx Hx' E. destruct (ends_split (fl ++ e) (fl ++ e') x x') as [E1 E2]; eauto; [rewrite <- !app_assoc; congruence|]. apply app_inv_head in E1. auto.
Qed.

Lemma dn_nodup : forall fl L w, vals L -> good fl L -> forall m, NoDup (map snd (filter is_acc (dn m w L))) /\ NoDup (map snd (filter (fun x => negb (is_acc x)) (dn m w L))).
Proof.
  intros fl L w HL Hg.
  assert (forall m i, let X := dn m w (lev i w L) in NoDup (map snd (filter is_acc X)) /\ NoDup (map snd (filter (fun x => negb (is_acc x)) X))) as HG.
  { induction m as [|m IH]; intros i; cbn [dn]; [split; constructor|].
    assert (ltodo w (lev i w L) = lev (Datatypes.S i) w L) as El. { clear. revert L. induction i as [|i IH]; intros L; auto. cbn [lev]. rewrite IH. reflexivity. }
    rewrite El. destruct (IH (Datatypes.S i)) as [I1 I2]. destruct Hg as [Hn He].
    destruct (ldone_nodup w (lev i w L) (lev_vals i w L HL) (lev_nodup i w L HL Hn)) as [D1 D2].
    assert (forall o ev, In (o, ev) (ldone w (lev i w L)) -> exists fr0 e x, In (fr0, e) L /\ reds x /\ length x = i + (if is_acc (o, ev) then 1 else 0) /\ ev = e ++ x) as F1.
    { intros o ev H. apply ldone_In in H; [|apply lev_vals; auto]. destruct H as [(fr & -> & H & _)|(tr & fr & e & k & -> & -> & H & _)]; apply lev_In in H; auto; destruct H as (fr0 & e0 & x & A & B & C & ->).
      - exists fr0, e0, x. split; auto. split; [eapply rsteps_reds; eauto|]. cbn. split; [lia|reflexivity].
      - exists fr0, e0, (x ++ [EReduce k]). split; auto. split; [apply reds_snoc; eapply rsteps_reds; eauto|]. cbn. rewrite app_length, <- app_assoc. cbn [length]. split; [lia|reflexivity]. }
    assert (forall o ev, In (o, ev) (dn m w (lev (Datatypes.S i) w L)) -> exists fr0 e x, In (fr0, e) L /\ reds x /\ Datatypes.S i + (if is_acc (o, ev) then 1 else 0) <= length x /\ ev = e ++ x) as F2.
    { intros o ev H. apply dn_In in H. destruct H as (j & _ & H).
      assert (lev j w (lev (Datatypes.S i) w L) = lev (j + Datatypes.S i) w L) as E. { clear. generalize (Datatypes.S i) as a. intros a. rewrite Nat.add_comm. revert L. induction a as [|a IH]; intros L; auto. cbn [lev Nat.add]. apply IH. }
      rewrite E in H. apply ldone_In in H; [|apply lev_vals; auto]. destruct H as [(fr & -> & H & _)|(tr & fr & e & k & -> & -> & H & _)]; apply lev_In in H; auto; destruct H as (fr0 & e0 & x & A & B & C & ->).
      - exists fr0, e0, x. split; auto. split; [eapply rsteps_reds; eauto|]. cbn. split; [lia|reflexivity].
      - exists fr0, e0, (x ++ [EReduce k]). split; auto. split; [apply reds_snoc; eapply rsteps_reds; eauto|]. cbn. rewrite app_length, <- app_assoc. cbn [length]. split; [lia|reflexivity]. }
    assert (forall o ev o', In (o, ev) (ldone w (lev i w L)) -> In (o', ev) (dn m w (lev (Datatypes.S i) w L)) -> is_acc (o, ev) <> is_acc (o', ev)) as HX.
    { intros o ev o' H H' E. destruct (F1 _ _ H) as (f1 & e1 & x1 & A1 & A2 & A3 & A4). destruct (F2 _ _ H') as (f2 & e2 & x2 & B1 & B2 & B3 & B4).
      destruct (good_split fl L f1 e1 f2 e2 x1 x2) as [_ Ex]; auto; [split; auto|congruence|]. rewrite <- E in B3. subst x2. destruct (is_acc (o, ev)); lia. }
    rewrite !filter_app, !map_app. split; apply NoDup_app_intro; auto; intros ev H H'; apply in_map_iff in H; destruct H as ([o e] & <- & H); apply in_map_iff in H'; destruct H' as ([o' e'] & E & H'); cbn [snd] in *; subst e';
      apply filter_In in H; destruct H as [H Fx]; apply filter_In in H'; destruct H' as [H' Fx']; apply (HX o e o' H H').
    - congruence.
    - apply negb_true_iff in Fx, Fx'. congruence. }
  intros m. apply (HG m 0).
Qed.

(** ** Runs *)

Lemma maccept_split : forall fr w ev tr w', maccept fr w ev tr w' ->
  exists x fr1, rsteps fr w x fr1 /\
   ((exists k, mstep fr1 w [EReduce k] (inr tr) w' /\ w' = w /\ ev = x ++ [EReduce k]) \/
    (exists fr2 w2 ev2, mstep fr1 w [EShift (peek w)] (inl fr2) w2 /\ maccept fr2 w2 ev2 tr w' /\ ev = x ++ EShift (peek w) :: ev2)).
Proof.
  intros fr w ev tr w' (e1 & f1 & w1 & e2 & A & B & ->). induction A as [fr w|fr w e3 f3 w3 e4 f4 w4 A1 A2 IH].
  - exists [], fr. split; [constructor|]. left. inversion B as [| |w0 S x k r i fr1 fr2 S2 y HS Hc Hr Hk Hh Ht Hi]; subst. exists k. auto.
  - specialize (IH B). inversion A1 as [t w0 q He|w0 S x k r i fr1 fr2 S2 y q HS Hc Hr Hk Hh He Hne|]; subst.
    + exists [], fr. split; [constructor|]. right. eexists _, w3, (e4 ++ e2). split; [exact A1|]. split; [|reflexivity]. exists e4, f4, w4, e2. auto.
    + destruct IH as (x' & fr1' & Hx & IH). exists (EReduce k :: x'), fr1'. split; [eapply rsteps_cons; eauto|]. destruct IH as [(k' & H1 & H2 & H3)|(fr2' & w2 & ev2 & H1 & H2 & H3)].
      * left. exists k'. split; auto. split; auto. cbn [app]. rewrite H3. reflexivity.
      * right. exists fr2', w2, ev2. split; auto. split; auto. cbn [app]. rewrite H3. reflexivity.
Qed.

Lemma msteps_suffix : forall fr w ev fr' w', msteps fr w ev fr' w' -> exists u, w = u ++ w'.
Proof.
  intros fr w ev fr' w' H. induction H as [fr w|fr w ev fr1 w1 ev' fr' w' H1 H2 [u IH]]; [exists []; auto|].
  inversion H1; subst; [eexists (_ :: u); reflexivity|exists u; auto].
Qed.

Lemma suffix_eq : forall A (u u' w w' : list A), u ++ w = u' ++ w' -> length w = length w' -> w = w'.
Proof.
  intros A u u' w w' H E. assert (length u = length u') as Eu by (apply (f_equal (@length A)) in H; rewrite !app_length in H; lia).
  revert u' Eu H. induction u as [|a u IH]; intros [|b u'] Eu H; try discriminate; auto. injection H as _ H. apply (IH u'); auto.
Qed.

(** The last token consumed. *)
Lemma msteps_last : forall fr w ev fr' w', msteps fr w ev fr' w' ->
  (w = w' /\ rsteps fr w ev fr') \/
  exists ev1 fr1 v fr2 x, msteps fr w ev1 fr1 v /\ v <> [] /\ w' = tl v /\ mstep fr1 v [EShift (peek v)] (inl fr2) w' /\ rsteps fr2 w' x fr' /\ ev = ev1 ++ EShift (peek v) :: x.
Proof.
  intros fr w ev fr' w' H. induction H as [fr w|fr w ev fr1 w1 ev' fr' w' H1 H2 IH]; [left; split; [auto|constructor]|].
  destruct IH as [[-> Hr]|(ev1 & fr2 & v & fr3 & x & A & B & C & D & E & ->)].
  - inversion H1 as [t w0 q He|w0 S x k r i fr3 fr2 S2 y q HS Hc Hr' Hk Hh He Hne|]; subst.
    + right. exists [], fr, (t :: w'), (mkFrame (Terminal t) q (ILeaf t) :: fr), ev'. split; [constructor|]. split; [discriminate|]. auto.
    + left. split; auto. eapply rsteps_cons; eauto.
  - right. exists (ev ++ ev1), fr2, v, fr3, x. split; [econstructor; eauto|]. split; auto. split; auto. split; auto. split; auto. apply app_assoc.
Qed.

Record inv (w0 : list N) (fl : list lr_event) (L : list conf) (w : list N) : Prop := {
  iv_sound : forall fr ev, In (fr, ev) L -> msteps [] w0 (fl ++ ev) fr w;
  iv_complete : forall ev tr w', maccept [] w0 ev tr w' -> exists fr e ev', In (fr, e) L /\ maccept fr w ev' tr w' /\ ev = fl ++ e ++ ev';
  iv_runs : forall ev fr', msteps [] w0 ev fr' w -> exists fr e x, In (fr, e) L /\ rsteps fr w x fr' /\ ev = fl ++ e ++ x;
  iv_suffix : exists u, w0 = u ++ w;
  iv_good : good fl L;
  iv_live : L <> []
}.

Lemma inv_vals : forall w0 fl L w, inv w0 fl L w -> vals L.
Proof. intros w0 fl L w [H _ _ _ _ _]. apply Forall_forall. intros [fr ev] Hi. apply H in Hi. eapply (msteps_valid g n lalr pg); eauto. constructor. Qed.

Lemma inv_flush : forall w0 fl fr ev w, inv w0 fl [(fr, ev)] w -> inv w0 (fl ++ ev) [(fr, [])] w.
Proof.
  intros w0 fl fr ev w [H1 H2 H5 H6 [H3 H4] _]. split.
  - intros fr' ev' [[= <- <-]|[]]. rewrite app_nil_r. apply H1. left; auto.
  - intros ev' tr w' H. destruct (H2 _ _ _ H) as (fr' & e & ev'' & [[= <- <-]|[]] & A & ->). exists fr, [], ev''. split; [left; auto|]. split; auto. rewrite <- app_assoc. reflexivity.
  - intros ev' fr' H. destruct (H5 _ _ H) as (fr0 & e & x & [[= <- <-]|[]] & A & ->). exists fr, [], x. split; [left; auto|]. split; auto. rewrite <- app_assoc. reflexivity.
  - exact H6.
  - split; [repeat constructor; intros []|]. intros fr' ev' [[= <- <-]|[]]. rewrite app_nil_r. apply (H4 fr). left; auto.
  - discriminate.
Qed.

Definition emb (c : conf) : ael := (inl (fst c), snd c).
Lemma confs_emb : forall L, confs (map emb L) = L.
Proof. induction L as [|[fr ev] L IH]; auto. unfold confs in *. cbn [map flat_map emb fst snd app]. rewrite IH. auto. Qed.
Lemma emb_no_acc : forall L, existsb is_acc (map emb L) = false.
Proof. induction L; auto. Qed.

(** Levels behind the last one are empty. *)
Lemma lev_end : forall m w L, lev m w L = [] -> forall j, m <= j -> lev j w L = [].
Proof.
  induction m as [|m IH]; intros w L H j Hj.
  - cbn [lev] in H. subst L. clear. induction j as [|j IH]; auto.
  - destruct j as [|j]; [lia|]. cbn [lev] in *. apply IH; [exact H|lia].
Qed.

(** A finished pass knows all continuations of its stacks. *)
Lemma pass_all : forall w0 fl L w m, inv w0 fl L w -> lev m w L = [] -> forall ev tr w', maccept [] w0 ev tr w' ->
  (w' = w /\ exists e, In (inr tr, e) (dn m w L) /\ ev = fl ++ e) \/
  (exists fr e fr2 w2 ev2, In (inl fr, e) (dn m w L) /\ mstep fr w [EShift (peek w)] (inl fr2) w2 /\ maccept fr2 w2 ev2 tr w' /\ ev = fl ++ e ++ EShift (peek w) :: ev2).
Proof.
  intros w0 fl L w m Hi Hm ev tr w' H. pose proof (inv_vals _ _ _ _ Hi) as HL. destruct (iv_complete _ _ _ _ Hi _ _ _ H) as (fr & e & ev' & Hin & Ha & ->).
  destruct (maccept_split _ _ _ _ _ Ha) as (x & fr1 & Hx & Hc).
  assert (length x < m) as Hl.
  { destruct (le_lt_dec m (length x)) as [Hle|]; auto. exfalso. pose proof (lev_end m w L Hm (length x) Hle) as E. assert (In (fr1, e ++ x) (lev (length x) w L)) as X by (apply lev_In; auto; exists fr, e, x; auto). rewrite E in X. destruct X. }
  destruct Hc as [(k & H1 & -> & ->)|(fr2 & w2 & ev2 & H1 & H2 & ->)].
  - left. split; auto. exists (e ++ x ++ [EReduce k]). split; auto. apply dn_acc; auto. exists fr, e, x, fr1, k. auto 6.
  - right. exists fr1, (e ++ x), fr2, w2, ev2. split; [apply dn_shift; auto; exists fr, e, x; eauto 8|]. split; auto. split; auto. rewrite <- !app_assoc. reflexivity.
Qed.

Lemma dn_sound_acc : forall w0 fl L w m tr ev, inv w0 fl L w -> In (inr tr, ev) (dn m w L) -> maccept [] w0 (fl ++ ev) tr w.
Proof.
  intros w0 fl L w m tr ev Hi H. apply dn_acc in H; [|eapply inv_vals; eauto]. destruct H as (fr0 & e & x & fr & k & A & B & _ & C & ->).
  exists ((fl ++ e) ++ x), fr, w, [EReduce k]. split; [eapply msteps_trans; [apply (iv_sound _ _ _ _ Hi); eauto|apply rsteps_msteps; auto]|]. split; auto. rewrite !app_assoc. auto.
Qed.

Lemma dn_sound_shift : forall w0 fl L w m fr ev, inv w0 fl L w -> In (inl fr, ev) (dn m w L) -> msteps [] w0 (fl ++ ev) fr w /\ exists o w', mstep fr w [EShift (peek w)] o w'.
Proof.
  intros w0 fl L w m fr ev Hi H. apply dn_shift in H; [|eapply inv_vals; eauto]. destruct H as (fr0 & e & x & A & B & _ & -> & C). split; auto.
  rewrite app_assoc. eapply msteps_trans; [apply (iv_sound _ _ _ _ Hi); eauto|apply rsteps_msteps; auto].
Qed.

(** A pass without accepts leads to the next token. *)
Lemma mstep_shift_det : forall fr w o w' o' w'', mstep fr w [EShift (peek w)] o w' -> mstep fr w [EShift (peek w)] o' w'' -> o = o' /\ w' = w''.
Proof.
  intros fr w o w' o' w'' H H'. inversion H as [t w1 q He| |]; subst. inversion H' as [t' w2 q' He'| |]; subst. split; auto.
  assert (q = q') as -> by (eapply (edge_det g n fs lalr pg au); eauto). auto.
Qed.

Lemma dn_no_acc : forall D, accs D = 0 -> forall tr ev, ~ In (inr tr, ev) D.
Proof.
  intros D H tr ev Hi. unfold accs in H. apply length_zero_iff_nil in H. assert (In (inr tr, ev) (filter is_acc D)) as X by (apply filter_In; auto). rewrite H in X. destruct X.
Qed.

Definition next_conf (w : list N) (x : ael) : list conf := confs (pshift p w x).

Lemma pshift_spec : forall fr ev w fr2 w2, valid fr -> mstep fr w [EShift (peek w)] (inl fr2) w2 -> pshift p w (inl fr, ev) = [(inl fr2, ev ++ [EShift (peek w)])] /\ w2 = tl w /\ w <> [].
Proof.
  intros fr ev w fr2 w2 Hv H. destruct (gshift g wf n n_le fs lalr pg au tb tf p gw _ _ _ _ Hv H) as (t & q & -> & [= ->] & Hg). unfold pshift. cbn [fst snd]. cbn [peek hd_error] in *. rewrite Hg. split; auto. split; auto. discriminate.
Qed.

Lemma pass_next : forall w0 fl L w m, inv w0 fl L w -> lev m w L = [] -> accs (dn m w L) = 0 -> dn m w L <> [] ->
  exists L', flat_map (pshift p w) (dn m w L) = map emb L' /\ length L' = length (dn m w L) /\ inv w0 fl L' (tl w).
Proof.
  intros w0 fl L w m Hi Hm Ha Hne. pose proof (inv_vals _ _ _ _ Hi) as HL.
  assert (forall o ev, In (o, ev) (dn m w L) -> exists fr fr2, o = inl fr /\ valid fr /\ mstep fr w [EShift (peek w)] (inl fr2) (tl w)) as HS.
  { intros [fr|tr] ev H; [|destruct (dn_no_acc _ Ha _ _ H)]. destruct (dn_sound_shift _ _ _ _ _ _ _ Hi H) as [H1 (o & w' & H2)].
    assert (valid fr) as Hv by (eapply (msteps_valid g n lalr pg); eauto; constructor). destruct o as [fr2|tr]; [|inversion H2]. destruct (pshift_spec fr ev w fr2 w' Hv H2) as (_ & -> & _). exists fr, fr2. auto. }
  set (F := fun x : ael => match fst x with inl fr => match pshift p w (inl fr, snd x) with [(inl fr2, ev)] => [(fr2, ev)] | _ => [] end | inr _ => [] end).
  assert (forall l, (forall x, In x l -> In x (dn m w L)) -> flat_map (pshift p w) l = map emb (flat_map F l) /\ length (flat_map F l) = length l) as HF.
  { induction l as [|[o ev] l IH]; intros Hl; auto. destruct IH as [I1 I2]; [intros; apply Hl; right; auto|]. cbn [flat_map]. rewrite I1, app_length, I2, map_app. destruct (HS o ev (Hl _ (or_introl eq_refl))) as (fr & fr2 & -> & Hv & Hs).
    unfold F. cbn [fst snd]. destruct (pshift_spec fr ev w fr2 _ Hv Hs) as (-> & _). auto. }
  destruct (HF (dn m w L)) as [F1 F2]; auto. exists (flat_map F (dn m w L)). split; auto. split; auto.
  assert (forall fr2 ev2, In (fr2, ev2) (flat_map F (dn m w L)) <-> exists fr ev, In (inl fr, ev) (dn m w L) /\ mstep fr w [EShift (peek w)] (inl fr2) (tl w) /\ ev2 = ev ++ [EShift (peek w)]) as HI.
  { intros fr2 ev2. rewrite in_flat_map. split.
    - intros ([o ev] & H & H2). destruct (HS o ev H) as (fr & fr2' & -> & Hv & Hs). unfold F in H2. cbn [fst snd] in H2. destruct (pshift_spec fr ev w fr2' _ Hv Hs) as (E & _). rewrite E in H2. destruct H2 as [[= <- <-]|[]]. exists fr, ev. auto.
    - intros (fr & ev & H & Hs & ->). exists (inl fr, ev). split; auto. destruct (HS _ ev H) as (fr' & _ & [= <-] & Hv & _). unfold F. cbn [fst snd]. destruct (pshift_spec fr ev w fr2 _ Hv Hs) as (E & _). rewrite E. left. auto. }
  split.
  - intros fr2 ev2 H. apply HI in H. destruct H as (fr & ev & H & Hs & ->). destruct (dn_sound_shift _ _ _ _ _ _ _ Hi H) as [H1 _]. rewrite app_assoc. eapply msteps_trans; eauto. apply msteps_one; auto.
  - intros ev tr w' H. destruct (pass_all _ _ _ _ _ Hi Hm _ _ _ H) as [(_ & e & X & _)|(fr & e & fr2 & w2 & ev2 & H1 & H2 & H3 & ->)]; [destruct (dn_no_acc _ Ha _ _ X)|].
    destruct (HS _ e H1) as (fr' & fr2' & [= <-] & Hv & Hs). destruct (mstep_shift_det _ _ _ _ _ _ H2 Hs) as [[= ->] ->]. exists fr2', (e ++ [EShift (peek w)]), ev2. split; [apply HI; exists fr, e; auto|]. split; auto. rewrite <- app_assoc. reflexivity.
  - intros ev fr' H. destruct (iv_suffix _ _ _ _ Hi) as [u Eu].
    assert (w <> []) as Hw. { destruct (dn m w L) as [|[o e] l] eqn:E; [contradiction|]. destruct (HS o e (or_introl eq_refl)) as (fr & fr2 & _ & Hv & Hs). apply (pshift_spec fr e w fr2 _ Hv Hs). }
    destruct (msteps_last _ _ _ _ _ H) as [[E _]|(ev1 & fr1 & v & fr2 & x & A & B & C & D & E & ->)].
    { exfalso. rewrite Eu in E. destruct w as [|t w]; [contradiction|]. apply (f_equal (@length N)) in E. rewrite app_length in E. cbn [tl length] in E. lia. }
    assert (v = w) as ->.
    { destruct (msteps_suffix _ _ _ _ _ A) as [u' Eu']. rewrite Eu in Eu'. symmetry. apply (suffix_eq _ _ _ _ _ Eu'). destruct v, w; try contradiction. cbn [tl length] in *. congruence. }
    destruct (iv_runs _ _ _ _ Hi _ _ A) as (fr0 & e & y & P & Q & ->).
    assert (In (inl fr1, e ++ y) (dn m w L)) as Hd.
    { apply dn_shift; auto. exists fr0, e, y. split; auto. split; auto. split; [|split; eauto].
      destruct (le_lt_dec m (length y)) as [Hle|]; auto. exfalso. pose proof (lev_end m w L Hm (length y) Hle) as X. assert (In (fr1, e ++ y) (lev (length y) w L)) as Y by (apply lev_In; auto; exists fr0, e, y; auto). rewrite X in Y. destruct Y. }
    exists fr2, ((e ++ y) ++ [EShift (peek w)]), x. split; [apply HI; exists fr1, (e ++ y); auto|]. split; auto. rewrite <- !app_assoc. reflexivity.
  - destruct (iv_suffix _ _ _ _ Hi) as [u ->]. destruct w as [|t w]; [exists u; auto|]. exists (u ++ [t]). rewrite <- app_assoc. reflexivity.
  - split.
    + destruct (dn_nodup fl L w HL (iv_good _ _ _ _ Hi) m) as [_ HN]. apply (NoDup_flat ael conf F snd snd).
      * assert (filter (fun x => negb (is_acc x)) (dn m w L) = dn m w L) as E.
        { assert (forall l, (forall x, In x l -> is_acc x = false) -> filter (fun x => negb (is_acc x)) l = l) as X. { induction l as [|x l IH]; intros Hl; auto. cbn [filter]. rewrite (Hl x) by (left; auto). cbn [negb]. rewrite IH; auto. intros; apply Hl; right; auto. }
          apply X. intros [o ev] Hx. destruct (HS o ev Hx) as (fr & _ & -> & _). auto. }
        rewrite E in HN. exact HN.
      * intros [o ev] Hx. destruct (HS o ev Hx) as (fr & fr2 & -> & Hv & Hs). unfold F. cbn [fst snd]. destruct (pshift_spec fr ev w fr2 _ Hv Hs) as (-> & _). simpl. repeat constructor. intros [].
      * intros [o ev] [o' ev'] [f1 e1] [f2 e2] Hx Hx' Hy Hy' E. destruct (HS o ev Hx) as (fr & fr2 & -> & Hv & Hs). destruct (HS o' ev' Hx') as (fr' & fr2' & -> & Hv' & Hs').
        unfold F in Hy, Hy'. cbn [fst snd] in *. destruct (pshift_spec fr ev w fr2 _ Hv Hs) as (X & _). rewrite X in Hy. destruct Hy as [[= <- <-]|[]]. destruct (pshift_spec fr' ev' w fr2' _ Hv' Hs') as (X' & _). rewrite X' in Hy'. destruct Hy' as [[= <- <-]|[]].
        apply app_inj_tail in E. apply E.
    + intros fr2 ev2 H. apply HI in H. destruct H as (fr & ev & _ & _ & ->). right. exists (fl ++ ev), (peek w). apply app_assoc.
  - intros E. rewrite E in F2. simpl in F2. symmetry in F2. apply length_zero_iff_nil in F2. auto.
Qed.

(** A pass never loses all its stacks silently. *)
Lemma pass_live : forall m w L, vals L -> lev m w L = [] -> L <> [] -> dn m w L = [] -> exists j, j < m /\ lev j w L <> [] /\ forallb (stuck w) (lev j w L) = true.
Proof.
  induction m as [|m IH]; intros w L HL Hm Hne Hd; [contradiction|]. cbn [lev dn] in *. apply app_eq_nil in Hd. destruct Hd as [Hd1 Hd2].
  destruct (ltodo w L) as [|c l] eqn:Et.
  - exists 0. split; [lia|]. split; auto. cbn [lev]. apply forallb_forall. intros [fr ev] Hc. pose proof (proj1 (Forall_forall _ _) HL _ Hc) as Hv. cbn [fst] in Hv. apply (stuck_spec g wf n n_le fs lalr pg au tb tf p gw w (fr, ev) Hv). cbn [fst].
    intros e o w' H. inversion H as [t w1 q He|w1 S x k r i fr1 fr2 S2 y q HS Hc' Hr Hk Hh He Hne'|w1 S x k r i fr1 fr2 S2 y HS Hc' Hr Hk Hh Ht Hi]; subst.
    + assert (In (inl fr, ev) (ldone (t :: w') L)) as X by (apply ldone_In; auto; left; exists fr; eauto). rewrite Hd1 in X. destruct X.
    + assert (In (mkFrame (NonTerminal i) q (INode k (trees fr1)) :: fr2, ev ++ [EReduce k]) (ltodo w' L)) as X by (apply ltodo_In; auto; exists fr, ev, k; auto). rewrite Et in X. destruct X.
    + assert (In (inr (INode k (trees fr1)), ev ++ [EReduce k]) (ldone w' L)) as X by (apply ldone_In; auto; right; exists (INode k (trees fr1)), fr, ev, k; auto). rewrite Hd1 in X. destruct X.
  - rewrite <- Et in *. assert (ltodo w L <> []) as Hne2 by congruence. destruct (IH w (ltodo w L)) as (j & A & B & C); auto; [apply (ltodo_valid g wf n n_le fs lalr pg au tb tf p gw); auto|]. exists (Datatypes.S j). split; [lia|]. auto.
Qed.

Lemma forallb_stuck_todo : forall w L, vals L -> forallb (stuck w) L = true -> ltodo w L = [] /\ ldone w L = [].
Proof.
  intros w L HL H. rewrite forallb_forall in H. unfold GLRSimProof.ltodo, GLRSimProof.ldone. split.
  - assert (forall c, In c L -> ctodo w c = []) as X. { intros c Hc. specialize (H c Hc). unfold GLRSimProof.stuck in H. unfold GLRSimProof.ctodo. destruct (cacts p w c); [auto|discriminate]. }
    clear -X. induction L as [|c L IH]; auto. cbn [flat_map]. rewrite X by (left; auto). apply IH. intros; apply X; right; auto.
  - assert (forall c, In c L -> cdone w c = []) as X. { intros c Hc. specialize (H c Hc). unfold GLRSimProof.stuck in H. unfold GLRSimProof.cdone. destruct (cacts p w c); [auto|discriminate]. }
    clear -X. induction L as [|c L IH]; auto. cbn [flat_map]. rewrite X by (left; auto). apply IH. intros; apply X; right; auto.
Qed.

(** ** The result *)

(** No run consumes the token at the front of [w], or accepts there. *)
Definition dead (w0 w : list N) : Prop := forall ev fr, msteps [] w0 ev fr w -> (forall o w', ~ mstep fr w [EShift (peek w)] o w') /\ forall ev' tr w', ~ mstep fr w ev' (inr tr) w'.

(** Two stacks behind the same tokens. *)
Definition two_runs (w0 w : list N) : Prop := exists ev1 fr1 ev2 fr2, msteps [] w0 ev1 fr1 w /\ msteps [] w0 ev2 fr2 w /\ ends ev1 /\ ends ev2 /\ ev1 <> ev2.

(** [ev] are the visitor calls emitted behind the flushed calls [fl]. *)
Definition result_of_run (w0 : list N) (fl ev : list lr_event) (r : gres (list N)) : Prop :=
  match r with
  | Ok out => exists tr w', maccept [] w0 (fl ++ ev) tr w' /\ out = tl w' /\ forall ev' tr' w'', maccept [] w0 ev' tr' w'' -> ev' = fl ++ ev /\ tr' = tr /\ w'' = w'
  | Err e => (forall ev' tr' w', ~ maccept [] w0 ev' tr' w') /\
      ends (fl ++ ev) /\ exists w M, dead w0 w /\ e = comb (map (fun c => (peek w, gexpected g tb (top (fst c)))) M) /\ M <> [] /\ NoDup (map snd M) /\
        (forall fr ev', In (fr, ev') M -> msteps [] w0 (fl ++ ev ++ ev') fr w /\ forall ev' o w', ~ mstep fr w ev' o w') /\
        ((forall fr ev', In (fr, ev') M -> reds ev') \/ two_runs w0 w)
  | Panic => exists ev1 tr1 w1, maccept [] w0 ev1 tr1 w1 /\
      ((exists ev2 tr2, maccept [] w0 ev2 tr2 w1 /\ ev1 <> ev2) \/
       (exists ev2 fr2 o w2, msteps [] w0 ev2 fr2 w1 /\ mstep fr2 w1 [EShift (peek w1)] o w2))
  | OutOfFuel => True
  end.

Lemma errors_comb : forall l, errors (comb l) = l.
Proof. intros [|[a b] [|c l]]; reflexivity. Qed.

Lemma accs_two : forall D, 2 <= accs D -> NoDup (map snd (filter is_acc D)) -> exists tr1 e1 tr2 e2, In (inr tr1, e1) D /\ In (inr tr2, e2) D /\ e1 <> e2.
Proof.
  intros D H HN. unfold accs in H. assert (forall x, In x (filter is_acc D) -> In x D /\ is_acc x = true) as HI by (intros x Hx; apply filter_In in Hx; auto).
  destruct (filter is_acc D) as [|[o1 e1] [|[o2 e2] l]]; cbn [length] in H; try lia.
  destruct (HI (o1, e1)) as [A1 A2]; [left; auto|]. destruct (HI (o2, e2)) as [B1 B2]; [right; left; auto|]. destruct o1 as [|tr1]; [discriminate|]. destruct o2 as [|tr2]; [discriminate|].
  exists tr1, e1, tr2, e2. split; auto. split; auto. intros ->. inversion HN as [|? ? X _]; subst. apply X. left. auto.
Qed.

Lemma result_flush : forall w0 fl e ev r, result_of_run w0 (fl ++ e) ev r -> result_of_run w0 fl (e ++ ev) r.
Proof.
  intros w0 fl e ev r H. destruct r as [out|er| |]; cbn [result_of_run] in *; auto.
  - rewrite app_assoc. exact H.
  - destruct H as (H1 & H0 & w & M & H2 & H3 & H4 & H5 & H6 & H7). split; auto. rewrite <- app_assoc in H0. split; auto. exists w, M. split; auto. split; auto. split; auto. split; auto. split; auto. intros fr ev' Hc. destruct (H6 fr ev' Hc) as (A & B). rewrite <- !app_assoc in *. auto.
Qed.

Lemma dn_sub : forall m w L j, j <= m -> dn m w L = [] -> dn j w L = [].
Proof.
  intros m w L j Hj H. destruct (dn j w L) as [|x l] eqn:E; auto. exfalso. assert (In x (dn j w L)) as X by (rewrite E; left; auto). apply dn_In in X. destruct X as (i & Hi & X).
  assert (In x (dn m w L)) as Y by (apply dn_In; exists i; split; auto; lia). rewrite H in Y. destruct Y.
Qed.

Lemma accs_one : forall D, accs D <= 1 -> existsb is_acc D = true -> accs D = 1.
Proof. intros D H1 H2. pose proof (accs_exists D) as X. rewrite H2 in X. destruct (accs D) as [|[|k]]; auto; [discriminate|lia]. Qed.

Lemma accs_other : forall D, accs D = 1 -> 2 <= length D -> exists fr e, In (inl fr, e) D.
Proof.
  intros D H1 H2. destruct (filter (fun x => negb (is_acc x)) D) as [|[[fr|tr] e] l] eqn:E.
  - exfalso. assert (forall l : list ael, length l = accs l + length (filter (fun x => negb (is_acc x)) l)) as X. { clear. unfold accs. induction l as [|x l IH]; auto. cbn [filter length]. destruct (is_acc x); cbn [negb length]; lia. }
    specialize (X D). rewrite E in X. cbn [length] in X. lia.
  - exists fr, e. assert (In (inl fr, e) (filter (fun x => negb (is_acc x)) D)) as X by (rewrite E; left; auto). apply filter_In in X. apply X.
  - assert (In (inr tr, e) (filter (fun x => negb (is_acc x)) D)) as X by (rewrite E; left; auto). apply filter_In in X. destruct X as [_ X]. discriminate.
Qed.

Definition flushed (L : list conf) : Prop := match L with [c] => snd c = [] | _ => True end.

Lemma run_result : forall fuel rfuel w0 fl L w, inv w0 fl L w -> flushed L -> ends fl -> let '(ev, r) := prun fuel rfuel (map emb L) w in result_of_run w0 fl ev r.
Proof.
  induction fuel as [|fuel IH]; intros rfuel w0 fl L w Hi Hfl Hen; [exact I|]. cbn [GLRSimProof.prun].
  replace (match map emb L with [x] => is_acc x | _ => false end) with false by (destruct L as [|a [|b l]]; reflexivity).
  rewrite emb_no_acc, confs_emb. pose proof (inv_vals _ _ _ _ Hi) as HL. pose proof (preduces_inv rfuel w [] L ltac:(cbn; lia)) as HP.
  destruct (preduces rfuel w [] L) as [D|e| |]; auto.
  - destruct HP as (m & Hm & -> & Ha & Hst). cbn [app] in *.
    assert (dn m w L <> []) as Hne.
    { intros E. destruct (pass_live m w L HL Hm (iv_live _ _ _ _ Hi) E) as (j & Hj & _ & X). rewrite (Hst j Hj E) in X. discriminate. }
    unfold after. destruct (existsb is_acc (dn m w L)) eqn:Ea.
    + pose proof (accs_one _ Ha Ea) as E1. pose proof Ea as Ea'. apply existsb_exists in Ea'. destruct Ea' as ([[fr|tr] e] & Hx & Hy); [discriminate|].
      pose proof (dn_sound_acc _ _ _ _ _ _ _ Hi Hx) as HA.
      destruct (dn m w L) as [|x [|y l]] eqn:ED; [contradiction| |].
      * destruct Hx as [->|[]]. destruct fuel as [|fuel]; [exact I|]. cbn [GLRSimProof.prun fst snd is_acc]. cbn [result_of_run]. rewrite app_nil_r. exists tr, w. split; auto. split; auto.
        intros ev' tr' w'' H. rewrite <- ED in *. destruct (pass_all _ _ _ _ _ Hi Hm _ _ _ H) as [(-> & e' & X & ->)|(fr & e' & fr2 & w2 & ev2 & X & _)]; rewrite ED in X; destruct X as [X|[]]; [injection X as -> ->; auto|discriminate].
      * destruct fuel as [|fuel]; [exact I|]. cbn [GLRSimProof.prun]. rewrite Ea. destruct rfuel as [|rfuel]; [exact I|]. cbn [result_of_run].
        destruct (accs_other _ E1) as (fr & e' & Hfr); [cbn [length]; lia|]. rewrite <- ED in Hfr. destruct (dn_sound_shift _ _ _ _ _ _ _ Hi Hfr) as (S1 & o & w' & S2).
        exists (fl ++ e), tr, w. split; auto. right. exists (fl ++ e'), fr, o, w'. auto.
    + assert (accs (dn m w L) = 0) as E0 by (pose proof (accs_exists (dn m w L)) as X; rewrite Ea in X; destruct (accs (dn m w L)); auto; discriminate).
      destruct (pass_next _ _ _ _ _ Hi Hm E0 Hne) as (L' & -> & _ & Hi').
      destruct L' as [|[fr e] [|c L']].
      * destruct (iv_live _ _ _ _ Hi'). auto.
      * cbn [map emb fst snd]. pose proof (IH rfuel w0 (fl ++ e) [(fr, [])] (tl w) (inv_flush _ _ _ _ _ Hi') eq_refl (proj2 (iv_good _ _ _ _ Hi') fr e (or_introl eq_refl))) as HR. match goal with |- context [prun ?a ?b ?c ?d] => change (let '(ev, r) := prun a b c d in result_of_run w0 (fl ++ e) ev r) in HR; destruct (prun a b c d) as [ev r] end. apply result_flush. exact HR.
      * exact (IH rfuel w0 fl ((fr, e) :: c :: L') (tl w) Hi' I Hen).
  - destruct HP as (m & Hd & Hne & Hst & ->). cbn [app] in Hd. pose proof (lev_vals m w L HL) as HLm. destruct (forallb_stuck_todo w _ HLm Hst) as [Ht _].
    assert (lev (Datatypes.S m) w L = []) as Hm. { assert (ltodo w (lev m w L) = lev (Datatypes.S m) w L) as El. { clear. revert L. induction m as [|m IH]; intros L; auto. cbn [lev]. rewrite IH. reflexivity. } rewrite <- El. auto. }
    cbn [result_of_run]. split.
    + intros ev' tr' w' H. destruct (pass_all _ _ _ _ _ Hi Hm _ _ _ H) as [(_ & e & X & _)|(fr & e & fr2 & w2 & ev2 & X & _)]; rewrite Hd in X; destruct X.
    + assert (filter (stuck w) (lev m w L) = lev m w L) as EM. { revert Hst. generalize (lev m w L) as M. induction M as [|c M IHM]; intros Hst; auto. cbn [forallb] in Hst. apply andb_true_iff in Hst. destruct Hst as [Hc HM]. cbn [filter]. rewrite Hc, IHM; auto. }
      split; [rewrite app_nil_r; exact Hen|]. exists w, (lev m w L). split; [|split; [|split; [|split; [|split]]]].
      * intros ev fr H. destruct (iv_runs _ _ _ _ Hi _ _ H) as (fr0 & e & x & P & Q & ->).
        assert (length x < Datatypes.S m) as Hx. { destruct (le_lt_dec (Datatypes.S m) (length x)) as [Hle|]; auto. exfalso. pose proof (lev_end _ w L Hm (length x) Hle) as X. assert (In (fr, e ++ x) (lev (length x) w L)) as Y by (apply lev_In; auto; exists fr0, e, x; auto). rewrite X in Y. destruct Y. }
        split.
        -- intros o w' Hs. assert (In (inl fr, e ++ x) (dn (Datatypes.S m) w L)) as X by (apply dn_shift; auto; exists fr0, e, x; eauto 8). rewrite Hd in X. destruct X.
        -- intros ev' tr w' Hs. assert (exists k, ev' = [EReduce k] /\ w' = w) as (k & -> & ->) by (inversion Hs; subst; eauto). assert (In (inr tr, e ++ x ++ [EReduce k]) (dn (Datatypes.S m) w L)) as X by (apply dn_acc; auto; exists fr0, e, x, fr, k; auto 6). rewrite Hd in X. destruct X.
      * unfold lerr. rewrite EM. reflexivity.
      * exact Hne.
      * apply lev_nodup; auto. apply (iv_good _ _ _ _ Hi).
      * intros fr e Hc. pose proof (proj1 (Forall_forall _ _) HLm _ Hc) as Hv. pose proof (proj1 (forallb_forall _ _) Hst _ Hc) as Hs. cbn [fst app] in *. apply lev_In in Hc; auto. destruct Hc as (fr0 & e0 & x & P & Q & R & ->). split.
        -- rewrite app_assoc. eapply msteps_trans; [apply (iv_sound _ _ _ _ Hi); eauto|apply rsteps_msteps; auto].
        -- apply (stuck_spec g wf n n_le fs lalr pg au tb tf p gw w (fr, e0 ++ x) Hv). auto.
      * destruct L as [|[fr1 e1] [|[fr2 e2] L]]; [destruct (iv_live _ _ _ _ Hi); auto| |].
        -- left. cbn in Hfl. subst e1. intros fr e Hc. apply lev_In in Hc; auto. destruct Hc as (fr0 & e0 & x & [[= <- <-]|[]] & Q & _ & ->). eapply rsteps_reds; eauto.
        -- right. destruct (iv_good _ _ _ _ Hi) as [N1 N2]. exists (fl ++ e1), fr1, (fl ++ e2), fr2. split; [apply (iv_sound _ _ _ _ Hi); left; auto|]. split; [apply (iv_sound _ _ _ _ Hi); right; left; auto|].
           split; [apply (N2 fr1); left; auto|]. split; [apply (N2 fr2); right; left; auto|]. intros E. apply app_inv_head in E. cbn [map snd] in N1. inversion N1 as [|? ? X _]; subst. apply X. left. auto.
  - destruct HP as (m & Ha). cbn [app] in Ha. cbn [result_of_run].
    destruct (accs_two _ Ha) as (tr1 & e1 & tr2 & e2 & A & B & C); [apply (dn_nodup fl L w HL (iv_good _ _ _ _ Hi) m)|].
    exists (fl ++ e1), tr1, w. split; [eapply dn_sound_acc; eauto|]. left. exists (fl ++ e2), tr2. split; [eapply dn_sound_acc; eauto|]. intros E. apply app_inv_head in E. auto.
Qed.

Lemma inv_start : forall w, inv w [] [([], [])] w.
Proof.
  intros w. split.
  - intros fr ev [[= <- <-]|[]]. constructor.
  - intros ev tr w' H. exists [], [], ev. split; [left; auto|]. auto.
  - intros ev fr H. destruct (msteps_last _ _ _ _ _ H) as [[_ Hr]|(ev1 & fr1 & v & fr2 & x & A & B & C & D & E & ->)].
    + exists [], [], ev. split; [left; auto|]. auto.
    + exfalso. destruct (msteps_suffix _ _ _ _ _ A) as [u Eu]. destruct v as [|t v]; [contradiction|]. apply (f_equal (@length N)) in Eu. rewrite app_length in Eu. cbn [tl length] in *. subst w. cbn [length] in *. lia.
  - exists []. auto.
  - split; [repeat constructor; intros []|]. intros fr ev [[= <- <-]|[]]. left. auto.
  - discriminate.
Qed.

Lemma parse_result : forall fuel w, let '(ev, r) := glr_parse fuel p w in result_of_run w [] ev r.
Proof. intros fuel w. rewrite (parse_sim g wf n n_le fs lalr pg au tb tf p gw). exact (run_result fuel fuel w [] [([], [])] w (inv_start w) eq_refl (or_introl eq_refl)). Qed.

Lemma run_terminates : forall B fuel rfuel w0 fl L w, (forall ev fr w', msteps [] w0 ev fr w' -> length ev <= B) -> inv w0 fl L w -> B + 1 < rfuel -> length w + 2 <= fuel ->
  snd (prun fuel rfuel (map emb L) w) <> OutOfFuel.
Proof.
  intros B. induction fuel as [|fuel IH]; intros rfuel w0 fl L w HB Hi Hr Hf; [lia|]. cbn [GLRSimProof.prun].
  replace (match map emb L with [x] => is_acc x | _ => false end) with false by (destruct L as [|a [|b l]]; reflexivity).
  rewrite emb_no_acc, confs_emb. pose proof (inv_vals _ _ _ _ Hi) as HL.
  assert (lev (B + 1) w L = []) as HB1.
  { destruct (lev (B + 1) w L) as [|[fr e] l] eqn:E; auto. exfalso. assert (In (fr, e) (lev (B + 1) w L)) as X by (rewrite E; left; auto). apply lev_In in X; auto. destruct X as (fr0 & e0 & x & P & Q & R & ->).
    assert (msteps [] w0 ((fl ++ e0) ++ x) fr w) as Y by (eapply msteps_trans; [apply (iv_sound _ _ _ _ Hi); eauto|apply rsteps_msteps; auto]). apply HB in Y. rewrite !app_length in Y. lia. }
  pose proof (preduces_fuel (B + 1) rfuel w [] L HB1 Hr) as HN. pose proof (preduces_inv rfuel w [] L ltac:(cbn; lia)) as HP.
  destruct (preduces rfuel w [] L) as [D|e| |]; try discriminate; [|congruence].
  destruct HP as (m & Hm & -> & Ha & Hst). cbn [app] in *.
  assert (dn m w L <> []) as Hne.
  { intros E. destruct (pass_live m w L HL Hm (iv_live _ _ _ _ Hi) E) as (j & Hj & _ & X). rewrite (Hst j Hj E) in X. discriminate. }
  unfold after. destruct (existsb is_acc (dn m w L)) eqn:Ea.
  - destruct fuel as [|fuel]; [lia|]. destruct (dn m w L) as [|x [|y l]] eqn:ED; [contradiction| |].
    + cbn [existsb] in Ea. rewrite orb_false_r in Ea. cbn [GLRSimProof.prun]. destruct x as [[fr|tr] e]; [discriminate|]. cbn [fst snd is_acc]. discriminate.
    + cbn [GLRSimProof.prun]. rewrite Ea. destruct rfuel; [lia|]. discriminate.
  - assert (accs (dn m w L) = 0) as E0 by (pose proof (accs_exists (dn m w L)) as X; rewrite Ea in X; destruct (accs (dn m w L)); auto; discriminate).
    assert (w <> []) as Hw.
    { destruct (dn m w L) as [|[[fr|tr] e] l] eqn:E; [contradiction| |discriminate]. assert (In (inl fr, e) (dn m w L)) as X by (rewrite E; left; auto). destruct (dn_sound_shift _ _ _ _ _ _ _ Hi X) as (S1 & o & w' & S2). inversion S2; subst. discriminate. }
    destruct (pass_next _ _ _ _ _ Hi Hm E0 Hne) as (L' & -> & _ & Hi'). assert (length (tl w) + 2 <= fuel) as Hf' by (destruct w; [contradiction|]; cbn [tl length] in *; lia).
    destruct L' as [|[fr e] [|c L']].
    + destruct (iv_live _ _ _ _ Hi'). auto.
    + pose proof (IH rfuel w0 (fl ++ e) [(fr, [])] (tl w) HB (inv_flush _ _ _ _ _ Hi') Hr Hf') as HR. cbn [map].
      match goal with |- context [prun ?a ?b ?c ?d] => change (snd (prun a b c d) <> OutOfFuel) in HR; destruct (prun a b c d) as [ev r] end. exact HR.
    + exact (IH rfuel w0 fl ((fr, e) :: c :: L') (tl w) HB Hi' Hr Hf').
Qed.

Lemma parse_terminates : forall B fuel w, (forall ev fr w', msteps [] w ev fr w' -> length ev <= B) -> B + 1 < fuel -> length w + 2 <= fuel -> snd (glr_parse fuel p w) <> OutOfFuel.
Proof. intros B fuel w HB H1 H2. rewrite (parse_sim g wf n n_le fs lalr pg au tb tf p gw). exact (run_terminates B fuel fuel w [] [([], [])] w HB (inv_start w) H1 H2). Qed.

End Result.
