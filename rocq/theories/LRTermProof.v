(** Termination of LR and GLR parsers. *)
From Coq Require Import String List Arith NArith Bool Lia Relations FinFun.
From Verif Require GrammarBuildProof.
From Verif Require Import Base InputModel GrammarModel GrammarSpec GrammarProof LLModel LLSpec SententialProof SetsProof FirstProof LRModel LRSpec BidiProof ItemProof LRItemsProof LRGraphProof AutomatonProof LRTableProof LRWriteProof LRGenProof LRConflictProof LRRunProof LRCompleteProof LRFactsProof GLRModel GLRSpec GLRWriteProof GLRStepProof GLRSimProof GLRProof GLRFactsProof LRTermSpec.
Import ListNotations.
Local Open Scope nat_scope.
Local Open Scope list_scope.

Lemma sizes_le : forall b ts, (forall t, In t ts -> size t <= b) -> sizes ts <= length ts * b.
Proof.
  intros b ts H. induction ts as [|t ts IH]; [cbn; lia|]. rewrite sizes_cons. cbn [length]. pose proof (H t (or_introl eq_refl)). assert (sizes ts <= length ts * b) by (apply IH; intros; apply H; right; auto). lia.
Qed.

Lemma child_size : forall t ts, In t ts -> size t <= sizes ts.
Proof. intros t ts H. induction ts as [|u ts IH]; [destruct H|]. rewrite sizes_cons. destruct H as [->|H]; [lia|]. specialize (IH H). lia. Qed.

Section Bound.
Variable g : grammar.
Let R := g_rules g.
Let K := length R.

(** ** Trees of bounded yield are bounded *)

Definition widest : nat := list_max (map (fun r => length (r_rhs r)) R).

Lemma widest_ge : forall r, In r R -> length (r_rhs r) <= widest.
Proof. intros r H. unfold widest. pose proof (proj1 (list_max_le (map (fun r => length (r_rhs r)) R) _) (le_n _)) as X. rewrite Forall_forall in X. apply X. apply in_map_iff. eauto. Qed.

Fixpoint layered (prev c : nat) : nat := match c with 0 => 1 | S c => 1 + widest * (layered prev c + prev) end.
Fixpoint tree_bound (m : nat) : nat := match m with 0 => layered 0 K | S m => layered (tree_bound m) K end.
Definition below (m : nat) : nat := match m with 0 => 0 | S m => tree_bound m end.

Lemma layered_pos : forall prev c, 1 <= layered prev c.
Proof. intros prev [|c]; cbn; lia. Qed.

Lemma iparses_length : forall al ts, iparses R al ts -> length ts <= length al.
Proof. intros al ts H. induction H; cbn; lia. Qed.

(** One of the trees, with its symbol and what stands beside it. *)
Lemma iparses_pick : forall al ts, iparses R al ts -> forall t, In t ts -> exists a s b ta tb, al = a ++ s :: b /\ ts = ta ++ t :: tb /\ iparses R a ta /\ iparses R [s] [t] /\ iparses R b tb.
Proof.
  intros al ts H. induction H as [|al ts H IH|t0 al ts H IH|k r i al cs ts Hr Hl Hc _ H IH]; intros t Ht.
  - destruct Ht.
  - destruct (IH t Ht) as (a & s & b & ta & tb & -> & -> & A & B & C). exists (Epsilon :: a), s, b, ta, tb. repeat split; auto. constructor; auto.
  - destruct Ht as [<-|Ht].
    + exists [], (Terminal t0), al, [], ts. repeat split; auto; repeat constructor.
    + destruct (IH t Ht) as (a & s & b & ta & tb & -> & -> & A & B & C). exists (Terminal t0 :: a), s, b, (ILeaf t0 :: ta), tb. repeat split; auto. constructor; auto.
  - destruct Ht as [<-|Ht].
    + exists [], (NonTerminal i), al, [], ts. repeat split; auto; try constructor. econstructor; eauto. constructor.
    + destruct (IH t Ht) as (a & s & b & ta & tb & -> & -> & A & B & C). exists (NonTerminal i :: a), s, b, (INode k cs :: ta), tb. repeat split; auto. econstructor; eauto.
Qed.

Lemma empty_derives : forall al ts, iparses R al ts -> length (iyields ts) = 0 -> derives R al [].
Proof. intros al ts H E. apply length_zero_iff_nil in E. rewrite <- E. apply iparses_derives; auto. Qed.

Lemma heads_le : forall seen, NoDup seen -> (forall i, In i seen -> exists r, In r R /\ r_lhs r = Some i) -> length seen <= K.
Proof. exact (heads_bound g). Qed.

Hypothesis nc : ~ cyclic g.

Lemma reachable_step : forall i r j, reachable g i -> In r R -> r_lhs r = Some i -> In (NonTerminal j) (r_rhs r) -> reachable g j.
Proof. intros i r j (e & He & Hi) Hr Hl Hj. exists e. split; auto. eapply rt_trans; [exact Hi|]. apply rt_step. exists r. auto. Qed.

Lemma tree_size : forall n t i, size t <= n -> iparses R [NonTerminal i] [t] -> reachable g i -> forall m, length (iyield t) <= m ->
  forall seen, NoDup seen -> (forall j, In j seen -> (exists r, In r R /\ r_lhs r = Some j) /\ clos_trans N (whole_step g) j i) -> size t <= layered (below m) (K - length seen).
Proof.
  induction n as [|n IH]; intros t i Hn Ht Hi m Hm seen Hs Hc.
  - destruct t; unfold size in Hn; cbn [post_order] in Hn; rewrite ?app_length in Hn; cbn [length] in Hn; lia.
  - inversion Ht as [| | |k r i' al cs ts Hr Hl Hcs Hts]; subst. clear Hts. assert (In r R) as Hin by (eapply nth_error_In; eauto).
    assert (size (INode k cs) = sizes cs + 1) as Es by (unfold size, sizes; cbn [post_order]; rewrite app_length; auto). rewrite Es in Hn |- *.
    assert (~ In i seen) as Hni by (intros X; apply nc; exists i; apply (Hc i X)).
    assert (length (i :: seen) <= K) as Hk. { apply heads_le; [constructor; auto|]. intros j [<-|Hj]; [eauto|]. apply (Hc j Hj). }
    cbn [length] in Hk. destruct (K - length seen) as [|c] eqn:Ec; [lia|]. cbn [layered].
    assert (sizes cs <= length cs * (layered (below m) c + below m)) as X.
    { apply sizes_le. intros t Hin'. destruct (iparses_pick _ _ Hcs t Hin') as (a & s & b & ta & tb & Ea & Ets & Pa & Ps & Pb).
      pose proof (child_size t cs Hin') as Hct.
      assert (length (iyield t) <= length (iyields cs)) as Hy. { rewrite Ets. rewrite iyields_app, iyields_cons, !app_length. lia. }
      change (iyield (INode k cs)) with (iyields cs) in Hm.
      inversion Ps as [|? ? Pe| |k' r' j ? cs' ? Hr' Hl' Hcs' _]; subst.
      - inversion Pe.
      - pose proof (layered_pos (below m) c). unfold size. cbn [post_order length]. lia.
      - assert (reachable g j) as Hj by (apply (reachable_step i r j); auto; rewrite Ea; apply in_or_app; right; left; auto).
        destruct (Nat.eq_dec (length (iyield (INode k' cs'))) m) as [Em|Em].
        + assert (whole_step g i j) as Hw.
          { exists a, b. split; [split; eauto|]. rewrite iyields_app, iyields_cons, !app_length in Hm. unfold nullable.
            split; [apply (empty_derives a ta)|apply (empty_derives b tb)]; auto; lia. }
          assert (size (INode k' cs') <= layered (below m) (K - length (i :: seen))) as Y.
          { apply (IH _ j); auto; [lia|lia|constructor; auto|]. intros j' [<-|Hj']; [split; [eauto|apply t_step; auto]|]. destruct (Hc j' Hj') as [P Q]. split; auto. eapply t_trans; [exact Q|apply t_step; auto]. }
          cbn [length] in Y. replace (K - S (length seen)) with c in Y by lia. lia.
        + destruct m as [|m]; [lia|]. assert (size (INode k' cs') <= layered (below m) (K - length (@nil N))) as Y.
          { apply (IH _ j); auto; [lia|lia|constructor|intros j' []]. }
          cbn [length] in Y. rewrite Nat.sub_0_r in Y. cbn [below] in *. assert (layered (below m) K = tree_bound m) as <- by (destruct m; reflexivity). lia. }
    pose proof (iparses_length _ _ Hcs). pose proof (widest_ge r Hin). nia.
Qed.

Lemma tree_size_bound : forall t i m, iparses R [NonTerminal i] [t] -> reachable g i -> length (iyield t) <= m -> size t <= tree_bound m.
Proof.
  intros t i m H Hi Hm. pose proof (tree_size (size t) t i (le_n _) H Hi m Hm [] (NoDup_nil _) ltac:(intros j [])) as X. cbn [length] in X. rewrite Nat.sub_0_r in X. destruct m; exact X.
Qed.
End Bound.

(** ** Stacks of bounded yield are bounded *)

Section Stack.
Variable g : grammar.
Hypothesis wf : wf_grammar g.
Variable n : nat.
Variable fs : symbol_sets.
Variable lalr : bool.
Variable pg : lr_graph.
Hypothesis au : automaton g n fs lalr pg.
Let gi := au_inv g n fs lalr pg au.
Let R := g_rules g.
Let K := length R.
Let M := widest g.
Notation valid := (valid g pg).
Notation st := (LRGraphProof.st pg).

(** Frames on top of the stack which stand for nothing. *)
Fixpoint idle (fr : list frame) : nat :=
  match fr with
  | [] => 0
  | f :: fr => match iyield (fr_tree f) with [] => S (idle fr) | _ => 0 end
  end.

Definition blank (fr : list frame) : Prop := forall f, In f fr -> iyield (fr_tree f) = [].

Lemma idle_app : forall a b, idle (a ++ b) <= length a \/ (blank a /\ idle (a ++ b) = length a + idle b).
Proof.
  induction a as [|f a IH]; intros b; [right; split; [intros f []|reflexivity]|]. cbn [app idle length]. destruct (iyield (fr_tree f)) as [|t u] eqn:E; [|left; lia].
  destruct (IH b) as [X|[X Y]]; [left; lia|]. right. split; [intros f' [<-|Hf]; auto|lia].
Qed.

Hypothesis nh : ~ hidden_left_recursive g.

(** What is known when [i] is expected: it is reachable, and the idle frames are split up by hidden steps towards [i]. *)
Definition expected_on (fr : list frame) (i : N) : Prop :=
  reachable g i /\ exists hs, NoDup hs /\ (forall h, In h hs -> (exists r, In r R /\ r_lhs r = Some h) /\ exists j, hidden_step g h j /\ clos_refl_trans N (left_step g) j i) /\
    idle fr <= M * (length hs + 1).

(** An item on a stack. *)
Definition item_on (fr : list frame) (x : item) : Prop :=
  match it_rule x with
  | None => fr = [] /\ it_dot x = 0
  | Some k => exists r i fr1 fr2, nth_error R k = Some r /\ r_lhs r = Some i /\ fr = fr1 ++ fr2 /\ it_dot x = start_dot g k + length fr1 /\
      syms fr1 = firstn (length fr1) (skipn (start_dot g k) (r_rhs r)) /\ expected_on fr2 i
  end.

Lemma idle_le : forall fr i, expected_on fr i -> idle fr <= M * (K + 1).
Proof.
  intros fr i (_ & hs & A & B & C). assert (length hs <= K) as X by (apply (heads_le g); auto; intros h Hh; apply (B h Hh)). nia.
Qed.

Lemma blank_derives : forall fr1 fr2, valid (fr1 ++ fr2) -> blank fr1 -> derives R (syms fr1) [].
Proof.
  induction fr1 as [|f fr1 IH]; intros fr2 Hv Hb; [constructor|]. cbn [app] in Hv. inversion Hv as [|? ? Hv' He Ht]; subst. rewrite syms_cons.
  replace (@nil N) with (@nil N ++ []) by reflexivity. apply GrammarBuildProof.derives_app; [apply (IH fr2); auto; intros f' Hf; apply Hb; right; auto|].
  apply (empty_derives g _ [fr_tree f]); auto. rewrite iyields_one, (Hb f (or_introl eq_refl)). reflexivity.
Qed.

Lemma lead_split : forall l, l = repeat Epsilon (lead_eps l) ++ skipn (lead_eps l) l.
Proof. induction l as [|s l IH]; auto. destruct s; cbn; auto. f_equal. auto. Qed.

Lemma repeat_null : forall m, derives R (repeat Epsilon m) [].
Proof. induction m; cbn; constructor; auto. Qed.

Lemma firstn_split : forall A (l : list A) m s, nth_error l m = Some s -> l = firstn m l ++ s :: skipn (S m) l.
Proof. intros A l. induction l as [|a l IH]; intros [|m] s H; try discriminate; cbn in *; [congruence|]. f_equal. auto. Qed.

Lemma expected_next : forall fr x i, valid fr -> item_on fr x -> symbol_after_dot g x = Some (NonTerminal i) -> expected_on fr i.
Proof.
  intros fr x i Hv Hx Hs. unfold item_on in Hx. unfold symbol_after_dot in Hs. destruct (it_rule x) as [k|] eqn:Ek.
  - destruct Hx as (r & c & fr1 & fr2 & Hr & Hl & -> & Hd & Hsy & (Hc & hs & A & B & C)). assert (In r R) as Hin by (eapply nth_error_In; eauto).
    assert (rhs_of g (Some k) = r_rhs r) as Erhs by (unfold rhs_of; cbn [item_rule]; fold R; rewrite Hr; auto). rewrite Erhs in Hs. unfold start_dot in Hd, Hsy. rewrite Erhs in Hd, Hsy.
    rewrite Hd in Hs.
    assert (nth_error (skipn (lead_eps (r_rhs r)) (r_rhs r)) (length fr1) = Some (NonTerminal i)) as Hs'.
    { rewrite <- Hs. rewrite (lead_split (r_rhs r)) at 3. rewrite nth_error_app2; rewrite repeat_length; [f_equal; lia|lia]. }
    pose proof (firstn_split _ _ _ _ Hs') as E. rewrite <- Hsy in E. pose proof (lead_split (r_rhs r)) as E'. rewrite E in E'. rewrite app_assoc in E'.
    assert (reachable g i) as Hi. { apply (reachable_step g c r i); auto. rewrite E'. apply in_or_app. right. left. auto. }
    assert (length fr1 <= M) as Hlen. { pose proof (widest_ge g r Hin) as X. fold M in X. rewrite E' in X. rewrite !app_length, syms_length in X. lia. }
    split; auto. destruct (idle_app fr1 fr2) as [Hle|[Hb He]].
    + exists []. split; [constructor|]. split; [intros h []|]. cbn [length]. nia.
    + assert (nullable g (repeat Epsilon (lead_eps (r_rhs r)) ++ syms fr1)) as Hnull.
      { unfold nullable. replace (@nil N) with (@nil N ++ []) by reflexivity. apply GrammarBuildProof.derives_app; [apply repeat_null|apply (blank_derives fr1 fr2); auto]. }
      assert (rule_step g c (repeat Epsilon (lead_eps (r_rhs r)) ++ syms fr1) i (skipn (S (length fr1)) (skipn (lead_eps (r_rhs r)) (r_rhs r)))) as Hrs by (split; eauto).
      assert (left_step g c i) as Hls by (do 2 eexists; split; eauto).
      assert (forall h, In h hs -> (exists r, In r R /\ r_lhs r = Some h) /\ exists j, hidden_step g h j /\ clos_refl_trans N (left_step g) j i) as B'.
      { intros h Hh. destruct (B h Hh) as (P & j & Q1 & Q2). split; auto. exists j. split; auto. eapply rt_trans; [exact Q2|apply rt_step; auto]. }
      destruct fr1 as [|f fr1].
      * exists hs. split; auto.
      * exists (c :: hs). split; [constructor; auto; intros X; destruct (B c X) as (_ & j & Q1 & Q2); apply nh; exists c, j; auto|].
        split.
        -- intros h [<-|Hh]; [|apply B'; auto]. split; [eauto|]. exists i. split; [|apply rt_refl]. do 2 eexists. split; [exact Hrs|]. split; auto. exists (fr_sym f). split.
           ++ apply in_or_app. right. rewrite syms_cons. apply in_or_app. right. left. auto.
           ++ intros X. apply (syms_no_epsilon g pg ((f :: fr1) ++ fr2) Hv). rewrite syms_app. apply in_or_app. right. rewrite syms_cons, X. apply in_or_app. right. left. auto.
        -- rewrite He. cbn [length] in *. nia.
  - destruct Hx as [-> Hd]. rewrite Hd in Hs. assert (g_entry g = NonTerminal i) as Ei. { unfold rhs_of in Hs. cbn [item_rule] in Hs. rewrite (proj2 (wf_entry_rule g wf)) in Hs. cbn in Hs. congruence. }
    split; [exists i; split; auto; apply rt_refl|]. exists []. split; [constructor|]. split; [intros h []|]. cbn. lia.
Qed.

Lemma item_expands : forall fr z x, valid fr -> item_on fr z -> expands g n fs z x -> item_on fr x.
Proof.
  intros fr z x Hv Hz [s k las la H1 H2 H3 H4]. apply rules_for_spec in H2. destruct H2 as (r & i & Hr & Hl & ->). unfold item_on. cbn [it_rule init_item it_dot]. exists r, i, [], fr.
  repeat split; auto; try (cbn; lia); try (apply (expected_next fr z i); auto).
Qed.

Lemma item_clo : forall fr y x, valid fr -> item_on fr y -> clo g n fs y x -> item_on fr x.
Proof. intros fr y x Hv Hy H. induction H; auto. eapply item_expands; eauto. Qed.

Lemma item_core : forall fr x y, to_lr0 x = to_lr0 y -> item_on fr x -> item_on fr y.
Proof. intros fr x y E H. apply to_lr0_fields in E. destruct E as [E1 E2]. unfold item_on in *. rewrite <- E1, <- E2. exact H. Qed.

Lemma items_on : forall fr, valid fr -> forall S x, st (top fr) = Some S -> In x S -> item_on fr x.
Proof.
  intros fr Hv. induction Hv as [|f fr Hv IH He Ht]; intros S x HS Hx.
  - cbn [top] in HS. destruct (gi_entry _ _ _ _ _ gi) as (S0 & H0 & E0). assert (S = S0) as -> by congruence. apply E0 in Hx. apply (item_clo [] (entry_item n)); auto; [constructor|].
    split; reflexivity.
  - cbn [top] in HS. assert (valid (f :: fr)) as Hv' by (constructor; auto). destruct (gi_edge _ _ _ _ _ gi _ _ _ He) as (P & T & HP & HT & HC & _). assert (T = S) as -> by congruence.
    destruct (proj1 (HC (to_lr0 x))) as (u & (it & (M1 & M2 & M3) & Hc) & Eu); [exists x; auto|]. apply (item_core _ u x Eu). apply (item_clo _ (adv it)); auto.
    specialize (IH P it HP M1). unfold item_on in *. cbn [adv it_rule it_dot]. destruct (it_rule it) as [k|] eqn:Ek; [|exfalso; apply M3; unfold lhs_of; cbn [item_rule]; apply (wf_entry_rule g wf)].
    destruct IH as (r & i & fr1 & fr2 & Hr & Hl & -> & Hd & Hsy & Hex). exists r, i, (f :: fr1), fr2. repeat split; auto; try apply Hex; [cbn [length]; lia|].
    rewrite syms_cons, Hsy. cbn [length]. unfold symbol_after_dot in M2. rewrite Ek in M2.
    assert (rhs_of g (Some k) = r_rhs r) as Erhs by (unfold rhs_of; cbn [item_rule]; fold R; rewrite Hr; auto). unfold start_dot in *. rewrite Erhs in *. rewrite Hd in M2.
    assert (nth_error (skipn (lead_eps (r_rhs r)) (r_rhs r)) (length fr1) = Some (fr_sym f)) as X.
    { rewrite <- M2. rewrite (lead_split (r_rhs r)) at 3. rewrite nth_error_app2; rewrite repeat_length; [f_equal; lia|lia]. }
    revert X. generalize (skipn (lead_eps (r_rhs r)) (r_rhs r)) (length fr1). clear. intros l m. revert l. induction m as [|m IH]; intros [|a l] X; try discriminate; cbn in *; [congruence|]. f_equal. auto.
Qed.

Lemma idle_bound : forall fr, valid fr -> idle fr <= M * (K + 2).
Proof.
  intros fr Hv. destruct Hv as [|f fr Hv He Ht]; [cbn; lia|]. assert (valid (f :: fr)) as Hv' by (constructor; auto).
  destruct (gi_edge _ _ _ _ _ gi _ _ _ He) as (P & T & HP & HT & HC & (it & M1 & M2 & M3) & _).
  destruct (proj2 (HC (to_lr0 (adv it)))) as (x & Hx & _); [exists (adv it); split; auto; exists it; split; [split; auto|constructor]|].
  pose proof (items_on (f :: fr) Hv' T x HT Hx) as Hi. unfold item_on in Hi. destruct (it_rule x) as [k|]; [|destruct Hi; discriminate].
  destruct Hi as (r & i & fr1 & fr2 & Hr & Hl & E & Hd & Hsy & Hex). rewrite E. pose proof (idle_le fr2 i Hex) as B.
  assert (length fr1 <= M) as L. { rewrite <- (syms_length fr1), Hsy. rewrite firstn_length, skipn_length. pose proof (widest_ge g r (nth_error_In _ _ Hr)). fold M in H. lia. }
  destruct (idle_app fr1 fr2) as [X|[_ X]]; nia.
Qed.

Lemma length_bound : forall fr, valid fr -> length fr <= length (iyields (trees fr)) * (M * (K + 2) + 1) + idle fr.
Proof.
  intros fr Hv. induction Hv as [|f fr Hv IH He Ht]; [cbn; lia|]. rewrite trees_cons, iyields_app, iyields_one, app_length. cbn [length idle].
  pose proof (idle_bound fr Hv) as B. destruct (iyield (fr_tree f)) as [|t u]; cbn [length]; nia.
Qed.

Lemma frame_reachable : forall fr, valid fr -> forall f i, In f fr -> fr_sym f = NonTerminal i -> reachable g i.
Proof.
  intros fr Hv. induction Hv as [|f fr Hv IH He Ht]; intros f' i Hf Hs; [destruct Hf|]. destruct Hf as [<-|Hf]; [|eapply IH; eauto].
  destruct (gi_edge _ _ _ _ _ gi _ _ _ He) as (P & T & HP & HT & HC & (it & M1 & M2 & M3) & _). rewrite Hs in M2.
  apply (expected_next fr it i Hv (items_on fr Hv P it HP M1) M2).
Qed.

Lemma tree_bound_pos : forall m, 1 <= tree_bound g m.
Proof. intros [|m]; apply layered_pos. Qed.

Hypothesis nc : ~ cyclic g.

Lemma stack_bound : forall fr, valid fr -> length (post_orders (trees fr)) <= ((length (iyields (trees fr)) + 1) * (M * (K + 2) + 1)) * tree_bound g (length (iyields (trees fr))).
Proof.
  intros fr Hv. change (length (post_orders (trees fr))) with (sizes (trees fr)). pose proof (length_bound fr Hv) as L. pose proof (idle_bound fr Hv) as B. set (m := length (iyields (trees fr))) in *.
  assert (sizes (trees fr) <= length (trees fr) * tree_bound g m) as X.
  { apply sizes_le. intros t Ht. unfold trees in Ht. apply in_rev in Ht. apply in_map_iff in Ht. destruct Ht as (f & <- & Hf).
    assert (iparses R [fr_sym f] [fr_tree f] /\ length (iyield (fr_tree f)) <= m) as [Hp Hy].
    { split.
      - clear -Hv Hf. induction Hv as [|f' fr Hv IH He Ht]; [destruct Hf|]. destruct Hf as [<-|Hf]; auto.
      - unfold m. apply in_split in Hf. destruct Hf as (a & b & ->). rewrite trees_app, trees_cons, !iyields_app, iyields_one, !app_length. lia. }
    destruct (fr_sym f) as [| |i|t] eqn:Es.
    - inversion Hp as [|? ? X| |]; inversion X.
    - inversion Hp.
    - apply (tree_size_bound g nc _ i); auto. apply (frame_reachable fr Hv f i); auto.
    - inversion Hp; subst. unfold size. cbn. apply tree_bound_pos. }
  assert (length (trees fr) = length fr) as E by (unfold trees; rewrite rev_length, map_length; auto). rewrite E in X. pose proof (tree_bound_pos m). nia.
Qed.

(** All runs on [w] are bounded. *)
Definition run_bound (w : list N) : nat := ((length w + 1) * (M * (K + 2) + 1)) * tree_bound g (length w).

Lemma layered_mono : forall c p p', p <= p' -> layered g p c <= layered g p' c.
Proof. induction c as [|c IH]; intros p p' H; cbn; [lia|]. specialize (IH p p' H). nia. Qed.
Lemma layered_le : forall c p, p <= layered g p (S c) \/ widest g = 0.
Proof. intros c p. cbn. destruct (widest g) as [|m]; auto. left. nia. Qed.

Lemma tree_bound_step : forall m, tree_bound g m <= tree_bound g (S m).
Proof. induction m as [|m IH]; cbn [tree_bound] in *; apply layered_mono; [lia|exact IH]. Qed.
Lemma tree_bound_mono : forall m m', m <= m' -> tree_bound g m <= tree_bound g m'.
Proof. intros m m' H. induction H; auto. pose proof (tree_bound_step m0). lia. Qed.

Lemma runs_finite : forall w ev fr w', msteps g n lalr pg [] w ev fr w' -> length ev <= run_bound w.
Proof.
  intros w ev fr w' H. assert (valid []) as Hv by constructor. destruct (msteps_sound _ _ _ _ _ _ _ _ _ H Hv) as [P Q]. pose proof (msteps_valid _ _ _ _ _ _ _ _ _ H Hv) as Hv'.
  pose proof (stack_bound fr Hv') as B. rewrite P in B. cbn [app post_orders trees map rev concat] in B. cbn in Q. unfold run_bound. assert (length w = length (iyields (trees fr)) + length w') as -> by (rewrite Q, app_length; auto).
  pose proof (tree_bound_mono (length (iyields (trees fr))) (length (iyields (trees fr)) + length w') ltac:(lia)). revert B H0. generalize (tree_bound g (length (iyields (trees fr)))) (tree_bound g (length (iyields (trees fr)) + length w')) (M * (K + 2) + 1). intros a b c B H0.
  etransitivity; [exact B|]. apply Nat.mul_le_mono; auto. apply Nat.mul_le_mono; lia.
Qed.
End Stack.
