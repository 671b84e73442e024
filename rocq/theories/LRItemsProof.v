(** Items: the finite universe of items, validity, and cores of closures and transitions. *)
From Coq Require Import String List Arith NArith Bool Lia.
From Verif Require Import Base InputModel GrammarModel GrammarSpec GrammarProof LLModel LLSpec SententialProof SetsProof FirstProof LRModel LRSpec ItemProof.
Import ListNotations.
Local Open Scope nat_scope.
Local Open Scope list_scope.

(** ** FIRST of a sequence ending in a lookahead *)

Lemma seqF_app : forall fs a b x, seqF fs (a ++ b) x <-> seqF fs a x \/ (nullF fs a /\ seqF fs b x).
Proof.
  intros fs a. induction a as [|s a IH]; intros b x; [simpl; tauto|].
  destruct s; cbn [seqF nullF app]; rewrite ?IH; tauto.
Qed.

Lemma in_first_la : forall fs rest x y, lookahead x -> (in_first fs (rest ++ [x]) y <-> (y <> Epsilon /\ seqF fs rest y) \/ (nullF fs rest /\ y = x)).
Proof.
  intros fs rest x y Hx. unfold in_first. rewrite seqF_app, nullF_app.
  assert (seqF fs [x] y <-> y = x) as E1 by (destruct Hx as [->|[t ->]]; simpl; tauto).
  assert (~ nullF fs [x]) as E2 by (destruct Hx as [->|[t ->]]; simpl; tauto).
  assert (x <> Epsilon) by (destruct Hx as [->|[t ->]]; discriminate).
  rewrite E1. split.
  - intros [[A [B|[B C]]]|(_ & _ & _ & A)]; [auto|auto|contradiction].
  - intros [[A B]|[A ->]]; left; auto.
Qed.

Section LRItems.
Variable g : grammar.
Hypothesis wf : wf_grammar g.
Variable n : nat.
Variable fs : symbol_sets.
Hypothesis n_le : n <= 1.
Hypothesis fs_ok : n = 1 -> sets_ok g fs.

(** ** The universe *)

Definition la_symbols : list symbol := End :: terminals g.
Fixpoint words (m : nat) : list (list symbol) :=
  match m with 0 => [[]] | S m => flat_map (fun w => map (fun x => x :: w) la_symbols) (words m) end.

Lemma words_In : forall m w, In w (words m) <-> length w = m /\ incl w la_symbols.
Proof using Type. clear n_le fs_ok.
  induction m as [|m IH]; intros w; cbn [words].
  - split; [intros [<-|[]]; split; auto; intros x []|]. intros [H _]. destruct w; [left; auto|discriminate].
  - rewrite in_flat_map. split.
    + intros (v & Hv & H). apply in_map_iff in H. destruct H as (x & <- & Hx). apply IH in Hv. destruct Hv as [<- Hv]. split; auto.
      intros y [<-|Hy]; auto.
    + intros [Hl Hi]. destruct w as [|x w]; [discriminate|]. exists w. split.
      * apply IH. split; [simpl in Hl; lia|]. intros y Hy. apply Hi. right; auto.
      * apply in_map_iff. exists x. split; auto. apply Hi. left; auto.
Qed.

Lemma la_symbols_lookahead : forall x, In x la_symbols -> lookahead x.
Proof using wf. clear n_le fs_ok. intros x [<-|H]; [left; auto|]. right. apply (wf_ts g wf x H). Qed.

Definition rule_refs : list (option nat) := None :: map Some (seq 0 (length (g_rules g))).

Lemma rule_refs_In : forall k, In k rule_refs <-> exists r, item_rule g k = Some r.
Proof using Type. clear n_le fs_ok.
  intros [k|]; unfold rule_refs; simpl.
  - split.
    + intros [H|H]; [discriminate|]. apply in_map_iff in H. destruct H as (x & [= ->] & H). apply in_seq in H.
      destruct (nth_error (g_rules g) k) eqn:E; [eauto|]. apply nth_error_None in E. lia.
    + intros [r H]. right. apply in_map_iff. exists k. split; auto. apply in_seq. apply nth_error_lt in H. lia.
  - split; eauto.
Qed.

Definition all_items : list item :=
  flat_map (fun k => flat_map (fun d => map (mkItem k d) (words n)) (seq 0 (S (length (rhs_of g k))))) rule_refs.

Record item_ok (it : item) : Prop := {
  ik_rule : exists r, item_rule g (it_rule it) = Some r;
  ik_dot : it_dot it <= length (rhs_of g (it_rule it));
  ik_len : length (it_la it) = n;
  ik_la : incl (it_la it) la_symbols
}.

Lemma all_items_In : forall it, In it all_items <-> item_ok it.
Proof using Type. clear n_le fs_ok.
  intros it. unfold all_items. rewrite in_flat_map. split.
  - intros (k & Hk & H). apply in_flat_map in H. destruct H as (d & Hd & H). apply in_map_iff in H. destruct H as (w & <- & Hw).
    apply in_seq in Hd. apply words_In in Hw. apply rule_refs_In in Hk. destruct Hw. split; simpl; auto. lia.
  - intros [A B C D]. exists (it_rule it). split; [apply rule_refs_In; auto|]. apply in_flat_map. exists (it_dot it). split; [apply in_seq; lia|].
    apply in_map_iff. exists (it_la it). split; [destruct it; auto|]. apply words_In. auto.
Qed.

Lemma rhs_of_known : forall k s, In s (rhs_of g k) -> known g s.
Proof using wf. clear n_le fs_ok.
  intros [k|] s H; unfold rhs_of in H; simpl in H.
  - destruct (nth_error (g_rules g) k) eqn:E; [|destruct H]. apply nth_error_In in E. eapply wf_rhs; eauto.
  - destruct (wf_entry_rule g wf) as [_ E]. rewrite E in H. destruct H as [<-|[]]. destruct (wf_entry g wf) as (i & E1 & E2). rewrite E1 in *. exact E2.
Qed.

Lemma rhs_of_nts : forall k d, nts_known g (skipn d (rhs_of g k)).
Proof using wf. clear n_le fs_ok.
  intros k d i Hi. change (known g (NonTerminal i)). apply (rhs_of_known k). rewrite <- (firstn_skipn d). apply in_or_app. auto.
Qed.

Lemma rhs_la_nts : forall k d x, lookahead x -> nts_known g (skipn d (rhs_of g k) ++ [x]).
Proof using wf. clear n_le fs_ok.
  intros k d x Hx i Hi. apply in_app_or in Hi. destruct Hi as [Hi|[->|[]]]; [eapply rhs_of_nts; eauto|destruct Hx as [X|[t X]]; discriminate].
Qed.

Lemma entry_item_ok : item_ok (entry_item n).
Proof using Type. clear n_le fs_ok.
  split; simpl; [eauto|lia|apply repeat_length|]. intros x Hx. apply repeat_spec in Hx. subst. left; auto.
Qed.

(** What [determine_lookaheads] returns. *)
Definition rest_of (it : item) : list symbol := skipn (S (it_dot it)) (rhs_of g (it_rule it)).

Lemma nth_skipn : forall A (l : list A) d, nth_error l d = hd_error (skipn d l).
Proof using Type. clear n_le fs_ok. induction l as [|a l IH]; intros [|d]; simpl; auto. Qed.

Lemma lookaheads_spec : forall it las, item_ok it -> determine_lookaheads g n fs it = Ok las ->
  forall la, In la las <->
    (n = 0 /\ la = []) \/ (n = 1 /\ exists x y, it_la it = [x] /\ la = [y] /\ lookahead x /\ ((y <> Epsilon /\ seqF fs (rest_of it) y) \/ (nullF fs (rest_of it) /\ y = x))).
Proof.
  intros it las [A B C D] H la. unfold determine_lookaheads in H. replace (1 <? n) with false in H by (symmetry; apply Nat.ltb_ge; lia).
  unfold symbol_after_dot_offset, symbols_following, add_u8 in H. destruct (it_dot it + 1 <? 256); cbn [bind] in H; [|discriminate].
  unfold rest_of. replace (it_dot it + 1) with (S (it_dot it)) in H by lia. rewrite nth_skipn in H.
  remember (skipn (S (it_dot it)) (rhs_of g (it_rule it))) as rest eqn:Er.
  assert (n = 0 \/ n = 1) as [E|E] by lia; rewrite E in *; simpl in H.
  - injection H as <-. destruct (it_la it); [|discriminate]. split; [intros [<-|[]]; auto|]. intros [[_ ->]|[X _]]; [left; auto|discriminate].
  - destruct (it_la it) as [|x [|]] eqn:El; try discriminate. assert (lookahead x) as Hx by (apply la_symbols_lookahead, D; left; auto).
    assert (forall y, in_first fs (rest ++ [x]) y <-> (y <> Epsilon /\ seqF fs rest y) \/ (nullF fs rest /\ y = x)) as HF by (intros; apply in_first_la; auto).
    destruct rest as [|s rest]; cbn [hd_error] in H.
    + injection H as <-. split.
      * intros [<-|[]]. right. split; auto. exists x, x. split; auto. split; auto. split; auto. right. simpl. auto.
      * intros [[X _]|(_ & x' & y & [= <-] & -> & _ & [[_ []]|[_ ->]])]; [discriminate|left; auto].
    + destruct s as [| |i|t]; try discriminate.
      * destruct (first_of_seq_spec Empty_set g fs ((NonTerminal i :: rest) ++ [x]) (fs_ok eq_refl)) as (T & HT & _ & HI).
        { rewrite Er. apply rhs_la_nts. auto. }
        rewrite HT in H. cbn [bind] in H. injection H as <-. rewrite in_map_iff. split.
        -- intros (y & <- & Hy). apply HI, HF in Hy. right. split; auto. exists x, y. auto.
        -- intros [[X _]|(_ & x' & y & [= <-] & -> & _ & HH)]; [discriminate|]. exists y. split; auto. apply HI, HF. auto.
      * injection H as <-. split.
        -- intros [<-|[]]. right. split; auto. exists x, (Terminal t). split; auto. split; auto. split; auto. left. simpl. split; [discriminate|auto].
        -- intros [[X _]|(_ & x' & y & [= <-] & -> & _ & [[_ X]|[X _]])]; [discriminate|simpl in X; subst; left; auto|destruct X].
Qed.

Lemma lookaheads_ok : forall it la, item_ok it -> expands g n fs it la -> item_ok la.
Proof.
  intros it la Hok [s k las w Hs Hk Hl Hw]. apply rules_for_spec in Hk. destruct Hk as (r & i & Hr & _ & _).
  pose proof (proj1 (lookaheads_spec it las Hok Hl w) Hw) as HS. split; unfold init_item; simpl.
  - eauto.
  - apply lead_eps_le.
  - destruct HS as [[-> ->]|(-> & x & y & _ & -> & _)]; auto.
  - destruct HS as [[-> ->]|(E & x & y & Hx & -> & Hlx & HH)]; [intros ? []|]. intros z [<-|[]].
    destruct HH as [[H1 H2]|[_ ->]].
    + assert (In y (universe g)) as HU.
      { apply (in_first_universe g fs (rest_of it)); [apply fs_ok; auto| |left; auto]. intros s' Hs'. left. apply (rhs_of_known (it_rule it)).
        unfold rest_of in Hs'. rewrite <- (firstn_skipn (S (it_dot it))). apply in_or_app. auto. }
      destruct HU as [<-|[<-|HU]]; [contradiction|left; auto|right; auto].
    + apply (ik_la it Hok). rewrite Hx. left; auto.
Qed.

Lemma clo_ok : forall it x, item_ok it -> clo g n fs it x -> item_ok x.
Proof. intros it x H Hc. induction Hc; auto. eapply lookaheads_ok; eauto. Qed.

(** ** Moving the dot *)

Definition adv (it : item) : item := mkItem (it_rule it) (S (it_dot it)) (it_la it).

Lemma adv_ok : forall it s, item_ok it -> symbol_after_dot g it = Some s -> item_ok (adv it).
Proof using Type. clear n_le fs_ok. intros it s [A B C D] H. unfold symbol_after_dot in H. apply nth_error_lt in H. split; simpl; auto. Qed.

Definition moves (S : list item) (s : symbol) (it : item) : Prop := In it S /\ symbol_after_dot g it = Some s /\ lhs_of g (it_rule it) <> None.
Definition trans (S : list item) (s : symbol) (x : item) : Prop := exists it, moves S s it /\ clo g n fs (adv it) x.

Lemma trans_mono : forall S S' s x, incl S S' -> trans S s x -> trans S' s x.
Proof using Type. clear n_le fs_ok. intros S S' s x H (it & (A & B & C) & D). exists it. split; auto. split; auto. Qed.

Definition all_ok (S : list item) : Prop := forall x, In x S -> item_ok x.

Lemma trans_ok : forall S s x, all_ok S -> trans S s x -> item_ok x.
Proof. intros S s x H (it & (A & B & C) & D). eapply clo_ok; [|exact D]. eapply adv_ok; eauto. Qed.

(** Items of transitions do not belong to the entry rule. *)
Lemma clo_rule : forall it x, it_rule it <> None -> clo g n fs it x -> it_rule x <> None.
Proof using Type. clear n_le fs_ok. intros it x H Hc. induction Hc as [|y z Hy IH [? ? ? ? ? ?]]; auto. simpl. discriminate. Qed.

Lemma trans_rule : forall S s x, trans S s x -> it_rule x <> None.
Proof using wf. clear n_le fs_ok.
  intros S s x (it & (A & B & C) & D). eapply clo_rule; [|exact D]. simpl. intros E. rewrite E in C. unfold lhs_of in C. simpl in C.
  destruct (wf_entry_rule g wf) as [X _]. congruence.
Qed.

(** ** Cores *)

Definition core_of (P : item -> Prop) (c : item) : Prop := exists y, P y /\ to_lr0 y = c.

Lemma lr0_core_In : forall S c, In c (lr0_core S) <-> core_of (fun x => In x S) c.
Proof using Type. clear n_le fs_ok.
  intros S c. unfold lr0_core. rewrite set_of_list_In, in_map_iff. unfold core_of. split; intros (y & A & B); eauto.
Qed.

Lemma lr0_core_sorted : forall S, sorted (lr0_core S).
Proof using Type. clear n_le fs_ok. intros. apply set_of_list_sorted. Qed.

Lemma lr0_core_ext : forall S S', (forall c, core_of (fun x => In x S) c <-> core_of (fun x => In x S') c) -> lr0_core S = lr0_core S'.
Proof using Type. clear n_le fs_ok. intros S S' H. apply sorted_ext; try apply lr0_core_sorted. intros c. rewrite !lr0_core_In. apply H. Qed.

Lemma to_lr0_fields : forall x y, to_lr0 x = to_lr0 y -> it_rule x = it_rule y /\ it_dot x = it_dot y.
Proof using Type. clear n_le fs_ok. intros x y H. injection H as H1 H2. auto. Qed.

Lemma core_symbol : forall x y, to_lr0 x = to_lr0 y -> symbol_after_dot g x = symbol_after_dot g y.
Proof using Type. clear n_le fs_ok. intros x y H. apply to_lr0_fields in H. destruct H as [A B]. unfold symbol_after_dot. rewrite A, B. auto. Qed.

Lemma adv_core : forall x y, to_lr0 x = to_lr0 y -> to_lr0 (adv x) = to_lr0 (adv y).
Proof using Type. clear n_le fs_ok. intros x y H. apply to_lr0_fields in H. destruct H as [A B]. unfold to_lr0. simpl. congruence. Qed.

Lemma determine_ok_core : forall x y las, item_ok x -> item_ok y -> to_lr0 x = to_lr0 y -> determine_lookaheads g n fs x = Ok las -> exists las', determine_lookaheads g n fs y = Ok las'.
Proof.
  intros x y las [Ax Bx Cx Dx] [Ay By Cy Dy] E H. apply to_lr0_fields in E. destruct E as [E1 E2]. unfold determine_lookaheads in *.
  destruct (1 <? n); [discriminate|]. unfold symbol_after_dot_offset, symbols_following, add_u8 in *. rewrite <- E1, <- E2.
  destruct (it_dot x + 1 <? 256); cbn [bind] in *; [|discriminate]. destruct (0 <? n) eqn:En; [|eauto].
  destruct (nth_error (rhs_of g (it_rule x)) (it_dot x + 1)) as [[| |i|t]|]; eauto.
  destruct (it_la y) as [|z ly]; [simpl in Cy; apply Nat.ltb_lt in En; lia|].
  destruct (first_of_seq_spec Empty_set g fs (skipn (it_dot x + 1) (rhs_of g (it_rule x)) ++ [z])) as (T & HT & _).
  - apply fs_ok. apply Nat.ltb_lt in En. lia.
  - apply rhs_la_nts. apply la_symbols_lookahead, Dy. left; auto.
  - rewrite HT. cbn [bind]. eauto.
Qed.

Lemma expands_core : forall x x' y, item_ok x -> item_ok x' -> to_lr0 x = to_lr0 x' -> expands g n fs x y -> exists y', expands g n fs x' y' /\ to_lr0 y = to_lr0 y'.
Proof.
  intros x x' y Hx Hx' E [s k las la Hs Hk Hl Hla].
  destruct (determine_ok_core x x' las Hx Hx' E Hl) as [las' Hl'].
  assert (exists la', In la' las') as [la' Hla'].
  { pose proof (lookaheads_spec x las Hx Hl la) as [HS _]. specialize (HS Hla). pose proof (lookaheads_spec x' las' Hx' Hl') as HS'.
    assert (rest_of x' = rest_of x) as Er by (apply to_lr0_fields in E; destruct E as [E1 E2]; unfold rest_of; rewrite E1, E2; auto). rewrite Er in HS'.
    destruct HS as [[E0 ->]|(E1 & z & w & Hz & -> & Hlz & HH)].
    - exists []. apply HS'. left; auto.
    - assert (exists z', it_la x' = [z'] /\ lookahead z') as (z' & Hz' & Hlz').
      { pose proof (ik_len x' Hx') as L. pose proof (ik_la x' Hx') as LA. rewrite E1 in L. destruct (it_la x') as [|z' [|]]; try discriminate.
        exists z'. split; auto. apply la_symbols_lookahead, LA. left; auto. }
      destruct HH as [HH|[HH _]].
      + exists [w]. apply HS'. right. split; auto. exists z', w. auto 10.
      + exists [z']. apply HS'. right. split; auto. exists z', z'. auto 10. }
  exists (init_item g k la'). split; [|reflexivity]. econstructor; eauto. rewrite <- (core_symbol x x'); auto.
Qed.

Lemma clo_core : forall x x' y, item_ok x -> item_ok x' -> to_lr0 x = to_lr0 x' -> clo g n fs x y -> exists y', clo g n fs x' y' /\ to_lr0 y = to_lr0 y'.
Proof.
  intros x x' y Hx Hx' E H. induction H as [|y z Hy IH Hz].
  - exists x'. split; auto. constructor.
  - destruct IH as (y' & Hy' & Ey). destruct (expands_core y y' z) as (z' & Hz' & Ez); auto.
    + apply (clo_ok x y); auto.
    + apply (clo_ok x' y'); auto.
    + exists z'. split; auto. eapply clo_step; eauto.
Qed.

Lemma trans_core : forall S S' s c, all_ok S -> all_ok S' -> (forall c, core_of (fun x => In x S) c -> core_of (fun x => In x S') c) ->
  core_of (trans S s) c -> core_of (trans S' s) c.
Proof.
  intros S S' s c HS HS' H (y & (it & (A & B & C) & D) & <-). destruct (H (to_lr0 it)) as (it' & A' & E'); [exists it; auto|].
  destruct (clo_core (adv it) (adv it') y) as (y' & Hy' & Ey); auto.
  - eapply adv_ok; eauto.
  - eapply adv_ok; [apply HS'; auto|]. rewrite (core_symbol it' it); eauto.
  - apply adv_core. auto.
  - exists y'. split; [|auto]. exists it'. split; auto. split; auto. split; [rewrite (core_symbol it' it); auto|].
    apply to_lr0_fields in E'. destruct E' as [E1 _]. rewrite E1. auto.
Qed.

(** ** The transitions of a state *)

Definition tm_ok (l : list item) (tm : list (symbol * list item)) : Prop :=
  msorted tm /\ forall s, match map_get s tm with
  | Some T => sorted T /\ (forall x, In x T <-> trans l s x) /\ (exists it, moves l s it) /\ forall x, In x T -> fine g n fs x
  | None => forall it, ~ moves l s it
  end.

Lemma advance_dot_spec : forall it s it', symbol_after_dot g it = Some s -> advance_dot g it = Ok it' -> it' = adv it.
Proof using Type. clear n_le fs_ok.
  intros it s it' Hs H. unfold advance_dot in H. unfold symbol_after_dot in Hs. apply nth_error_lt in Hs.
  destruct (it_dot it <? length (rhs_of g (it_rule it))) eqn:E; [|apply Nat.ltb_ge in E; lia]. inv_bind H. injection H as <-.
  unfold add_u8 in Hb. destruct (it_dot it + 1 <? 256); [|discriminate]. injection Hb as <-. unfold adv. f_equal. lia.
Qed.

Lemma moves_snoc : forall l it s x, moves (l ++ [it]) s x <-> moves l s x \/ (x = it /\ symbol_after_dot g it = Some s /\ lhs_of g (it_rule it) <> None).
Proof using Type. clear n_le fs_ok.
  intros l it s x. unfold moves. rewrite in_app_iff. simpl. split.
  - intros [[A|[->|[]]] B]; auto.
  - intros [[A B]|[-> B]]; auto.
Qed.

Lemma trans_snoc : forall l it s x, trans (l ++ [it]) s x <-> trans l s x \/ (symbol_after_dot g it = Some s /\ lhs_of g (it_rule it) <> None /\ clo g n fs (adv it) x).
Proof using Type. clear n_le fs_ok.
  intros l it s x. unfold trans. split.
  - intros (y & Hy & Hc). apply moves_snoc in Hy. destruct Hy as [Hy|(-> & A & B)]; [left; eauto|right; auto].
  - intros [(y & Hy & Hc)|(A & B & C)]; [exists y|exists it]; (split; [apply moves_snoc|]; auto).
Qed.

Lemma item_transition_step : forall efuel l tm it tm', tm_ok l tm -> item_transition efuel g n fs tm it = Ok tm' -> tm_ok (l ++ [it]) tm'.
Proof using Type. clear n_le fs_ok.
  intros efuel l tm it tm' [H1 H2] H. unfold item_transition in H.
  assert ((symbol_after_dot g it = None \/ lhs_of g (it_rule it) = None) -> tm' = tm -> tm_ok (l ++ [it]) tm') as Hno.
  { intros HN ->. split; auto. intros s. specialize (H2 s). destruct (map_get s tm) as [T|].
    - destruct H2 as (A & B & (y & C) & F). split; auto. split.
      + intros x. rewrite B, trans_snoc. split; [auto|]. intros [?|(X & Y & _)]; auto. destruct HN; congruence.
      + split; auto. exists y. apply moves_snoc. auto.
    - intros y Hy. apply moves_snoc in Hy. destruct Hy as [Hy|(-> & X & Y)]; [eapply H2; eauto|destruct HN; congruence]. }
  destruct (symbol_after_dot g it) as [s|] eqn:Es; [|injection H as <-; auto].
  destruct (lhs_of g (it_rule it)) as [i|] eqn:El; [|injection H as <-; auto].
  clear Hno. inv_bind H. inv_bind H. injection H as <-. apply (advance_dot_spec it s) in Hb; auto. subst a.
  apply expand_item_spec in Hb0. destruct Hb0 as (Ss & HC & HF). split; [apply map_insert_sorted; auto|].
  intros s'. rewrite map_get_insert by auto. pose proof (H2 s') as H2s'. destruct (cmp_dec s' s) as [->|Hne].
  - assert (sorted (get_or_empty s tm) /\ (forall x, In x (get_or_empty s tm) <-> trans l s x) /\ forall x, In x (get_or_empty s tm) -> fine g n fs x) as (G1 & G2 & G3).
    { unfold get_or_empty. destruct (map_get s tm) as [T|]; [tauto|]. split; [constructor|]. split; [|intros x []]. intros x. split; [intros []|].
      intros (y & Hy & _). destruct (H2s' _ Hy). }
    split; [apply set_union_sorted; auto|]. split.
    + intros x. rewrite set_union_In, G2, trans_snoc, HC. split; [intros [?|?]; auto; right; repeat split; auto; congruence|intros [?|(_ & _ & ?)]; auto].
    + split; [exists it; apply moves_snoc; right; split; auto; split; auto; congruence|].
      intros x Hx. apply set_union_In in Hx. destruct Hx; auto.
  - destruct (map_get s' tm) as [T|].
    + destruct H2s' as (A & B & (y & C) & F). split; auto. split; [|split; [exists y; apply moves_snoc; auto|auto]].
      intros x. rewrite B, trans_snoc. split; auto. intros [?|(X & _)]; auto. congruence.
    + intros y Hy. apply moves_snoc in Hy. destruct Hy as [Hy|(_ & X & _)]; [eapply H2s'; eauto|congruence].
Qed.

Lemma item_transitions_ok : forall efuel l2 l1 tm tm', tm_ok l1 tm -> foldM (item_transition efuel g n fs) l2 tm = Ok tm' -> tm_ok (l1 ++ l2) tm'.
Proof using Type. clear n_le fs_ok.
  intros efuel l2. induction l2 as [|it l2 IH]; intros l1 tm tm' Hok H; cbn [foldM] in H.
  - injection H as <-. rewrite app_nil_r. auto.
  - inv_bind H. replace (l1 ++ it :: l2) with ((l1 ++ [it]) ++ l2) by (rewrite <- app_assoc; auto). eapply IH; [|exact H]. eapply item_transition_step; eauto.
Qed.

Lemma tm_ok_nil : tm_ok [] [].
Proof using Type. clear n_le fs_ok. split; [apply msorted_nil|]. intros s it (A & _). destruct A. Qed.

Lemma transitions_spec : forall efuel set tm, foldM (item_transition efuel g n fs) set [] = Ok tm -> tm_ok set tm.
Proof using Type. clear n_le fs_ok. intros efuel set tm H. eapply (item_transitions_ok efuel set []); eauto. apply tm_ok_nil. Qed.

End LRItems.
