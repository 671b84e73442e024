(** Conflicts and the cells of the action/goto table. *)
From Coq Require Import String List Arith NArith Bool Lia.
From Verif Require Import Base InputModel GrammarModel GrammarSpec GrammarProof LLModel LLSpec SententialProof SetsProof FirstProof LRModel LRSpec BidiProof ItemProof LRItemsProof LRGraphProof AutomatonProof.
Import ListNotations.
Local Open Scope nat_scope.
Local Open Scope list_scope.

Definition sym_in (s : symbol) (l : list symbol) : {In s l} + {~ In s l} := in_dec cmp_dec s l.

(** ** Tables as functions *)

Definition cell (tb : lr_table) (q : nat) (s : symbol) : list table_entry := get_or_empty (q, s) (tb_entries tb).
Definition tb_ok (tb : lr_table) : Prop := msorted (tb_entries tb) /\ forall k, map_get k (tb_entries tb) <> Some [].

Lemma get_entry_cell : forall tb q s, tb_ok tb -> get_entry tb q s = match cell tb q s with [] => None | l => Some l end.
Proof.
  intros tb q s [_ H]. unfold get_entry, cell, get_or_empty. destruct (map_get (q, s) (tb_entries tb)) as [[|e l]|] eqn:E; auto. destruct (H _ E).
Qed.

Lemma push_ok : forall q s e tb, tb_ok tb -> tb_ok (push_entry q s e tb).
Proof.
  intros q s e tb [H1 H2]. split; unfold push_entry; cbn [tb_entries]; [apply map_insert_sorted; auto|].
  intros k. rewrite map_get_insert by auto. destruct (cmp_dec k (q, s)); [|apply H2]. intros [= X]. destruct (get_or_empty (q, s) (tb_entries tb)); discriminate.
Qed.

Lemma push_cell : forall q s e tb q' s', tb_ok tb ->
  cell (push_entry q s e tb) q' s' = cell tb q' s' ++ (if cmp_dec q' q then if cmp_dec s' s then [e] else [] else []).
Proof.
  intros q s e tb q' s' [H1 _]. unfold cell, push_entry. cbn [tb_entries]. unfold get_or_empty at 1. rewrite map_get_insert by auto.
  destruct (cmp_dec (q', s') (q, s)) as [[= -> ->]|Hne].
  - destruct (cmp_dec q q) as [_|]; [|congruence]. destruct (cmp_dec s s) as [_|]; [|congruence]. reflexivity.
  - destruct (cmp_dec q' q) as [->|]; [|rewrite app_nil_r; reflexivity]. destruct (cmp_dec s' s) as [->|]; [congruence|]. rewrite app_nil_r; reflexivity.
Qed.

Lemma push_all_cell : forall q e cols tb, tb_ok tb -> NoDup cols ->
  let tb' := fold_left (fun tb s => push_entry q s e tb) cols tb in
  tb_ok tb' /\ tb_states tb' = tb_states tb /\ tb_entry tb' = tb_entry tb /\
  forall q' s', cell tb' q' s' = cell tb q' s' ++ (if cmp_dec q' q then if sym_in s' cols then [e] else [] else []).
Proof.
  intros q e cols. induction cols as [|s cols IH]; intros tb Hok Hn; cbn [fold_left].
  - split; auto. split; auto. split; auto. intros q' s'. destruct (cmp_dec q' q); [|rewrite app_nil_r; auto]. destruct (sym_in s' []) as [[]|]. rewrite app_nil_r; auto.
  - inversion Hn as [|? ? Hs Hn']; subst. destruct (IH (push_entry q s e tb) (push_ok _ _ _ _ Hok) Hn') as (A & B & C & D). split; auto. split; auto. split; auto.
    intros q' s'. rewrite D, push_cell by auto. rewrite <- app_assoc. f_equal. destruct (cmp_dec q' q); auto.
    destruct (cmp_dec s' s) as [->|Hne].
    + destruct (sym_in s cols); [contradiction|]. destruct (sym_in s (s :: cols)) as [_|X]; auto. destruct X. left; auto.
    + destruct (sym_in s' cols) as [X|X], (sym_in s' (s :: cols)) as [Y|Y]; auto; [destruct Y; right; auto|destruct Y; [congruence|contradiction]].
Qed.

Section LRTable.
Variable g : grammar.
Hypothesis wf : wf_grammar g.
Variable n : nat.
Hypothesis n_le : n <= 1.

Definition columns : list symbol := all_symbols g ++ [End].

Lemma end_not_symbol : ~ In End (all_symbols g).
Proof using wf.
  intros H. unfold all_symbols in H. apply in_app_or in H. destruct H as [H|H]; [apply (wf_ts g wf) in H; destruct H; discriminate|apply (wf_nts g wf) in H; destruct H; discriminate].
Qed.

Lemma columns_nodup : NoDup columns.
Proof using wf. apply NoDup_app_intro; [apply (wf_symbols g wf)|constructor; [intros []|constructor]|]. intros x Hx [<-|[]]. exact (end_not_symbol Hx). Qed.

(** ** Reductions *)

Definition red1 (s : symbol) (it : item) : list table_entry :=
  match symbol_after_dot g it with
  | Some _ => []
  | None => if n =? 0 then if sym_in s columns then [Reduce (it_rule it)] else [] else if cmp_dec (it_la it) [s] then [Reduce (it_rule it)] else []
  end.
Definition reduces (S : list item) (s : symbol) : list table_entry := flat_map (red1 s) S.

Lemma table_reduce_cell : forall q tb it, tb_ok tb -> item_ok g n it ->
  exists tb', table_reduce g n q tb it = Ok tb' /\ tb_ok tb' /\ tb_states tb' = tb_states tb /\ tb_entry tb' = tb_entry tb /\
  forall q' s', cell tb' q' s' = cell tb q' s' ++ (if cmp_dec q' q then red1 s' it else []).
Proof.
  intros q tb it Hok Hit. unfold table_reduce, red1. destruct (symbol_after_dot g it).
  - exists tb. split; auto. split; auto. split; auto. split; auto. intros. destruct (cmp_dec q' q); rewrite app_nil_r; auto.
  - assert (n = 0 \/ n = 1) as [E|E] by lia; rewrite E; cbn [Nat.eqb].
    + destruct (push_all_cell q (Reduce (it_rule it)) columns tb Hok columns_nodup) as (A & B & C & D). eexists. split; [reflexivity|]. auto.
    + pose proof (ik_len _ _ _ Hit) as L. rewrite E in L. destruct (it_la it) as [|x [|]]; try discriminate. eexists. split; [reflexivity|].
      split; [apply push_ok; auto|]. split; auto. split; auto. intros q' s'. rewrite push_cell by auto. f_equal. destruct (cmp_dec q' q); auto.
      destruct (cmp_dec s' x) as [->|Hne].
      * destruct (cmp_dec [x] [x]); congruence.
      * destruct (cmp_dec [x] [s']); congruence.
Qed.

Lemma table_reduces_cell : forall q S tb, tb_ok tb -> all_ok g n S ->
  exists tb', foldM (table_reduce g n q) S tb = Ok tb' /\ tb_ok tb' /\ tb_states tb' = tb_states tb /\ tb_entry tb' = tb_entry tb /\
  forall q' s', cell tb' q' s' = cell tb q' s' ++ (if cmp_dec q' q then reduces S s' else []).
Proof.
  intros q S. induction S as [|it S IH]; intros tb Hok HS; cbn [foldM].
  - exists tb. split; auto. split; auto. split; auto. split; auto. intros. destruct (cmp_dec q' q); rewrite app_nil_r; auto.
  - destruct (table_reduce_cell q tb it Hok) as (tb1 & E1 & A & B & C & D); [apply HS; left; auto|]. rewrite E1. cbn [bind].
    destruct (IH tb1 A) as (tb2 & E2 & A2 & B2 & C2 & D2); [intros x Hx; apply HS; right; auto|]. exists tb2. split; auto. split; auto. split; [congruence|]. split; [congruence|].
    intros q' s'. rewrite D2, D, <- app_assoc. f_equal. destruct (cmp_dec q' q); auto.
Qed.

(** ** The other entries *)

Section Graph.
Variable pg : lr_graph.

Definition target_of (q : nat) (s : symbol) : option nat := map_get s (reachable_states pg q).

Definition column_tail (q : nat) (r : list table_entry) (s : symbol) : list table_entry :=
  if sym_in s (all_symbols g) then
    if eqc s (g_entry g) && (q =? 0) then [Accept]
    else match target_of q s with
         | Some t => [Shift t]
         | None => match r with [] => [Error] | _ => [] end
         end
  else [].

Lemma table_columns_cell : forall q cols tb, tb_ok tb -> NoDup cols -> incl cols (all_symbols g) ->
  let tb' := fold_left (table_column g 0 q (reachable_states pg q)) cols tb in
  tb_ok tb' /\ tb_states tb' = tb_states tb /\ tb_entry tb' = tb_entry tb /\
  forall q' s', cell tb' q' s' = cell tb q' s' ++ (if cmp_dec q' q then if sym_in s' cols then column_tail q (cell tb q s') s' else [] else []).
Proof.
  intros q cols. induction cols as [|s cols IH]; intros tb Hok Hn Hi; cbn [fold_left].
  - split; auto. split; auto. split; auto. intros q' s'. destruct (cmp_dec q' q); [|rewrite app_nil_r; auto]. destruct (sym_in s' []) as [[]|]. rewrite app_nil_r; auto.
  - inversion Hn as [|? ? Hs Hn']; subst.
    assert (let tb1 := table_column g 0 q (reachable_states pg q) tb s in tb_ok tb1 /\ tb_states tb1 = tb_states tb /\ tb_entry tb1 = tb_entry tb /\
      forall q' s', cell tb1 q' s' = cell tb q' s' ++ (if cmp_dec q' q then if cmp_dec s' s then column_tail q (cell tb q s) s else [] else [])) as HC.
    { cbn zeta. unfold column_tail. destruct (sym_in s (all_symbols g)) as [_|X]; [|destruct X; apply Hi; left; auto].
      unfold table_column. fold (target_of q s). destruct (eqc s (g_entry g) && (q =? 0)).
      { split; [apply push_ok; auto|]. split; auto. split; auto. intros. apply push_cell; auto. }
      destruct (target_of q s) as [t|].
      { split; [apply push_ok; auto|]. split; auto. split; auto. intros. apply push_cell; auto. }
      rewrite get_entry_cell by auto. destruct (cell tb q s) as [|e l] eqn:Ec.
      { split; [apply push_ok; auto|]. split; auto. split; auto. intros. apply push_cell; auto. }
      split; auto. split; auto. split; auto. intros. destruct (cmp_dec q' q); [destruct (cmp_dec s' s)|]; rewrite app_nil_r; auto. }
    cbn zeta in HC. destruct HC as (A & B & C & D).
    destruct (IH _ A Hn') as (A2 & B2 & C2 & D2); [intros x Hx; apply Hi; right; auto|]. split; auto. split; [congruence|]. split; [congruence|].
    intros q' s'. rewrite D2, !D. rewrite <- app_assoc. f_equal. destruct (cmp_dec q' q); auto.
    destruct (cmp_dec q q) as [_|X]; [|congruence].
    destruct (cmp_dec s' s) as [->|Hne].
    + destruct (sym_in s cols); [contradiction|]. rewrite app_nil_r. destruct (sym_in s (s :: cols)) as [_|X]; auto. destruct X. left; auto.
    + rewrite app_nil_r. destruct (sym_in s' cols) as [X|X], (sym_in s' (s :: cols)) as [Y|Y]; auto; [destruct Y; right; auto|destruct Y; [congruence|contradiction]].
Qed.

Definition cell_list (q : nat) (S : list item) (s : symbol) : list table_entry := reduces S s ++ column_tail q (reduces S s) s.

Lemma column_tail_out : forall q r s, ~ In s (all_symbols g) -> column_tail q r s = [].
Proof. intros q r s H. unfold column_tail. destruct (sym_in s (all_symbols g)); [contradiction|reflexivity]. Qed.

Lemma table_state_cell : forall q S tb, tb_ok tb -> all_ok g n S -> (forall s, cell tb q s = []) ->
  exists tb', table_state g pg n 0 tb (S, q) = Ok tb' /\ tb_ok tb' /\ tb_states tb' = tb_states tb /\ tb_entry tb' = tb_entry tb /\
  (forall s, cell tb' q s = cell_list q S s) /\ forall q' s, q' <> q -> cell tb' q' s = cell tb q' s.
Proof.
  intros q S tb Hok HS H0. unfold table_state. cbn [fst snd]. destruct (table_reduces_cell q S tb Hok HS) as (tb1 & E1 & A & B & C & D). rewrite E1. cbn [bind].
  destruct (table_columns_cell q (all_symbols g) tb1 A (wf_symbols g wf) (incl_refl _)) as (A2 & B2 & C2 & D2). eexists. split; [reflexivity|].
  split; auto. split; [congruence|]. split; [congruence|]. split.
  - intros s. rewrite D2, D. destruct (cmp_dec q q) as [_|]; [|congruence]. rewrite H0. cbn [app]. unfold cell_list. f_equal.
    destruct (sym_in s (all_symbols g)); auto. rewrite column_tail_out; auto.
  - intros q' s Hne. rewrite D2, D. destruct (cmp_dec q' q); [contradiction|]. rewrite !app_nil_r. auto.
Qed.

Lemma build_states_cell : forall l tb, tb_ok tb -> (forall S q, In (S, q) l -> all_ok g n S) -> NoDup (map snd l) -> (forall q s, In q (map snd l) -> cell tb q s = []) ->
  exists tb', foldM (table_state g pg n 0) l tb = Ok tb' /\ tb_ok tb' /\ tb_states tb' = tb_states tb /\ tb_entry tb' = tb_entry tb /\
  (forall S q s, In (S, q) l -> cell tb' q s = cell_list q S s) /\ forall q s, ~ In q (map snd l) -> cell tb' q s = cell tb q s.
Proof.
  induction l as [|[S q] l IH]; intros tb Hok HS Hn H0; cbn [foldM].
  - exists tb. split; auto. split; auto. split; auto. split; auto. split; [intros S q s []|auto].
  - cbn [map snd] in Hn. inversion Hn as [|? ? Hq Hn']; subst.
    destruct (table_state_cell q S tb Hok) as (tb1 & E1 & A & B & C & D & F); [apply (HS S q); left; auto|intros s; apply H0; left; auto|]. rewrite E1. cbn [bind].
    destruct (IH tb1 A) as (tb2 & E2 & A2 & B2 & C2 & D2 & F2); auto.
    + intros S' q' Hin. apply (HS S' q'). right; auto.
    + intros q' s Hin. rewrite F by (intros ->; contradiction). apply H0. right; auto.
    + exists tb2. split; auto. split; auto. split; [congruence|]. split; [congruence|]. split.
      * intros S' q' s [E|Hin]; [|apply D2; auto]. injection E as <- <-. rewrite F2; auto.
      * intros q' s Hin. rewrite F2; [apply F|]; intros X; apply Hin; [subst; left; auto|right; auto].
Qed.

(** ** Conflicts of a state *)

Definition reducing_on (la : list symbol) (it : item) : bool := match symbol_after_dot g it with None => if cmp_dec (it_la it) la then true else false | Some _ => false end.

Lemma reducing_on_true : forall la it, reducing_on la it = true <-> symbol_after_dot g it = None /\ it_la it = la.
Proof. intros la it. unfold reducing_on. destruct (symbol_after_dot g it); [split; [discriminate|intros [? _]; discriminate]|]. destruct (cmp_dec (it_la it) la); split; auto; [discriminate|intros [_ ?]; contradiction]. Qed.

Lemma reducing_items_acc : forall S m l, msorted m -> (forall la, get_or_empty la m = filter (reducing_on la) l) -> (forall la, map_get la m <> Some []) ->
  let m' := fold_left (add_reducing g) S m in
  msorted m' /\ (forall la, get_or_empty la m' = filter (reducing_on la) (l ++ S)) /\ forall la, map_get la m' <> Some [].
Proof.
  induction S as [|it S IH]; intros m l Hm Hg Hne; cbn [fold_left]; [rewrite app_nil_r; auto|].
  replace (l ++ it :: S) with ((l ++ [it]) ++ S) by (rewrite <- app_assoc; reflexivity). apply IH.
  - unfold add_reducing. destruct (symbol_after_dot g it); auto. apply map_insert_sorted; auto.
  - intros la. rewrite filter_app. simpl. unfold add_reducing, reducing_on at 2. destruct (symbol_after_dot g it); [rewrite app_nil_r; auto|].
    unfold get_or_empty at 1. rewrite map_get_insert by auto. rewrite Hg. destruct (cmp_dec la (it_la it)) as [->|Hn].
    + destruct (cmp_dec (it_la it) (it_la it)); congruence.
    + destruct (cmp_dec (it_la it) la); [congruence|]. rewrite app_nil_r. apply Hg.
  - intros la. unfold add_reducing. destruct (symbol_after_dot g it); auto. rewrite map_get_insert by auto. destruct (cmp_dec la (it_la it)); auto.
    destruct (get_or_empty (it_la it) m); discriminate.
Qed.

Lemma reducing_items_spec : forall S, msorted (reducing_items g S) /\
  forall la items, In (la, items) (reducing_items g S) <-> items = filter (reducing_on la) S /\ items <> [].
Proof.
  intros S. destruct (reducing_items_acc S [] [] msorted_nil) as (A & B & C); [reflexivity|discriminate|]. cbn [app] in B. split; [exact A|].
  intros la items. unfold reducing_items. rewrite <- (map_get_In la items _ A). specialize (B la). unfold get_or_empty in B. specialize (C la).
  destruct (map_get la (fold_left (add_reducing g) S [])) as [l|]; split.
  - intros [= ->]. split; auto. congruence.
  - intros [-> _]. congruence.
  - discriminate.
  - intros [-> H]. congruence.
Qed.

(** The conflicts which have to be reported. *)
Inductive conflict_of (q : nat) (S : list item) : conflict -> Prop :=
| co_shift : forall it s t, In it S -> symbol_after_dot g it = None -> (forall it', In it' S -> symbol_after_dot g it' = None -> it_la it' = it_la it -> it' = it) ->
    In (q, s, t) (lg_edges pg) -> (n = 1 -> it_la it = [s]) -> conflict_of q S (ShiftReduce q (to_lr0 it) s)
| co_reduce : forall la it it', filter (reducing_on la) S = it :: it' -> it' <> [] -> conflict_of q S (ReduceReduce q (map to_lr0 (it :: it'))).

Lemma out_edges_In : forall q s t, In (s, t) (out_edges pg q) <-> In (q, s, t) (lg_edges pg).
Proof.
  intros q s t. unfold out_edges. rewrite in_map_iff. split.
  - intros (((q', s'), t') & E & H). apply filter_In in H. cbn [fst snd] in *. destruct H as [H1 H2]. apply Nat.eqb_eq in H2. injection E as -> ->. subst. auto.
  - intros H. exists (q, s, t). split; auto. apply filter_In. split; auto. cbn [fst]. apply Nat.eqb_refl.
Qed.

Lemma filter_single : forall A (f : A -> bool) l a, NoDup l -> (filter f l = [a] <-> In a l /\ f a = true /\ forall b, In b l -> f b = true -> b = a).
Proof.
  intros A f l a Hn. split.
  - intros H. assert (In a (filter f l)) as Ha by (rewrite H; left; auto). apply filter_In in Ha. destruct Ha as [H1 H2]. split; auto. split; auto.
    intros b Hb Hf. assert (In b (filter f l)) as X by (apply filter_In; auto). rewrite H in X. destruct X as [->|[]]; auto.
  - intros (H1 & H2 & H3). assert (forall l', NoDup l' -> (forall b, In b l' -> b = a) -> In a l' -> l' = [a]) as X.
    { intros l' Hn' Hall Hin. destruct l' as [|x l']; [destruct Hin|]. assert (x = a) as -> by (apply Hall; left; auto). destruct l' as [|y l']; auto.
      assert (y = a) as -> by (apply Hall; right; left; auto). inversion Hn'; subst. destruct H4. left; auto. }
    apply X; [apply NoDup_filter; auto| |apply filter_In; auto]. intros b Hb. apply filter_In in Hb. apply H3; tauto.
Qed.

Lemma lookahead_conflicts_spec : forall q S la items cs, sorted S -> all_ok g n S -> sorted cs -> In (la, items) (reducing_items g S) ->
  exists cs', lookahead_conflicts pg n q cs (la, items) = Ok cs' /\ sorted cs' /\
  forall c, In c cs' <-> In c cs \/
    (exists it s t, items = [it] /\ In (q, s, t) (lg_edges pg) /\ (n = 1 -> la = [s]) /\ c = ShiftReduce q (to_lr0 it) s) \/
    (exists it it', items = it :: it' /\ it' <> [] /\ c = ReduceReduce q (map to_lr0 (it :: it'))).
Proof.
  intros q S la items cs HsS HS Hcs Hin. apply (proj2 (reducing_items_spec S)) in Hin. destruct Hin as [Hitems Hne].
  unfold lookahead_conflicts. destruct items as [|it [|it2 items]]; [contradiction| |].
  - assert (In it (filter (reducing_on la) S)) as Hit by (rewrite <- Hitems; left; auto). apply filter_In in Hit. destruct Hit as [Hit Hr]. apply reducing_on_true in Hr.
    destruct Hr as [Hr Hla]. pose proof (ik_len _ _ _ (HS it Hit)) as L.
    set (f := fun (cs0 : list conflict) (edge : symbol * nat) => _). 
    assert (forall edges cs, sorted cs -> exists cs', foldM f edges cs = Ok cs' /\ sorted cs' /\
      forall c, In c cs' <-> In c cs \/ exists s t, In (s, t) edges /\ (n = 1 -> la = [s]) /\ c = ShiftReduce q (to_lr0 it) s) as HF.
    { induction edges as [|[s t] edges IH]; intros cs0 Hs0; cbn [foldM].
      - exists cs0. split; auto. split; auto. intros c. split; auto. intros [?|(s & t & [] & _)]; auto.
      - assert (exists cs1, f cs0 (s, t) = Ok cs1 /\ sorted cs1 /\ forall c, In c cs1 <-> In c cs0 \/ ((n = 1 -> la = [s]) /\ c = ShiftReduce q (to_lr0 it) s)) as (cs1 & E1 & S1 & I1).
        { unfold f. cbn [fst]. replace (1 <? n) with false by (symmetry; apply Nat.ltb_ge; lia). assert (n = 0 \/ n = 1) as [E|E] by lia; rewrite E; cbn [Nat.eqb].
          - eexists. split; [reflexivity|]. split; [apply set_insert_sorted; auto|]. intros c. rewrite set_insert_In. split.
            + intros [->|?]; auto. right. split; auto. discriminate.
            + intros [?|[_ ->]]; auto.
          - rewrite E in L. rewrite <- Hla. destruct (it_la it) as [|x [|]]; try discriminate. destruct (eqc x s) eqn:Ex.
            + apply eqc_true in Ex. subst x. eexists. split; [reflexivity|]. split; [apply set_insert_sorted; auto|]. intros c. rewrite set_insert_In. split.
              * intros [->|?]; auto.
              * intros [?|[_ ->]]; auto.
            + apply eqc_false in Ex. eexists. split; [reflexivity|]. split; auto. intros c. split; auto. intros [?|[X _]]; auto. specialize (X eq_refl). congruence. }
        rewrite E1. cbn [bind]. destruct (IH cs1 S1) as (cs2 & E2 & S2 & I2). exists cs2. split; auto. split; auto. intros c. rewrite I2, I1. split.
        + intros [[?|[X ->]]|(s' & t' & X & Y & ->)]; auto; right; [exists s, t|exists s', t']; simpl; auto.
        + intros [?|(s' & t' & [X|X] & Y & ->)]; auto; [injection X as -> ->; auto|]. right. exists s', t'. auto. }
    destruct (HF (out_edges pg q) cs Hcs) as (cs' & E & Scs' & I). exists cs'. split; auto. split; auto. intros c. rewrite I. split.
    + intros [?|(s & t & X & Y & Z)]; auto. right; left. exists it, s, t. apply out_edges_In in X. auto.
    + intros [?|[(it0 & s & t & [= <-] & X & Y & Z)|(it0 & it1 & [= <- <-] & X & _)]]; auto; [|contradiction]. right. exists s, t. apply out_edges_In in X. auto.
  - eexists. split; [reflexivity|]. split; [apply set_insert_sorted; auto|]. intros c. rewrite set_insert_In. split.
    + intros [->|?]; auto. right; right. exists it, (it2 :: items). split; auto. split; [discriminate|auto].
    + intros [?|[(it0 & s & t & X & _)|(it0 & it1 & [= <- <-] & X & ->)]]; auto. discriminate.
Qed.

Lemma state_conflicts_spec : forall q S cs, sorted S -> all_ok g n S -> sorted cs ->
  exists cs', state_conflicts g pg n cs (S, q) = Ok cs' /\ sorted cs' /\ forall c, In c cs' <-> In c cs \/ conflict_of q S c.
Proof.
  intros q S cs HsS HS Hcs. unfold state_conflicts. cbn [fst snd].
  assert (forall l cs, incl l (reducing_items g S) -> sorted cs -> exists cs', foldM (lookahead_conflicts pg n q) l cs = Ok cs' /\ sorted cs' /\
    forall c, In c cs' <-> In c cs \/ exists la items, In (la, items) l /\
      ((exists it s t, items = [it] /\ In (q, s, t) (lg_edges pg) /\ (n = 1 -> la = [s]) /\ c = ShiftReduce q (to_lr0 it) s) \/
       (exists it it', items = it :: it' /\ it' <> [] /\ c = ReduceReduce q (map to_lr0 (it :: it'))))) as HF.
  { induction l as [|[la items] l IH]; intros cs0 Hl Hs0; cbn [foldM].
    - exists cs0. split; auto. split; auto. intros c. split; auto. intros [?|(la & items & [] & _)]; auto.
    - destruct (lookahead_conflicts_spec q S la items cs0 HsS HS Hs0) as (cs1 & E1 & S1 & I1); [apply Hl; left; auto|]. rewrite E1. cbn [bind].
      destruct (IH cs1) as (cs2 & E2 & S2 & I2); auto; [intros x Hx; apply Hl; right; auto|]. exists cs2. split; auto. split; auto. intros c. rewrite I2, I1. split.
      + intros [[?|X]|(la' & items' & X & Y)]; auto; right; [exists la, items|exists la', items']; (split; [simpl; auto|exact X || exact Y]).
      + intros [?|(la' & items' & [X|X] & Y)]; auto; [injection X as <- <-; auto|]. right. exists la', items'. auto. }
  destruct (HF (reducing_items g S) cs (incl_refl _) Hcs) as (cs' & E & Scs & I). exists cs'. split; auto. split; auto. intros c. rewrite I.
  pose proof (proj2 (reducing_items_spec S)) as RS. pose proof (sorted_NoDup _ HsS) as Hnd. split; (intros [?|X]; [auto|right]).
  - destruct X as (la & items & Hin & [(it & s & t & -> & He & Hn & ->)|(it & it' & -> & Hne & ->)]); apply RS in Hin; destruct Hin as [Hin _].
    + symmetry in Hin. apply filter_single in Hin; auto. destruct Hin as (A & B & C). apply reducing_on_true in B. destruct B as [B1 B2].
      eapply co_shift; eauto.
      * intros it' H1 H2 H3. apply C; auto. apply reducing_on_true. split; auto. congruence.
      * intros E1. rewrite B2. auto.
    + apply (co_reduce q S la it it'); auto.
  - destruct X as [it s t A B C D F|la it it' A B].
    + exists (it_la it), [it]. split.
      * apply RS. split; [|discriminate]. symmetry. apply filter_single; auto. split; auto. split; [apply reducing_on_true; auto|].
        intros b Hb Hr. apply reducing_on_true in Hr. apply C; tauto.
      * left. exists it, s, t. auto.
    + exists la, (it :: it'). split; [apply RS; split; [auto|discriminate]|]. right. exists it, it'. auto.
Qed.

Lemma find_conflicts_spec : (forall S q, In (S, q) (bidi_iter (lg_map pg)) -> sorted S /\ all_ok g n S) ->
  exists cs, find_conflicts g pg n = Ok cs /\ sorted cs /\ forall c, In c cs <-> exists S q, In (S, q) (bidi_iter (lg_map pg)) /\ conflict_of q S c.
Proof.
  intros H. unfold find_conflicts.
  assert (forall l cs, (forall S q, In (S, q) l -> sorted S /\ all_ok g n S) -> sorted cs -> exists cs', foldM (state_conflicts g pg n) l cs = Ok cs' /\ sorted cs' /\
    forall c, In c cs' <-> In c cs \/ exists S q, In (S, q) l /\ conflict_of q S c) as HF.
  { induction l as [|[S q] l IH]; intros cs Hl Hcs; cbn [foldM].
    - exists cs. split; auto. split; auto. intros c. split; auto. intros [?|(S & q & [] & _)]; auto.
    - destruct (Hl S q) as [A B]; [left; auto|]. destruct (state_conflicts_spec q S cs A B Hcs) as (cs1 & E1 & S1 & I1). rewrite E1. cbn [bind].
      destruct (IH cs1) as (cs2 & E2 & S2 & I2); auto; [intros S' q' Hin; apply (Hl S' q'); right; auto|]. exists cs2. split; auto. split; auto. intros c. rewrite I2, I1. split.
      + intros [[?|X]|(S' & q' & X & Y)]; auto; right; [exists S, q|exists S', q']; simpl; auto.
      + intros [?|(S' & q' & [X|X] & Y)]; auto; [injection X as <- <-; auto|]. right. eauto. }
  destruct (HF (bidi_iter (lg_map pg)) [] H (sorted_nil)) as (cs & A & B & C). exists cs. split; auto. split; auto. intros c. rewrite C. simpl. tauto.
Qed.

Lemma reachable_spec : forall q s t, (forall t', In (q, s, t') (lg_edges pg) -> In (q, s, t) (lg_edges pg) -> t' = t) -> (target_of q s = Some t <-> In (q, s, t) (lg_edges pg)).
Proof.
  intros q s t Hdet. unfold target_of, reachable_states.
  assert (forall l m, msorted m -> msorted (fold_left (fun m e => map_insert (fst e) (snd e) m) l m) /\
    match map_get s (fold_left (fun m (e : symbol * nat) => map_insert (fst e) (snd e) m) l m) with
    | Some t => In (s, t) l \/ map_get s m = Some t
    | None => map_get s m = None /\ forall t, ~ In (s, t) l
    end) as HF.
  { induction l as [|[s' t'] l IH]; intros m Hm; cbn [fold_left fst snd].
    - split; auto. destruct (map_get s m); auto.
    - destruct (IH (map_insert s' t' m) (map_insert_sorted _ _ _ Hm)) as [A B]. split; auto. revert B.
      destruct (map_get s (fold_left _ l (map_insert s' t' m))) as [x|]; rewrite map_get_insert by auto.
      + intros [?|B]; [left; right; auto|]. destruct (cmp_dec s s') as [->|]; auto. injection B as ->. left; left; auto.
      + destruct (cmp_dec s s') as [->|]; [intros [? _]; discriminate|]. intros [B1 B2]. split; auto. intros t0 [[= <- <-]|X]; [contradiction|apply (B2 _ X)]. }
  destruct (HF (out_edges pg q) [] msorted_nil) as [_ B]. destruct (map_get s _) as [x|].
  - destruct B as [B|B]; [|discriminate]. apply out_edges_In in B. split; [intros [= <-]; auto|]. intros H. f_equal. apply Hdet; auto.
  - destruct B as [_ B]. split; [discriminate|]. intros H. destruct (B t). apply out_edges_In. auto.
Qed.
End Graph.
End LRTable.
