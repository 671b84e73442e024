(** Symbol sets: sizes, invariants, and the fixpoint loop shared by FIRST and FOLLOW. *)
From Coq Require Import String List Arith NArith Bool Lia.
From Verif Require Import Base InputModel GrammarModel GrammarSpec LLModel LLSpec.
Import ListNotations.
Local Open Scope nat_scope.

(** ** Sizes *)

Definition size (fs : symbol_sets) : nat := list_sum (map (fun p => length (snd p)) fs).

Lemma set_insert_length : forall A `{Cmp A} (a : A) s, sorted s -> ~ In a s -> length (set_insert a s) = S (length s).
Proof.
  intros A CA a s. induction s as [|b s IH]; intros Hs Hn; simpl; auto.
  destruct (cmp a b) eqn:E; simpl; auto.
  - apply cmp_eq in E. subst. exfalso. apply Hn. left; auto.
  - rewrite IH; auto; [|intros H; apply Hn; right; auto]. inversion Hs; auto.
Qed.

Lemma insert_all_spec : forall new set any set' any', sorted set -> insert_all set new any = (set', any') ->
  sorted set' /\ (forall x, In x set' <-> In x set \/ In x new) /\
  ((any' = any /\ set' = set) \/ (any' = true /\ length set < length set')).
Proof.
  induction new as [|s new IH]; intros set any set' any' Hs H; unfold insert_all in H; simpl in H.
  - injection H as <- <-. split; auto. split; [|left; auto]. intros x. split; auto. intros [?|[]]; auto.
  - change (insert_all (set_insert s set) new (any || negb (set_mem s set)) = (set', any')) in H.
    apply IH in H; [|apply set_insert_sorted; auto]. destruct H as (A & B & C). split; auto. split.
    + intros x. rewrite B, set_insert_In. simpl. split; intros [?|?]; auto; [destruct H; auto|destruct H; auto].
    + destruct (set_mem s set) eqn:E.
      * apply set_mem_In in E; auto. rewrite set_insert_same in C by auto. rewrite orb_false_r in C. auto.
      * assert (~ In s set) as Hn. { intros X. apply set_mem_In in X; auto. rewrite E in X. discriminate. }
        pose proof (set_insert_length _ s set Hs Hn) as L. right. destruct C as [[-> ->]|[-> C]]; split; auto; try lia; auto using orb_true_r.
Qed.

Lemma map_insert_same : forall K V `{Cmp K} (k : K) (v : V) m, msorted m -> map_get k m = Some v -> map_insert k v m = m.
Proof.
  intros K V CK k v m. induction m as [|[k' v'] m IH]; intros Hs H; simpl in *; [discriminate|].
  destruct (cmp k k') eqn:E.
  - apply cmp_eq in E. subst. congruence.
  - discriminate.
  - rewrite IH; auto. unfold msorted in *. simpl in Hs. inversion Hs; auto.
Qed.

Lemma sum_insert : forall K `{Cmp K} (k : K) (v' : list symbol) m v, map_get k m = Some v ->
  list_sum (map (fun p => length (snd p)) (map_insert k v' m)) + length v = list_sum (map (fun p => length (snd p)) m) + length v'.
Proof.
  intros K CK k v' m. induction m as [|[k' v0] m IH]; intros v H; simpl in *; [discriminate|].
  destruct (cmp k k') eqn:E; simpl.
  - injection H as ->. lia.
  - discriminate.
  - apply IH in H. lia.
Qed.
Lemma size_insert : forall (k : symbol) v' m v, map_get k m = Some v -> size (map_insert k v' m) + length v = size m + length v'.
Proof. intros. apply sum_insert; auto. Qed.

(** ** Invariant *)

Definition universe (g : grammar) : list symbol := Epsilon :: End :: terminals g.

Record sets_ok (g : grammar) (fs : symbol_sets) : Prop := {
  so_sorted : msorted fs;
  so_keys : forall s, In s (map fst fs) <-> In s (non_terminals g);
  so_set : forall k set, map_get k fs = Some set -> sorted set /\ incl set (universe g)
}.

Definition inS (fs : symbol_sets) (k x : symbol) : Prop := exists set, map_get k fs = Some set /\ In x set.

Lemma so_get : forall g fs k, sets_ok g fs -> In k (non_terminals g) -> exists set, map_get k fs = Some set.
Proof.
  intros g fs k H Hk. destruct (map_get k fs) as [set|] eqn:E; eauto. apply map_get_None in E; [|apply (so_sorted _ _ H)].
  exfalso. apply E, (so_keys _ _ H), Hk.
Qed.
Lemma so_get_In : forall g fs k set, sets_ok g fs -> map_get k fs = Some set -> In k (non_terminals g).
Proof. intros g fs k set H E. apply (so_keys _ _ H). apply map_get_In in E; [|apply (so_sorted _ _ H)]. apply (in_map fst) in E. auto. Qed.

Lemma inS_get : forall fs k set x, map_get k fs = Some set -> (inS fs k x <-> In x set).
Proof. intros fs k set x E. unfold inS. split; [intros (s & E' & H); congruence|eauto]. Qed.

Lemma size_bound : forall g fs, sets_ok g fs -> NoDup (non_terminals g) -> size fs <= length (non_terminals g) * length (universe g).
Proof.
  intros g fs H Hnd.
  assert (length fs = length (non_terminals g)) as L.
  { rewrite <- (map_length fst fs). apply Nat.le_antisymm; apply NoDup_incl_length.
    - apply sorted_NoDup, (so_sorted _ _ H).
    - intros s Hs. apply (so_keys _ _ H), Hs.
    - auto.
    - intros s Hs. apply (so_keys _ _ H), Hs. }
  rewrite <- L.
  assert (forall k set, In (k, set) fs -> length set <= length (universe g)) as B.
  { intros k set Hin. apply map_get_In in Hin; [|apply (so_sorted _ _ H)]. destruct (so_set _ _ H _ _ Hin) as [A C].
    apply NoDup_incl_length; auto. apply sorted_NoDup; auto. }
  clear L H. unfold size. induction fs as [|[k set] fs IH]; [simpl; lia|]. cbn [map list_sum fold_right length snd].
  change (fold_right plus 0 (map (fun p => length (snd p)) fs)) with (list_sum (map (fun p : symbol * list symbol => length (snd p)) fs)).
  assert (length set <= length (universe g)) by (eapply B; left; eauto).
  assert (list_sum (map (fun p : symbol * list symbol => length (snd p)) fs) <= length fs * length (universe g)) by (apply IH; intros; eapply B; right; eauto).
  rewrite Nat.mul_succ_l. unfold list_sum in *. lia.
Qed.

(** ** Updates *)

(** One step of a round: nothing changed, or something was added. *)
Definition grew (st st' : symbol_sets * bool) : Prop :=
  (snd st' = snd st /\ fst st' = fst st) \/ (snd st' = true /\ size (fst st) < size (fst st')).

Lemma grew_refl : forall st, grew st st.
Proof. left; auto. Qed.
Lemma grew_trans : forall a b c, grew a b -> grew b c -> grew a c.
Proof.
  intros [a1 a2] [b1 b2] [c1 c2] [[A1 A2]|[A1 A2]] [[B1 B2]|[B1 B2]]; unfold grew; simpl in *; subst; auto.
  right. split; auto. lia.
Qed.

Lemma update_set : forall g fs any k set new set' any', sets_ok g fs -> map_get k fs = Some set -> incl new (universe g) ->
  insert_all set new any = (set', any') ->
  sets_ok g (map_insert k set' fs) /\ grew (fs, any) (map_insert k set' fs, any') /\
  (forall k' x, inS (map_insert k set' fs) k' x <-> inS fs k' x \/ (k' = k /\ In x new)).
Proof.
  intros g fs any k set new set' any' H Hk Hnew Hi. destruct (so_set _ _ H _ _ Hk) as [Hs Hu]. pose proof (so_sorted _ _ H) as Hm.
  destruct (insert_all_spec _ _ _ _ _ Hs Hi) as (A & B & C). split; [|split].
  - constructor.
    + apply map_insert_sorted; auto.
    + intros s. rewrite map_insert_keys. rewrite (so_keys _ _ H). split; [intros [->|?]; auto; eapply so_get_In; eauto|auto].
    + intros k' s Hg. rewrite map_get_insert in Hg by auto. destruct (cmp_dec k' k) as [E|E]; [|eapply so_set; eauto].
      injection Hg as <-. split; auto. intros x Hx. apply B in Hx. destruct Hx; auto.
  - destruct C as [[-> ->]|[-> C]].
    + left. simpl. split; auto. apply map_insert_same; auto.
    + right. simpl. split; auto. pose proof (size_insert k set' fs set Hk). lia.
  - intros k' x. unfold inS. rewrite map_get_insert by auto. destruct (cmp_dec k' k) as [E|E].
    + subst k'. split.
      * intros (s & [= <-] & Hx). apply B in Hx. destruct Hx; auto. left. eauto.
      * intros [(s & E & Hx)|[_ Hx]]; exists set'; (split; auto); apply B; auto. left. congruence.
    + split; auto. intros [?|[? ?]]; auto. contradiction.
Qed.

Lemma init_sets_ok : forall g, sets_ok g (init_sets g).
Proof.
  intros g. unfold init_sets.
  assert (forall l m done, msorted m -> (forall s, In s (map fst m) <-> In s done) -> (forall k set, map_get k m = Some set -> set = []) ->
    let m' := fold_left (fun m nt => map_insert nt [] m) l m in
    msorted m' /\ (forall s, In s (map fst m') <-> In s (done ++ l)) /\ (forall k set, map_get k m' = Some set -> set = (@nil symbol))) as G.
  { induction l as [|s l IH]; intros m done A B C; simpl.
    - rewrite app_nil_r. auto.
    - replace (done ++ s :: l) with ((done ++ [s]) ++ l) by (rewrite <- app_assoc; auto). apply IH.
      + apply map_insert_sorted; auto.
      + intros k. rewrite map_insert_keys, in_app_iff, B. simpl. intuition auto.
      + intros k set. rewrite map_get_insert by auto. destruct (cmp_dec k s); [congruence|apply C]. }
  destruct (G (non_terminals g) [] [] msorted_nil) as (A & B & C); [simpl; tauto|discriminate|]. constructor; auto.
  intros k set E. apply C in E. subst. split; [constructor|intros x []].
Qed.
Lemma init_sets_empty : forall g k x, ~ inS (init_sets g) k x.
Proof.
  intros g k x (set & E & H). revert E H. unfold init_sets.
  assert (forall l (m : symbol_sets), msorted m -> (forall k set, map_get k m = Some set -> set = []) ->
    forall k set, map_get k (fold_left (fun m nt => map_insert nt [] m) l m) = Some set -> set = []) as G.
  { induction l as [|s l IH]; intros m Hs Hm k' set'; simpl; [apply Hm|]. apply IH; [apply map_insert_sorted; auto|].
    intros k0 s0. rewrite map_get_insert by auto. destruct (cmp_dec k0 s); [congruence|apply Hm]. }
  intros E H. apply G in E; [subst; exact H|apply msorted_nil|discriminate].
Qed.

(** ** The loop *)

Section Loop.
Context {E : Type}.
Variable round : symbol_sets -> res E (symbol_sets * bool).
Variable P : symbol_sets -> Prop.
Variable g : grammar.
Hypothesis nodup : NoDup (non_terminals g).
Hypothesis P_ok : forall fs, P fs -> sets_ok g fs.
Hypothesis round_ok : forall fs, P fs -> exists fs' any, round fs = Ok (fs', any) /\ P fs' /\ grew (fs, false) (fs', any).

Fixpoint gloop (fuel : nat) (fs : symbol_sets) : res E symbol_sets :=
  match fuel with
  | O => OutOfFuel
  | S fuel => do (fs', any) <- round fs; if any then gloop fuel fs' else Ok fs'
  end.

Lemma gloop_ok : forall fuel fs, P fs -> length (non_terminals g) * length (universe g) - size fs < fuel ->
  exists fs', gloop fuel fs = Ok fs' /\ P fs' /\ round fs' = Ok (fs', false).
Proof.
  induction fuel as [|fuel IH]; intros fs HP Hf; [lia|].
  destruct (round_ok fs HP) as (fs' & any & HR & HP' & [[G1 G2]|[G1 G2]]); cbn [fst snd] in *; cbn [gloop]; rewrite HR; cbn [bind].
  - subst. exists fs. auto.
  - subst any. apply IH; auto. pose proof (size_bound g fs' (P_ok _ HP') nodup). lia.
Qed.

Lemma gloop_fix : forall fuel fs fs', P fs -> gloop fuel fs = Ok fs' -> P fs' /\ round fs' = Ok (fs', false).
Proof.
  induction fuel as [|fuel IH]; intros fs fs' HP H; [discriminate|]. simpl in H.
  destruct (round_ok fs HP) as (fs1 & any & HR & HP' & [[G1 G2]|[G1 G2]]); cbn [fst snd] in *; rewrite HR in H; cbn [bind] in H.
  - subst. injection H as <-. auto.
  - subst any. eauto.
Qed.

Lemma gloop_cases : forall fuel fs, P fs -> (exists fs', gloop fuel fs = Ok fs') \/ gloop fuel fs = OutOfFuel.
Proof.
  induction fuel as [|fuel IH]; intros fs HP; [right; auto|]. simpl.
  destruct (round_ok fs HP) as (fs1 & any & HR & HP' & _). rewrite HR. cbn [bind]. destruct any; eauto.
Qed.
End Loop.

(** A fold of steps which may only grow the sets. *)
Lemma foldM_grow : forall E A (f : symbol_sets * bool -> A -> res E (symbol_sets * bool)) (P : symbol_sets -> Prop) l st,
  (forall st a, In a l -> P (fst st) -> exists st', f st a = Ok st' /\ P (fst st') /\ grew st st') -> P (fst st) ->
  exists st', foldM f l st = Ok st' /\ P (fst st') /\ grew st st'.
Proof.
  intros E A f P l. induction l as [|a l IH]; intros st H HP; simpl.
  - exists st. split; auto. split; auto. apply grew_refl.
  - destruct (H st a (or_introl eq_refl) HP) as (st1 & E1 & P1 & G1). rewrite E1. cbn [bind].
    destruct (IH st1) as (st2 & E2 & P2 & G2); auto. { intros; apply H; auto. right; auto. }
    exists st2. split; auto. split; auto. eapply grew_trans; eauto.
Qed.

(** If the whole fold changes nothing, neither does any step. *)
Lemma foldM_unchanged : forall E A (f : symbol_sets * bool -> A -> res E (symbol_sets * bool)) (P : symbol_sets -> Prop) l fs,
  (forall st a, In a l -> P (fst st) -> exists st', f st a = Ok st' /\ P (fst st') /\ grew st st') -> P fs ->
  foldM f l (fs, false) = Ok (fs, false) -> forall a, In a l -> f (fs, false) a = Ok (fs, false).
Proof.
  intros E A f P l. induction l as [|a l IH]; intros fs H HP HF; [intros b []|].
  cbn [foldM] in HF. destruct (H (fs, false) a (or_introl eq_refl) HP) as (st1 & E1 & P1 & G1). rewrite E1 in HF. cbn [bind] in HF.
  assert (st1 = (fs, false)) as ->.
  { destruct (foldM_grow E A f P l st1) as (st2 & E2 & P2 & G2); [intros; apply H; auto; right; auto|auto|].
    rewrite HF in E2. injection E2 as <-. destruct st1 as [s1 a1]. destruct G1 as [[X1 X2]|[X1 X2]]; simpl in *; [subst; auto|].
    destruct G2 as [[Y1 Y2]|[Y1 Y2]]; simpl in *; [congruence|discriminate]. }
  intros b [<-|Hb]; auto. apply IH; auto. intros; apply H; auto. right; auto.
Qed.
