(** Shared vocabulary of the model: outcomes, ordered types, sorted sets and maps.

    [res E A] is the outcome of a Rust function: a value, a [Result::Err], a panic, or
    (for fuelled loops only) running out of fuel.  Sorted lists stand for
    [std::collections::BTreeSet]/[BTreeMap]; their order is the iteration order. *)
From Coq Require Import String Ascii List Arith NArith Bool Lia.
Import ListNotations.

Inductive res (E A : Type) : Type :=
| Ok (a : A)
| Err (e : E)
| Panic
| OutOfFuel.
Arguments Ok {E A} a.
Arguments Err {E A} e.
Arguments Panic {E A}.
Arguments OutOfFuel {E A}.

Definition bind {E A B} (m : res E A) (f : A -> res E B) : res E B :=
  match m with
  | Ok a => f a
  | Err e => Err e
  | Panic => Panic
  | OutOfFuel => OutOfFuel
  end.
Notation "'do' p <- m ; k" := (bind m (fun p => k))
  (at level 200, p pattern, m at level 100, k at level 200, right associativity).

Lemma bind_Ok : forall E A B (m : res E A) (f : A -> res E B) b,
  bind m f = Ok b -> exists a, m = Ok a /\ f a = Ok b.
Proof. intros E A B [a|e| |] f b H; simpl in H; try discriminate. eauto. Qed.

Lemma bind_Err : forall E A B (m : res E A) (f : A -> res E B) e,
  bind m f = Err e -> m = Err e \/ exists a, m = Ok a /\ f a = Err e.
Proof. intros E A B [a|e'| |] f e H; simpl in H; try discriminate; eauto.
  injection H as ->; auto. Qed.

Lemma bind_Panic : forall E A B (m : res E A) (f : A -> res E B),
  bind m f = Panic -> m = Panic \/ exists a, m = Ok a /\ f a = Panic.
Proof. intros E A B [a|e'| |] f H; simpl in H; try discriminate; eauto. Qed.

Lemma bind_OutOfFuel : forall E A B (m : res E A) (f : A -> res E B),
  bind m f = OutOfFuel -> m = OutOfFuel \/ exists a, m = Ok a /\ f a = OutOfFuel.
Proof. intros E A B [a|e'| |] f H; simpl in H; try discriminate; eauto. Qed.

Ltac inv_bind H :=
  let a := fresh "a" in let H1 := fresh "Hb" in
  apply bind_Ok in H; destruct H as [a [H1 H]].

Definition is_ok {E A} (r : res E A) : bool := match r with Ok _ => true | _ => false end.

(** Ordered types: what [Ord] gives in Rust. *)
Class Cmp (A : Type) := {
  cmp : A -> A -> comparison;
  cmp_eq : forall a b, cmp a b = Eq <-> a = b;
  cmp_opp : forall a b, cmp b a = CompOpp (cmp a b);
  cmp_trans : forall a b c, cmp a b = Lt -> cmp b c = Lt -> cmp a c = Lt
}.

Definition ltc {A} `{Cmp A} (a b : A) : Prop := cmp a b = Lt.

Lemma cmp_refl : forall A `{Cmp A} (a : A), cmp a a = Eq.
Proof. intros. apply cmp_eq. reflexivity. Qed.

Lemma cmp_Gt : forall A `{Cmp A} (a b : A), cmp a b = Gt <-> cmp b a = Lt.
Proof. intros. rewrite (cmp_opp a b). destruct (cmp a b); simpl; split; congruence. Qed.

Lemma ltc_irrefl : forall A `{Cmp A} (a : A), ~ ltc a a.
Proof. unfold ltc; intros. rewrite cmp_refl. discriminate. Qed.

Lemma cmp_dec : forall {A} `{Cmp A} (a b : A), {a = b} + {a <> b}.
Proof.
  intros A C a b. destruct (cmp a b) eqn:E.
  - left. now apply cmp_eq.
  - right. intros ->. rewrite cmp_refl in E. discriminate.
  - right. intros ->. rewrite cmp_refl in E. discriminate.
Defined.

Definition eqc {A} `{Cmp A} (a b : A) : bool :=
  match cmp a b with Eq => true | _ => false end.

Lemma eqc_true : forall A `{Cmp A} (a b : A), eqc a b = true <-> a = b.
Proof.
  intros. unfold eqc. rewrite <- (cmp_eq a b). destruct (cmp a b); split; congruence.
Qed.

Lemma eqc_false : forall A `{Cmp A} (a b : A), eqc a b = false <-> a <> b.
Proof.
  intros. rewrite <- (eqc_true _ a b). destruct (eqc a b); split; congruence.
Qed.

Lemma eqc_refl : forall A `{Cmp A} (a : A), eqc a a = true.
Proof. intros. now apply eqc_true. Qed.

#[export] Instance CmpNat : Cmp nat.
Proof.
  refine {| cmp := Nat.compare |}.
  - intros; apply Nat.compare_eq_iff.
  - intros; apply Nat.compare_antisym.
  - intros a b c; rewrite !Nat.compare_lt_iff; lia.
Defined.

#[export] Instance CmpN : Cmp N.
Proof.
  refine {| cmp := N.compare |}.
  - intros; apply N.compare_eq_iff.
  - intros; apply N.compare_antisym.
  - intros a b c; rewrite !N.compare_lt_iff; lia.
Defined.

Definition cmp_pair {A B} `{Cmp A} `{Cmp B} (x y : A * B) : comparison :=
  match cmp (fst x) (fst y) with Eq => cmp (snd x) (snd y) | c => c end.

#[export] Instance CmpPair {A B} `{CA : Cmp A} `{CB : Cmp B} : Cmp (A * B).
Proof.
  refine {| cmp := cmp_pair |}.
  - intros [a b] [c d]; unfold cmp_pair; simpl.
    destruct (cmp a c) eqn:E.
    + apply cmp_eq in E; subst. rewrite cmp_eq. split; congruence.
    + split; [discriminate|]. intros X; injection X as -> ->. rewrite cmp_refl in E; discriminate.
    + split; [discriminate|]. intros X; injection X as -> ->. rewrite cmp_refl in E; discriminate.
  - intros [a b] [c d]; unfold cmp_pair; simpl.
    rewrite (cmp_opp a c), (cmp_opp b d). destruct (cmp a c); reflexivity.
  - intros [a b] [c d] [e f]; unfold cmp_pair; simpl.
    destruct (cmp a c) eqn:E1; destruct (cmp c e) eqn:E2; try discriminate; intros H1 H2.
    + apply cmp_eq in E1; apply cmp_eq in E2; subst. rewrite cmp_refl. eapply cmp_trans; eauto.
    + apply cmp_eq in E1; subst. rewrite E2. reflexivity.
    + apply cmp_eq in E2; subst. rewrite E1. reflexivity.
    + rewrite (cmp_trans _ _ _ E1 E2). reflexivity.
Defined.

Definition cmp_option {A} `{Cmp A} (x y : option A) : comparison :=
  match x, y with
  | None, None => Eq
  | None, Some _ => Lt
  | Some _, None => Gt
  | Some a, Some b => cmp a b
  end.

#[export] Instance CmpOption {A} `{CA : Cmp A} : Cmp (option A).
Proof.
  refine {| cmp := cmp_option |}.
  - intros [a|] [b|]; simpl; try (split; congruence). rewrite cmp_eq; split; congruence.
  - intros [a|] [b|]; simpl; try reflexivity. apply cmp_opp.
  - intros [a|] [b|] [c|]; simpl; try congruence. apply cmp_trans.
Defined.

Fixpoint cmp_list {A} `{Cmp A} (x y : list A) : comparison :=
  match x, y with
  | [], [] => Eq
  | [], _ :: _ => Lt
  | _ :: _, [] => Gt
  | a :: x', b :: y' => match cmp a b with Eq => cmp_list x' y' | c => c end
  end.

#[export] Instance CmpList {A} `{CA : Cmp A} : Cmp (list A).
Proof.
  refine {| cmp := cmp_list |}.
  - induction a as [|a x IH]; intros [|b y]; simpl; try (split; congruence).
    destruct (cmp a b) eqn:E.
    + apply cmp_eq in E; subst. rewrite IH. split; congruence.
    + split; [discriminate|]. intros X; injection X as -> ->. rewrite cmp_refl in E; discriminate.
    + split; [discriminate|]. intros X; injection X as -> ->. rewrite cmp_refl in E; discriminate.
  - induction a as [|a x IH]; intros [|b y]; simpl; try reflexivity.
    rewrite (cmp_opp a b), IH. destruct (cmp a b); reflexivity.
  - induction a as [|a x IH]; intros [|b y] [|c z]; simpl; try congruence.
    destruct (cmp a b) eqn:E1; destruct (cmp b c) eqn:E2; try discriminate; intros H1 H2.
    + apply cmp_eq in E1; apply cmp_eq in E2; subst. rewrite cmp_refl. eapply IH; eauto.
    + apply cmp_eq in E1; subst. rewrite E2. reflexivity.
    + apply cmp_eq in E2; subst. rewrite E1. reflexivity.
    + rewrite (cmp_trans _ _ _ E1 E2). reflexivity.
Defined.

(** ** Sorted sets *)

Section Sets.
Context {A : Type} `{CA : Cmp A}.

Fixpoint set_mem (a : A) (s : list A) : bool :=
  match s with
  | [] => false
  | b :: s' => match cmp a b with Eq => true | Lt => false | Gt => set_mem a s' end
  end.

Fixpoint set_insert (a : A) (s : list A) : list A :=
  match s with
  | [] => [a]
  | b :: s' => match cmp a b with
               | Eq => s
               | Lt => a :: s
               | Gt => b :: set_insert a s'
               end
  end.

Definition set_union (s t : list A) : list A := fold_left (fun acc a => set_insert a acc) t s.
Definition set_of_list (l : list A) : list A := set_union [] l.

Inductive sorted : list A -> Prop :=
| sorted_nil : sorted []
| sorted_cons : forall a s, sorted s -> (forall b, In b s -> ltc a b) -> sorted (a :: s).

Lemma set_insert_In : forall a s b, In b (set_insert a s) <-> b = a \/ In b s.
Proof.
  intros a s b. induction s as [|c s IH]; simpl; [intuition congruence|].
  destruct (cmp a c) eqn:E; simpl.
  - apply cmp_eq in E; subst. intuition congruence.
  - intuition congruence.
  - rewrite IH. intuition congruence.
Qed.

Lemma set_insert_sorted : forall a s, sorted s -> sorted (set_insert a s).
Proof.
  intros a s H. induction H as [|c s H IH Hlt]; simpl.
  - constructor; [constructor|intros b []].
  - destruct (cmp a c) eqn:E.
    + constructor; auto.
    + constructor; [constructor; auto|]. intros b [<-|Hb]; [exact E|].
      eapply cmp_trans; [exact E|]. apply Hlt; auto.
    + constructor; auto. intros b Hb. apply set_insert_In in Hb. destruct Hb as [->|Hb]; auto.
      apply cmp_Gt; exact E.
Qed.

Lemma set_mem_In : forall a s, sorted s -> (set_mem a s = true <-> In a s).
Proof.
  intros a s H. induction H as [|c s H IH Hlt]; simpl; [intuition congruence|].
  destruct (cmp a c) eqn:E.
  - apply cmp_eq in E; subst. intuition.
  - split; [discriminate|]. intros [->|Hin].
    + rewrite cmp_refl in E; discriminate.
    + apply Hlt in Hin. unfold ltc in Hin. pose proof (cmp_trans _ _ _ E Hin) as X.
      rewrite cmp_refl in X; discriminate.
  - rewrite IH. split; [auto|]. intros [->|Hin]; auto. rewrite cmp_refl in E; discriminate.
Qed.

Lemma set_union_In : forall t s b, In b (set_union s t) <-> In b s \/ In b t.
Proof.
  unfold set_union. induction t as [|a t IH]; intros s b; simpl; [intuition|].
  rewrite IH, set_insert_In. intuition congruence.
Qed.

Lemma set_union_sorted : forall t s, sorted s -> sorted (set_union s t).
Proof.
  unfold set_union. induction t as [|a t IH]; intros s H; simpl; auto.
  apply IH. now apply set_insert_sorted.
Qed.

Lemma set_of_list_In : forall l b, In b (set_of_list l) <-> In b l.
Proof. intros. unfold set_of_list. rewrite set_union_In. simpl; intuition. Qed.

Lemma set_of_list_sorted : forall l, sorted (set_of_list l).
Proof. intros. apply set_union_sorted. constructor. Qed.

Lemma sorted_ext : forall s t, sorted s -> sorted t ->
  (forall a, In a s <-> In a t) -> s = t.
Proof.
  intros s t Hs. revert t. induction Hs as [|a s Hs IH Ha]; intros t Ht Hext.
  - destruct t as [|b t]; auto. exfalso. apply (Hext b). left; auto.
  - destruct Ht as [|b t Ht Hb].
    + exfalso. apply (Hext a). left; auto.
    + assert (a = b).
      { destruct (cmp a b) eqn:E.
        - now apply cmp_eq.
        - assert (X : In a (b :: t)) by (apply Hext; left; auto).
          destruct X as [->|X]; auto. apply Hb in X. pose proof (cmp_trans _ _ _ E X) as Y.
          rewrite cmp_refl in Y; discriminate.
        - apply cmp_Gt in E.
          assert (X : In b (a :: s)) by (apply Hext; left; auto).
          destruct X as [->|X]; auto. apply Ha in X. pose proof (cmp_trans _ _ _ E X) as Y.
          rewrite cmp_refl in Y; discriminate. }
      subst b. f_equal. apply IH; auto. intros c. split; intros Hc.
      * assert (X : In c (a :: t)) by (apply Hext; right; auto).
        destruct X as [->|X]; auto. exfalso. apply (ltc_irrefl _ c). apply Ha; auto.
      * assert (X : In c (a :: s)) by (apply Hext; right; auto).
        destruct X as [->|X]; auto. exfalso. apply (ltc_irrefl _ c). apply Hb; auto.
Qed.

Lemma sorted_NoDup : forall s, sorted s -> NoDup s.
Proof.
  induction 1; constructor; auto. intros Hin. apply (ltc_irrefl _ a). auto.
Qed.

Lemma set_insert_same : forall a s, sorted s -> In a s -> set_insert a s = s.
Proof.
  intros. apply sorted_ext; auto using set_insert_sorted.
  intros b. rewrite set_insert_In. intuition congruence.
Qed.

Lemma sorted_app_inv : forall s t, sorted (s ++ t) ->
  sorted s /\ sorted t /\ (forall a b, In a s -> In b t -> ltc a b).
Proof.
  induction s as [|a s IH]; intros t H; simpl in *.
  - repeat split; auto. constructor. intros a b [].
  - inversion H; subst. destruct (IH _ H2) as [H4 [H5 H6]]. repeat split; auto.
    + constructor; auto. intros b Hb. apply H3. apply in_or_app; auto.
    + intros x b [<-|Hx] Hb; auto. apply H3. apply in_or_app; auto.
Qed.

Lemma sorted_app : forall s t, sorted s -> sorted t ->
  (forall a b, In a s -> In b t -> ltc a b) -> sorted (s ++ t).
Proof.
  induction s as [|a s IH]; intros t Hs Ht H; simpl; auto.
  inversion Hs; subst. constructor.
  - apply IH; auto. intros; apply H; auto. right; auto.
  - intros b Hb. apply in_app_or in Hb. destruct Hb as [Hb|Hb]; auto. apply H; auto. left; auto.
Qed.

End Sets.

(** ** Sorted maps *)

Section Maps.
Context {K V : Type} `{CK : Cmp K}.

Fixpoint map_get (k : K) (m : list (K * V)) : option V :=
  match m with
  | [] => None
  | (k', v) :: m' => match cmp k k' with Eq => Some v | Lt => None | Gt => map_get k m' end
  end.

Fixpoint map_insert (k : K) (v : V) (m : list (K * V)) : list (K * V) :=
  match m with
  | [] => [(k, v)]
  | (k', v') :: m' => match cmp k k' with
                      | Eq => (k, v) :: m'
                      | Lt => (k, v) :: m
                      | Gt => (k', v') :: map_insert k v m'
                      end
  end.

Fixpoint map_remove (k : K) (m : list (K * V)) : list (K * V) :=
  match m with
  | [] => []
  | (k', v') :: m' => match cmp k k' with
                      | Eq => m'
                      | Lt => m
                      | Gt => (k', v') :: map_remove k m'
                      end
  end.

Definition map_mem (k : K) (m : list (K * V)) : bool :=
  match map_get k m with Some _ => true | None => false end.

Definition msorted (m : list (K * V)) : Prop := sorted (map fst m).

Lemma msorted_nil : msorted [].
Proof. constructor. Qed.

Lemma map_insert_keys : forall k v m k', In k' (map fst (map_insert k v m)) <-> k' = k \/ In k' (map fst m).
Proof.
  intros k v m k'. induction m as [|[k1 v1] m IH]; simpl; [intuition congruence|].
  destruct (cmp k k1) eqn:E; simpl.
  - apply cmp_eq in E; subst; intuition congruence.
  - intuition congruence.
  - rewrite IH; intuition congruence.
Qed.

Lemma map_insert_sorted : forall k v m, msorted m -> msorted (map_insert k v m).
Proof.
  unfold msorted. intros k v m H. induction m as [|[k1 v1] m IH]; simpl in *.
  - constructor; [constructor|intros ? []].
  - inversion H; subst. destruct (cmp k k1) eqn:E; simpl.
    + apply cmp_eq in E; subst. constructor; auto.
    + constructor; [constructor; auto|]. intros b [<-|Hb]; [exact E|].
      eapply cmp_trans; [exact E|]. apply H3; auto.
    + constructor; auto. intros b Hb. apply map_insert_keys in Hb. destruct Hb as [->|Hb]; auto.
      apply cmp_Gt; exact E.
Qed.

Lemma map_get_insert_eq : forall k v m, map_get k (map_insert k v m) = Some v.
Proof.
  intros. induction m as [|[k1 v1] m IH]; simpl.
  - rewrite cmp_refl; auto.
  - destruct (cmp k k1) eqn:E; simpl; try rewrite cmp_refl; auto. rewrite E. auto.
Qed.

Lemma map_get_below : forall k m, msorted m -> (forall k', In k' (map fst m) -> ltc k k') -> map_get k m = None.
Proof.
  intros k [|[k1 v1] m] _ H; simpl; auto. rewrite (H k1); auto. simpl; auto.
Qed.

Lemma map_get_insert_neq : forall k k' v m, msorted m -> k <> k' -> map_get k (map_insert k' v m) = map_get k m.
Proof.
  intros k k' v m Hs Hne. induction m as [|[k1 v1] m IH]; simpl.
  - destruct (cmp k k') eqn:E; auto. apply cmp_eq in E; congruence.
  - inversion Hs; subst. destruct (cmp k' k1) eqn:E; simpl.
    + apply cmp_eq in E; subst. destruct (cmp k k1) eqn:E2; auto.
      apply cmp_eq in E2; congruence.
    + destruct (cmp k k') eqn:E2; auto.
      * apply cmp_eq in E2; congruence.
      * rewrite (cmp_trans _ _ _ E2 E). reflexivity.
    + destruct (cmp k k1) eqn:E2; auto.
Qed.

Lemma map_get_insert : forall k k' v m, msorted m ->
  map_get k (map_insert k' v m) = if cmp_dec k k' then Some v else map_get k m.
Proof.
  intros. destruct (cmp_dec k k') as [->|Hne].
  - apply map_get_insert_eq.
  - now apply map_get_insert_neq.
Qed.

Lemma map_get_In : forall k v m, msorted m -> (map_get k m = Some v <-> In (k, v) m).
Proof.
  intros k v m H. induction m as [|[k1 v1] m IH]; simpl; [intuition congruence|].
  inversion H; subst. specialize (IH H2). destruct (cmp k k1) eqn:E.
  - apply cmp_eq in E; subst. split; [intros X; injection X as ->; auto|].
    intros [X|X]; [congruence|]. exfalso. apply (ltc_irrefl _ k1). apply H3.
    apply in_map_iff. exists (k1, v); auto.
  - split; [discriminate|]. intros [X|X].
    + injection X as -> ->. rewrite cmp_refl in E; discriminate.
    + exfalso. assert (Y : ltc k1 k) by (apply H3; apply in_map_iff; exists (k, v); auto).
      pose proof (cmp_trans _ _ _ E Y) as Z. rewrite cmp_refl in Z; discriminate.
  - rewrite IH. split; auto. intros [X|X]; auto. injection X as -> ->.
    rewrite cmp_refl in E; discriminate.
Qed.

Lemma map_get_None : forall k m, msorted m -> (map_get k m = None <-> ~ In k (map fst m)).
Proof.
  intros k m H. destruct (map_get k m) as [v|] eqn:E.
  - apply map_get_In in E; auto. split; [discriminate|]. intros X. exfalso. apply X.
    apply in_map_iff. exists (k, v); auto.
  - split; auto. intros _ Hin. apply in_map_iff in Hin. destruct Hin as [[k1 v1] [Heq Hin]].
    simpl in Heq; subst. apply map_get_In in Hin; auto. congruence.
Qed.

Lemma map_insert_In : forall k v m k' v', msorted m ->
  (In (k', v') (map_insert k v m) <-> (k' = k /\ v' = v) \/ (k' <> k /\ In (k', v') m)).
Proof.
  intros. rewrite <- map_get_In by now apply map_insert_sorted.
  rewrite map_get_insert by auto. destruct (cmp_dec k' k).
  - subst. split; [intros X; injection X as ->; auto|]. intros [[_ ->]|[X _]]; congruence.
  - rewrite map_get_In by auto. intuition congruence.
Qed.

Lemma map_remove_In : forall k m k' v', msorted m ->
  (In (k', v') (map_remove k m) <-> k' <> k /\ In (k', v') m).
Proof.
  intros k m k' v' H. induction m as [|[k1 v1] m IH]; simpl; [intuition|].
  inversion H; subst. specialize (IH H2). destruct (cmp k k1) eqn:E.
  - apply cmp_eq in E; subst. split.
    + intros X. split; auto. intros ->. apply (ltc_irrefl _ k1). apply H3.
      apply in_map_iff. exists (k1, v'); auto.
    + intros [X [Y|Y]]; auto. congruence.
  - split.
    + intros X. split; auto. intros ->. destruct X as [X|X].
      * injection X as -> ->. rewrite cmp_refl in E; discriminate.
      * assert (Y : ltc k1 k) by (apply H3; apply in_map_iff; exists (k, v'); auto).
        pose proof (cmp_trans _ _ _ E Y) as Z. rewrite cmp_refl in Z; discriminate.
    + intros [X Y]; auto.
  - simpl. rewrite IH. split.
    + intros [X|[X Y]]; auto. injection X as -> ->. split; auto. intros ->.
      rewrite cmp_refl in E; discriminate.
    + intros [X [Y|Y]]; auto.
Qed.

Lemma map_remove_sorted : forall k m, msorted m -> msorted (map_remove k m).
Proof.
  unfold msorted. intros k m H. induction m as [|[k1 v1] m IH]; simpl in *; auto.
  inversion H; subst. destruct (cmp k k1) eqn:E; simpl; auto.
  constructor; auto. intros b Hb. apply H3. clear - Hb. induction m as [|[k2 v2] m IH]; simpl in *; auto.
  destruct (cmp k k2); simpl in *; intuition.
Qed.

Lemma map_get_remove : forall k k' m, msorted m ->
  map_get k (map_remove k' m) = if cmp_dec k k' then None else map_get k m.
Proof.
  intros k k' m H. destruct (cmp_dec k k') as [->|Hne].
  - destruct (map_get k' (map_remove k' m)) eqn:E; auto.
    apply map_get_In in E; auto using map_remove_sorted. apply map_remove_In in E; auto. tauto.
  - destruct (map_get k m) eqn:E.
    + apply map_get_In; auto using map_remove_sorted. apply map_remove_In; auto.
      split; auto. now apply map_get_In.
    + destruct (map_get k (map_remove k' m)) eqn:E2; auto.
      apply map_get_In in E2; auto using map_remove_sorted. apply map_remove_In in E2; auto.
      destruct E2 as [_ E2]. apply map_get_In in E2; auto. congruence.
Qed.

End Maps.

Arguments msorted {K V CK} m.

(** ** Small list facts used throughout *)

Lemma nth_error_app_l : forall A (l l' : list A) i x,
  nth_error l i = Some x -> nth_error (l ++ l') i = Some x.
Proof.
  intros. rewrite nth_error_app1; auto. apply nth_error_Some. congruence.
Qed.

Lemma nth_error_lt : forall A (l : list A) i x, nth_error l i = Some x -> i < length l.
Proof. intros. apply nth_error_Some. congruence. Qed.

Lemma nth_error_ex : forall A (l : list A) i, i < length l -> exists x, nth_error l i = Some x.
Proof.
  intros A l i H. destruct (nth_error l i) eqn:E; eauto.
  apply nth_error_None in E. lia.
Qed.

Lemma nth_error_snoc : forall A (l : list A) a, nth_error (l ++ [a]) (length l) = Some a.
Proof. intros. rewrite nth_error_app2, Nat.sub_diag; auto. Qed.

Lemma NoDup_app_intro : forall A (l l' : list A), NoDup l -> NoDup l' ->
  (forall a, In a l -> In a l' -> False) -> NoDup (l ++ l').
Proof.
  induction l as [|a l IH]; intros l' H1 H2 H; simpl; auto.
  inversion H1; subst. constructor.
  - intros X. apply in_app_or in X. destruct X; auto. apply (H a); simpl; auto.
  - apply IH; auto. intros b Hb Hb'. apply (H b); simpl; auto.
Qed.

(** Monadic left fold: a Rust [for] loop whose body may fail. *)
Fixpoint foldM {E S A} (f : S -> A -> res E S) (l : list A) (s : S) : res E S :=
  match l with
  | [] => Ok s
  | a :: l' => do s' <- f s a; foldM f l' s'
  end.

(** Index of the first element satisfying [f] ([Iterator::position]). *)
Fixpoint find_index {A} (f : A -> bool) (l : list A) : option nat :=
  match l with
  | [] => None
  | a :: l' => if f a then Some 0 else option_map S (find_index f l')
  end.

Lemma find_index_Some : forall A (f : A -> bool) l i,
  find_index f l = Some i ->
  exists a, nth_error l i = Some a /\ f a = true /\ forall j b, j < i -> nth_error l j = Some b -> f b = false.
Proof.
  induction l as [|a l IH]; intros i H; simpl in H; [discriminate|].
  destruct (f a) eqn:E.
  - injection H as <-. exists a. repeat split; auto. intros; lia.
  - destruct (find_index f l) as [j|] eqn:Ej; [|discriminate]. injection H as <-.
    destruct (IH _ eq_refl) as [b [H1 [H2 H3]]]. exists b. repeat split; auto.
    intros [|k] c Hk Hc; simpl in *; [congruence|]. eapply H3; eauto. lia.
Qed.

Lemma find_index_None : forall A (f : A -> bool) l,
  find_index f l = None <-> forall a, In a l -> f a = false.
Proof.
  induction l as [|a l IH]; simpl; [split; auto; intros _ a []|].
  destruct (f a) eqn:E.
  - split; [discriminate|]. intros H. rewrite H in E; auto. discriminate.
  - destruct (find_index f l); simpl.
    + split; [discriminate|]. intros H. assert (X : Some n = None) by (apply IH; auto). discriminate.
    + split; auto. intros _ b [<-|Hb]; auto. apply IH; auto.
Qed.

Lemma foldM_app : forall E S A (f : S -> A -> res E S) l l' s,
  foldM f (l ++ l') s = do s' <- foldM f l s; foldM f l' s'.
Proof.
  induction l as [|a l IH]; intros l' s; simpl; auto.
  destruct (f s a); simpl; auto.
Qed.

(** Invariant rule for [foldM]; [P done s] relates the processed prefix and the state. *)
Lemma foldM_inv : forall E S A (f : S -> A -> res E S) (P : list A -> S -> Prop) l s s',
  P [] s ->
  (forall done a rest s1 s2, l = done ++ a :: rest -> P done s1 -> f s1 a = Ok s2 -> P (done ++ [a]) s2) ->
  foldM f l s = Ok s' -> P l s'.
Proof.
  intros E S A f P l s s' H0 Hstep Hf.
  assert (Hgen : forall rest done s1, l = done ++ rest -> P done s1 -> foldM f rest s1 = Ok s' -> P l s').
  { induction rest as [|a rest IH]; intros done s1 Hl HP H; simpl in H.
    - injection H as <-. rewrite app_nil_r in Hl. subst; auto.
    - inv_bind H. eapply (IH (done ++ [a]) a0).
      + rewrite <- app_assoc; auto.
      + eapply Hstep; eauto.
      + auto. }
  eapply (Hgen l [] s); eauto.
Qed.

(** Progress rule for [foldM]: if every step from a good state succeeds with a good state. *)
Lemma foldM_ok : forall E S A (f : S -> A -> res E S) (P : list A -> S -> Prop) l s,
  P [] s ->
  (forall done a rest s1, l = done ++ a :: rest -> P done s1 -> exists s2, f s1 a = Ok s2 /\ P (done ++ [a]) s2) ->
  exists s', foldM f l s = Ok s' /\ P l s'.
Proof.
  intros E S A f P l s H0 Hstep.
  assert (Hgen : forall rest done s1, l = done ++ rest -> P done s1 -> exists s', foldM f rest s1 = Ok s' /\ P l s').
  { induction rest as [|a rest IH]; intros done s1 Hl HP; simpl.
    - rewrite app_nil_r in Hl. subst; eauto.
    - destruct (Hstep done a rest s1 Hl HP) as [s2 [E2 P2]]. rewrite E2. simpl.
      apply (IH (done ++ [a])); auto. rewrite <- app_assoc; auto. }
  eapply (Hgen l [] s); eauto.
Qed.
