(** The two directions of a [BidiMap] stay inverse to each other. *)
From Coq Require Import String List Arith NArith Bool Lia.
From Verif Require Import Base InputModel GrammarModel LLModel LRModel.
Import ListNotations.
Local Open Scope nat_scope.
Local Open Scope list_scope.

Section Bidi.
Context {A B : Type} `{CA : Cmp A} `{CB : Cmp B}.

Record bidi_ok (m : bidi A B) : Prop := {
  bo_ab : msorted (bd_ab m);
  bo_ba : msorted (bd_ba m);
  bo_inv : forall a b, map_get a (bd_ab m) = Some b <-> map_get b (bd_ba m) = Some a
}.

Lemma bidi_new_ok : bidi_ok bidi_new.
Proof. split; [apply msorted_nil|apply msorted_nil|]. intros a b. split; discriminate. Qed.

Lemma bidi_insert_ok : forall a b m, bidi_ok m -> map_get a (bd_ab m) = None -> map_get b (bd_ba m) = None -> bidi_ok (bidi_insert a b m).
Proof.
  intros a b m [H1 H2 H3] Ha Hb. split; unfold bidi_insert; cbn [bd_ab bd_ba].
  - now apply map_insert_sorted.
  - now apply map_insert_sorted.
  - intros a' b'. rewrite !map_get_insert by auto. destruct (cmp_dec a' a) as [->|Na], (cmp_dec b' b) as [->|Nb].
    + tauto.
    + split; [intros [= E]; congruence|]. rewrite <- H3. congruence.
    + split; [|intros [= E]; congruence]. rewrite H3. congruence.
    + apply H3.
Qed.

Lemma bidi_remove_spec : forall E b m, bidi_ok m ->
  match map_get b (bd_ba m) with
  | None => @bidi_remove_by_b E _ _ _ _ b m = Ok (None, m)
  | Some a => exists m', @bidi_remove_by_b E _ _ _ _ b m = Ok (Some (a, b), m') /\ bidi_ok m' /\
      (forall a', map_get a' (bd_ab m') = if cmp_dec a' a then None else map_get a' (bd_ab m)) /\
      (forall b', map_get b' (bd_ba m') = if cmp_dec b' b then None else map_get b' (bd_ba m))
  end.
Proof.
  intros E b m [H1 H2 H3]. unfold bidi_remove_by_b. destruct (map_get b (bd_ba m)) as [a|] eqn:Eb; [|reflexivity].
  apply H3 in Eb. rewrite Eb. rewrite eqc_refl. eexists. split; [reflexivity|]. cbn [bd_ab bd_ba]. split; [|split].
  - split; cbn [bd_ab bd_ba]; try (now apply map_remove_sorted). intros a' b'. rewrite !map_get_remove by auto.
    destruct (cmp_dec a' a) as [->|Na], (cmp_dec b' b) as [->|Nb].
    + split; discriminate.
    + split; [discriminate|]. rewrite <- H3. congruence.
    + split; [|discriminate]. rewrite H3. apply H3 in Eb. congruence.
    + apply H3.
  - intros a'. apply map_get_remove; auto.
  - intros b'. apply map_get_remove; auto.
Qed.

Lemma bidi_iter_In : forall m a b, bidi_ok m -> (In (a, b) (bidi_iter m) <-> bidi_get_b_to_a b m = Some a).
Proof.
  intros m a b [H1 H2 H3]. unfold bidi_iter, bidi_get_b_to_a. rewrite <- (map_get_In a b (bd_ab m) H1). apply H3.
Qed.

End Bidi.
