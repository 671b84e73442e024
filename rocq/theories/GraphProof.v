(** Lemmas about graphs whose edges are labelled with languages. *)
From Coq Require Import List Arith Bool Lia.
From Verif Require Import Base LexerSpec.
Import ListNotations.

Definition gedge : Type := nat * lang nat * nat.

Inductive gpath (G : list gedge) : nat -> list nat -> nat -> Prop :=
| gp_nil : forall u, gpath G u [] u
| gp_cons : forall u L v w1 w2 x, In (u, L, v) G -> L w1 -> gpath G v w2 x -> gpath G u (w1 ++ w2) x.

Definition olist (l : option nat) : list nat := match l with None => [] | Some t => [t] end.
Definition gen (e : nat * option nat * nat) : gedge :=
  let '(u, l, v) := e in (u, fun w => w = olist l, v).
Definition eps_lang : lang nat := fun w => w = [].

Lemma gpath_trans : forall G u w1 v w2 x, gpath G u w1 v -> gpath G v w2 x -> gpath G u (w1 ++ w2) x.
Proof.
  induction 1; intros; simpl; auto. rewrite <- app_assoc. econstructor; eauto.
Qed.

Lemma gpath_one : forall G u (L : lang nat) v w, In (u, L, v) G -> L w -> gpath G u w v.
Proof. intros. rewrite <- (app_nil_r w). econstructor; eauto. constructor. Qed.

Lemma gpath_mono : forall G G' u w v,
  (forall a (L : lang nat) b, In (a, L, b) G -> forall w, L w -> gpath G' a w b) ->
  gpath G u w v -> gpath G' u w v.
Proof.
  intros G G' u w v H Hp. induction Hp; [constructor|].
  eapply gpath_trans; eauto.
Qed.

Lemma gpath_incl : forall G G' u w v, incl G G' -> gpath G u w v -> gpath G' u w v.
Proof.
  intros. eapply gpath_mono; eauto. intros. eapply gpath_one; eauto.
Qed.

Lemma path_gpath : forall E u w v, path E u w v <-> gpath (map gen E) u w v.
Proof.
  intros E u w v. split.
  - induction 1.
    + constructor.
    + change w with ([] ++ w). econstructor; eauto.
      * apply (in_map gen) in H. exact H.
      * reflexivity.
    + change (t :: w) with ([t] ++ w). econstructor; eauto.
      * apply (in_map gen) in H. exact H.
      * reflexivity.
  - induction 1; [constructor|].
    apply in_map_iff in H. destruct H as [[[a l] b] [Heq Hin]]. simpl in Heq.
    injection Heq as <- <- <-. subst w1. destruct l; simpl.
    + econstructor 3; eauto.
    + econstructor 2; eauto.
Qed.

Lemma path_trans : forall E u w1 v w2 x, path E u w1 v -> path E v w2 x -> path E u (w1 ++ w2) x.
Proof. induction 1; intros; simpl; eauto using path. Qed.

Lemma path_incl : forall E E' u w v, incl E E' -> path E u w v -> path E' u w v.
Proof. induction 2; eauto using path. Qed.

(** Labelling nodes with right languages. *)
Lemma gpath_label : forall (G : list gedge) (Phi : nat -> lang nat),
  (forall u L v, In (u, L, v) G -> forall w1 w2, L w1 -> Phi v w2 -> Phi u (w1 ++ w2)) ->
  forall u w v, gpath G u w v -> forall w', Phi v w' -> Phi u (w ++ w').
Proof.
  intros G Phi H u w v Hp. induction Hp; intros w' Hw'; simpl; auto.
  rewrite <- app_assoc. eapply H; eauto.
Qed.

Lemma gpath_label0 : forall (G : list gedge) (Phi : nat -> lang nat) u w v,
  (forall u L v, In (u, L, v) G -> forall w1 w2, L w1 -> Phi v w2 -> Phi u (w1 ++ w2)) ->
  Phi v [] -> gpath G u w v -> Phi u w.
Proof.
  intros. rewrite <- (app_nil_r w). eapply gpath_label; eauto.
Qed.

(** [R] does not touch the zone [N]. *)
Definition avoids (R : list gedge) (N : nat -> Prop) : Prop :=
  forall u L v, In (u, L, v) R -> ~ N u /\ ~ N v.

(** Edges leave [s] or the zone, and enter [e] or the zone. *)
Definition bounded (F : list gedge) (s e : nat) (N : nat -> Prop) : Prop :=
  forall u L v, In (u, L, v) F -> (u = s \/ N u) /\ (v = e \/ N v).

Lemma elim_aux : forall G F R (N : nat -> Prop) s e,
  (forall x, In x G <-> In x F \/ In x R) ->
  bounded F s e N -> avoids R N -> ~ N s -> ~ N e ->
  (forall x, N x \/ ~ N x) ->
  forall u w v, gpath G u w v -> ~ N v ->
  (~ N u -> gpath ((s, fun w => gpath F s w e, e) :: R) u w v) /\
  (N u -> exists w1 w2, w = w1 ++ w2 /\ gpath F u w1 e /\
     gpath ((s, fun w => gpath F s w e, e) :: R) e w2 v).
Proof.
  intros G F R N s e HG HF HR Hs He Hdec u w v Hp Hv. induction Hp.
  - split; intros; [constructor|contradiction].
  - specialize (IHHp Hv). destruct IHHp as [IH1 IH2]. split; intros Hu.
    + apply HG in H. destruct H as [H|H].
      * destruct (HF _ _ _ H) as [[->|X] Y]; [|contradiction].
        destruct (Hdec v) as [Hnv|Hnv].
        -- destruct (IH2 Hnv) as [w3 [w4 [-> [P1 P2]]]]. rewrite app_assoc.
           econstructor; [left; reflexivity| |exact P2].
           simpl. econstructor; eauto.
        -- destruct Y as [->|Y]; [|contradiction].
           econstructor; [left; reflexivity| |apply IH1; auto].
           simpl. eapply gpath_one; eauto.
      * destruct (HR _ _ _ H) as [_ Hnv]. econstructor; [right; exact H|auto|auto].
    + apply HG in H. destruct H as [H|H]; [|exfalso; destruct (HR _ _ _ H); auto].
      destruct (HF _ _ _ H) as [_ Y].
      destruct (Hdec v) as [Hnv|Hnv].
      * destruct (IH2 Hnv) as [w3 [w4 [-> [P1 P2]]]]. exists (w1 ++ w3), w4.
        rewrite app_assoc. repeat split; auto. econstructor; eauto.
      * destruct Y as [->|Y]; [|contradiction]. exists w1, w2. repeat split; auto.
        eapply gpath_one; eauto.
Qed.

(** [G] stands for [F] as seen from outside the zone [N]. *)
Definition simulates (F G : list gedge) (N : nat -> Prop) : Prop :=
  (forall u L v, In (u, L, v) G -> forall w, L w -> gpath F u w v) /\
  (forall R u w v, avoids R N -> ~ N u -> ~ N v -> gpath (F ++ R) u w v -> gpath (G ++ R) u w v).

Lemma sim_elim : forall F s e N, bounded F s e N -> ~ N s -> ~ N e -> (forall x, N x \/ ~ N x) ->
  simulates F [(s, fun w => gpath F s w e, e)] N.
Proof.
  intros F s e N HF Hs He Hdec. split.
  - intros u L v [H|[]] w Hw. injection H as <- <- <-. exact Hw.
  - intros R u w v HR Hu Hv Hp. simpl.
    destruct (elim_aux (F ++ R) F R N s e) with (u := u) (w := w) (v := v) as [X _]; auto.
    intros x. rewrite in_app_iff. tauto.
Qed.

Lemma sim_lang : forall F s e N (L L' : lang nat), simulates F [(s, L, e)] N -> (forall w, L w <-> L' w) ->
  simulates F [(s, L', e)] N.
Proof.
  intros F s e N L L' [H1 H2] HL. split.
  - intros u M v [H|[]] w Hw. injection H as <- <- <-. eapply H1; [left; reflexivity|]. now apply HL.
  - intros R u w v HR Hu Hv Hp. specialize (H2 R u w v HR Hu Hv Hp).
    eapply gpath_mono; [|exact H2]. intros a M b [H|H] w' Hw'.
    + injection H as <- <- <-. eapply gpath_one; [left; reflexivity|]. now apply HL.
    + eapply gpath_one; [right; exact H|auto].
Qed.

Lemma sim_refl : forall F (N : nat -> Prop), simulates F F N.
Proof. intros F N. split; auto. intros. eapply gpath_one; eauto. Qed.

Lemma sim_app : forall F1 F2 G1 G2 (N1 N2 : nat -> Prop),
  simulates F1 G1 N1 -> simulates F2 G2 N2 ->
  avoids F2 N1 -> avoids G1 N2 ->
  simulates (F1 ++ F2) (G1 ++ G2) (fun x => N1 x \/ N2 x).
Proof.
  intros F1 F2 G1 G2 N1 N2 [A1 B1] [A2 B2] HF2 HG1. split.
  - intros u L v H w Hw. apply in_app_or in H. destruct H as [H|H].
    + eapply gpath_incl; [|eapply A1; eauto]. apply incl_appl, incl_refl.
    + eapply gpath_incl; [|eapply A2; eauto]. apply incl_appr, incl_refl.
  - intros R u w v HR Hu Hv Hp.
    assert (X : gpath (G1 ++ (F2 ++ R)) u w v).
    { apply B1; try tauto.
      - intros a L b H. apply in_app_or in H. destruct H as [H|H]; [apply (HF2 _ _ _ H)|].
        destruct (HR _ _ _ H). tauto.
      - rewrite app_assoc. exact Hp. }
    assert (Y : gpath (G2 ++ (G1 ++ R)) u w v).
    { apply B2; try tauto.
      - intros a L b H. apply in_app_or in H. destruct H as [H|H]; [apply (HG1 _ _ _ H)|].
        destruct (HR _ _ _ H). tauto.
      - eapply gpath_incl; [|exact X]. intros z Hz. rewrite !in_app_iff in *. tauto. }
    eapply gpath_incl; [|exact Y]. intros z Hz. rewrite !in_app_iff in *. tauto.
Qed.

Lemma sim_perm : forall F F' G G' (N N' : nat -> Prop), simulates F G N ->
  (forall x, In x F <-> In x F') -> (forall x, In x G <-> In x G') -> (forall x, N x <-> N' x) ->
  simulates F' G' N'.
Proof.
  intros F F' G G' N N' [A B] HF HG HN. split.
  - intros u L v H w Hw. apply HG in H. eapply gpath_incl; [|eapply A; eauto].
    intros z; apply HF.
  - intros R u w v HR Hu Hv Hp.
    assert (X : gpath (G ++ R) u w v).
    { apply B.
      - intros a L b H. destruct (HR _ _ _ H). rewrite !HN; auto.
      - rewrite HN; auto.
      - rewrite HN; auto.
      - eapply gpath_incl; [|exact Hp]. intros z. rewrite !in_app_iff, HF. auto. }
    eapply gpath_incl; [|exact X]. intros z. rewrite !in_app_iff, HG. auto.
Qed.

Lemma sim_weaken : forall F G (N N' : nat -> Prop), simulates F G N -> (forall x, N x -> N' x) -> simulates F G N'.
Proof.
  intros F G N N' [A B] H. split; auto.
  intros R u w v HR Hu Hv Hp. apply B; auto.
  intros a L b Hin. destruct (HR _ _ _ Hin). split; auto.
Qed.

Lemma sim_path : forall F G N u w v, simulates F G N -> ~ N u -> ~ N v -> (gpath F u w v <-> gpath G u w v).
Proof.
  intros F G N u w v [A B] Hu Hv. split; intros Hp.
  - specialize (B [] u w v). rewrite !app_nil_r in B. apply B; auto. intros a L b [].
  - eapply gpath_mono; [|exact Hp]. intros. eapply A; eauto.
Qed.

(** Languages *)

Lemma lpow_app : forall A (L : lang A) i j w1 w2, lpow L i w1 -> lpow L j w2 -> lpow L (i + j) (w1 ++ w2).
Proof.
  induction i; intros j w1 w2 H1 H2; simpl in *.
  - subst. auto.
  - destruct H1 as [a [b [-> [Ha Hb]]]]. exists a, (b ++ w2). rewrite app_assoc. repeat split; auto.
Qed.

Lemma lpow_split : forall A (L : lang A) i j w, lpow L (i + j) w ->
  exists w1 w2, w = w1 ++ w2 /\ lpow L i w1 /\ lpow L j w2.
Proof.
  induction i; intros j w H; simpl in *.
  - exists [], w. auto.
  - destruct H as [a [b [-> [Ha Hb]]]]. destruct (IHi _ _ Hb) as [c [d [-> [Hc Hd]]]].
    exists (a ++ c), d. rewrite app_assoc. repeat split; auto. exists a, c. auto.
Qed.

Lemma lseq_repeat : forall A (L : lang A) k w, lseq (repeat L k) w <-> lpow L k w.
Proof.
  induction k; intros w; simpl; [tauto|].
  split; intros [a [b [-> [Ha Hb]]]]; exists a, b; repeat split; auto; now apply IHk.
Qed.

Lemma lunion_In : forall A (Ls : list (lang A)) w, lunion Ls w <-> exists L, In L Ls /\ L w.
Proof.
  induction Ls as [|L Ls IH]; intros w; simpl.
  - split; [tauto|]. intros [L [[] _]].
  - rewrite IH. split.
    + intros [H|[M [H1 H2]]]; eauto.
    + intros [M [[->|H1] H2]]; eauto.
Qed.
