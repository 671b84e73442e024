(** Proofs about names in emitted parsers. *)
From Coq Require Import String Ascii List Arith NArith Bool Lia DecimalString Permutation.
From Verif Require Import Base InputModel GrammarModel NamesModel NamesSpec.
Import ListNotations.
Local Open Scope string_scope.

(** ** Characters: by enumeration of the 256 bytes *)

Lemma all_bytes : forall f : ascii -> bool, forallb f (map ascii_of_nat (seq 0 256)) = true -> forall c, f c = true.
Proof.
  intros f H c. rewrite forallb_forall in H. apply H. rewrite <- (ascii_nat_embedding c). apply in_map. apply in_seq. split; [lia|].
  pose proof (nat_ascii_bounded c). lia.
Qed.


Lemma lower_lower : forall c, ascii_lower (ascii_lower c) = ascii_lower c.
Proof. intros c. apply Ascii.eqb_eq. exact (all_bytes (fun c => Ascii.eqb (ascii_lower (ascii_lower c)) (ascii_lower c)) eq_refl c). Qed.
Lemma lower_not_upper : forall c, is_upper (ascii_lower c) = false.
Proof. intros c. apply negb_true_iff. exact (all_bytes (fun c => negb (is_upper (ascii_lower c))) eq_refl c). Qed.
Lemma lower_upper : forall c, ascii_lower (ascii_upper c) = ascii_lower c.
Proof. intros c. apply Ascii.eqb_eq. exact (all_bytes (fun c => Ascii.eqb (ascii_lower (ascii_upper c)) (ascii_lower c)) eq_refl c). Qed.
Lemma upper_lower : forall c, ascii_upper (ascii_lower c) = ascii_upper c.
Proof. intros c. apply Ascii.eqb_eq. exact (all_bytes (fun c => Ascii.eqb (ascii_upper (ascii_lower c)) (ascii_upper c)) eq_refl c). Qed.
Lemma upper_is_upper : forall c, letter c = is_upper (ascii_upper c).
Proof. intros c. apply eqb_prop. exact (all_bytes (fun c => eqb (letter c) (is_upper (ascii_upper c))) eq_refl c). Qed.
Lemma not_letter_same : forall c, letter c = false -> ascii_lower c = c /\ ascii_upper c = c.
Proof.
  intros c H. pose proof (all_bytes (fun c => letter c || (Ascii.eqb (ascii_lower c) c && Ascii.eqb (ascii_upper c) c)) eq_refl c) as X. cbv beta in X. rewrite H in X. cbn in X.
  apply andb_prop in X. destruct X as [A B]. apply Ascii.eqb_eq in A. apply Ascii.eqb_eq in B. auto.
Qed.
Lemma lower_letter : forall c, letter (ascii_lower c) = letter c.
Proof. intros c. apply eqb_prop. exact (all_bytes (fun c => eqb (letter (ascii_lower c)) (letter c)) eq_refl c). Qed.
Lemma lower_underscore : forall c, Ascii.eqb (ascii_lower c) "_" = Ascii.eqb c "_".
Proof. intros c. apply eqb_prop. exact (all_bytes (fun c => eqb (Ascii.eqb (ascii_lower c) "_") (Ascii.eqb c "_")) eq_refl c). Qed.
Lemma lower_ascii : forall c, (N_of_ascii c < 128)%N -> (N_of_ascii (ascii_lower c) < 128)%N.
Proof.
  intros c H. apply N.ltb_lt. pose proof (all_bytes (fun c => negb (N_of_ascii c <? 128)%N || (N_of_ascii (ascii_lower c) <? 128)%N) eq_refl c) as X. cbv beta in X.
  apply N.ltb_lt in H. rewrite H in X. exact X.
Qed.
Lemma ascii_not_continuation : forall c, (N_of_ascii c < 128)%N -> continuation c = false.
Proof. intros c H. unfold continuation. destruct (N.leb_spec 128 (N_of_ascii c)); [lia|reflexivity]. Qed.

(** ** Camel case as an automaton *)

Fixpoint camel_from (head : bool) (s : string) : option string :=
  match s with
  | EmptyString => if head then None else Some EmptyString
  | String c s' =>
    if head then if Ascii.eqb c "_" then None else option_map (String (ascii_upper c)) (camel_from false s')
    else if Ascii.eqb c "_" then camel_from true s' else option_map (String (ascii_lower c)) (camel_from false s')
  end.

Definition of_opt (o : option string) : res name_err string := match o with Some s => Ok s | None => Panic end.

Lemma split_some : forall s, exists seg segs, split_underscore s = (seg :: segs)%list.
Proof.
  induction s as [|c s (seg & segs & E)]; cbn; [eauto|]. rewrite E. destruct (Ascii.eqb c "_"); eauto.
Qed.

Lemma split_ascii : forall s, ascii_name s -> forall seg, In seg (split_underscore s) -> ascii_name seg.
Proof.
  unfold ascii_name. induction s as [|c s IH]; intros H seg Hs; cbn in *; [destruct Hs as [<-|[]]; exact I|]. destruct H as [Hc H]. destruct (split_some s) as (x & xs & E). rewrite E in Hs. specialize (IH H). rewrite E in IH.
  destruct (Ascii.eqb c "_"); destruct Hs as [<-|Hs].
  - exact I.
  - exact (IH _ Hs).
  - cbn. split; [exact Hc|]. apply IH. left. reflexivity.
  - apply IH. right. exact Hs.
Qed.

Lemma camel_auto : forall s, ascii_name s ->
  (forall seg segs, split_underscore s = (seg :: segs)%list ->
    (do segs' <- res_list (map camel_segment segs); Ok (string_map ascii_lower seg ++ fold_right append "" segs')) = of_opt (camel_from false s)) /\
  convert_snake_to_upper_camel s = of_opt (camel_from true s).
Proof.
  induction s as [|c s IH]; intros HA.
  - split; [intros seg segs E; cbn in E; injection E as <- <-; reflexivity|reflexivity].
  - destruct HA as [Hc HA]. destruct (IH HA) as [IT IH']. destruct (split_some s) as (x & xs & E). specialize (IT x xs E). unfold convert_snake_to_upper_camel in *. rewrite E in IH'. cbn [map res_list] in IH'.
    cbn [split_underscore camel_from]. rewrite E. destruct (Ascii.eqb c "_") eqn:Ec.
    + split; [|reflexivity]. intros seg segs Es. injection Es as <- <-. cbn [string_map append map res_list].
      destruct (camel_segment x) as [y| | |]; cbn [bind] in *; exact IH'.
    + split.
      * intros seg segs Es. injection Es as <- <-. cbn [string_map append]. destruct (res_list (map camel_segment xs)) as [ys| | |]; cbn [bind] in *.
        -- destruct (camel_from false s); cbn in *; [injection IT as <-; reflexivity|discriminate].
        -- destruct (camel_from false s); cbn in *; discriminate.
        -- destruct (camel_from false s); cbn in *; [discriminate|reflexivity].
        -- destruct (camel_from false s); cbn in *; discriminate.
      * cbn [map res_list]. assert (Hx : ascii_name x) by (apply (split_ascii s HA); rewrite E; left; reflexivity).
        assert (Es : camel_segment (String c x) = Ok (String (ascii_upper c) (string_map ascii_lower x))).
        { unfold camel_segment, split_at_1. destruct x as [|c' x']; [reflexivity|]. destruct Hx as [Hc' _]. rewrite (ascii_not_continuation c' Hc'). reflexivity. }
        rewrite Es. cbn [bind]. destruct (res_list (map camel_segment xs)) as [ys| | |]; cbn [bind fold_right append] in *.
        -- destruct (camel_from false s); cbn in *; [injection IT as <-; reflexivity|discriminate].
        -- destruct (camel_from false s); cbn in *; discriminate.
        -- destruct (camel_from false s); cbn in *; [discriminate|reflexivity].
        -- destruct (camel_from false s); cbn in *; discriminate.
Qed.

(** ** Panics *)

Lemma camel_none : forall s,
  (camel_from false s = None <-> exists p q, s ++ "_" = p ++ "__" ++ q) /\ (camel_from true s = None <-> empty_segment s).
Proof.
  unfold empty_segment. induction s as [|c s [IT IH]].
  - split; cbn.
    + split; [discriminate|]. intros (p & q & E). destruct p as [|a [|b p]]; cbn in E; discriminate.
    + split; [|reflexivity]. intros _. exists "", "". reflexivity.
  - cbn [camel_from]. destruct (Ascii.eqb_spec c "_") as [->|Nc].
    + split.
      * rewrite IH. reflexivity.
      * split; [|reflexivity]. intros _. exists "", (s ++ "_"). reflexivity.
    + assert (X : option_map (String (ascii_lower c)) (camel_from false s) = None <-> exists p q, String c s ++ "_" = p ++ "__" ++ q).
      { transitivity (camel_from false s = None); [destruct (camel_from false s); cbn; split; intros; congruence|]. rewrite IT. split.
        - intros (p & q & E). exists (String c p), q. cbn. rewrite E. reflexivity.
        - intros (p & q & E). destruct p as [|a p]; cbn in E; injection E as E1 E2; [congruence|]. exists p, q. exact E2. }
      split; [exact X|]. transitivity (exists p q, String c s ++ "_" = p ++ "__" ++ q).
      * rewrite <- X. destruct (camel_from false s); cbn; split; intros; congruence.
      * split.
        -- intros (p & q & E). exists (String "_" p), q. cbn [append]. f_equal. exact E.
        -- intros (p & q & E). destruct p as [|a p]; cbn in E.
           ++ injection E as E1 _. congruence.
           ++ injection E as E1 E2. exists p, q. exact E2.
Qed.

Lemma camel_panics : forall name, ascii_name name -> (convert_snake_to_upper_camel name = Panic <-> empty_segment name) /\
  (~ empty_segment name <-> exists s, convert_snake_to_upper_camel name = Ok s).
Proof.
  intros name H. destruct (camel_auto name H) as [_ E]. rewrite E. destruct (camel_none name) as [_ X]. rewrite <- X. destruct (camel_from true name) as [s|]; cbn.
  - split; split; intros Y; try discriminate; eauto.
  - split; split; intros Y; try reflexivity; try congruence; destruct Y; discriminate.
Qed.

(** ** Collisions *)

Fixpoint undo (first : bool) (s : string) : string :=
  match s with
  | EmptyString => EmptyString
  | String c s' => if is_upper c && negb first then String "_" (String (ascii_lower c) (undo false s')) else String (ascii_lower c) (undo false s')
  end.

Lemma camel_undo : forall s,
  (forall x, camel_from false s = Some x -> kept s = undo false x) /\
  (forall x, camel_from true s = Some x -> kept s = undo true x /\ undo false x = if starts_with_letter s then String "_" (kept s) else kept s).
Proof.
  induction s as [|c s [IT IH]].
  - split; intros x H; cbn in H; [injection H as <-; reflexivity|discriminate].
  - cbn [camel_from kept]. destruct (Ascii.eqb c "_") eqn:Ec.
    + split; intros x H; [|discriminate]. destruct (IH x H) as [A B]. cbn [andb]. rewrite B. destruct (starts_with_letter s); cbn [negb]; [|reflexivity].
      apply Ascii.eqb_eq in Ec. subst c. reflexivity.
    + cbn [andb]. destruct (camel_from false s) as [y|]; [|split; intros x H; discriminate]. specialize (IT y eq_refl). split; intros x H; cbn in H; injection H as <-; cbn [undo].
      * rewrite lower_not_upper. cbn [andb]. rewrite lower_lower. rewrite IT. reflexivity.
      * rewrite andb_false_r. rewrite lower_upper. rewrite IT. split; [reflexivity|]. cbn [starts_with_letter]. rewrite upper_is_upper. rewrite andb_true_r. reflexivity.
Qed.

Lemma camel_kept : forall s,
  (forall x, camel_from false s = Some x -> camel_from false (kept s) = Some x) /\
  (forall x, camel_from true s = Some x -> camel_from true (kept s) = Some x /\ (starts_with_letter s = false -> camel_from false (kept s) = Some x) /\ starts_with_letter (kept s) = starts_with_letter s).
Proof.
  induction s as [|c s [IT IH]].
  - split; intros x H; cbn in H; [injection H as <-; reflexivity|discriminate].
  - cbn [camel_from kept]. destruct (Ascii.eqb c "_") eqn:Ec.
    + split; intros x H; [|discriminate]. destruct (IH x H) as (A & B & _). cbn [andb]. destruct (starts_with_letter s); cbn [negb]; [|exact (B eq_refl)].
      cbn [camel_from]. rewrite lower_underscore, Ec. exact A.
    + cbn [andb]. destruct (camel_from false s) as [y|]; [|split; intros x H; discriminate]. specialize (IT y eq_refl). split; intros x H; cbn in H; injection H as <-.
      * cbn [camel_from]. rewrite lower_underscore, Ec, IT. cbn. rewrite lower_lower. reflexivity.
      * cbn [camel_from starts_with_letter]. rewrite lower_underscore, Ec, IT. cbn. rewrite upper_lower. split; [reflexivity|]. split; [|apply lower_letter].
        intros L. destruct (not_letter_same c L) as [L1 L2]. rewrite L1, L2. rewrite L1. reflexivity.
Qed.

Lemma kept_ascii : forall s, ascii_name s -> ascii_name (kept s).
Proof.
  induction s as [|c s IH]; intros H; cbn; [exact I|]. destruct H as [Hc H]. destruct (Ascii.eqb c "_" && negb (starts_with_letter s)); [exact (IH H)|]. split; [apply lower_ascii; exact Hc|exact (IH H)].
Qed.

Lemma camel_collisions : forall a b x y, ascii_name a -> ascii_name b -> convert_snake_to_upper_camel a = Ok x -> convert_snake_to_upper_camel b = Ok y -> (x = y <-> kept a = kept b).
Proof.
  intros a b x y Ha Hb Ea Eb. rewrite (proj2 (camel_auto a Ha)) in Ea. rewrite (proj2 (camel_auto b Hb)) in Eb.
  destruct (camel_from true a) as [xa|] eqn:Fa; [|discriminate]. destruct (camel_from true b) as [xb|] eqn:Fb; [|discriminate]. injection Ea as ->. injection Eb as ->. split.
  - intros <-. rewrite (proj1 (proj2 (camel_undo a) x Fa)). rewrite (proj1 (proj2 (camel_undo b) x Fb)). reflexivity.
  - intros E. pose proof (proj1 (proj2 (camel_kept a) x Fa)) as A. pose proof (proj1 (proj2 (camel_kept b) y Fb)) as B. rewrite E, B in A. injection A as <-. reflexivity.
Qed.
