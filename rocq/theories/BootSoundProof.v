(** What the bootstrap parser reads is spelled by the text. *)
From Coq Require Import String Ascii List Arith NArith Bool Lia.
From Verif Require Import Base InputModel BootModel BootSpec.
Import ListNotations.
Local Open Scope nat_scope.
Local Open Scope list_scope.

Lemma andthen_Done : forall A B (r : parsed A) (k : A -> parser B) b rest, andthen r k = Done b rest -> exists a i, r = Done a i /\ k a i = Done b rest.
Proof. intros A B [a i| |] k b rest H; simpl in H; try discriminate. eauto. Qed.

Ltac inv_then H := let a := fresh "x" in let i := fresh "i" in let E := fresh "E" in apply andthen_Done in H; destruct H as (a & i & E & H).

(** A parser of things spelled as [sp] says. *)
Definition reads {A} (sp : A -> list N -> Prop) (p : parser A) : Prop :=
  forall i a rest, p i = Done a rest -> exists bs, i = bs ++ rest /\ sp a bs.

Lemma reads_weak : forall A (sp sp' : A -> list N -> Prop) p, reads sp p -> (forall a bs, sp a bs -> sp' a bs) -> reads sp' p.
Proof. intros A sp sp' p H Hs i a rest E. destruct (H _ _ _ E) as (bs & E1 & E2). eauto. Qed.

Lemma reads_tag : forall t, reads (fun _ bs => bs = t) (tag t).
Proof.
  induction t as [|c t IH]; intros i a rest H.
  - injection H as <- <-. exists []. auto.
  - destruct i as [|d i]; [discriminate|]. cbn [tag] in H. destruct (N.eqb_spec c d) as [->|]; [|discriminate].
    destruct (IH _ _ _ H) as (bs & -> & ->). exists (d :: t). auto.
Qed.

Lemma reads_tag' : forall t i u rest, tag t i = Done u rest -> i = t ++ rest.
Proof. intros t i u rest H. destruct (reads_tag _ _ _ _ H) as (bs & -> & ->). reflexivity. Qed.

Lemma span_spec : forall f i a b, span f i = (a, b) -> i = a ++ b /\ (forall c, In c a -> f c = true) /\ (b = [] \/ exists c r, b = c :: r /\ f c = false).
Proof.
  intros f. induction i as [|c i IH]; intros a b H.
  - injection H as <- <-. repeat split; auto; try (intros c []). 
  - cbn [span] in H. destruct (f c) eqn:Ec.
    + destruct (span f i) as [a' b'] eqn:Es. injection H as <- <-. destruct (IH _ _ eq_refl) as (E1 & E2 & E3).
      subst. repeat split; auto. intros d [<-|Hd]; auto.
    + injection H as <- <-. repeat split; [intros d []|]. right. eauto.
Qed.

Lemma span_app : forall f a b, (forall c, In c a -> f c = true) -> (b = [] \/ exists c r, b = c :: r /\ f c = false) -> span f (a ++ b) = (a, b).
Proof.
  intros f. induction a as [|c a IH]; intros b H Hb.
  - destruct Hb as [->|(c & r & -> & E)]; auto. cbn [span app]. rewrite E. reflexivity.
  - cbn [span app]. rewrite (H c (or_introl eq_refl)), (IH b); auto. intros d Hd. apply H. right. auto.
Qed.

Lemma reads_while1 : forall f, reads (fun a bs => a = bs /\ a <> [] /\ forall c, In c a -> f c = true) (take_while1 f).
Proof.
  intros f i a rest H. unfold take_while1 in H. destruct (span f i) as [x y] eqn:E. destruct x as [|c x]; [discriminate|]. injection H as <- <-.
  destruct (span_spec _ _ _ _ E) as (E1 & E2 & _). exists (c :: x). repeat split; auto. discriminate.
Qed.

Lemma span_le : forall f i, length (fst (span f i)) <= length i.
Proof. intros f i. destruct (span f i) as [a b] eqn:E. apply span_spec in E as (-> & _). cbn. rewrite app_length. lia. Qed.

Lemma span_prefix : forall f i, fst (span f i) ++ skipn (length (fst (span f i))) i = i.
Proof.
  intros f i. destruct (span f i) as [a b] eqn:E. apply span_spec in E as (-> & _). cbn [fst]. rewrite skipn_app, skipn_all, Nat.sub_diag. reflexivity.
Qed.

Lemma reads_while_m_n : forall m n f, reads (fun a bs => a = bs /\ m <= length a <= n /\ forall c, In c a -> f c = true) (take_while_m_n m n f).
Proof.
  intros m n f i a rest H. unfold take_while_m_n in H. destruct (span f (firstn n i)) as [x y] eqn:E. cbn [fst] in H.
  destruct (m <=? length x) eqn:Em; [|discriminate]. injection H as <- <-. apply Nat.leb_le in Em.
  destruct (span_spec _ _ _ _ E) as (E1 & E2 & _).
  exists x. repeat split; auto.
  - assert (firstn n i = x ++ y) as X by exact E1. rewrite <- (firstn_skipn n i) at 1. rewrite X, <- app_assoc. f_equal.
    rewrite <- (firstn_skipn n i) at 2. rewrite X, <- app_assoc, skipn_app, skipn_all, Nat.sub_diag. reflexivity.
  - pose proof (firstn_le_length n i). apply (f_equal (@length N)) in E1. rewrite app_length, firstn_length in E1. lia.
Qed.

Lemma reads_orelse : forall A (sp : A -> list N -> Prop) p q, reads sp p -> reads sp q -> reads sp (orelse p q).
Proof. intros A sp p q H1 H2 i a rest H. unfold orelse in H. destruct (p i) eqn:E; [injection H as <- <-; eauto|eauto|discriminate]. Qed.

Lemma reads_pmap : forall A B (sp : A -> list N -> Prop) (sp' : B -> list N -> Prop) p f, reads sp p -> (forall a bs, sp a bs -> sp' (f a) bs) -> reads sp' (pmap p f).
Proof.
  intros A B sp sp' p f H Hf i b rest E. unfold pmap in E. inv_then E. injection E as <- <-. destruct (H _ _ _ E0) as (bs & -> & X). eauto.
Qed.

(** ** Characters *)

Definition all_bytes : list N := map N.of_nat (seq 0 256).
Lemma all_bytes_in : forall c, (c < 256)%N -> In c all_bytes.
Proof. intros c H. unfold all_bytes. apply in_map_iff. exists (N.to_nat c). split; [lia|]. apply in_seq. lia. Qed.

Lemma stands_iff : forall c, stands_for_itself c = true <-> (c < 128)%N /\ ~ In c reserved.
Proof.
  intros c. unfold stands_for_itself. rewrite andb_true_iff, N.ltb_lt, negb_true_iff. apply and_iff_compat_l.
  assert (In c reserved <-> existsb (N.eqb c) (map code ["]"; "/"; "\"; ")"; "|"; "+"; "*"; "?"; "009"; "013"; "010"]%char) = true) as X.
  { rewrite existsb_exists. split.
    - intros H. exists c. split; [exact H|apply N.eqb_refl].
    - intros (x & H & E). apply N.eqb_eq in E. subst x. exact H. }
  rewrite X. destruct (existsb _ _); split; congruence.
Qed.

Lemma reads_unescaped : reads spells_char parse_char_unescaped.
Proof.
  intros i a rest H. unfold parse_char_unescaped in H. inv_then H. injection H as <- <-.
  destruct (reads_while_m_n _ _ _ _ _ _ E) as (bs & -> & <- & Hl & Hf). destruct x as [|c [|d x]]; cbn [length] in Hl; try lia.
  exists [c]. split; auto. cbn [hd]. specialize (Hf c (or_introl eq_refl)). apply stands_iff in Hf. constructor; apply Hf.
Qed.

Lemma hex_ok : forall c, is_hex c = true -> exists v, hex_is c v /\ N.of_nat v = hex_digit c.
Proof.
  intros c H. assert (c < 256)%N as Hc.
  { unfold is_hex, in_range in H. rewrite !orb_true_iff, !andb_true_iff, !N.leb_le in H. change (code "9") with 57%N in H. change (code "f") with 102%N in H. change (code "F") with 70%N in H. lia. }
  apply all_bytes_in in Hc. revert H.
  assert (forallb (fun c => negb (is_hex c) || existsb (fun v => match nth_error (bytes "0123456789abcdef") v with Some d => (d =? c)%N | None => false end && (N.of_nat v =? hex_digit c)%N
     || match nth_error (bytes "0123456789ABCDEF") v with Some d => (d =? c)%N | None => false end && (N.of_nat v =? hex_digit c)%N) (seq 0 16)) all_bytes = true) as X by (vm_compute; reflexivity).
  rewrite forallb_forall in X. specialize (X c Hc). cbv beta in X. intros H. rewrite H in X. cbn [negb orb] in X.
  apply existsb_exists in X as (v & _ & X). exists v. unfold hex_is. apply orb_true_iff in X as [X|X]; apply andb_true_iff in X as [X1 X2]; apply N.eqb_eq in X2; split; auto.
  - left. destruct (nth_error (bytes "0123456789abcdef") v); [|discriminate]. apply N.eqb_eq in X1. congruence.
  - right. destruct (nth_error (bytes "0123456789ABCDEF") v); [|discriminate]. apply N.eqb_eq in X1. congruence.
Qed.

Lemma radix_ok : forall ds, (forall c, In c ds -> is_hex c = true) -> hex_number ds (from_radix_16 ds).
Proof.
  induction ds as [|d ds IH] using rev_ind; intros H; [constructor|].
  destruct (hex_ok d) as (v & Hv & Ev); [apply H, in_or_app; right; left; auto|].
  unfold from_radix_16. rewrite fold_left_app. cbn [fold_left]. rewrite <- Ev, N.mul_comm. apply hn_snoc; auto.
  apply IH. intros c Hc. apply H, in_or_app. auto.
Qed.

Lemma from_u32_iff : forall n c, from_u32 n = Some c <-> c = n /\ scalar n.
Proof.
  intros n c. unfold from_u32, scalar, CHAR_MAX. destruct ((n <? 55296)%N || (57343 <? n)%N && (n <=? 1114111)%N) eqn:E.
  - apply orb_true_iff in E. rewrite andb_true_iff, !N.ltb_lt, N.leb_le in E. split; [intros H; injection H as <-|intros [-> _]]; auto.
  - apply orb_false_iff in E. rewrite andb_false_iff, !N.ltb_ge, N.leb_gt in E. split; [discriminate|]. intros [_ H]. exfalso. lia.
Qed.

Lemma reads_escaped : reads spells_char parse_char_escaped.
Proof.
  intros i a rest H. unfold parse_char_escaped in H. inv_then H. apply reads_tag' in E. subst i.
  inv_then H. destruct i0 as [|ch i0]; [discriminate|]. injection E as <- <-.
  repeat match type of H with
  | (if (ch =? ?k)%N then Done _ _ else _) = _ => destruct (N.eqb_spec ch k) as [->|];
      [injection H as <- <-; eexists (bytes "\" ++ [_]); split; [reflexivity|constructor]|]
  end.
  destruct (N.eqb_spec ch (code "u")) as [->|]; [|discriminate].
  inv_then H. apply reads_tag' in E. subst i0. inv_then H. destruct (reads_while_m_n _ _ _ _ _ _ E) as (ds & -> & -> & Hl & Hf).
  inv_then H. apply reads_tag' in E0. subst i0. destruct (from_u32 (from_radix_16 ds)) as [c|] eqn:Eu; [|discriminate]. injection H as -> ->.
  apply from_u32_iff in Eu as [-> Hs]. exists (bytes "\u{" ++ ds ++ bytes "}"). split.
  - cbn [bytes app map list_ascii_of_string]. rewrite <- app_assoc. reflexivity.
  - constructor; auto. apply radix_ok; auto.
Qed.

Lemma reads_char : reads spells_char parse_char.
Proof. apply reads_orelse; [apply reads_unescaped|apply reads_escaped]. Qed.

Lemma spells_char_nonempty : forall c bs, spells_char c bs -> bs <> [].
Proof. intros c bs H. destruct H; cbn; discriminate. Qed.

Lemma reads_range : reads spells_range parse_char_or_range.
Proof.
  apply reads_orelse.
  - intros i a rest H. unfold pmap in H. inv_then H. injection H as <- <-. unfold parse_char_range in E. inv_then E. inv_then E. inv_then E. injection E as <- <-.
    apply reads_char in E0 as (b1 & -> & H1). apply reads_tag' in E1. subst i1. apply reads_char in E2 as (b2 & -> & H2).
    exists (b1 ++ bytes "-" ++ b2). split; [rewrite <- !app_assoc; reflexivity|]. constructor; auto.
  - apply (reads_pmap _ _ spells_char); [apply reads_char|]. intros. constructor; auto.
Qed.

(** ** Repetition.  What the loops of [many1] and [separated_list1] read. *)

Inductive chain {A} (f : parser A) : list A -> list N -> list N -> Prop :=
| ch_nil i : f i = Fail -> chain f [] i i
| ch_cons i a i1 l r : f i = Done a i1 -> chain f l i1 r -> chain f (a :: l) i r.

Lemma many_loop_inv : forall A (f : parser A) fuel i acc l r, many_loop fuel f i acc = Done l r -> exists l', l = acc ++ l' /\ chain f l' i r.
Proof.
  intros A f. induction fuel as [|fuel IH]; intros i acc l r H; [discriminate|]. cbn [many_loop] in H.
  destruct (f i) as [a i1| |] eqn:E; [|injection H as <- <-; exists []; rewrite app_nil_r; split; auto; constructor; auto|discriminate].
  destruct (_ =? _); [discriminate|]. destruct (IH _ _ _ _ H) as (l' & -> & Hc). exists (a :: l'). rewrite <- app_assoc. split; auto. econstructor; eauto.
Qed.

Lemma many1_inv : forall A (f : parser A) fuel i l r, many1 fuel f i = Done l r -> l <> [] /\ chain f l i r.
Proof.
  intros A f fuel i l r H. unfold many1 in H. inv_then H. apply many_loop_inv in H as (l' & -> & Hc). split; [discriminate|]. econstructor; eauto.
Qed.

Inductive sep_chain {A B} (sep : parser B) (f : parser A) : list A -> list N -> list N -> Prop :=
| sch_nil i : (sep i = Fail \/ exists b i1, sep i = Done b i1 /\ f i1 = Fail) -> sep_chain sep f [] i i
| sch_cons i b i1 a i2 l r : sep i = Done b i1 -> f i1 = Done a i2 -> sep_chain sep f l i2 r -> sep_chain sep f (a :: l) i r.

Lemma sep_loop_inv : forall A B (sep : parser B) (f : parser A) fuel i acc l r, separated_loop fuel sep f i acc = Done l r ->
  exists l', l = acc ++ l' /\ sep_chain sep f l' i r.
Proof.
  intros A B sep f. induction fuel as [|fuel IH]; intros i acc l r H; [discriminate|]. cbn [separated_loop] in H.
  destruct (sep i) as [b i1| |] eqn:E; [|injection H as <- <-; exists []; rewrite app_nil_r; split; auto; constructor; auto|discriminate].
  destruct (_ =? _); [discriminate|]. destruct (f i1) as [a i2| |] eqn:E2; [|injection H as <- <-; exists []; rewrite app_nil_r; split; auto; constructor; eauto|discriminate].
  destruct (IH _ _ _ _ H) as (l' & -> & Hc). exists (a :: l'). rewrite <- app_assoc. split; auto. econstructor; eauto.
Qed.

Lemma sep1_inv : forall A B (sep : parser B) (f : parser A) fuel i l r, separated_list1 fuel sep f i = Done l r ->
  exists a l' i1, l = a :: l' /\ f i = Done a i1 /\ sep_chain sep f l' i1 r.
Proof.
  intros A B sep f fuel i l r H. unfold separated_list1 in H. inv_then H. apply sep_loop_inv in H as (l' & -> & Hc). exists x, l', i0. auto.
Qed.

(** ** Regular expressions *)

Lemma chain_ranges : forall l i r, chain parse_char_or_range l i r -> l <> [] -> exists bs, i = bs ++ r /\ spells_ranges false l bs.
Proof.
  intros l i r H. induction H as [i E|i a i1 l r E H IH]; [congruence|]. intros _.
  apply reads_range in E as (b & -> & Hb). destruct l as [|x l].
  - inversion H; subst. exists b. split; auto. constructor; auto. discriminate.
  - destruct IH as (bs & -> & IH); [discriminate|]. exists (b ++ bs). rewrite <- app_assoc. split; auto. constructor; auto. discriminate.
Qed.

Lemma reads_set : forall fuel, reads (regex_atom false) (parse_char_set fuel).
Proof.
  intros fuel i a rest H. unfold parse_char_set in H. inv_then H. apply reads_tag' in E. subst i. inv_then H. inv_then H. inv_then H. injection H as <- <-.
  apply many1_inv in E0 as [Hn Hc]. apply chain_ranges in Hc as (bs & -> & Hs); auto. apply reads_tag' in E1. subst i1.
  unfold opt in E. destruct (tag (bytes "^") i0) as [u i1| |] eqn:Et; [| |discriminate]; injection E as <- ->.
  - apply reads_tag' in Et. subst i0. exists (bytes "[^" ++ bs ++ bytes "]"). split; [cbn; rewrite <- !app_assoc; reflexivity|]. apply ra_complement; auto.
  - exists (bytes "[" ++ bs ++ bytes "]"). split; [rewrite <- !app_assoc; reflexivity|]. apply ra_set; auto. discriminate.
Qed.

Definition seq_spelled (p : pattern) (bs : list N) : Prop := exists l, p = PSeq l /\ regex_items false l bs.

Lemma sep_chain_choices : forall seq, reads seq_spelled seq -> forall l i r, sep_chain (tag (bytes "|")) seq l i r ->
  l = [] /\ i = r \/ exists bs, i = bytes "|" ++ bs ++ r /\ regex_choices false l bs.
Proof.
  intros seq Hs l i r H. induction H as [i E|i b i1 a i2 l r E1 E2 H IH]; [auto|]. right.
  apply reads_tag' in E1. subst i. apply Hs in E2 as (bs & -> & (ps & -> & Hp)). destruct IH as [[-> ->]|(bs' & -> & IH)].
  - exists bs. split; auto. constructor; auto.
  - exists (bs ++ bytes "|" ++ bs'). split; [rewrite <- !app_assoc; reflexivity|]. constructor; auto.
Qed.

Lemma reads_group : forall fuel seq, reads seq_spelled seq -> reads (regex_atom false) (parse_regex_group fuel seq).
Proof.
  intros fuel seq Hs i p rest H. unfold parse_regex_group in H. inv_then H. apply reads_tag' in E. subst i. inv_then H. inv_then H.
  apply reads_tag' in E0. subst i. injection H as <- <-. apply sep1_inv in E as (a & l & j1 & -> & E & Hc).
  apply Hs in E as (bs & -> & (ps & -> & Hp)). apply sep_chain_choices in Hc; auto. destruct Hc as [[-> ->]|(bs' & -> & Hc)].
  - exists (bytes "(" ++ bs ++ bytes ")"). split; [rewrite <- !app_assoc; reflexivity|]. apply ra_group. constructor; auto.
  - exists (bytes "(" ++ (bs ++ bytes "|" ++ bs') ++ bytes ")"). split; [rewrite <- !app_assoc; reflexivity|].
    destruct l as [|q l]; [inversion Hc|]. apply ra_choice; [cbn; lia|]. constructor; auto.
Qed.

Lemma reads_element : forall fuel seq, reads seq_spelled seq -> reads (regex_atom false) (parse_regex_element fuel seq).
Proof.
  intros fuel seq Hs. unfold parse_regex_element. apply reads_orelse; [apply reads_group; auto|]. apply reads_orelse; [apply reads_set|]. apply reads_orelse.
  - eapply reads_pmap; [apply reads_tag|]. intros u bs ->. apply ra_any.
  - eapply reads_pmap; [apply reads_char|]. intros c bs Hc. apply ra_char; auto. discriminate.
Qed.

Lemma kind_cases : forall i k rest, parse_repetition_kind i = Done k rest ->
  k = None /\ i = rest \/ k = Some 0%N /\ i = bytes "*" ++ rest \/ k = Some 1%N /\ i = bytes "+" ++ rest \/ k = Some 2%N /\ i = bytes "?" ++ rest.
Proof.
  intros i k rest H. unfold parse_repetition_kind, opt, orelse, pmap in H.
  destruct (tag (bytes "*") i) as [u r| |] eqn:E1; cbn [andthen] in H; [injection H as <- <-; apply reads_tag' in E1; auto| |discriminate].
  destruct (tag (bytes "+") i) as [u r| |] eqn:E2; cbn [andthen] in H; [injection H as <- <-; apply reads_tag' in E2; auto| |discriminate].
  destruct (tag (bytes "?") i) as [u r| |] eqn:E3; cbn [andthen] in H; [injection H as <- <-; apply reads_tag' in E3; auto 6| |discriminate].
  injection H as <- <-. auto.
Qed.

Lemma reads_repetition : forall fuel seq, reads seq_spelled seq -> reads (regex_item false) (parse_regex_repetition fuel seq).
Proof.
  intros fuel seq Hs i p rest H. unfold parse_regex_repetition in H. inv_then H. apply reads_element in E as (bs & -> & Hb); auto. inv_then H. injection H as <- <-.
  apply kind_cases in E as [[-> ->]|[[-> ->]|[[-> ->]|[-> ->]]]]; cbn iota.
  - exists bs. split; auto. constructor; auto.
  - exists (bs ++ bytes "*"). split; [rewrite <- app_assoc; reflexivity|apply ri_star; auto].
  - exists (bs ++ bytes "+"). split; [rewrite <- app_assoc; reflexivity|apply ri_plus; auto].
  - exists (bs ++ bytes "?"). split; [rewrite <- app_assoc; reflexivity|apply ri_option; auto].
Qed.

Lemma chain_items : forall f, reads (regex_item false) f -> forall l i r, chain f l i r -> l <> [] -> exists bs, i = bs ++ r /\ regex_items false l bs.
Proof.
  intros f Hf l i r H. induction H as [i E|i a i1 l r E H IH]; [congruence|]. intros _.
  apply Hf in E as (b & -> & Hb). destruct l as [|x l].
  - inversion H; subst. exists b. split; auto. constructor; auto.
  - destruct IH as (bs & -> & IH); [discriminate|]. exists (b ++ bs). rewrite <- app_assoc. split; auto. constructor; auto.
Qed.

Lemma reads_sequence : forall fuel, reads seq_spelled (parse_regex_sequence fuel).
Proof.
  induction fuel as [|fuel IH]; intros i p rest H; [discriminate|]. cbn [parse_regex_sequence] in H. inv_then H. injection H as <- <-.
  apply many1_inv in E as [Hn Hc]. eapply chain_items in Hc as (bs & -> & Hb); [|apply reads_repetition; auto|auto]. exists bs. split; auto. exists x. auto.
Qed.

Lemma reads_pattern : forall fuel, reads (spells_token_pattern false) (parse_pattern fuel).
Proof.
  intros fuel. apply reads_orelse.
  - intros i p rest H. unfold parse_literal_pattern in H. inv_then H. apply reads_tag' in E. subst i. inv_then H. inv_then H. apply reads_tag' in E0. subst i. injection H as <- <-.
    apply reads_while1 in E as (bs & -> & <- & Hn & Hf). exists ([34%N] ++ x0 ++ [34%N]). split; [rewrite <- !app_assoc; reflexivity|]. constructor; auto.
    intros c Hc. specialize (Hf c Hc). unfold in_literal in Hf. rewrite andb_true_iff, negb_true_iff, N.eqb_neq, N.ltb_lt in Hf. tauto.
  - intros i p rest H. unfold parse_regex_pattern in H. inv_then H. apply reads_tag' in E. subst i. inv_then H. inv_then H. apply reads_tag' in E0. subst i. injection H as <- <-.
    apply reads_sequence in E as (bs & -> & (l & -> & Hl)). exists (bytes "/" ++ bs ++ bytes "/"). split; [rewrite <- !app_assoc; reflexivity|]. constructor; auto.
Qed.

(** ** Names and blanks *)

Lemma in_name_iff : forall c, in_name c = true <-> name_char c.
Proof.
  intros c. unfold in_name, in_range, name_char. rewrite !orb_true_iff, !andb_true_iff, !N.leb_le, N.eqb_eq.
  change (code "a") with 97%N. change (code "z") with 122%N. change (code "A") with 65%N. change (code "Z") with 90%N. change (code "_") with 95%N. tauto.
Qed.

Lemma bytes_name_of : forall bs, (forall c, In c bs -> (c < 256)%N) -> bytes (name_of bs) = bs.
Proof.
  intros bs H. unfold bytes, name_of. rewrite list_ascii_of_string_of_list_ascii, map_map.
  rewrite <- (map_id bs) at 2. apply map_ext_in. intros c Hc. apply N_ascii_embedding. auto.
Qed.

Lemma name_of_bytes : forall s, name_of (bytes s) = s.
Proof.
  intros s. unfold bytes, name_of. rewrite map_map, <- (string_of_list_ascii_of_string s) at 1.
  rewrite list_ascii_of_string_of_list_ascii. rewrite <- (string_of_list_ascii_of_string s) at 2. f_equal.
  rewrite <- map_id. apply map_ext. intros a. apply ascii_N_embedding.
Qed.

Lemma reads_name : reads (fun a bs => a = bs /\ is_name (name_of a) /\ bytes (name_of a) = a) parse_symbol_name.
Proof.
  intros i a rest H. apply reads_while1 in H as (bs & -> & <- & Hn & Hf). exists a. split; auto. split; auto.
  assert (bytes (name_of a) = a) as X.
  { apply bytes_name_of. intros c Hc. specialize (Hf c Hc). apply in_name_iff in Hf. unfold name_char in Hf. lia. }
  split; auto. split; [|rewrite X; intros c Hc; apply in_name_iff; auto]. intros E. rewrite E in X. cbn in X. congruence.
Qed.

Lemma is_space_iff : forall c, is_space c = true <-> In c [32; 9]%N.
Proof. intros c. unfold is_space. rewrite orb_true_iff, !N.eqb_eq. cbn [In]. intuition congruence. Qed.
Lemma is_multispace_iff : forall c, is_multispace c = true <-> In c [32; 9; 13; 10]%N.
Proof. intros c. unfold is_multispace. rewrite !orb_true_iff, !N.eqb_eq. cbn [In]. intuition congruence. Qed.

Lemma reads_space1 : reads (fun _ bs => blank bs) space1.
Proof. intros i a rest H. apply reads_while1 in H as (bs & -> & <- & Hn & Hf). exists a. split; auto. split; auto. intros c Hc. apply is_space_iff; auto. Qed.
Lemma reads_multispace1 : reads (fun _ bs => white bs /\ bs <> []) multispace1.
Proof. intros i a rest H. apply reads_while1 in H as (bs & -> & <- & Hn & Hf). exists a. split; auto. split; auto. intros c Hc. apply is_multispace_iff; auto. Qed.
Lemma reads_multispace0 : reads (fun _ bs => white bs) multispace0.
Proof.
  intros i a rest H. unfold multispace0 in H. destruct (span is_multispace i) as [x y] eqn:E. injection H as <- <-. apply span_spec in E as (-> & Hf & _).
  exists x. split; auto. intros c Hc. apply is_multispace_iff; auto.
Qed.

(** ** Productions *)

Definition pseq_spelled (p : prod_pattern) (bs : list N) : Prop := exists l, p = QSeq l /\ prod_items l bs.

Lemma sep_chain_pchoices : forall seq, reads pseq_spelled seq -> forall l i r, sep_chain (tag (bytes " | ")) seq l i r ->
  l = [] /\ i = r \/ exists bs, i = bytes " | " ++ bs ++ r /\ prod_choices l bs.
Proof.
  intros seq Hs l i r H. induction H as [i E|i b i1 a i2 l r E1 E2 H IH]; [auto|]. right.
  apply reads_tag' in E1. subst i. apply Hs in E2 as (bs & -> & (ps & -> & Hp)). destruct IH as [[-> ->]|(bs' & -> & IH)].
  - exists bs. split; auto. constructor; auto.
  - exists (bs ++ bytes " | " ++ bs'). split; [rewrite <- !app_assoc; reflexivity|]. constructor; auto.
Qed.

Lemma reads_pgroup : forall fuel seq, reads pseq_spelled seq -> reads prod_atom (parse_production_group fuel seq).
Proof.
  intros fuel seq Hs i p rest H. unfold parse_production_group in H. inv_then H. apply reads_tag' in E. subst i. inv_then H. inv_then H.
  apply reads_tag' in E0. subst i. injection H as <- <-. apply sep1_inv in E as (a & l & j1 & -> & E & Hc).
  apply Hs in E as (bs & -> & (ps & -> & Hp)). apply sep_chain_pchoices in Hc; auto. destruct Hc as [[-> ->]|(bs' & -> & Hc)].
  - exists (bytes "(" ++ bs ++ bytes ")"). split; [rewrite <- !app_assoc; reflexivity|]. apply pa_group. constructor; auto.
  - exists (bytes "(" ++ (bs ++ bytes " | " ++ bs') ++ bytes ")"). split; [rewrite <- !app_assoc; reflexivity|].
    destruct l as [|q l]; [inversion Hc|]. apply pa_choice; [cbn; lia|]. constructor; auto.
Qed.

Lemma reads_rule_name : reads prod_atom parse_rule_name.
Proof.
  intros i p rest H. unfold parse_rule_name, pmap in H. inv_then H. injection H as <- <-. apply reads_name in E as (bs & -> & <- & Hn & Eb).
  exists x. split; auto. rewrite <- Eb at 2. constructor; auto.
Qed.

Lemma reads_prepetition : forall fuel seq, reads pseq_spelled seq -> reads prod_item (parse_production_repetition fuel seq).
Proof.
  intros fuel seq Hs i p rest H. unfold parse_production_repetition in H. inv_then H.
  assert (reads prod_atom (parse_production_element fuel seq)) as X by (apply reads_orelse; [apply reads_pgroup; auto|apply reads_rule_name]).
  apply X in E as (bs & -> & Hb); auto. inv_then H. injection H as <- <-.
  apply kind_cases in E as [[-> ->]|[[-> ->]|[[-> ->]|[-> ->]]]]; cbn iota.
  - exists bs. split; auto. constructor; auto.
  - exists (bs ++ bytes "*"). split; [rewrite <- app_assoc; reflexivity|apply pi_star; auto].
  - exists (bs ++ bytes "+"). split; [rewrite <- app_assoc; reflexivity|apply pi_plus; auto].
  - exists (bs ++ bytes "?"). split; [rewrite <- app_assoc; reflexivity|apply pi_option; auto].
Qed.

Lemma sep_chain_items : forall f, reads prod_item f -> forall l i r, sep_chain space1 f l i r ->
  l = [] /\ i = r \/ exists sp bs, blank sp /\ i = sp ++ bs ++ r /\ prod_items l bs.
Proof.
  intros f Hf l i r H. induction H as [i E|i b i1 a i2 l r E1 E2 H IH]; [auto|]. right.
  apply reads_space1 in E1 as (sp & -> & Hsp). apply Hf in E2 as (bs & -> & Hp). exists sp. destruct IH as [[-> ->]|(sp' & bs' & Hsp' & -> & IH)].
  - exists bs. split; auto. split; auto. constructor; auto.
  - exists (bs ++ sp' ++ bs'). split; auto. split; [rewrite <- !app_assoc; reflexivity|]. constructor; auto.
Qed.

Lemma reads_production : forall fuel, reads pseq_spelled (parse_production_pattern fuel).
Proof.
  induction fuel as [|fuel IH]; intros i p rest H; [discriminate|]. cbn [parse_production_pattern] in H. inv_then H. injection H as <- <-.
  pose proof (reads_prepetition fuel _ IH) as X. apply sep1_inv in E as (a & l & j1 & -> & E & Hc). apply X in E as (bs & -> & Hp). apply sep_chain_items in Hc; auto.
  destruct Hc as [[-> ->]|(sp & bs' & Hsp & -> & Hc)].
  - exists bs. split; auto. exists [a]. split; auto. constructor; auto.
  - exists (bs ++ sp ++ bs'). split; [rewrite <- !app_assoc; reflexivity|]. exists (a :: l). split; auto. constructor; auto.
Qed.

(** ** Rules and files *)

Ltac tagged E := apply reads_tag' in E; subst.

Lemma reads_token_rule : forall fuel, reads (fun r => spells_rule false (FToken r)) (parse_token_rule fuel).
Proof.
  intros fuel i r rest H. unfold parse_token_rule in H. do 8 inv_then H. injection H as <- <-.
  apply reads_tag' in E. subst i. apply reads_space1 in E0 as (b1 & -> & H1). apply reads_name in E1 as (nb & -> & <- & Hn & En). apply reads_space1 in E2 as (b2 & -> & H2).
  apply reads_tag' in E3. subst i3. apply reads_space1 in E4 as (b3 & -> & H3). apply reads_pattern in E5 as (bs & -> & Hp). apply reads_tag' in E6. subst i6.
  eexists. split; [|apply (sf_token _ _ _ b1 b2 b3); eauto]. rewrite En, <- !app_assoc. reflexivity.
Qed.

Lemma reads_production_rule : forall fuel, reads (fun r => spells_rule false (FProd r)) (parse_production_rule fuel).
Proof.
  intros fuel i r rest H. unfold parse_production_rule in H. do 8 inv_then H. injection H as <- <-.
  apply reads_tag' in E. subst i. apply reads_space1 in E0 as (b1 & -> & H1). apply reads_name in E1 as (nb & -> & <- & Hn & En). apply reads_space1 in E2 as (b2 & -> & H2).
  apply reads_tag' in E3. subst i3. apply reads_space1 in E4 as (b3 & -> & H3). apply reads_production in E5 as (bs & -> & (l & -> & Hp)). apply reads_tag' in E6. subst i6.
  eexists. split; [|apply (sf_prod _ _ _ b1 b2 b3); eauto]. rewrite En, <- !app_assoc. reflexivity.
Qed.

Lemma reads_entry_rule : reads (fun r => spells_rule false (FEntry r)) parse_entry_rule.
Proof.
  intros i r rest H. unfold parse_entry_rule in H. do 4 inv_then H. injection H as <- <-.
  apply reads_tag' in E. subst i. apply reads_space1 in E0 as (b1 & -> & H1). apply reads_name in E1 as (nb & -> & <- & Hn & En). apply reads_tag' in E2. subst i2.
  eexists. split; [|apply sf_entry; eauto]. rewrite En, <- !app_assoc. reflexivity.
Qed.

Lemma reads_rule : forall fuel, reads (spells_rule false) (parse_rule fuel).
Proof.
  intros fuel. unfold parse_rule. apply reads_orelse; [|apply reads_orelse].
  - eapply reads_pmap; [apply reads_token_rule|]. auto.
  - eapply reads_pmap; [apply reads_production_rule|]. auto.
  - eapply reads_pmap; [apply reads_entry_rule|]. auto.
Qed.

Lemma sep_chain_rules : forall f, reads (spells_rule false) f -> forall l i r, sep_chain multispace1 f l i r ->
  l = [] /\ i = r \/ exists sp bs, white sp /\ sp <> [] /\ i = sp ++ bs ++ r /\ spells_rules false l bs.
Proof.
  intros f Hf l i r H. induction H as [i E|i b i1 a i2 l r E1 E2 H IH]; [auto|]. right.
  apply reads_multispace1 in E1 as (sp & -> & Hsp & Hs0). apply Hf in E2 as (bs & -> & Hp). exists sp. destruct IH as [[-> ->]|(sp' & bs' & Hsp' & Hs0' & -> & IH)].
  - exists bs. repeat split; auto. constructor; auto.
  - exists (bs ++ sp' ++ bs'). repeat split; auto; [rewrite <- !app_assoc; reflexivity|]. constructor; auto.
Qed.

Lemma reads_file : forall fuel, reads (spells_file false) (parse_lapex_file_raw fuel).
Proof.
  intros fuel i rules rest H. unfold parse_lapex_file_raw in H. do 3 inv_then H. injection H as <- <-.
  apply reads_multispace0 in E as (w1 & -> & H1). apply sep1_inv in E0 as (a & l & j3 & -> & E & Hc). apply reads_rule in E as (bs & -> & Ha).
  apply reads_multispace0 in E1 as (w2 & -> & H2). apply sep_chain_rules in Hc; [|apply reads_rule]. destruct Hc as [[-> ->]|(sp & bs' & Hsp & Hs0 & -> & Hc)].
  - eexists. split; [|exists w1, bs, w2; split; [auto|split; [constructor; eauto|split; [auto|reflexivity]]]]. rewrite <- !app_assoc. reflexivity.
  - eexists. split; [|exists w1, (bs ++ sp ++ bs'), w2; split; [auto|split; [constructor; eauto|split; [auto|reflexivity]]]]. rewrite <- !app_assoc. reflexivity.
Qed.
