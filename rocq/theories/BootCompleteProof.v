(** The bootstrap parser reads every strict spelling, and its fuel suffices. *)
From Coq Require Import String Ascii List Arith NArith Bool Lia.
From Verif Require Import Base InputModel BootModel BootSpec BootSoundProof.
Import ListNotations.
Local Open Scope nat_scope.
Local Open Scope list_scope.

Lemma tag_app : forall t r, tag t (t ++ r) = Done tt r.
Proof. induction t as [|c t IH]; intros r; cbn [tag app]; auto. rewrite N.eqb_refl. auto. Qed.

Lemma tag_fed : forall t i, tag t i <> Starved.
Proof. induction t as [|c t IH]; intros i; cbn [tag]; [discriminate|]. destruct i; [discriminate|]. destruct (_ =? _)%N; [auto|discriminate]. Qed.

Lemma tag1_fail : forall (c : ascii) i, ~ begins (String c EmptyString) i -> tag (bytes (String c EmptyString)) i = Fail.
Proof.
  intros c i H. destruct i as [|d i]; [reflexivity|]. cbn. destruct (N.eqb_spec (N_of_ascii c) d) as [<-|]; [|reflexivity].
  exfalso. apply H. exists (N_of_ascii c), i. split; [auto|left; auto].
Qed.

Definition halts (f : N -> bool) (i : list N) : Prop := i = [] \/ exists c r, i = c :: r /\ f c = false.

Lemma while1_app : forall f a rest, a <> [] -> (forall c, In c a -> f c = true) -> halts f rest -> take_while1 f (a ++ rest) = Done a rest.
Proof. intros f a rest Hn Ha Hr. unfold take_while1. rewrite (span_app f a rest Ha Hr). destruct a; congruence. Qed.

Lemma while1_fed : forall f i, take_while1 f i <> Starved.
Proof. intros f i. unfold take_while1. destruct (span f i) as [[|c a] b]; discriminate. Qed.

Lemma while1_halt : forall f i, halts f i -> take_while1 f i = Fail.
Proof. intros f i [->|(c & r & -> & E)]; [reflexivity|]. unfold take_while1. cbn [span]. rewrite E. reflexivity. Qed.

Lemma while_m_n_app : forall m n f a rest, m <= length a <= n -> (forall c, In c a -> f c = true) -> length a = n \/ halts f rest ->
  take_while_m_n m n f (a ++ rest) = Done a rest.
Proof.
  intros m n f a rest Hl Ha Hr. unfold take_while_m_n. rewrite firstn_app, (firstn_all2 (n := n) a) by lia.
  assert (span f (a ++ firstn (n - length a) rest) = (a, firstn (n - length a) rest)) as ->.
  { apply span_app; auto. destruct Hr as [Hr|[->|(c & r & -> & E)]].
    - rewrite Hr, Nat.sub_diag. auto.
    - rewrite firstn_nil. auto.
    - destruct (n - length a); [auto|]. right. cbn. eauto. }
  cbn [fst]. destruct (Nat.leb_spec m (length a)); [|lia]. rewrite skipn_app, skipn_all, Nat.sub_diag. reflexivity.
Qed.

Lemma andthen_fed : forall A B (r : parsed A) (k : A -> parser B), r <> Starved -> (forall a i, r = Done a i -> k a i <> Starved) -> andthen r k <> Starved.
Proof. intros A B [a i| |] k H1 H2; cbn [andthen]; [apply (H2 a i); reflexivity|discriminate|congruence]. Qed.

Lemma while_m_n_fed : forall m n f i, take_while_m_n m n f i <> Starved.
Proof. intros. unfold take_while_m_n. destruct (_ <=? _); discriminate. Qed.

Lemma orelse_fed : forall A (p q : parser A) i, p i <> Starved -> q i <> Starved -> orelse p q i <> Starved.
Proof. intros A p q i H1 H2. unfold orelse. destruct (p i); congruence. Qed.

Lemma pmap_fed : forall A B (p : parser A) (f : A -> B) i, p i <> Starved -> pmap p f i <> Starved.
Proof. intros A B p f i H. unfold pmap. apply andthen_fed; [auto|discriminate]. Qed.

Lemma opt_fed : forall A (p : parser A) i, p i <> Starved -> opt p i <> Starved.
Proof. intros A p i H. unfold opt. destruct (p i); congruence. Qed.

(** ** Loops *)

Definition eats {A} (f : parser A) : Prop := forall i a r, f i = Done a r -> length r < length i.

Lemma reads_eats : forall A (sp : A -> list N -> Prop) f, reads sp f -> (forall a bs, sp a bs -> bs <> []) -> eats f.
Proof.
  intros A sp f H Hn i a r E. destruct (H _ _ _ E) as (bs & -> & Hs). apply Hn in Hs. rewrite app_length. destruct bs; [congruence|cbn; lia].
Qed.

Lemma many_loop_fed : forall A (f : parser A), eats f -> forall fuel i acc, length i < fuel -> (forall j, length j <= length i -> f j <> Starved) -> many_loop fuel f i acc <> Starved.
Proof.
  intros A f He. induction fuel as [|fuel IH]; intros i acc Hl Hf; [lia|]. cbn [many_loop].
  destruct (f i) as [a r| |] eqn:E; [|discriminate|exfalso; apply (Hf i); auto].
  destruct (_ =? _); [discriminate|]. pose proof (He _ _ _ E). apply IH; [lia|]. intros j Hj. apply Hf. lia.
Qed.

Lemma many1_fed : forall A (f : parser A), eats f -> forall fuel i, length i <= fuel -> (forall j, length j <= length i -> f j <> Starved) -> many1 fuel f i <> Starved.
Proof.
  intros A f He fuel i Hl Hf. unfold many1. apply andthen_fed; [auto|]. intros a r E. pose proof (He _ _ _ E). apply many_loop_fed; auto; [lia|]. intros j Hj. apply Hf. lia.
Qed.

Lemma many_loop_chain : forall A (f : parser A), eats f -> forall l i r, chain f l i r -> forall fuel acc, length i < fuel -> many_loop fuel f i acc = Done (acc ++ l) r.
Proof.
  intros A f He l i r H. induction H as [i E|i a i1 l r E H IH]; intros fuel acc Hl; (destruct fuel as [|fuel]; [lia|]); cbn [many_loop]; rewrite E.
  - rewrite app_nil_r. reflexivity.
  - pose proof (He _ _ _ E). destruct (Nat.eqb_spec (length i1) (length i)); [lia|]. rewrite IH by lia. rewrite <- app_assoc. reflexivity.
Qed.

Lemma many1_chain : forall A (f : parser A), eats f -> forall l i r, chain f l i r -> l <> [] -> forall fuel, length i <= fuel -> many1 fuel f i = Done l r.
Proof.
  intros A f He l i r H Hn fuel Hl. destruct H as [i E|i a i1 l r E H]; [congruence|]. unfold many1. rewrite E. cbn [andthen].
  pose proof (He _ _ _ E). rewrite (many_loop_chain A f He _ _ _ H) by lia. reflexivity.
Qed.

Lemma sep_loop_fed : forall A B (sep : parser B) (f : parser A), eats f -> eats sep -> (forall i, sep i <> Starved) -> forall fuel i acc, length i < fuel -> (forall j, length j < length i -> f j <> Starved) ->
  separated_loop fuel sep f i acc <> Starved /\ separated_loop fuel sep f i acc <> Fail.
Proof.
  intros A B sep f He Hs Hsf. induction fuel as [|fuel IH]; intros i acc Hl Hf; [lia|]. cbn [separated_loop].
  destruct (sep i) as [b i1| |] eqn:Es; [|split; discriminate|exfalso; apply (Hsf i); auto]. pose proof (Hs _ _ _ Es).
  destruct (Nat.eqb_spec (length i1) (length i)); [lia|].
  destruct (f i1) as [a r| |] eqn:E; [|split; discriminate|exfalso; apply (Hf i1); auto].
  pose proof (He _ _ _ E). apply IH; [lia|]. intros j Hj. apply Hf. lia.
Qed.

Lemma sep1_fed : forall A B (sep : parser B) (f : parser A), eats f -> eats sep -> (forall i, sep i <> Starved) -> forall fuel i, length i <= fuel -> (forall j, length j <= length i -> f j <> Starved) ->
  separated_list1 fuel sep f i <> Starved /\ (separated_list1 fuel sep f i = Fail -> f i = Fail).
Proof.
  intros A B sep f He Hs Hsf fuel i Hl Hf. unfold separated_list1. pose proof (Hf i (le_n _)) as X. destruct (f i) as [a r| |] eqn:E; cbn [andthen]; [|split; [discriminate|auto]|congruence].
  pose proof (He _ _ _ E). destruct (sep_loop_fed A B sep f He Hs Hsf fuel r [a]) as [X1 X2]; [lia|intros j Hj; apply Hf; lia|]. split; [auto|congruence].
Qed.

Lemma sep_loop_chain : forall A B (sep : parser B) (f : parser A), eats f -> eats sep -> forall l i r, sep_chain sep f l i r -> forall fuel acc, length i < fuel -> separated_loop fuel sep f i acc = Done (acc ++ l) r.
Proof.
  intros A B sep f He Hs l i r H. induction H as [i E|i b i1 a i2 l r E1 E2 H IH]; intros fuel acc Hl; (destruct fuel as [|fuel]; [lia|]); cbn [separated_loop].
  - rewrite app_nil_r. destruct E as [E|(b & i1 & E1 & E2)]; [rewrite E; auto|]. rewrite E1. pose proof (Hs _ _ _ E1). destruct (Nat.eqb_spec (length i1) (length i)); [lia|]. rewrite E2. reflexivity.
  - rewrite E1. pose proof (Hs _ _ _ E1). destruct (Nat.eqb_spec (length i1) (length i)); [lia|]. rewrite E2. pose proof (He _ _ _ E2). rewrite IH by lia. rewrite <- app_assoc. reflexivity.
Qed.

Lemma sep1_chain : forall A B (sep : parser B) (f : parser A), eats f -> eats sep -> forall i a i1 l r, f i = Done a i1 -> sep_chain sep f l i1 r -> forall fuel, length i <= fuel ->
  separated_list1 fuel sep f i = Done (a :: l) r.
Proof.
  intros A B sep f He Hs i a i1 l r E H fuel Hl. unfold separated_list1. rewrite E. cbn [andthen]. pose proof (He _ _ _ E).
  rewrite (sep_loop_chain A B sep f He Hs _ _ _ H) by lia. reflexivity.
Qed.

Lemma tag_eats : forall c s, eats (tag (bytes (String c s))).
Proof. intros c s. apply (reads_eats _ _ _ (reads_tag _)). intros a bs ->. discriminate. Qed.
Lemma space1_eats : eats space1.
Proof. apply (reads_eats _ _ _ reads_space1). intros a bs [H _]. auto. Qed.
Lemma multispace1_eats : eats multispace1.
Proof. apply (reads_eats _ _ _ reads_multispace1). intros a bs [_ H]. auto. Qed.

(** ** Characters *)

Lemma escaped_fed : forall i, parse_char_escaped i <> Starved.
Proof.
  intros i. unfold parse_char_escaped. apply andthen_fed; [apply tag_fed|]. intros u j _. apply andthen_fed; [destruct j; discriminate|]. intros c k _.
  repeat match goal with |- (if ?b then _ else _) <> _ => destruct b; [try discriminate|]; try discriminate end.
  apply andthen_fed; [apply tag_fed|]. intros. apply andthen_fed; [apply while_m_n_fed|]. intros. apply andthen_fed; [apply tag_fed|]. intros. destruct (from_u32 _); discriminate.
Qed.

Lemma char_fed : forall i, parse_char i <> Starved.
Proof.
  intros i. apply orelse_fed; [|apply escaped_fed]. unfold parse_char_unescaped. apply andthen_fed; [apply while_m_n_fed|discriminate].
Qed.

Lemma range_fed : forall i, parse_char_or_range i <> Starved.
Proof.
  intros i. apply orelse_fed; apply pmap_fed; [|apply char_fed]. unfold parse_char_range. apply andthen_fed; [apply char_fed|]. intros. apply andthen_fed; [apply tag_fed|]. intros. apply andthen_fed; [apply char_fed|discriminate].
Qed.

Lemma hex_is_in : forall d v, hex_is d v -> is_hex d = true /\ hex_digit d = N.of_nat v.
Proof.
  intros d v [H|H]; (do 16 (destruct v as [|v]; [cbn in H; injection H as <-; split; reflexivity|])); cbn in H; destruct v; discriminate.
Qed.

Lemma hex_number_radix : forall ds n, hex_number ds n -> from_radix_16 ds = n /\ forall c, In c ds -> is_hex c = true.
Proof.
  intros ds n H. induction H as [|ds n d v H [IH1 IH2] Hd]; [split; [reflexivity|intros c []]|]. apply hex_is_in in Hd as [H1 H2]. split.
  - unfold from_radix_16 in *. rewrite fold_left_app, IH1. cbn [fold_left]. rewrite H2. lia.
  - intros c Hc. apply in_app_or in Hc as [Hc|[<-|[]]]; auto.
Qed.

Lemma unescaped_reserved : forall c r, In c reserved -> parse_char_unescaped (c :: r) = Fail.
Proof.
  intros c r H. unfold parse_char_unescaped, take_while_m_n. cbn [firstn span]. destruct (stands_for_itself c) eqn:E; [|reflexivity].
  apply stands_iff in E as [_ E]. contradiction.
Qed.

Lemma escaped_u : forall i, parse_char_escaped (bytes "\u{" ++ i) =
  (take (ds, input) <- take_while_m_n 4 6 is_hex i; take (u, input) <- tag (bytes "}") input; match from_u32 (from_radix_16 ds) with Some c => Done c input | None => Fail end).
Proof. reflexivity. Qed.

Lemma char_ok : forall c bs rest, spells_char c bs -> parse_char (bs ++ rest) = Done c rest.
Proof.
  intros c bs rest H. unfold parse_char, orelse. destruct H.
  1: { unfold parse_char_unescaped. rewrite (while_m_n_app 1 1 stands_for_itself [c] rest); [reflexivity|cbn; lia| |left; reflexivity].
       intros d [<-|[]]. apply stands_iff. auto. }
  all: match goal with |- context [parse_char_unescaped ?x] => assert (parse_char_unescaped x = Fail) as -> by reflexivity end; try reflexivity.
  apply hex_number_radix in H0 as [E Hh]. rewrite <- !app_assoc, escaped_u.
  rewrite (while_m_n_app 4 6 is_hex ds); [|auto|auto|right; right; exists (code "}"), rest; split; reflexivity]. cbn [andthen].
  rewrite tag_app. cbn [andthen]. rewrite E, (proj2 (from_u32_iff c c)); auto.
Qed.

Lemma spells_char_cons : forall c bs, spells_char c bs -> exists d r, bs = d :: r /\ ~ In d (bytes "]/)|+*?").
Proof.
  intros c bs H. assert (~ In (code "\") (bytes "]/)|+*?")) as X by (intros Y; cbn in Y; intuition discriminate).
  destruct H; try (eexists _, _; split; [reflexivity|exact X]).
  exists c, []. split; auto. intros Y. apply H0. unfold reserved. cbn in Y |- *. intuition.
Qed.

Lemma not_begins_cons : forall s c r, ~ In c (bytes s) -> ~ begins s (c :: r).
Proof. intros s c r H (d & q & E & Hd). injection E as <- <-. contradiction. Qed.

Lemma begins_app : forall s bs rest, bs <> [] -> begins s (bs ++ rest) -> begins s bs.
Proof. intros s [|c bs] rest Hn (d & r & E & Hd); [congruence|]. injection E as <- _. exists c, bs. auto. Qed.

Lemma range_nonempty : forall r bs, spells_range r bs -> bs <> [].
Proof.
  intros r bs H. destruct H as [c bs H|c1 c2 b1 b2 H1 H2]; [eapply spells_char_nonempty; eauto|]. apply spells_char_nonempty in H1. destruct b1; [congruence|discriminate].
Qed.
Lemma range_eats : eats parse_char_or_range.
Proof. apply (reads_eats _ _ _ reads_range). apply range_nonempty. Qed.

Lemma range_ok : forall r bs rest, spells_range r bs -> ~ begins "-" rest -> parse_char_or_range (bs ++ rest) = Done r rest.
Proof.
  intros r bs rest H Hr. unfold parse_char_or_range, orelse, pmap, parse_char_range. destruct H as [c bs H|c1 c2 b1 b2 H1 H2].
  - rewrite (char_ok c bs rest H). cbn [andthen]. rewrite tag1_fail by auto. reflexivity.
  - rewrite <- !app_assoc, (char_ok c1 b1 _ H1). cbn [andthen]. rewrite tag_app. cbn [andthen]. rewrite (char_ok c2 b2 _ H2). reflexivity.
Qed.

Lemma range_close : forall r, parse_char_or_range (code "]" :: r) = Fail.
Proof. reflexivity. Qed.

Lemma ranges_chain : forall rs bs, spells_ranges true rs bs -> forall r, chain parse_char_or_range rs (bs ++ code "]" :: r) (code "]" :: r).
Proof.
  intros rs bs H. induction H as [r bs H Hb|r bs rs bs' H Hb H2 IH]; intros rest.
  - eapply ch_cons; [apply range_ok; [exact H|]|apply ch_nil, range_close]. apply not_begins_cons. cbn. intros [X|[]]. discriminate.
  - rewrite <- app_assoc. eapply ch_cons; [apply range_ok; [exact H|]|apply IH].
    assert (bs' <> []) as Hn by (destruct H2 as [x y Z|x y z w Z]; apply range_nonempty in Z; [auto|destruct y; [congruence|discriminate]]).
    assert (~ begins "-" bs') as X by (destruct H2; [auto|intros Y; apply begins_app in Y; [|eapply range_nonempty; eauto]; exact (H1 eq_refl Y)]).
    intros Y. apply X. eapply begins_app; eauto.
Qed.

Lemma ranges_nonempty : forall s rs bs, spells_ranges s rs bs -> rs <> [] /\ bs <> [].
Proof. intros s rs bs H. destruct H as [r bs Z|r bs z w Z]; apply range_nonempty in Z; split; try discriminate; auto. destruct bs; [congruence|discriminate]. Qed.

Lemma set_ok : forall fuel rs bs rest, spells_ranges true rs bs -> length (bs ++ bytes "]" ++ rest) <= fuel ->
  parse_char_set fuel (bytes "[^" ++ bs ++ bytes "]" ++ rest) = Done (PSet rs true) rest /\
  (~ begins "^" bs -> parse_char_set fuel (bytes "[" ++ bs ++ bytes "]" ++ rest) = Done (PSet rs false) rest).
Proof.
  intros fuel rs bs rest H Hl. assert (many1 fuel parse_char_or_range (bs ++ bytes "]" ++ rest) = Done rs (bytes "]" ++ rest)) as X.
  { apply many1_chain; auto; [apply range_eats|apply (ranges_chain _ _ H)|apply (ranges_nonempty _ _ _ H)]. }
  unfold parse_char_set. split.
  - change (bytes "[^" ++ bs ++ bytes "]" ++ rest) with (bytes "[" ++ bytes "^" ++ bs ++ bytes "]" ++ rest). rewrite tag_app. cbn [andthen]. unfold opt. rewrite tag_app. cbn [andthen].
    rewrite X. cbn [andthen]. rewrite tag_app. reflexivity.
  - intros Hb. rewrite tag_app. cbn [andthen]. unfold opt. rewrite (tag1_fail "^").
    + cbn [andthen]. rewrite X. cbn [andthen]. rewrite tag_app. reflexivity.
    + intros Y. apply Hb. eapply begins_app; eauto. apply (ranges_nonempty _ _ _ H).
Qed.

Lemma set_fed : forall fuel i, length i <= S fuel -> parse_char_set fuel i <> Starved.
Proof.
  intros fuel i Hl. unfold parse_char_set. apply andthen_fed; [apply tag_fed|]. intros u j E. apply andthen_fed; [apply opt_fed, tag_fed|]. intros o k E2.
  apply reads_tag' in E. subst i. apply andthen_fed; [|intros; apply andthen_fed; [apply tag_fed|discriminate]].
  apply many1_fed; [apply range_eats| |intros; apply range_fed]. unfold opt in E2. destruct (tag (bytes "^") j) as [u' j'| |] eqn:E3; try discriminate; injection E2 as <- <-.
  - apply reads_tag' in E3. subst j. cbn in Hl |- *. lia.
  - cbn in Hl. lia.
Qed.

(** ** Regular expressions *)

Scheme atom_min := Minimality for regex_atom Sort Prop
  with item_min := Minimality for regex_item Sort Prop
  with items_min := Minimality for regex_items Sort Prop
  with choices_min := Minimality for regex_choices Sort Prop.
Combined Scheme regex_min from atom_min, item_min, items_min, choices_min.

Lemma regex_starts : forall s,
  (forall p bs, regex_atom s p bs -> exists d r, bs = d :: r /\ ~ In d (bytes "]/)|+*?")) /\
  (forall p bs, regex_item s p bs -> exists d r, bs = d :: r /\ ~ In d (bytes "]/)|+*?")) /\
  (forall l bs, regex_items s l bs -> l <> [] /\ exists d r, bs = d :: r /\ ~ In d (bytes "]/)|+*?")) /\
  (forall l bs, regex_choices s l bs -> l <> []).
Proof.
  intros s. apply regex_min; intros; try (eexists _, _; split; [reflexivity|cbn; intuition discriminate]); try discriminate.
  - eapply spells_char_cons; eauto.
  - auto.
  - destruct H0 as (d & r & -> & X). exists d. eexists. split; [reflexivity|auto].
  - destruct H0 as (d & r & -> & X). exists d. eexists. split; [reflexivity|auto].
  - destruct H0 as (d & r & -> & X). exists d. eexists. split; [reflexivity|auto].
  - split; [discriminate|auto].
  - split; [discriminate|]. destruct H0 as (d & r & -> & X). exists d. eexists. split; [reflexivity|auto].
Qed.

Lemma item_nonempty : forall s p bs, regex_item s p bs -> bs <> [].
Proof. intros s p bs H. apply (proj1 (proj2 (regex_starts s))) in H as (d & r & -> & _). discriminate. Qed.
Lemma items_nonempty : forall s p bs, regex_items s p bs -> bs <> [].
Proof. intros s p bs H. apply (proj1 (proj2 (proj2 (regex_starts s)))) in H as (_ & d & r & -> & _). discriminate. Qed.

Lemma repetition_eats : forall fuel k, eats (parse_regex_repetition fuel (parse_regex_sequence k)).
Proof. intros fuel k. apply (reads_eats _ _ _ (reads_repetition fuel _ (reads_sequence k))). apply item_nonempty. Qed.
Lemma sequence_eats : forall k, eats (parse_regex_sequence k).
Proof. intros k. apply (reads_eats _ _ _ (reads_sequence k)). intros a bs (l & _ & H). eapply items_nonempty; eauto. Qed.

Lemma kind_none : forall rest, ~ begins "*+?" rest -> parse_repetition_kind rest = Done None rest.
Proof.
  intros rest H. unfold parse_repetition_kind, opt, orelse, pmap. rewrite !tag1_fail; [reflexivity| | |];
  intros (c & r & -> & [E|[]]); apply H; exists c, r; cbn; auto.
Qed.

Lemma kind_fed : forall i, parse_repetition_kind i <> Starved.
Proof. intros i. apply opt_fed. apply orelse_fed; [apply pmap_fed, tag_fed|]. apply orelse_fed; apply pmap_fed, tag_fed. Qed.

Definition stops (rest : list N) : Prop := rest = [] \/ begins ")|/" rest.

Lemma repetition_stops : forall fuel seq rest, stops rest -> parse_regex_repetition fuel seq rest = Fail.
Proof. intros fuel seq rest [->|(c & r & -> & H)]; [reflexivity|]. cbn in H. destruct H as [<-|[<-|[<-|[]]]]; reflexivity. Qed.

Lemma repetition_of : forall fuel seq i p rest, parse_regex_element fuel seq i = Done p rest ->
  (~ begins "*+?" rest -> parse_regex_repetition fuel seq i = Done p rest) /\
  (forall r, rest = bytes "*" ++ r -> parse_regex_repetition fuel seq i = Done (PRep 0 None p) r) /\
  (forall r, rest = bytes "+" ++ r -> parse_regex_repetition fuel seq i = Done (PRep 1 None p) r) /\
  (forall r, rest = bytes "?" ++ r -> parse_regex_repetition fuel seq i = Done (PRep 0 (Some 1%N) p) r).
Proof.
  intros fuel seq i p rest E. unfold parse_regex_repetition. rewrite E. cbn [andthen]. split; [intros H; rewrite (kind_none _ H); reflexivity|].
  repeat split; intros r ->; reflexivity.
Qed.

Lemma element_char : forall fuel seq c bs rest, spells_char c bs -> ~ begins "([." bs -> parse_regex_element fuel seq (bs ++ rest) = Done (PChar (Single c)) rest.
Proof.
  intros fuel seq c bs rest H Hb. pose proof (char_ok _ _ rest H) as X. pose proof (spells_char_nonempty _ _ H) as Hn.
  unfold parse_regex_element, orelse, parse_regex_group, parse_char_set, pmap.
  rewrite !tag1_fail; [cbn [andthen]; rewrite X; reflexivity| | |]; intros Y; apply Hb; apply begins_app in Y; auto; destruct Y as (d & r & -> & [E|[]]); exists d, r; cbn; auto.
Qed.

Lemma regex_complete :
  (forall p bs, regex_atom true p bs -> forall fuel rest, length (bs ++ rest) <= fuel -> parse_regex_element fuel (parse_regex_sequence fuel) (bs ++ rest) = Done p rest) /\
  (forall p bs, regex_item true p bs -> forall fuel rest, length (bs ++ rest) <= fuel -> ~ begins "*+?" rest -> parse_regex_repetition fuel (parse_regex_sequence fuel) (bs ++ rest) = Done p rest) /\
  (forall l bs, regex_items true l bs -> forall fuel rest, length (bs ++ rest) <= fuel -> stops rest -> chain (parse_regex_repetition fuel (parse_regex_sequence fuel)) l (bs ++ rest) rest) /\
  (forall l bs, regex_choices true l bs -> forall fuel rest, length (bs ++ rest) < fuel -> begins ")" rest ->
     exists p l' i1, l = p :: l' /\ parse_regex_sequence fuel (bs ++ rest) = Done p i1 /\ sep_chain (tag (bytes "|")) (parse_regex_sequence fuel) l' i1 rest).
Proof.
  assert (forall l bs k rest, regex_items true l bs -> length (bs ++ rest) <= k -> chain (parse_regex_repetition k (parse_regex_sequence k)) l (bs ++ rest) rest ->
    parse_regex_sequence (S k) (bs ++ rest) = Done (PSeq l) rest) as Q.
  { intros l bs k rest H Hl Hc. cbn [parse_regex_sequence]. rewrite (many1_chain _ _ (repetition_eats k k) _ _ _ Hc); auto. apply (proj1 (proj2 (proj2 (regex_starts true))) _ _ H). }
  assert (forall ps bs fuel rest, (forall fuel rest, length (bs ++ rest) < fuel -> begins ")" rest ->
     exists p l' i1, ps = p :: l' /\ parse_regex_sequence fuel (bs ++ rest) = Done p i1 /\ sep_chain (tag (bytes "|")) (parse_regex_sequence fuel) l' i1 rest) ->
     length ((bytes "(" ++ bs ++ bytes ")") ++ rest) <= fuel ->
     parse_regex_group fuel (parse_regex_sequence fuel) ((bytes "(" ++ bs ++ bytes ")") ++ rest) = Done (match ps with [s] => s | _ => PAlt ps end) rest) as G.
  { intros ps bs fuel rest H Hl. unfold parse_regex_group. rewrite <- !app_assoc in *. rewrite tag_app. cbn [andthen].
    destruct (H fuel (bytes ")" ++ rest)) as (p & l' & i1 & -> & E & Hc); [cbn in Hl |- *; lia|exists 41%N, rest; cbn; auto|].
    rewrite (sep1_chain _ _ _ _ (sequence_eats fuel) (tag_eats _ _) _ _ _ _ _ E Hc fuel); [|cbn in Hl |- *; lia]. cbn [andthen]. rewrite tag_app. reflexivity. }
  apply regex_min.
  - intros p bs H IH fuel rest Hl. unfold parse_regex_element, orelse. rewrite (G [p] bs fuel rest IH Hl). reflexivity.
  - intros ps bs H2 H IH fuel rest Hl. unfold parse_regex_element, orelse. rewrite (G ps bs fuel rest IH Hl). destruct ps as [|a [|b ps]]; cbn in H2; [lia|lia|reflexivity].
  - intros rs bs H Hb fuel rest Hl. unfold parse_regex_element, orelse. rewrite <- !app_assoc.
    change (parse_regex_group fuel (parse_regex_sequence fuel) (bytes "[" ++ bs ++ bytes "]" ++ rest)) with (@Fail pattern). cbn iota.
    rewrite (proj2 (set_ok fuel rs bs rest H ltac:(rewrite !app_length in *; cbn in *; lia)) (Hb eq_refl)). reflexivity.
  - intros rs bs H fuel rest Hl. unfold parse_regex_element, orelse. rewrite <- !app_assoc.
    change (parse_regex_group fuel (parse_regex_sequence fuel) (bytes "[^" ++ bs ++ bytes "]" ++ rest)) with (@Fail pattern). cbn iota.
    rewrite (proj1 (set_ok fuel rs bs rest H ltac:(rewrite !app_length in *; cbn in *; lia))). reflexivity.
  - intros fuel rest _. reflexivity.
  - intros c bs H Hb fuel rest _. apply element_char; auto.
  - intros p bs _ IH fuel rest Hl Hr. apply (repetition_of _ _ _ _ _ (IH fuel rest Hl)). auto.
  - intros p bs _ IH fuel rest Hl Hr. rewrite <- app_assoc in *. eapply repetition_of; [apply IH; exact Hl|reflexivity].
  - intros p bs _ IH fuel rest Hl Hr. rewrite <- app_assoc in *. eapply repetition_of; [apply IH; exact Hl|reflexivity].
  - intros p bs _ IH fuel rest Hl Hr. rewrite <- app_assoc in *. eapply repetition_of; [apply IH; exact Hl|reflexivity].
  - intros p bs _ IH fuel rest Hl Hr. eapply ch_cons; [apply IH; [exact Hl|]|apply ch_nil, repetition_stops; auto].
    destruct Hr as [->|(c & r & -> & Hc)]; [intros (c & r & E & _); discriminate|]. apply not_begins_cons. cbn in Hc |- *. intuition congruence.
  - intros p bs ps bs' H IH H' IH' fuel rest Hl Hr. rewrite <- app_assoc in *. eapply ch_cons; [apply IH; [exact Hl|]|apply IH'; auto].
    + apply (proj1 (proj2 (proj2 (regex_starts true)))) in H' as (_ & d & r & -> & Hd). apply not_begins_cons. intros X. apply Hd. cbn in X |- *. intuition.
    + rewrite app_length in Hl. lia.
  - intros ps bs H IH fuel rest Hl Hr. destruct fuel as [|k]; [lia|]. exists (PSeq ps), [], rest. split; auto. split.
    + apply Q; auto; [lia|]. apply IH; [lia|]. right. destruct Hr as (c & r & -> & [<-|[]]). exists 41%N, r. cbn; auto.
    + apply sch_nil. left. destruct Hr as (c & r & -> & [<-|[]]). reflexivity.
  - intros ps bs qs bs' H IH H' IH' fuel rest Hl Hr. destruct fuel as [|k]; [lia|]. rewrite <- !app_assoc in *.
    destruct (IH' (S k) rest) as (q & l' & i1 & -> & E & Hc); [rewrite !app_length in *; cbn in *; lia|auto|].
    exists (PSeq ps), (q :: l'), (bytes "|" ++ bs' ++ rest). split; auto. split.
    + apply Q; auto; [lia|]. apply IH; [lia|]. right. eexists _, _. split; [reflexivity|cbn; auto].
    + eapply sch_cons; [apply tag_app|exact E|exact Hc].
Qed.

Lemma sequence_ok : forall l bs fuel rest, regex_items true l bs -> length (bs ++ rest) < fuel -> stops rest -> parse_regex_sequence fuel (bs ++ rest) = Done (PSeq l) rest.
Proof.
  intros l bs fuel rest H Hl Hr. destruct fuel as [|k]; [lia|]. cbn [parse_regex_sequence].
  rewrite (many1_chain _ _ (repetition_eats k k) l (bs ++ rest) rest); auto; try lia; [apply regex_complete; auto; lia|]. apply (proj1 (proj2 (proj2 (regex_starts true))) _ _ H).
Qed.

Lemma sequence_fed : forall fuel i, length i < fuel -> parse_regex_sequence fuel i <> Starved.
Proof.
  induction fuel as [|fuel IH]; intros i Hl; [lia|]. cbn [parse_regex_sequence]. apply andthen_fed; [|discriminate]. apply many1_fed; [apply repetition_eats|lia|].
  intros j Hj. unfold parse_regex_repetition. apply andthen_fed; [|intros; apply andthen_fed; [apply kind_fed|discriminate]].
  unfold parse_regex_element. apply orelse_fed; [|apply orelse_fed; [apply set_fed; lia|apply orelse_fed; [apply pmap_fed, tag_fed|apply pmap_fed, char_fed]]].
  unfold parse_regex_group. apply andthen_fed; [apply tag_fed|]. intros u k E. apply reads_tag' in E. subst j. cbn in Hj.
  apply andthen_fed; [|intros; apply andthen_fed; [apply tag_fed|discriminate]].
  apply sep1_fed; [apply sequence_eats|apply tag_eats|apply tag_fed|lia|]. intros m Hm. apply IH. lia.
Qed.

Lemma pattern_ok : forall p bs fuel rest, spells_token_pattern true p bs -> length (bs ++ rest) < fuel -> parse_pattern fuel (bs ++ rest) = Done p rest.
Proof.
  intros p bs fuel rest H Hl. unfold parse_pattern, orelse. destruct H as [cs Hn Hc|ps bs H]; rewrite <- !app_assoc in *.
  - unfold parse_literal_pattern. rewrite tag_app. cbn [andthen]. rewrite (while1_app in_literal cs); auto.
    + intros c X. destruct (Hc c X). unfold in_literal. rewrite andb_true_iff, negb_true_iff, N.eqb_neq, N.ltb_lt. auto.
    + right. exists 34%N, rest. auto.
  - change (parse_literal_pattern (bytes "/" ++ bs ++ bytes "/" ++ rest)) with (@Fail token_pattern). cbn iota. unfold parse_regex_pattern. rewrite tag_app. cbn [andthen].
    rewrite (sequence_ok ps bs fuel (bytes "/" ++ rest) H); [cbn [andthen]; rewrite tag_app; reflexivity|rewrite !app_length in *; cbn in *; lia|]. right. exists 47%N, rest. cbn. auto.
Qed.

Lemma pattern_fed : forall fuel i, length i < fuel -> parse_pattern fuel i <> Starved.
Proof.
  intros fuel i Hl. apply orelse_fed.
  - unfold parse_literal_pattern. apply andthen_fed; [apply tag_fed|]. intros. apply andthen_fed; [apply while1_fed|]. intros. apply andthen_fed; [apply tag_fed|discriminate].
  - unfold parse_regex_pattern. apply andthen_fed; [apply tag_fed|]. intros u j E. apply reads_tag' in E. subst i. cbn in Hl. apply andthen_fed; [apply sequence_fed; lia|].
    intros. apply andthen_fed; [apply tag_fed|discriminate].
Qed.

(** ** Productions *)

Scheme patom_min := Minimality for prod_atom Sort Prop
  with pitem_min := Minimality for prod_item Sort Prop
  with pitems_min := Minimality for prod_items Sort Prop
  with pchoices_min := Minimality for prod_choices Sort Prop.
Combined Scheme prod_min from patom_min, pitem_min, pitems_min, pchoices_min.

Lemma name_nonempty : forall s, is_name s -> bytes s <> [].
Proof. intros [|c s] [H _]; [congruence|discriminate]. Qed.

Lemma name_first : forall s, is_name s -> exists d r, bytes s = d :: r /\ name_char d.
Proof. intros [|c s] [H1 H2]; [congruence|]. exists (N_of_ascii c), (bytes s). split; auto. apply H2. left. reflexivity. Qed.

Lemma prod_starts :
  (forall p bs, prod_atom p bs -> exists d r, bs = d :: r /\ (name_char d \/ d = 40%N)) /\
  (forall p bs, prod_item p bs -> exists d r, bs = d :: r /\ (name_char d \/ d = 40%N)) /\
  (forall l bs, prod_items l bs -> l <> [] /\ exists d r, bs = d :: r /\ (name_char d \/ d = 40%N)) /\
  (forall l bs, prod_choices l bs -> l <> []).
Proof.
  apply prod_min; intros; try (eexists _, _; split; [reflexivity|right; reflexivity]); try discriminate.
  - destruct (name_first _ H) as (d & r & -> & X). eauto.
  - auto.
  - destruct H0 as (d & r & -> & X). exists d. eexists. split; [reflexivity|auto].
  - destruct H0 as (d & r & -> & X). exists d. eexists. split; [reflexivity|auto].
  - destruct H0 as (d & r & -> & X). exists d. eexists. split; [reflexivity|auto].
  - split; [discriminate|auto].
  - split; [discriminate|]. destruct H0 as (d & r & -> & X). exists d. eexists. split; [reflexivity|auto].
Qed.

Lemma pitem_nonempty : forall p bs, prod_item p bs -> bs <> [].
Proof. intros p bs H. apply prod_starts in H as (d & r & -> & _). discriminate. Qed.
Lemma pitems_nonempty : forall p bs, prod_items p bs -> bs <> [].
Proof. intros p bs H. apply prod_starts in H as (_ & d & r & -> & _). discriminate. Qed.

Lemma prepetition_eats : forall fuel k, eats (parse_production_repetition fuel (parse_production_pattern k)).
Proof. intros fuel k. apply (reads_eats _ _ _ (reads_prepetition fuel _ (reads_production k))). apply pitem_nonempty. Qed.
Lemma production_eats : forall k, eats (parse_production_pattern k).
Proof. intros k. apply (reads_eats _ _ _ (reads_production k)). intros a bs (l & _ & H). eapply pitems_nonempty; eauto. Qed.

Lemma name_ok : forall s rest, is_name s -> halts in_name rest -> parse_symbol_name (bytes s ++ rest) = Done (bytes s) rest.
Proof. intros s rest H Hr. apply while1_app; auto; [apply name_nonempty; auto|]. intros c Hc. apply in_name_iff. apply H. auto. Qed.

Lemma not_name : forall c, (c < 65 \/ c = 91 \/ c = 93 \/ 122 < c)%N -> in_name c = false.
Proof. intros c H. destruct (in_name c) eqn:E; auto. apply in_name_iff in E. unfold name_char in E. lia. Qed.

Definition pstops (rest : list N) : Prop := begins ");" rest \/ exists r, rest = bytes " | " ++ r.

Lemma blank_cons : forall b rest, blank b -> exists c r, b ++ rest = c :: r /\ In c [32; 9]%N.
Proof. intros [|c b] rest [H1 H2]; [congruence|]. exists c, (b ++ rest). split; auto. apply H2. left. auto. Qed.

Lemma space1_ok : forall b rest, blank b -> halts is_space rest -> space1 (b ++ rest) = Done b rest.
Proof. intros b rest [H1 H2] Hr. apply while1_app; auto. intros c Hc. apply is_space_iff. auto. Qed.

Lemma halts_name_space : forall i, (exists c r, i = c :: r /\ (name_char c \/ c = 40%N)) -> halts is_space i.
Proof.
  intros i (c & r & -> & H). right. exists c, r. split; auto. destruct (is_space c) eqn:E; auto. apply is_space_iff in E. cbn in E. unfold name_char in H. lia.
Qed.

Lemma prod_sep_stops : forall A (f : parser A) rest, pstops rest -> (forall r, f (bytes "| " ++ r) = Fail) -> space1 rest = Fail \/ exists b i1, space1 rest = Done b i1 /\ f i1 = Fail.
Proof.
  intros A f rest [(c & r & -> & H)|(r & ->)] Hf.
  - left. cbn in H. destruct H as [<-|[<-|[]]]; reflexivity.
  - right. exists [32%N], (bytes "| " ++ r). split; [reflexivity|apply Hf].
Qed.

Lemma prepetition_of : forall fuel seq i p rest, parse_production_element fuel seq i = Done p rest ->
  (~ begins "*+?" rest -> parse_production_repetition fuel seq i = Done p rest) /\
  (forall r, rest = bytes "*" ++ r -> parse_production_repetition fuel seq i = Done (QStar p) r) /\
  (forall r, rest = bytes "+" ++ r -> parse_production_repetition fuel seq i = Done (QPlus p) r) /\
  (forall r, rest = bytes "?" ++ r -> parse_production_repetition fuel seq i = Done (QOpt p) r).
Proof.
  intros fuel seq i p rest E. unfold parse_production_repetition. rewrite E. cbn [andthen]. split; [intros H; rewrite (kind_none _ H); reflexivity|].
  repeat split; intros r ->; reflexivity.
Qed.

Definition after_item (rest : list N) : Prop := exists c r, rest = c :: r /\ In c [32; 9; 41; 59]%N.
Lemma after_item_ok : forall rest, after_item rest -> halts in_name rest /\ ~ begins "*+?" rest.
Proof.
  intros rest (c & r & -> & H). split; [right; exists c, r; split; auto; cbn in H; apply not_name; lia|]. apply not_begins_cons. cbn in H |- *. intros X. lia.
Qed.
Lemma pstops_after : forall rest, pstops rest -> after_item rest.
Proof. intros rest [(c & r & -> & H)|(r & ->)]; [exists c, r|eexists _, _; split; [reflexivity|]]; cbn in *; intuition. Qed.

Lemma prod_complete :
  (forall p bs, prod_atom p bs -> forall fuel rest, length (bs ++ rest) <= fuel -> halts in_name rest -> parse_production_element fuel (parse_production_pattern fuel) (bs ++ rest) = Done p rest) /\
  (forall p bs, prod_item p bs -> forall fuel rest, length (bs ++ rest) <= fuel -> after_item rest -> parse_production_repetition fuel (parse_production_pattern fuel) (bs ++ rest) = Done p rest) /\
  (forall l bs, prod_items l bs -> forall fuel rest, length (bs ++ rest) <= fuel -> pstops rest ->
     exists p l' i1, l = p :: l' /\ parse_production_repetition fuel (parse_production_pattern fuel) (bs ++ rest) = Done p i1 /\
       sep_chain space1 (parse_production_repetition fuel (parse_production_pattern fuel)) l' i1 rest) /\
  (forall l bs, prod_choices l bs -> forall fuel rest, length (bs ++ rest) < fuel -> begins ")" rest ->
     exists p l' i1, l = p :: l' /\ parse_production_pattern fuel (bs ++ rest) = Done p i1 /\ sep_chain (tag (bytes " | ")) (parse_production_pattern fuel) l' i1 rest).
Proof.
  assert (forall l bs k rest, (exists p l' i1, l = p :: l' /\ parse_production_repetition k (parse_production_pattern k) (bs ++ rest) = Done p i1 /\
       sep_chain space1 (parse_production_repetition k (parse_production_pattern k)) l' i1 rest) -> length (bs ++ rest) <= k ->
    parse_production_pattern (S k) (bs ++ rest) = Done (QSeq l) rest) as Q.
  { intros l bs k rest (p & l' & i1 & -> & E & Hc) Hl. cbn [parse_production_pattern]. rewrite (sep1_chain _ _ _ _ (prepetition_eats k k) space1_eats _ _ _ _ _ E Hc); auto. }
  assert (forall ps bs fuel rest, (forall fuel rest, length (bs ++ rest) < fuel -> begins ")" rest ->
     exists p l' i1, ps = p :: l' /\ parse_production_pattern fuel (bs ++ rest) = Done p i1 /\ sep_chain (tag (bytes " | ")) (parse_production_pattern fuel) l' i1 rest) ->
     length ((bytes "(" ++ bs ++ bytes ")") ++ rest) <= fuel ->
     parse_production_group fuel (parse_production_pattern fuel) ((bytes "(" ++ bs ++ bytes ")") ++ rest) = Done (match ps with [s] => s | _ => QAlt ps end) rest) as G.
  { intros ps bs fuel rest H Hl. unfold parse_production_group. rewrite <- !app_assoc in *. rewrite tag_app. cbn [andthen].
    destruct (H fuel (bytes ")" ++ rest)) as (p & l' & i1 & -> & E & Hc); [cbn in Hl |- *; lia|exists 41%N, rest; cbn; auto|].
    rewrite (sep1_chain _ _ _ _ (production_eats fuel) (tag_eats _ _) _ _ _ _ _ E Hc fuel); [|cbn in Hl |- *; lia]. cbn [andthen]. rewrite tag_app. reflexivity. }
  apply prod_min.
  - intros s H fuel rest _ Hr. unfold parse_production_element, orelse, parse_production_group. rewrite tag1_fail.
    + cbn [andthen]. unfold parse_rule_name, pmap. rewrite name_ok by auto. cbn [andthen]. rewrite name_of_bytes. reflexivity.
    + intros Y. apply begins_app in Y; [|apply name_nonempty; auto]. destruct Y as (c & r & E & [<-|[]]). destruct (name_first _ H) as (d & q & E2 & X).
      rewrite E in E2. injection E2 as <- _. unfold name_char in X. cbn in X. lia.
  - intros p bs H IH fuel rest Hl _. unfold parse_production_element, orelse. rewrite (G [p] bs fuel rest IH Hl). reflexivity.
  - intros ps bs H2 H IH fuel rest Hl _. unfold parse_production_element, orelse. rewrite (G ps bs fuel rest IH Hl). destruct ps as [|a [|b ps]]; cbn in H2; [lia|lia|reflexivity].
  - intros p bs _ IH fuel rest Hl Hr. destruct (after_item_ok _ Hr). apply (prepetition_of _ _ _ _ _ (IH fuel rest Hl H)). auto.
  - intros p bs _ IH fuel rest Hl Hr. rewrite <- app_assoc in *. eapply prepetition_of; [apply IH; [exact Hl|right; eexists _, _; split; reflexivity]|reflexivity].
  - intros p bs _ IH fuel rest Hl Hr. rewrite <- app_assoc in *. eapply prepetition_of; [apply IH; [exact Hl|right; eexists _, _; split; reflexivity]|reflexivity].
  - intros p bs _ IH fuel rest Hl Hr. rewrite <- app_assoc in *. eapply prepetition_of; [apply IH; [exact Hl|right; eexists _, _; split; reflexivity]|reflexivity].
  - intros p bs _ IH fuel rest Hl Hr. exists p, [], rest. split; auto. split; [apply IH; auto; apply pstops_after; auto|]. apply sch_nil. apply prod_sep_stops; auto.
  - intros p bs sp ps bs' H IH Hsp H' IH' fuel rest Hl Hr. rewrite <- !app_assoc in *.
    destruct (IH' fuel rest) as (q & l' & i1 & -> & E & Hc); [rewrite !app_length in *; lia|auto|].
    exists p, (q :: l'), (sp ++ bs' ++ rest). split; auto. split.
    + apply IH; auto. destruct (blank_cons sp (bs' ++ rest) Hsp) as (c & r & -> & Hin). exists c, r. split; auto. cbn in Hin |- *. tauto.
    + eapply sch_cons; [apply space1_ok; [auto|]|exact E|exact Hc]. apply halts_name_space. apply prod_starts in H' as (_ & d & r & -> & X). exists d. eexists. split; [reflexivity|auto].
  - intros ps bs H IH fuel rest Hl Hr. destruct fuel as [|k]; [lia|]. exists (QSeq ps), [], rest. split; auto.
    assert (pstops rest) as Hp by (left; destruct Hr as (c & r & -> & [<-|[]]); exists 41%N, r; cbn; auto).
    split; [apply Q; [apply IH; auto; lia|lia]|]. apply sch_nil. left. destruct Hr as (c & r & -> & [<-|[]]). reflexivity.
  - intros ps bs qs bs' H IH H' IH' fuel rest Hl Hr. destruct fuel as [|k]; [lia|]. rewrite <- !app_assoc in *.
    destruct (IH' (S k) rest) as (q & l' & i1 & -> & E & Hc); [rewrite !app_length in *; cbn in *; lia|auto|].
    exists (QSeq ps), (q :: l'), (bytes " | " ++ bs' ++ rest). split; auto. split.
    + apply Q; [apply IH; [lia|right; eexists; reflexivity]|lia].
    + eapply sch_cons; [apply tag_app|exact E|exact Hc].
Qed.

Lemma production_ok : forall l bs fuel rest, prod_items l bs -> length (bs ++ rest) < fuel -> pstops rest -> parse_production_pattern fuel (bs ++ rest) = Done (QSeq l) rest.
Proof.
  intros l bs fuel rest H Hl Hr. destruct fuel as [|k]; [lia|]. cbn [parse_production_pattern].
  destruct (proj1 (proj2 (proj2 prod_complete)) l bs H k rest) as (p & l' & i1 & -> & E & Hc); [lia|auto|].
  rewrite (sep1_chain _ _ _ _ (prepetition_eats k k) space1_eats _ _ _ _ _ E Hc); [reflexivity|lia].
Qed.

Lemma production_fed : forall fuel i, length i < fuel -> parse_production_pattern fuel i <> Starved.
Proof.
  induction fuel as [|fuel IH]; intros i Hl; [lia|]. cbn [parse_production_pattern]. apply andthen_fed; [|discriminate].
  apply sep1_fed; [apply prepetition_eats|apply space1_eats|intros; apply while1_fed|lia|].
  intros j Hj. unfold parse_production_repetition. apply andthen_fed; [|intros; apply andthen_fed; [apply kind_fed|discriminate]].
  unfold parse_production_element. apply orelse_fed; [|apply pmap_fed, while1_fed].
  unfold parse_production_group. apply andthen_fed; [apply tag_fed|]. intros u k E. apply reads_tag' in E. subst j. cbn in Hj.
  apply andthen_fed; [|intros; apply andthen_fed; [apply tag_fed|discriminate]].
  apply sep1_fed; [apply production_eats|apply tag_eats|apply tag_fed|lia|]. intros m Hm. apply IH. lia.
Qed.
