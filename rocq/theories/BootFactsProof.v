(** The bootstrap parser on whole files. *)
From Coq Require Import String Ascii List Arith NArith Bool Lia.
From Verif Require Import Base InputModel BootModel BootSpec BootSoundProof BootCompleteProof.
Import ListNotations.
Local Open Scope nat_scope.
Local Open Scope list_scope.

Lemma halts_name_blank : forall b rest, blank b -> halts in_name (b ++ rest).
Proof. intros b rest H. destruct (blank_cons b rest H) as (c & r & -> & Hc). right. exists c, r. split; auto. cbn in Hc. apply not_name. lia. Qed.

Lemma halts_name_bytes : forall s rest, is_name s -> halts is_space (bytes s ++ rest).
Proof. intros s rest H. destruct (name_first s H) as (d & r & -> & X). apply halts_name_space. exists d, (r ++ rest). auto. Qed.

Lemma rule_ok : forall r bs fuel rest, spells_rule true r bs -> length (bs ++ rest) < fuel -> parse_rule fuel (bs ++ rest) = Done r rest.
Proof.
  intros r bs fuel rest H Hl. unfold parse_rule, orelse, pmap. destruct H as [n p b1 b2 b3 bs Hn H1 H2 H3 Hp|n ps b1 b2 b3 bs Hn H1 H2 H3 Hp|n b1 Hn H1]; rewrite <- !app_assoc in *.
  - unfold parse_token_rule. rewrite tag_app. cbn [andthen]. rewrite space1_ok; [|auto|apply halts_name_bytes; auto]. cbn [andthen].
    rewrite name_ok; [|auto|apply halts_name_blank; auto]. cbn [andthen]. rewrite space1_ok; [|auto|right; eexists _, _; split; reflexivity]. cbn [andthen].
    rewrite tag_app. cbn [andthen]. rewrite space1_ok; [|auto|destruct Hp; right; eexists _, _; split; reflexivity]. cbn [andthen].
    rewrite (pattern_ok p bs); [|auto|rewrite !app_length in *; lia]. cbn [andthen]. rewrite tag_app. cbn [andthen]. rewrite name_of_bytes. reflexivity.
  - change (parse_token_rule fuel (bytes "prod" ++ b1 ++ bytes n ++ b2 ++ bytes "=" ++ b3 ++ bs ++ bytes ";" ++ rest)) with (@Fail token_rule). cbn [andthen].
    unfold parse_production_rule. rewrite tag_app. cbn [andthen]. rewrite space1_ok; [|auto|apply halts_name_bytes; auto]. cbn [andthen].
    rewrite name_ok; [|auto|apply halts_name_blank; auto]. cbn [andthen]. rewrite space1_ok; [|auto|right; eexists _, _; split; reflexivity]. cbn [andthen].
    rewrite tag_app. cbn [andthen]. rewrite space1_ok; [|auto|apply prod_starts in Hp as (_ & d & q & -> & X); apply halts_name_space; exists d; eexists; split; [reflexivity|auto]]. cbn [andthen].
    rewrite (production_ok ps bs fuel); [|auto|rewrite !app_length in *; lia|left; eexists _, _; split; [reflexivity|cbn; auto]]. cbn [andthen]. rewrite tag_app. cbn [andthen]. rewrite name_of_bytes. reflexivity.
  - change (parse_token_rule fuel (bytes "entry" ++ b1 ++ bytes n ++ bytes ";" ++ rest)) with (@Fail token_rule).
    change (parse_production_rule fuel (bytes "entry" ++ b1 ++ bytes n ++ bytes ";" ++ rest)) with (@Fail prod_rule). cbn [andthen].
    unfold parse_entry_rule. rewrite tag_app. cbn [andthen]. rewrite space1_ok; [|auto|apply halts_name_bytes; auto]. cbn [andthen].
    rewrite name_ok; [|auto|right; eexists _, _; split; reflexivity]. cbn [andthen]. rewrite tag_app. cbn [andthen]. rewrite name_of_bytes. reflexivity.
Qed.

Lemma rule_fed : forall fuel i, length i < fuel -> parse_rule fuel i <> Starved.
Proof.
  intros fuel i Hl. unfold parse_rule. apply orelse_fed; [apply pmap_fed|apply orelse_fed; apply pmap_fed].
  - unfold parse_token_rule. apply andthen_fed; [apply tag_fed|]. intros u1 i1 E1. apply reads_tag' in E1.
    apply andthen_fed; [apply while1_fed|]. intros u2 i2 E2. apply reads_space1 in E2 as (x2 & E2 & _).
    apply andthen_fed; [apply while1_fed|]. intros u3 i3 E3. apply reads_name in E3 as (x3 & E3 & _).
    apply andthen_fed; [apply while1_fed|]. intros u4 i4 E4. apply reads_space1 in E4 as (x4 & E4 & _).
    apply andthen_fed; [apply tag_fed|]. intros u5 i5 E5. apply reads_tag' in E5.
    apply andthen_fed; [apply while1_fed|]. intros u6 i6 E6. apply reads_space1 in E6 as (x6 & E6 & _). subst. rewrite !app_length in Hl.
    apply andthen_fed; [apply pattern_fed; lia|]. intros. apply andthen_fed; [apply tag_fed|discriminate].
  - unfold parse_production_rule. apply andthen_fed; [apply tag_fed|]. intros u1 i1 E1. apply reads_tag' in E1.
    apply andthen_fed; [apply while1_fed|]. intros u2 i2 E2. apply reads_space1 in E2 as (x2 & E2 & _).
    apply andthen_fed; [apply while1_fed|]. intros u3 i3 E3. apply reads_name in E3 as (x3 & E3 & _).
    apply andthen_fed; [apply while1_fed|]. intros u4 i4 E4. apply reads_space1 in E4 as (x4 & E4 & _).
    apply andthen_fed; [apply tag_fed|]. intros u5 i5 E5. apply reads_tag' in E5.
    apply andthen_fed; [apply while1_fed|]. intros u6 i6 E6. apply reads_space1 in E6 as (x6 & E6 & _). subst. rewrite !app_length in Hl.
    apply andthen_fed; [apply production_fed; lia|]. intros. apply andthen_fed; [apply tag_fed|discriminate].
  - unfold parse_entry_rule. apply andthen_fed; [apply tag_fed|]. intros. apply andthen_fed; [apply while1_fed|]. intros. apply andthen_fed; [apply while1_fed|]. intros. apply andthen_fed; [apply tag_fed|discriminate].
Qed.

Lemma rule_starts : forall s r bs, spells_rule s r bs -> exists d q, bs = d :: q /\ is_multispace d = false.
Proof. intros s r bs H. destruct H; eexists _, _; split; reflexivity. Qed.
Lemma rules_starts : forall s r bs, spells_rules s r bs -> exists d q, bs = d :: q /\ is_multispace d = false.
Proof. intros s r bs H. destruct H as [r bs H|r bs ws rs bs' H]; apply rule_starts in H as (d & q & -> & X); exists d; eexists; (split; [reflexivity|auto]). Qed.

Lemma rule_eats : forall fuel, eats (parse_rule fuel).
Proof. intros fuel. apply (reads_eats _ _ _ (reads_rule fuel)). intros a bs H. apply rule_starts in H as (d & q & -> & _). discriminate. Qed.

Lemma multispace0_ok : forall w rest, white w -> halts is_multispace rest -> multispace0 (w ++ rest) = Done w rest.
Proof. intros w rest H Hr. unfold multispace0. rewrite (span_app is_multispace w rest); auto. intros c Hc. apply is_multispace_iff. auto. Qed.
Lemma multispace1_ok : forall w rest, white w -> w <> [] -> halts is_multispace rest -> multispace1 (w ++ rest) = Done w rest.
Proof. intros w rest H Hn Hr. apply while1_app; auto. intros c Hc. apply is_multispace_iff. auto. Qed.

Lemma rules_chain : forall rules bs, spells_rules true rules bs -> forall w fuel, white w -> length (bs ++ w) < fuel ->
  exists r l i1, rules = r :: l /\ parse_rule fuel (bs ++ w) = Done r i1 /\ sep_chain multispace1 (parse_rule fuel) l i1 w.
Proof.
  intros rules bs H. induction H as [r bs H|r bs ws rs bs' H Hw Hn H' IH]; intros w fuel Hw2 Hl.
  - exists r, [], w. split; auto. split; [apply rule_ok; auto|]. apply sch_nil. destruct w as [|c w]; [left; reflexivity|]. right. exists (c :: w), [].
    split; [|reflexivity]. rewrite <- (app_nil_r (c :: w)) at 1. apply multispace1_ok; auto; [discriminate|left; auto].
  - rewrite <- !app_assoc in *. destruct (IH w fuel) as (q & l & i1 & -> & E & Hc); [auto|rewrite !app_length in *; lia|].
    exists r, (q :: l), (ws ++ bs' ++ w). split; auto. split; [apply rule_ok; auto|]. eapply sch_cons; [apply multispace1_ok; auto|exact E|exact Hc].
    apply rules_starts in H' as (d & x & -> & X). right. exists d. eexists. split; [reflexivity|auto].
Qed.

Lemma file_ok : forall rules text, spells_file true rules text -> parse_lapex_file_raw (S (length text)) text = Done rules [].
Proof.
  intros rules text (w1 & bs & w2 & H1 & H & H2 & E). unfold parse_lapex_file_raw.
  assert (multispace0 text = Done w1 (bs ++ w2)) as ->.
  { rewrite E. apply multispace0_ok; [auto|]. apply rules_starts in H as (d & x & -> & X). right. exists d. eexists. split; [reflexivity|auto]. }
  cbn [andthen].
  assert (length text = length w1 + length (bs ++ w2)) as El by (rewrite E, !app_length; auto).
  destruct (rules_chain rules bs H w2 (S (length text)) H2) as (r & l & i1 & -> & E1 & Hc); [lia|].
  rewrite (sep1_chain _ _ _ _ (rule_eats _) multispace1_eats _ _ _ _ _ E1 Hc) by lia. cbn [andthen].
  rewrite <- (app_nil_r w2). rewrite multispace0_ok; [reflexivity|auto|left; auto].
Qed.

Lemma file_fed : forall text, parse_lapex_file_raw (S (length text)) text <> Starved /\
  (parse_lapex_file_raw (S (length text)) text = Fail -> forall w bs rest r, text = w ++ bs ++ rest -> white w -> ~ spells_rule true r bs).
Proof.
  intros text. unfold parse_lapex_file_raw.
  assert (exists w j, multispace0 text = Done w j) as (w & j & E0) by (unfold multispace0; destruct (span is_multispace text) as [a b]; eauto).
  rewrite E0. cbn [andthen]. destruct (reads_multispace0 _ _ _ E0) as (w' & E & Hw).
  assert (length j <= length text) as Hj by (rewrite E, app_length; lia).
  destruct (sep1_fed _ _ multispace1 (parse_rule (S (length text))) (rule_eats _) multispace1_eats (fun i => while1_fed _ i) (S (length text)) j) as [X1 X2]; [lia|intros k Hk; apply rule_fed; lia|].
  split.
  - apply andthen_fed; [auto|]. intros. apply andthen_fed; [|discriminate]. unfold multispace0. destruct (span _ _). discriminate.
  - intros HF v bs rest r Et Hv Hr.
    destruct (separated_list1 (S (length text)) multispace1 (parse_rule (S (length text))) j) as [x k| |] eqn:Es; [|clear X1|congruence].
    + cbn [andthen] in HF. unfold multispace0 in HF. destruct (span is_multispace k). discriminate.
    + specialize (X2 eq_refl). rewrite Et in E0. rewrite multispace0_ok in E0; [|auto|apply rule_starts in Hr as (d & x & -> & X); right; exists d; eexists; (split; [reflexivity|auto])].
      injection E0 as _ <-. rewrite (rule_ok r bs _ rest Hr) in X2 by lia. discriminate.
Qed.

(** ** The rules of a file *)

Lemma filter_tokens : forall rules, map FToken (tokens_of rules) = filter (fun r => match r with FToken _ => true | _ => false end) rules.
Proof. unfold tokens_of, prods_of, entries_of. induction rules as [|[r|r|r] rules IH]; cbn; congruence. Qed.
Lemma filter_prods : forall rules, map FProd (prods_of rules) = filter (fun r => match r with FProd _ => true | _ => false end) rules.
Proof. unfold tokens_of, prods_of, entries_of. induction rules as [|[r|r|r] rules IH]; cbn; congruence. Qed.
Lemma filter_entries : forall rules, map FEntry (entries_of rules) = filter (fun r => match r with FEntry _ => true | _ => false end) rules.
Proof. unfold tokens_of, prods_of, entries_of. induction rules as [|[r|r|r] rules IH]; cbn; congruence. Qed.
Lemma map_inj : forall A B (f : A -> B), (forall x y, f x = f y -> x = y) -> forall l m, map f l = map f m -> l = m.
Proof. intros A B f H. induction l as [|x l IH]; intros [|y m] E; try discriminate; auto. injection E as E1 E2. f_equal; auto. Qed.

Lemma made_of_iff : forall rs rules, made_of rs rules <-> entries_of rules = [rs_entry rs] /\ tokens_of rules = rs_tokens rs /\ prods_of rules = rs_prods rs.
Proof.
  intros rs rules. split.
  - intros [r H1 H2 H3]. rewrite <- filter_tokens in H1. rewrite <- filter_prods in H2. rewrite <- filter_entries in H3. change [FEntry (rs_entry rs)] with (map FEntry [rs_entry rs]) in H3.
    apply map_inj in H1; [|congruence]. apply map_inj in H2; [|congruence]. apply map_inj in H3; [|congruence]. auto.
  - intros (H1 & H2 & H3). constructor; [rewrite <- filter_tokens, H2|rewrite <- filter_prods, H3|rewrite <- filter_entries, H1]; reflexivity.
Qed.

Lemma entry_count_of : forall rules, entry_count rules = length (entries_of rules).
Proof. intros rules. unfold entry_count. rewrite <- filter_entries, map_length. reflexivity. Qed.

(** ** Outcomes *)

Definition file_result (rules : list file_rule) : res parsing_error rule_set :=
  match entries_of rules with
  | [] => Err NoEntryRule
  | [e] => Ok (mkRuleSet e (tokens_of rules) (prods_of rules))
  | _ => Err TooManyEntryRules
  end.

Lemma parse_cases : forall text, (exists rules, parse_lapex_file_raw (S (length text)) text = Done rules [] /\ parse_lapex_file text = file_result rules) \/
  (exists rules rest, rest <> [] /\ parse_lapex_file_raw (S (length text)) text = Done rules rest /\ parse_lapex_file text = Err (IncompleteParsing rest)) \/
  (parse_lapex_file_raw (S (length text)) text = Fail /\ parse_lapex_file text = Panic).
Proof.
  intros text. unfold parse_lapex_file. destruct (file_fed text) as [Hf _]. destruct (parse_lapex_file_raw (S (length text)) text) as [rules [|c rest]| |]; [left; eauto| |auto|congruence].
  right. left. exists rules, (c :: rest). split; [discriminate|auto].
Qed.

Lemma file_result_ok : forall rules rs, file_result rules = Ok rs <-> made_of rs rules.
Proof.
  intros rules rs. rewrite made_of_iff. unfold file_result. destruct (entries_of rules) as [|e [|e' l]]; split; intros H; try discriminate; try (destruct H; discriminate).
  - injection H as <-. auto.
  - destruct H as (H1 & H2 & H3). destruct rs; cbn in *. congruence.
Qed.

Lemma result_cases : forall rules, (file_result rules = Err NoEntryRule <-> entry_count rules = 0) /\ (file_result rules = Err TooManyEntryRules <-> 2 <= entry_count rules) /\
  file_result rules <> Panic /\ file_result rules <> OutOfFuel /\ forall rest, file_result rules <> Err (IncompleteParsing rest).
Proof.
  intros rules. rewrite entry_count_of. unfold file_result. destruct (entries_of rules) as [|e [|e' l]]; cbn; repeat split; intros; try discriminate; auto; try lia.
Qed.

Lemma raw_rest : forall fuel text rules rest, parse_lapex_file_raw fuel text = Done rules rest -> halts is_multispace rest.
Proof.
  intros fuel text rules rest H. unfold parse_lapex_file_raw in H. do 3 inv_then H. injection H as _ <-. unfold multispace0 in E1. destruct (span is_multispace i0) as [a b] eqn:Es.
  injection E1 as _ <-. apply span_spec in Es. apply Es.
Qed.

Lemma bootstrap_reads_thm : forall rules text, spells_file true rules text ->
  (forall rs, made_of rs rules -> parse_lapex_file text = Ok rs) /\
  (entry_count rules = 0 -> parse_lapex_file text = Err NoEntryRule) /\
  (2 <= entry_count rules -> parse_lapex_file text = Err TooManyEntryRules).
Proof.
  intros rules text H. apply file_ok in H. destruct (parse_cases text) as [(r & E & ->)|[(r & rest & Hn & E & _)|[E _]]]; [|congruence|congruence].
  assert (r = rules) as -> by congruence. split; [intros rs; apply file_result_ok|]. split; apply result_cases.
Qed.

Lemma bootstrap_sound_thm : forall text,
  match parse_lapex_file text with
  | Ok rs => exists rules, spells_file false rules text /\ made_of rs rules
  | Err NoEntryRule => exists rules, spells_file false rules text /\ entry_count rules = 0
  | Err TooManyEntryRules => exists rules, spells_file false rules text /\ 2 <= entry_count rules
  | Err (IncompleteParsing rest) => rest <> [] /\ (forall c r, rest = c :: r -> ~ white [c]) /\ exists rules start, text = start ++ rest /\ spells_file false rules start
  | Panic => forall w bs rest r, text = w ++ bs ++ rest -> white w -> ~ spells_rule true r bs
  | OutOfFuel => False
  end.
Proof.
  intros text. destruct (parse_cases text) as [(rules & E & ->)|[(rules & rest & Hn & E & ->)|[E ->]]].
  - pose proof (reads_file _ _ _ _ E) as (bs & Eb & Hs). rewrite app_nil_r in Eb. subst bs. destruct (result_cases rules) as (R1 & R2 & R3 & R4 & R5).
    destruct (file_result rules) as [rs|[| |rest]| |] eqn:Er; [|exists rules; split; [auto|apply R1; auto]|exists rules; split; [auto|apply R2; auto]|exfalso; eapply R5; eauto|congruence|congruence].
    exists rules. split; auto. apply file_result_ok. auto.
  - split; auto. pose proof (reads_file _ _ _ _ E) as (bs & Eb & Hs). split; [|exists rules, bs; auto].
    intros c r -> Hw. destruct (raw_rest _ _ _ _ E) as [|(c' & r' & E' & X)]; [congruence|]. injection E' as <- <-.
    specialize (Hw c (or_introl eq_refl)). apply is_multispace_iff in Hw. congruence.
  - intros w bs rest r Et Hw. eapply (proj2 (file_fed text)); eauto.
Qed.

Lemma bootstrap_panics_thm : forall text, (forall w bs rest r, text = w ++ bs ++ rest -> white w -> ~ spells_rule false r bs) -> parse_lapex_file text = Panic.
Proof.
  intros text H. assert (forall rules start rest, spells_file false rules start -> text = start ++ rest -> False) as X.
  { intros rules start rest (w1 & bs & w2 & H1 & Hs & H2 & ->) E. destruct Hs as [r bs Hr|r bs ws rs bs' Hr]; rewrite <- ?app_assoc in E; eapply H; eauto. }
  destruct (parse_cases text) as [(rules & E & _)|[(rules & rest & Hn & E & _)|[_ E]]]; auto; exfalso;
  apply reads_file in E as (bs & Eb & Hs); eapply X; eauto.
Qed.

(** ** The rule sets which can be read *)

Lemma Each_Forall : forall A (P : A -> Prop) l, Each P l <-> Forall P l.
Proof.
  intros A P. induction l as [|x l IH]; [split; [constructor|exact (fun _ => I)]|]. change (Each P (x :: l)) with (P x /\ Each P l). rewrite IH.
  split; [intros []; constructor; auto|intros H; inversion H; auto].
Qed.

Lemma spells_scalar : forall c bs, spells_char c bs -> scalar c.
Proof. intros c bs H. unfold scalar. destruct H; try (left; reflexivity); [left; lia|auto]. Qed.

Lemma ranges_writable : forall s rs bs, spells_ranges s rs bs -> Forall writable_chars rs.
Proof.
  intros s rs bs H. assert (forall r bs, spells_range r bs -> writable_chars r) as X.
  { intros r b [c b' Hc|c1 c2 b1 b2 H1 H2]; cbn; [eapply spells_scalar; eauto|split; eapply spells_scalar; eauto]. }
  induction H; constructor; eauto.
Qed.

Definition writable_item (q : pattern) : Prop :=
  match q with PRep mn mx r => ((mn, mx) = (0, None) \/ (mn, mx) = (1, None) \/ (mn, mx) = (0, Some 1))%N /\ writable_atom r | _ => writable_atom q end.
Definition writable_choice (q : pattern) : Prop := match q with PSeq _ => writable_atom q | _ => False end.

Lemma writable_seq : forall l, writable_atom (PSeq l) <-> l <> [] /\ Forall writable_item l.
Proof. intros l. rewrite <- Each_Forall. reflexivity. Qed.
Lemma writable_alt : forall l, writable_atom (PAlt l) <-> 2 <= length l /\ Forall writable_choice l.
Proof. intros l. rewrite <- Each_Forall. reflexivity. Qed.

Lemma atom_item : forall q, writable_atom q -> writable_item q.
Proof. intros [l|l|mn mx q|cs b|c] H; auto. destruct H. Qed.

Lemma regex_writable : forall s,
  (forall p bs, regex_atom s p bs -> writable_atom p) /\
  (forall p bs, regex_item s p bs -> writable_item p) /\
  (forall l bs, regex_items s l bs -> l <> [] /\ Forall writable_item l) /\
  (forall l bs, regex_choices s l bs -> Forall writable_choice l).
Proof.
  intros s. apply regex_min; intros.
  - inversion H0; subst. destruct p; cbn in H3; try contradiction. exact H3.
  - apply writable_alt. auto.
  - split; [eapply ranges_writable; eauto|]. intros ->. apply ranges_nonempty in H. exfalso. apply (proj1 H). reflexivity.
  - split; [eapply ranges_writable; eauto|auto].
  - split; auto.
  - cbn. eapply spells_scalar; eauto.
  - apply atom_item; auto.
  - split; auto.
  - split; auto.
  - split; auto.
  - split; [discriminate|constructor; auto].
  - split; [discriminate|]. constructor; auto. apply H2.
  - constructor; auto. cbn [writable_choice]. apply writable_seq. auto.
  - constructor; auto. cbn [writable_choice]. apply writable_seq. auto.
Qed.

Definition writable_pitem (q : prod_pattern) : Prop := match q with QPlus r | QStar r | QOpt r => writable_prod r | _ => writable_prod q end.
Definition writable_pchoice (q : prod_pattern) : Prop := match q with QSeq _ => writable_prod q | _ => False end.
Lemma writable_pseq : forall l, writable_prod (QSeq l) <-> l <> [] /\ Forall writable_pitem l.
Proof. intros l. rewrite <- Each_Forall. reflexivity. Qed.
Lemma writable_palt : forall l, writable_prod (QAlt l) <-> 2 <= length l /\ Forall writable_pchoice l.
Proof. intros l. rewrite <- Each_Forall. reflexivity. Qed.
Lemma patom_item : forall q, writable_prod q -> writable_pitem q.
Proof. intros [l|l|q|q|q|s|] H; auto; destruct H. Qed.

Lemma prod_writable :
  (forall p bs, prod_atom p bs -> writable_prod p) /\
  (forall p bs, prod_item p bs -> writable_pitem p) /\
  (forall l bs, prod_items l bs -> l <> [] /\ Forall writable_pitem l) /\
  (forall l bs, prod_choices l bs -> Forall writable_pchoice l).
Proof.
  apply prod_min; intros; auto.
  - inversion H0; subst. destruct p; cbn in H3; try contradiction. exact H3.
  - apply writable_palt. auto.
  - apply patom_item; auto.
  - split; [discriminate|constructor; auto].
  - split; [discriminate|]. constructor; auto. apply H3.
  - constructor; auto. cbn [writable_pchoice]. apply writable_pseq. auto.
  - constructor; auto. cbn [writable_pchoice]. apply writable_pseq. auto.
Qed.

Definition writable_rule (r : file_rule) : Prop :=
  match r with
  | FToken t => is_name (tr_name t) /\ tr_prec t = None /\ writable_pattern (tr_pattern t)
  | FProd t => is_name (pr_name t) /\ pr_tag t = None /\ match pr_pattern t with QSeq _ => writable_prod (pr_pattern t) | _ => False end
  | FEntry n => is_name n
  end.

Lemma rule_writable : forall s r bs, spells_rule s r bs -> writable_rule r.
Proof.
  intros s r bs H. destruct H as [n p b1 b2 b3 bs Hn _ _ _ Hp|n ps b1 b2 b3 bs Hn _ _ _ Hp|n b1 Hn _]; cbn [writable_rule tr_name tr_prec tr_pattern pr_name pr_tag pr_pattern].
  - split; auto. split; auto. destruct Hp as [cs H1 H2|ps bs H]; [split; auto|]. apply writable_seq. eapply regex_writable; eauto.
  - split; auto. split; auto. apply writable_pseq. eapply prod_writable; eauto.
  - auto.
Qed.

Lemma rules_writable : forall s rules bs, spells_rules s rules bs -> Forall writable_rule rules.
Proof. intros s rules bs H. induction H; constructor; auto; eapply rule_writable; eauto. Qed.

Lemma writable_rules_iff : forall rs rules, made_of rs rules -> (writable rs <-> Forall writable_rule rules).
Proof.
  intros rs rules H. apply made_of_iff in H as (H1 & H2 & H3). unfold writable. rewrite <- H2, <- H3.
  assert (is_name (rs_entry rs) <-> Forall is_name (entries_of rules)) as ->.
  { rewrite H1. split; [intros X; constructor; [exact X|constructor]|intros X; inversion X; auto]. }
  clear. induction rules as [|[r|r|r] rules IH]; cbn -[is_name]; [split; repeat constructor| | |]; unfold tokens_of, prods_of, entries_of in IH |- *; cbn [flat_map app] in *;
  rewrite !Forall_cons_iff, <- IH; cbn [writable_rule]; tauto.
Qed.

(** Every writable pattern has a strict spelling. *)

Lemma hex_digits : forall k c, (c < 16 ^ N.of_nat k)%N -> exists ds, length ds = k /\ hex_number ds c.
Proof.
  induction k as [|k IH]; intros c H.
  - exists []. split; auto. cbn in H. assert (c = 0)%N as -> by lia. constructor.
  - rewrite Nat2N.inj_succ, N.pow_succ_r' in H. destruct (IH (c / 16)%N) as (ds & Hl & Hd); [apply N.div_lt_upper_bound; lia|].
    assert (c mod 16 < 16)%N as Hm by (apply N.mod_lt; lia).
    assert (exists d, hex_is d (N.to_nat (c mod 16))) as [d X].
    { unfold hex_is. destruct (nth_error (bytes "0123456789abcdef") (N.to_nat (c mod 16))) as [d|] eqn:E; [exists d; auto|]. exfalso. apply nth_error_None in E. change (length (bytes "0123456789abcdef")) with 16 in E. lia. }
    exists (ds ++ [d]). split; [rewrite app_length; cbn; lia|]. assert (c = 16 * (c / 16) + N.of_nat (N.to_nat (c mod 16)))%N as E by (rewrite N2Nat.id; apply N.div_mod; lia).
    rewrite E. apply hn_snoc; auto.
Qed.

Lemma char_spelled : forall c, scalar c -> exists bs, spells_char c (bytes "\" ++ bs).
Proof.
  intros c H. destruct (hex_digits 6 c) as (ds & Hl & Hd); [unfold scalar in H; change (16 ^ N.of_nat 6)%N with 16777216%N; lia|].
  exists (bytes "u{" ++ ds ++ bytes "}"). apply (sc_unicode ds c); auto. lia.
Qed.

Lemma range_spelled : forall r, writable_chars r -> exists bs, spells_range r (bytes "\" ++ bs).
Proof.
  intros [c|c1 c2] H; cbn in H.
  - destruct (char_spelled c H) as [bs X]. exists bs. constructor; auto.
  - destruct H as [H1 H2]. destruct (char_spelled c1 H1) as [b1 X1]. destruct (char_spelled c2 H2) as [b2 X2]. exists (b1 ++ bytes "-" ++ bytes "\" ++ b2). rewrite app_assoc. constructor; auto.
Qed.

Lemma not_begins_escape : forall s bs, ~ In (code "\") (bytes s) -> ~ begins s (bytes "\" ++ bs).
Proof. intros s bs H. apply (not_begins_cons s (code "\") bs H). Qed.

Lemma ranges_spelled : forall l, Forall writable_chars l -> l <> [] -> exists bs, spells_ranges true l (bytes "\" ++ bs).
Proof.
  induction l as [|r l IH]; intros H Hn; [congruence|]. inversion H as [|? ? Hr Hl]; subst. destruct (range_spelled r Hr) as [b Hb].
  destruct l as [|x l].
  - exists b. constructor; auto. intros _. apply not_begins_escape. cbn. intuition discriminate.
  - destruct (IH Hl) as [bs Hbs]; [discriminate|]. exists (b ++ bytes "\" ++ bs). rewrite app_assoc. constructor; auto. intros _. apply not_begins_escape. cbn. intuition discriminate.
Qed.

Definition spellable (p : pattern) : Prop :=
  (writable_atom p -> exists bs, regex_atom true p bs) /\ (writable_item p -> exists bs, regex_item true p bs) /\
  (forall l, p = PSeq l -> writable_atom p -> exists bs, regex_items true l bs).

Lemma items_spelled : forall l, Forall spellable l -> l <> [] -> Forall writable_item l -> exists bs, regex_items true l bs.
Proof.
  induction l as [|p l IH]; intros H Hn Hw; [congruence|]. inversion H as [|? ? Hp Hl]; inversion Hw as [|? ? Wp Wl]; subst.
  destruct (proj1 (proj2 Hp) Wp) as [b Hb]. destruct l as [|q l]; [exists b; constructor; auto|]. destruct (IH Hl) as [bs Hbs]; [discriminate|auto|]. exists (b ++ bs). constructor; auto.
Qed.

Lemma choices_spelled : forall l, Forall spellable l -> l <> [] -> Forall writable_choice l -> exists bs, regex_choices true l bs.
Proof.
  induction l as [|p l IH]; intros H Hn Hw; [congruence|]. inversion H as [|? ? Hp Hl]; inversion Hw as [|? ? Wp Wl]; subst.
  destruct p as [ps| | | |]; try contradiction. destruct (proj2 (proj2 Hp) ps eq_refl Wp) as [b Hb].
  destruct l as [|q l]; [exists b; constructor; auto|]. destruct (IH Hl) as [bs Hbs]; [discriminate|auto|]. exists (b ++ bytes "|" ++ bs). constructor; auto.
Qed.

Lemma all_spellable : forall p, spellable p.
Proof.
  apply pattern_ind'.
  - intros l H. assert (writable_atom (PSeq l) -> exists bs, regex_items true l bs) as X by (intros W; apply writable_seq in W as [Hn W]; apply items_spelled; auto).
    assert (writable_atom (PSeq l) -> exists bs, regex_atom true (PSeq l) bs) as Y by (intros W; destruct (X W) as [bs Hbs]; eexists; apply ra_group; constructor; exact Hbs).
    split; [auto|]. split; [intros W; destruct (Y W) as [bs Hbs]; exists bs; constructor; auto|]. intros l' E. injection E as <-. auto.
  - intros l H. assert (writable_atom (PAlt l) -> exists bs, regex_atom true (PAlt l) bs) as Y.
    { intros W. apply writable_alt in W as [Hl W]. destruct (choices_spelled l H) as [bs Hbs]; [destruct l; [cbn in Hl; lia|discriminate]|auto|]. eexists. apply ra_choice; eauto. }
    split; [auto|]. split; [intros W; destruct (Y W) as [bs Hbs]; exists bs; constructor; auto|]. intros l' E. discriminate.
  - intros mn mx p (H1 & H2 & H3). split; [intros []|]. split; [|discriminate]. intros [Hk W]. destruct (H1 W) as [bs Hbs].
    destruct Hk as [E|[E|E]]; injection E as -> ->; eexists; [apply ri_star|apply ri_plus|apply ri_option]; eauto.
  - intros cs b. assert (writable_atom (PSet cs b) -> exists bs, regex_atom true (PSet cs b) bs) as Y.
    { intros [W Wn]. destruct cs as [|c cs]; [rewrite Wn by auto; eexists; apply ra_any|]. destruct (ranges_spelled (c :: cs) W) as [bs Hbs]; [discriminate|].
      destruct b; eexists; [apply ra_complement; eauto|apply ra_set; eauto]. intros _. apply not_begins_escape. cbn. intuition discriminate. }
    split; [auto|]. split; [intros W; destruct (Y W) as [bs Hbs]; exists bs; constructor; auto|]. discriminate.
  - intros c. assert (writable_atom (PChar c) -> exists bs, regex_atom true (PChar c) bs) as Y.
    { destruct c as [c|c1 c2]; intros W; [|destruct W]. destruct (char_spelled c W) as [bs Hbs]. exists (bytes "\" ++ bs). apply ra_char; auto. intros _. apply not_begins_escape. cbn. intuition discriminate. }
    split; [auto|]. split; [intros W; destruct (Y W) as [bs Hbs]; exists bs; constructor; auto|]. discriminate.
Qed.

Definition pspellable (p : prod_pattern) : Prop :=
  (writable_prod p -> exists bs, prod_atom p bs) /\ (writable_pitem p -> exists bs, prod_item p bs) /\
  (forall l, p = QSeq l -> writable_prod p -> exists bs, prod_items l bs).

Lemma blank_space : blank [32%N].
Proof. split; [discriminate|]. intros c [<-|[]]. cbn. auto. Qed.

Lemma pitems_spelled : forall l, Forall pspellable l -> l <> [] -> Forall writable_pitem l -> exists bs, prod_items l bs.
Proof.
  induction l as [|p l IH]; intros H Hn Hw; [congruence|]. inversion H as [|? ? Hp Hl]; inversion Hw as [|? ? Wp Wl]; subst.
  destruct (proj1 (proj2 Hp) Wp) as [b Hb]. destruct l as [|q l]; [exists b; constructor; auto|]. destruct (IH Hl) as [bs Hbs]; [discriminate|auto|]. exists (b ++ [32%N] ++ bs). constructor; auto. apply blank_space.
Qed.

Lemma pchoices_spelled : forall l, Forall pspellable l -> l <> [] -> Forall writable_pchoice l -> exists bs, prod_choices l bs.
Proof.
  induction l as [|p l IH]; intros H Hn Hw; [congruence|]. inversion H as [|? ? Hp Hl]; inversion Hw as [|? ? Wp Wl]; subst.
  destruct p as [ps| | | | | |]; try contradiction. destruct (proj2 (proj2 Hp) ps eq_refl Wp) as [b Hb].
  destruct l as [|q l]; [exists b; constructor; auto|]. destruct (IH Hl) as [bs Hbs]; [discriminate|auto|]. exists (b ++ bytes " | " ++ bs). constructor; auto.
Qed.

Lemma all_pspellable : forall p, pspellable p.
Proof.
  apply prod_pattern_ind'.
  - intros l H. assert (writable_prod (QSeq l) -> exists bs, prod_items l bs) as X by (intros W; apply writable_pseq in W as [Hn W]; apply pitems_spelled; auto).
    assert (writable_prod (QSeq l) -> exists bs, prod_atom (QSeq l) bs) as Y by (intros W; destruct (X W) as [bs Hbs]; eexists; apply pa_group; constructor; exact Hbs).
    split; [auto|]. split; [intros W; destruct (Y W) as [bs Hbs]; exists bs; constructor; auto|]. intros l' E. injection E as <-. auto.
  - intros l H. assert (writable_prod (QAlt l) -> exists bs, prod_atom (QAlt l) bs) as Y.
    { intros W. apply writable_palt in W as [Hl W]. destruct (pchoices_spelled l H) as [bs Hbs]; [destruct l; [cbn in Hl; lia|discriminate]|auto|]. eexists. apply pa_choice; eauto. }
    split; [auto|]. split; [intros W; destruct (Y W) as [bs Hbs]; exists bs; constructor; auto|]. intros l' E. discriminate.
  - intros p (H1 & H2 & H3). split; [intros []|]. split; [|discriminate]. intros W. destruct (H1 W) as [bs Hbs]. eexists. apply pi_plus; eauto.
  - intros p (H1 & H2 & H3). split; [intros []|]. split; [|discriminate]. intros W. destruct (H1 W) as [bs Hbs]. eexists. apply pi_star; eauto.
  - intros p (H1 & H2 & H3). split; [intros []|]. split; [|discriminate]. intros W. destruct (H1 W) as [bs Hbs]. eexists. apply pi_option; eauto.
  - intros s. split; [intros W; eexists; constructor; exact W|]. split; [|discriminate]. intros W. eexists. apply pi_once. constructor. exact W.
  - split; [intros []|]. split; [intros []|discriminate].
Qed.

Lemma rule_spelled : forall r, writable_rule r -> exists bs, spells_rule true r bs.
Proof.
  intros [t|t|n] W; cbn in W.
  - destruct t as [n pr p]. cbn in W. destruct W as (Hn & -> & W). destruct p as [cs|[l| | | |]]; try contradiction.
    + eexists. apply (sf_token true n (TLiteral cs) [32%N] [32%N] [32%N]); auto using blank_space. constructor; apply W.
    + destruct (proj2 (proj2 (all_spellable (PSeq l))) l eq_refl W) as [bs Hbs]. eexists. apply (sf_token true n (TPattern (PSeq l)) [32%N] [32%N] [32%N]); auto using blank_space. constructor; eauto.
  - destruct t as [n tg p]. cbn in W. destruct W as (Hn & -> & W). destruct p as [l| | | | | |]; try contradiction.
    destruct (proj2 (proj2 (all_pspellable (QSeq l))) l eq_refl W) as [bs Hbs]. eexists. apply (sf_prod true n l [32%N] [32%N] [32%N]); auto using blank_space. eauto.
  - eexists. apply (sf_entry true n [32%N]); auto using blank_space.
Qed.

Lemma rules_spelled : forall rules, rules <> [] -> Forall writable_rule rules -> exists bs, spells_rules true rules bs.
Proof.
  induction rules as [|r rules IH]; intros Hn H; [congruence|]. inversion H as [|? ? Hr Hl]; subst. destruct (rule_spelled r Hr) as [b Hb]. destruct rules as [|q l]; [exists b; constructor; auto|].
  destruct (IH) as [bs Hbs]; [discriminate|auto|]. exists (b ++ [10%N] ++ bs). constructor; auto; [|discriminate]. intros c [<-|[]]. cbn. auto.
Qed.

Lemma writable_spelled : forall rs, writable rs -> exists rules text, made_of rs rules /\ spells_file true rules text.
Proof.
  intros rs W. set (rules := FEntry (rs_entry rs) :: map FToken (rs_tokens rs) ++ map FProd (rs_prods rs)).
    assert (made_of rs rules) as Hm.
    { apply made_of_iff. unfold rules, entries_of, tokens_of, prods_of. cbn [flat_map app]. rewrite !flat_map_app. cbn [app].
      assert (forall A B C (f : A -> list C) (g : B -> A), (forall b, f (g b) = []) -> forall l, flat_map f (map g l) = []) as Z by (intros A B C f g Hf; induction l as [|x l IH]; cbn; auto; rewrite Hf; auto).
      assert (forall A B (f : A -> list B) (g : B -> A), (forall b, f (g b) = [b]) -> forall l, flat_map f (map g l) = l) as Z' by (intros A B f g Hf; induction l as [|x l IH]; cbn; auto; rewrite Hf; cbn; congruence).
      rewrite !Z' by reflexivity. rewrite (Z _ _ token_rule), (Z _ _ prod_rule), !(Z _ _ string) by reflexivity. cbn. rewrite ?app_nil_r. auto. }
    apply (writable_rules_iff rs rules Hm) in W. destruct (rules_spelled rules) as [bs Hbs]; [discriminate|auto|]. exists rules, bs. split; auto.
    exists [], bs, []. split; [intros c []|]. split; auto. split; [intros c []|]. rewrite app_nil_r. reflexivity.
Qed.

Lemma bootstrap_round_trip_thm : forall rs, writable rs -> exists rules text, made_of rs rules /\ spells_file true rules text /\ parse_lapex_file text = Ok rs.
Proof. intros rs W. destruct (writable_spelled rs W) as (rules & text & Hm & Hs). exists rules, text. split; auto. split; auto. apply (bootstrap_reads_thm rules text); auto. Qed.

Lemma bootstrap_image_thm : forall rs, (exists text, parse_lapex_file text = Ok rs) <-> writable rs.
Proof.
  intros rs. split.
  - intros [text E]. pose proof (bootstrap_sound_thm text) as X. rewrite E in X. destruct X as (rules & (w1 & bs & w2 & _ & Hs & _ & _) & Hm). apply (writable_rules_iff rs rules Hm). eapply rules_writable; eauto.
  - intros W. destruct (bootstrap_round_trip_thm rs W) as (rules & text & _ & _ & E). eauto.
Qed.
