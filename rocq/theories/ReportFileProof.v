(** The reports on a file are readable. *)
From Coq Require Import String Ascii List Arith NArith Bool Lia.
From Verif Require Import Base InputModel GrammarModel GrammarSpec GrammarProof GrammarNamesProof GrammarBuildProof GrammarFactsProof LexerModel LexerSpec LexerProof BootModel PositionModel PositionSpec InputGenModel InputGenSpec InputGenFactsProof InputTextSpec InputTextFactsProof
  NamesModel NamesSpec NamesVisitProof TableModel LRModel LRSpec LRItemsProof LRGraphProof LRGenProof LRTableProof LRFactsProof PipelineModel PipelineSpec PipelineProof PipelineReportProof PipelineEndProof ReportSpec ReportProof.
Import ListNotations.
Local Open Scope string_scope.
Local Open Scope list_scope.

(** Names. *)
Lemma letter_plain : forall c, InputTextSpec.letter c -> (c < 256)%N /\ c <> 10%N /\ c <> 13%N. Proof. unfold InputTextSpec.letter. intros c H. lia. Qed.
Lemma word_plain : forall c, InputTextSpec.word_char c -> (c < 256)%N /\ c <> 10%N /\ c <> 13%N. Proof. unfold InputTextSpec.word_char, InputTextSpec.letter, InputTextSpec.digit. intros c H. lia. Qed.
Lemma ident_readable : forall text, lexeme "IDENT" text -> readable_name (name_of text).
Proof.
  intros text H. assert (W : forall c, In c text -> (c < 256)%N /\ c <> 10%N /\ c <> 13%N).
  { remember "IDENT" as k eqn:K. destruct H as [n w I|n c I| | |c cs L F|b B|b B|c cs F|]; try discriminate K.
    - subst. cbn in I. destruct I as [I|[I|[I|[]]]]; discriminate.
    - subst. cbn in I. repeat (destruct I as [I|I]; [discriminate|]). destruct I.
    - intros x [<-|X]; [exact (letter_plain _ L)|]. rewrite Forall_forall in F. exact (word_plain _ (F x X)). }
  unfold readable_name. rewrite BootSoundProof.bytes_name_of by (intros c I; apply (W c I)). intros c I. apply (W c I).
Qed.
Lemma placed_lexeme : forall line col l ts, placed line col l ts -> Forall (fun e => lexeme (fst e) (snd e)) l -> forall d, In (IDENT, d) ts -> lexeme "IDENT" (td_text d).
Proof.
  induction 1 as [line col|line col text l ts H P IH|line col text l ts H P IH|line col name t text l ts K H P IH]; intros F d I; [destruct I| | |]; inversion F as [|? ? A B]; subst; [exact (IH B d I)|exact (IH B d I)|].
  destruct I as [I|I]; [|exact (IH B d I)]. assert (E : t = IDENT /\ td_text d = text) by (injection I as E <-; auto). destruct E as (-> & ->). cbn [fst snd] in A.
  assert (name = "IDENT") as ->; [|exact A]. cbn in K. repeat (destruct K as [K|K]; [first [discriminate K|injection K as <-; reflexivity]|]). destruct K.
Qed.
Definition file_rule_name (r : file_rule) : string := match r with FEntry n => n | FProd p => pr_name p | FToken t => tr_name t end.
Lemma rule_name : forall regex r ts, rule_tokens joined_sequence joined_choice regex r ts -> exists d, In (IDENT, d) ts /\ file_rule_name (snd r) = name_of (td_text d).
Proof. intros regex r ts H. destruct H as [a d b|a d e b tag ts p ts' T A|a d e b prec ts p t T A]; exists d; (split; [right; left; reflexivity|reflexivity]). Qed.
Lemma file_names : forall regex rules ts, file_tokens joined_sequence joined_choice regex rules ts -> forall r, In r rules -> exists d, In (IDENT, d) ts /\ file_rule_name (snd r) = name_of (td_text d).
Proof.
  intros regex rules ts H. induction H as [r ts R|r ts rs ts' R F IH]; intros x I.
  - destruct I as [<-|[]]. exact (rule_name _ _ _ R).
  - destruct I as [<-|I]; [destruct (rule_name _ _ _ R) as (d & A & B)|destruct (IH x I) as (d & A & B)]; exists d; (split; [apply in_or_app; tauto|exact B]).
Qed.
Lemma division_lexed : forall text l, division text l -> Forall (fun e => lexeme (fst e) (snd e)) l.
Proof. intros text l D. induction D as [|name text rest l L M D IH]; constructor; assumption. Qed.
Lemma read_names : forall regex source out, reads_file regex source out ->
  (forall t, In t (map snd (sr_tokens out)) -> readable_name (tr_name t)) /\ (forall p, In p (map snd (sr_prods out)) -> readable_name (pr_name p)).
Proof.
  intros regex source out (text & l & ts & rules & _ & D & P & F & C).
  assert (A : forall r, In r (InputTextSpec.rules_of out) -> readable_name (file_rule_name (snd r))).
  { intros r I. apply (rules_of_in _ _ _ C) in I. apply in_rev in I. destruct (file_names _ _ _ F r I) as (d & J & ->). exact (ident_readable _ (placed_lexeme _ _ _ _ P (division_lexed _ _ D) d J)). }
  split; intros x I; apply in_map_iff in I; destruct I as ((sp, y) & <- & I).
  - apply (A (sp, FToken y)). unfold InputTextSpec.rules_of. apply in_or_app. right. apply in_or_app. left. apply in_map_iff. exists (sp, y). auto.
  - apply (A (sp, FProd y)). unfold InputTextSpec.rules_of. apply in_or_app. right. apply in_or_app. right. apply in_map_iff. exists (sp, y). auto.
Qed.

(** Texts of items. *)
Lemma bytes_app : forall a b, bytes (a ++ b)%string = bytes a ++ bytes b.
Proof. intros a b. unfold bytes. rewrite <- map_app. f_equal. induction a as [|c a IH]; [reflexivity|]. cbn. rewrite IH. reflexivity. Qed.
Lemma readable_app : forall a b, readable_name a -> readable_name b -> readable_name (a ++ b)%string.
Proof. intros a b A B. unfold readable_name. rewrite bytes_app. exact (unbroken_app _ _ A B). Qed.
Lemma readable_text : forall s, unbrokenb (bytes s) = true -> readable_name s. Proof. intros s. exact (unbrokenb_ok (bytes s)). Qed.
Lemma concat_readable : forall l, Forall readable_name l -> readable_name (String.concat " " l).
Proof.
  induction l as [|x l IH]; intros F; [apply readable_text; reflexivity|]. inversion F as [|? ? A B]; subst. cbn [String.concat]. destruct l as [|y l]; [exact A|]. apply readable_app; [exact A|]. apply readable_app; [apply readable_text; reflexivity|exact (IH B)].
Qed.
Section Items.
Variables (rs : rule_set) (g : grammar).
Hypothesis built_g : from_rule_set rs = Ok g.
Hypothesis tokens_readable : forall t, In t (rs_tokens rs) -> readable_name (tr_name t).
Hypothesis prods_readable : forall p, In p (rs_prods rs) -> readable_name (pr_name p).
Lemma token_of : forall s n, In (s, n) (g_tokens g) -> exists t, In t (rs_tokens rs) /\ tr_name t = n.
Proof.
  intros s n E. destruct (from_rule_set_built _ _ built_g) as (b & als & [Hst (b' & B & Er & Et & Ep & Ea & Hrun) _]). rewrite Et in E. destruct (so_tok _ _ Hst _ _ E) as (k & (p & Hp & <-) & _).
  exists p. split; [eapply nth_error_In; exact Hp|reflexivity].
Qed.
Lemma shown_readable : forall s t, shown g s t -> readable_name t.
Proof.
  intros s t [x name H|i name H|i H| |]; try (apply readable_text; reflexivity).
  - destruct (token_of _ _ H) as (r & R & <-). apply readable_app; [exact (tokens_readable r R)|]. apply readable_app; [apply readable_text; reflexivity|]. apply readable_app; [apply decimal_unbroken|apply readable_text; reflexivity].
  - destruct (prod_named _ _ built_g _ _ H) as (p & R & <-). apply readable_app; [exact (prods_readable p R)|]. apply readable_app; [apply readable_text; reflexivity|]. apply readable_app; [apply decimal_unbroken|apply readable_text; reflexivity].
  - apply readable_app; [apply readable_text; reflexivity|]. apply readable_app; [apply decimal_unbroken|apply readable_text; reflexivity].
Qed.
Lemma all_readable : forall l m, Forall2 (shown g) l m -> Forall readable_name m.
Proof. intros l m F. induction F as [|s t l m S F IH]; constructor; [exact (shown_readable _ _ S)|exact IH]. Qed.
Lemma shift_readable : forall s name, shown_shift g s name -> readable_name name.
Proof. intros s name H. destruct s; try exact (shown_readable _ _ H). destruct (token_of _ _ H) as (r & R & <-). exact (tokens_readable r R). Qed.
Lemma item_readable : forall it text, shown_item g it text -> readable_name text.
Proof.
  intros it text (b & a & pre & post & _ & _ & B & A & H).
  assert (D : readable_name (String.concat " " pre ++ " " ++ bullet ++ " " ++ String.concat " " post)%string).
  { apply readable_app; [exact (concat_readable _ (all_readable _ _ B))|]. apply readable_app; [apply readable_text; reflexivity|]. apply readable_app; [apply readable_text; reflexivity|]. apply readable_app; [apply readable_text; reflexivity|exact (concat_readable _ (all_readable _ _ A))]. }
  cbv zeta in H. destruct (lhs_of g (it_rule it)) as [i|]; [|subst; exact D]. destruct H as (lhs & L & ->). apply readable_app; [exact (shown_readable _ _ L)|]. apply readable_app; [apply readable_text; reflexivity|exact D].
Qed.
End Items.

(** Reports. *)
Lemma conflict_has_items : forall g k m cs, wf_grammar g -> generates k m g false = Ok (BadConflicts cs) -> forall q its, In (ReduceReduce q its) cs -> its <> [].
Proof.
  intros g k m cs wf H q its I. destruct (generate_inv g wf m (kind_n k) false (kind_lalr k) _ (kind_n_le k) H) as (fs & pg & cs' & A & au & C & D).
  assert (cs' = cs /\ cs <> []) as [-> Hne] by (inversion D; subst; auto). destruct C as [_ C]. apply C in I. destruct I as (q' & S & _ & X). inversion X; subst. discriminate.
Qed.
Lemma located_readable : forall regex source loc r, ~ In 13%N source -> located regex source loc r -> readable_location loc.
Proof. intros regex source loc r H (b & a & E & _) X. apply H. rewrite E. apply in_or_app. right. apply in_or_app. left. exact X. Qed.

Lemma reports_readable_proof : forall regex gn n source sr, built gn -> parse_lapex regex gn n source = Ok sr -> Forall (fun c => (c < 128)%N) source -> unbroken source -> positions_fit source -> ~ In 13%N source ->
  forall create fuel lexer alg table l rs, (lexer = true -> lexable (map snd (sr_tokens sr))) -> snd (generate create fuel (parse_lapex regex gn n) lexer alg table l (Some source)) = Err rs ->
  Forall readable rs.
Proof.
  intros regex gn n source sr B P A U F R create fuel lexer alg table l rs L E. destruct (read_names _ _ _ (text_reads _ _ _ _ _ B (InputTextWriteProof.ascii_valid _ A) P)) as (Nt & Np).
  destruct (text_reports_sound _ _ _ _ _ B P A U F create fuel lexer alg table l rs L E) as [(_ & u & h & rules & locs & _ & T & Fi & S & ->)|(k & g & cs & _ & G & C & _ & S)].
  - constructor; [|constructor]. split.
    + destruct T as (_ & Len & _). intros X. subst locs. inversion S; subst. cbn in Len. lia.
    + assert (In_rules : forall t, In t rules -> In t (sr_tokens sr)). { clear - Fi. induction Fi; intros t I; [destruct I|destruct I as [<-|I]; [left; reflexivity|right; auto]|right; auto]. }
      clear - S In_rules Nt R. induction S as [|t (w, s) rules locs H S IH]; intros w' s' I; [destruct I|]. destruct I as [I|I]; [|apply IH; [intros; apply In_rules; right; assumption|exact I]].
      injection I as <- <-. destruct H as (H1 & _ & H2). cbn [fst snd] in *. split; [exact (located_readable _ _ _ _ R H2)|]. rewrite H1. apply Nt, in_map, In_rules. left. reflexivity.
  - pose proof (conflict_has_items _ _ _ _ (grammar_wf _ _ G) C) as Some_items. clear C E.
    assert (It : forall it w s, reported_item regex source sr g it (w, s) -> readable_location w /\ readable_name s).
    { intros it w s (X & j & sp & p & _ & _ & _ & Y). cbn [fst snd] in *. split; [exact (located_readable _ _ _ _ R Y)|exact (item_readable _ _ G Nt Np _ _ X)]. }
    induction S as [|c r cs rs X S IH]; constructor; [|apply IH; intros q its I; exact (Some_items q its (or_intror I))]. destruct X as [q it s name loc text X Y|q its items X].
    + destruct (It _ _ _ Y) as (Y1 & Y2). split; [exact (shift_readable _ _ G Nt Np _ _ X)|]. split; assumption.
    + split; [intros ->; inversion X; subst; exact (Some_items q [] (or_introl eq_refl) eq_refl)|]. clear - X It. induction X as [|it (w, s) its items Y X IH]; intros w' s' I; [destruct I|].
      destruct I as [I|I]; [injection I as <- <-; exact (It _ _ _ Y)|exact (IH w' s' I)].
Qed.
