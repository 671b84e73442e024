(** Facts about the parser of grammar files on the text of a file. *)
From Coq Require Import String Ascii List Arith NArith Bool Lia.
From Verif Require Import Base InputModel GrammarModel LexerModel LexerSpec BootModel BootExample PositionModel PositionSpec PositionProof InputGenModel InputGenSpec InputGenLapex InputGenProof
  InputGenMeaningProof InputGenFactsProof InputTextSpec InputTextLexProof InputTextDivideProof InputTextFileProof InputTextLayoutProof InputTextWriteProof.
Import ListNotations.
Local Open Scope string_scope.
Local Open Scope N_scope.
Local Open Scope list_scope.

Lemma rules_of_in : forall out rules r, consists_of out rules -> In r (rules_of out) -> In r rules.
Proof.
  intros out rules r [A B C] H. unfold rules_of in H. unfold spanned in *. rewrite A, B, C in H. apply in_app_or in H. destruct H as [H|H]; [apply filter_In in H; tauto|]. apply in_app_or in H. destruct H as [H|H]; apply filter_In in H; tauto.
Qed.

(** What is read does not depend on the fuel. *)
Lemma text_reads : forall regex gn source out fuel, built gn -> Forall valid_char source -> parse_lapex regex gn fuel source = Ok out -> reads_file regex source out.
Proof.
  intros regex gn source out fuel B V E. rewrite (built_is _ B) in E. unfold parse_lapex in E. apply bind_Ok in E; destruct E as [l [El E]]. apply bind_Ok in E; destruct E as [p [Ep E]]. destruct p as [ts eof].
  destruct (up_to_nul_ex source) as (text & U).
  assert (division text l) as D.
  { assert (forall f f' lx r, lex_file lapex_gen f lx = Ok r -> (f <= f')%nat -> lex_file lapex_gen f' lx = Ok r) as Mono.
    { induction f as [|f IH]; intros f' lx r H Hf; [discriminate|]. destruct f' as [|f']; [lia|]. cbn [lex_file] in *. apply bind_Ok in H; destruct H as [x [Hx H]]. rewrite Hx. cbn [bind]. destruct x as [lx' [[|t]|e]]; auto.
      apply bind_Ok in H; destruct H as [s [Hs H]]. apply bind_Ok in H; destruct H as [rest [Hr H]]. rewrite Hs. cbn [bind]. rewrite (IH f' _ _ Hr ltac:(lia)). cbn [bind]. exact H. }
    pose proof (Mono _ (Nat.max fuel (S (length text))) _ _ El ltac:(lia)) as El'. pose proof (built_lexes lapex_gen source text lapex_gen_built V U (Nat.max fuel (S (length text))) ltac:(lia)) as X. rewrite El' in X. exact X. }
  pose proof (division_lexemes _ _ D) as FL. assert (Forall (fun e => exists t, lexeme (fst e) t) l) as FL' by (eapply Forall_impl; [|exact FL]; cbn beta; intros e He; exists (snd e); exact He).
  pose proof (place_tokens_ok l FL' 1 1) as P. rewrite Ep in P. pose proof (placed_fitting _ _ _ _ P FL) as FT.
  pose proof (built_sound regex lapex_gen eof fuel ts lapex_gen_built FT) as X. rewrite E in X. destruct X as (rules & R & C). exists text, l, ts, rules. auto.
Qed.

Lemma text_spans_ok : forall regex gn fuel source out, built gn -> parse_lapex regex gn fuel source = Ok out -> Forall (fun c => c < 128) source -> unbroken source -> positions_fit source ->
  forall r, In r (rules_of out) -> exists t, span_substring (fst r) source = Ok (Some t) /\ spells_rule regex t (snd r).
Proof.
  intros regex gn fuel source out B E A U F r I. destruct (text_reads _ _ _ _ _ B (ascii_valid _ A) E) as (text & l & ts & rules & HU & D & P & R & C).
  eapply rule_span_text; eauto. apply in_rev. eapply rules_of_in; eauto.
Qed.

Lemma text_layout : forall regex gn fuel source source' text text' l l' ts' out, built gn -> Forall valid_char source -> Forall valid_char source' -> parse_lapex regex gn fuel source = Ok out ->
  up_to_nul source text -> division text l -> up_to_nul source' text' -> division text' l' -> seen l = seen l' -> placed 1 1 l' ts' ->
  exists n out', unspanned out' = unspanned out /\ forall fuel', (n <= fuel')%nat -> parse_lapex regex gn fuel' source' = Ok out'.
Proof.
  intros regex gn fuel source source' text text' l l' ts' out B V V' E U D U' D' S P'. pose proof (text_reads _ _ _ _ _ B V E) as R.
  destruct (same_layout _ _ _ _ _ _ _ _ _ R U D U' D' P' S) as (out' & R' & E'). destruct (built_reads_file regex gn source' B V') as (n & Hn). exists n, out'. split; auto. intros fuel' Hf. specialize (Hn fuel' Hf).
  destruct (parse_lapex regex gn fuel' source') as [o| | |]; try contradiction; [|destruct (Hn _ R')]. rewrite (reads_file_unique _ _ _ _ Hn R'). reflexivity.
Qed.

Lemma text_round_trip_ok : forall regex gn rs, built gn -> identifier (rs_entry rs) -> Forall (writable_token regex) (rs_tokens rs) -> Forall writable_prod (rs_prods rs) -> N.of_nat (file_size rs) < 65535 ->
  exists source n out, Forall valid_char source /\ unspanned out = rs /\ forall fuel, (n <= fuel)%nat -> parse_lapex regex gn fuel source = Ok out.
Proof.
  intros regex gn rs B He Ht Hp Hs. destruct (rule_set_file regex rs He Ht Hp ltac:(lia)) as (source & out & V & R & E). destruct (built_reads_file regex gn source B V) as (n & Hn). exists source, n, out. split; auto. split; auto.
  intros fuel Hf. specialize (Hn fuel Hf). destruct (parse_lapex regex gn fuel source) as [o| | |]; try contradiction; [|destruct (Hn _ R)]. rewrite (reads_file_unique _ _ _ _ Hn R). reflexivity.
Qed.

Lemma nul_ignored : forall regex text rest out, ~ In 0 text -> (reads_file regex (text ++ 0 :: rest) out <-> reads_file regex text out).
Proof.
  intros regex text rest out N. split; intros (text' & l & ts & rules & U & D & P & R & C).
  - assert (text' = text) as -> by (eapply up_to_nul_unique; [exact U|apply un_cut; auto]). exists text, l, ts, rules. split; [constructor; auto|auto].
  - assert (text' = text) as -> by (eapply up_to_nul_unique; [exact U|apply un_all; auto]). exists text, l, ts, rules. split; [apply un_cut; auto|auto].
Qed.

Lemma many_lines : forall line col l ts, placed line col l ts -> line + N.of_nat (length (filter (fun e => String.eqb (fst e) "NEWLINE") l)) < 65536 \/ line >= 65536 /\ filter (fun e => String.eqb (fst e) "NEWLINE") l = [].
Proof.
  intros line col l ts H. induction H as [line col|line col text l ts A H IH|line col text l ts A H IH|line col name t text l ts K A H IH].
  - destruct (N.lt_ge_cases line 65536); [left; cbn [filter length]; lia|right; split; [lia|reflexivity]].
  - left. cbn [filter fst]. change (String.eqb "NEWLINE" "NEWLINE") with true. cbn [length]. destruct IH as [IH|[IH _]]; lia.
  - exact IH.
  - destruct (kinds_visible _ _ K) as [X _]. apply String.eqb_neq in X. cbn [filter fst]. rewrite X. exact IH.
Qed.

Lemma lines_limit : forall regex gn source text l, built gn -> Forall valid_char source -> up_to_nul source text -> division text l ->
  65535 <= N.of_nat (length (filter (fun e => String.eqb (fst e) "NEWLINE") l)) -> exists n, forall fuel, (n <= fuel)%nat -> parse_lapex regex gn fuel source = Panic.
Proof.
  intros regex gn source text l B V U D L. destruct (built_reads_file regex gn source B V) as (n & Hn). exists n. intros fuel Hf. specialize (Hn fuel Hf). destruct (parse_lapex regex gn fuel source) as [o| | |]; try contradiction; auto.
  destruct Hn as (text' & l' & ts & rules & U' & D' & P & _). assert (text' = text) as -> by (eapply up_to_nul_unique; eauto). assert (l' = l) as -> by (eapply division_unique; eauto). apply many_lines in P. lia.
Qed.

(** A text without the letter e spells no entry rule. *)
Lemma no_entry : forall regex text n, ~ In 101 text -> ~ spells_rule regex text (FEntry n).
Proof.
  intros regex text n N (l & ts & span & D & P & R). apply N. rewrite (division_concat _ _ D). pose proof (division_lexemes _ _ D) as F. apply placed_seen in P.
  assert (exists a ts', ts = (KW_ENTRY, a) :: ts') as (a & ts' & ->) by (inversion R; subst; eauto). inversion P as [|e t l' ts2 [K E] P' Es]; subst. cbn [fst snd] in K, E.
  assert (In e (seen l)) as I by (rewrite <- Es; left; auto). unfold seen in I. apply filter_In in I. destruct I as [I _].
  apply in_concat. exists (snd e). split; [apply in_map; auto|]. pose proof (proj1 (Forall_forall _ _) F _ I) as L. destruct e as [name w]. cbn [fst snd] in *.
  assert (name = "KW_ENTRY") as -> by (vm_compute in K; repeat destruct K as [K|K]; try contradiction; try discriminate K; injection K as <-; reflexivity).
  inversion L as [n' word X| n' c X| | | | | | |]; subst; repeat destruct X as [X|X]; try contradiction; try discriminate X. injection X as <-. vm_compute. tauto.
Qed.
