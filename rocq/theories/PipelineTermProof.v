(** Whole runs: that they end, what they report, and that the reports are complete. *)
From Coq Require Import String List Arith NArith Bool Lia.
From Verif Require Import Base InputModel LexerSpec LexerModel LexerProof LexerFactsProof BootModel PositionModel PositionSpec InputGenModel InputGenSpec InputTextSpec InputTextFactsProof NamesModel NamesSpec NamesProof NamesVisitProof
  GrammarModel GrammarSpec GrammarFactsProof LLModel LLSpec LLFactsProof LRModel LRSpec LRGraphProof LRGenProof LRTableProof LRItemsProof AutomatonProof LRFactsProof GLRModel GLRSpec GLRFactsProof CppLRModel CppLRSpec CppLRProof TableModel PipelineModel PipelineSpec PipelineProof PipelineReportProof PipelineFactsProof.
Import ListNotations.
Local Open Scope nat_scope.
Local Open Scope list_scope.

(** ** Every run ends *)

Definition nf {E A} (r : res E A) : Prop := r <> OutOfFuel.
Lemma nf_bind : forall E A B (r : res E A) (f : A -> res E B), nf r -> (forall a, r = Ok a -> nf (f a)) -> nf (bind r f).
Proof. unfold nf. intros E A B [a|e| |] f H1 H2; cbn [bind]; auto; discriminate. Qed.
Lemma nf_list : forall E A B (f : A -> res E B) l, (forall a, In a l -> nf (f a)) -> nf (res_list (map f l)).
Proof.
  induction l as [|a l IH]; intros H; cbn [map res_list]; [discriminate|]. apply nf_bind; [apply H; left; auto|]. intros b _. apply nf_bind; [apply IH; intros x Hx; apply H; right; auto|]. intros; discriminate.
Qed.
Lemma nf_fold : forall E A B (f : B -> A -> res E B) l b, (forall b a, In a l -> nf (f b a)) -> nf (foldM f l b).
Proof.
  induction l as [|a l IH]; intros b H; cbn [foldM]; [discriminate|]. apply nf_bind; [apply H; left; auto|]. intros c _. apply IH. intros d x Hx. apply H. right. auto.
Qed.
Lemma nf_expect : forall E F A (r : res E A), nf r -> nf (@expect E F A r).
Proof. unfold nf. intros E F A [a|e| |] H; cbn [expect]; auto; discriminate. Qed.

Ltac nf_head t := match t with ?f _ => nf_head f | _ => t end.
Ltac nf_go :=
  repeat match goal with
  | |- nf (bind _ _) => apply nf_bind; [|intros ? _]
  | |- nf (res_list (map _ _)) => apply nf_list; intros ? _
  | |- nf (foldM _ _ _) => apply nf_fold; intros ? ? _
  | |- nf (expect _) => apply nf_expect
  | |- nf (Ok _) => discriminate
  | |- nf (Err _) => discriminate
  | |- nf Panic => discriminate
  | |- nf (match ?x with _ => _ end) => destruct x
  | |- nf (let _ := _ in _) => cbv zeta
  | |- nf ?t => let h := nf_head t in unfold h; cbv beta
  end.

Lemma nf_write : forall g tb, nf (write_parser g tb).
Proof. intros. nf_go. Qed.
Lemma nf_glr_write : forall g tb, nf (glr_write_parser g tb).
Proof. intros. nf_go. Qed.
Lemma nf_cpp_write : forall ns g tb, nf (cpp_write ns g tb).
Proof. intros. nf_go. Qed.
Lemma nf_output_table : forall g tb, nf (output_table g tb).
Proof. intros. nf_go. Qed.
Lemma nf_methods : forall g, nf (visitor_methods g).
Proof. intros. nf_go. Qed.
Lemma nf_variants : forall g, nf (rust_non_terminal_variants g).
Proof. intros. nf_go. Qed.
Lemma nf_visits : forall g, nf (rule_visits g).
Proof. intros. nf_go. Qed.
Lemma nf_tokens : forall ns, nf (rust_token_variants ns).
Proof. intros. nf_go. Qed.
Lemma nf_accepted : forall s, nf (accepted_name s).
Proof. intros. nf_go. Qed.
Lemma nf_cpp_visits : forall g, nf (cpp_rule_visits g).
Proof. intros. nf_go. Qed.
Lemma nf_cpp_methods : forall g, nf (cpp_visitor_methods g).
Proof. intros. nf_go. Qed.
Lemma nf_cpp_variants : forall g, nf (cpp_non_terminal_variants g).
Proof. intros. nf_go. Qed.
Lemma nf_ll_cells : forall g tb, nf (ll_cells g tb).
Proof. intros. nf_go. Qed.
Lemma nf_offset : forall pos text o line col, nf (offset_loop pos text o line col).
Proof. intros pos. induction text as [|c text IH]; intros o line col; cbn [offset_loop]; nf_go; apply IH. Qed.
Lemma nf_first_seq : forall E ss fs acc, nf (@first_of_seq_acc E ss fs acc).
Proof. intros E. induction ss as [|s ss IH]; intros fs acc; cbn [first_of_seq_acc]; nf_go; apply IH. Qed.
Lemma nf_drop : forall s n, nf (drop_bytes s n).
Proof. induction s as [|c s IH]; intros n; cbn [drop_bytes]; nf_go; apply IH. Qed.
Lemma nf_take : forall s n, nf (take_bytes s n).
Proof. induction s as [|c s IH]; intros n; cbn [take_bytes]; nf_go; apply IH. Qed.
Lemma nf_location : forall F source span, nf (@location_of F source span).
Proof. intros. nf_go; first [apply nf_offset|apply nf_drop|apply nf_take]. Qed.
Lemma nf_report_precedence : forall F sr source e, nf (@report_precedence F sr source e).
Proof. intros. destruct e. cbn [report_precedence]. apply nf_bind; [|intros ? _; discriminate]. apply nf_list. intros t _. apply nf_bind; [apply nf_location|intros ? _; discriminate]. Qed.
Lemma nf_transform : forall parent p b, nf (transform_pattern parent p b).
Proof.
  intros parent. induction p as [l IH|l IH|q IH|q IH|q IH|n|] using prod_pattern_ind'; intros b; cbn [transform_pattern].
  - revert b. induction IH as [|p l H _ IH]; intros b; cbn [map transform_seq]; [discriminate|]. apply nf_bind; [apply H|]. intros [ss b1] _. apply nf_bind; [apply IH|]. intros [ss' b2] _. discriminate.
  - apply nf_bind; [nf_go|]. intros [alt b1] _. apply nf_bind; [|intros ? _; discriminate].
    revert b1. induction IH as [|p l H _ IH]; intros b1; cbn [map transform_alts]; [discriminate|]. apply nf_bind; [apply H|]. intros [ss b2] _. apply nf_bind; [nf_go|]. intros b3 _. apply IH.
  - apply nf_bind; [nf_go|]. intros [a b1] _. apply nf_bind; [apply IH|]. intros [i b2] _. nf_go.
  - apply nf_bind; [nf_go|]. intros [a b1] _. apply nf_bind; [apply IH|]. intros [i b2] _. nf_go.
  - apply nf_bind; [nf_go|]. intros [a b1] _. apply nf_bind; [apply IH|]. intros [i b2] _. nf_go.
  - nf_go.
  - discriminate.
Qed.
Lemma nf_add : forall b p, nf (add_production_rule b p).
Proof. intros. unfold add_production_rule. apply nf_bind; [nf_go|]. intros s _. apply nf_bind; [apply nf_transform|]. intros [ss b1] _. nf_go. Qed.
Lemma nf_origins : forall ps j b, nf (rule_origins j ps b).
Proof. induction ps as [|p ps IH]; intros j b; cbn [rule_origins]; [discriminate|]. apply nf_bind; [apply nf_add|]. intros b' _. apply nf_bind; [apply IH|]. intros ? _. discriminate. Qed.
Lemma nf_span : forall sr it, nf (item_span sr it).
Proof.
  intros. unfold item_span. destruct (it_rule it); [|nf_go]. apply nf_bind.
  - unfold builder_from_rule_set. nf_go.
  - intros b _. apply nf_bind; [apply nf_origins|]. intros l _. nf_go.
Qed.
Lemma nf_item : forall F sr g source it, nf (@report_item F sr g source it).
Proof. intros. unfold report_item. apply nf_bind; [nf_go|]. intros t _. apply nf_bind; [apply nf_expect; apply nf_span|]. intros sp _. apply nf_bind; [apply nf_location|intros ? _; discriminate]. Qed.
Lemma nf_report_conflicts : forall F sr g source cs, nf (@report_conflicts F sr g source cs).
Proof.
  intros. apply nf_list. intros c _. destruct c as [q it s|q its]; cbn [report_conflict].
  - apply nf_bind; [nf_go|]. intros n _. apply nf_bind; [apply nf_item|]. intros [w t] _. discriminate.
  - apply nf_bind; [|intros ? _; discriminate]. apply nf_list. intros it _. apply nf_item.
Qed.
Lemma nf_insert_rule : forall fs fo tb r, nf (insert_rule fs fo tb r).
Proof. intros. unfold insert_rule. apply nf_bind; [apply nf_first_seq|]. intros. nf_go. Qed.

Ltac nf_in H := cbn [In] in H; repeat (destruct H as [<-|H]); try contradiction; cbn [snd]; try discriminate; nf_go.
Lemma nf_tokens_files : forall l ns x, In x (tokens_files l ns) -> nf (snd x).
Proof. intros [|] ns x H; nf_in H. Qed.
Lemma nf_lexer_files : forall l al d x, In x (lexer_files l al d) -> nf (snd x).
Proof. intros [|] al d x H; nf_in H. Qed.
Lemma nf_table_files : forall t g tb x, In x (table_files t g tb) -> nf (snd x).
Proof. intros [|] g tb x H; nf_in H. Qed.
Lemma nf_lr_files : forall l ns g tb x, In x (lr_files l ns g tb) -> nf (snd x).
Proof. intros [|] ns g tb x H; nf_in H. Qed.
Lemma nf_glr_files : forall l g tb f x, glr_files l g tb = Some f -> In x f -> nf (snd x).
Proof. intros [|] g tb f x E H; [injection E as <-|discriminate]; nf_in H. Qed.
Lemma nf_ll_files : forall l g tb f x, ll_files l g tb = Some f -> In x f -> nf (snd x).
Proof. intros [|] g tb f x E H; [discriminate|injection E as <-]; nf_in H. Qed.

Lemma emit_all_nf : forall create x fs, (forall f, In f x -> nf (snd f)) -> nf (snd (emit_all create x fs)).
Proof.
  intros create x fs H E. destruct (emit_all create x fs) as [fs' r] eqn:Ex. cbn [snd] in E. subst r. apply emit_all_cases in Ex. destruct Ex as (new & _ & _ & X).
  apply Exists_exists in X. destruct X as (f & Hf & Ef). exact (H f Hf Ef).
Qed.

Lemma ll_ends : forall g, wf_grammar g -> exists n, forall fuel, n <= fuel -> nf (ll_generate_table fuel g).
Proof.
  intros g wf. exists (FirstProof.fuel_bound g). intros fuel Hf. unfold ll_generate_table. destruct (FirstProof.compute_first_ok g wf ll_error fuel Hf) as [fs Hfs]. rewrite Hfs. cbn [bind].
  destruct (FollowProof.compute_follow_ok g wf fs (FirstProof.compute_first_correct g wf ll_error fuel fs Hfs) ll_error fuel Hf) as [fo Hfo]. rewrite Hfo. cbn [bind].
  apply nf_fold. intros. apply nf_insert_rule.
Qed.

Lemma parser_ends : forall create l alg table source sr g, wf_grammar g ->
  exists n, forall fuel fs, n <= fuel -> nf (snd (parser_step create fuel l alg table source sr g fs)).
Proof.
  intros create l alg table source sr g wf.
  assert (exists n, forall fuel, n <= fuel -> nf (ll_generate_table fuel g) /\ (forall k allow, nf (generates k fuel g allow))) as (n & Hn).
  { destruct (ll_ends g wf) as [n0 H0]. destruct (generation_terminates KindLR0 g wf) as [n1 H1]. destruct (generation_terminates KindLR1 g wf) as [n2 H2]. destruct (generation_terminates KindLALR g wf) as [n3 H3].
    exists (n0 + n1 + n2 + n3). intros fuel Hf. split; [apply H0; lia|]. intros [| |] allow; [apply H1|apply H2|apply H3]; lia. }
  exists n. intros fuel fs Hf E. destruct (Hn fuel Hf) as [A B]. destruct (parser_step create fuel l alg table source sr g fs) as [files r] eqn:Ep. cbn [snd] in E. subst r.
  apply parser_step_cases in Ep. destruct Ep as [(x & new & Lx & Em & _)|[(tb & new & r0 & _ & _ & Em & _ & Er)|[_ St]]].
  - apply (f_equal snd) in Em. cbn [snd] in Em. revert Em. apply emit_all_nf. intros f Hf'.
    destruct Lx as [tb x _ _ Ex|k tb _ _|r tb x _ _ _ Ex].
    + eapply nf_ll_files; eauto.
    + apply in_app_or in Hf'. destruct Hf'; [eapply nf_table_files|eapply nf_lr_files]; eauto.
    + apply in_app_or in Hf'. destruct Hf'; [eapply nf_table_files|eapply nf_glr_files]; eauto.
  - assert (r0 = OutOfFuel) as -> by (destruct r0; congruence). apply (f_equal snd) in Em. cbn [snd] in Em. revert Em. apply emit_all_nf. intros f Hf'. eapply nf_table_files; eauto.
  - inversion St as [k cs r Hk Hc Hr| |H]; subst.
    + pose proof (nf_report_conflicts (list report) sr g source cs) as X. pose proof (no_err_conflicts (list report) sr g source cs) as Y. destruct (report_conflicts sr g source cs); cbn [bind] in *; congruence.
    + destruct H as [[_ H]|[(k & _ & H)|[_ H]]]; [exact (A H)|exact (B _ _ H)|exact (B _ _ H)].
Qed.

Lemma run_ends : forall create read lexer alg table l source, read source <> OutOfFuel -> (forall sr, read source = Ok sr -> lexer = true -> lexable (map snd (sr_tokens sr))) ->
  exists n, forall fuel, n <= fuel -> snd (generate create fuel read lexer alg table l (Some source)) <> OutOfFuel.
Proof.
  intros create read lexer alg table l source Hr Hl.
  assert (forall sr, read source = Ok sr -> exists n, forall fuel, n <= fuel -> lexer = true -> nf (generate_lexer fuel (map snd (sr_tokens sr)))) as HL.
  { intros sr Es. destruct lexer; [|exists 0; discriminate]. destruct (Hl _ Es eq_refl) as [L1 L2 L3 L4]. destruct (generation_ok _ L1 L2 L3 L4) as (r & n & Hn & X). exists n. intros fuel Hf _. rewrite (Hn _ Hf). destruct r; try contradiction; discriminate. }
  assert (exists n, forall fuel sr, read source = Ok sr -> n <= fuel -> (lexer = true -> nf (generate_lexer fuel (map snd (sr_tokens sr)))) /\
            forall g fs, from_rule_set (unspanned sr) = Ok g -> nf (snd (parser_step create fuel l alg table source sr g fs))) as (n & Hn).
  { destruct (read source) as [sr|e| |]; try (exists 0; intros; discriminate). destruct (HL sr eq_refl) as [n1 H1]. destruct (from_rule_set (unspanned sr)) as [g|e| |] eqn:Eg;
      try (exists n1; intros fuel sr' E Hf; injection E as <-; split; [apply H1; auto|intros; congruence]).
    destruct (parser_ends create l alg table source sr g (grammar_wf _ _ Eg)) as [n2 H2]. exists (n1 + n2). intros fuel sr' E Hf. injection E as <-. split; [apply H1; lia|].
    intros g' fs E. assert (g' = g) as -> by congruence. apply H2. lia. }
  exists n. intros fuel Hf E. destruct (generate create fuel read lexer alg table l (Some source)) as [files r] eqn:Eg. cbn [snd] in E. subst r.
  apply generate_stages in Eg. destruct Eg as [Eg|(sr & g & fs & Es & He & Hg & Ep)].
  - inversion Eg as [A B|A|sr fs r A B C|sr tf tied h r A B C D F|sr tf A B C D|sr tf A B C D|sr tf al d fs r A B C D F G|sr fs A B C]; subst; try contradiction.
    + apply (f_equal snd) in B. cbn [snd] in B. revert B. apply emit_all_nf. intros f Hf'. eapply nf_tokens_files; eauto.
    + pose proof (nf_report_precedence (list report) sr source (PrecedenceError tied h)) as X. pose proof (no_err_precedence (list report) sr source (PrecedenceError tied h)) as Y.
      destruct (report_precedence sr source (PrecedenceError tied h)); cbn [bind] in *; congruence.
    + exact (proj1 (Hn fuel sr A Hf) eq_refl D).
    + apply (f_equal snd) in F. cbn [snd] in F. revert F. apply emit_all_nf. intros f Hf'. eapply nf_lexer_files; eauto.
  - apply (f_equal snd) in Ep. cbn [snd] in Ep. exact (proj2 (Hn fuel sr Es Hf) g fs Hg Ep).
Qed.

(** ** The reports *)

Definition ne {E A} (r : res E A) : Prop := forall e, r <> Err e.
Lemma ne_bind : forall E A B (r : res E A) (f : A -> res E B), ne r -> (forall a, ne (f a)) -> ne (bind r f).
Proof. unfold ne. intros E A B [a|e| |] f H1 H2 e'; cbn [bind]; auto; try discriminate. specialize (H1 e). congruence. Qed.
Lemma ne_fold : forall E A B (f : B -> A -> res E B) l b, (forall b a, ne (f b a)) -> ne (foldM f l b).
Proof. induction l as [|a l IH]; intros b H; cbn [foldM]; [discriminate|]. apply ne_bind; auto. Qed.

Section Lexer.
Context {A : Type}.
Variable g : nfa A.
Lemma closure_ne : forall f s c, ne (epsilon_closure g f s c).
Proof. induction f as [|f IH]; intros s c; cbn [epsilon_closure]; [discriminate|]. apply ne_fold. intros b a. apply ne_fold. intros b' a'. destruct (set_mem a' b'); [discriminate|apply IH]. Qed.
Lemma add_powerset_ne : forall f d ns, ne (add_powerset_to_dfa g f d ns).
Proof.
  induction f as [|f IH]; intros d ns; cbn [add_powerset_to_dfa]; [discriminate|]. apply ne_bind; [apply closure_ne|]. intros c. destruct (find_index (eqc c) (pg_nodes d)); [discriminate|].
  apply ne_bind; [|discriminate]. apply ne_fold. intros b [t ts]. apply ne_bind; [apply IH|]. intros [d' x]. discriminate.
Qed.
Lemma convert_ne : forall pg f d v n, ne (convert_powerset_to_dfa g pg f d v n).
Proof.
  intros pg. induction f as [|f IH]; intros d v n; cbn [convert_powerset_to_dfa]; [discriminate|]. destruct (nth_error (pg_nodes pg) n) as [ps|]; [|discriminate].
  destruct (match accepts_of g ps with [] => dfa_add_intermediate d | _ => dfa_add_accepting d (accepts_of g ps) end) as [d1 start].
  apply ne_bind; [|intros []; discriminate]. apply ne_fold. intros [b vb] [t ts]. apply ne_bind; [|intros [[] ?]; discriminate]. destruct (map_get ts vb); [discriminate|apply IH].
Qed.
Lemma powerset_ne : forall f s, ne (powerset_construction f g s).
Proof. intros. unfold powerset_construction. apply ne_bind; [apply add_powerset_ne|]. intros [pg x]. apply ne_bind; [apply convert_ne|]. intros [[] ?]. discriminate. Qed.
End Lexer.

Lemma lexer_err_mono : forall f f' rules e, f <= f' -> generate_lexer f rules = Err e -> generate_lexer f' rules = Err e.
Proof.
  intros f f' rules e Hle H. unfold generate_lexer in *. destruct (generate_alphabet rules) as [al| | |]; cbn [bind] in *; auto. destruct (generate_nfa al rules) as [[st g]| | |]; cbn [bind] in *; auto.
  pose proof (powerset_ne g f st) as X. destruct (powerset_construction f g st) as [d|e'| |] eqn:Ep; cbn [bind] in *; try discriminate; [|destruct (X e'); auto].
  rewrite (ConvertProof.powerset_mono g _ _ _ _ Hle Ep). exact H.
Qed.

Lemma lexer_tie : forall f rules tied h, lexable rules -> generate_lexer f rules = Err (PrecedenceError tied h) -> exists u, Forall valid_char u /\ tie rules u h tied.
Proof.
  intros f rules tied h [L1 L2 L3 L4] H. destruct (generation_ok _ L1 L2 L3 L4) as (r & n & Hn & X). pose proof (lexer_err_mono f (f + n) _ _ ltac:(lia) H) as Y. rewrite (Hn (f + n)) in Y by lia. subst r.
  destruct X as (u & h' & tied' & A & B & E). injection E as <- <-. eauto.
Qed.

Section Reports.
Variables (regex : list N -> option hir) (source : list N) (sr : spanned_rules) (read : list N -> res lex_err spanned_rules).
Hypothesis reads : read source = Ok sr.
Hypothesis fits : positions_fit source.
Hypothesis spans : forall r, In r (InputTextSpec.rules_of sr) -> exists t, span_substring (fst r) source = Ok (Some t) /\ spells_rule regex t (snd r).
Variables (create : string -> bool) (lexer : bool) (alg : algorithm) (table : bool) (l : language).

Lemma reports_sound : forall fuel rs, (lexer = true -> lexable (map snd (sr_tokens sr))) -> snd (generate create fuel read lexer alg table l (Some source)) = Err rs ->
  (lexer = true /\ tie_reported regex source (sr_tokens sr) rs) \/
  (exists k g cs, strict_kind alg = Some k /\ from_rule_set (unspanned sr) = Ok g /\ generates k fuel g false = Ok (BadConflicts cs) /\ cs <> [] /\ Forall2 (reported regex source sr g) cs rs).
Proof.
  intros fuel rs Hl H. destruct (generate create fuel read lexer alg table l (Some source)) as [files r] eqn:E. cbn [snd] in H. subst r. apply generate_stages in E. destruct E as [E|(sr' & g & fs & Es & He & Hg & Ep)].
  - left. inversion E as [A B|A|sr' fs r A B C|sr' tf tied h r A B C D F|sr' tf A B C D|sr' tf A B C D|sr' tf al d fs r A B C D F G|sr' fs A B C]; subst.
    + apply emit_all_cases in B. destruct B as (new & _ & []).
    + assert (sr' = sr) as -> by congruence. split; auto. destruct (lexer_tie _ _ _ _ (Hl eq_refl) D) as (u & Hu & T).
      destruct (report_tie_ok (list report) regex source sr u h tied fits spans T) as (rules & locs & <- & R2 & R3 & R4). rewrite R4 in *. cbn [bind] in *. 
match goal with X : Err _ = Err _ |- _ => injection X as -> end.
      exists u, h, rules, locs. auto.
    + apply emit_all_cases in F. destruct F as (new & _ & []).
  - right. assert (sr' = sr) as -> by congruence. apply parser_step_cases in Ep. destruct Ep as [(x & new & Lx & Em & _)|[(tb & new & r0 & _ & _ & Em & _ & Er)|[_ St]]].
    + apply emit_all_cases in Em. destruct Em as (? & _ & []).
    + assert (r0 = Err rs) as -> by (destruct r0; congruence). apply emit_all_cases in Em. destruct Em as (? & _ & []).
    + inversion St as [k cs r Hk Hc Hr| |H]; subst. destruct (report_conflicts_ok regex source sr fits spans g Hg (list report) k fuel cs Hc) as (rs' & R1 & R2 & R3). rewrite R1 in *. cbn [bind] in *.
      match goal with X : Err _ = Err _ |- _ => injection X as -> end. exists k, g, cs. auto.
Qed.

Lemma ties_complete : forall u h tied, lexer = true -> lexable (map snd (sr_tokens sr)) -> (forall n, In n (names_of sr) -> ascii_name n) -> Forall valid_char u -> tie (map snd (sr_tokens sr)) u h tied ->
  (forall f, In f (token_outputs l) -> create f = true) -> (forall n, In n (names_of sr) -> well_named l n) ->
  exists n, forall fuel, n <= fuel -> exists files rs, generate create fuel read lexer alg table l (Some source) = (files, Err rs) /\ finished (token_outputs l) files /\ tie_reported regex source (sr_tokens sr) rs.
Proof.
  intros u h tied Hlx Hl Ha Hu Ht Hc Hw. destruct Hl as [L1 L2 L3 L4]. destruct (generation_ok _ L1 L2 L3 L4) as (r & n & Hn & X). exists n. intros fuel Hf. specialize (Hn fuel Hf).
  destruct (proj2 (tokens_made_iff create l (names_of sr) Ha)) as [tf Mt]; auto.
  destruct r as [[al d]|e| |]; try contradiction; [destruct X as [X _]; destruct (X u h tied Hu Ht)|]. destruct X as (u' & h' & tied' & Hu' & T & ->).
  destruct (report_tie_ok (list report) regex source sr u' h' tied' fits spans T) as (rules & locs & <- & R2 & R3 & R4).
  exists tf, [PrecedenceReport locs]. split; [|split].
  - rewrite (generate_ties create fuel read lexer alg table l source sr tf _ _ reads Mt Hlx Hn). rewrite R4. reflexivity.
  - apply made_finished in Mt. rewrite tokens_names in Mt. exact Mt.
  - exists u', h', rules, locs. auto.
Qed.

Lemma conflicts_complete : forall fuel k g cs, (lexer = true -> valid_rules (map snd (sr_tokens sr)) /\ no_empty_sequence (map snd (sr_tokens sr)) /\ exists al d, generate_lexer fuel (map snd (sr_tokens sr)) = Ok (al, d)) ->
  (forall n, In n (names_of sr) -> ascii_name n) -> strict_kind alg = Some k -> from_rule_set (unspanned sr) = Ok g -> generates k fuel g false = Ok (BadConflicts cs) ->
  (forall f, In f (early_outputs l lexer) -> create f = true) -> (forall n, In n (names_of sr) -> well_named l n) ->
  exists files rs, generate create fuel read lexer alg table l (Some source) = (files, Err rs) /\ finished (early_outputs l lexer) files /\ Forall2 (reported regex source sr g) cs rs.
Proof.
  intros fuel k g cs Hv Ha Hk Hg Hcs Hc Hw. unfold early_outputs in Hc. destruct (proj2 (tokens_made_iff create l (names_of sr) Ha)) as [tf Mt]; [split; [intros f Hf; apply Hc; apply in_or_app; auto|exact Hw]|].
  assert (exists lf, if lexer then exists al d, generate_lexer fuel (map snd (sr_tokens sr)) = Ok (al, d) /\ made create (lexer_files l al d) lf else lf = []) as [lf Ml].
  { destruct lexer; [|eauto]. destruct (Hv eq_refl) as (V1 & V2 & al & d & Gl). destruct (proj2 (lexer_made_iff create l fuel _ al d V1 V2 Gl (fun r Hr => conj (Ha _ (in_map tr_name _ _ Hr)) (Hw _ (in_map tr_name _ _ Hr))))) as [lf M].
    - intros f Hf. apply Hc. apply in_or_app. auto.
    - exists lf, al, d. auto. }
  assert (early create fuel lexer l sr (tf ++ lf)) as He by (exists tf, lf; auto).
  destruct (report_conflicts_ok regex source sr fits spans g Hg (list report) k fuel cs Hcs) as (rs & R1 & R2 & R3).
  exists (tf ++ lf), rs. split; [|split; auto].
  - rewrite (generate_reaches create fuel read lexer alg table l source sr g _ reads He Hg). rewrite (strict_step create fuel alg table l source k sr g _ Hk). rewrite Hcs, R1. reflexivity.
  - eapply early_names; eauto.
Qed.
End Reports.

(** ** The bootstrap parser has no spans *)

Lemma zero_offset : forall text o line col, (1 <= line)%N -> offset_loop (mkPos 0 0) text o line col = Ok None \/ offset_loop (mkPos 0 0) text o line col = Panic.
Proof.
  induction text as [|c text IH]; intros o line col Hl; cbn [offset_loop sp_line sp_col]; destruct (N.eqb_spec line 0); try lia; cbn [andb]; auto.
  destruct (c =? newline)%N; unfold PositionModel.add_u16; [destruct (line + 1 <? 65536)%N|destruct (col + 1 <? 65536)%N]; cbn [bind]; auto; apply IH; lia.
Qed.
Lemma zero_location : forall F source, @location_of F source zero_span = Panic.
Proof.
  intros F source. unfold location_of, location_text, span_substring, zero_span, pos_offset. cbn [ss_start ss_end].
  destruct (zero_offset source 0 1 1 ltac:(lia)) as [E|E]; rewrite E; reflexivity.
Qed.

(** Rules without spans. *)
Definition spanless (sr : spanned_rules) : Prop := Forall (fun t => fst t = zero_span) (sr_tokens sr) /\ Forall (fun p => fst p = zero_span) (sr_prods sr).
Lemma bootstrap_spanless : forall source sr, bootstrap_read source = Ok sr -> spanless sr.
Proof.
  intros source sr H. unfold bootstrap_read in H. inv_bind H. injection H as <-. split; cbn [sr_tokens sr_prods]; apply Forall_forall; intros x Hx; apply in_map_iff in Hx; destruct Hx as (y & <- & _); reflexivity.
Qed.

Lemma report_item_ne : forall F sr g source it, ne (@report_item F sr g source it).
Proof.
  assert (forall E F A (r : res E A), ne (@expect E F A r)) as X by (intros E F A [a|e| |] e'; discriminate).
  intros. unfold report_item. apply ne_bind; [apply X|]. intros t. apply ne_bind; [apply X|]. intros sp. apply ne_bind; [|discriminate]. unfold location_of. apply ne_bind; [apply X|discriminate].
Qed.

Lemma spanless_item : forall F sr g source it, spanless sr -> @report_item F sr g source it = Panic.
Proof.
  intros F sr g source it [_ H]. rewrite Forall_forall in H. pose proof (report_item_ne F sr g source it) as A. pose proof (nf_item F sr g source it) as B.
  destruct (report_item sr g source it) as [r|e| |] eqn:E; auto; [exfalso|destruct (A e); auto|destruct B; auto]. unfold report_item in E. inv_bind E. inv_bind E. inv_bind E.
  destruct (item_span sr it) as [sp|e| |] eqn:Es; cbn [expect] in Hb0; try discriminate. injection Hb0 as <-.
  assert (sp = zero_span) as ->.
  { unfold item_span in Es. destruct (it_rule it) as [k|].
    - apply bind_Ok in Es. destruct Es as (b & _ & Es). apply bind_Ok in Es. destruct Es as (o & _ & Es). destruct (nth_error o k) as [j|]; [|discriminate]. destruct (nth_error (sr_prods sr) j) as [p|] eqn:Ep; [|discriminate]. injection Es as <-. apply H. eapply nth_error_In; eauto.
    - destruct (find (fun p => eqc (pr_name (snd p)) (snd (sr_entry sr))) (sr_prods sr)) as [p|] eqn:Ep; [|discriminate]. injection Es as <-. apply H. apply find_some in Ep. apply Ep. }
  rewrite zero_location in Hb1. discriminate.
Qed.

Lemma spanless_conflicts : forall F sr g source k m cs, spanless sr -> wf_grammar g -> generates k m g false = Ok (BadConflicts cs) -> @report_conflicts F sr g source cs = Panic.
Proof.
  intros F sr g source k m cs Hz wf H. destruct (generate_inv g wf m (kind_n k) false (kind_lalr k) _ (kind_n_le k) H) as (fs & pg & cs' & A & au & C & D).
  assert (cs' = cs /\ cs <> []) as [-> Hne] by (inversion D; subst; auto). destruct C as [_ C]. destruct cs as [|c cs]; [contradiction|].
  destruct (proj1 (C c) (or_introl eq_refl)) as (q & S & _ & X). pose proof (nf_report_conflicts F sr g source (c :: cs)) as B. pose proof (no_err_conflicts F sr g source (c :: cs)) as E.
  destruct (report_conflicts sr g source (c :: cs)) as [r|e| |] eqn:Er; auto; [exfalso|contradiction|destruct B; auto]. unfold report_conflicts in Er. cbn [map res_list] in Er. inv_bind Er.
  destruct X as [it s t _ _ _ _ _|la it its _ _]; cbn [report_conflict] in Hb.
  - inv_bind Hb. rewrite spanless_item in Hb by auto. discriminate.
  - cbn [map res_list] in Hb. rewrite spanless_item in Hb by auto. discriminate.
Qed.

Lemma spanless_tie : forall F sr source u h tied, spanless sr -> tie (map snd (sr_tokens sr)) u h tied -> @report_precedence F sr source (PrecedenceError tied h) = Panic.
Proof.
  intros F sr source u h tied [Hz _] (T & Hlen & _). destruct (tied_spans_ok _ _ _ T) as (rules & D & E & G). cbn [report_precedence]. rewrite G. destruct rules as [|r rules]; [subst tied; cbn in Hlen; lia|].
  assert (fst r = zero_span) as Er. { rewrite Forall_forall in Hz. apply Hz. clear - D. remember (r :: rules) as x. revert Heqx. induction D; intros Heqx; [discriminate|injection Heqx as -> ->; left; auto|right; auto]. }
  cbn [map res_list fst snd]. rewrite Er, zero_location. reflexivity.
Qed.

Lemma bootstrap_never_reports : forall create fuel lexer alg table l source, (forall sr, bootstrap_read source = Ok sr -> lexer = true -> lexable (map snd (sr_tokens sr))) ->
  forall rs, snd (generate create fuel bootstrap_read lexer alg table l (Some source)) <> Err rs.
Proof.
  intros create fuel lexer alg table l source Hl rs H. destruct (generate create fuel bootstrap_read lexer alg table l (Some source)) as [files r] eqn:E. cbn [snd] in H. subst r.
  apply generate_stages in E. destruct E as [E|(sr & g & fs & Es & He & Hg & Ep)].
  - inversion E as [A B|A|sr fs r A B C|sr tf tied h r A B C D F|sr tf A B C D|sr tf A B C D|sr tf al d fs r A B C D F G|sr fs A B C]; subst.
    + apply emit_all_cases in B. destruct B as (new & _ & []).
    + destruct (lexer_tie _ _ _ _ (Hl _ A eq_refl) D) as (u & Hu & T). rewrite (spanless_tie (list report) sr source u h tied (bootstrap_spanless _ _ A) T) in F. discriminate.
    + apply emit_all_cases in F. destruct F as (new & _ & []).
  - apply parser_step_cases in Ep. destruct Ep as [(x & new & Lx & Em & _)|[(tb & new & r0 & _ & _ & Em & _ & Er)|[_ St]]].
    + apply emit_all_cases in Em. destruct Em as (? & _ & []).
    + assert (r0 = Err rs) as -> by (destruct r0; congruence). apply emit_all_cases in Em. destruct Em as (? & _ & []).
    + inversion St as [k cs r Hk Hc Hr| |H]; subst. rewrite (spanless_conflicts (list report) sr g source k fuel cs (bootstrap_spanless _ _ Es) (grammar_wf _ _ Hg) Hc) in Hr. discriminate.
Qed.

(** ** What a successful run has written *)

Lemma made_rust_tokens : forall create ns tf, made create (tokens_files Rust ns) tf -> exists v, rust_token_variants ns = Ok v /\ tf = [("tokens.rs"%string, Some (RustTokens v))].
Proof.
  intros create ns tf H. unfold tokens_files in H. inversion H as [|f e ? ? (A & B & a & C & D) H']; subst. inversion H'; subst. cbn [fst snd] in *. inv_bind C. injection C as <-. destruct e; cbn [fst snd] in *. subst. eauto.
Qed.
Lemma made_rust_lexer : forall create al d lf, made create (lexer_files Rust al d) lf -> lf = [("lexer.rs"%string, Some (RustLexer al d))].
Proof.
  intros create al d tf H. unfold lexer_files in H. inversion H as [|f e ? ? (A & B & a & C & D) H']; subst. inversion H'; subst. cbn [fst snd] in *. inv_bind C. injection C as <-. destruct e; cbn [fst snd] in *. subst. eauto.
Qed.
Lemma made_rust_lr : forall create ns g tb new, made create (lr_files Rust ns g tb) new ->
  exists p nts methods visits, write_parser g tb = Ok p /\ rust_non_terminal_variants g = Ok nts /\ visitor_methods g = Ok methods /\ rule_visits g = Ok visits /\ new = [("parser.rs"%string, Some (RustParser p nts methods visits))].
Proof.
  intros create ns g tb new H. unfold lr_files in H. inversion H as [|f e ? ? (A & B & a & C & D) H']; subst. inversion H'; subst. cbn [fst snd] in *. inv_bind C. inv_bind C. inv_bind C. inv_bind C. injection C as <-.
  destruct (write_parser g tb) as [p| | |]; try discriminate. injection Hb0 as <-. destruct e; cbn [fst snd] in *. subst. exists p, a2, a0, a3. auto.
Qed.
Lemma made_rust_glr : forall create g tb x new, glr_files Rust g tb = Some x -> made create x new ->
  exists p nts methods visits, glr_write_parser g tb = Ok p /\ rust_non_terminal_variants g = Ok nts /\ visitor_methods g = Ok methods /\ rule_visits g = Ok visits /\ new = [("parser.rs"%string, Some (RustGlrParser p nts methods visits))].
Proof.
  intros create g tb x new E H. injection E as <-. inversion H as [|f e ? ? (A & B & a & C & D) H']; subst. inversion H'; subst. cbn [fst snd] in *. inv_bind C. inv_bind C. inv_bind C. inv_bind C. injection C as <-.
  destruct (glr_write_parser g tb) as [p| | |]; try discriminate. injection Hb0 as <-. destruct e; cbn [fst snd] in *. subst. exists p, a2, a0, a3. auto.
Qed.

Lemma run_inv : forall create fuel read lexer alg table l source files, generate create fuel read lexer alg table l (Some source) = (files, Ok tt) ->
  exists sr g fs x new, read source = Ok sr /\ from_rule_set (unspanned sr) = Ok g /\ early create fuel lexer l sr fs /\ late fuel alg table l sr g x /\ made create x new /\ files = fs ++ new.
Proof.
  intros create fuel read lexer alg table l source files E. apply generate_stages in E. destruct E as [E|(sr & g & fs & Es & He & Hg & Ep)].
  - exfalso. inversion E; subst; try contradiction; try discriminate. pose proof (no_err_precedence (list report) sr source (PrecedenceError tied h)) as X.
    destruct (report_precedence sr source (PrecedenceError tied h)); cbn [bind] in *; congruence.
  - apply parser_step_cases in Ep. destruct Ep as [(x & new & Lx & Em & ->)|[(tb & new & r0 & _ & _ & _ & _ & X)|[_ X]]].
    + apply emit_all_ok in Em. destruct Em as (new' & E & M). cbn [app] in E. subst new'. exists sr, g, fs, x, new. auto 10.
    + destruct r0; discriminate.
    + exfalso. inversion X as [k cs r A B C| |]; subst. pose proof (no_err_conflicts (list report) sr g source cs) as Y. destruct (report_conflicts sr g source cs); cbn [bind] in *; congruence.
Qed.

Lemma run_writes_lr : forall create fuel read alg k table source files, strict_kind alg = Some k -> generate create fuel read true alg table Rust (Some source) = (files, Ok tt) ->
  exists sr g al d tb p v nts methods visits, read source = Ok sr /\ from_rule_set (unspanned sr) = Ok g /\ generate_lexer fuel (map snd (sr_tokens sr)) = Ok (al, d) /\
    generates k fuel g false = Ok (NoConflicts tb) /\ write_parser g tb = Ok p /\ rust_token_variants (names_of sr) = Ok v /\ rust_non_terminal_variants g = Ok nts /\ visitor_methods g = Ok methods /\ rule_visits g = Ok visits /\
    exists t, (table = false -> t = []) /\ files = [("tokens.rs", Some (RustTokens v)); ("lexer.rs", Some (RustLexer al d))]%string ++ t ++ [("parser.rs"%string, Some (RustParser p nts methods visits))].
Proof.
  intros create fuel read alg k table source files Hk H. apply run_inv in H. destruct H as (sr & g & fs & x & new & Hr & Hg & (tf & lf & Mt & -> & al & d & Hl & Ml) & Lx & M & ->).
  apply made_rust_tokens in Mt. destruct Mt as (v & Hv & ->). apply made_rust_lexer in Ml. subst lf.
  destruct Lx as [tb x Ha _ _|k' tb Hk' Ht|r tb x Ha _ _ _]; try (subst alg; discriminate). assert (k' = k) as -> by congruence.
  apply Forall2_app_inv_l in M. destruct M as (t & pn & M1 & M2 & ->). apply made_rust_lr in M2. destruct M2 as (p & nts & methods & visits & W1 & W2 & W3 & W4 & ->).
  exists sr, g, al, d, tb, p, v, nts, methods, visits. repeat (split; [assumption|]). exists t. split.
  - intros ->. inversion M1; auto.
  - reflexivity.
Qed.

Lemma run_writes_glr : forall create fuel read table source files, generate create fuel read true GLR table Rust (Some source) = (files, Ok tt) ->
  exists sr g al d r tb p v nts methods visits, read source = Ok sr /\ from_rule_set (unspanned sr) = Ok g /\ generate_lexer fuel (map snd (sr_tokens sr)) = Ok (al, d) /\
    generates KindLALR fuel g true = Ok r /\ table_of_result r tb /\ glr_write_parser g tb = Ok p /\ rust_token_variants (names_of sr) = Ok v /\ rust_non_terminal_variants g = Ok nts /\ visitor_methods g = Ok methods /\ rule_visits g = Ok visits /\
    exists t, (table = false -> t = []) /\ files = [("tokens.rs", Some (RustTokens v)); ("lexer.rs", Some (RustLexer al d))]%string ++ t ++ [("parser.rs"%string, Some (RustGlrParser p nts methods visits))].
Proof.
  intros create fuel read table source files H. apply run_inv in H. destruct H as (sr & g & fs & x & new & Hr & Hg & (tf & lf & Mt & -> & al & d & Hl & Ml) & Lx & M & ->).
  apply made_rust_tokens in Mt. destruct Mt as (v & Hv & ->). apply made_rust_lexer in Ml. subst lf.
  destruct Lx as [tb x Ha _ _|k' tb Hk' Ht|r tb x Ha Ht Hrt Hx]; try discriminate.
  apply Forall2_app_inv_l in M. destruct M as (t & pn & M1 & M2 & ->). apply (made_rust_glr _ _ _ _ _ Hx) in M2. destruct M2 as (p & nts & methods & visits & W1 & W2 & W3 & W4 & ->).
  exists sr, g, al, d, r, tb, p, v, nts, methods, visits. repeat (split; [assumption|]).
  split; [destruct Hrt as [->|[cs ->]]; constructor|]. repeat (split; [assumption|]). exists t. split.
  - intros ->. inversion M1; auto.
  - reflexivity.
Qed.

Lemma build_runs : forall create fuel source files, generate create fuel bootstrap_read true LR1 false Rust (Some source) = (files, Ok tt) ->
  exists gn v nts methods, build_input_parser fuel source = Some gn /\
    files = [("tokens.rs", Some (RustTokens v)); ("lexer.rs", Some (RustLexer (gn_alphabet gn) (gn_dfa gn))); ("parser.rs", Some (RustParser (gn_parser gn) nts methods (gn_visits gn)))]%string.
Proof.
  intros create fuel source files H. apply (run_writes_lr create fuel bootstrap_read LR1 KindLR1 false source files eq_refl) in H.
  destruct H as (sr & g & al & d & tb & p & v & nts & methods & visits & Hr & Hg & Hl & Ht & Hp & Hv & Hn & Hm & Hvs & t & Et & ->). rewrite (Et eq_refl). unfold bootstrap_read in Hr. inv_bind Hr. injection Hr as <-.
  destruct (parse_lapex_file source) as [rs| | |] eqn:Ef; cbn [expect] in Hb; try discriminate. injection Hb as <-. unfold unspanned in Hg. cbn [sr_entry sr_tokens sr_prods snd] in *. rewrite !map_map in Hg. cbn [snd] in Hg. rewrite !map_id in Hg.
  rewrite map_map in Hl. cbn [snd] in Hl. rewrite map_id in Hl. assert (mkRuleSet (rs_entry rs) (rs_tokens rs) (rs_prods rs) = rs) as Ers by (destruct rs; reflexivity). rewrite Ers in Hg.
  exists (mkGenerated al d p visits (g_tokens g)), v, nts, methods. split; [|reflexivity]. unfold build_input_parser. rewrite Ef, Hg, Hl. unfold generates in Ht. cbn [kind_n kind_lalr] in Ht. rewrite Ht, Hp, Hvs. reflexivity.
Qed.
