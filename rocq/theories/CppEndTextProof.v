(** Emitted C++ lexers and parsers as texts, working together. *)
From Coq Require Import String Ascii List Arith NArith ZArith Bool Lia.
From Verif Require Import Base InputModel LexerSpec LexerModel LexerFactsProof PipelineFactsProof GrammarModel GrammarSpec LLModel LLSpec LRModel LRSpec LRTermSpec GLRSpec NamesModel NamesSpec RunModel RunSpec CppLexerModel CppLexerSpec CppLexerProof CppLRModel CppLRSpec CppLRProof CppRunModel CppRunSpec CppRunProof CppEndProof CppPullModel
  TemplateModel TemplateFiles CppTextModel CppTextSpec CppTextProof CppLexTextSpec CppLexTextProof CppLexRunProof CppTokTextProof CppLexGenProof CppLRTextModel CppLRTextSpec CppCaseProof CppLRTextProof CppLRCheckProof CppLRExecProof CppParseExecProof CppLRGenTextProof.
Import ListNotations.
Local Open Scope string_scope.
Local Open Scope list_scope.

(** ** The functions are the ones that were read *)

Lemma functions_unique : forall c visits fs, writable_lr c -> writable_visits visits -> parser_functions (parser_cpp_text c) (parser_impl_h_text c visits) fs -> fs = the_functions c visits.
Proof.
  intros c visits fs W WV ((na, (pa, ba)) & (nr, (pr, br)) & (ng, (pg, bg)) & (nv, (pv, bv)) & -> & (A1 & A2) & (R1 & R2) & (G1 & G2) & (V1 & V2)). cbn [fst snd] in *.
  rewrite action_signature in A1. rewrite reduce_signature in R1. rewrite goto_signature in G1. rewrite visit_signature in V1. injection A1 as <- <-. injection R1 as <- <-. injection G1 as <- <-. injection V1 as <- <-.
  rewrite (defines_once _ _ _ _ A2 (action_defined c W)), (defines_once _ _ _ _ R2 (reduce_defined c W)), (defines_once _ _ _ _ G2 (goto_defined c W)), (defines_once _ _ _ _ V2 (visit_defined c visits W WV)). reflexivity.
Qed.
Lemma functions_there : forall c visits, writable_lr c -> writable_visits visits -> parser_functions (parser_cpp_text c) (parser_impl_h_text c visits) (the_functions c visits).
Proof.
  intros c visits W WV. unfold parser_functions, the_functions. do 4 eexists. split; [reflexivity|].
  split; [split; [exact action_signature|exact (action_defined c W)]|]. split; [split; [exact reduce_signature|exact (reduce_defined c W)]|]. split; [split; [exact goto_signature|exact (goto_defined c W)]|split; [exact visit_signature|exact (visit_defined c visits W WV)]].
Qed.

(** ** What a compiler checks *)

Lemma text_checks : forall c visits, writable_lr c -> writable_visits visits ->
  exists fs parse, parser_functions (parser_cpp_text c) (parser_impl_h_text c visits) fs /\ defines (parser_impl_h_text c visits) parse_head parse /\
  let P := lr_program (enumerators (cx_names c)) (cx_nts c) fs in
  (types_in [tokens_h_text (cx_names c); parser_impl_h_text c visits] P /\ (forall f, In f (functions P) -> checks P (snd (snd f)) = true) /\ checks P parse = true <-> cpp_compiles c /\ NoDup (map fst visits)).
Proof.
  intros c visits W WV. exists (the_functions c visits), (parse_body (cx_entry c)). split; [apply functions_there; assumption|]. split; [apply parse_defined; assumption|]. intros P.
  assert (FS : forall (l : list string), map fst (counted l) = l). { intros l. unfold counted. generalize 0%nat as n. induction l as [|a l IH]; intros n; [reflexivity|cbn; f_equal; apply IH]. }
  split.
  - intros ((E & _) & CH & _). assert (NT : NoDup (enumerators (cx_names c))). { destruct (E "TokenType" (counted (enumerators (cx_names c)))) as (t & b & _ & (_ & _ & _ & _ & _ & N0 & _)); [left; reflexivity|]. rewrite FS in N0. exact N0. }
    assert (NN : NoDup (cx_nts c)). { destruct (E "NonTerminalType" (counted (cx_nts c))) as (t & b & _ & (_ & _ & _ & _ & _ & N0 & _)); [right; right; left; reflexivity|]. rewrite FS in N0. exact N0. }
    pose proof (CH _ (or_introl eq_refl)) as CA. pose proof (CH _ (or_intror (or_introl eq_refl))) as CR. pose proof (CH _ (or_intror (or_intror (or_introl eq_refl)))) as CG. pose proof (CH _ (or_intror (or_intror (or_intror (or_introl eq_refl))))) as CV.
    cbn [snd] in *. apply action_body_checks in CA; [|exact W]. apply goto_body_checks in CG; [|exact W]. apply reduce_body_checks in CR; [|exact W]. apply visit_body_checks in CV; [|exact WV].
    split; [|exact CV]. destruct CA, CG. constructor; assumption.
  - intros (C & NV). split; [split|split].
    + destruct (wl_sizes c W) as (S1 & _). intros e l J. assert (T : enum_in (tokens_h_text (cx_names c)) "TokenType" "uint32_t" (counted (enumerators (cx_names c)))).
      { apply tokens_h_enum; [exact (wl_names c W)|exact (cc_tokens c C)|]. unfold enumerators. cbn [List.length]. rewrite map_length. lia. }
      destruct J as [J|[J|[J|[J|[]]]]]; injection J as <- <-.
      * exists (tokens_h_text (cx_names c)), "uint32_t". split; [left; reflexivity|exact T].
      * exists (parser_impl_h_text c visits), "uint8_t". split; [right; left; reflexivity|apply kind_enum; assumption].
      * exists (parser_impl_h_text c visits), "uint32_t". split; [right; left; reflexivity|apply nts_enum; [assumption|assumption|exact (cc_nts c C)]].
      * exists (parser_impl_h_text c visits), "uint8_t". split; [right; left; reflexivity|apply action_enum; assumption].
    + intros s l J. exists (parser_impl_h_text c visits). split; [right; left; reflexivity|]. destruct J as [J|[J|[J|[]]]]; injection J as <- <-; [apply symbol_struct|apply action_struct|apply transition_struct]; assumption.
    + intros f J. destruct J as [<-|[<-|[<-|[<-|[]]]]]; cbn [snd].
      * apply action_body_checks; [exact W|]. split; [exact (cc_action_states c C)|exact (cc_actions c C)].
      * apply reduce_body_checks; [exact W|]. exact (cc_reductions c C).
      * apply goto_body_checks; [exact W|]. split; [exact (cc_goto_states c C)|exact (cc_gotos c C)].
      * apply visit_body_checks; [exact WV|exact NV].
    + apply parse_body_checks.
Qed.

(** ** What the functions of the tables do *)

Lemma text_tables : forall c visits fs, writable_lr c -> writable_visits visits -> cpp_compiles c -> parser_functions (parser_cpp_text c) (parser_impl_h_text c visits) fs ->
  let P := lr_program (enumerators (cx_names c)) (cx_nts c) fs in
  exists fa fr fg fv, fs = [fa; fr; fg; fv] /\ forall source m, let ext := outside P (cx_names c) source in
  (forall state tk r, ending (fun a => Some (action_value a)) (determine_action c state tk) = Some r ->
     let st := mkStore [("state", VInt U32 (Z.of_N state)); ("lookahead_token", VEnum "TokenType" (Z.of_N tk))] m in does P ext st (snd (snd fa)) st r) /\
  (forall rule stack moved r, ending (fun _ => None) (cpp_reduce_stack c rule stack) = Some r ->
     let st l moved := mkStore [("rule", VInt U32 (Z.of_nat rule)); ("parse_stack", stack_value l); ("rev_reduced_symbols", stack_value moved)] m in
     does P ext (st stack moved) (snd (snd fr)) (match cpp_reduce_stack c rule stack, numbered (cx_reductions c) (N.of_nat rule) with Ok l, Some (n, _) => st l (popped n stack moved) | _, _ => st stack moved end) r) /\
  (forall state sym r, (sy_ident sym < 2 ^ 32)%N -> ending (fun t => Some (transition_value t)) (retrieve_next_state c state sym) = Some r ->
     let st := mkStore [("state", VInt U32 (Z.of_N state)); ("current_symbol", symbol_value sym)] m in does P ext st (snd (snd fg)) st r) /\
  (forall rule method moved log, numbered visits (N.of_nat rule) = Some method ->
     let st log := mkStore [("visitor", visitor_value log); ("rev_reduced_symbols", VVec moved); ("rule", VInt U32 (Z.of_nat rule))] m in
     does P ext (st log) (snd (snd fv)) (st (match method with Some name => reduce_call name :: log | None => log end)) (RReturn None)).
Proof.
  intros c visits fs W WV C F. rewrite (functions_unique c visits fs W WV F). intros P. unfold the_functions at 1. do 4 eexists. split; [reflexivity|].
  intros source m. cbn [fst snd]. split; [|split; [|split]].
  - intros state tk r E. exact (does_determine_action c (the_functions c visits) source W C eq_refl state tk m r E).
  - intros rule stack moved r E. eapply does_eq; [exact (does_reduce_stack c (the_functions c visits) source W rule stack moved m r E)| |reflexivity]. unfold cpp_reduce_stack, reduce_store.
    destruct (numbered _ _) as [(n, s)|]; [|reflexivity]. destruct (enum_value _ _); [|reflexivity]. destruct (pop_symbols _ _); reflexivity.
  - intros state sym r L E. exact (does_retrieve_next_state c (the_functions c visits) source W C state sym m r L E).
  - intros rule method moved log E. exact (does_reduce_visitor c (the_functions c visits) source visits log moved rule m method WV E).
Qed.

(** ** The token function *)

Section Pull.
Variables (al : alphabet) (d : dfa token_rule) (names : list string) (code : lexer_code).
Hypothesis (RF : alphabet_switch al 0 0 = Some 0%nat) (SZ : (N.of_nat (List.length names) + 2 <= 2 ^ 32)%N).
Hypothesis DN : forall lx lx' tk k, lexer_fits lx -> cpp_next al d lx = Ok (lx', tk) -> find_index (String.eqb tk) (enumerators names) = Some k ->
  does (token_program names) (decoder (code_decode code)) (lexer_object lx) (code_next code) (lexer_object lx') (RReturn (Some (CppLexTextSpec.token_value k))).
Hypothesis DA : forall ext lx, does (token_program names) ext (lexer_object lx) (code_start code) (lexer_object lx) (RReturn (Some (VInt U64 (Z.of_nat (cl_start lx))))) /\
    does (token_program names) ext (lexer_object lx) (code_end code) (lexer_object lx) (RReturn (Some (VInt U64 (Z.of_nat (cl_end lx))))).

Definition the_pull : token_source cpp_lexer (nat * nat) := fun lx => match cpp_pull al d names lx with Ok (t, lx') => Some (ct_type t, (ct_start t, ct_end t), lx') | _ => None end.
Definition pulled (fuel : nat) (lx : cpp_lexer) (t : cpp_tok) (lx' : cpp_lexer) : Prop :=
  token_function names code fuel (lexer_value lx) = Some (pair_value (ct_type t) (place_value (ct_start t, ct_end t)), lexer_value lx') /\ (ct_type t < 2 ^ 32)%N.
Fixpoint enough (fuel n : nat) (lx : cpp_lexer) : Prop :=
  match n with
  | O => True
  | S n => match cpp_pull al d names lx with Ok (t, lx') => pulled fuel lx t lx' /\ enough fuel n lx' | _ => True end
  end.

Lemma pull_once : forall lx t lx', lexer_fits lx -> cpp_pull al d names lx = Ok (t, lx') -> lexer_fits lx' /\ eventually (fun fuel => pulled fuel lx t lx').
Proof.
  intros lx t lx' F H. unfold cpp_pull in H. destruct (cpp_next al d lx) as [(lx1, tk)| | |] eqn:E; cbn [bind] in H; try discriminate. destruct (enum_value (enumerators names) tk) as [v|] eqn:V; [|discriminate]. injection H as <- <-.
  unfold enum_value in V. destruct (find_index (String.eqb tk) (enumerators names)) as [k|] eqn:K; [|discriminate]. injection V as <-. split; [exact (fits_kept al d lx lx1 tk RF F E)|].
  destruct (DN lx lx1 tk k F E K) as (n & Hn). destruct (DA (decoder (code_decode code)) lx1) as ((na & Ha) & (nb & Hb)). exists (n + na + nb)%nat. intros fuel L. split.
  - unfold token_function, lexer_value. change (mkStore [] (members (lexer_object lx))) with (lexer_object lx). rewrite (Hn fuel ltac:(lia)). change (mkStore [] (members (lexer_object lx1))) with (lexer_object lx1). rewrite (Ha fuel ltac:(lia)). change (mkStore [] (members (lexer_object lx1))) with (lexer_object lx1). rewrite (Hb fuel ltac:(lia)). unfold pair_value, CppLexTextSpec.token_value. cbn [ct_type ct_start ct_end]. rewrite nat_N_Z. reflexivity.
  - cbn [ct_type]. assert (k < List.length (enumerators names))%nat by (apply nth_error_Some; rewrite (find_index_nth _ _ _ K); discriminate). unfold enumerators in H. cbn [List.length] in H. rewrite map_length in H. lia.
Qed.
Lemma enough_fuel : forall n lx, lexer_fits lx -> eventually (fun fuel => enough fuel n lx).
Proof.
  induction n as [|n IH]; intros lx F; [exists 0%nat; intros; exact I|]. cbn [enough]. destruct (cpp_pull al d names lx) as [(t, lx')| | |] eqn:E; try (exists 0%nat; intros; exact I).
  destruct (pull_once lx t lx' F E) as (F' & (a & A)). destruct (IH lx' F') as (b & B). exists (a + b)%nat. intros fuel L. split; [apply A; lia|apply B; lia].
Qed.
Lemma enough_less : forall fuel n lx, enough fuel (S n) lx -> enough fuel n lx.
Proof. intros fuel. induction n as [|n IH]; intros lx H; [exact I|]. cbn [enough] in *. destruct (cpp_pull al d names lx) as [(t, lx')| | |]; try exact I. destruct H as (A & B). split; [exact A|]. apply IH. exact B. Qed.
Lemma token_pulls : forall fuel, pulls the_pull (enough fuel) lexer_value place_value (token_function names code fuel).
Proof.
  intros fuel. split; [intros n s; apply enough_less|]. intros n s H. unfold the_pull. cbn [enough] in H. destruct (cpp_pull al d names s) as [(t, lx')| | |]; try exact I. destruct H as ((A & B) & C). auto.
Qed.

Definition as_call (e : cpp_call) : visitor_call (nat * nat) := match e with VShift t => CallShift (ct_type t) (ct_start t, ct_end t) | VReduce rule => CallReduce rule end.
Lemma seen_as : forall visits l, flat_map (call_value place_value visits) (map as_call l) = flat_map (seen_call visits) l.
Proof. intros visits. induction l as [|[t|rule] l IH]; [reflexivity|..]; cbn [map flat_map as_call call_value seen_call]; rewrite IH; reflexivity. Qed.

Lemma run_pulls : forall c, cx_names c = names -> forall fuel stack t lx, pull_run the_pull fuel c stack (ct_type t, (ct_start t, ct_end t)) lx = (map as_call (fst (cpp_text_run fuel al d c stack t lx)), snd (cpp_text_run fuel al d c stack t lx)).
Proof.
  intros c CN. induction fuel as [|fuel IH]; intros stack t lx; [reflexivity|]. cbn [pull_run cpp_text_run]. destruct stack as [|top stack]; [reflexivity|]. unfold pull_act, cpp_text_act, the_pull. rewrite CN. cbn [fst snd].
  destruct (determine_action c (sy_ident top) (ct_type t)) as [[|rule]| | |]; try reflexivity.
  - destruct (cpp_pull al d names lx) as [(t', lx')| | |]; try reflexivity. destruct (cpp_goto c _) as [stack'| | |]; try reflexivity. fold the_pull. rewrite IH. destruct (cpp_text_run fuel al d c stack' t' lx') as [ev' r']. cbn [fst snd]. rewrite map_app. reflexivity.
  - destruct (cpp_reduce_stack c rule (top :: stack)) as [stack1| | |]; try reflexivity. destruct (cpp_goto c stack1) as [stack'| | |]; try reflexivity. fold the_pull. rewrite IH. destruct (cpp_text_run fuel al d c stack' t lx) as [ev' r']. cbn [fst snd]. rewrite map_app. reflexivity.
Qed.
Lemma parse_pulls : forall c, cx_names c = names -> forall fuel bytes, pull_parse the_pull fuel c (cpp_new bytes) = (map as_call (fst (cpp_text_parse fuel al d c bytes)), snd (cpp_text_parse fuel al d c bytes)).
Proof.
  intros c CN fuel bytes. unfold pull_parse, cpp_text_parse, the_pull. rewrite CN. destruct (cpp_pull al d names (cpp_new bytes)) as [(t, lx)| | |]; try reflexivity. apply (run_pulls c CN).
Qed.

Lemma text_runs : forall c visits, cx_names c = names -> writable_lr c -> writable_visits visits -> cpp_compiles c -> (forall k, In k (map fst (cx_reductions c)) -> In k (map fst visits)) ->
  forall fuel bytes calls x r, lexer_fits (cpp_new bytes) -> (Z.of_nat fuel < 9223372036854775807)%Z -> cpp_text_parse fuel al d c bytes = (calls, x) -> void_ending x = Some r ->
  parser_does (lr_program (enumerators names) (cx_nts c) (the_functions c visits)) names code (parse_body (cx_entry c)) (lexer_value (cpp_new bytes)) (rev (flat_map (seen_call visits) calls)) r.
Proof.
  intros c visits CN W WV C V fuel bytes calls x r F B H E. destruct (enough_fuel (S fuel) (cpp_new bytes) F) as (n & Hn).
  assert (Q : pull_parse the_pull fuel c (cpp_new bytes) = (map as_call calls, x)) by (rewrite (parse_pulls c CN), H; reflexivity).
  exists n. intros f L. destruct (does_parse c visits the_pull (enough f) lexer_value place_value (token_function names code f) W WV C (token_pulls f) V fuel (cpp_new bytes) [] (map as_call calls) x r (Hn f L) B Q E) as (sv & D & _).
  exists sv. unfold logs in D. rewrite seen_as, app_nil_r, CN in D. exact D.
Qed.
End Pull.

Lemma parser_once : forall P names code parse lexer log log' r r', parser_does P names code parse lexer log r -> parser_does P names code parse lexer log' r' -> log = log' /\ r = r'.
Proof.
  intros P names code parse lexer log log' r r' (n & A) (m & B). destruct (A (n + m)%nat ltac:(lia)) as (s & A'). destruct (B (n + m)%nat ltac:(lia)) as (s' & B'). destruct (does_once _ _ _ _ _ _ _ _ A' B') as (E & ->).
  injection E as _ ->. split; reflexivity.
Qed.

Section End.
Variables (rs : rule_set) (g : grammar) (lfuel : nat) (al : alphabet) (d : dfa token_rule) (debug : token_rule -> text).
Hypothesis sm : GrammarSpec.small rs.
Hypothesis built : from_rule_set rs = Ok g.
Hypothesis us : usable_tokens (rs_tokens rs).
Hypothesis gen : generate_lexer lfuel (rs_tokens rs) = Ok (al, d).
Hypothesis (PT : forall r, In r (rs_tokens rs) -> plain_name (tr_name r) /\ one_line (debug r)) (PP : forall p, In p (rs_prods rs) -> plain_name (pr_name p)) (LD : (N.of_nat (List.length (dfa_nodes d)) <= 2 ^ 32)%N).
Variables (k : table_kind) (m : nat) (allow : bool) (tb : lr_table) (c : cpp_lr) (visits : list (nat * option string)).
Hypothesis tgen : generates k m g allow = Ok (NoConflicts tb).
Hypothesis wrc : cpp_write (token_names rs) g tb = Ok c.
Hypothesis wrv : cpp_rule_visits g = Ok visits.
Hypothesis comp : cpp_compiles c.
Hypothesis ws : word_sized g tb.

Lemma end_names : Forall plain_name (token_names rs).
Proof. apply Forall_forall. intros s H. unfold token_names in H. apply in_map_iff in H. destruct H as (r & <- & J). exact (proj1 (PT r J)). Qed.
Lemma end_cx : cx_names c = token_names rs. Proof. pose proof wrc as H. unfold cpp_write in H. inv_bind H. inv_bind H. inv_bind H. inv_bind H. injection H as <-. reflexivity. Qed.
Lemma end_writable : writable_lr c. Proof. exact (generated_writable rs g sm built k m allow tb c tgen wrc end_names PP ws). Qed.
Lemma end_visits : writable_visits visits /\ (forall j, In j (map fst (cx_reductions c)) -> In j (map fst visits)) /\ NoDup (map fst visits).
Proof.
  destruct (generated_visits rs g sm built k m allow tb c tgen wrc PP ws visits wrv) as (A & B). split; [exact A|]. split; [exact B|].
  destruct (NamesVisitProof.cpp_visits_complete _ _ built) as (vs & ms & E & _ & _ & S & _). assert (vs = visits) as -> by congruence. rewrite S. apply seq_NoDup.
Qed.

Let names := token_names rs.
Lemma lexer_there : alphabet_switch al 0 0 = Some 0%nat /\ exists code, lexer_code_in (lexer_cpp_text debug al d) code /\ code_checks (token_program names) code = true /\
  (forall lx lx' tk k, lexer_fits lx -> cpp_next al d lx = Ok (lx', tk) -> find_index (String.eqb tk) (enumerators names) = Some k ->
    does (token_program names) (decoder (code_decode code)) (lexer_object lx) (code_next code) (lexer_object lx') (RReturn (Some (CppLexTextSpec.token_value k)))) /\
  forall ext lx, does (token_program names) ext (lexer_object lx) (code_start code) (lexer_object lx) (RReturn (Some (VInt U64 (Z.of_nat (cl_start lx))))) /\
    does (token_program names) ext (lexer_object lx) (code_end code) (lexer_object lx) (RReturn (Some (VInt U64 (Z.of_nat (cl_end lx))))).
Proof.
  pose proof (ut_valid _ us) as V. pose proof (proper_no_empty _ (ut_proper _ us)) as NE. destruct (generated_ranges _ _ _ _ V NE gen) as (R & Z0). split; [exact Z0|]. apply next_text.
  - intros [r|j] J; [|exact Logic.I]. exact (PT r (accepting_rules _ _ _ _ _ V NE gen J)).
  - intros r J. unfold names, token_names. apply in_map. exact (accepting_rules _ _ _ _ _ V NE gen J).
  - exact R.
  - exact (generated_fits _ _ _ _ V NE gen LD).
Qed.

(** The texts can be read and pass the checks, and running them is what the model does. *)
Lemma end_text : exists code fs parse, lexer_code_in (lexer_cpp_text debug al d) code /\ parser_functions (parser_cpp_text c) (parser_impl_h_text c visits) fs /\ defines (parser_impl_h_text c visits) parse_head parse /\
  let P := lr_program (enumerators names) (cx_nts c) fs in
  code_checks (token_program names) code = true /\ types_in [tokens_h_text names; parser_impl_h_text c visits] P /\ (forall f, In f (functions P) -> checks P (snd (snd f)) = true) /\ checks P parse = true /\
  forall fuel bytes calls x r, Forall is_byte bytes -> (Z.of_nat (List.length bytes) + 2 < 18446744073709551616)%Z -> (Z.of_nat fuel < 9223372036854775807)%Z -> cpp_text_parse fuel al d c bytes = (calls, x) -> void_ending x = Some r ->
    parser_does P names code parse (lexer_value (cpp_new bytes)) (rev (flat_map (seen_call visits) calls)) r.
Proof.
  pose proof end_writable as W. destruct end_visits as (WV & V & NV). destruct lexer_there as (Z0 & code & D1 & D2 & D3 & D4). exists code, (the_functions c visits), (parse_body (cx_entry c)).
  split; [exact D1|]. split; [exact (functions_there c visits W WV)|]. split; [exact (parse_defined c visits W WV)|]. intros P. split; [exact D2|].
  destruct (text_checks c visits W WV) as (fs & parse & F & DP & _ & T). assert (fs = the_functions c visits) as -> by (apply functions_unique; assumption). assert (parse = parse_body (cx_entry c)) as -> by exact (defines_once _ _ _ _ DP (parse_defined c visits W WV)).
  destruct (T (conj comp NV)) as (T1 & T2 & T3). rewrite end_cx in *. split; [exact T1|]. split; [exact T2|]. split; [exact T3|].
  intros fuel bytes calls x r B L LF E X. apply (text_runs al d names code Z0) with (fuel := fuel) (x := x); try assumption.
  - destruct sm as (A & _). unfold names, token_names. rewrite map_length. lia.
  - exact end_cx.
  - apply new_fits; assumption.
Qed.

Hypothesis (front : epsilon_in_front g) (ne : no_empty_rhs g) (se : sealed k g) (st : entry_starts g).
Lemma end_exact : exists code fs parse, lexer_code_in (lexer_cpp_text debug al d) code /\ parser_functions (parser_cpp_text c) (parser_impl_h_text c visits) fs /\ defines (parser_impl_h_text c visits) parse_head parse /\
  let P := lr_program (enumerators names) (cx_nts c) fs in
  code_checks (token_program names) code = true /\ types_in [tokens_h_text names; parser_impl_h_text c visits] P /\ (forall f, In f (functions P) -> checks P (snd (snd f)) = true) /\ checks P parse = true /\
  forall fuel bytes text junk, Forall is_byte bytes -> (Z.of_nat (List.length bytes) + 2 < 18446744073709551616)%Z -> (Z.of_nat fuel < 9223372036854775807)%Z -> holds bytes text junk ->
  snd (cpp_text_parse fuel al d c bytes) = OutOfFuel \/
  exists calls r, parser_does P names code parse (lexer_value (cpp_new bytes)) (rev (flat_map (seen_call visits) calls)) r /\
    match r with
    | RNext => readable text junk /\ exists ls tr, lexemes (rs_tokens rs) text ls /\ parse_tree g tr /\ Forall2 (token_named g) (iyield tr) (map (fun l => tr_name (snd l)) ls) /\ told names (post_order tr) (places 0 (map fst ls)) calls
    | RThrow _ => ~ (readable text junk /\ text_of_language rs text)
    | _ => False
    end.
Proof.
  destruct end_text as (code & fs & parse & A1 & A2 & A3 & A4 & A5 & A6 & A7 & R). exists code, fs, parse. split; [exact A1|]. split; [exact A2|]. split; [exact A3|]. intros P. split; [exact A4|]. split; [exact A5|]. split; [exact A6|]. split; [exact A7|].
  intros fuel bytes text junk B L LF H. pose proof (exact_bytes rs g lfuel al d sm built us gen k m allow tb c tgen wrc comp front ne se st fuel bytes text junk B H) as X. pose proof (R fuel bytes) as Y. destruct (cpp_text_parse fuel al d c bytes) as [calls [lx|e| |]] eqn:E; [| |destruct X|left; reflexivity].
  - right. exists calls, RNext. split; [apply (Y calls (Ok lx) RNext B L LF eq_refl eq_refl)|exact X].
  - destruct e as [w| | |]; [|destruct X..]. right. exists calls, (RThrow w). split; [apply (Y calls _ (RThrow w) B L LF eq_refl eq_refl)|exact X].
Qed.
End End.

(** [parse] with any token function. *)
Lemma parse_text : forall A D c visits (pull : token_source A D) fits state data source fs parse, writable_lr c -> writable_visits visits -> cpp_compiles c -> (forall k, In k (map fst (cx_reductions c)) -> In k (map fst visits)) ->
  pulls pull fits state data source -> parser_functions (parser_cpp_text c) (parser_impl_h_text c visits) fs -> defines (parser_impl_h_text c visits) parse_head parse ->
  let P := lr_program (enumerators (cx_names c)) (cx_nts c) fs in
  forall fuel s log ev x r, fits (S fuel) s -> (Z.of_nat fuel < 9223372036854775807)%Z -> pull_parse pull fuel c s = (ev, x) -> void_ending x = Some r ->
  exists final, does P (outside P (cx_names c) source) (mkStore [] (parser_members (state s) log)) parse (mkStore [] (parser_members final (rev (flat_map (call_value data visits) ev) ++ log))) r /\
    match x with Ok s' => final = state s' | _ => True end.
Proof.
  intros A D c visits pull fits state data source fs parse W WV C V U F DP P fuel s log ev x r FT B H E. unfold P. rewrite (functions_unique c visits fs W WV F), (defines_once _ _ _ _ DP (parse_defined c visits W WV)).
  exact (does_parse c visits pull fits state data source W WV C U V fuel s log ev x r FT B H E).
Qed.
Lemma texts_once : forall c visits fs fs' parse parse', writable_lr c -> writable_visits visits -> parser_functions (parser_cpp_text c) (parser_impl_h_text c visits) fs -> parser_functions (parser_cpp_text c) (parser_impl_h_text c visits) fs' ->
  defines (parser_impl_h_text c visits) parse_head parse -> defines (parser_impl_h_text c visits) parse_head parse' -> fs = fs' /\ parse = parse'.
Proof. intros c visits fs fs' parse parse' W WV A B C D. split; [rewrite (functions_unique c visits fs W WV A); symmetry; exact (functions_unique c visits fs' W WV B)|exact (defines_once _ _ _ _ C D)]. Qed.
