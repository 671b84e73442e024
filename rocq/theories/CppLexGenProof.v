(** Proofs about the text of generated C++ lexers. *)
From Coq Require Import String Ascii List Arith NArith ZArith Bool Lia.
From Verif Require Import Base InputModel LexerSpec LexerModel AlphabetProof LexerProof LexDetProof NamesModel CppLexerModel CppLexerSpec CppLexerProof PipelineFactsProof TemplateModel TemplateFiles
  CppTextModel CppTextSpec CppTextProof CppLexTextSpec CppLexTextProof CppLexRunProof CppTokTextProof.
Import ListNotations.
Local Open Scope string_scope.
Local Open Scope list_scope.

Lemma contiguous_fits : forall lo al hi, contiguous lo al hi -> (hi <= 2 ^ 32)%N ->
  (forall a b, In (a, b) al -> (lo <= a <= b)%N /\ (b < hi)%N) /\ ForallOrdPairs (fun x y => (snd x < fst y \/ snd y < fst x)%N) al /\ (lo + N.of_nat (List.length al) <= hi)%N.
Proof.
  induction 1 as [n|s e rest n L C IH]; intros H; [split; [intros a b []|]; split; [constructor|cbn; lia]|]. destruct (IH H) as (A & B & D). pose proof (contiguous_le _ _ _ C) as LE. split; [|split].
  - intros a b [Q|I]; [injection Q as <- <-; lia|]. apply A in I. lia.
  - constructor; [|exact B]. rewrite Forall_forall. intros (a, b) I. apply A in I. cbn. lia.
  - cbn [List.length]. lia.
Qed.
Lemma generated_ranges : forall fuel rules al d, valid_rules rules -> no_empty_sequence rules -> generate_lexer fuel rules = Ok (al, d) -> ranges_fit al /\ alphabet_switch al 0 0 = Some 0.
Proof.
  intros fuel rules al d V N G. pose proof (generate_lexer_facts _ _ _ _ V N G) as F. pose proof (lf_al _ _ _ F) as C. assert (H : (CHAR_MAX + 1 <= 2 ^ 32)%N) by (vm_compute; discriminate).
  destruct (contiguous_fits _ _ _ C H) as (A & B & D). split.
  - split; [|split; [exact B|lia]]. intros a b I. apply A in I. lia.
  - destruct (lf_zero _ _ _ F) as (rest & ->). reflexivity.
Qed.
Lemma generated_fits : forall fuel rules al d, valid_rules rules -> no_empty_sequence rules -> generate_lexer fuel rules = Ok (al, d) -> (N.of_nat (List.length (dfa_nodes d)) <= 2 ^ 32)%N -> automaton_fits d.
Proof.
  intros fuel rules al d V N G L. pose proof (generate_lexer_facts _ _ _ _ V N G) as F. destruct (generated_ranges _ _ _ _ V N G) as ((_ & _ & LA) & _). split; [exact L|]. intros q Q. split; [eapply generated_distinct; exact G|].
  intros t v I. unfold transitions_from in I. apply ConvertProof.out_edges_In in I. pose proof (generated_labels _ _ _ _ V N G _ _ _ I) as T. split; [lia|]. apply (lf_range _ _ _ F) in I. tauto.
Qed.

Lemma loop_token : forall al d names, (forall node, In node (dfa_nodes d) -> node_known names node) -> forall fuel lx q lx' tk, cpp_loop al d fuel lx q = Ok (lx', tk) -> In tk (enumerators names).
Proof.
  intros al d names K. induction fuel as [|fuel IH]; intros lx q lx' tk H; [discriminate|]. cbn [cpp_loop] in H. cbv zeta in H. match type of H with context [negb (cl_err ?x =? 0)%N] => generalize dependent x end. intros l1 H.
  destruct (negb (cl_err l1 =? 0)%N); [injection H as <- <-; apply err_in|]. destruct (alphabet_switch al 0 (cl_ch l1)) as [i|]; [|injection H as <- <-; apply err_in]. destruct (automaton_switch d q i) as [v|name|t] eqn:E.
  - exact (IH _ _ _ _ H).
  - injection H as <- <-. unfold automaton_switch in E. destruct (nth_error (dfa_nodes d) q) as [node|] eqn:N; [|discriminate]. destruct (Nat.eqb q 0 && Nat.eqb i 0); [discriminate|]. destruct (find _ _) as [(t, v)|]; [discriminate|]. destruct node as [r|k]; [|discriminate]. injection E as <-.
    apply nth_error_In in N. apply K in N. do 2 right. apply in_map. exact N.
  - injection H as <- <-. unfold automaton_switch in E. destruct (nth_error (dfa_nodes d) q) as [node|]; [|injection E as <-; apply err_in]. destruct (Nat.eqb q 0 && Nat.eqb i 0); [injection E as <-; apply eof_in|]. destruct (find _ _) as [(t', v)|]; [discriminate|]. destruct node as [r|k]; [discriminate|]. injection E as <-. apply err_in.
Qed.
Lemma next_token : forall al d names lx lx' tk, (forall node, In node (dfa_nodes d) -> node_known names node) -> cpp_next al d lx = Ok (lx', tk) -> exists k, find_index (String.eqb tk) (enumerators names) = Some k.
Proof. intros al d names lx lx' tk K H. apply index_of. exists tk. split; [eapply loop_token; [exact K|exact H]|apply String.eqb_refl]. Qed.

Lemma run_calls : forall al d names, ranges_fit al -> automaton_fits d -> alphabet_switch al 0 0 = Some 0 -> (forall node, In node (dfa_nodes d) -> node_known names node) ->
  forall n lx cs, lexer_fits lx -> cpp_run al d n lx = Ok cs -> exists l, calls (token_program names) (decoder CppBitsProof.decode_steps) (next_body al d) (lexer_object lx) l /\ Forall2 (seen names) cs l.
Proof.
  intros al d names R A Z0 K. induction n as [|n IH]; intros lx cs F H; cbn [cpp_run] in H; [injection H as <-; exists []; split; constructor|]. inv_bind H. destruct a as (lx', tk). inv_bind H. injection H as <-. rename Hb into HN, Hb0 into HR, a into cs.
  destruct (next_token _ _ _ _ _ _ K HN) as (k & E). destruct (IH lx' cs (fits_kept _ _ _ _ _ Z0 F HN) HR) as (l & C & S). exists ((lexer_object lx', token_value k) :: l). split.
  - econstructor; [|exact C]. exact (does_next names al d lx lx' tk k R A F HN E).
  - constructor; [|exact S]. split; [reflexivity|]. exists k. split; [exact E|reflexivity].
Qed.
Lemma new_fits : forall bytes, Forall is_byte bytes -> (Z.of_nat (List.length bytes) + 2 < 18446744073709551616)%Z -> lexer_fits (cpp_new bytes).
Proof. intros bytes B L. split; [exact B|]. split; [reflexivity|]. unfold room. cbn [cpp_new cl_position cl_in cl_ch]. rewrite N.eqb_refl. cbn [orb]. lia. Qed.

Definition the_code (al : alphabet) (d : dfa token_rule) : lexer_code := mkLexerCode CppBitsProof.decode_steps (next_body al d) (CppBitsProof.getter "start_pos") (CppBitsProof.getter "end_pos").
Lemma code_there : forall debug al d, (forall node, In node (dfa_nodes d) -> writable_node debug node) -> lexer_code_in (lexer_cpp_text debug al d) (the_code al d).
Proof. intros debug al d W. split; [apply CppBitsProof.decode_text; exact W|]. split; [apply lexer_defines; exact W|]. apply CppBitsProof.accessors_text. exact W. Qed.
Lemma code_passes : forall P al d, checks P (next_body al d) = true -> code_checks P (the_code al d) = true.
Proof. intros P al d H. unfold code_checks. cbn [the_code code_next code_start code_end]. rewrite H. reflexivity. Qed.
Lemma getter_runs : forall P ext ms m t z, find_name m ms = Some (VInt t z) -> does P ext (mkStore [] ms) (CppBitsProof.getter m) (mkStore [] ms) (RReturn (Some (VInt t z))).
Proof.
  intros P ext ms m t z H. exists 10%nat. intros fuel L. replace fuel with (10 + (fuel - 10))%nat by lia. generalize (fuel - 10)%nat. intros n. cbn [Nat.add CppBitsProof.getter exec exec_items eval members locals]. rewrite H. reflexivity.
Qed.
Lemma accessors_run : forall P ext lx al d, does P ext (lexer_object lx) (code_start (the_code al d)) (lexer_object lx) (RReturn (Some (VInt U64 (Z.of_nat (cl_start lx))))) /\
  does P ext (lexer_object lx) (code_end (the_code al d)) (lexer_object lx) (RReturn (Some (VInt U64 (Z.of_nat (cl_end lx))))).
Proof. intros P ext lx al d. split; apply getter_runs; reflexivity. Qed.

Lemma next_text : forall debug al d names, (forall node, In node (dfa_nodes d) -> writable_node debug node) -> (forall r, In (Accepting r) (dfa_nodes d) -> In (tr_name r) names) -> ranges_fit al -> automaton_fits d ->
  exists code, lexer_code_in (lexer_cpp_text debug al d) code /\ code_checks (token_program names) code = true /\
  (forall lx lx' tk k, lexer_fits lx -> cpp_next al d lx = Ok (lx', tk) -> find_index (String.eqb tk) (enumerators names) = Some k ->
    does (token_program names) (decoder (code_decode code)) (lexer_object lx) (code_next code) (lexer_object lx') (RReturn (Some (token_value k)))) /\
  forall ext lx, does (token_program names) ext (lexer_object lx) (code_start code) (lexer_object lx) (RReturn (Some (VInt U64 (Z.of_nat (cl_start lx))))) /\
    does (token_program names) ext (lexer_object lx) (code_end code) (lexer_object lx) (RReturn (Some (VInt U64 (Z.of_nat (cl_end lx))))).
Proof.
  intros debug al d names W K R A. exists (the_code al d). split; [apply code_there; exact W|]. split; [|split; [|intros ext lx; apply accessors_run]].
  - apply code_passes. apply next_checks; [exact R|exact A|]. intros [r|k] I; [exact (K r I)|exact Logic.I].
  - intros lx lx' tk k F H E. exact (does_next names al d lx lx' tk k R A F H E).
Qed.

Lemma generated_text : forall fuel rules al d debug, valid_rules rules -> no_empty_sequence rules -> generate_lexer fuel rules = Ok (al, d) -> (N.of_nat (List.length (dfa_nodes d)) <= 2 ^ 32)%N ->
  (forall r, In r rules -> plain_name (tr_name r) /\ one_line (debug r)) ->
  exists code, lexer_code_in (lexer_cpp_text debug al d) code /\ code_checks (token_program (map tr_name rules)) code = true /\
  forall text bytes junk n, utf8_text text bytes -> Forall is_byte junk -> junk = [] \/ malformed junk -> (Z.of_nat (List.length (bytes ++ junk)) + 2 < 18446744073709551616)%Z ->
  exists rs cs l, lexer_run al d n (lexer_new text) = Ok rs /\ calls (token_program (map tr_name rules)) (decoder (code_decode code)) (code_next code) (lexer_object (cpp_new (bytes ++ junk))) l /\
    Forall2 (agree text junk) rs cs /\ Forall2 (seen (map tr_name rules)) cs l.
Proof.
  intros fuel rules al d debug V N G L W. destruct (generated_ranges _ _ _ _ V N G) as (R & Z0). pose proof (generated_fits _ _ _ _ V N G L) as A.
  assert (K : forall r, In (Accepting r) (dfa_nodes d) -> In r rules) by (intros r I; exact (accepting_rules _ _ _ _ _ V N G I)).
  assert (KN : forall node, In node (dfa_nodes d) -> node_known (map tr_name rules) node) by (intros [r|k] I; [apply in_map; apply K; exact I|exact Logic.I]).
  exists (the_code al d). split; [|split].
  - apply code_there. intros [r|k] I; [exact (W r (K r I))|exact Logic.I].
  - apply code_passes. apply next_checks; assumption.
  - intros text bytes junk n U J M B. destruct (lexers_agree _ _ _ _ V N G text bytes junk U J M n) as (rs & cs & HR & HC & F).
    assert (BB : Forall is_byte (bytes ++ junk)).
    { apply Forall_app. split; [|exact J]. clear - U. induction U as [|c bs text bytes HU _ IH]; [constructor|]. apply Forall_app. split; [|exact IH]. exact (utf8_bytes c bs HU). }
    destruct (run_calls al d (map tr_name rules) R A Z0 KN n _ cs (new_fits _ BB B) HC) as (l & C & S). exists rs, cs, l. split; [exact HR|]. split; [exact C|]. split; [exact F|exact S].
Qed.

(** The enumeration is there exactly if the names are distinct. *)
Lemma tokens_h_iff : forall names, Forall plain_name names ->
  ((exists l, enum_in (tokens_h_text names) "TokenType" "uint32_t" l) <-> NoDup names /\ ~ In "ERR" names /\ ~ In "EOF" names /\ (N.of_nat (List.length names) + 2 <= 2 ^ 32)%N) /\
  forall l, enum_in (tokens_h_text names) "TokenType" "uint32_t" l -> l = counted (enumerators names).
Proof.
  intros names F.
  assert (U : forall l, enum_in (tokens_h_text names) "TokenType" "uint32_t" l -> l = counted (enumerators names)).
  { intros l (ts & r & T & B & E & _). rewrite (tokens_h_tokens names F) in T. injection T as <-. pose proof (behind_app [Key Enum; Key Class; Word "TokenType"; Mark Colon; Word "uint32_t"; Mark LBrace] tokens_front_tokens _ (variants_tokens names ++ tokens_back_tokens) eq_refl) as BB.
    pose proof (eq_trans (eq_sym B) BB) as Q. clear B BB. injection Q as ->.
    cbn [Datatypes.app parse_enumerators] in E. pose proof (variants_parse names 2) as X. change (1 + 1)%Z with (Z.of_nat 2) in E. rewrite X in E. injection E as <-. reflexivity. }
  assert (FS : forall (l : list string) n, map fst (combine l (map Z.of_nat (seq n (List.length l)))) = l) by (induction l as [|a l IH]; intros n; [reflexivity|cbn; f_equal; apply IH]).
  assert (LEN : List.length (enumerators names) = S (S (List.length names))) by (unfold enumerators; cbn; rewrite map_length; reflexivity).
  split; [|exact U]. split.
  - intros (l & E). pose proof (U l E) as ->. destruct E as (ts & r & _ & _ & _ & D & i & T & B). injection T as <-. unfold counted in D. rewrite FS in D. apply enumerators_distinct in D. destruct D as (D1 & D2 & D3). split; [exact D1|]. split; [exact D2|]. split; [exact D3|].
    specialize (B (Z.of_nat (S (List.length names)))). assert (I : In (Z.of_nat (S (List.length names))) (map snd (counted (enumerators names)))).
    { unfold counted. rewrite LEN. assert (X : forall (l : list string) n, map snd (combine l (map Z.of_nat (seq n (List.length l)))) = map Z.of_nat (seq n (List.length l))) by (induction l as [|a l IH]; intros n; [reflexivity|cbn; f_equal; apply IH]).
      rewrite <- LEN, X. apply in_map. apply in_seq. lia. }
    specialize (B I). cbn [wrap] in B. pose proof (Z.mod_pos_bound (Z.of_nat (S (List.length names))) 4294967296 ltac:(lia)) as M. lia.
  - intros (D1 & D2 & D3 & L). exists (counted (enumerators names)). apply tokens_h_enum; [exact F|apply enumerators_distinct; auto|rewrite LEN; lia].
Qed.

Lemma tokens_cpp_text_ok : forall names, Forall plain_name names -> NoDup names -> ~ In "ERR" names -> ~ In "EOF" names ->
  exists body, defines (tokens_cpp_text names) (chars "const char *get_token_name(TokenType tk_type)") body /\ checks (token_program names) body = true /\
  (forall ext m k tk, nth_error (enumerators names) k = Some tk -> exists s, get_token_name names tk = Some s /\
     does (token_program names) ext (mkStore [("tk_type", token_value k)] m) body (mkStore [("tk_type", token_value k)] m) (RReturn (Some (VStr s)))) /\
  (forall ext m z, (z < 0 \/ Z.of_nat (List.length (enumerators names)) <= z)%Z ->
     does (token_program names) ext (mkStore [("tk_type", VEnum "TokenType" z)] m) body (mkStore [("tk_type", VEnum "TokenType" z)] m) (RReturn (Some VNull))).
Proof.
  intros names F D1 D2 D3. assert (D : NoDup (enumerators names)) by (apply enumerators_distinct; auto). exists (name_body names). split; [apply tokens_cpp_defines; exact F|]. split; [apply name_checks; exact D|]. split.
  - intros ext m k tk E. pose proof (does_name names D ext (Z.of_nat k) m) as X. unfold name_value in X. replace (Z.of_nat k <? 0)%Z with false in X by (symmetry; apply Z.ltb_ge; lia). rewrite Nat2Z.id in X.
    destruct (nth_error (name_table names) k) as [(e, s)|] eqn:N.
    + exists s. split; [|exact X]. assert (e = tk) as -> by (rewrite <- name_table_fst, nth_error_map, N in E; cbn in E; congruence). destruct (token_names_ok names D) as (A1 & A2 & A3). apply nth_error_In in N. destruct N as [Q|[Q|I]].
      * injection Q as <- <-. exact A1.
      * injection Q as <- <-. exact A2.
      * apply in_map_iff in I. destruct I as (x & Q & I). injection Q as <- <-. exact (A3 _ I).
    + rewrite <- name_table_fst, nth_error_map, N in E. discriminate.
  - intros ext m z H. pose proof (does_name names D ext z m) as X. unfold name_value in X. destruct (Z.ltb_spec z 0); [exact X|]. rewrite <- name_table_fst, map_length in H. replace (nth_error (name_table names) (Z.to_nat z)) with (@None (string * string)) in X; [exact X|]. symmetry. apply nth_error_None. lia.
Qed.
