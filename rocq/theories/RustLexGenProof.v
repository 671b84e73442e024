(** Proofs about the code of the Rust lexers that are emitted for rules. *)
From Coq Require Import String Ascii List Arith NArith Bool Lia.
From Verif Require Import Base InputModel LexerModel LexerSpec LexerProof LexerFactsProof TemplateModel TemplateFiles GrammarModel LRModel NamesModel NamesSpec NamesProof NamesVisitProof PipelineFactsProof RustTokenSpec RustQuoteModel RustSpec RustLexTextModel RustLexTextSpec RustLexTextProof RustLexRunProof.
Import ListNotations.
Local Open Scope string_scope.
Local Open Scope list_scope.

Lemma enum_cases : forall s, spelled s -> (get_token_enum_name s = Panic <-> empty_segment s) /\ (get_token_enum_name s = Ok ("Tk" ++ camelled s)%string \/ get_token_enum_name s = Panic).
Proof.
  intros s H. pose proof (named_ascii s H) as A. destruct (camel_panics s A) as [B _]. unfold get_token_enum_name. destruct (camel_cases s A) as [E|E]; rewrite E in *; cbn; (split; [rewrite <- B; split; intros X; congruence|auto]).
Qed.
Lemma rust_tokens_text_exact_proof : forall ns, (forall n, In n ns -> spelled n) ->
  (tokens_rs ns = Panic <-> exists n, In n ns /\ empty_segment n) /\
  ((forall n, In n ns -> ~ empty_segment n) -> exists file vs, tokens_rs ns = Ok file /\ rust_token_variants ns = Ok vs /\ enum_of "TokenType" file = Some vs /\ (NoDup vs <-> NoDup (map kept ns))).
Proof.
  intros ns H. pose proof (token_variants ns (fun n X => named_ascii n (H n X))) as (A & B). unfold rust_token_variants in *. destruct (res_list (map get_token_enum_name ns)) as [l| | |] eqn:E; cbn [bind] in A, B.
  - pose proof (tokens_written ns l H E) as W. split; [rewrite W; rewrite <- A; split; discriminate|]. intros X. exists (tokens_file (variant_tokens l)), ("EndOfFile" :: l). split; [exact W|]. split; [reflexivity|]. split; [apply tokens_enum|]. destruct (B X) as (vs & Y & Z). inversion Y; subst vs. exact Z.
  - split; [|intros X; destruct (B X) as (vs & Y & _); discriminate]. rewrite <- A. unfold tokens_rs, other_tokens. rewrite E. cbn [bind]. split; discriminate.
  - split; [|intros X; destruct (B X) as (vs & Y & _); discriminate]. rewrite <- A. unfold tokens_rs, other_tokens. rewrite E. cbn [bind]. tauto.
  - split; [|intros X; destruct (B X) as (vs & Y & _); discriminate]. rewrite <- A. unfold tokens_rs, other_tokens. rewrite E. cbn [bind]. split; discriminate.
Qed.
Definition spelled_node (node : astate token_rule) : Prop := match node with Accepting r => spelled (tr_name r) | Intermediate _ => True end.
Lemma node_cases : forall d j node, spelled_node node -> (named_node node /\ rust_state_cases d j node = Ok (map case_tokens (state_cases d j node))) \/ (rust_state_cases d j node = Panic /\ exists r, node = Accepting r /\ empty_segment (tr_name r)).
Proof.
  intros d j node H. destruct node as [r|r].
  - destruct (enum_cases (tr_name r) H) as (P & [E|E]).
    + left. assert (X : named_node (Accepting r)) by (split; [exact H|eexists; exact E]). split; [exact X|exact (state_written d j _ X)].
    + right. split; [|exists r; split; [reflexivity|apply P; exact E]]. unfold rust_state_cases. rewrite map_app.
      assert (E0 : res_list (map expanded (if Nat.eqb j 0 then [quote_of eof_code [("state_id", usize_token j)]] else [])) = Ok (map case_tokens (if Nat.eqb j 0 then [(j, Some O, ActEof)] else []))) by (destruct (Nat.eqb j 0); reflexivity).
      rewrite (res_list_app _ _ _ _ E0 (moves_written j (transitions_from d j))). cbn [bind default_case]. rewrite E. reflexivity.
  - left. split; [exact I|]. apply state_written. exact I.
Qed.
Lemma rust_lexer_text_panics_proof : forall al d, (forall r, In (Accepting r) (dfa_nodes d) -> spelled (tr_name r)) ->
  (lexer_rs al d = Panic <-> exists r, In (Accepting r) (dfa_nodes d) /\ empty_segment (tr_name r)).
Proof.
  intros al d H. assert (HS : forall node, In node (dfa_nodes d) -> spelled_node node) by (intros [r|r] X; [exact (H r X)|exact I]).
  assert (A : forall l j, (forall node, In node l -> spelled_node node) ->
    (forall node, In node l -> named_node node) \/ (res_list (map (fun jn => rust_state_cases d (fst jn) (snd jn)) (enumerate_from j l)) = Panic /\ exists r, In (Accepting r) l /\ empty_segment (tr_name r))).
  { induction l as [|node l IH]; intros j HL; [left; intros ? []|]. cbn [enumerate_from map res_list fst snd]. destruct (node_cases d j node (HL node (or_introl eq_refl))) as [[N E]|[E (r & -> & X)]]; rewrite E; cbn [bind].
    - destruct (IH (S j) (fun n X => HL n (or_intror X))) as [B|[B (r & C & D)]]; [left; intros n [<-|X]; auto|]. right. rewrite B. split; [reflexivity|]. exists r. split; [right; exact C|exact D].
    - right. split; [reflexivity|]. exists r. split; [left; reflexivity|exact X]. }
  destruct (A (dfa_nodes d) 0%nat HS) as [B|[B C]].
  - rewrite (lexer_written al d B). split; [discriminate|]. intros (r & R & E). destruct (B _ R) as (_ & n & X). apply (enum_cases (tr_name r) (H r R)) in E. congruence.
  - split; [intros _; exact C|]. intros _. unfold lexer_rs. rewrite alphabet_written. cbn [bind]. unfold automaton_arms, enumerate. rewrite B. reflexivity.
Qed.

Lemma loop_accepts : forall al d iter pos state iter' pos' r, lexer_loop al (automaton_cases d) iter pos state = Ok (iter', pos', inl (Tk r)) -> In (Accepting r) (dfa_nodes d).
Proof.
  intros al d. assert (S : forall state i r, select_case (automaton_cases d) state i = Some (ActToken r) -> In (Accepting r) (dfa_nodes d)).
  { intros state i r H. unfold select_case in H. match type of H with option_map _ (find ?f _) = _ => destruct (find f (automaton_cases d)) as [c|] eqn:F end; [|discriminate]. apply find_some in F. destruct F as [F _]. cbn in H. inversion H as [E]. clear H. revert F. unfold automaton_cases. generalize 0%nat.
    induction (dfa_nodes d) as [|node l IH]; intros j F; [destruct F|]. cbn [automaton_cases_from] in F. apply in_app_or in F. destruct F as [F|F]; [|right; exact (IH _ F)]. left. unfold state_cases in F. apply in_app_or in F.
    destruct F as [F|F]; [destruct (Nat.eqb j 0); [destruct F as [<-|[]]; discriminate|destruct F]|]. apply in_app_or in F. destruct F as [F|F].
    - apply in_flat_map in F. destruct F as ((t, v) & _ & F). destruct (Nat.eqb t 0); [destruct F|destruct F as [<-|[]]; discriminate].
    - destruct node as [q|q]; destruct F as [<-|[]]; [|discriminate]. cbn in E. inversion E. reflexivity. }
  induction iter as [|c iter IH]; intros pos state iter' pos' r H; cbn [lexer_loop] in H.
  - destruct (get_alphabet_index al 0) as [i|]; [|discriminate]. destruct (select_case (automaton_cases d) state i) as [[|t|q|]|] eqn:E; try discriminate; [inversion H; subst; exact (S _ _ _ E)|]. destruct (get_alphabet_range al i); discriminate.
  - destruct (get_alphabet_index al c) as [i|]; [|discriminate]. destruct (select_case (automaton_cases d) state i) as [[|t|q|]|] eqn:E; try discriminate; [exact (IH _ _ _ _ _ H)|inversion H; subst; exact (S _ _ _ E)|]. destruct (get_alphabet_range al i); discriminate.
Qed.
Lemma enum_in : forall ns vs n x, rust_token_variants ns = Ok vs -> In n ns -> get_token_enum_name n = Ok x -> In x vs.
Proof.
  intros ns vs n x H N E. unfold rust_token_variants in H. destruct (res_list (map get_token_enum_name ns)) as [l| | |] eqn:L; try discriminate. cbn in H. inversion H; subst vs. right. revert l L H. induction ns as [|m ns IH]; intros l L H; [destruct N|]. cbn [map res_list] in L.
  destruct (get_token_enum_name m) as [y| | |] eqn:Y; cbn [bind] in L; try discriminate. destruct (res_list (map get_token_enum_name ns)) as [l'| | |]; cbn [bind] in L; try discriminate. inversion L; subst l. destruct N as [->|N]; [left; congruence|right]. exact (IH N l' eq_refl eq_refl).
Qed.
Lemma calls_done : forall al d F vs, lexer_does al d F -> (forall r x, In (Accepting r) (dfa_nodes d) -> get_token_enum_name (tr_name r) = Ok x -> In x vs) -> In "EndOfFile" vs ->
  forall n lx rs, lexer_run al d n lx = Ok rs -> exists l, next_calls F (lexer_value lx) l /\ Forall2 (same_call vs) rs l.
Proof.
  intros al d F vs (_ & N & _) D0 D1. induction n as [|n IH]; intros lx rs H; cbn [lexer_run] in H; [inversion H; exists []; split; constructor|].
  specialize (N lx). unfold lexer_next in N, H. destruct (lexer_loop al (automaton_cases d) (lx_iter lx) (lx_position lx) 0) as [((iter, pos), r)| | |] eqn:LL; cbn [bind] in N, H; try discriminate. destruct N as (v & R & C).
  destruct (lexer_run al d n _) as [rest| | |] eqn:E; cbn [bind] in H; try discriminate. inversion H; subst rs. destruct (IH _ _ E) as (l & A & B). exists ((lexer_value (mkLexer (lx_src lx) iter (lx_position lx) pos), v) :: l). split; [econstructor; [exact C|exact A]|]. constructor; [|exact B].
  split; [reflexivity|]. split; [exact R|]. cbn [snd]. intros s V. subst v. destruct r as [[|r]|e]; cbn in R.
  - destruct R as (w & -> & W). inversion W. subst s. exact D1.
  - destruct R as (w & (x & X & ->) & W). inversion W; subst s. exact (D0 r x (loop_accepts _ _ _ _ _ _ _ _ LL) X).
  - discriminate.
Qed.
Lemma generated_rust_lexer_text_proof : forall fuel rules al d, valid_rules rules -> no_empty_sequence rules -> generate_lexer fuel rules = Ok (al, d) -> (forall r, In r rules -> spelled (tr_name r) /\ ~ empty_segment (tr_name r)) ->
  exists file tokens vs F, lexer_rs al d = Ok file /\ tokens_rs (map tr_name rules) = Ok tokens /\ enum_of "TokenType" tokens = Some vs /\ types_declared file lexer_types /\ functions_in file F /\
  forall src n, Forall valid_char src -> exists rs l, lexer_run al d n (lexer_new src) = Ok rs /\ List.length rs = n /\ next_calls F (lexer_value (lexer_new src)) l /\ Forall2 (same_call vs) rs l.
Proof.
  intros fuel rules al d V NE G H. assert (K : forall r, In (Accepting r) (dfa_nodes d) -> In r rules) by (intros r X; exact (accepting_rules _ _ _ _ _ V NE G X)).
  assert (N : forall node, In node (dfa_nodes d) -> named_node node).
  { intros [r|r] X; [|exact I]. destruct (H r (K r X)) as [A B]. split; [exact A|]. destruct (enum_cases _ A) as (P & [E|E]); [eexists; exact E|]. destruct (B (proj1 P E)). }
  destruct (rust_lexer_text_exact_proof al d N) as (file & W & T & F & FI & _ & D).
  destruct (rust_tokens_text_exact_proof (map tr_name rules)) as (_ & TX); [intros n X; apply in_map_iff in X; destruct X as (r & <- & R); exact (proj1 (H r R))|].
  destruct TX as (tokens & vs & TW & TV & TE & _); [intros n X; apply in_map_iff in X; destruct X as (r & <- & R); exact (proj2 (H r R))|].
  exists file, tokens, vs, F. split; [exact W|]. split; [exact TW|]. split; [exact TE|]. split; [exact T|]. split; [exact FI|]. intros src n Hs. destruct (spans_ok _ _ _ _ V NE G src n Hs) as (rs & texts & R & L & _).
  destruct (calls_done al d F vs D) with (n := n) (lx := lexer_new src) (rs := rs) as (l & A & B).
  - intros r x X Y. apply (enum_in _ _ (tr_name r) x TV); [apply in_map; exact (K r X)|exact Y].
  - unfold rust_token_variants in TV. destruct (res_list (map get_token_enum_name (map tr_name rules))); try discriminate. cbn in TV. inversion TV. left. reflexivity.
  - exact R.
  - exists rs, l. auto.
Qed.
