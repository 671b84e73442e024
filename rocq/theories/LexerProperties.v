(** Property theorems of the lexer generator and of the generated Rust lexer: C01-C10. *)
From Coq Require Import String List Arith NArith Bool Lia.
From Verif Require Import Base InputModel LexerModel LexerSpec GraphProof AlphabetProof NfaProof NfaLang
  PowersetProof ConvertProof PrecedenceProof LexerProof LexerRunProof LexerFactsProof LexerExample.
Import ListNotations.
Open Scope nat_scope.

(** C01.  [generate_alphabet] partitions 0..=0x10FFFF into adjacent ranges, the first being NUL alone;
    every written character is a range of its own; [find_range] finds the range of every character. *)
Theorem alphabet_partition : forall rules, valid_rules rules -> exists al, generate_alphabet rules = Ok al /\
  (forall c, valid_char c -> exists! i, exists s e, nth_error al i = Some (s, e) /\ (s <= c <= e)%N) /\
  (forall i s e, nth_error al i = Some (s, e) -> (s <= e <= CHAR_MAX)%N) /\
  (forall i s e s' e', nth_error al i = Some (s, e) -> nth_error al (S i) = Some (s', e') -> s' = (e + 1)%N) /\
  nth_error al 0 = Some (0, 0)%N /\
  (forall r c, In r rules -> mentions c (rule_pattern r) -> In (c, c) al) /\
  (forall c, valid_char c -> exists i s e, find_range al c = Ok (Some i) /\ nth_error al i = Some (s, e) /\ (s <= c <= e)%N).
Proof. exact alphabet_ok. Qed.
Example alphabet_partition_case : valid_rules ex_rules /\ (exists al, generate_alphabet ex_rules = Ok al /\ length al = 23).
Proof. split; [apply valid_rulesb_ok; vm_compute; reflexivity|]. eexists. split; vm_compute; reflexivity. Qed.
Print Assumptions alphabet_partition.

(** C01.  Texts that differ only by characters of the same range are matched by the same rules. *)
Theorem alphabet_classes : forall rules al, valid_rules rules -> generate_alphabet rules = Ok al ->
  forall w w', Forall2 (fun c c' => exists s e, In (s, e) al /\ (s <= c <= e)%N /\ (s <= c' <= e)%N) w w' ->
  forall r, In r rules -> (rule_matches r w <-> rule_matches r w').
Proof. exact class_equiv. Qed.
Example alphabet_classes_case : exists al, generate_alphabet ex_rules = Ok al /\
  Forall2 (fun c c' => exists s e, In (s, e) al /\ (s <= c <= e)%N /\ (s <= c' <= e)%N) [107; 50]%N [116; 56]%N.
Proof.
  eexists. split; [vm_compute; reflexivity|].
  constructor; [exists 106%N, 121%N; split; [simpl; tauto|lia]|].
  constructor; [exists 49%N, 56%N; split; [simpl; tauto|lia]|]. constructor.
Qed.
Print Assumptions alphabet_classes.

(** C02.  The NFA has one accepting state per rule, and a text leads from the entry to the accepting state
    of a rule iff it matches the pattern of the rule ([norm]: an empty sequence matches nothing). *)
Theorem nfa_language : forall rules al start g, valid_rules rules -> generate_alphabet rules = Ok al ->
  generate_nfa al rules = Ok (start, g) ->
  exists accs, length accs = length rules /\
  (forall x a, nth_error (nfa_nodes g) x = Some (Accepting a) <-> exists i, nth_error accs i = Some x /\ nth_error rules i = Some a) /\
  (forall i x r, nth_error accs i = Some x -> nth_error rules i = Some r ->
     forall w ws, Forall valid_char w -> Forall2 (fun c i => find_range al c = Ok (Some i)) w ws ->
     (path (nfa_edges g) start ws x <-> matches (norm (rule_pattern r)) w)).
Proof. exact nfa_ok. Qed.
Example nfa_language_case : valid_rules ex_rules /\ exists al start g, generate_alphabet ex_rules = Ok al /\
  generate_nfa al ex_rules = Ok (start, g) /\ Forall2 (fun c i => find_range al c = Ok (Some i)) [105; 102]%N [18; 16].
Proof.
  split; [apply valid_rulesb_ok; vm_compute; reflexivity|].
  eexists. eexists. eexists. split; [vm_compute; reflexivity|]. split; [vm_compute; reflexivity|].
  repeat (constructor; try (vm_compute; reflexivity)).
Qed.
Print Assumptions nfa_language.

(** C02.  Without empty sequences, [norm] changes nothing; with one, as in the empty literal, the
    rule matches nothing although its pattern denotes the empty text. *)
Theorem norm_identity : forall p, (forall q, subpattern q p -> q <> PSeq []) -> norm p = p.
Proof. exact norm_id. Qed.
Example norm_identity_case : norm (rule_pattern ex_num) = rule_pattern ex_num.
Proof. reflexivity. Qed.
Print Assumptions norm_identity.

Theorem empty_literal_refuted : exists r, rule_matches r [] /\ forall w, ~ matches (norm (rule_pattern r)) w.
Proof. exists (mkTokenRule "E" None (TLiteral [])). split; [reflexivity|]. intros w H. exact H. Qed.
Print Assumptions empty_literal_refuted.

(** C03.  Generation of the NFA panics exactly if there is a bounded repetition with max <= min. *)
Theorem nfa_panics_iff : forall rules al, valid_rules rules -> generate_alphabet rules = Ok al ->
  (Exists (fun r => bad_repetition (rule_pattern r)) rules <-> generate_nfa al rules = Panic) /\
  (~ Exists (fun r => bad_repetition (rule_pattern r)) rules <-> exists start g, generate_nfa al rules = Ok (start, g)).
Proof. exact nfa_panics. Qed.
(** [/a{3}/] is a regular expression with matches, and it crashes the generator. *)
Example nfa_panics_iff_case : let rules := [mkTokenRule "A3" None (TPattern (PRep 3%N (Some 3%N) (PChar (Single 97%N))))] in
  valid_rules rules /\ Exists (fun r => bad_repetition (rule_pattern r)) rules /\ matched rules [97; 97; 97]%N /\
  exists al, generate_alphabet rules = Ok al /\ generate_nfa al rules = Panic.
Proof.
  split; [apply valid_rulesb_ok; vm_compute; reflexivity|]. split.
  { left. exists 3%N, 3%N, (PChar (Single 97%N)). split; [constructor|lia]. }
  split.
  { eexists. split; [left; reflexivity|]. exists 3. split; [simpl; lia|]. split; [simpl; lia|]. cbn [lpow].
    repeat (exists [97%N]; eexists; split; [reflexivity|split; [exists 97%N; split; reflexivity|]]). reflexivity. }
  eexists. split; vm_compute; reflexivity.
Qed.
Print Assumptions nfa_panics_iff.

(** C04.  Powerset construction terminates; its result is deterministic, follows exactly the words the
    NFA can follow, and labels the state reached by a word with the labels of all accepting NFA states
    reached by it, in order of the states. *)
Theorem powerset_exact : forall A (g : nfa A) entry,
  (forall u l v, In (u, l, v) (nfa_edges g) -> u < length (nfa_nodes g) /\ v < length (nfa_nodes g)) ->
  entry < length (nfa_nodes g) ->
  exists d fuel0, (forall fuel, fuel0 <= fuel -> powerset_construction fuel g entry = Ok d) /\
  deterministic (dfa_edges d) /\
  (forall w, (exists k, run (dfa_edges d) 0 w k) <-> exists x, path (nfa_edges g) entry w x) /\
  (forall w k, run (dfa_edges d) 0 w k -> exists c ls s,
     sorted c /\ (forall x, In x c <-> path (nfa_edges g) entry w x) /\ labels_along (nfa_label g) c ls /\
     nth_error (dfa_nodes d) k = Some s /\
     match ls with [] => exists m, s = Intermediate m | _ => s = Accepting ls end).
Proof. exact powerset_ok. Qed.
(** An NFA with a silent cycle and two labels on one word. *)
Example powerset_exact_case :
  let g := mkNfa [Intermediate 0; Intermediate 1; Accepting 7; Accepting 8]
                 [(0, None, 1); (1, None, 0); (0, Some 5, 2); (1, Some 5, 3); (2, Some 5, 2)] 2 in
  powerset_construction 50 g 0 = Ok (mkDfa [Intermediate 0; Accepting [7; 8]; Accepting [7]] [(0, 5, 1); (1, 5, 2); (2, 5, 2)] 1).
Proof. vm_compute. reflexivity. Qed.
Print Assumptions powerset_exact.

(** C05.  Relabelling keeps states and transitions and picks the rule of strictly highest precedence. *)
Theorem precedence_relabels : forall old d,
  (forall j t v, In (j, t, v) (dfa_edges old) -> j < length (dfa_nodes old) /\ v < length (dfa_nodes old)) ->
  apply_precedence_to_dfa old = Ok d ->
  Forall2 (fun s s' => match s with
             | Accepting sel => exists r, s' = Accepting r /\ best_of sel r
             | Intermediate _ => exists m, s' = Intermediate m
             end) (dfa_nodes old) (dfa_nodes d) /\
  (forall j t v, In (j, t, v) (dfa_edges d) <-> In (j, t, v) (dfa_edges old)).
Proof. exact precedence_ok. Qed.
Example precedence_relabels_case :
  apply_precedence_to_dfa (mkDfa [Intermediate 0; Accepting [ex_id; ex_if]] [(0, 5, 1); (1, 5, 0)] 1) =
  Ok (mkDfa [Intermediate 0; Accepting ex_if] [(1, 5, 0); (0, 5, 1)] 1).
Proof. vm_compute. reflexivity. Qed.
Print Assumptions precedence_relabels.

(** C05.  Lexer generation terminates.  It fails exactly if the highest precedence among the rules
    matching some text is shared, and then names the rules sharing it; otherwise every state of the
    automaton is labelled with the best rule for every text leading there. *)
Theorem generation_exact : forall rules, valid_rules rules -> no_empty_sequence rules ->
  (forall r, In r rules -> ~ bad_repetition (rule_pattern r)) ->
  (forall r, In r rules -> exists n, has_precedence r n) ->
  exists res fuel0, (forall fuel, fuel0 <= fuel -> generate_lexer fuel rules = res) /\
  match res with
  | Ok (al, d) => (forall u h tied, Forall valid_char u -> ~ tie rules u h tied) /\
      (forall u ws k, Forall valid_char u -> Forall2 (fun c i => find_range al c = Ok (Some i)) u ws -> run (dfa_edges d) 0 ws k ->
         (exists m, nth_error (dfa_nodes d) k = Some (Intermediate m) /\ ~ matched rules u) \/
         (exists r, nth_error (dfa_nodes d) k = Some (Accepting r) /\ best_rule rules u r))
  | Err e => exists u h tied, Forall valid_char u /\ tie rules u h tied /\ e = PrecedenceError tied h
  | _ => False
  end.
Proof. exact generation_ok. Qed.
Example generation_exact_case : valid_rules ex_rules /\ no_empty_sequence ex_rules /\
  (forall r, In r ex_rules -> ~ bad_repetition (rule_pattern r)) /\
  (forall r, In r ex_rules -> exists n, has_precedence r n) /\
  generate_lexer 100 [ex_a; ex_b; mkTokenRule "A2" (Some 2%N) (TPattern (PAlt [PChar (Single 97%N); PChar (Single 99%N)]))] =
    Err (PrecedenceError [ex_a; mkTokenRule "A2" (Some 2%N) (TPattern (PAlt [PChar (Single 97%N); PChar (Single 99%N)]))] 2).
Proof.
  split; [apply valid_rulesb_ok; vm_compute; reflexivity|]. split; [apply no_empty_sequenceb_ok; vm_compute; reflexivity|].
  split; [apply good_repb_ok; vm_compute; reflexivity|]. split; [|vm_compute; reflexivity].
  intros r Hr. assert (X : exists n, @rule_precedence lex_err r = Ok n).
  { simpl in Hr. destruct Hr as [<-|[<-|[<-|[<-|[]]]]]; eexists; vm_compute; reflexivity. }
  destruct X as [n Hn]. exists n. eapply prec_iff; eauto.
Qed.
Print Assumptions generation_exact.

(** C06.  One call of [next]: it consumes the longest NUL-free prefix [w] of the remaining input that can
    still be extended to a match, and the result is determined by [w] and the next character. *)
Theorem next_exact : forall fuel rules al d, valid_rules rules -> proper_rules rules -> generate_lexer fuel rules = Ok (al, d) ->
  forall lx, Forall valid_char (lx_iter lx) ->
  exists w rest r, lexer_next al d lx = Ok (mkLexer (lx_src lx) rest (lx_position lx) (lx_position lx + byte_len w)%N, r) /\
    lx_iter lx = w ++ rest /\ ~ In 0%N w /\
    (w = [] \/ viable rules w) /\
    (at_end rest \/ ~ viable rules (w ++ [head_char rest])) /\
    match r with
    | inl EndOfFile => w = [] /\ at_end rest
    | inl (Tk t) => best_rule rules w t /\ ~ (w = [] /\ at_end rest)
    | inr (InvalidChar _) => False
    | inr (UnexpectedAlphabet (a, b)) => ~ matched rules w /\ ~ (w = [] /\ at_end rest) /\
        (a <= head_char rest <= b)%N /\ In (a, b) al
    end.
Proof. exact next_proper. Qed.
Example next_exact_case : valid_rules ex_rules /\ proper_rules ex_rules /\ generate_lexer 100 ex_rules = ex_lexer /\
  exists al d, ex_lexer = Ok (al, d) /\
  lexer_next al d (mkLexer ex_text [120; 49; 32; 50]%N 2 3) = Ok (mkLexer ex_text [32; 50]%N 3 5, inl (Tk ex_id)).
Proof.
  split; [apply valid_rulesb_ok; vm_compute; reflexivity|].
  split; [apply simple_proper; vm_compute; reflexivity|]. split; [vm_compute; reflexivity|].
  eexists. eexists. split; [reflexivity|]. vm_compute. reflexivity.
Qed.
Print Assumptions next_exact.

(** C07.  A returned token is the longest match, of the best rule. *)
Theorem next_longest : forall fuel rules al d, valid_rules rules -> no_empty_sequence rules -> generate_lexer fuel rules = Ok (al, d) ->
  forall lx lx' t, Forall valid_char (lx_iter lx) -> lexer_next al d lx = Ok (lx', inl (Tk t)) ->
  exists w, lx_iter lx = w ++ lx_iter lx' /\ best_rule rules w t /\
  forall w' rest', lx_iter lx = w' ++ rest' -> ~ In 0%N w' -> matched rules w' -> length w' <= length w.
Proof. exact next_longest_ok. Qed.
Example next_longest_case : no_empty_sequence munch_rules /\ exists al d, generate_lexer 100 munch_rules = Ok (al, d) /\
  lexer_next al d (lexer_new [97; 98; 99; 97]%N) = Ok (mkLexer [97; 98; 99; 97]%N [97]%N 0 3, inl (Tk ex_abc)).
Proof.
  split; [apply no_empty_sequenceb_ok; vm_compute; reflexivity|].
  eexists. eexists. split; [vm_compute; reflexivity|]. vm_compute. reflexivity.
Qed.
Print Assumptions next_longest.

(** C07.  No maximal munch: a prefix ("a") matches, yet [next] fails. *)
Theorem maximal_munch_refuted : exists rules al d lx, generate_lexer 100 rules = Ok (al, d) /\
  valid_rules rules /\ proper_rules rules /\ Forall valid_char (lx_iter lx) /\ ~ In 0%N (lx_iter lx) /\
  (exists w rest, lx_iter lx = w ++ rest /\ w <> [] /\ matched rules w) /\
  exists lx' e, lexer_next al d lx = Ok (lx', inr e).
Proof.
  exists munch_rules. eexists. eexists. exists (lexer_new [97; 98]%N). split; [vm_compute; reflexivity|].
  split; [apply valid_rulesb_ok; vm_compute; reflexivity|]. split; [apply simple_proper; vm_compute; reflexivity|].
  split; [repeat constructor; unfold valid_char, CHAR_MAX; lia|]. split; [simpl; intuition lia|]. split.
  - exists [97%N], [98%N]. split; auto. split; [discriminate|]. exists ex_a. split; [simpl; auto|].
    exists [97%N], []. split; auto. split; [exists 97%N; split; reflexivity|reflexivity].
  - eexists. eexists. vm_compute. reflexivity.
Qed.
Print Assumptions maximal_munch_refuted.

(** C08.  Any number of calls on a fresh lexer succeeds without panic; there are texts, one per call, such
    that the slice after call [i] is text [i], its span lies between the byte lengths of the concatenations
    of the first [i] and the first [i+1] texts, and these texts followed by the remaining input are the
    source; at [EndOfFile] only NUL or nothing remains. *)
Theorem spans_tile : forall fuel rules al d, valid_rules rules -> no_empty_sequence rules -> generate_lexer fuel rules = Ok (al, d) ->
  forall src n, Forall valid_char src ->
  exists rs texts, lexer_run al d n (lexer_new src) = Ok rs /\ length rs = n /\ length texts = n /\
  forall i lx' r, nth_error rs i = Some (lx', r) ->
    exists w, nth_error texts i = Some w /\ lexer_slice lx' = Ok w /\
    lexer_span lx' = (byte_len (concat (firstn i texts)), byte_len (concat (firstn (S i) texts))) /\
    src = concat (firstn (S i) texts) ++ lx_iter lx' /\
    (r = inl EndOfFile -> w = [] /\ at_end (lx_iter lx')) /\
    (r = inl EndOfFile -> ~ In 0%N src -> concat (firstn (S i) texts) = src).
Proof. exact spans_ok. Qed.
Example spans_tile_case : exists al d, ex_lexer = Ok (al, d) /\ exists rs, lexer_run al d 6 (lexer_new ex_text) = Ok rs /\
  map (fun p => (lexer_span (fst p), lexer_slice (fst p))) rs =
  [((0, 2)%N, Ok [105; 102]%N); ((2, 3)%N, Ok [32]%N); ((3, 5)%N, Ok [120; 49]%N); ((5, 6)%N, Ok [32]%N);
   ((6, 9)%N, Ok [50; 46; 53]%N); ((9, 9)%N, Ok [])].
Proof. eexists. eexists. split; [reflexivity|]. eexists. split; vm_compute; reflexivity. Qed.
Print Assumptions spans_tile.

(** C09.  [EndOfFile] is returned exactly when the remaining input is empty or begins with NUL, and
    consumes nothing. *)
Theorem eof_iff : forall fuel rules al d, valid_rules rules -> no_empty_sequence rules -> generate_lexer fuel rules = Ok (al, d) ->
  forall lx, Forall valid_char (lx_iter lx) ->
  (at_end (lx_iter lx) <-> exists lx', lexer_next al d lx = Ok (lx', inl EndOfFile)) /\
  (forall lx', lexer_next al d lx = Ok (lx', inl EndOfFile) ->
     lx' = mkLexer (lx_src lx) (lx_iter lx) (lx_position lx) (lx_position lx)).
Proof. exact eof_ok. Qed.
(** A rule for NUL itself is never used: the text NUL, NUL is an end of file. *)
Example eof_iff_case : let rules := [mkTokenRule "NUL" None (TLiteral [0%N]); ex_a] in
  valid_rules rules /\ no_empty_sequence rules /\ rule_matches (mkTokenRule "NUL" None (TLiteral [0%N])) [0%N] /\
  exists al d, generate_lexer 100 rules = Ok (al, d) /\
  lexer_next al d (mkLexer [97; 0; 0; 97]%N [0; 0; 97]%N 0 1) = Ok (mkLexer [97; 0; 0; 97]%N [0; 0; 97]%N 1 1, inl EndOfFile).
Proof.
  split; [apply valid_rulesb_ok; vm_compute; reflexivity|]. split; [apply no_empty_sequenceb_ok; vm_compute; reflexivity|].
  split. { exists [0%N], []. split; auto. split; [exists 0%N; split; reflexivity|reflexivity]. }
  eexists. eexists. split; vm_compute; reflexivity.
Qed.
Print Assumptions eof_iff.

(** C09.  At the end of the input all further calls return [EndOfFile]. *)
Theorem eof_forever : forall fuel rules al d, valid_rules rules -> no_empty_sequence rules -> generate_lexer fuel rules = Ok (al, d) ->
  forall n lx, Forall valid_char (lx_iter lx) -> at_end (lx_iter lx) ->
  exists rs, lexer_run al d n lx = Ok rs /\ length rs = n /\
  forall lx' r, In (lx', r) rs -> r = inl EndOfFile /\ lx_iter lx' = lx_iter lx.
Proof. exact eof_forever_ok. Qed.
Example eof_forever_case : at_end [] /\ at_end [0; 97]%N.
Proof. split; exact I || reflexivity. Qed.
Print Assumptions eof_forever.

(** C10.  If no rule matches the empty text, every token shortens the remaining input, and the tokens of
    any input end with end of file or an error. *)
Theorem progress : forall fuel rules al d, valid_rules rules -> no_empty_sequence rules -> generate_lexer fuel rules = Ok (al, d) ->
  (forall r, In r rules -> ~ rule_matches r []) ->
  (forall lx lx' t, Forall valid_char (lx_iter lx) -> lexer_next al d lx = Ok (lx', inl (Tk t)) ->
     length (lx_iter lx') < length (lx_iter lx)) /\
  (forall src, Forall valid_char src -> exists rs lx' r, lexer_run al d (S (length src)) (lexer_new src) = Ok rs /\
     In (lx', r) rs /\ forall t, r <> inl (Tk t)).
Proof. exact progress_ok. Qed.
Example progress_case : no_empty_sequence munch_rules /\ forall r, In r munch_rules -> ~ rule_matches r [].
Proof.
  split; [apply no_empty_sequenceb_ok; vm_compute; reflexivity|].
  intros r Hr H. simpl in Hr. destruct Hr as [<-|[<-|[<-|[]]]]; destruct H as [w1 [w2 [E [[c [-> _]] _]]]]; discriminate.
Qed.
Print Assumptions progress.

(** C10.  A rule matching the empty text makes [next] return the same empty token forever. *)
Theorem empty_token_refuted : exists rules al d lx t, valid_rules rules /\ proper_rules rules /\ generate_lexer 100 rules = Ok (al, d) /\
  ~ at_end (lx_iter lx) /\ forall n, lexer_run al d n lx = Ok (repeat (lx, inl (Tk t)) n).
Proof.
  exists [ex_star]. eexists. eexists. exists (lexer_new [121%N]), ex_star.
  split; [apply valid_rulesb_ok; vm_compute; reflexivity|]. split; [apply simple_proper; vm_compute; reflexivity|].
  split; [vm_compute; reflexivity|]. split; [simpl; discriminate|]. apply stuck_forever. vm_compute. reflexivity.
Qed.
Print Assumptions empty_token_refuted.
