(** Proofs about the texts of the decoder and the constructor of emitted C++ lexers. *)
From Coq Require Import String List Arith NArith ZArith Bool Lia.
From Verif Require Import Base InputModel LexerModel CppLexerModel CppLexerSpec CppLexerProof TemplateModel TemplateFiles CppTextModel CppTextSpec CppTextProof CppBitsSpec CppLexTextSpec CppLexTextProof CppClassSpec.
From Verif Require CppBitsProof.
Import ListNotations.
Local Open Scope string_scope.
Local Open Scope list_scope.

Lemma decoder_exact : forall debug al d, (forall node, In node (dfa_nodes d) -> writable_node debug node) ->
  exists body, has_steps (lexer_cpp_text debug al d) (chars "void utf8_decode(std::istream &in, uint32_t *c, int *e)") body /\
  forall bytes ch err, Forall is_byte bytes ->
  exists m c e rest, steps (decode_memory bytes ch err) body = Some m /\
    find_name "in" m = Some (OStream rest) /\ find_name "*c" m = Some (OArray U32 [Z.of_N c]) /\ find_name "*e" m = Some (OArray I32 [Z.of_N e]) /\
    (e <> 0%N <-> malformed bytes) /\
    (e = 0%N -> (bytes = [] /\ c = 0%N /\ rest = []) \/ exists bs, utf8 c bs /\ bytes = bs ++ rest).
Proof.
  intros debug al d W. exists CppBitsProof.decode_steps. split; [exact (CppBitsProof.decode_text debug al d W)|]. intros bytes ch err F. destruct (utf8_decode bytes) as [[c e] rest] eqn:D.
  destruct (CppBitsProof.decode_runs bytes ch err c e rest F D) as (s0 & s1 & s2 & s3 & len & R). eexists. exists c, e, rest. split; [exact R|]. split; [reflexivity|]. split; [reflexivity|]. split; [reflexivity|].
  split; [exact (decode_error_iff bytes F c e rest D)|]. intros ->. exact (decode_sound bytes c rest F D).
Qed.

Definition lexer_h_tokens : list tok := Eval vm_compute in match tokens lexer_h with Some l => l | None => [] end.
Definition new_tokens : list tok := Eval vm_compute in match tokens (chars "Lexer::Lexer(std::istream &in)") with Some l => l | None => [] end.
Definition new_rest : list tok := Eval vm_compute in match behind (new_tokens ++ [Mark Colon]) front_tokens with Some l => l | None => [] end.
Definition new_inits : list (string * expr) := Eval vm_compute in match parse_initialisers 30 new_rest with Some l => l | None => [] end.
Lemma constructor_text : forall debug al d P bytes, (forall node, In node (dfa_nodes d) -> writable_node debug node) ->
  constructs P lexer_h (lexer_cpp_text debug al d) (chars "Lexer::Lexer(std::istream &in)") "Lexer" (mkStore [("in", VStream bytes)] []) (members (lexer_object (cpp_new bytes))).
Proof.
  intros debug al d P bytes W.
  exists [(None, "in_chars"); (Some "uint32_t", "ch"); (Some "int", "err"); (Some "size_t", "position"); (Some "size_t", "start_pos"); (Some "size_t", "end_pos")], new_inits. split; [|split; [|split; [|split; [|split]]]].
  - exists lexer_h_tokens. eexists. split; [vm_compute; reflexivity|]. split; [vm_compute; reflexivity|]. reflexivity.
  - eexists. exists new_tokens. eexists. split; [apply lexer_tokens; exact W|]. split; [vm_compute; reflexivity|]. split; [apply behind_app with (r := new_rest); vm_compute; reflexivity|].
    exists 30. intros fuel L. replace fuel with (30 + (fuel - 30)) by lia. generalize (fuel - 30). intros n. reflexivity.
  - repeat constructor; cbn; intuition discriminate.
  - repeat constructor; cbn; intuition discriminate.
  - intros x I. cbn in *. tauto.
  - reflexivity.
Qed.
Lemma initialises_once : forall t h l l', initialises t h l -> initialises t h l' -> l = l'.
Proof.
  intros t h l l' (ts & hs & r & T & H & B & n & F) (ts' & hs' & r' & T' & H' & B' & n' & F'). rewrite T in T'. injection T' as <-. rewrite H in H'. injection H' as <-. rewrite B in B'. injection B' as <-.
  pose proof (F (n + n') ltac:(lia)). pose proof (F' (n + n') ltac:(lia)). congruence.
Qed.
Lemma constructs_once : forall P a b h c st v v', constructs P a b h c st v -> constructs P a b h c st v' -> v = v'.
Proof.
  intros P a b h c st v v' (ms & inits & (ts & r & T & B & M) & I & _ & _ & _ & E) (ms' & inits' & (ts' & r' & T' & B' & M') & I' & _ & _ & _ & E'). rewrite T in T'. injection T' as <-. rewrite B in B'. injection B' as <-.
  rewrite M in M'. injection M' as <-. rewrite (initialises_once _ _ _ _ I I') in E. congruence.
Qed.
Lemma constructor_new : forall debug al d P bytes, (forall node, In node (dfa_nodes d) -> writable_node debug node) ->
  constructs P lexer_h (lexer_cpp_text debug al d) (chars "Lexer::Lexer(std::istream &in)") "Lexer" (mkStore [("in", VStream bytes)] []) (members (lexer_object (cpp_new bytes))) /\
  forall values, constructs P lexer_h (lexer_cpp_text debug al d) (chars "Lexer::Lexer(std::istream &in)") "Lexer" (mkStore [("in", VStream bytes)] []) values -> values = members (lexer_object (cpp_new bytes)).
Proof.
  intros debug al d P bytes W. pose proof (constructor_text debug al d P bytes W) as C. split; [exact C|]. intros values D. exact (constructs_once _ _ _ _ _ _ _ _ D C).
Qed.
