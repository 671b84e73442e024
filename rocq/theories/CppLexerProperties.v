(** Property theorems for the emitted C++ lexer (C29, C39). *)
From Coq Require Import String List Arith NArith Lia.
From Verif Require Import Base InputModel LexerModel LexerSpec LexerFactsProof LexerExample CppLexerModel CppLexerSpec CppLexerProof.
Import ListNotations.
Local Open Scope N_scope.
Local Open Scope list_scope.

(** C29.  Every Unicode scalar value has exactly one encoding, and nothing else has one. *)
Theorem utf8_encodings : forall c, (scalar c -> exists! bs, utf8 c bs) /\ forall bs, utf8 c bs -> scalar c /\ Forall is_byte bs /\ N.of_nat (length bs) = len_utf8 c.
Proof. exact encodings_exist. Qed.
(** The euro sign. *)
Example utf8_encodings_case : scalar 0x20AC /\ utf8 0x20AC [0xE2; 0x82; 0xAC].
Proof. split; [left; reflexivity|]. apply (utf8_3 2 2 44); try reflexivity; [discriminate|left; reflexivity]. Qed.
Print Assumptions utf8_encodings.

(** C29.  The decoder returns the character whose encoding comes first, without error flags, and reads just this encoding. *)
Theorem utf8_decoder_complete : forall c bs rest, utf8 c bs -> Forall is_byte rest -> utf8_decode (bs ++ rest) = (c, 0, rest).
Proof. exact decode_complete. Qed.
Example utf8_decoder_complete_case : utf8 0x10FFFF [0xF4; 0x8F; 0xBF; 0xBF] /\ utf8_decode [0xF4; 0x8F; 0xBF; 0xBF; 65] = (0x10FFFF, 0, [65]).
Proof. split; [|reflexivity]. apply (utf8_4 4 15 63 63); try reflexivity. split; discriminate. Qed.
Print Assumptions utf8_decoder_complete.

(** C29.  If it returns without error flags, the bytes read are the encoding of the returned character, or the stream was at its end. *)
Theorem utf8_decoder_sound : forall bytes c rest, Forall is_byte bytes -> utf8_decode bytes = (c, 0, rest) ->
  (bytes = [] /\ c = 0 /\ rest = []) \/ exists bs, utf8 c bs /\ bytes = bs ++ rest.
Proof. exact decode_sound. Qed.
Example utf8_decoder_sound_case : Forall is_byte [0xC3; 0xA9; 0x21] /\ utf8_decode [0xC3; 0xA9; 0x21] = (233, 0, [0x21]) /\ utf8_decode [] = (0, 0, []).
Proof. split; [repeat constructor|]. split; reflexivity. Qed.
Print Assumptions utf8_decoder_sound.

(** C29.  It sets error flags exactly if the bytes do not begin with an encoding. *)
Theorem utf8_decoder_errors : forall bytes, Forall is_byte bytes -> forall c e rest, utf8_decode bytes = (c, e, rest) -> (e <> 0 <-> malformed bytes).
Proof. exact decode_error_iff. Qed.
(** An overlong encoding of the slash, a surrogate, a truncated euro sign, a value above 0x10FFFF, a stray continuation byte. *)
Example utf8_decoder_errors_case : map (fun bs => snd (fst (utf8_decode bs)) =? 0) [[0xC0; 0xAF]; [0xED; 0xA0; 0x80]; [0xE2; 0x82]; [0xF4; 0x90; 0x80; 0x80]; [0x80]] = [false; false; false; false; false].
Proof. reflexivity. Qed.
Print Assumptions utf8_decoder_errors.

(** C39.  On the encoding of any text, followed by any malformed bytes, the C++ lexer returns call by call what the Rust lexer
    returns on the text, until the Rust lexer is at the end of the text; from there on it returns errors if there are malformed bytes. *)
Theorem cpp_lexer_agrees : forall fuel rules al d, valid_rules rules -> no_empty_sequence rules -> generate_lexer fuel rules = Ok (al, d) ->
  forall text bytes junk, utf8_text text bytes -> Forall is_byte junk -> junk = [] \/ malformed junk -> forall n,
  exists rs cs, lexer_run al d n (lexer_new text) = Ok rs /\ cpp_run al d n (cpp_new (bytes ++ junk)) = Ok cs /\ Forall2 (agree text junk) rs cs.
Proof. exact lexers_agree. Qed.
Example cpp_lexer_agrees_case : utf8_text ex_text ex_text /\ malformed [0xFF] /\ exists al d cs, ex_lexer = Ok (al, d) /\ cpp_run al d 6 (cpp_new ex_text) = Ok cs /\
  map (fun x => (snd x, cl_start (fst x), cl_end (fst x))) cs =
    [("TK_IF", 0, 2); ("TK_WS", 2, 3); ("TK_ID", 3, 5); ("TK_WS", 5, 6); ("TK_NUM", 6, 9); ("TK_EOF", 9, 9)]%nat%string.
Proof.
  split; [repeat apply (utf8_cons _ [_]); constructor; reflexivity|]. split; [apply (decode_error_iff [0xFF] ltac:(repeat constructor) _ _ _ eq_refl); discriminate|].
  eexists. eexists. eexists. split; [reflexivity|]. split; vm_compute; reflexivity.
Qed.
Print Assumptions cpp_lexer_agrees.
(** Quoted accented letters: characters in the C++ lexer, bytes in the Rust lexer. *)
Example cpp_lexer_agrees_case2 : utf8_text [34; 233; 34] [34; 0xC3; 0xA9; 34] /\ exists al d rs cs, generate_lexer 100 quoted_rules = Ok (al, d) /\
  lexer_run al d 2 (lexer_new [34; 233; 34]) = Ok rs /\ cpp_run al d 2 (cpp_new [34; 0xC3; 0xA9; 34]) = Ok cs /\
  map (fun x => lexer_span (fst x)) rs = [(0, 4); (4, 4)] /\ map (fun x => (snd x, cl_start (fst x), cl_end (fst x))) cs = [("TK_QUOTED", 0, 3); ("TK_EOF", 3, 3)]%nat%string.
Proof.
  split; [apply (utf8_cons _ [_]); [constructor; reflexivity|]; apply (utf8_cons 233 [_; _]); [apply (utf8_2 3 41); try reflexivity; discriminate|]; apply (utf8_cons _ [_]); constructor; reflexivity|].
  eexists. eexists. eexists. eexists. split; [vm_compute; reflexivity|]. split; [vm_compute; reflexivity|]. split; vm_compute; [reflexivity|]. split; reflexivity.
Qed.

(** C39.  A token directly in front of malformed bytes is lost: the Rust lexer returns it for the text without them. *)
Theorem cpp_token_before_malformed_refuted : exists fuel rules al d text junk rs cs t, valid_rules rules /\ no_empty_sequence rules /\ generate_lexer fuel rules = Ok (al, d) /\
  utf8_text text text /\ malformed junk /\ lexer_run al d 1 (lexer_new text) = Ok rs /\ map snd rs = [inl (Tk t)] /\
  cpp_run al d 3 (cpp_new (text ++ junk)) = Ok cs /\ map snd cs = [tk_err; tk_err; tk_err].
Proof.
  exists 100%nat, ex_rules. eexists. eexists. exists [105; 102], [0xFF]. eexists. eexists. eexists. split; [apply valid_rulesb_ok; vm_compute; reflexivity|].
  split; [apply no_empty_sequenceb_ok; vm_compute; reflexivity|]. split; [vm_compute; reflexivity|]. split; [repeat apply (utf8_cons _ [_]); constructor; reflexivity|].
  split; [apply (decode_error_iff [0xFF] ltac:(repeat constructor) _ _ _ eq_refl); discriminate|]. split; [vm_compute; reflexivity|]. split; [reflexivity|]. split; [vm_compute; reflexivity|reflexivity].
Qed.
Print Assumptions cpp_token_before_malformed_refuted.

(** C39.  [end] keeps its value at an error or at the end of the input, and may then lie in front of [start]. *)
Theorem cpp_end_in_order_refuted : exists fuel rules al d text cs cl tk, valid_rules rules /\ no_empty_sequence rules /\ generate_lexer fuel rules = Ok (al, d) /\
  utf8_text text text /\ cpp_run al d 2 (cpp_new text) = Ok cs /\ In (cl, tk) cs /\ (cl_end cl < cl_start cl)%nat.
Proof.
  exists 100%nat, ex_rules. eexists. eexists. exists [50; 46]. eexists. eexists. eexists. split; [apply valid_rulesb_ok; vm_compute; reflexivity|].
  split; [apply no_empty_sequenceb_ok; vm_compute; reflexivity|]. split; [vm_compute; reflexivity|]. split; [repeat apply (utf8_cons _ [_]); constructor; reflexivity|].
  split; [vm_compute; reflexivity|]. split; [right; left; reflexivity|]. vm_compute. lia.
Qed.
Print Assumptions cpp_end_in_order_refuted.

(** C39.  The enumerators of [TokenType] are distinct exactly if the names are, and none is ERR or EOF; [get_token_name] is then right. *)
Theorem cpp_token_enumerators : forall names, NoDup (enumerators names) <-> NoDup names /\ ~ In "ERR"%string names /\ ~ In "EOF"%string names.
Proof. exact enumerators_distinct. Qed.
Example cpp_token_enumerators_case : enumerators ["IF"; "ID"]%string = ["TK_ERR"; "TK_EOF"; "TK_IF"; "TK_ID"]%string.
Proof. reflexivity. Qed.
Print Assumptions cpp_token_enumerators.
Theorem cpp_token_names : forall names, NoDup (enumerators names) ->
  get_token_name names tk_err = Some "<ERR>"%string /\ get_token_name names tk_eof = Some "<EOF>"%string /\
  forall name, In name names -> get_token_name names (enumerator name) = Some name.
Proof. exact token_names_ok. Qed.
Example cpp_token_names_case : NoDup (enumerators ["IF"; "ID"]%string) /\ get_token_name ["IF"; "ID"]%string "TK_ID"%string = Some "ID"%string.
Proof. split; [|reflexivity]. apply enumerators_distinct. split; [|split; intros H; repeat destruct H as [H|H]; try discriminate; destruct H]. repeat constructor; intros H; repeat destruct H as [H|H]; try discriminate; destruct H. Qed.
Print Assumptions cpp_token_names.
(** C39.  A token rule named EOF is accepted by the generator, and the emitted enumeration has the same enumerator twice. *)
Theorem cpp_token_enumerators_refuted : exists names, NoDup names /\ ~ NoDup (enumerators names).
Proof. exists ["EOF"%string]. split; [repeat constructor; intros []|]. intros H. apply enumerators_distinct in H. destruct H as (_ & _ & H). apply H. left. reflexivity. Qed.
Print Assumptions cpp_token_enumerators_refuted.
