(** Examples for the text of grammar files. *)
From Coq Require Import String Ascii List Arith NArith Bool Lia.
From Verif Require Import Base InputModel GrammarModel LexerModel LexerSpec BootModel BootExample PositionModel PositionSpec PositionProof InputGenModel InputGenSpec InputGenLapex InputGenProof
  InputGenMeaningProof InputGenFactsProof InputGenExample InputTextSpec InputTextLexProof InputTextDivideProof InputTextFileProof InputTextLayoutProof InputTextWriteProof InputTextFactsProof.
Import ListNotations.
Local Open Scope string_scope.
Local Open Scope N_scope.
Local Open Scope list_scope.

Definition broken_at (text : list N) : bool := existsb (fun n => match skipn n text with 92 :: 10 :: _ => true | _ => false end) (seq 0 (length text)).
Lemma unbroken_ok : forall text, broken_at text = false -> unbroken text.
Proof.
  intros text H a b ->. assert (broken_at (a ++ [92; 10] ++ b) = true) as X; [|congruence]. unfold broken_at. apply existsb_exists. exists (length a). split.
  - apply in_seq. rewrite app_length. cbn [app length]. lia.
  - rewrite skipn_app, skipn_all, Nat.sub_diag. reflexivity.
Qed.
Lemma ascii_ok : forall text, forallb (fun c => c <? 128) text = true -> Forall (fun c => c < 128) text.
Proof. intros text H. apply Forall_forall. intros c I. apply N.ltb_lt. exact (proj1 (forallb_forall _ _) H _ I). Qed.

(** The file of InputGenExample.v. *)
Definition tx_source : list N := Eval vm_compute in bytes in_text.
Lemma tx_ascii : Forall (fun c => c < 128) tx_source.
Proof. apply ascii_ok. reflexivity. Qed.
Lemma tx_valid : Forall valid_char tx_source.
Proof. apply ascii_valid, tx_ascii. Qed.
Lemma tx_unbroken : unbroken tx_source.
Proof. apply unbroken_ok. reflexivity. Qed.
Lemma tx_fits : positions_fit tx_source.
Proof. apply short_fits. reflexivity. Qed.
Lemma tx_parsed : parse_lapex no_regex lapex_gen 300 tx_source = Ok in_out.
Proof. vm_compute. reflexivity. Qed.
Lemma tx_reads : reads_file no_regex tx_source in_out.
Proof. exact (text_reads _ _ _ _ _ lapex_gen_built tx_valid tx_parsed). Qed.

(** The same rules in one line with other blanks. *)
Definition tx_other : list N := Eval vm_compute in bytes "entry s ; token A [ 3 ] = ""a"" ; prod s [ top ] = A ( A | s B ) * | ( A | B ) ; token B = ""\"""";".
Definition tx_text_lexemes : list (string * list N) := Eval vm_compute in in_raw.
Definition tx_other_lexemes : list (string * list N) := Eval vm_compute in match lex_file lapex_gen 200 (lexer_new tx_other) with Ok l => l | _ => [] end.
Lemma lexed_division : forall source l, Forall valid_char source -> ~ In 0 source -> lex_file lapex_gen (S (length source)) (lexer_new source) = Ok l -> division source l.
Proof. intros source l V N E. pose proof (built_lexes lapex_gen source source lapex_gen_built V (un_all _ N) (S (length source)) (Nat.lt_succ_diag_r _)) as X. rewrite E in X. exact X. Qed.
Lemma nul_free_ok : forall source, forallb (fun c => negb (c =? 0)) source = true -> ~ In 0 source.
Proof. intros source H I. apply (proj1 (forallb_forall _ _) H) in I. discriminate. Qed.
Lemma tx_nul : ~ In 0 tx_source.
Proof. apply nul_free_ok. reflexivity. Qed.
Lemma tx_other_nul : ~ In 0 tx_other.
Proof. apply nul_free_ok. reflexivity. Qed.
Lemma tx_other_valid : Forall valid_char tx_other.
Proof. apply ascii_valid, ascii_ok. reflexivity. Qed.
Lemma tx_divided : division tx_source tx_text_lexemes.
Proof. apply lexed_division; [exact tx_valid|exact tx_nul|vm_compute; reflexivity]. Qed.
Lemma tx_other_divided : division tx_other tx_other_lexemes.
Proof. apply lexed_division; [exact tx_other_valid|exact tx_other_nul|vm_compute; reflexivity]. Qed.
Lemma tx_other_placed : exists ts, placed 1 1 tx_other_lexemes ts.
Proof.
  assert (exists p, place_tokens lapex_gen tx_other_lexemes 1 1 = Ok p) as ([ts eof] & E) by (eexists; vm_compute; reflexivity).
  pose proof (place_tokens_ok tx_other_lexemes) as X.
  assert (Forall (fun e => exists t, lexeme (fst e) t) tx_other_lexemes) as F by (eapply Forall_impl; [|exact (division_lexemes _ _ tx_other_divided)]; cbn beta; intros e He; exists (snd e); exact He).
  specialize (X F 1 1). rewrite E in X. eauto.
Qed.

(** A rule set which can be written down. *)
Definition tx_rules : rule_set := mkRuleSet "s" [mkTokenRule "A" (Some 3) (TLiteral [97]); mkTokenRule "B2" None (TLiteral [92; 34])]
  [mkProdRule "s" (Some "top") (QAlt [QSeq [QRule "A"; QRule "A"]; QStar (QSeq [QRule "s"; QRule "B2"])])].
Lemma ident_ok : forall n c cs, bytes n = c :: cs -> letter c -> Forall word_char cs -> (forall name word, In (name, word) keywords -> c :: cs <> bytes word) -> byte_len (c :: cs) < 65535 -> identifier n.
Proof. intros n c cs E H1 H2 H3 H4. unfold identifier. rewrite E. split; auto. constructor; auto. Qed.
Ltac ident := eapply ident_ok; [cbv; reflexivity|unfold letter; lia|repeat (constructor; [unfold word_char, letter, digit; lia|]); constructor
  |intros name word I; repeat destruct I as [I|I]; try contradiction; injection I as <- <-; discriminate|reflexivity].
Lemma tx_identifiers : identifier "s" /\ identifier "A" /\ identifier "B2" /\ identifier "top".
Proof. split; [ident|]. split; [ident|]. split; ident. Qed.
Lemma tx_rules_writable : identifier (rs_entry tx_rules) /\ Forall (writable_token no_regex) (rs_tokens tx_rules) /\ Forall writable_prod (rs_prods tx_rules).
Proof.
  destruct tx_identifiers as (Is & IA & IB & It). split; [exact Is|]. split.
  - constructor; [|constructor; [|constructor]]; unfold writable_token; cbn [tr_name tr_prec tr_pattern].
    + split; [exact IA|]. split; [intros n H; injection H as <-; reflexivity|]. split; [apply body_char; [discriminate|discriminate|discriminate|constructor]|]. split; [intros [H|[]]; discriminate|]. split; [repeat constructor; discriminate|reflexivity].
    + split; [exact IB|]. split; [intros n H; discriminate H|]. split; [apply body_escape; constructor|]. split; [intros [H|[H|[]]]; discriminate|]. split; [repeat constructor; discriminate|reflexivity].
  - constructor; [|constructor]. unfold writable_prod. cbn [pr_name pr_tag pr_pattern]. split; [exact Is|]. split; [intros t H; injection H as <-; exact It|]. split.
    + repeat (constructor; auto).
    + apply (rd_alt [_]); [discriminate| | |].
      * repeat constructor. apply (rd_seq [_]); [discriminate|repeat constructor|constructor|intros (l & H); discriminate].
      * apply (rd_seq [_]); [discriminate|repeat constructor|constructor|intros (l & H); discriminate].
      * intros (l & H). discriminate.
Qed.

(** Positions go wrong behind a newline in a literal, and behind a character which is not ASCII. *)
Definition tx_newline : list N := Eval vm_compute in bytes "token A = ""\" ++ [10] ++ bytes """; entry s; prod s = A;".
Definition tx_newline_out : spanned_rules := Eval vm_compute in match parse_lapex no_regex lapex_gen 300 tx_newline with Ok o => o | _ => in_out end.
Lemma tx_newline_parsed : parse_lapex no_regex lapex_gen 300 tx_newline = Ok tx_newline_out.
Proof. vm_compute. reflexivity. Qed.
Lemma tx_newline_wrong : exists r, In r (rules_of tx_newline_out) /\ span_substring (fst r) tx_newline = Ok None.
Proof. eexists. split; [left; reflexivity|]. vm_compute. reflexivity. Qed.
Definition tx_unicode : list N := Eval vm_compute in bytes "token A = """ ++ [233] ++ bytes """; entry s; prod s = A;".
Definition tx_unicode_out : spanned_rules := Eval vm_compute in match parse_lapex no_regex lapex_gen 300 tx_unicode with Ok o => o | _ => in_out end.
Lemma tx_unicode_parsed : parse_lapex no_regex lapex_gen 300 tx_unicode = Ok tx_unicode_out.
Proof. vm_compute. reflexivity. Qed.
Lemma tx_unicode_wrong : exists r t, In r (rules_of tx_unicode_out) /\ span_substring (fst r) tx_unicode = Ok (Some t) /\ ~ spells_rule no_regex t (snd r).
Proof.
  eexists. exists (bytes "ntry s; "). split; [left; reflexivity|]. split; [vm_compute; reflexivity|]. cbn [snd]. apply no_entry. vm_compute. intuition discriminate.
Qed.

(** A file with too many lines. *)
Definition tx_blank (n : nat) : list N := concat (map snd (repeat ("NEWLINE", [10]) n)).
Lemma tx_blank_text : forall n, tx_blank n = repeat 10 n.
Proof. induction n as [|n IH]; [reflexivity|]. unfold tx_blank in *. cbn [repeat map snd concat app]. f_equal. exact IH. Qed.
Lemma tx_blank_divided : forall n, division (tx_blank n) (repeat ("NEWLINE", [10]) n).
Proof. induction n as [|n IH]; [constructor|]. unfold tx_blank in *. cbn [repeat map snd concat]. apply dv_next; [apply lx_newline| |exact IH]. intros name' text' rest' H E. eapply newline_alone; eauto. Qed.
Lemma tx_blank_count : forall n, length (filter (fun e : string * list N => String.eqb (fst e) "NEWLINE") (repeat ("NEWLINE", [10]) n)) = n.
Proof. induction n as [|n IH]; [reflexivity|]. cbn [repeat filter fst]. change (String.eqb "NEWLINE" "NEWLINE") with true. cbn [length]. f_equal. exact IH. Qed.
Lemma tx_blank_valid : forall n, Forall valid_char (tx_blank n) /\ ~ In 0 (tx_blank n).
Proof.
  intros n. rewrite tx_blank_text. split.
  - apply ascii_valid, Forall_forall. intros c I. apply repeat_spec in I. subst. reflexivity.
  - intros I. apply repeat_spec in I. discriminate.
Qed.
