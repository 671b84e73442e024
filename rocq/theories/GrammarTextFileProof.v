(** The names of a file consist of letters, digits and underscores. *)
From Coq Require Import String Ascii List Arith NArith Bool Lia.
From Verif Require Import Base InputModel GrammarModel GrammarSpec BootModel BootSoundProof PositionModel InputGenModel InputGenSpec InputGenFactsProof InputTextSpec InputTextFactsProof NamesModel NamesSpec TableModel TableSpec PipelineModel PipelineSpec PipelineProof PipelineReportProof PipelineEndProof
  LRModel GrammarTextModel GrammarTextProof ReportFileProof.
Import ListNotations.
Local Open Scope string_scope.
Local Open Scope list_scope.

Lemma letter_char : forall c, InputTextSpec.letter c -> NamesSpec.letter (ascii_of_N c) = true.
Proof.
  intros c H. unfold NamesSpec.letter, is_upper, is_lower. unfold InputTextSpec.letter in H. assert (E : N_of_ascii (ascii_of_N c) = c) by (apply N_ascii_embedding; lia).
  rewrite ?E. apply orb_true_iff. rewrite !andb_true_iff, !N.leb_le. lia.
Qed.
Lemma word_plain_char : forall c, InputTextSpec.word_char c -> plain_char (ascii_of_N c).
Proof.
  intros c [H|[H|H]]; [left; exact (letter_char c H)| |right; right; subst; reflexivity]. right. left. unfold NamesSpec.digit. unfold InputTextSpec.digit in H. rewrite N_ascii_embedding by lia. exact H.
Qed.
Lemma words_plain : forall l, Forall InputTextSpec.word_char l -> plain_name (name_of l).
Proof. intros l F. unfold plain_name, name_of. induction F as [|c l H F IH]; [exact Logic.I|]. split; [exact (word_plain_char c H)|exact IH]. Qed.
Lemma ident_plain : forall text, lexeme "IDENT" text -> plain_name (name_of text).
Proof.
  intros text H. apply words_plain. remember "IDENT" as k eqn:K. destruct H as [n w I|n c I| | |c cs L F|b B|b B|c cs F|]; try discriminate K.
  - subst. cbn in I. destruct I as [I|[I|[I|[]]]]; discriminate.
  - subst. cbn in I. repeat (destruct I as [I|I]; [discriminate|]). destruct I.
  - constructor; [left; exact L|exact F].
Qed.
Lemma read_plain : forall regex source out, reads_file regex source out -> plain_names (unspanned out).
Proof.
  intros regex source out (text & l & ts & rules & _ & D & P & F & C).
  assert (A : forall r, In r (InputTextSpec.rules_of out) -> plain_name (file_rule_name (snd r))).
  { intros r I. apply (rules_of_in _ _ _ C) in I. apply in_rev in I. destruct (file_names _ _ _ F r I) as (d & J & ->). exact (ident_plain _ (placed_lexeme _ _ _ _ P (division_lexed _ _ D) d J)). }
  split; intros x I; apply in_map_iff in I; destruct I as ((sp, y) & <- & I).
  - apply (A (sp, FToken y)). unfold InputTextSpec.rules_of. apply in_or_app. right. apply in_or_app. left. apply in_map_iff. exists (sp, y). auto.
  - apply (A (sp, FProd y)). unfold InputTextSpec.rules_of. apply in_or_app. right. apply in_or_app. right. apply in_map_iff. exists (sp, y). auto.
Qed.
Lemma file_plain_proof : forall regex gn n source sr, built gn -> Forall valid_char source -> parse_lapex regex gn n source = Ok sr -> plain_names (unspanned sr).
Proof. intros regex gn n source sr B V P. exact (read_plain _ _ _ (text_reads _ _ _ _ _ B V P)). Qed.
Lemma files_told_proof : forall regex gn n source source' sr sr' g g' text, built gn -> Forall valid_char source -> Forall valid_char source' -> parse_lapex regex gn n source = Ok sr -> parse_lapex regex gn n source' = Ok sr' ->
  small (unspanned sr) -> small (unspanned sr') -> from_rule_set (unspanned sr) = Ok g -> from_rule_set (unspanned sr') = Ok g' -> grammar_text g = Ok text -> grammar_text g' = Ok text ->
  forall ts, ebnf (unspanned sr) (QRule (snd (sr_entry sr))) ts <-> ebnf (unspanned sr') (QRule (snd (sr_entry sr'))) ts.
Proof.
  intros regex gn n source source' sr sr' g g' text B V V' P P' S S' G G' T T' ts.
  destruct (grammar_told_proof _ _ _ _ _ G G' S S' (file_plain_proof _ _ _ _ _ B V P) (file_plain_proof _ _ _ _ _ B V' P') T T') as (_ & _ & L). exact (L ts).
Qed.
