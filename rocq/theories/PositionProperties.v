(** Property theorems for source positions (C28). *)
From Coq Require Import List Arith NArith Lia.
From Verif Require Import Base InputModel LexerModel PositionModel PositionSpec PositionProof.
Import ListNotations.
Local Open Scope N_scope.
Local Open Scope list_scope.

(** C28.  [offset] maps a line and a column to the byte length of the text in front of that place. *)
Theorem position_offset_exact : forall text, positions_fit text -> forall pos n, pos_offset pos text = Ok (Some n) <-> exists p, prefix p text /\ at_pos p pos /\ n = byte_len p.
Proof. exact offset_exact. Qed.
(** a, newline, e with acute accent, b *)
Example position_offset_exact_case : positions_fit [97; 10; 233; 98] /\ pos_offset (mkPos 2 2) [97; 10; 233; 98] = Ok (Some 4) /\ at_pos [97; 10; 233] (mkPos 2 2) /\ byte_len [97; 10; 233] = 4.
Proof.
  split; [apply short_fits; reflexivity|]. split; [reflexivity|]. split; [|reflexivity]. split; [reflexivity|]. exists [97; 10], [233]. split; [reflexivity|].
  split; [intros [X|[]]; discriminate|]. split; [right; exists [97]; reflexivity|reflexivity].
Qed.
Print Assumptions position_offset_exact.

(** C28.  It returns nothing exactly for positions outside of the text. *)
Theorem position_offset_none : forall text, positions_fit text -> forall pos, pos_offset pos text = Ok None <-> forall p, prefix p text -> ~ at_pos p pos.
Proof. exact offset_none. Qed.
Example position_offset_none_case : positions_fit [97; 10; 98] /\ pos_offset (mkPos 1 3) [97; 10; 98] = Ok None /\ pos_offset (mkPos 0 0) [97; 10; 98] = Ok None.
Proof. split; [apply short_fits; reflexivity|]. split; reflexivity. Qed.
Print Assumptions position_offset_none.

(** C28.  Every place has a position, and different places have different positions. *)
Theorem positions_exist : forall p, exists pos, at_pos p pos.
Proof. exact pos_at_sound. Qed.
Example positions_exist_case : at_pos [] (mkPos 1 1).
Proof. split; [reflexivity|]. exists [], []. repeat split; auto. Qed.
Print Assumptions positions_exist.
Theorem positions_distinct : forall text p p' pos, prefix p text -> prefix p' text -> at_pos p pos -> at_pos p' pos -> p = p'.
Proof. exact places_distinct. Qed.
Example positions_distinct_case : prefix [10] [10; 97] /\ prefix [10; 97] [10; 97] /\ pos_of [10] = mkPos 2 1 /\ pos_of [10; 97] = mkPos 2 2.
Proof. split; [exists [97]; reflexivity|]. split; [exists []; reflexivity|]. split; reflexivity. Qed.
Print Assumptions positions_distinct.

(** C28.  [substring] returns the text between two places ... *)
Theorem span_substring_exact : forall text, positions_fit text -> forall span m,
  span_substring span text = Ok (Some m) <-> exists p s, text = p ++ m ++ s /\ at_pos p (ss_start span) /\ at_pos (p ++ m) (ss_end span).
Proof. exact substring_exact. Qed.
Example span_substring_exact_case : positions_fit [97; 10; 233; 98] /\ span_substring (mkSpan (mkPos 1 2) (mkPos 2 2)) [97; 10; 233; 98] = Ok (Some [10; 233]).
Proof. split; [apply short_fits; reflexivity|reflexivity]. Qed.
Print Assumptions span_substring_exact.

(** ... nothing if one of them is not in the text, and it panics exactly if the end is in front of the start. *)
Theorem span_substring_outcomes : forall text, positions_fit text -> forall span,
  match span_substring span text with
  | Ok (Some m) => exists p s, text = p ++ m ++ s /\ at_pos p (ss_start span) /\ at_pos (p ++ m) (ss_end span)
  | Ok None => (forall p, prefix p text -> ~ at_pos p (ss_start span)) \/ (forall p, prefix p text -> ~ at_pos p (ss_end span))
  | Panic => exists p m, m <> [] /\ prefix (p ++ m) text /\ at_pos (p ++ m) (ss_start span) /\ at_pos p (ss_end span)
  | _ => False
  end.
Proof. exact substring_cases. Qed.
Example span_substring_outcomes_case : span_substring (mkSpan (mkPos 2 1) (mkPos 1 1)) [97; 10; 98] = Panic /\ span_substring zero_span [97; 10; 98] = Ok None.
Proof. split; reflexivity. Qed.
Print Assumptions span_substring_outcomes.

(** C28.  Lines or columns beyond 65535 make [offset] panic. *)
Theorem position_offset_total_refuted : exists text, pos_offset (mkPos 0 0) text = Panic.
Proof. exact long_text_panics. Qed.
Print Assumptions position_offset_total_refuted.

(** C28.  The spans which the generated input parser computes for the tokens of an ASCII file denote their texts. *)
Theorem token_spans_correct : forall tokens, Forall plain tokens -> positions_fit (texts tokens) ->
  exists l, spanned_tokens (length (visible tokens)) tokens 1 1 = Ok l /\ map fst l = map snd (visible tokens) /\
    forall s span, In (s, span) l -> span_substring span (texts tokens) = Ok (Some s).
Proof. exact token_spans. Qed.
Example token_spans_correct_case : Forall plain blanks_case /\ positions_fit (texts blanks_case) /\
  spanned_tokens 3 blanks_case 1 1 = Ok [([101; 97], mkSpan (mkPos 1 1) (mkPos 1 3)); ([59], mkSpan (mkPos 1 5) (mkPos 1 6)); ([98], mkSpan (mkPos 2 2) (mkPos 2 3))].
Proof.
  split; [|split; [apply short_fits; reflexivity|reflexivity]].
  repeat constructor; cbn; try (intros c H; repeat destruct H as [<-|H]; try reflexivity; destruct H); try (intros H; repeat destruct H as [H|H]; try discriminate; destruct H).
Qed.
Print Assumptions token_spans_correct.

(** C28.  The span between two tokens denotes the text from the first to the last (the spans of rules in error messages). *)
Theorem rule_spans_correct : forall tokens, Forall plain tokens -> positions_fit (texts tokens) -> forall l, spanned_tokens (length (visible tokens)) tokens 1 1 = Ok l ->
  forall l1 s1 span1 l2 s2 span2 l3, l = l1 ++ (s1, span1) :: l2 ++ (s2, span2) :: l3 ->
  exists a mid b, tokens = a ++ (KOther, s1) :: mid ++ (KOther, s2) :: b /\ visible mid = map (fun e => (KOther, fst e)) l2 /\
    span_substring (between_span span1 span2) (texts tokens) = Ok (Some (s1 ++ texts mid ++ s2)).
Proof. exact rule_spans. Qed.
Example rule_spans_correct_case : location_text (between_span (mkSpan (mkPos 1 5) (mkPos 1 6)) (mkSpan (mkPos 2 2) (mkPos 2 3))) (texts blanks_case) = Ok [59; 10; 32; 98].
Proof. reflexivity. Qed.
Print Assumptions rule_spans_correct.

(** C28.  Columns of tokens are counted in bytes but read in characters: behind a character outside of ASCII the
    span of a token is not found, and the error message which quotes it panics (the token is a literal with an
    accented letter). *)
Theorem token_spans_non_ascii_refuted : exists tokens s span, ~ In newline (texts tokens) /\ positions_fit (texts tokens) /\ spanned_tokens 1 tokens 1 1 = Ok [(s, span)] /\
  span_substring span (texts tokens) = Ok None /\ location_text span (texts tokens) = Panic.
Proof.
  exists [(KOther, [34; 233; 34])], [34; 233; 34], (mkSpan (mkPos 1 1) (mkPos 1 5)). split; [intros H; repeat destruct H as [H|H]; try discriminate; destruct H|].
  split; [apply short_fits; reflexivity|]. split; [reflexivity|]. split; reflexivity.
Qed.
Print Assumptions token_spans_non_ascii_refuted.

(** C28.  A newline inside a token (an escaped newline in a literal) is not counted. *)
Theorem token_spans_newline_refuted : exists tokens s1 span1 s2 span2, (forall c, In c (texts tokens) -> c < 128) /\ positions_fit (texts tokens) /\
  spanned_tokens 2 tokens 1 1 = Ok [(s1, span1); (s2, span2)] /\ location_text span2 (texts tokens) = Panic.
Proof.
  exists [(KOther, [34; 92; 10; 34]); (KOther, [59])], [34; 92; 10; 34], (mkSpan (mkPos 1 1) (mkPos 1 5)), [59], (mkSpan (mkPos 1 5) (mkPos 1 6)).
  split; [intros c H; repeat destruct H as [<-|H]; try reflexivity; destruct H|]. split; [apply short_fits; reflexivity|]. split; reflexivity.
Qed.
Print Assumptions token_spans_newline_refuted.
