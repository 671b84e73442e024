(** Model of source positions: lapex-input/src/lib.rs 3-83, their use in lapex/src/errors.rs 28-42 and their
    computation in lapex-input-gen/src/lib.rs 513-551.  Definitions only. *)
From Coq Require Import String List Arith NArith Bool.
From Verif Require Import Base InputModel LexerModel.
Import ListNotations.
Local Open Scope N_scope.
Local Open Scope list_scope.

(** lapex-input/src/lib.rs 3-7, [SourcePos]; the fields are [u16]. *)
Record source_pos : Type := mkPos { sp_line : N; sp_col : N }.

(** lapex-input/src/lib.rs 9-13, [SourceSpan]. *)
Record source_span : Type := mkSpan { ss_start : source_pos; ss_end : source_pos }.

(** Addition of [u16] values; overflow panics (as in a debug build; a release build wraps). *)
Definition add_u16 (a b : N) : res lex_err N := if a + b <? 65536 then Ok (a + b) else Panic.

(** lapex-input/src/lib.rs 24. *)
Definition newline : N := 10.

(** lapex-input/src/lib.rs 19-32: the loop of [offset] over [char_indices]. *)
Fixpoint offset_loop (pos : source_pos) (text : list N) (offset line col : N) : res lex_err (option N) :=
  match text with
  | [] => Ok (if (line =? sp_line pos) && (col =? sp_col pos) then Some offset else None)
  | ch :: text =>
    if (line =? sp_line pos) && (col =? sp_col pos) then Ok (Some offset)
    else if ch =? newline
         then do line <- add_u16 line 1; offset_loop pos text (offset + len_utf8 ch) line 1
         else do col <- add_u16 col 1; offset_loop pos text (offset + len_utf8 ch) line col
  end.

(** lapex-input/src/lib.rs 16-34, [SourcePos::offset]; the result is a byte offset. *)
Definition pos_offset (pos : source_pos) (text : list N) : res lex_err (option N) := offset_loop pos text 0 1 1.

(** lapex-input/src/lib.rs 38-42, [SourceSpan::substring]. *)
Definition span_substring (span : source_span) (text : list N) : res lex_err (option (list N)) :=
  do start <- pos_offset (ss_start span) text;
  match start with
  | None => Ok None
  | Some start =>
    do end_ <- pos_offset (ss_end span) text;
    match end_ with
    | None => Ok None
    | Some end_ => do s <- byte_slice text start end_; Ok (Some s)
    end
  end.

(** lapex-input/src/lib.rs 51-60, the span of [Spanned::zero]; 64-72, that of [Spanned::between]. *)
Definition zero_span : source_span := mkSpan (mkPos 0 0) (mkPos 0 0).
(** lapex-input/src/lib.rs 64-72, the span of [Spanned::between]. *)
Definition between_span (start end_ : source_span) : source_span := mkSpan (ss_start start) (ss_end end_).

(** lapex/src/errors.rs 35-41, [Location::from_span], with the [unwrap] of its callers (100, 115, 141). *)
Definition location_text (span : source_span) (text : list N) : res lex_err (list N) :=
  do s <- span_substring span text;
  match s with Some s => Ok s | None => Panic end.

(** lapex-input-gen/src/lib.rs 522-533: tokens of a grammar file as far as positions are concerned, with their text ([lexer.slice()]). *)
Inductive blank_kind : Type := KNewline | KWhitespace | KOther.
(** lapex-input-gen/src/lib.rs 520 and 537: a token and its text. *)
Definition raw_token : Type := blank_kind * list N.

(** [lexer.slice().len() as u16]. *)
Definition slice_width (s : list N) : N := byte_len s mod 65536.

(** lapex-input-gen/src/lib.rs 524-537: skipping blanks; the end of the input is a token with an empty slice. *)
Fixpoint skip_blanks (tokens : list raw_token) (line col : N) : res lex_err (list raw_token * N * N) :=
  match tokens with
  | (KNewline, _) :: tokens => do line <- add_u16 line 1; skip_blanks tokens line 1
  | (KWhitespace, s) :: tokens => do col <- add_u16 col (slice_width s); skip_blanks tokens line col
  | _ => Ok (tokens, line, col)
  end.

(** lapex-input-gen/src/lib.rs 519-550, [token_fun]: the next token, its span, and the new state. *)
Definition next_spanned (tokens : list raw_token) (line col : N) : res lex_err (list N * source_span * list raw_token * N * N) :=
  do (tokens, line, start_col) <- skip_blanks tokens line col;
  let slice := match tokens with [] => [] | (_, s) :: _ => s end in
  do col <- add_u16 start_col (slice_width slice);
  Ok (slice, mkSpan (mkPos line start_col) (mkPos line col), tl tokens, line, col).

(** lapex-input-gen/src/lib.rs 519-550: the first [n] tokens as the parser gets them. *)
Fixpoint spanned_tokens (n : nat) (tokens : list raw_token) (line col : N) : res lex_err (list (list N * source_span)) :=
  match n with
  | O => Ok []
  | S n =>
    do (slice, span, tokens, line, col) <- next_spanned tokens line col;
    do rest <- spanned_tokens n tokens line col;
    Ok ((slice, span) :: rest)
  end.
