(** Model of a generated Rust lexer driving a generated Rust parser: the token functions in lapex-cli/src/main.rs 130-142 and in
    lapex-input-gen/src/lib.rs 519-550, together with the loops of lapex-rust-codegen/src/lr_parser/mod.rs 439-482 and
    lapex-rust-codegen/src/glr_parser/mod.rs 538-592, which ask for one token at a time.  Definitions only. *)
From Coq Require Import String List Arith NArith Bool.
From Verif Require Import Base InputModel LexerModel GrammarModel LRModel GLRModel.
Import ListNotations.
Local Open Scope nat_scope.
Local Open Scope list_scope.

(** lapex-rust-codegen/src/lexer/mod.rs 43-188: the generated lexer, with the tokens of the grammar, which give the variants of
    [TokenType] (16-35) their numbers. *)
Record rust_lexer : Type := mkRustLexer { rx_alphabet : alphabet; rx_dfa : dfa token_rule; rx_tokens : list (symbol * string) }.

(** lapex-rust-codegen/src/lexer/mod.rs 16-35: the number of a variant of [TokenType]. *)
Definition variant_number (tokens : list (symbol * string)) (name : string) : option N :=
  match find (fun e => String.eqb (snd e) name) tokens with
  | Some (Terminal t, _) => Some t
  | _ => None
  end.

(** lapex-cli/src/main.rs 135-138: one call of the token function; an error of the lexer is unwrapped. *)
Definition pull (rx : rust_lexer) (lx : lexer) : res lex_err (token * lexer) :=
  do (lx, r) <- lexer_next (rx_alphabet rx) (rx_dfa rx) lx;
  match r with
  | inl EndOfFile => Ok (None, lx)
  | inl (Tk t) => match variant_number (rx_tokens rx) (tr_name t) with Some k => Ok (Some k, lx) | None => Panic end
  | inr _ => Panic
  end.

(** ** LR parsers: lapex-rust-codegen/src/lr_parser/mod.rs *)

(** 447-464: action and visitor call; behind a shift the next token is fetched. *)
Definition text_act (rx : rust_lexer) (p : lr_parser) (stack : list stack_symbol) (tk : token) (lx : lexer)
  : list lr_event * res lr_error (list stack_symbol * token * lexer) :=
  match stack with
  | KState state :: _ =>
    match next_action (lp_actions p) state tk with
    | Ok ActShift =>
      match pull rx lx with
      | Ok (tk', lx) => ([EShift tk], Ok (KTerminal tk :: stack, tk', lx))
      | _ => ([EShift tk], Panic)
      end
    | Ok (ActReduce rule) =>
      match reduce_stack p rule stack with
      | Ok stack => ([EReduce rule], Ok (stack, tk, lx))
      | Err e => ([], Err e)
      | Panic => ([], Panic)
      | OutOfFuel => ([], OutOfFuel)
      end
    | Err e => ([], Err e)
    | Panic => ([], Panic)
    | OutOfFuel => ([], OutOfFuel)
    end
  | _ => ([], Panic)
  end.

(** 446-481: the loop of [parse]; on success the state of the lexer. *)
Fixpoint text_run (fuel : nat) (rx : rust_lexer) (p : lr_parser) (stack : list stack_symbol) (tk : token) (lx : lexer)
  : list lr_event * res lr_error lexer :=
  match fuel with
  | O => ([], OutOfFuel)
  | S fuel =>
    match stack with
    | [] => ([], Ok lx)
    | _ =>
      let '(ev, r) := text_act rx p stack tk lx in
      match r with
      | Ok (stack, tk, lx) =>
        match lr_goto_step p stack with
        | Ok stack => let '(ev', r) := text_run fuel rx p stack tk lx in (ev ++ ev', r)
        | Err e => (ev, Err e)
        | Panic => (ev, Panic)
        | OutOfFuel => (ev, OutOfFuel)
        end
      | Err e => (ev, Err e)
      | Panic => (ev, Panic)
      | OutOfFuel => (ev, OutOfFuel)
      end
    end
  end.

(** 439-482, [parse], applied to a text. *)
Definition text_parse (fuel : nat) (rx : rust_lexer) (p : lr_parser) (source : list N) : list lr_event * res lr_error lexer :=
  match pull rx (lexer_new source) with
  | Ok (tk, lx) => text_run fuel rx p [KState (lp_entry p)] tk lx
  | _ => ([], Panic)
  end.

(** ** GLR parsers: lapex-rust-codegen/src/glr_parser/mod.rs *)

(** 546-578: one pass of the loop: reductions, then the next token is fetched, then the shifts. *)
Definition glr_text_pass (fuel : nat) (rx : rust_lexer) (p : glr_parser) (tk : token) (lx : lexer) (h : gss_heap) (stacks : list gss)
  : gres (gss_heap * list gss * token * lexer) :=
  do (h, reduced) <- apply_reduces fuel p tk h [] stacks;
  match pull rx lx with
  | Ok (tk', lx) =>
    if existsb (gss_is_root h) reduced then Ok (h, reduced, tk', lx)
    else do (h, stacks) <- foldM (shift_stack p tk) reduced (h, []); Ok (h, stacks, tk', lx)
  | _ => Panic
  end.

(** 545-592, the loop of [parse]; on success the state of the lexer. *)
Fixpoint glr_text_run (fuel rfuel : nat) (rx : rust_lexer) (p : glr_parser) (h : gss_heap) (stacks : list gss) (tk : token) (lx : lexer)
  : list lr_event * gres lexer :=
  match fuel with
  | O => ([], OutOfFuel)
  | S fuel =>
    if match stacks with [s] => gss_is_root h s | _ => false end then ([], Ok lx)
    else
      match glr_text_pass rfuel rx p tk lx h stacks with
      | Ok (h, [s], tk, lx) =>
        let '(ev, r) := glr_text_run fuel rfuel rx p h [mkGss (gs_node s) []] tk lx in (gs_recorded s ++ ev, r)
      | Ok (h, stacks, tk, lx) => glr_text_run fuel rfuel rx p h stacks tk lx
      | Err e => ([], Err e)
      | Panic => ([], Panic)
      | OutOfFuel => ([], OutOfFuel)
      end
  end.

(** 538-544, [parse], applied to a text. *)
Definition glr_text_parse (fuel : nat) (rx : rust_lexer) (p : glr_parser) (source : list N) : list lr_event * gres lexer :=
  match pull rx (lexer_new source) with
  | Ok (tk, lx) => glr_text_run fuel fuel rx p [mkNode None []; mkNode (Some (gp_entry p)) [(None, 0)]] [mkGss 1 []] tk lx
  | _ => ([], Panic)
  end.
