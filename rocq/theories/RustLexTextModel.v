(** Model of the files that lapex-rust-codegen/src/lexer/mod.rs writes, tokens.rs and lexer.rs, as token trees.  The code in the macro calls is copied from there; [quote!] is that of RustQuoteModel.v.
    Definitions only.  A [quote!] that cannot be expanded would not compile; it is a panic here. *)
From Coq Require Import String List Arith NArith Bool.
From Verif Require Import Base InputModel LexerModel TemplateModel TemplateFiles GrammarModel LRModel NamesModel RustTokenSpec RustQuoteModel.
Import ListNotations.
Local Open Scope string_scope.
Local Open Scope list_scope.

(** lexer/mod.rs 49-92: expanded code, or a panic of [unwrap]. *)
Definition expanded (o : option (list tree)) : res name_err (list tree) := match o with Some l => Ok l | None => Panic end.

(** ** tokens.rs *)

(** lexer/mod.rs 29-35. *)
Definition tokens_code : list tree := Eval vm_compute in quoted "
            #[derive(Clone, Copy, Debug)]
            pub enum TokenType {
                EndOfFile,
                #other_tokens
            }
".
(** lexer/mod.rs 18-26: the lines [Name,]. *)
Definition other_tokens (names : list string) : res name_err string :=
  do l <- res_list (map get_token_enum_name names); Ok (fold_right append "" (map (fun n => n ++ ",
")%string l)).
(** lexer/mod.rs 16-37, [write_token_enum]; [names] are those of the token rules. *)
Definition tokens_rs (names : list string) : res name_err (list tree) :=
  do s <- other_tokens names; do l <- expanded (stream_of s); expanded (quote_of tokens_code [("other_tokens", One l)]).

(** ** lexer.rs *)

(** lexer/mod.rs 49: an arm of [get_alphabet_range]. *)
Definition reverse_code : list tree := Eval vm_compute in quoted "#i => Some(#start..=#end)".
(** lexer/mod.rs 51: an arm of [get_alphabet_index] for one character. *)
Definition single_code : list tree := Eval vm_compute in quoted "#start => Some(#i)".
(** lexer/mod.rs 53: an arm of [get_alphabet_index] for several. *)
Definition range_code : list tree := Eval vm_compute in quoted "#start..=#end => Some(#i)".
(** lexer/mod.rs 61-62: the arm for the end of the file. *)
Definition eof_code : list tree := Eval vm_compute in quoted "(#state_id, 0) => { return Ok(TokenType::EndOfFile); }".
(** lexer/mod.rs 67-73: the arm of a transition. *)
Definition move_code : list tree := Eval vm_compute in quoted "
                        (#state_id, #transition) => {
                            let next_ch = self.char_iter.next().unwrap();
                            self.position += next_ch.len_utf8();
                            state = #target_index;
                        }
".
(** lexer/mod.rs 78-82: the arm of an accepting state. *)
Definition accept_code : list tree := Eval vm_compute in quoted "
                    (#state_id, _) => {
                        return Ok(TokenType::#name);
                    }
".
(** lexer/mod.rs 84-90: the arm of another state. *)
Definition reject_code : list tree := Eval vm_compute in quoted "
                    (#state_id, transition) => {
                        return Err(LexerError::UnexpectedAlphabet {
                            range: Lexer::get_alphabet_range(transition).unwrap()
                        });
                    }
".
(** lexer/mod.rs 96-185: the file. *)
Definition lexer_code : list tree := Eval vm_compute in quoted "
            use super::tokens::TokenType;

            #[derive(Debug)]
            pub enum LexerError {
                InvalidChar {
                    bad_ch: u32
                },
                UnexpectedAlphabet {
                    range: std::ops::RangeInclusive<u32>
                }
            }

            impl std::error::Error for LexerError {}
            impl std::fmt::Display for LexerError {
                fn fmt(&self, f: &mut std::fmt::Formatter) -> std::fmt::Result {
                    match self {
                        LexerError::InvalidChar { bad_ch } => write!(
                            f,
                            ""Lexer got strange codepoint {}, char value is '{:?}'"",
                            bad_ch,
                            std::char::from_u32(*bad_ch)
                        ),
                        LexerError::UnexpectedAlphabet { range } => write!(
                            f,
                            ""Lexer got char in unexpected range: {:?}"",
                            range
                        )
                    }
                }
            }

            pub struct Lexer<'src> {
                src: &'src str,
                char_iter: std::iter::Peekable<std::str::Chars<'src>>,
                start: usize,
                position: usize
            }

            impl<'src> Lexer<'src> {
                pub fn new(src: &'src str) -> Self {
                    let char_iter = src.chars().peekable();
                    Lexer {
                        src,
                        char_iter,
                        start: 0,
                        position: 0
                    }
                }

                fn get_alphabet_index(c: u32) -> Option<usize> {
                    match c {
                        #( #alphabet_cases, )*
                        _ => None
                    }
                }

                fn get_alphabet_range(c: usize) -> Option<std::ops::RangeInclusive<u32>> {
                    match c {
                        #( #alphabet_reverse_cases, )*
                        _ => None
                    }
                }

                pub fn next(&mut self) -> Result<TokenType, LexerError> {
                    let mut state: usize = 0;
                    self.start = self.position;
                    loop {
                        let next_ch = self.char_iter.peek().copied().map(|c| c as u32).unwrap_or(0);
                        let symbol = if let Some(symbol) = Lexer::get_alphabet_index(next_ch) {
                            symbol
                        } else {
                            return Err(LexerError::InvalidChar {
                                bad_ch: next_ch
                            });
                        };
                        match (state, symbol) {
                            #( #automaton_cases, )*
                            (_, _) => unreachable!()
                        }
                    }
                }

                pub fn span(&self) -> std::ops::Range<usize> {
                    self.start..self.position
                }

                pub fn slice(&self) -> &'src str {
                    &self.src[self.span()]
                }
            }
".

(** lexer/mod.rs 49: [alphabet_reverse_cases]. *)
Definition reverse_case (ir : nat * (N * N)) : option (list tree) :=
  quote_of reverse_code [("i", usize_token (fst ir)); ("start", u32_token (fst (snd ir))); ("end", u32_token (snd (snd ir)))].
(** lexer/mod.rs 50-54: [alphabet_cases]. *)
Definition alphabet_case (ir : nat * (N * N)) : option (list tree) :=
  let '(i, (start, fin)) := ir in
  quote_of (if (start =? fin)%N then single_code else range_code) [("start", u32_token start); ("end", u32_token fin); ("i", usize_token i)].
(** lexer/mod.rs 64-75: the arms of the transitions of a state. *)
Definition move_cases (state_id : nat) (tv : nat * nat) : list (option (list tree)) :=
  if Nat.eqb (fst tv) 0 then [] else [quote_of move_code [("state_id", usize_token state_id); ("transition", usize_token (fst tv)); ("target_index", usize_token (snd tv))]].
(** lexer/mod.rs 76-91: the last arm of a state. *)
Definition default_case (state_id : nat) (node : astate token_rule) : res name_err (list tree) :=
  match node with
  | Accepting accept =>
    do s <- get_token_enum_name (tr_name accept); do name <- expanded (stream_of s); expanded (quote_of accept_code [("state_id", usize_token state_id); ("name", One name)])
  | Intermediate _ => expanded (quote_of reject_code [("state_id", usize_token state_id)])
  end.
(** lexer/mod.rs 59-92: the arms of a state. *)
Definition rust_state_cases (d : dfa token_rule) (state_id : nat) (node : astate token_rule) : res name_err (list (list tree)) :=
  do l <- res_list (map expanded ((if Nat.eqb state_id 0 then [quote_of eof_code [("state_id", usize_token state_id)]] else []) ++ concat (map (move_cases state_id) (transitions_from d state_id))));
  do last <- default_case state_id node;
  Ok (l ++ [last]).
(** lexer/mod.rs 44-56: the arms of the two functions about the alphabet. *)
Definition alphabet_arms (al : alphabet) : res name_err (list (list tree) * list (list tree)) :=
  do l <- res_list (map (fun ir => expanded (alphabet_case ir)) (enumerate al)); do l' <- res_list (map (fun ir => expanded (reverse_case ir)) (enumerate al)); Ok (l, l').
(** lexer/mod.rs 58-93: the arms of [next]. *)
Definition automaton_arms (d : dfa token_rule) : res name_err (list (list tree)) :=
  do l <- res_list (map (fun jn => rust_state_cases d (fst jn) (snd jn)) (enumerate (dfa_nodes d))); Ok (concat l).
(** lexer/mod.rs 43-189, [write_lexer]. *)
Definition lexer_rs (al : alphabet) (d : dfa token_rule) : res name_err (list tree) :=
  do (alphabet_cases, alphabet_reverse_cases) <- alphabet_arms al;
  do automaton_cases <- automaton_arms d;
  expanded (quote_of lexer_code [("alphabet_cases", Many alphabet_cases); ("alphabet_reverse_cases", Many alphabet_reverse_cases); ("automaton_cases", Many automaton_cases)]).
