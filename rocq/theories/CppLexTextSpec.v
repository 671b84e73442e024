(** Specification of the text of emitted C++ lexers: the object and the decoder in terms of the C++ of CppTextSpec.v, and which tables and names can be written. *)
From Coq Require Import String List Arith NArith ZArith Bool.
From Verif Require Import Base InputModel LexerModel CppLexerModel CppLexerSpec TemplateModel TemplateFiles CppTextSpec CppBitsSpec.
Import ListNotations.
Local Open Scope string_scope.
Local Open Scope list_scope.

(** Letters, digits and underscores. *)
Definition plain_name (s : string) : Prop := forall c, In c (chars s) -> word_char c = true.
(** What can stand in a comment up to the end of the line. *)
Definition one_line (t : text) : Prop := ~ In 10%N t /\ last t 0%N <> 92%N.

(** A state that can be written, with the text that {:?} makes of its rule. *)
Definition writable_node (debug : token_rule -> text) (node : astate token_rule) : Prop :=
  match node with Accepting r => plain_name (tr_name r) /\ one_line (debug r) | Intermediate _ => True end.

(** Enumerators counted from zero. *)
Definition counted (l : list string) : list (string * Z) := combine l (map Z.of_nat (seq 0 (List.length l))).
Definition token_program (names : list string) : program := mkProgram [("TokenType", counted (enumerators names))] [] [].
Definition token_value (k : nat) : value := VEnum "TokenType" (Z.of_nat k).

(** An object of class [Lexer]. *)
Definition lexer_object (lx : cpp_lexer) : store :=
  mkStore []
    [("in_chars", VStream (cl_in lx)); ("ch", VInt U32 (Z.of_N (cl_ch lx))); ("err", VInt I32 (Z.of_N (cl_err lx))); ("position", VInt U64 (Z.of_nat (cl_position lx)));
     ("start_pos", VInt U64 (Z.of_nat (cl_start lx))); ("end_pos", VInt U64 (Z.of_nat (cl_end lx)))].
(** [utf8_decode] is the function of the text with these steps: its parameters are the stream and pointers to the two members. *)
Definition decode_head : text := chars "void utf8_decode(std::istream &in, uint32_t *c, int *e)".
Definition decode_memory (bytes : list N) (ch err : Z) : memory :=
  [("in", OStream bytes); ("c", OPointer U32 "*c" 0); ("e", OPointer I32 "*e" 0); ("*c", OArray U32 [ch]); ("*e", OArray I32 [err])]%Z.
Definition decoder (body : list bstmt) : externals := fun st f args =>
  match f, args with
  | EName [name], [EArrow EThis i; EAddr (EArrow EThis c); EAddr (EArrow EThis e)] =>
    if String.eqb name "utf8_decode" then
      match find_name i (members st), find_name c (members st), find_name e (members st) with
      | Some (VStream bytes), Some (VInt U32 ch), Some (VInt I32 err) =>
        match steps (decode_memory bytes ch err) body with
        | Some m =>
          match find_name "in" m, find_name "*c" m, find_name "*e" m with
          | Some (OStream rest), Some (OArray U32 [ch]), Some (OArray I32 [err]) =>
            Some (mkStore (locals st) (set_name e (VInt I32 err) (set_name c (VInt U32 ch) (set_name i (VStream rest) (members st)))), RReturn None)
          | _, _, _ => None
          end
        | None => None
        end
      | _, _, _ => None
      end
    else None
  | _, _ => None
  end.

(** The functions that the text of a lexer defines. *)
Record lexer_code : Type := mkLexerCode { code_decode : list bstmt; code_next : stmt; code_start : stmt; code_end : stmt }.
Definition lexer_code_in (t : text) (code : lexer_code) : Prop :=
  has_steps t decode_head (code_decode code) /\ defines t (chars "TokenType Lexer::next()") (code_next code) /\
  defines t (chars "size_t Lexer::start()") (code_start code) /\ defines t (chars "size_t Lexer::end()") (code_end code).

Definition code_checks (P : program) (code : lexer_code) : bool := checks P (code_next code) && checks P (code_start code) && checks P (code_end code).

(** How far the position can get: the bytes, and a character that has been read but not moved over. *)
Definition room (lx : cpp_lexer) : nat :=
  cl_position lx + List.length (cl_in lx) + (if (cl_ch lx =? no_char)%N || (cl_ch lx =? 0)%N then 0 else 1).
(** A lexer whose members have the values of their types, with room for the rest of the stream. *)
Definition lexer_fits (lx : cpp_lexer) : Prop :=
  Forall is_byte (cl_in lx) /\ (cl_ch lx < 2 ^ 32)%N /\ (Z.of_nat (room lx) + 2 < 18446744073709551616)%Z.

(** Ranges that are not empty and do not overlap, of characters in 32 bits. *)
Definition ranges_fit (al : alphabet) : Prop :=
  (forall a b, In (a, b) al -> (a <= b < 2 ^ 32)%N) /\ ForallOrdPairs (fun x y => (snd x < fst y \/ snd y < fst x)%N) al /\ (N.of_nat (List.length al) <= 2 ^ 32)%N.
(** No two transitions from a state for one symbol; numbers in 32 bits. *)
Definition automaton_fits (d : dfa token_rule) : Prop :=
  (N.of_nat (List.length (dfa_nodes d)) <= 2 ^ 32)%N /\
  forall q, q < List.length (dfa_nodes d) -> NoDup (map fst (transitions_from d q)) /\ forall t v, In (t, v) (transitions_from d q) -> (N.of_nat t < 2 ^ 32)%N /\ v < List.length (dfa_nodes d).

(** Calls of a function without parameters, one after the other: the object after each call and what it returned. *)
Inductive calls (P : program) (ext : externals) (body : stmt) : store -> list (store * value) -> Prop :=
| calls_none : forall st, calls P ext body st []
| calls_more : forall st st' v l, does P ext st body st' (RReturn (Some v)) -> calls P ext body st' l -> calls P ext body st ((st', v) :: l).
(** The object and value after a call, for the lexer and token of CppLexerModel.v. *)
Definition seen (names : list string) (c : cpp_lexer * string) (x : store * value) : Prop :=
  fst x = lexer_object (fst c) /\ exists k, find_index (String.eqb (snd c)) (enumerators names) = Some k /\ snd x = token_value k.
