(** Model of the emitted C++ lexer: lapex-cpp-codegen/src/lexer/lexer.cpp.tpl with the two switches written by
    lapex-cpp-codegen/src/lexer/mod.rs, and of the token enumeration of tokens.h.tpl and tokens.cpp.tpl. *)
From Coq Require Import String List Arith NArith Bool.
From Verif Require Import Base InputModel LexerModel.
Import ListNotations.
Local Open Scope N_scope.
Local Open Scope list_scope.

(** lexer.cpp.tpl 10-12, the array [lengths]. *)
Definition lengths : list N :=
  [1; 1; 1; 1; 1; 1; 1; 1; 1; 1; 1; 1; 1; 1; 1; 1;
   0; 0; 0; 0; 0; 0; 0; 0; 2; 2; 2; 2; 3; 3; 4; 0].
(** lexer.cpp.tpl 13-16. *)
Definition masks : list N := [0x00; 0x7f; 0x1f; 0x0f; 0x07].
(** lexer.cpp.tpl 14. *)
Definition mins : list N := [4194304; 0; 128; 2048; 65536].
(** lexer.cpp.tpl 15. *)
Definition shiftc : list N := [0; 18; 12; 6; 0].
(** lexer.cpp.tpl 16. *)
Definition shifte : list N := [0; 6; 4; 2; 0].

(** Array access.  All accesses below are in range (the index of [lengths] is a byte shifted by 3, the other index
    is an element of [lengths]), so that the default is not reached; [lengths_in_range] in CppLexerProof.v. *)
Definition at_index (a : list N) (i : N) : N := nth (N.to_nat i) a 0.

(** lexer.cpp.tpl 19 and 22, [std::istream::read]: up to [n] bytes are taken from the stream and written to the buffer; if there are fewer,
    the others keep their value (zero here), the stream fails, and as it is then empty all further reads do so too. *)
Definition read_bytes (n : nat) (bytes : list N) : list N * list N := (firstn n bytes, skipn n bytes).

(** lexer.cpp.tpl 22 and 34-36: a C comparison used as a number. *)
Definition c_bool (b : bool) : N := if b then 1 else 0.

(** lexer.cpp.tpl 8-42, [utf8_decode]: the character, the error flags and the rest of the stream.  [uint32_t] and
    [int] are unbounded here; no intermediate value reaches 2^25 ([word_small] and [flags_small] in CppLexerProof.v). *)
Definition utf8_decode (bytes : list N) : N * N * list N :=
  let '(b0, rest0) := read_bytes 1 bytes in
  let s0 := nth 0 b0 0 in
  let len := at_index lengths (N.shiftr s0 3) in
  let '(tail, rest) := read_bytes (N.to_nat (if 1 <? len then len - 1 else 0)) rest0 in
  let s1 := nth 0 tail 0 in
  let s2 := nth 1 tail 0 in
  let s3 := nth 2 tail 0 in
  let c := N.shiftl (N.land s0 (at_index masks len)) 18 in
  let c := N.lor c (N.shiftl (N.land s1 0x3f) 12) in
  let c := N.lor c (N.shiftl (N.land s2 0x3f) 6) in
  let c := N.lor c (N.shiftl (N.land s3 0x3f) 0) in
  let c := N.shiftr c (at_index shiftc len) in
  let e := N.shiftl (c_bool (c <? at_index mins len)) 6 in
  let e := N.lor e (N.shiftl (c_bool (N.shiftr c 11 =? 0x1b)) 7) in
  let e := N.lor e (N.shiftl (c_bool (0x10FFFF <? c)) 8) in
  let e := N.lor e (N.shiftr (N.land s1 0xc0) 2) in
  let e := N.lor e (N.shiftr (N.land s2 0xc0) 4) in
  let e := N.lor e (N.shiftr s3 6) in
  let e := N.lxor e 0x2a in
  let e := N.shiftr e (at_index shifte len) in
  (c, e, rest).

(** tokens.h.tpl 7-12 and mod.rs 120-125: the enumerators of [TokenType]. *)
Definition enumerator (name : string) : string := ("TK_" ++ name)%string.
(** tokens.h.tpl 9. *)
Definition tk_err : string := enumerator "ERR".
(** tokens.h.tpl 10. *)
Definition tk_eof : string := enumerator "EOF".
(** tokens.h.tpl 7-12 with mod.rs 120-125. *)
Definition enumerators (names : list string) : list string := tk_err :: tk_eof :: map enumerator names.

(** tokens.cpp.tpl 5-7 and mod.rs 127-143, [get_token_name]; [None] is the null pointer. *)
Definition get_token_name (names : list string) (tk : string) : option string :=
  if String.eqb tk tk_err then Some "<ERR>"%string
  else if String.eqb tk tk_eof then Some "<EOF>"%string
  else find (fun name => String.eqb tk (enumerator name)) names.

(** lexer.h.tpl 9-23. *)
Record cpp_lexer : Type := mkCpp {
  cl_in : list N;       (* the bytes not yet read from the stream *)
  cl_ch : N;
  cl_err : N;
  cl_position : nat;
  cl_start : nat;
  cl_end : nat
}.

(** [(uint32_t)-1]. *)
Definition no_char : N := 0xffffffff.

(** lexer.cpp.tpl 5. *)
Definition cpp_new (bytes : list N) : cpp_lexer := mkCpp bytes no_char 0 0 0 0.

(** mod.rs 34-53, [write_alphabet_switch]: the ranges are disjoint (C01), so that the order of the cases does not matter. *)
Fixpoint alphabet_switch (al : alphabet) (i : nat) (c : N) : option nat :=
  match al with
  | [] => None
  | (a, b) :: al' => if (if a =? b then c =? a else (a <=? c) && (c <=? b)) then Some i else alphabet_switch al' (S i) c
  end.

(** mod.rs 55-89: what the emitted switch does in a state at a symbol. *)
Inductive cpp_action : Type :=
| CppMove (target : nat)   (* this->ch = -1; state = target; break *)
| CppAccept (name : string)   (* this->end_pos = this->position; return TK_name *)
| CppReturn (tk : string).    (* return tk *)

(** mod.rs 55-89, [write_state_machine_switch]. *)
Definition automaton_switch (d : dfa token_rule) (state i : nat) : cpp_action :=
  match nth_error (dfa_nodes d) state with
  | None => CppReturn tk_err
  | Some node =>
    if Nat.eqb state 0 && Nat.eqb i 0 then CppReturn tk_eof
    else match find (fun tv => negb (Nat.eqb (fst tv) 0) && Nat.eqb (fst tv) i) (transitions_from d state) with
         | Some (_, target) => CppMove target
         | None => match node with
                   | Accepting r => CppAccept (tr_name r)
                   | Intermediate _ => CppReturn tk_err
                   end
         end
  end.

(** lexer.cpp.tpl 55-72: the loop of [next].  Every turn but the last reads a character, so that [fuel] of the number of
    bytes and two is enough ([cpp_next] gives that much). *)
Fixpoint cpp_loop (al : alphabet) (d : dfa token_rule) (fuel : nat) (lx : cpp_lexer) (state : nat)
  : res lex_err (cpp_lexer * string) :=
  match fuel with
  | O => OutOfFuel
  | S fuel' =>
    let lx := if cl_ch lx =? no_char then
                let '(c, e, rest) := utf8_decode (cl_in lx) in
                mkCpp rest c e (cl_position lx) (cl_start lx) (cl_end lx)
              else lx in
    if negb (cl_err lx =? 0) then Ok (lx, tk_err)
    else match alphabet_switch al 0 (cl_ch lx) with
    | None => Ok (lx, tk_err)
    | Some i =>
      match automaton_switch d state i with
      | CppMove target => cpp_loop al d fuel' (mkCpp (cl_in lx) no_char (cl_err lx) (S (cl_position lx)) (cl_start lx) (cl_end lx)) target
      | CppAccept name => Ok (mkCpp (cl_in lx) (cl_ch lx) (cl_err lx) (cl_position lx) (cl_start lx) (cl_position lx), enumerator name)
      | CppReturn tk => Ok (lx, tk)
      end
    end
  end.

(** lexer.cpp.tpl 51-74, [Lexer::next].  [size_t] is unbounded here. *)
Definition cpp_next (al : alphabet) (d : dfa token_rule) (lx : cpp_lexer) : res lex_err (cpp_lexer * string) :=
  cpp_loop al d (S (S (length (cl_in lx)))) (mkCpp (cl_in lx) (cl_ch lx) (cl_err lx) (cl_position lx) (cl_position lx) (cl_end lx)) 0.

(** lexer.cpp.tpl 53-73: [n] calls of [next]. *)
Fixpoint cpp_run (al : alphabet) (d : dfa token_rule) (n : nat) (lx : cpp_lexer) : res lex_err (list (cpp_lexer * string)) :=
  match n with
  | O => Ok []
  | S n' => do (lx', tk) <- cpp_next al d lx; do rest <- cpp_run al d n' lx'; Ok ((lx', tk) :: rest)
  end.
