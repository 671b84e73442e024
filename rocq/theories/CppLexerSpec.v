(** Specification vocabulary for the C++ lexer: the UTF-8 encoding form (Unicode standard, table 3-6), and
    agreement of its results with those of the Rust lexer. *)
From Coq Require Import String List NArith.
From Verif Require Import Base InputModel LexerModel CppLexerModel.
Import ListNotations.
Local Open Scope N_scope.
Local Open Scope list_scope.

(** Unicode scalar values. *)
Definition scalar (c : N) : Prop := c < 0xD800 \/ 0xE000 <= c <= 0x10FFFF.

(** [utf8 c bs]: the bytes [bs] are the encoding of [c], by the bits of [c]. *)
Inductive utf8 : N -> list N -> Prop :=
| utf8_1 : forall c, c < 0x80 -> utf8 c [c]
| utf8_2 : forall x y, x < 32 -> y < 64 -> 0x80 <= x * 64 + y -> utf8 (x * 64 + y) [0xC0 + x; 0x80 + y]
| utf8_3 : forall x y z, x < 16 -> y < 64 -> z < 64 -> 0x800 <= (x * 64 + y) * 64 + z -> scalar ((x * 64 + y) * 64 + z) ->
    utf8 ((x * 64 + y) * 64 + z) [0xE0 + x; 0x80 + y; 0x80 + z]
| utf8_4 : forall w x y z, w < 8 -> x < 64 -> y < 64 -> z < 64 -> 0x10000 <= ((w * 64 + x) * 64 + y) * 64 + z <= 0x10FFFF ->
    utf8 (((w * 64 + x) * 64 + y) * 64 + z) [0xF0 + w; 0x80 + x; 0x80 + y; 0x80 + z].

(** The encoding of a text. *)
Inductive utf8_text : list N -> list N -> Prop :=
| utf8_nil : utf8_text [] []
| utf8_cons : forall c bs text bytes, utf8 c bs -> utf8_text text bytes -> utf8_text (c :: text) (bs ++ bytes).

Definition is_byte (b : N) : Prop := b < 256.

(** Bytes which do not begin with the encoding of a character. *)
Definition malformed (bytes : list N) : Prop := bytes <> [] /\ forall c bs rest, utf8 c bs -> bytes <> bs ++ rest.

(** The enumerator for a result of the Rust lexer. *)
Definition token_of (r : token_type + lexer_error) : string :=
  match r with inl EndOfFile => tk_eof | inl (Tk r) => enumerator (tr_name r) | inr _ => tk_err end.

(** What the two lexers return, for the text [text] followed by [junk]: the same token; the Rust lexer counts bytes and
    the C++ lexer characters; [end] is set with tokens only. *)
Definition agree (text junk : list N) (a : lexer * (token_type + lexer_error)) (b : cpp_lexer * string) : Prop :=
  (junk = [] \/ lx_iter (fst a) <> [] -> snd b = token_of (snd a) /\
     exists p w, text = p ++ w ++ lx_iter (fst a) /\ lexer_span (fst a) = (byte_len p, byte_len (p ++ w)) /\ cl_start (fst b) = length p /\
       (forall t, snd a = inl (Tk t) -> cl_end (fst b) = length (p ++ w))) /\
  (junk <> [] /\ lx_iter (fst a) = [] -> snd b = tk_err).
