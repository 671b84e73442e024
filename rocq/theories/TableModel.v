(** Model of the texts in which a grammar is shown to its author: the names of symbols and rules, lapex-parser/src/grammar.rs 109-129 and 216-237,
    items, lapex-parser/src/lr_parser/item.rs 83-117, and the table file, lapex-parser/src/lr_parser/mod.rs 530-603.  A Rust string is the
    list of its UTF-8 bytes.  Definitions only. *)
From Coq Require Import String Ascii List Arith NArith Bool.
From Verif Require Import Base InputModel GrammarModel LRModel NamesModel CppLRModel.
Import ListNotations.
Local Open Scope nat_scope.
Local Open Scope string_scope.
Local Open Scope list_scope.

(** grammar.rs 216-237, [get_symbol_name]. *)
Definition get_symbol_name (g : grammar) (s : symbol) : res name_err string :=
  match s with
  | Terminal t => do name <- grammar_token_name g t; Ok (name ++ "(" ++ decimal t ++ ")")%string
  | NonTerminal i =>
    match map_get s (g_prods g) with
    | Some name => Ok (name ++ "(" ++ decimal i ++ ")")%string
    | None => Ok ("<anon>(" ++ decimal i ++ ")")%string
    end
  | Epsilon => Ok "<eps>"
  | End => Ok "<end>"
  end.

(** grammar.rs 111-116 and 122: names of several symbols, joined by spaces. *)
Definition symbol_names (g : grammar) (l : list symbol) : res name_err string :=
  do names <- res_list (map (get_symbol_name g) l); Ok (String.concat " " names).

(** grammar.rs 109-129, [Rule::display]. *)
Definition rule_text (g : grammar) (r : rule) : res name_err string :=
  do rhs <- symbol_names g (r_rhs r);
  match r_lhs r with
  | Some i => do lhs <- get_symbol_name g (NonTerminal i); Ok (lhs ++ " -> " ++ rhs)%string
  | None => Ok rhs
  end.

(** item.rs 102 and 111: the bullet, U+2022, in UTF-8. *)
Definition bullet : string := String "226" (String "128" (String "162" EmptyString)).

(** item.rs 83-117, [Item::display]. *)
Definition item_text (g : grammar) (it : item) : res name_err string :=
  do pre <- symbol_names g (firstn (it_dot it) (rhs_of g (it_rule it)));
  do post <- symbol_names g (skipn (it_dot it) (rhs_of g (it_rule it)));
  match lhs_of g (it_rule it) with
  | Some i => do lhs <- get_symbol_name g (NonTerminal i); Ok (lhs ++ " -> " ++ pre ++ " " ++ bullet ++ " " ++ post)%string
  | None => Ok (pre ++ " " ++ bullet ++ " " ++ post)%string
  end.

(** ** lr_parser/mod.rs: the table file *)

(** 553, 561 and 573: [n] times a character, for padding. *)
Fixpoint fill (c : ascii) (n : nat) : string := match n with O => EmptyString | S n => String c (fill c n) end.
(** 571-597, [{: <width$}]: spaces behind. *)
Definition pad_right (width : nat) (s : string) : string := (s ++ fill " " (width - String.length s))%string.
(** 561, [{:0width$}]: zeros in front. *)
Definition pad_zeros (width : nat) (s : string) : string := (fill "0" (width - String.length s) ++ s)%string.

(** 541, 550, 559 and 600: the end of a line. *)
Definition newline_text : string := String "010" EmptyString.

(** 535-549: the list of rules; [rule_index_map] is sorted by the addresses of the rules, that is by index. *)
Definition rule_line (g : grammar) (e : nat * rule) : res name_err string :=
  do t <- rule_text g (snd e); Ok (decimal (N.of_nat (fst e)) ++ ": " ++ t ++ newline_text)%string.

(** 554 and 562-565: the columns. *)
Definition table_columns (g : grammar) : list symbol := all_symbols g ++ [End].

(** 567-598: what is written into a cell; the entry rule has no index (580). *)
Definition cell_text (entries : option (list table_entry)) : res name_err string :=
  match entries with
  | None => Ok EmptyString
  | Some [Shift target] => Ok ("s" ++ decimal (N.of_nat target))%string
  | Some [Reduce (Some k)] => Ok ("r" ++ decimal (N.of_nat k))%string
  | Some [Reduce None] => Panic
  | Some [Error] => Ok "e"
  | Some [Accept] => Ok "a"
  | Some _ => Ok "c"
  end.

(** 562-599: one cell, with the width of its column. *)
Definition table_cell (tb : lr_table) (state : nat) (c : symbol * string) : res name_err string :=
  do t <- cell_text (get_entry tb state (fst c)); Ok (pad_right (String.length (snd c)) t ++ "|")%string.

(** 561-600: one line. *)
Definition table_line (tb : lr_table) (digits : nat) (columns : list (symbol * string)) (state : nat) : res name_err string :=
  do cells <- res_list (map (table_cell tb state) columns);
  Ok (pad_zeros digits (decimal (N.of_nat state)) ++ "|" ++ String.concat "" cells ++ newline_text)%string.

(** 530-603, [output_table].  On a panic the file holds what was written before; that text is not modelled. *)
Definition output_table (g : grammar) (tb : lr_table) : res name_err string :=
  do rules <- res_list (map (rule_line g) (enumerate (g_rules g)));
  let digits := String.length (decimal (N.of_nat (tb_states tb))) in
  do names <- res_list (map (get_symbol_name g) (table_columns g));
  let header := (fill " " digits ++ String.concat "" (map (fun n => "|" ++ n)%string names) ++ "|" ++ newline_text)%string in
  do lines <- res_list (map (table_line tb digits (combine (table_columns g) names)) (seq 0 (tb_states tb)));
  Ok ("Rules:" ++ newline_text ++ String.concat "" rules ++ newline_text ++ header ++ String.concat "" lines)%string.
