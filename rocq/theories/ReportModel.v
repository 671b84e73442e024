(** Model of how reports are printed: lapex/src/errors.rs 15-26 and 150-250, and lapex-cli/src/main.rs 61-71.  Line numbers are those of errors.rs unless another file is named.
    A printed text is a list of code points; names and texts of items are the bytes of their UTF-8 encoding, as in TableModel.v.  Definitions only. *)
From Coq Require Import String Ascii List Arith NArith Bool.
From Verif Require Import Base InputModel LexerModel NamesModel BootModel PositionModel PipelineModel.
Import ListNotations.
Local Open Scope string_scope.
Local Open Scope list_scope.

(** 23, 174-176, 184, 199-200, 227, 235 and 240: [.bright_red().bold()], [.blue().bold()] and [.bold()] of the crate owo-colors. *)
Inductive style : Type := BoldRed | BoldBlue | Bold.
(** [str::lines] of the standard library, used in 238: the ends of lines are ["\n"] and ["\r\n"]; there is no line behind the last end. *)
Fixpoint std_lines (l : list N) : list (list N) :=
  match l with
  | [] => []
  | 10%N :: r => [] :: std_lines r
  | 13%N :: ((10%N :: r) as s) => [] :: std_lines r
  | c :: r => match std_lines r with [] => [[c]] | x :: xs => (c :: x) :: xs end
  end.
(** [join] of the standard library, used in 242. *)
Fixpoint joined (sep : list N) (l : list (list N)) : list N :=
  match l with
  | [] => []
  | [x] => x
  | x :: r => x ++ sep ++ joined sep r
  end.

Section Print.
(** What owo-colors makes of a text in a style, the file as it is displayed, and the reason of an I/O error. *)
Variables (paint : style -> list N -> list N) (file reason : list N).

(** 174, 199, 229-230: [{}] of an integer. *)
Definition number_text (n : N) : list N := bytes (decimal n).
(** 232-237: the text in the margin. *)
Definition section_text (where_ : location) (contents : list N) : list N :=
  lc_text where_ ++ [10%N] ++ paint BoldRed (repeat 126%N (N.to_nat (byte_len (lc_text where_)))) ++ [10; 10]%N ++ contents.
(** 219-243, [write_section]. *)
Definition write_section (where_ : location) (contents : list N) : list N :=
  bytes " " ++ paint BoldBlue (bytes "-->") ++ bytes " " ++ file ++ bytes ":" ++ number_text (sp_line (lc_pos where_)) ++ bytes ":" ++ number_text (sp_col (lc_pos where_)) ++ [10%N] ++
  joined [10%N] (map (fun l => bytes "  " ++ paint BoldBlue (bytes "|") ++ bytes "  " ++ l) ([[]] ++ std_lines (section_text where_ contents) ++ [[]])).
(** 172-177. *)
Definition shift_contents (state : nat) (symbol_name item : string) : list N :=
  bytes "In state " ++ paint Bold (number_text (N.of_nat state)) ++ bytes ":" ++ [10%N] ++ bytes "Could shift token" ++ [10; 9]%N ++ paint Bold (bytes symbol_name) ++ [10%N] ++ bytes "Or reduce item" ++ [10; 9]%N ++ paint Bold (bytes item).
(** 184. *)
Definition precedence_contents (rule : string) : list N := bytes "Token has identical precedence:" ++ [10; 9]%N ++ paint Bold (bytes rule).
(** 197-201. *)
Definition reduce_contents (state : nat) (item : string) : list N :=
  bytes "In state " ++ paint Bold (number_text (N.of_nat state)) ++ bytes ":" ++ [10%N] ++ bytes "Could reduce this item:" ++ [10; 9]%N ++ paint Bold (bytes item).
(** 181-191 and 194-207: sections with the end of a line between them. *)
Fixpoint write_sections (contents : string -> list N) (l : list (location * string)) : list N :=
  match l with
  | [] => []
  | (where_, text) :: r => write_section where_ (contents text) ++ match r with [] => [] | _ => [10%N] end ++ write_sections contents r
  end.
(** 162-214, [LapexErrorType::fmt]. *)
Definition display_type (r : report) : list N :=
  match r with
  | IoReport => bytes "     file: " ++ file ++ [10%N] ++ bytes "     reason: " ++ reason
  | ShiftReduceReport state name where_ item => write_section where_ (shift_contents state name item)
  | PrecedenceReport rules => write_sections precedence_contents rules
  | ReduceReduceReport state items => write_sections (reduce_contents state) items
  end.
(** 151-159, [message]. *)
Definition report_message (r : report) : list N :=
  bytes match r with
        | ShiftReduceReport _ _ _ _ => "shift-reduce conflict in grammar"
        | ReduceReduceReport _ _ => "reduce-reduce conflict in grammar"
        | PrecedenceReport _ => "conflicting token precedences in grammar"
        | IoReport => "failed to read grammar file"
        end.
(** 20-26 and 245-250, [LapexError::fmt]. *)
Definition display_report (r : report) : list N := paint BoldRed (bytes "error") ++ bytes ": " ++ report_message r ++ [10%N] ++ display_type r.
(** lapex-cli/src/main.rs 62-68: every report with the end of a line, and an empty line between two. *)
Fixpoint print_reports (l : list report) : list N :=
  match l with
  | [] => []
  | r :: l => display_report r ++ [10%N] ++ match l with [] => [] | _ => [10%N] end ++ print_reports l
  end.
End Print.
