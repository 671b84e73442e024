(** The lines of printed reports. *)
From Coq Require Import String Ascii List Arith NArith Bool.
From Verif Require Import Base LexerModel NamesModel BootModel PositionModel PipelineModel ReportModel.
Import ListNotations.
Local Open Scope string_scope.
Local Open Scope list_scope.

(** A style is put in front of and behind a text, without line breaks, and does not begin with a space. *)
Definition unbroken_line (l : list N) : Prop := forall c, In c l -> c <> 10%N /\ c <> 13%N.
Record painted (paint : style -> list N -> list N) (before after : style -> list N) : Prop := {
  pt_paint : forall s x, paint s x = before s ++ x ++ after s;
  pt_before : forall s, unbroken_line (before s);
  pt_after : forall s, unbroken_line (after s);
  pt_first : forall s, hd_error (before s) <> Some 32%N
}.
(** Texts as lists of lines. *)
Fixpoint pieces (l : list N) : list (list N) :=
  match l with
  | [] => [[]]
  | c :: r => if N.eqb c 10 then [] :: pieces r else match pieces r with x :: xs => (c :: x) :: xs | [] => [[c]] end
  end.
Definition ended (ls : list (list N)) : list N := concat (map (fun x => x ++ [10%N]) ls).
(** Reports whose texts are without carriage returns, whose names are on one line, and which have a section. *)
Definition readable_location (where_ : location) : Prop := ~ In 13%N (lc_text where_).
Definition readable_name (s : string) : Prop := unbroken_line (bytes s).
Definition readable (r : report) : Prop :=
  match r with
  | IoReport => True
  | ShiftReduceReport _ name where_ item => readable_name name /\ readable_location where_ /\ readable_name item
  | ReduceReduceReport _ l | PrecedenceReport l => l <> [] /\ forall where_ s, In (where_, s) l -> readable_location where_ /\ readable_name s
  end.

Section Lines.
Variables (paint : style -> list N -> list N) (file reason : list N).
Definition bold (s : string) : list N := paint Bold (bytes s).
(** A section: the place, and behind the margin the text, as many tildes as it has bytes, and what is said about it, with empty lines around. *)
Definition margin (x : list N) : list N := bytes "  " ++ paint BoldBlue (bytes "|") ++ bytes "  " ++ x.
Definition place_line (where_ : location) : list N :=
  bytes " " ++ paint BoldBlue (bytes "-->") ++ bytes " " ++ file ++ bytes ":" ++ bytes (decimal (sp_line (lc_pos where_))) ++ bytes ":" ++ bytes (decimal (sp_col (lc_pos where_))).
Definition underline (where_ : location) : list N := paint BoldRed (repeat 126%N (N.to_nat (byte_len (lc_text where_)))).
Definition section_lines (where_ : location) (said : list (list N)) : list (list N) :=
  place_line where_ :: map margin ([[]] ++ pieces (lc_text where_) ++ [underline where_; []] ++ said ++ [[]]).
Definition state_line (state : nat) : list N := bytes "In state " ++ bold (decimal (N.of_nat state)) ++ bytes ":".
Definition tabbed (s : string) : list N := 9%N :: bold s.
Definition report_sections (r : report) : list (location * list (list N)) :=
  match r with
  | IoReport => []
  | ShiftReduceReport state name where_ item => [(where_, [state_line state; bytes "Could shift token"; tabbed name; bytes "Or reduce item"; tabbed item])]
  | ReduceReduceReport state l => map (fun x => (fst x, [state_line state; bytes "Could reduce this item:"; tabbed (snd x)])) l
  | PrecedenceReport l => map (fun x => (fst x, [bytes "Token has identical precedence:"; tabbed (snd x)])) l
  end.
Definition report_title (r : report) : string :=
  match r with
  | IoReport => "failed to read grammar file"
  | ShiftReduceReport _ _ _ _ => "shift-reduce conflict in grammar"
  | ReduceReduceReport _ _ => "reduce-reduce conflict in grammar"
  | PrecedenceReport _ => "conflicting token precedences in grammar"
  end.
Definition report_lines (r : report) : list (list N) :=
  (paint BoldRed (bytes "error") ++ bytes ": " ++ bytes (report_title r)) ::
  match r with
  | IoReport => [bytes "     file: " ++ file; bytes "     reason: " ++ reason]
  | _ => concat (map (fun x => section_lines (fst x) (snd x)) (report_sections r))
  end.
(** Reports with an empty line between two. *)
Fixpoint reports_lines (l : list report) : list (list N) :=
  match l with
  | [] => []
  | [r] => report_lines r
  | r :: l => report_lines r ++ [[]] ++ reports_lines l
  end.
End Lines.
