(** Printed reports. *)
From Coq Require Import String Ascii List Arith NArith Bool.
From Verif Require Import Base LexerModel NamesModel BootModel PositionModel TableModel PipelineModel ReportModel ReportSpec ReportProof.
Import ListNotations.
Local Open Scope string_scope.
Local Open Scope list_scope.

(** Without colours, and with the sequences owo-colors writes. *)
Definition plain (s : style) (x : list N) : list N := x.
Definition escape (s : string) : list N := 27%N :: bytes s.
Definition ansi_before (s : style) : list N := escape "[1m" ++ match s with BoldRed => escape "[91m" | BoldBlue => escape "[34m" | Bold => [] end.
Definition ansi_after (s : style) : list N := match s with Bold => [] | _ => escape "[39m" end ++ escape "[0m".
Definition ansi (s : style) (x : list N) : list N := ansi_before s ++ x ++ ansi_after s.
Lemma plain_painted : painted plain (fun _ => []) (fun _ => []).
Proof. split; [intros s x; symmetry; apply app_nil_r|intros s c []|intros s c []|discriminate]. Qed.
Lemma ansi_painted : painted ansi ansi_before ansi_after.
Proof. split; [reflexivity|intros s; apply unbrokenb_ok; destruct s; reflexivity|intros s; apply unbrokenb_ok; destruct s; reflexivity|discriminate]. Qed.
Definition grammar_file : list N := bytes "g.lapex".
Lemma grammar_file_line : unbroken_line grammar_file. Proof. apply unbrokenb_ok. reflexivity. Qed.
Lemma no_reason_line : unbroken_line []. Proof. intros c []. Qed.

(** A conflict, and a tie of two rules. *)
Definition clash_report : report := ShiftReduceReport 5 "ADD" (mkLocation (mkPos 4 1) (bytes "prod e = e ADD e | NUM;")) ("<anon>(2) -> e(0) ADD(0) e(0) " ++ bullet ++ " ").
Definition tie_report : report := PrecedenceReport [(mkLocation (mkPos 3 1) (bytes "token B =" ++ [10%N] ++ bytes " ""x"";"), "B"); (mkLocation (mkPos 2 1) (bytes "token A = ""x"";"), "A")].
Lemma no_return : forall l, forallb (fun c => negb (N.eqb c 13)) l = true -> ~ In 13%N l.
Proof. intros l H X. rewrite forallb_forall in H. apply H in X. discriminate. Qed.
Lemma clash_readable : readable clash_report.
Proof. split; [apply unbrokenb_ok; reflexivity|]. split; [apply no_return; reflexivity|apply unbrokenb_ok; vm_compute; reflexivity]. Qed.
Lemma tie_readable : readable tie_report.
Proof.
  split; [discriminate|]. intros w s [E|[E|[]]]; injection E as <- <-; (split; [apply no_return; reflexivity|apply unbrokenb_ok; reflexivity]).
Qed.
Definition both_lines : list (list N) :=
  map bytes ["error: shift-reduce conflict in grammar"; " --> g.lapex:4:1"; "  |  "; "  |  prod e = e ADD e | NUM;"; "  |  ~~~~~~~~~~~~~~~~~~~~~~~"; "  |  "; "  |  In state 5:"; "  |  Could shift token"] ++
  [bytes "  |  " ++ [9%N] ++ bytes "ADD"; bytes "  |  Or reduce item"; bytes "  |  " ++ [9%N] ++ bytes ("<anon>(2) -> e(0) ADD(0) e(0) " ++ bullet ++ " "); bytes "  |  "; []] ++
  map bytes ["error: conflicting token precedences in grammar"; " --> g.lapex:3:1"; "  |  "; "  |  token B ="; "  |   ""x"";"; "  |  ~~~~~~~~~~~~~~~"; "  |  "; "  |  Token has identical precedence:"] ++
  [bytes "  |  " ++ [9%N] ++ bytes "B"] ++ map bytes ["  |  "; " --> g.lapex:2:1"; "  |  "; "  |  token A = ""x"";"; "  |  ~~~~~~~~~~~~~~"; "  |  "; "  |  Token has identical precedence:"] ++ [bytes "  |  " ++ [9%N] ++ bytes "A"; bytes "  |  "].
Lemma both_printed : print_reports plain grammar_file [] [clash_report; tie_report] = ended both_lines.
Proof. vm_compute. reflexivity. Qed.
Definition tie_start : list N :=
  escape "[1m" ++ escape "[91m" ++ bytes "error" ++ escape "[39m" ++ escape "[0m" ++ bytes ": conflicting token precedences in grammar" ++ [10%N] ++
  bytes " " ++ escape "[1m" ++ escape "[34m" ++ bytes "-->" ++ escape "[39m" ++ escape "[0m" ++ bytes " g.lapex:3:1" ++ [10%N].
Lemma tie_begun : firstn (List.length tie_start) (print_reports ansi grammar_file [] [tie_report]) = tie_start.
Proof. vm_compute. reflexivity. Qed.

(** Texts which differ in the place of a carriage return, and conflicts without items. *)
Definition report_of (text : list N) : report := PrecedenceReport [(mkLocation (mkPos 1 1) text, "A")].
Definition first_return : list N := [97; 13; 10; 98; 10; 99]%N.
Definition second_return : list N := [97; 10; 98; 13; 10; 99]%N.
Lemma returns_alike : forall paint file reason, print_reports paint file reason [report_of first_return] = print_reports paint file reason [report_of second_return].
Proof.
  intros paint file reason. assert (S : std_lines (section_text paint (mkLocation (mkPos 1 1) first_return) (precedence_contents paint "A")) = std_lines (section_text paint (mkLocation (mkPos 1 1) second_return) (precedence_contents paint "A"))).
  { unfold section_text. cbn [lc_text]. change (byte_len first_return) with 6%N. change (byte_len second_return) with 6%N. unfold first_return, second_return. reflexivity. }
  unfold print_reports, display_report, report_of, display_type, write_sections, write_section. rewrite S. reflexivity.
Qed.
Definition wide : location := mkLocation (mkPos 1 1) [252]%N.
