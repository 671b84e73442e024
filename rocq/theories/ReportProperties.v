(** Property theorems about printed reports (C61). *)
From Coq Require Import String List Arith NArith Bool.
From Verif Require Import Base InputModel LexerModel BootModel BootExample PositionModel PositionSpec InputGenModel InputGenLapex InputGenFactsProof InputGenExample InputTextSpec PipelineModel PipelineSpec PipelineExample ReportModel ReportSpec ReportProof ReportFileProof ReportExample.
Import ListNotations.
Local Open Scope string_scope.
Local Open Scope list_scope.

(** C61.  What is printed, line by line: [reports_lines] in ReportSpec.v. *)
Theorem reports_layout : forall paint before after file reason l, painted paint before after -> Forall readable l -> print_reports paint file reason l = ended (reports_lines paint file reason l).
Proof. intros paint before after file reason l pt. exact (reports_layout_proof paint before after file reason pt l). Qed.
Example reports_layout_case : painted plain (fun _ => []) (fun _ => []) /\ painted ansi ansi_before ansi_after /\ Forall readable [clash_report; tie_report] /\
  print_reports plain grammar_file [] [clash_report; tie_report] = ended both_lines /\ firstn (List.length tie_start) (print_reports ansi grammar_file [] [tie_report]) = tie_start.
Proof.
  split; [exact plain_painted|]. split; [exact ansi_painted|]. split; [constructor; [exact clash_readable|constructor; [exact tie_readable|constructor]]|].
  split; [exact both_printed|exact tie_begun].
Qed.
Print Assumptions reports_layout.

(** C61.  The lines of a text: its pieces between ends of lines, without the empty one behind a last end of line. *)
Theorem lines_of_text : forall t, ~ In 13%N t -> std_lines (t ++ [10%N]) = pieces t /\ std_lines t = if (last t 10 =? 10)%N then removelast (pieces t) else pieces t.
Proof. exact lines_of_text_proof. Qed.
Example lines_of_text_case : ~ In 13%N [97; 10; 10; 98]%N /\ std_lines [97; 10; 10; 98]%N = [[97]; []; [98]]%N /\ std_lines [97; 10; 10; 98; 10]%N = [[97]; []; [98]]%N /\ std_lines [97; 10; 10]%N = [[97]; []]%N.
Proof. split; [apply no_return; reflexivity|]. repeat split. Qed.
Print Assumptions lines_of_text.

(** C61.  What is printed tells the reports. *)
Theorem reports_told : forall paint before after file reason l l', painted paint before after -> unbroken_line file -> unbroken_line reason -> Forall readable l -> Forall readable l' ->
  print_reports paint file reason l = print_reports paint file reason l' -> l = l'.
Proof. intros paint before after file reason l l' pt F R. exact (reports_told_proof paint before after file reason pt F R l l'). Qed.
Example reports_told_case : unbroken_line grammar_file /\ unbroken_line [] /\ readable clash_report /\ readable tie_report /\
  print_reports plain grammar_file [] [clash_report; tie_report] <> print_reports plain grammar_file [] [tie_report; clash_report].
Proof. split; [exact grammar_file_line|]. split; [exact no_reason_line|]. split; [exact clash_readable|]. split; [exact tie_readable|]. vm_compute. discriminate. Qed.
Print Assumptions reports_told.

(** C61.  Not so for texts with carriage returns, whatever the colours: [lines] drops those at the ends of lines. *)
Theorem reports_told_refuted : forall paint file reason, exists l l', l <> l' /\ print_reports paint file reason l = print_reports paint file reason l'.
Proof. intros paint file reason. exists [report_of first_return], [report_of second_return]. split; [discriminate|exact (returns_alike paint file reason)]. Qed.
Print Assumptions reports_told_refuted.

(** C61.  The underline is as long as the text, and not longer, just if the text is ASCII. *)
Theorem underline_width : forall paint before after where_, painted paint before after ->
  (underline paint where_ = before BoldRed ++ repeat 126%N (List.length (lc_text where_)) ++ after BoldRed <-> Forall (fun c => (c < 128)%N) (lc_text where_)).
Proof. exact underline_proof. Qed.
Example underline_width_case : painted plain (fun _ => []) (fun _ => []) /\ underline plain (mkLocation (mkPos 1 1) (bytes "token")) = bytes "~~~~~" /\ lc_text wide = [252%N] /\ underline plain wide = bytes "~~".
Proof. split; [exact plain_painted|]. repeat split; vm_compute; reflexivity. Qed.
Print Assumptions underline_width.

(** C61.  The reports on an ASCII file without carriage returns are all readable: the theorems above are about what a run prints. *)
Theorem reports_readable : forall regex gn n source sr, build_input_parser 3000 (bytes lapex_text) = Some gn -> parse_lapex regex gn n source = Ok sr ->
  Forall (fun c => (c < 128)%N) source -> unbroken source -> positions_fit source -> ~ In 13%N source ->
  forall create fuel lexer alg table l rs, (lexer = true -> lexable (map snd (sr_tokens sr))) -> snd (generate create fuel (parse_lapex regex gn n) lexer alg table l (Some source)) = Err rs ->
  Forall readable rs.
Proof. exact reports_readable_proof. Qed.
Example reports_readable_case : build_input_parser 3000 (bytes lapex_text) = Some lapex_gen /\ read_file clash_file = Ok clash_sr /\ Forall (fun c => (c < 128)%N) clash_file /\ unbroken clash_file /\ positions_fit clash_file /\ ~ In 13%N clash_file /\
  lexable (map snd (sr_tokens clash_sr)) /\ snd (run LR1 clash_file) = Err [clash_report].
Proof.
  split; [exact lapex_gen_built|]. split; [exact clash_parsed|]. split; [apply file_ascii|]. split; [apply file_unbroken|]. split; [apply file_fits|]. split; [apply no_return; vm_compute; reflexivity|]. split; [apply all_lexable|].
  destruct clash_run as (files & -> & _). reflexivity.
Qed.
Print Assumptions reports_readable.
