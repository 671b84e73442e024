(** Property theorems for the texts of rules, items and tables (C44). *)
From Coq Require Import String Ascii List Arith NArith Bool Lia.
From Verif Require Import Base InputModel GrammarModel GrammarSpec GrammarFactsProof LRModel LRSpec LRExample GLRSpec NamesModel NamesSpec TableModel TableSpec TableProof PipelineFactsProof.
Import ListNotations.
Local Open Scope string_scope.
Local Open Scope nat_scope.
Local Open Scope list_scope.

(** C44.  The name of a symbol tells the symbol. *)
Theorem symbol_names_tell : forall rs g, from_rule_set rs = Ok g -> small rs -> plain_names rs -> forall s s' n, get_symbol_name g s = Ok n -> get_symbol_name g s' = Ok n -> s = s'.
Proof. exact symbols_tell. Qed.
Example symbol_names_tell_case : from_rule_set amb_rules = Ok amb_g /\ small amb_rules /\ plain_names amb_rules /\ get_symbol_name amb_g (NonTerminal 1) = Ok "e(1)" /\ get_symbol_name amb_g (Terminal 1) = Ok "ADD(1)".
Proof.
  split; [exact amb_built|]. split; [apply smallb_ok; reflexivity|]. split; [|split; reflexivity]. split.
  - intros t [<-|[<-|[]]]; cbn; unfold plain_char; repeat split; auto.
  - intros p [<-|[<-|[<-|[]]]]; cbn; unfold plain_char; repeat split; auto.
Qed.
Print Assumptions symbol_names_tell.

(** C44.  The line of a rule in the table file tells its left-hand side and its right-hand side. *)
Theorem rule_texts_tell : forall rs g, from_rule_set rs = Ok g -> small rs -> plain_names rs -> forall r r' text, In r (g_rules g) -> In r' (g_rules g) -> rule_text g r = Ok text -> rule_text g r' = Ok text ->
  r_lhs r = r_lhs r' /\ r_rhs r = r_rhs r'.
Proof. exact rules_tell. Qed.
Example rule_texts_tell_case : exists r, In r (g_rules amb_g) /\ rule_text amb_g r = Ok "e(1) -> e(1) ADD(1) e(1)" /\ r_rhs r = [NonTerminal 1; Terminal 1; NonTerminal 1].
Proof. exists (nth 1 (g_rules amb_g) (g_entry_rule amb_g)). split; [right; left; reflexivity|split; reflexivity]. Qed.
Print Assumptions rule_texts_tell.

(** C44.  The text of an item in a report tells left-hand side, right-hand side and position of the dot. *)
Theorem item_texts_tell : forall rs g, from_rule_set rs = Ok g -> small rs -> plain_names rs -> forall it it' text, it_dot it <= length (rhs_of g (it_rule it)) -> it_dot it' <= length (rhs_of g (it_rule it')) ->
  item_text g it = Ok text -> item_text g it' = Ok text -> lhs_of g (it_rule it) = lhs_of g (it_rule it') /\ rhs_of g (it_rule it) = rhs_of g (it_rule it') /\ it_dot it = it_dot it'.
Proof. exact items_tell. Qed.
Example item_texts_tell_case : item_text amb_g (mkItem (Some 1) 2 [End]) = Ok ("e(1) -> e(1) ADD(1) " ++ bullet ++ " e(1)")%string /\ item_text amb_g (mkItem None 0 [End]) = Ok (" " ++ bullet ++ " s(0)")%string /\
  2 <= length (rhs_of amb_g (Some 1)).
Proof. split; [reflexivity|]. split; [reflexivity|]. cbn. lia. Qed.
Print Assumptions item_texts_tell.

(** C44.  A table file can be written for every table generated, and tells the number of states and every cell that does not hold several entries. *)
Theorem table_file_tells : forall rs g k m allow r tb, from_rule_set rs = Ok g -> generates k m g allow = Ok r -> table_of_result r tb ->
  exists text, output_table g tb = Ok text /\ forall tb', output_table g tb' = Ok text ->
    tb_states tb = tb_states tb' /\ forall q s, q < tb_states tb -> In s (all_symbols g) \/ s = End -> get_entry tb q s = get_entry tb' q s \/ (crowded (get_entry tb q s) /\ crowded (get_entry tb' q s)).
Proof. exact table_file. Qed.
Example table_file_tells_case : from_rule_set paren_rules = Ok paren_g /\ generates KindLALR 100 paren_g false = Ok (NoConflicts paren_lalr_tb) /\ get_entry paren_lalr_tb 4 (Terminal 1) = Some [Reduce (Some 0)] /\
  output_table paren_g paren_lalr_tb = Ok
"Rules:
0: s(0) -> LPAR(0) s(0) RPAR(1)
1: s(0) -> A(2)

 |LPAR(0)|RPAR(1)|A(2)|s(0)|<end>|
0|s1     |e      |s2  |a   |     |
1|s1     |e      |s2  |s3  |     |
2|e      |r1     |e   |e   |r1   |
3|e      |s4     |e   |e   |     |
4|e      |r0     |e   |e   |r0   |
".
Proof. split; [exact paren_built|]. split; [exact paren_lalr_tb_ok|]. split; reflexivity. Qed.
Print Assumptions table_file_tells.

(** C44.  Two tables of a grammar with the same table file give the same Rust parser. *)
Theorem table_file_tells_parser : forall rs g k m allow r tb k' m' allow' r' tb' text, from_rule_set rs = Ok g -> generates k m g allow = Ok r -> table_of_result r tb -> generates k' m' g allow' = Ok r' -> table_of_result r' tb' ->
  output_table g tb = Ok text -> output_table g tb' = Ok text -> write_parser g tb = write_parser g tb'.
Proof. exact parsers_tell. Qed.
Example table_file_tells_parser_case : exists tb text, generates KindLALR 100 fresh_g false = Ok (NoConflicts tb) /\ generates KindLALR 200 fresh_g false = Ok (NoConflicts tb) /\ output_table fresh_g tb = Ok text /\ exists p, write_parser fresh_g tb = Ok p.
Proof. eexists. eexists. split; [vm_compute; reflexivity|]. split; [vm_compute; reflexivity|]. split; [vm_compute; reflexivity|]. eexists. vm_compute. reflexivity. Qed.
Print Assumptions table_file_tells_parser.

(** C44.  The mark c does not mean that a conflict was reported: the LR(0) table of [prod s = !;] has it. *)
Theorem conflict_mark_refuted : exists rs g tb q s, from_rule_set rs = Ok g /\ generates KindLR0 100 g false = Ok (NoConflicts tb) /\ cell_text (get_entry tb q s) = Ok "c" /\ In s (all_symbols g).
Proof. exists empty_rules, empty_g, empty_tb, 0, (NonTerminal 0). split; [exact empty_built|]. split; [exact empty_tb_ok|]. split; [reflexivity|right; left; reflexivity]. Qed.
Print Assumptions conflict_mark_refuted.
