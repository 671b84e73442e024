(** Two files with the same displayed grammar. *)
From Coq Require Import String Ascii List Arith NArith Bool.
From Verif Require Import Base InputModel BootModel GrammarModel GrammarSpec InputGenModel InputGenExample InputTextWriteProof PipelineModel PipelineExample LRModel NamesModel TableModel GrammarTextModel.
Import ListNotations.
Local Open Scope string_scope.
Local Open Scope list_scope.

(** The file with conflicts in one line, with other literals. *)
Definition line_file : list N := Eval vm_compute in bytes "entry e; token NUM = ""1""; token ADD = ""and""; prod e = (e ADD e | NUM);".
Definition line_sr : spanned_rules := Eval vm_compute in rules_in line_file.
Lemma line_parsed : read_file line_file = Ok line_sr. Proof. vm_compute. reflexivity. Qed.
Lemma line_valid : Forall valid_char line_file.
Proof. apply ascii_valid, Forall_forall. intros c I. apply N.ltb_lt. revert c I. apply forallb_forall. reflexivity. Qed.
Lemma clash_valid : Forall valid_char clash_file.
Proof. apply ascii_valid. exact (proj1 (proj2 file_ascii)). Qed.
Definition line_g : grammar := Eval vm_compute in match from_rule_set (unspanned line_sr) with Ok g => g | _ => clash_g end.
Lemma line_built : from_rule_set (unspanned line_sr) = Ok line_g. Proof. vm_compute. reflexivity. Qed.
Definition clash_display : string := "Grammar (entry: e(0)) {
	<anon>(2) -> NUM(1)
	<anon>(2) -> e(0) ADD(0) e(0)
	e(0) -> <anon>(2)
}".
Lemma both_displayed : grammar_text clash_g = Ok clash_display /\ grammar_text line_g = Ok clash_display. Proof. split; vm_compute; reflexivity. Qed.
