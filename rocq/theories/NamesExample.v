(** Grammars for the examples about names. *)
From Coq Require Import String List Arith NArith Bool Lia.
From Verif Require Import Base InputModel GrammarModel GrammarSpec GrammarFactsProof GrammarProperties LLExample NamesModel NamesSpec NamesProof NamesVisitProof.
Import ListNotations.
Local Open Scope string_scope.

Lemma digit_ok : forall s, forallb (fun c => (48 <=? Ascii.N_of_ascii c)%N && (Ascii.N_of_ascii c <=? 57)%N) (list_ascii_of_string s) = true -> all_chars digit s.
Proof.
  induction s as [|c s IH]; cbn; [auto|]. intros H. apply andb_prop in H. destruct H as [H1 H2]. apply andb_prop in H1. destruct H1 as [A B]. apply N.leb_le in A. apply N.leb_le in B. split; [split; assumption|exact (IH H2)].
Qed.

(** a = A a_1; a = B; a_1 = C; *)
Definition numbered_rules : rule_set :=
  mkRuleSet "a" [ex_tok "A"; ex_tok "B"; ex_tok "C"]
    [mkProdRule "a" None (QSeq [QRule "A"; QRule "a_1"]); mkProdRule "a" None (QRule "B"); mkProdRule "a_1" None (QRule "C")].
Definition numbered_g : grammar := Eval vm_compute in of_rules numbered_rules.
Lemma numbered_g_built : from_rule_set numbered_rules = Ok numbered_g.
Proof. vm_compute. reflexivity. Qed.

(** s [pick] = A (B | C); *)
Definition tagged_rules : rule_set :=
  mkRuleSet "s" [ex_tok "A"; ex_tok "B"; ex_tok "C"] [mkProdRule "s" (Some "pick") (QSeq [QRule "A"; QAlt [QRule "B"; QRule "C"]])].
Definition tagged_g : grammar := Eval vm_compute in of_rules tagged_rules.
Lemma tagged_g_built : from_rule_set tagged_rules = Ok tagged_g.
Proof. vm_compute. reflexivity. Qed.

(** s = anon2 A?; anon2 = B; anon2 = B B; The optional A gets the number 2. *)
Definition anon_rules : rule_set :=
  mkRuleSet "s" [ex_tok "A"; ex_tok "B"]
    [mkProdRule "s" None (QSeq [QRule "anon2"; QOpt (QRule "A")]); mkProdRule "anon2" None (QRule "B"); mkProdRule "anon2" None (QSeq [QRule "B"; QRule "B"])].
Definition anon_g : grammar := Eval vm_compute in of_rules anon_rules.
Lemma anon_g_built : from_rule_set anon_rules = Ok anon_g.
Proof. vm_compute. reflexivity. Qed.
