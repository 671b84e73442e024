(** Concrete grammars used by the termination examples and refutations. *)
From Coq Require Import String List Arith NArith Bool Lia Relations.
From Verif Require Import Base InputModel GrammarModel GrammarSpec GrammarFactsProof GrammarProperties LLModel LLSpec LLExample LRModel LRSpec LRFactsProof LRExample ShapesProof
  GLRModel GLRSpec GLRFactsProof GLRExample LRTermSpec LRTermProof LRTermFactsProof.
Import ListNotations.
Local Open Scope nat_scope.
Local Open Scope string_scope.
Local Open Scope list_scope.

(** ** ll_g: expr = term (ADD term)*, with an empty rule *)

Lemma ll_unhidden : ~ hidden_left_recursive ll_g.
Proof. apply (unhiddenb_ok _ [4]%N (fun _ => 0)); vm_compute; reflexivity. Qed.
Lemma ll_uncyclic : ~ cyclic ll_g.
Proof. apply (acyclicb_ok _ [4]%N (fun i => if (i =? 0)%N then 1 else 0)); vm_compute; reflexivity. Qed.
Lemma ll_productive : all_productive ll_g.
Proof. apply productiveb_ok; [exact (grammar_wf _ _ ll_g_built)|vm_compute; reflexivity]. Qed.
Lemma ll_has_empty : ~ no_empty_rules ll_g.
Proof. intros H. destruct (H _ (or_introl eq_refl)) as (s & Hs & Hn). cbn in Hs. destruct Hs as [Hs|[]]. auto. Qed.

(** ** t = s; s = s B? s | A: ambiguous, with an empty rule *)

Definition opt_rules : rule_set :=
  mkRuleSet "t" [ex_tok "A"; ex_tok "B"] [mkProdRule "t" None (QRule "s"); mkProdRule "s" None (QSeq [QRule "s"; QOpt (QRule "B"); QRule "s"]); mkProdRule "s" None (QRule "A")].
Definition opt_g : grammar := Eval vm_compute in of_rules opt_rules.
Lemma opt_built : from_rule_set opt_rules = Ok opt_g.
Proof. vm_compute. reflexivity. Qed.
Definition opt_tb : lr_table := Eval vm_compute in table_from (generates KindLALR 100 opt_g true).
Lemma opt_tb_ok : exists r, generates KindLALR 100 opt_g true = Ok r /\ table_of_result r opt_tb.
Proof. eexists. split; [vm_compute; reflexivity|constructor]. Qed.
Definition opt_p : glr_parser := Eval vm_compute in glr_from opt_g opt_tb.
Lemma opt_p_ok : glr_write_parser opt_g opt_tb = Ok opt_p.
Proof. vm_compute. reflexivity. Qed.
Lemma opt_unhidden : ~ hidden_left_recursive opt_g.
Proof. apply (unhiddenb_ok _ [2]%N (fun _ => 0)); vm_compute; reflexivity. Qed.
Lemma opt_uncyclic : ~ cyclic opt_g.
Proof. apply (acyclicb_ok _ [2]%N (fun i => if (i =? 0)%N then 1 else 0)); vm_compute; reflexivity. Qed.

(** ** s = e s; e = !: not productive *)

Definition loop_rules : rule_set := mkRuleSet "s" [ex_tok "A"] [mkProdRule "s" None (QSeq [QRule "e"; QRule "s"]); mkProdRule "e" None QEps].
Definition loop_g : grammar := Eval vm_compute in of_rules loop_rules.
Lemma loop_built : from_rule_set loop_rules = Ok loop_g.
Proof. vm_compute. reflexivity. Qed.
Definition loop_tb : lr_table := Eval vm_compute in table_from (generates KindLR1 100 loop_g false).
Lemma loop_tb_ok : generates KindLR1 100 loop_g false = Ok (NoConflicts loop_tb).
Proof. vm_compute. reflexivity. Qed.
Definition loop_p : lr_parser := Eval vm_compute in parser_from loop_g loop_tb.
Lemma loop_p_ok : write_parser loop_g loop_tb = Ok loop_p.
Proof. vm_compute. reflexivity. Qed.
Lemma loop_front : epsilon_in_front loop_g /\ no_empty_rhs loop_g.
Proof. split; [apply (built_epsilon_in_front _ _ loop_built)|apply (built_no_empty _ _ loop_built)]; reflexivity. Qed.
Lemma loop_nl : ~ entry_left_recursive loop_g.
Proof. apply (not_left_recursive _ 0%N [1]%N); [reflexivity|vm_compute; tauto| |]; [intros j [<-|[]]; vm_compute; intros x []|intros [H|[]]; discriminate]. Qed.
Lemma loop_hidden : hidden_left_recursive loop_g.
Proof.
  exists 0%N, 0%N. split; [|apply rt_refl]. exists [NonTerminal 1], []. split; [|split].
  - split; [exists 0%N; split; [reflexivity|apply rt_refl]|]. eexists. split; [left; reflexivity|]. split; reflexivity.
  - unfold nullable. change (@nil N) with (@nil N ++ []). eapply d_nt; [right; left; reflexivity|reflexivity|repeat constructor|constructor].
  - eexists. split; [left; reflexivity|discriminate].
Qed.

(** ** a = a | A *)

Definition cyclic_p : lr_parser := Eval vm_compute in parser_from cyclic_g cyclic_tb.
Lemma cyclic_p_ok : write_parser cyclic_g cyclic_tb = Ok cyclic_p.
Proof. vm_compute. reflexivity. Qed.
Lemma cyclic_productive : all_productive cyclic_g.
Proof. apply productiveb_ok; [exact (grammar_wf _ _ cyclic_built)|vm_compute; reflexivity]. Qed.
Lemma cyclic_cyclic : cyclic cyclic_g.
Proof.
  exists 0%N. apply t_step. exists [], []. split; [|split; constructor]. split; [exists 0%N; split; [reflexivity|apply rt_refl]|]. eexists. split; [left; reflexivity|]. split; reflexivity.
Qed.

(** ** The grammars on which the GLR parser runs for ever *)

Lemma hidden_uncyclic : ~ cyclic hidden_g.
Proof. apply (acyclicb_ok _ [2]%N (fun _ => 0)); vm_compute; reflexivity. Qed.
Lemma spin_unhidden : ~ hidden_left_recursive spin_g.
Proof. apply (unhiddenb_ok _ []%N (fun _ => 0)); vm_compute; reflexivity. Qed.
