(** Layouts, hash orders and grammars for the examples of [LRHashProperties]. *)
From Coq Require Import String List Arith NArith Bool Lia Permutation.
From Verif Require Import Base InputModel GrammarModel GrammarSpec GrammarProof GrammarFactsProof  LLModel LLSpec GrammarProperties  LLExample LRModel LRSpec LRExample LRHashModel LRHashSpec.
Import ListNotations.
Local Open Scope nat_scope.
Local Open Scope list_scope.

(** The entry rule lies behind the first hundred rules. *)
Definition behind_addr (r : option nat) : N := match r with Some k => 2 * N.of_nat k | None => 201 end.
Lemma behind_inj : forall a b, behind_addr a = behind_addr b -> a = b.
Proof. intros [i|] [j|] H; unfold behind_addr in H; auto; try lia. f_equal. lia. Qed.
Definition behind : layout := mkLayout behind_addr behind_inj.
Lemma behind_vector : in_a_vector behind.
Proof. intros i j H. change (2 * N.of_nat i < 2 * N.of_nat j)%N. lia. Qed.

(** Hash sets iterated backwards, every other time. *)
Definition seesaw (time : nat) (l : list item) : list item := if Nat.even time then rev l else l.
Lemma seesaw_iterates : iterates seesaw.
Proof. intros t l. unfold seesaw. destruct (Nat.even t); [apply Permutation_sym, Permutation_rev|apply Permutation_refl]. Qed.

(** The first two rules have changed places. *)
Definition swap_addr (r : option nat) : N := match r with Some 0 => 2 | Some 1 => 1 | Some k => 1 + N.of_nat k | None => 0 end.
Lemma swap_inj : forall a b, swap_addr a = swap_addr b -> a = b.
Proof. intros [[|[|i]]|] [[|[|j]]|] H; unfold swap_addr in H; auto; try lia; f_equal; lia. Qed.
Definition swapped : layout := mkLayout swap_addr swap_inj.

(** [a = NUM; b = NUM; s = a; s = b]: two reductions in one state. *)
Definition twice_rules : rule_set :=
  mkRuleSet "s" [ex_tok "NUM"]
    [mkProdRule "a" None (QRule "NUM"); mkProdRule "b" None (QRule "NUM"); mkProdRule "s" None (QRule "a"); mkProdRule "s" None (QRule "b")]%string.
Definition twice_g : grammar := Eval vm_compute in of_rules twice_rules.
Lemma twice_built : from_rule_set twice_rules = Ok twice_g.
Proof. vm_compute. reflexivity. Qed.
Lemma twice_wf : wf_grammar twice_g.
Proof. exact (grammar_wf _ _ twice_built). Qed.

(** [a = ADD; s = NUM a]: the entry state comes first if the entry rule lies in front of the others, but not if it lies behind. *)
Definition late_rules : rule_set :=
  mkRuleSet "s" [ex_tok "NUM"; ex_tok "ADD"] [mkProdRule "a" None (QRule "ADD"); mkProdRule "s" None (QSeq [QRule "NUM"; QRule "a"])]%string.
Definition late_g : grammar := Eval vm_compute in of_rules late_rules.
Lemma late_built : from_rule_set late_rules = Ok late_g.
Proof. vm_compute. reflexivity. Qed.
Lemma late_wf : wf_grammar late_g.
Proof. exact (grammar_wf _ _ late_built). Qed.
Definition late_fs : symbol_sets := Eval vm_compute in match @compute_first_sets Empty_set 100 late_g with Ok x => x | _ => [] end.
(** States in the order in which tables and conflicts visit them. *)
Definition visits (r : lres (nat * lr_graph)) : list nat := match r with Ok (_, pg) => map snd (bidi_iter (lg_map pg)) | _ => [] end.
Lemma late_visits : visits (generate_parser_graph 100 late_g 1 true late_fs) = [0; 1; 3; 2] /\ visits (h_generate_parser_graph behind seesaw 100 late_g 1 true late_fs) = [1; 3; 0; 2].
Proof. vm_compute. split; reflexivity. Qed.
