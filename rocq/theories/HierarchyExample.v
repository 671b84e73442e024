(** Concrete grammars which separate the kinds of tables. *)
From Coq Require Import String List Arith NArith Bool Lia.
From Verif Require Import Base InputModel GrammarModel GrammarSpec GrammarFactsProof GrammarProperties LLModel LLSpec LLFactsProof LLExample LRModel LRSpec LRFactsProof LRExample ShapesProof
  GLRModel GLRSpec GLRFactsProof LRTermSpec LRTermProof LRTermFactsProof LRTermExample CanonSpec HierarchySpec.
Import ListNotations.
Local Open Scope nat_scope.
Local Open Scope string_scope.
Local Open Scope list_scope.


(** ** s = A x B; x = A: LR(0) *)

Definition simple_rules : rule_set :=
  mkRuleSet "s" [ex_tok "A"; ex_tok "B"] [mkProdRule "s" None (QSeq [QRule "A"; QRule "x"; QRule "B"]); mkProdRule "x" None (QRule "A")].
Definition simple_g : grammar := Eval vm_compute in of_rules simple_rules.
Lemma simple_built : from_rule_set simple_rules = Ok simple_g.
Proof. vm_compute. reflexivity. Qed.
Lemma simple_ne : no_empty_rhs simple_g.
Proof. apply (built_no_empty _ _ simple_built). reflexivity. Qed.
Lemma simple_productive : all_productive simple_g.
Proof. apply productiveb_ok; [exact (grammar_wf _ _ simple_built)|vm_compute; reflexivity]. Qed.

(** ** s = A e A | B e B | A f B | B f A; e = C; f = C: LR(1), not LALR(1) *)

Definition cross_rules : rule_set :=
  mkRuleSet "s" [ex_tok "A"; ex_tok "B"; ex_tok "C"]
    [mkProdRule "s" None (QAlt [QSeq [QRule "A"; QRule "e"; QRule "A"]; QSeq [QRule "B"; QRule "e"; QRule "B"]; QSeq [QRule "A"; QRule "f"; QRule "B"]; QSeq [QRule "B"; QRule "f"; QRule "A"]]);
     mkProdRule "e" None (QRule "C"); mkProdRule "f" None (QRule "C")].
Definition cross_g : grammar := Eval vm_compute in of_rules cross_rules.
Lemma cross_built : from_rule_set cross_rules = Ok cross_g.
Proof. vm_compute. reflexivity. Qed.
Lemma cross_ne : no_empty_rhs cross_g.
Proof. apply (built_no_empty _ _ cross_built). reflexivity. Qed.
Lemma cross_productive : all_productive cross_g.
Proof. apply productiveb_ok; [exact (grammar_wf _ _ cross_built)|vm_compute; reflexivity]. Qed.

(** ** s = P x | e R | f Q; x = e Q | f R; e = a; f = a; a = !: LL(1), not LALR(1) *)

Definition lonely_rules : rule_set :=
  mkRuleSet "s" [ex_tok "P"; ex_tok "Q"; ex_tok "R"]
    [mkProdRule "s" None (QAlt [QSeq [QRule "P"; QRule "x"]; QSeq [QRule "e"; QRule "R"]; QSeq [QRule "f"; QRule "Q"]]);
     mkProdRule "x" None (QAlt [QSeq [QRule "e"; QRule "Q"]; QSeq [QRule "f"; QRule "R"]]);
     mkProdRule "e" None (QRule "a"); mkProdRule "f" None (QRule "a"); mkProdRule "a" None QEps].
Definition lonely_g : grammar := Eval vm_compute in of_rules lonely_rules.
Lemma lonely_built : from_rule_set lonely_rules = Ok lonely_g.
Proof. vm_compute. reflexivity. Qed.
Lemma lonely_ne : no_empty_rhs lonely_g.
Proof. apply (built_no_empty _ _ lonely_built). reflexivity. Qed.
Lemma lonely_productive : all_productive lonely_g.
Proof. apply productiveb_ok; [exact (grammar_wf _ _ lonely_built)|vm_compute; reflexivity]. Qed.

(** ** s = x C | x D; x = x: LL(1) (no word can be derived), not LR(1) *)

Definition barren_rules : rule_set :=
  mkRuleSet "s" [ex_tok "C"; ex_tok "D"] [mkProdRule "s" None (QAlt [QSeq [QRule "x"; QRule "C"]; QSeq [QRule "x"; QRule "D"]]); mkProdRule "x" None (QRule "x")].
Definition barren_g : grammar := Eval vm_compute in of_rules barren_rules.
Lemma barren_built : from_rule_set barren_rules = Ok barren_g.
Proof. vm_compute. reflexivity. Qed.
Lemma barren_ne : no_empty_rhs barren_g.
Proof. apply (built_no_empty _ _ barren_built). reflexivity. Qed.


(** ** s = y u | A; y = B; u = u: nothing comes after y *)

Definition dead_rules : rule_set :=
  mkRuleSet "s" [ex_tok "A"; ex_tok "B"] [mkProdRule "s" None (QAlt [QSeq [QRule "y"; QRule "u"]; QRule "A"]); mkProdRule "y" None (QRule "B"); mkProdRule "u" None (QRule "u")].
Definition dead_g : grammar := Eval vm_compute in of_rules dead_rules.
Lemma dead_built : from_rule_set dead_rules = Ok dead_g.
Proof. vm_compute. reflexivity. Qed.
Lemma dead_ne : no_empty_rhs dead_g.
Proof. apply (built_no_empty _ _ dead_built). reflexivity. Qed.

(** ** s = x t A | y t A; x = B; y = B; t = (): rules with an empty right-hand side are not seen by the FIRST sets *)

Definition blind_rules : rule_set :=
  mkRuleSet "s" [ex_tok "A"; ex_tok "B"]
    [mkProdRule "s" None (QAlt [QSeq [QRule "x"; QRule "t"; QRule "A"]; QSeq [QRule "y"; QRule "t"; QRule "A"]]); mkProdRule "x" None (QRule "B"); mkProdRule "y" None (QRule "B");
     mkProdRule "t" None (QSeq [])].
Definition blind_g : grammar := Eval vm_compute in of_rules blind_rules.
Lemma blind_built : from_rule_set blind_rules = Ok blind_g.
Proof. vm_compute. reflexivity. Qed.
Definition blind_tb : lr_table := Eval vm_compute in table_from (generates KindLR1 100 blind_g false).
Lemma blind_tb_ok : generates KindLR1 100 blind_g false = Ok (NoConflicts blind_tb).
Proof. vm_compute. reflexivity. Qed.

Lemma expand_at : forall g ga k d a i k' b, valid1 g ga k d a -> nth_error (right_side g k) d = Some (NonTerminal i) ->
  match nth_error (g_rules g) k' with Some r => r_lhs r | None => None end = Some i -> begins (g_rules g) (skipn (S d) (right_side g k) ++ [a]) b ->
  valid1 g ga (Some k') (first_dot (right_side g (Some k'))) b.
Proof. intros g ga k d a i k' b H1 H2 H3 H4. unfold right_side at 1. destruct (nth_error (g_rules g) k') as [r|] eqn:E; [|discriminate]. eapply v1_expand; eauto. Qed.

Lemma blind_start : valid1 blind_g [] (Some 2) 0 End.
Proof. apply (expand_at blind_g [] None 0 End 0%N 2); [constructor|reflexivity|reflexivity|]. split; [left; reflexivity|]. exists []. apply ss_refl. Qed.
Lemma blind_tail : begins (g_rules blind_g) [NonTerminal 3; Terminal 0; End] (Terminal 0).
Proof.
  split; [right; eauto|]. exists [End]. eapply ss_trans; [|apply ss_refl].
  apply (ss_rule (g_rules blind_g) [] [Terminal 0; End] (nth 5 (g_rules blind_g) (g_entry_rule blind_g)) 3%N); simpl; auto 10.
Qed.
Lemma blind_x : valid1 blind_g [] (Some 3) 0 (Terminal 0).
Proof.
  apply (expand_at blind_g [] (Some 0) 0 End 1%N 3); [|reflexivity|reflexivity|exact blind_tail].
  apply (expand_at blind_g [] (Some 2) 0 End 4%N 0); [exact blind_start|reflexivity|reflexivity|]. split; [left; reflexivity|]. exists []. apply ss_refl.
Qed.
Lemma blind_y : valid1 blind_g [] (Some 4) 0 (Terminal 0).
Proof.
  apply (expand_at blind_g [] (Some 1) 0 End 2%N 4); [|reflexivity|reflexivity|exact blind_tail].
  apply (expand_at blind_g [] (Some 2) 0 End 4%N 1); [exact blind_start|reflexivity|reflexivity|]. split; [left; reflexivity|]. exists []. apply ss_refl.
Qed.
Lemma blind_clash : ~ clash_free KindLR1 blind_g.
Proof.
  intros H. destruct (H [Terminal 1] (Terminal 0) (Some 3)) as [E _].
  - apply (v1_move _ [] 3 0); [exact blind_x|reflexivity].
  - assert (Some 3 = Some 4) as X; [|discriminate X]. apply E. apply (v1_move _ [] 4 0); [exact blind_y|reflexivity].
Qed.
Lemma blind_not_canonical : ~ canonical_at KindLR1 blind_g blind_tb [] 0.
Proof.
  intros H. destruct (proj2 (ca_shift _ _ _ _ _ H (Terminal 1))) as (t & Ht).
  - split; [|split; [discriminate|intros [_ X]; discriminate X]]. exists 3, 0. split; [reflexivity|]. exists (Terminal 0). exact blind_x.
  - cbn in Ht. destruct Ht as [Ht|[]]. discriminate Ht.
Qed.

(** ** States which are not reached *)

Definition shift_to (q : nat) (e : table_entry) : bool := match e with Shift t => Nat.eqb t q | _ => false end.
Lemma got_in : forall (c : nat * symbol) (es : list table_entry) m, map_get c m = Some es -> In (c, es) m.
Proof.
  intros c es m. induction m as [|[c' es'] m IH]; cbn [map_get]; [discriminate|]. destruct (cmp c c') eqn:E; intros H; [|discriminate H|right; auto].
  injection H as ->. apply cmp_eq in E. left. subst. reflexivity.
Qed.
Lemma not_after : forall tb q ga, Nat.eqb (tb_entry tb) q = false -> existsb (fun c => existsb (shift_to q) (snd c)) (tb_entries tb) = false -> ~ after tb ga q.
Proof.
  intros tb q ga He Hn H. destruct H as [|ga p s t _ H]; [rewrite Nat.eqb_refl in He; discriminate He|]. unfold entries, get_entry in H.
  destruct (map_get (p, s) (tb_entries tb)) as [es|] eqn:E; [|destruct H]. apply got_in in E. rewrite <- not_true_iff_false in Hn. apply Hn. apply existsb_exists. eexists. split; [exact E|].
  apply existsb_exists. eexists. split; [exact H|]. apply Nat.eqb_refl.
Qed.
Lemma mid_unreached : forall ga, ~ after mid_tb ga 2.
Proof. intros ga. apply not_after; reflexivity. Qed.
Lemma leftrec_unreached : forall ga, ~ after leftrec_tb ga 1.
Proof. intros ga. apply not_after; reflexivity. Qed.

(** ** Non-terminals and words *)

Lemma no_word : forall g i, null_closedb g [] = true -> ~ derives (g_rules g) [NonTerminal i] [].
Proof. intros g i H D. pose proof (null_closed g [] H _ D) as X. discriminate X. Qed.

Lemma simple_fit : terminals_fit simple_g.
Proof. apply (built_terminals_fit _ _ simple_built); [apply smallb_ok; reflexivity|reflexivity]. Qed.
Lemma simple_words : no_empty_word simple_g.
Proof. intros i _. apply no_word. reflexivity. Qed.

Lemma ll_words : some_word ll_g.
Proof.
  intros i Hi. pose proof (reachable_known ll_g (grammar_wf _ _ ll_g_built) i Hi) as H. assert (derives (g_rules ll_g) [NonTerminal 1] [0%N]) as D1.
  { apply (d_nt _ (nth 3 (g_rules ll_g) (g_entry_rule ll_g)) 1%N [] [0%N] []); [simpl; auto 10|reflexivity|repeat constructor|constructor]. }
  assert (derives (g_rules ll_g) [NonTerminal 4] []) as D4.
  { apply (d_nt _ (nth 0 (g_rules ll_g) (g_entry_rule ll_g)) 4%N [] [] []); [simpl; auto 10|reflexivity|repeat constructor|constructor]. }
  vm_compute in H. destruct H as [H|[H|[H|[]]]]; injection H as <-.
  - exists 0%N, []. apply (d_nt _ (nth 2 (g_rules ll_g) (g_entry_rule ll_g)) 0%N [] [0%N] []); [simpl; auto 10|reflexivity| |constructor].
    apply (GrammarBuildProof.derives_app _ [NonTerminal 1] [NonTerminal 4] [0%N] []); auto.
  - exists 0%N, []. exact D1.
  - exists 1%N, [0%N]. apply (d_nt _ (nth 1 (g_rules ll_g) (g_entry_rule ll_g)) 4%N [] [1%N; 0%N] []); [simpl; auto 10|reflexivity| |constructor].
    constructor. apply (GrammarBuildProof.derives_app _ [NonTerminal 1] [NonTerminal 4] [0%N] []); auto.
Qed.
Lemma lonely_fit : terminals_fit lonely_g.
Proof. apply (built_terminals_fit _ _ lonely_built); [apply smallb_ok; reflexivity|reflexivity]. Qed.
Lemma barren_fit : terminals_fit barren_g.
Proof. apply (built_terminals_fit _ _ barren_built); [apply smallb_ok; reflexivity|reflexivity]. Qed.
