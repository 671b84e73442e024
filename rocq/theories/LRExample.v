(** Concrete grammars used by the LR examples and refutations. *)
From Coq Require Import String List Arith NArith Bool Lia Relations.
From Verif Require Import Base InputModel GrammarModel GrammarSpec GrammarFactsProof GrammarProperties LLModel LLSpec LLExample LRModel LRSpec LRFactsProof ShapesProof.
Import ListNotations.
Local Open Scope nat_scope.
Local Open Scope string_scope.
Local Open Scope list_scope.

Definition no_tb : lr_table := mkTable [] 0 0.
Definition no_parser : lr_parser := mkParser 0 [] [] [].
Definition table_from (r : lres generation_result) : lr_table := match r with Ok (NoConflicts t) | Ok (AllowedConflicts t _) => t | _ => no_tb end.
Definition parser_from (g : grammar) (tb : lr_table) : lr_parser := match write_parser g tb with Ok p => p | _ => no_parser end.

(** ** expr = term (ADD term)*;  term = NUM | LPAR expr RPAR *)

Lemma ll_g_front : epsilon_in_front ll_g.
Proof. apply (built_epsilon_in_front _ _ ll_g_built). reflexivity. Qed.
Lemma ll_g_rhs_fit : rhs_fit ll_g.
Proof. apply (built_rhs_fit _ _ ll_g_built). reflexivity. Qed.

Definition lr1_tb : lr_table := Eval vm_compute in table_from (generates KindLR1 100 ll_g false).
Lemma lr1_tb_ok : generates KindLR1 100 ll_g false = Ok (NoConflicts lr1_tb).
Proof. vm_compute. reflexivity. Qed.
Definition lr1_p : lr_parser := Eval vm_compute in parser_from ll_g lr1_tb.
Lemma lr1_p_ok : write_parser ll_g lr1_tb = Ok lr1_p.
Proof. vm_compute. reflexivity. Qed.

Definition lalr_tb : lr_table := Eval vm_compute in table_from (generates KindLALR 100 ll_g false).
Lemma lalr_tb_ok : generates KindLALR 100 ll_g false = Ok (NoConflicts lalr_tb).
Proof. vm_compute. reflexivity. Qed.
Definition lalr_p : lr_parser := Eval vm_compute in parser_from ll_g lalr_tb.
Lemma lalr_p_ok : write_parser ll_g lalr_tb = Ok lalr_p.
Proof. vm_compute. reflexivity. Qed.

(** Left corners by computation: [closed l] says that no rule of a non-terminal in [l] leads outside of [l]. *)
Definition corners (g : grammar) (i : N) : list N :=
  flat_map (fun r => match r_lhs r with
    | Some j => if (i =? j)%N then match filter (fun s => negb (is_eps s)) (r_rhs r) with NonTerminal x :: _ => [x] | _ => [] end else []
    | None => [] end) (g_rules g).

Lemma filter_repeat : forall m al, filter (fun s => negb (is_eps s)) (repeat Epsilon m ++ al) = filter (fun s => negb (is_eps s)) al.
Proof. induction m as [|m IH]; intros al; simpl; auto. Qed.

Lemma corners_In : forall g i j, left_corner g i j -> In j (corners g i).
Proof.
  intros g i j (r & m & al & Hr & Hl & E). apply in_flat_map. exists r. split; auto. rewrite Hl, N.eqb_refl, E, filter_repeat. simpl. auto.
Qed.

Lemma not_left_recursive : forall g i l, g_entry g = NonTerminal i -> incl (corners g i) l -> (forall j, In j l -> incl (corners g j) l) -> ~ In i l -> ~ entry_left_recursive g.
Proof.
  intros g i l Ei H1 H2 H3 (i' & Ei' & H). assert (i' = i) as -> by congruence. apply H3.
  apply clos_trans_tn1 in H. assert (forall j, clos_trans_n1 N (left_corner g) i j -> In j l) as X; [|apply X; auto].
  intros j Hj. induction Hj as [j Hj|j z Hj _ IH]; [apply H1, corners_In; auto|apply (H2 j IH), corners_In; auto].
Qed.

Lemma ll_g_nl : ~ entry_left_recursive ll_g.
Proof.
  apply (not_left_recursive _ 0%N [1%N]); [reflexivity|vm_compute; intros x [<-|[]]; auto| |intros [X|[]]; discriminate].
  intros j [<-|[]]. vm_compute. intros x [].
Qed.

Ltac tree := repeat first [apply ip_nil | apply ip_eps | apply ip_term | eapply ip_nt; [reflexivity|reflexivity| |]].

(** NUM ADD NUM *)
Definition sum_tree : itree := INode 2 [INode 3 [ILeaf 0]; INode 1 [ILeaf 1; INode 3 [ILeaf 0]; INode 0 []]].
Lemma sum_tree_ok : parse_tree ll_g sum_tree /\ iyield sum_tree = [0; 1; 0]%N.
Proof. split; [unfold parse_tree; simpl; tree|reflexivity]. Qed.
Definition sum_run : list lr_event := [EShift (Some 0); EReduce 3; EShift (Some 1); EShift (Some 0); EReduce 3; EReduce 0; EReduce 1; EReduce 2]%N.
Lemma sum_tree_run : post_order sum_tree = sum_run /\ lr_parse 9 lr1_p [0; 1; 0]%N = (sum_run, Ok []) /\ lr_parse 9 lalr_p [0; 1; 0]%N = (sum_run, Ok []).
Proof. split; [reflexivity|]. split; vm_compute; reflexivity. Qed.

(** ** s = e;  e = e ADD NUM | NUM: the entry symbol is not used elsewhere *)

Definition fresh_rules : rule_set :=
  mkRuleSet "s" [ex_tok "NUM"; ex_tok "ADD"]
    [mkProdRule "s" None (QRule "e"); mkProdRule "e" None (QSeq [QRule "e"; QRule "ADD"; QRule "NUM"]); mkProdRule "e" None (QRule "NUM")].
Definition fresh_g : grammar := Eval vm_compute in of_rules fresh_rules.
Lemma fresh_built : from_rule_set fresh_rules = Ok fresh_g.
Proof. vm_compute. reflexivity. Qed.
Lemma fresh_wf : wf_grammar fresh_g.
Proof. exact (grammar_wf _ _ fresh_built). Qed.
Lemma fresh_front : epsilon_in_front fresh_g.
Proof. apply (built_epsilon_in_front _ _ fresh_built). reflexivity. Qed.
Lemma fresh_ne : no_empty_rhs fresh_g.
Proof. apply (built_no_empty _ _ fresh_built). reflexivity. Qed.
Lemma fresh_entry : entry_fresh fresh_g.
Proof. intros r H. simpl in H. destruct H as [<-|[<-|[<-|[]]]]; simpl; intros X; repeat (destruct X as [X|X]; [discriminate|]); destruct X. Qed.
Lemma fresh_nl : ~ entry_left_recursive fresh_g.
Proof.
  apply (not_left_recursive _ 0%N [1%N]); [reflexivity|vm_compute; intros x [<-|[]]; auto| |intros [X|[]]; discriminate].
  intros j [<-|[]]. vm_compute. intros x [<-|[]]. auto.
Qed.
Definition fresh_tb : lr_table := Eval vm_compute in table_from (generates KindLALR 100 fresh_g false).
Lemma fresh_tb_ok : generates KindLALR 100 fresh_g false = Ok (NoConflicts fresh_tb).
Proof. vm_compute. reflexivity. Qed.
Definition fresh_p : lr_parser := Eval vm_compute in parser_from fresh_g fresh_tb.
Lemma fresh_p_ok : write_parser fresh_g fresh_tb = Ok fresh_p.
Proof. vm_compute. reflexivity. Qed.

(** ** s = LPAR s RPAR | A *)

Definition paren_rules : rule_set :=
  mkRuleSet "s" [ex_tok "LPAR"; ex_tok "RPAR"; ex_tok "A"]
    [mkProdRule "s" None (QSeq [QRule "LPAR"; QRule "s"; QRule "RPAR"]); mkProdRule "s" None (QRule "A")].
Definition paren_g : grammar := Eval vm_compute in of_rules paren_rules.
Lemma paren_built : from_rule_set paren_rules = Ok paren_g.
Proof. vm_compute. reflexivity. Qed.
Lemma paren_wf : wf_grammar paren_g.
Proof. exact (grammar_wf _ _ paren_built). Qed.
Lemma paren_front : epsilon_in_front paren_g.
Proof. apply (built_epsilon_in_front _ _ paren_built). reflexivity. Qed.
Lemma paren_ne : no_empty_rhs paren_g.
Proof. apply (built_no_empty _ _ paren_built). reflexivity. Qed.
Lemma paren_nl : ~ entry_left_recursive paren_g.
Proof. apply (not_left_recursive _ 0%N []); [reflexivity|vm_compute; intros x []|intros j []|intros []]. Qed.
Definition paren_lalr_tb : lr_table := Eval vm_compute in table_from (generates KindLALR 100 paren_g false).
Lemma paren_lalr_tb_ok : generates KindLALR 100 paren_g false = Ok (NoConflicts paren_lalr_tb).
Proof. vm_compute. reflexivity. Qed.
Definition paren_lalr_p : lr_parser := Eval vm_compute in parser_from paren_g paren_lalr_tb.
Lemma paren_lalr_p_ok : write_parser paren_g paren_lalr_tb = Ok paren_lalr_p.
Proof. vm_compute. reflexivity. Qed.
Definition paren_lr0_tb : lr_table := Eval vm_compute in table_from (generates KindLR0 100 paren_g false).
Lemma paren_lr0_tb_ok : generates KindLR0 100 paren_g false = Ok (NoConflicts paren_lr0_tb).
Proof. vm_compute. reflexivity. Qed.
Definition paren_lr0_p : lr_parser := Eval vm_compute in parser_from paren_g paren_lr0_tb.
Lemma paren_lr0_p_ok : write_parser paren_g paren_lr0_tb = Ok paren_lr0_p.
Proof. vm_compute. reflexivity. Qed.

(** Sentences of [paren_g] have as many RPAR as LPAR. *)
Lemma paren_balanced : forall al w, derives (g_rules paren_g) al w ->
  count_occ N.eq_dec w 0%N + count_occ cmp_dec al (Terminal 1) = count_occ N.eq_dec w 1%N + count_occ cmp_dec al (Terminal 0).
Proof.
  intros al w H. induction H as [|al w H IH|t al w H IH|r i al u w Hr Hi H1 IH1 H2 IH2].
  - reflexivity.
  - change (Epsilon :: al) with ([Epsilon] ++ al). rewrite !count_occ_app. exact IH.
  - change (Terminal t :: al) with ([Terminal t] ++ al). change (t :: w) with ([t] ++ w). rewrite !count_occ_app. simpl.
    destruct (N.eq_dec t 0) as [->|N0]; [simpl; lia|]. destruct (N.eq_dec t 1) as [->|N1]; [simpl; lia|].
    destruct (cmp_dec (Terminal t) (Terminal 1)); [congruence|]. destruct (cmp_dec (Terminal t) (Terminal 0)); [congruence|]. lia.
  - change (NonTerminal i :: al) with ([NonTerminal i] ++ al). rewrite !count_occ_app. simpl.
    assert (count_occ N.eq_dec u 0%N = count_occ N.eq_dec u 1%N) as E; [|lia].
    simpl in Hr. destruct Hr as [<-|[<-|[]]]; simpl in IH1; lia.
Qed.

Lemma lalr_premature : lr_parse 10 paren_lalr_p [2; 1]%N = ([EShift (Some 2%N); EReduce 1], Ok [1%N]) /\ ~ derives (g_rules paren_g) [g_entry paren_g] [2; 1]%N.
Proof. split; [vm_compute; reflexivity|]. intros H. apply paren_balanced in H. vm_compute in H. discriminate. Qed.

Lemma lr0_premature : lr_parse 10 paren_lr0_p [2; 1]%N = ([EShift (Some 2%N); EReduce 1], Ok [1%N]) /\ ~ derives (g_rules paren_g) [g_entry paren_g] [2; 1]%N.
Proof. split; [vm_compute; reflexivity|]. intros H. apply paren_balanced in H. vm_compute in H. discriminate. Qed.

(** ** a = a A | A: left-recursive entry symbol *)

Definition leftrec_rules : rule_set :=
  mkRuleSet "a" [ex_tok "A"; ex_tok "B"] [mkProdRule "a" None (QSeq [QRule "a"; QRule "A"]); mkProdRule "a" None (QRule "A")].
Definition leftrec_g : grammar := Eval vm_compute in of_rules leftrec_rules.
Lemma leftrec_built : from_rule_set leftrec_rules = Ok leftrec_g.
Proof. vm_compute. reflexivity. Qed.
Definition leftrec_tb : lr_table := Eval vm_compute in table_from (generates KindLR1 100 leftrec_g false).
Lemma leftrec_tb_ok : generates KindLR1 100 leftrec_g false = Ok (NoConflicts leftrec_tb).
Proof. vm_compute. reflexivity. Qed.
Definition leftrec_p : lr_parser := Eval vm_compute in parser_from leftrec_g leftrec_tb.
Lemma leftrec_p_ok : write_parser leftrec_g leftrec_tb = Ok leftrec_p.
Proof. vm_compute. reflexivity. Qed.
Lemma leftrec_lr : entry_left_recursive leftrec_g.
Proof. exists 0%N. split; [reflexivity|]. apply t_step. eexists (nth 0 (g_rules leftrec_g) (rule_entry Epsilon (mkProdRule "" None QEps))), 0, [Terminal 0]. simpl. auto. Qed.
Lemma leftrec_front : epsilon_in_front leftrec_g /\ no_empty_rhs leftrec_g.
Proof. split; [apply (built_epsilon_in_front _ _ leftrec_built)|apply (built_no_empty _ _ leftrec_built)]; reflexivity. Qed.
(** A A is a sentence, but the parser stops after the first A; it also accepts A B. *)
Lemma leftrec_premature : lr_parse 10 leftrec_p [0; 0]%N = ([EShift (Some 0%N); EReduce 1], Ok [0%N]) /\
  parse_tree leftrec_g (INode 0 [INode 1 [ILeaf 0]; ILeaf 0]).
Proof. split; [vm_compute; reflexivity|]. unfold parse_tree; simpl; tree. Qed.

(** ** a = a | A: cyclic *)

Definition cyclic_rules : rule_set := mkRuleSet "a" [ex_tok "A"] [mkProdRule "a" None (QRule "a"); mkProdRule "a" None (QRule "A")].
Definition cyclic_g : grammar := Eval vm_compute in of_rules cyclic_rules.
Lemma cyclic_built : from_rule_set cyclic_rules = Ok cyclic_g.
Proof. vm_compute. reflexivity. Qed.
Definition cyclic_tb : lr_table := Eval vm_compute in table_from (generates KindLR1 100 cyclic_g false).
Lemma cyclic_tb_ok : generates KindLR1 100 cyclic_g false = Ok (NoConflicts cyclic_tb).
Proof. vm_compute. reflexivity. Qed.
Lemma cyclic_ambiguous : ~ unambiguous cyclic_g.
Proof.
  intros H. assert (INode 1 [ILeaf 0] = INode 0 [INode 1 [ILeaf 0]]) as X; [|discriminate].
  apply H; [unfold parse_tree; simpl; tree|unfold parse_tree; simpl; tree|reflexivity].
Qed.
Lemma cyclic_front : epsilon_in_front cyclic_g /\ no_empty_rhs cyclic_g.
Proof. split; [apply (built_epsilon_in_front _ _ cyclic_built)|apply (built_no_empty _ _ cyclic_built)]; reflexivity. Qed.

(** ** s = A ! B: [Epsilon] in the middle *)

Definition mid_rules : rule_set := mkRuleSet "s" [ex_tok "A"; ex_tok "B"] [mkProdRule "s" None (QSeq [QRule "A"; QEps; QRule "B"])].
Definition mid_g : grammar := Eval vm_compute in of_rules mid_rules.
Lemma mid_built : from_rule_set mid_rules = Ok mid_g.
Proof. vm_compute. reflexivity. Qed.
Definition mid_tb : lr_table := Eval vm_compute in table_from (generates KindLR1 100 mid_g false).
Lemma mid_tb_ok : generates KindLR1 100 mid_g false = Ok (NoConflicts mid_tb).
Proof. vm_compute. reflexivity. Qed.
Definition mid_p : lr_parser := Eval vm_compute in parser_from mid_g mid_tb.
Lemma mid_p_ok : write_parser mid_g mid_tb = Ok mid_p.
Proof. vm_compute. reflexivity. Qed.
Lemma mid_nl : ~ entry_left_recursive mid_g.
Proof. apply (not_left_recursive _ 0%N []); [reflexivity|vm_compute; intros x []|intros j []|intros []]. Qed.
Lemma mid_rejects : parse_tree mid_g (INode 0 [ILeaf 0; ILeaf 1]) /\ lr_parse 10 mid_p [0; 1]%N = ([EShift (Some 0%N)], Err (UnexpectedTok (Some 1%N) [])).
Proof. split; [unfold parse_tree; simpl; tree|vm_compute; reflexivity]. Qed.

(** s = x ! B;  x = A *)
Definition mid_nt_rules : rule_set :=
  mkRuleSet "s" [ex_tok "A"; ex_tok "B"] [mkProdRule "s" None (QSeq [QRule "x"; QEps; QRule "B"]); mkProdRule "x" None (QRule "A")].
Definition mid_nt_g : grammar := Eval vm_compute in of_rules mid_nt_rules.
Lemma mid_nt_built : from_rule_set mid_nt_rules = Ok mid_nt_g.
Proof. vm_compute. reflexivity. Qed.
Lemma mid_nt_panics : generates KindLR1 100 mid_nt_g false = Panic /\ generates KindLALR 100 mid_nt_g true = Panic.
Proof. split; vm_compute; reflexivity. Qed.

(** A right-hand side of 256 symbols. *)
Definition long_rules : rule_set := mkRuleSet "s" [ex_tok "A"] [mkProdRule "s" None (QSeq (repeat (QRule "A") 256))].
Definition long_g : grammar := Eval vm_compute in of_rules long_rules.
Lemma long_built : from_rule_set long_rules = Ok long_g.
Proof. vm_compute. reflexivity. Qed.
Lemma long_panics : generates KindLR0 1000 long_g false = Panic /\ generates KindLR1 1000 long_g false = Panic /\ generates KindLALR 1000 long_g false = Panic.
Proof. split; [|split]; vm_compute; reflexivity. Qed.
Lemma long_front : epsilon_in_front long_g.
Proof. apply (built_epsilon_in_front _ _ long_built). vm_compute. reflexivity. Qed.

(** ** e = e ADD e | NUM: conflicts *)

Definition amb_rules : rule_set :=
  mkRuleSet "s" [ex_tok "NUM"; ex_tok "ADD"]
    [mkProdRule "s" None (QRule "e"); mkProdRule "e" None (QSeq [QRule "e"; QRule "ADD"; QRule "e"]); mkProdRule "e" None (QRule "NUM")].
Definition amb_g : grammar := Eval vm_compute in of_rules amb_rules.
Lemma amb_built : from_rule_set amb_rules = Ok amb_g.
Proof. vm_compute. reflexivity. Qed.
Lemma amb_wf : wf_grammar amb_g.
Proof. exact (grammar_wf _ _ amb_built). Qed.
Definition amb_tb : lr_table := Eval vm_compute in table_from (generates KindLALR 100 amb_g true).
Definition amb_cs : list conflict := Eval vm_compute in match generates KindLALR 100 amb_g true with Ok (AllowedConflicts _ cs) => cs | _ => [] end.
Lemma amb_tb_ok : generates KindLALR 100 amb_g true = Ok (AllowedConflicts amb_tb amb_cs).
Proof. vm_compute. reflexivity. Qed.

(** ** s = !: the entry symbol has an empty rule only *)

Definition empty_rules : rule_set := mkRuleSet "s" [ex_tok "A"] [mkProdRule "s" None QEps].
Definition empty_g : grammar := Eval vm_compute in of_rules empty_rules.
Lemma empty_built : from_rule_set empty_rules = Ok empty_g.
Proof. vm_compute. reflexivity. Qed.
Definition empty_tb : lr_table := Eval vm_compute in table_from (generates KindLR0 100 empty_g false).
Lemma empty_tb_ok : generates KindLR0 100 empty_g false = Ok (NoConflicts empty_tb).
Proof. vm_compute. reflexivity. Qed.
Lemma empty_panics : write_parser empty_g empty_tb = Panic.
Proof. vm_compute. reflexivity. Qed.
Lemma empty_only : only_empty_entry empty_g.
Proof.
  exists 0%N, 0, (nth 0 (g_rules empty_g) (rule_entry Epsilon (mkProdRule "" None QEps))), 1. simpl. split; auto. split; auto. split; auto.
  intros [|k] r H; simpl in H; [injection H as <-; simpl; tauto|]. destruct k; discriminate.
Qed.
