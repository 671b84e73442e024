(** Concrete grammars used by the LL examples and refutations. *)
From Coq Require Import String List Arith NArith Bool Lia.
From Verif Require Import Base InputModel GrammarModel GrammarSpec GrammarFactsProof GrammarProperties LLModel LLSpec SententialProof SetsProof FirstProof FollowProof LLTableProof LLParseProof LLFactsProof.
Import ListNotations.
Local Open Scope nat_scope.
Local Open Scope string_scope.

Definition of_rules (rs : rule_set) : grammar :=
  match from_rule_set rs with Ok g => g | _ => mkGrammar Epsilon (mkRule None [] (mkProdRule "" None QEps)) [] [] [] [] end.

(** expr = term (ADD term)*;  term = NUM | LPAR expr RPAR *)
Definition ll_expr : rule_set :=
  mkRuleSet "expr" [ex_tok "NUM"; ex_tok "ADD"; ex_tok "LPAR"; ex_tok "RPAR"]
    [mkProdRule "expr" None (QSeq [QRule "term"; QStar (QSeq [QRule "ADD"; QRule "term"])]);
     mkProdRule "term" None (QRule "NUM");
     mkProdRule "term" None (QSeq [QRule "LPAR"; QRule "expr"; QRule "RPAR"])].
Definition ll_g : grammar := Eval vm_compute in of_rules ll_expr.
Lemma ll_g_built : from_rule_set ll_expr = Ok ll_g.
Proof. vm_compute. reflexivity. Qed.
Lemma ll_g_wf : wf_grammar ll_g.
Proof. exact (grammar_wf _ _ ll_g_built). Qed.
Lemma ll_g_ne : no_empty_rhs ll_g.
Proof. apply (built_no_empty_rhs _ _ ll_g_built). simpl. intros p [<-|[<-|[<-|[]]]]; reflexivity. Qed.
Lemma ll_g_fit : terminals_fit ll_g.
Proof. apply (built_terminals_fit _ _ ll_g_built); [apply smallb_ok; reflexivity|reflexivity]. Qed.

Definition ll_tb : ll_table := Eval vm_compute in match ll_generate_table 50 ll_g with Ok t => t | _ => [] end.
Lemma ll_tb_ok : ll_generate_table 50 ll_g = Ok ll_tb.
Proof. vm_compute. reflexivity. Qed.

Definition ll_first : symbol_sets := Eval vm_compute in match @compute_first_sets unit 50 ll_g with Ok t => t | _ => [] end.
Lemma ll_first_ok : @compute_first_sets unit 50 ll_g = Ok ll_first.
Proof. vm_compute. reflexivity. Qed.
Definition ll_follow : symbol_sets := Eval vm_compute in match @compute_follow_sets unit 50 ll_g ll_first with Ok t => t | _ => [] end.
Lemma ll_follow_ok : @compute_follow_sets unit 50 ll_g ll_first = Ok ll_follow.
Proof. vm_compute. reflexivity. Qed.

(** s = t A;  t = (empty sequence) *)
Definition empty_seq_rules : rule_set :=
  mkRuleSet "s" [ex_tok "A"] [mkProdRule "s" None (QSeq [QRule "t"; QRule "A"]); mkProdRule "t" None (QSeq [])].
Definition empty_seq_g : grammar := Eval vm_compute in of_rules empty_seq_rules.
Lemma empty_seq_built : from_rule_set empty_seq_rules = Ok empty_seq_g.
Proof. vm_compute. reflexivity. Qed.

Lemma empty_seq_first : exists g fs, from_rule_set empty_seq_rules = Ok g /\ @compute_first_sets unit 10 g = Ok fs /\
  begins (g_rules g) [NonTerminal 0] (Terminal 0) /\ map_get (NonTerminal 0) fs = Some [].
Proof.
  exists empty_seq_g. eexists. split; [exact empty_seq_built|]. split; [vm_compute; reflexivity|]. split; [|reflexivity].
  apply firstT_begins. eapply (f_nt _ (nth 0 (g_rules empty_seq_g) (mkRule None [] (mkProdRule "" None QEps)))); [simpl; auto|reflexivity|]. simpl.
  apply f_null; [|constructor; right; eauto]. apply derives_nil_nt.
  exists (nth 1 (g_rules empty_seq_g) (mkRule None [] (mkProdRule "" None QEps))). split; [simpl; auto|]. split; [reflexivity|]. simpl. constructor.
Qed.

(** s = A;  u = s B  (u is unreachable) *)
Definition unreach_rules : rule_set :=
  mkRuleSet "s" [ex_tok "A"; ex_tok "B"] [mkProdRule "s" None (QRule "A"); mkProdRule "u" None (QSeq [QRule "s"; QRule "B"])].
Definition unreach_g : grammar := Eval vm_compute in of_rules unreach_rules.
Lemma unreach_built : from_rule_set unreach_rules = Ok unreach_g.
Proof. vm_compute. reflexivity. Qed.

Lemma unreach_forms : forall a b, ssteps (g_rules unreach_g) a b -> a = [NonTerminal 0; End] \/ a = [Terminal 0; End] -> b = [NonTerminal 0; End] \/ b = [Terminal 0; End].
Proof.
  intros a b H. induction H as [a|a b c H1 H2 IH]; auto. intros Ha. apply IH. clear IH H2. destruct H1 as [u v r i Hr Hi|u v].
  - destruct Ha as [Ha|Ha]; destruct u as [|x [|y u]]; simpl in Ha; try discriminate.
    + injection Ha as -> ->. destruct Hr as [<-|[<-|[]]]; simpl in Hi; try discriminate. right. reflexivity.
    + injection Ha as _ _ Ha. destruct u; discriminate.
    + injection Ha as _ _ Ha. destruct u; discriminate.
  - destruct Ha as [Ha|Ha]; destruct u as [|x [|y u]]; simpl in Ha; try discriminate; injection Ha as _ _ Ha; destruct u; discriminate.
Qed.
Lemma unreach_follow : exists fs fo set, @compute_first_sets unit 10 unreach_g = Ok fs /\ @compute_follow_sets unit 10 unreach_g fs = Ok fo /\
  map_get (NonTerminal 0) fo = Some set /\ In (Terminal 1) set /\ ~ follows_entry unreach_g 0 (Terminal 1).
Proof.
  eexists. eexists. eexists. split; [vm_compute; reflexivity|]. split; [vm_compute; reflexivity|]. split; [reflexivity|]. split; [simpl; auto|].
  intros (_ & al & be & H). apply unreach_forms in H; [|left; reflexivity]. destruct H as [H|H]; destruct al as [|x [|y al]]; simpl in H; try discriminate; injection H as _ _ H; destruct al; discriminate.
Qed.

(** A terminal numbered 65535. *)
Definition last_terminal_g : grammar :=
  let p := mkProdRule "s" None (QRule "A") in
  mkGrammar (NonTerminal 0) (mkRule None [NonTerminal 0] p) [mkRule (Some 0%N) [Terminal 65535] p] [(Terminal 65535, "A")] [(NonTerminal 0, "s")] [].
Lemma last_terminal_wf : wf_grammar last_terminal_g.
Proof.
  constructor; simpl.
  - exists 0%N. auto.
  - auto.
  - intros r [<-|[]]. exists 0%N. auto.
  - intros r s [<-|[]]. simpl. intros [<-|[]]. simpl. auto.
  - repeat constructor; simpl; intuition discriminate.
  - intros s [<-|[]]. eauto.
  - intros s [<-|[]]. eauto.
  - intros s [<-|[<-|[]]]; reflexivity.
Qed.
Lemma last_terminal_panics : ll_generate_table 10 last_terminal_g = Panic.
Proof. vm_compute. reflexivity. Qed.
Lemma last_terminal_ne : no_empty_rhs last_terminal_g.
Proof. intros r [<-|[]]. discriminate. Qed.

(** s = A t;  t = B | epsilon : positions and numbers agree, but end of input is needed *)
Definition end_rules : rule_set :=
  mkRuleSet "s" [ex_tok "A"; ex_tok "B"] [mkProdRule "s" None (QSeq [QRule "A"; QRule "t"]); mkProdRule "t" None (QRule "B"); mkProdRule "t" None QEps].
Definition end_g : grammar := Eval vm_compute in of_rules end_rules.
Definition end_tb : ll_table := Eval vm_compute in match ll_generate_table 50 end_g with Ok t => t | _ => [] end.
Lemma end_built : from_rule_set end_rules = Ok end_g.
Proof. vm_compute. reflexivity. Qed.
Lemma end_tb_ok : ll_generate_table 50 end_g = Ok end_tb.
Proof. vm_compute. reflexivity. Qed.
Lemma end_aligned : aligned end_g.
Proof. intros [|[|k]] s H; simpl in H; try (injection H as <-; reflexivity). destruct k; discriminate. Qed.

(** s = A t | B;  t = B : the numbers are 0 and 2, the positions 0 and 1 *)
Definition gap_rules : rule_set :=
  mkRuleSet "s" [ex_tok "A"; ex_tok "B"] [mkProdRule "s" None (QSeq [QRule "A"; QRule "t"]); mkProdRule "s" None (QRule "B"); mkProdRule "t" None (QRule "B")].
Definition gap_g : grammar := Eval vm_compute in of_rules gap_rules.
Definition gap_tb : ll_table := Eval vm_compute in match ll_generate_table 50 gap_g with Ok t => t | _ => [] end.
Lemma gap_built : from_rule_set gap_rules = Ok gap_g.
Proof. vm_compute. reflexivity. Qed.
Lemma gap_tb_ok : ll_generate_table 50 gap_g = Ok gap_tb.
Proof. vm_compute. reflexivity. Qed.

Lemma nth_rule_In : forall (l : list rule) k d, k < length l -> In (nth k l d) l.
Proof. intros. apply nth_In. auto. Qed.

(** Sentences of [gap_g] *)
Lemma gap_nt : forall i w, derives (g_rules gap_g) [NonTerminal i] w -> (i = 0%N /\ (w = [0; 1]%N \/ w = [1]%N)) \/ (i = 2%N /\ w = [1]%N).
Proof.
  intros i w H.
  assert (forall w, derives (g_rules gap_g) [Terminal 1] w -> w = [1]%N) as T.
  { intros w' X. inversion X as [| |t al w2 X2|]; subst. inversion X2; subst. auto. }
  assert (forall w, derives (g_rules gap_g) [NonTerminal 2] w -> w = [1]%N) as T2.
  { intros w' X. inversion X as [| | |r j al u w2 Hr Hj X1 X2]; subst. inversion X2; subst. rewrite app_nil_r.
    destruct Hr as [<-|[<-|[<-|[]]]]; simpl in Hj; try discriminate. apply T. exact X1. }
  inversion H as [| | |r j al u w2 Hr Hj X1 X2]; subst. inversion X2; subst. rewrite app_nil_r.
  destruct Hr as [<-|[<-|[<-|[]]]]; simpl in Hj; injection Hj as <-; simpl in X1.
  - left. split; auto. left. inversion X1 as [| |t al w2 X3|]; subst. apply T2 in X3. subst. auto.
  - left. split; auto.
  - right. split; auto.
Qed.
Lemma gap_bad : ~ derives (g_rules gap_g) [g_entry gap_g] [0%N].
Proof. intros H. apply gap_nt in H. destruct H as [[_ [H|H]]|[H _]]; discriminate. Qed.
Lemma gap_good : derives (g_rules gap_g) [g_entry gap_g] [0; 1]%N.
Proof.
  eapply (d_nt (g_rules gap_g) (nth 0 (g_rules gap_g) (mkRule None [] (mkProdRule "" None QEps))) 0 [] [0; 1]%N []); [simpl; auto|reflexivity| |constructor].
  simpl. constructor. eapply (d_nt (g_rules gap_g) (nth 2 (g_rules gap_g) (mkRule None [] (mkProdRule "" None QEps))) 2 [] [1]%N []); [simpl; auto|reflexivity| |constructor].
  simpl. repeat constructor.
Qed.

Lemma end_good : derives (g_rules end_g) [g_entry end_g] [0]%N.
Proof.
  eapply (d_nt (g_rules end_g) (nth 0 (g_rules end_g) (mkRule None [] (mkProdRule "" None QEps))) 0 [] [0]%N []); [simpl; auto|reflexivity| |constructor].
  simpl. constructor. eapply (d_nt (g_rules end_g) (nth 2 (g_rules end_g) (mkRule None [] (mkProdRule "" None QEps))) 1 [] []%N []); [simpl; auto|reflexivity| |constructor].
  simpl. repeat constructor.
Qed.

(** s = A t B;  t = C : aligned, nothing erasable *)
Definition plain_rules : rule_set :=
  mkRuleSet "s" [ex_tok "A"; ex_tok "B"; ex_tok "C"] [mkProdRule "s" None (QSeq [QRule "A"; QRule "t"; QRule "B"]); mkProdRule "t" None (QRule "C"); mkProdRule "t" None (QSeq [QRule "A"; QRule "t"])].
Definition plain_g : grammar := Eval vm_compute in of_rules plain_rules.
Definition plain_tb : ll_table := Eval vm_compute in match ll_generate_table 50 plain_g with Ok t => t | _ => [] end.
Lemma plain_built : from_rule_set plain_rules = Ok plain_g.
Proof. vm_compute. reflexivity. Qed.
Lemma plain_tb_ok : ll_generate_table 50 plain_g = Ok plain_tb.
Proof. vm_compute. reflexivity. Qed.
Lemma plain_aligned : aligned plain_g.
Proof. intros [|[|k]] s H; simpl in H; try (injection H as <-; reflexivity). destruct k; discriminate. Qed.
Lemma plain_no_erasable : no_erasable plain_g.
Proof.
  intros r Hr H. apply erasable_iff in H. destruct Hr as [<-|[<-|[<-|[]]]]; simpl in H; inversion H.
Qed.
