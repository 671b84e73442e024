(** Concrete grammars used by the GLR examples and refutations. *)
From Coq Require Import String List Arith NArith Bool Lia Relations.
From Verif Require Import Base InputModel GrammarModel GrammarSpec GrammarFactsProof GrammarProperties LLModel LLSpec LLExample LRModel LRSpec LRFactsProof LRExample ShapesProof
  GLRModel GLRSpec GLRFactsProof.
Import ListNotations.
Local Open Scope nat_scope.
Local Open Scope string_scope.
Local Open Scope list_scope.

Definition no_glr : glr_parser := mkGParser 0 [] [] [].
Definition glr_from (g : grammar) (tb : lr_table) : glr_parser := match glr_write_parser g tb with Ok p => p | _ => no_glr end.

(** Unit rules by computation. *)
Definition units (g : grammar) (i : N) : list N :=
  flat_map (fun r => match r_lhs r with
    | Some j => if (i =? j)%N then match filter (fun s => match s with Epsilon => false | _ => true end) (r_rhs r) with [NonTerminal x] => [x] | _ => [] end else []
    | None => [] end) (g_rules g).
Lemma units_In : forall g i j, unit_rule g i j -> In j (units g i).
Proof. intros g i j (r & Hr & Hl & E). apply in_flat_map. exists r. split; auto. rewrite Hl, N.eqb_refl, E. left. auto. Qed.
(** A rank which decreases along unit rules. *)
Lemma ranked_acyclic : forall g (rank : N -> nat), (forall i j, In j (units g i) -> rank j < rank i) -> acyclic g.
Proof.
  intros g rank H i X. assert (forall a b, clos_trans N (unit_rule g) a b -> rank b < rank a) as Y; [|specialize (Y _ _ X); lia].
  intros a b Z. induction Z as [a b Z|a b c _ IH1 _ IH2]; [apply H, units_In; auto|lia].
Qed.
Ltac nonempty := intros r H; simpl in H; repeat destruct H as [<-|H]; try destruct H; eexists; (split; [left; reflexivity|discriminate]).

(** ** e = e ADD e | NUM: an ambiguous grammar *)

Lemma amb_front : epsilon_in_front amb_g.
Proof. apply (built_epsilon_in_front _ _ amb_built). reflexivity. Qed.
Lemma amb_ne : no_empty_rhs amb_g.
Proof. apply (built_no_empty _ _ amb_built). reflexivity. Qed.
Lemma amb_entry : entry_fresh amb_g.
Proof. intros r H. simpl in H. destruct H as [<-|[<-|[<-|[]]]]; simpl; intros X; repeat (destruct X as [X|X]; [discriminate|]); destruct X. Qed.
Lemma amb_sealed : sealed KindLALR amb_g.
Proof. right. split; [discriminate|exact amb_entry]. Qed.
Lemma amb_nonempty : no_empty_rules amb_g.
Proof. nonempty. Qed.
Lemma amb_acyclic : acyclic amb_g.
Proof.
  apply (ranked_acyclic _ (fun i => if (i =? 0)%N then 1 else 0)). intros i j H. unfold units, amb_g in H. simpl in H.
  destruct (N.eqb_spec i 0) as [->|Hi]; [|exfalso]; simpl in H.
  - repeat destruct H as [<-|H]; try destruct H. simpl. lia.
  - repeat match type of H with context [if ?b then _ else _] => destruct b; simpl in H end; repeat destruct H as [H|H]; try destruct H; try discriminate.
Qed.
Definition amb_p : glr_parser := Eval vm_compute in glr_from amb_g amb_tb.
Lemma amb_p_ok : glr_write_parser amb_g amb_tb = Ok amb_p.
Proof. vm_compute. reflexivity. Qed.
Definition amb_tree : itree := INode 0 [INode 1 [INode 2 [ILeaf 0]; ILeaf 1; INode 2 [ILeaf 0]]].
Lemma amb_tree_ok : parse_tree amb_g amb_tree /\ iyield amb_tree = [0; 1; 0]%N.
Proof. split; [unfold parse_tree; simpl; tree|reflexivity]. Qed.
Lemma amb_run : glr_parse 20 amb_p [0; 1; 0]%N = (post_order amb_tree, Ok []).
Proof. vm_compute. reflexivity. Qed.
Definition amb_left : itree := INode 0 [INode 1 [INode 1 [INode 2 [ILeaf 0]; ILeaf 1; INode 2 [ILeaf 0]]; ILeaf 1; INode 2 [ILeaf 0]]].
Definition amb_right : itree := INode 0 [INode 1 [INode 2 [ILeaf 0]; ILeaf 1; INode 1 [INode 2 [ILeaf 0]; ILeaf 1; INode 2 [ILeaf 0]]]].
Lemma amb_sentence : ambiguous_sentence amb_g [0; 1; 0; 1; 0]%N.
Proof. exists amb_left, amb_right. split; [unfold parse_tree; simpl; tree|]. split; [unfold parse_tree; simpl; tree|]. split; [reflexivity|]. split; [reflexivity|discriminate]. Qed.
Lemma amb_panics : snd (glr_parse 20 amb_p [0; 1; 0; 1; 0]%N) = Panic.
Proof. vm_compute. reflexivity. Qed.
Lemma amb_error : snd (glr_parse 20 amb_p [0; 1; 1]%N) = Err (GUnexpectedToken (Some 1%N) [Some 0%N]).
Proof. vm_compute. reflexivity. Qed.

(** ** A grammar with an LALR(1) conflict which is not ambiguous: s = p A A | q A B;  p = A;  q = A *)

Definition look_rules : rule_set :=
  mkRuleSet "s" [ex_tok "A"; ex_tok "B"]
    [mkProdRule "s" None (QSeq [QRule "p"; QRule "A"; QRule "A"]); mkProdRule "s" None (QSeq [QRule "q"; QRule "A"; QRule "B"]);
     mkProdRule "p" None (QRule "A"); mkProdRule "q" None (QRule "A")].
Definition look_g : grammar := Eval vm_compute in of_rules look_rules.
Lemma look_built : from_rule_set look_rules = Ok look_g.
Proof. vm_compute. reflexivity. Qed.
Definition look_tb : lr_table := Eval vm_compute in table_from (generates KindLALR 100 look_g true).
Definition look_cs : list conflict := Eval vm_compute in match generates KindLALR 100 look_g true with Ok (AllowedConflicts _ cs) => cs | _ => [] end.
Lemma look_tb_ok : generates KindLALR 100 look_g true = Ok (AllowedConflicts look_tb look_cs).
Proof. vm_compute. reflexivity. Qed.
Definition look_p : glr_parser := Eval vm_compute in glr_from look_g look_tb.
Lemma look_p_ok : glr_write_parser look_g look_tb = Ok look_p.
Proof. vm_compute. reflexivity. Qed.

(** ** The LALR(1) and LR(1) tables of conflict-free grammars *)

Definition fresh_glr : glr_parser := Eval vm_compute in glr_from fresh_g fresh_tb.
Lemma fresh_glr_ok : glr_write_parser fresh_g fresh_tb = Ok fresh_glr.
Proof. vm_compute. reflexivity. Qed.
Definition paren_glr : glr_parser := Eval vm_compute in glr_from paren_g paren_lalr_tb.
Lemma paren_glr_ok : glr_write_parser paren_g paren_lalr_tb = Ok paren_glr.
Proof. vm_compute. reflexivity. Qed.
Lemma paren_premature : glr_parse 10 paren_glr [2; 1]%N = ([EShift (Some 2%N); EReduce 1], Ok []) /\ ~ derives (g_rules paren_g) [g_entry paren_g] [2; 1]%N.
Proof. split; [vm_compute; reflexivity|]. intros H. apply paren_balanced in H. vm_compute in H. discriminate. Qed.

(** ** e = e ADD e | NUM with [e] as the entry symbol *)

Definition open_rules : rule_set :=
  mkRuleSet "e" [ex_tok "NUM"; ex_tok "ADD"] [mkProdRule "e" None (QSeq [QRule "e"; QRule "ADD"; QRule "NUM"]); mkProdRule "e" None (QRule "NUM")].
Definition open_g : grammar := Eval vm_compute in of_rules open_rules.
Lemma open_built : from_rule_set open_rules = Ok open_g.
Proof. vm_compute. reflexivity. Qed.
Definition open_tb : lr_table := Eval vm_compute in table_from (generates KindLALR 100 open_g true).
Lemma open_tb_ok : exists r, generates KindLALR 100 open_g true = Ok r /\ table_of_result r open_tb.
Proof. eexists. split; [vm_compute; reflexivity|constructor]. Qed.
Definition open_p : glr_parser := Eval vm_compute in glr_from open_g open_tb.
Lemma open_p_ok : glr_write_parser open_g open_tb = Ok open_p.
Proof. vm_compute. reflexivity. Qed.

(** ** s = e B;  e = e | A: a cyclic grammar *)

Definition spin_rules : rule_set :=
  mkRuleSet "s" [ex_tok "A"; ex_tok "B"]
    [mkProdRule "s" None (QSeq [QRule "e"; QRule "B"]); mkProdRule "e" None (QRule "e"); mkProdRule "e" None (QRule "A")].
Definition spin_g : grammar := Eval vm_compute in of_rules spin_rules.
Lemma spin_built : from_rule_set spin_rules = Ok spin_g.
Proof. vm_compute. reflexivity. Qed.
Definition spin_tb : lr_table := Eval vm_compute in table_from (generates KindLALR 100 spin_g true).
Lemma spin_tb_ok : exists r, generates KindLALR 100 spin_g true = Ok r /\ table_of_result r spin_tb.
Proof. eexists. split; [vm_compute; reflexivity|constructor]. Qed.
Definition spin_p : glr_parser := Eval vm_compute in glr_from spin_g spin_tb.
Lemma spin_p_ok : glr_write_parser spin_g spin_tb = Ok spin_p.
Proof. vm_compute. reflexivity. Qed.
Lemma spin_nonempty : no_empty_rules spin_g.
Proof. nonempty. Qed.
Lemma spin_sentence : parse_tree spin_g (INode 0 [INode 2 [ILeaf 0]; ILeaf 1]).
Proof. unfold parse_tree; simpl; tree. Qed.

(** Whatever is shifted, the stack with [e] on top is reduced again. *)
Lemma nth_error_grow : forall (A : Type) (h l : list A) i x, nth_error h i = Some x -> nth_error (h ++ l) i = Some x.
Proof. intros A h l i x H. rewrite nth_error_app1; auto. apply nth_error_Some. congruence. Qed.
Lemma gss_set_other : forall h i j n, i <> j -> nth_error (gss_set h i n) j = nth_error h j.
Proof. induction h as [|m h IH]; intros [|i] [|j] n H; simpl; auto; congruence. Qed.
Lemma gss_set_length : forall h i n, length (gss_set h i n) = length h.
Proof. induction h as [|m h IH]; intros [|i] n; simpl; auto. Qed.

Definition bottom (h : gss_heap) : Prop := nth_error h 0 = Some (mkNode None []) /\ nth_error h 1 = Some (mkNode (Some 0) [(None, 0)]).
Definition on_top (h : gss_heap) (q : nat) (s : stack_symbol) (i : nat) : Prop := 1 < i /\ nth_error h i = Some (mkNode (Some q) [(Some s, 1)]).

(** Reducing a one-symbol rule on a stack of one symbol. *)
Lemma unit_reduce : forall p k x q s q' h i rec red todo, bottom h -> on_top h q s i ->
  nth_error (gp_reductions p) k = Some (1, NonTerminal x) -> glr_next_goto (gp_gotos p) 0 (KNonTerminal x) = Some (GotoState q') ->
  exists h' i', apply_reduce p k (mkGss i rec) (mkGState h red todo) = Ok (mkGState h' red (todo ++ [mkGss i' (rec ++ [EReduce k])])) /\
    bottom h' /\ on_top h' q' (KNonTerminal x) i'.
Proof.
  intros p k x q s q' h i rec red todo [B0 B1] [T1 T2] HR HG. unfold apply_reduce. rewrite HR. cbn [gt_heap gs_node]. cbn [unwind_stacks]. unfold gss_inner at 1. rewrite T2. cbn [bind gn_neighbors foldM fst snd unwind_stacks fold_left gn_value].
  unfold gss_push at 1, gss_alloc. cbn [bind app foldM]. unfold reduce_path at 1. cbn [gss_pops bind gt_heap gs_recorded gt_reduced gt_todo]. unfold gss_pop at 1, gss_inner.
  assert (1 < length h) as Hl by (apply nth_error_Some; congruence).
  rewrite nth_error_app2, Nat.sub_diag by lia. cbn [nth_error bind gn_neighbors gn_value]. set (h1 := gss_set _ _ _).
  assert (nth_error h1 1 = Some (mkNode (Some 0) [(None, 0)])) as X1. { unfold h1. rewrite gss_set_other by lia. apply nth_error_grow. auto. }
  assert (nth_error h1 0 = Some (mkNode None [])) as X0. { unfold h1. rewrite gss_set_other by lia. apply nth_error_grow. auto. }
  unfold gss_top, gss_inner. rewrite X1. cbn [bind gn_value]. rewrite HG. unfold gss_push, gss_alloc. cbn [bind foldM].
  assert (1 < length h1) by (apply nth_error_Some; congruence).
  eexists. eexists. split; [reflexivity|]. split; [split; apply nth_error_grow; auto|]. split; [lia|]. rewrite nth_error_app2, Nat.sub_diag by lia. reflexivity.
Qed.

Lemma spin_reduces : forall fuel h red i rec, bottom h -> on_top h 1 (KNonTerminal 1) i -> apply_reduces fuel spin_p (Some 1%N) h red [mkGss i rec] = OutOfFuel.
Proof.
  induction fuel as [|fuel IH]; intros h red i rec HB HT; [reflexivity|]. cbn [apply_reduces foldM]. unfold reduce_stack_glr. cbn [gt_heap gs_node bind].
  unfold gss_top, gss_inner. destruct HT as [T1 T2]. rewrite T2. cbn [bind gn_value].
  change (glr_next_actions (gp_actions spin_p) 1 (Some 1%N)) with (@Ok glr_error _ [ActReduce 1; ActShift]). cbn [foldM apply_action].
  destruct (unit_reduce spin_p 1 1 1 (KNonTerminal 1) 1 h i rec red [] HB (conj T1 T2) eq_refl eq_refl) as (h' & i' & E & B' & T').
  rewrite E. cbn [bind gt_heap gt_reduced gt_todo app]. destruct (red ++ [mkGss i rec]) as [|x l] eqn:EL; [destruct red; discriminate|]. apply IH; auto.
Qed.

Definition spin_h : gss_heap := [mkNode None []; mkNode (Some 0) [(None, 0)]; mkNode (Some 2) [(Some (KTerminal (Some 0%N)), 1)]].
Lemma spin_shift : forall fuel, glr_pass (S (S fuel)) spin_p (Some 0%N) [mkNode None []; mkNode (Some 0) [(None, 0)]] [mkGss 1 []] = Ok (spin_h, [mkGss 2 [EShift (Some 0%N)]]).
Proof. intros fuel. vm_compute. reflexivity. Qed.
Lemma spin_pass : forall fuel, glr_pass fuel spin_p (Some 1%N) spin_h [mkGss 2 []] = OutOfFuel.
Proof.
  intros [|fuel]; [reflexivity|]. unfold glr_pass. cbn [apply_reduces foldM]. unfold reduce_stack_glr. cbn [gt_heap gs_node bind].
  change (gss_top spin_h 2) with (@Ok glr_error _ (Some 2)). cbn [bind]. change (glr_next_actions (gp_actions spin_p) 2 (Some 1%N)) with (@Ok glr_error _ [ActReduce 2]). cbn [foldM apply_action].
  destruct (unit_reduce spin_p 2 1 2 (KTerminal (Some 0%N)) 1 spin_h 2 [] [] []) as (h' & i' & E & B' & T'); [split; reflexivity|split; [lia|reflexivity]|reflexivity|reflexivity|].
  rewrite E. cbn [bind gt_heap gt_reduced gt_todo app length Nat.eqb]. rewrite (spin_reduces fuel h' [] i' [EReduce 2] B' T'). reflexivity.
Qed.
Lemma spin_diverges : forall fuel, snd (glr_parse fuel spin_p [0; 1]%N) = OutOfFuel.
Proof.
  intros [|[|fuel]]; [reflexivity|vm_compute; reflexivity|]. unfold glr_parse. cbn [glr_run peek gp_entry spin_p tl gss_is_root nth_error gs_node gn_value].
  rewrite spin_shift. cbn [gs_node gs_recorded glr_run peek gss_is_root spin_h nth_error gn_value]. fold spin_h. rewrite spin_pass. reflexivity.
Qed.

(** ** s = e s A | A;  e = !: hidden left recursion *)

Definition hidden_rules : rule_set :=
  mkRuleSet "s" [ex_tok "A"]
    [mkProdRule "s" None (QSeq [QRule "e"; QRule "s"; QRule "A"]); mkProdRule "s" None (QRule "A"); mkProdRule "e" None QEps].
Definition hidden_g : grammar := Eval vm_compute in of_rules hidden_rules.
Lemma hidden_built : from_rule_set hidden_rules = Ok hidden_g.
Proof. vm_compute. reflexivity. Qed.
Definition hidden_tb : lr_table := Eval vm_compute in table_from (generates KindLALR 100 hidden_g true).
Lemma hidden_tb_ok : exists r, generates KindLALR 100 hidden_g true = Ok r /\ table_of_result r hidden_tb.
Proof. eexists. split; [vm_compute; reflexivity|constructor]. Qed.
Definition hidden_p : glr_parser := Eval vm_compute in glr_from hidden_g hidden_tb.
Lemma hidden_p_ok : glr_write_parser hidden_g hidden_tb = Ok hidden_p.
Proof. vm_compute. reflexivity. Qed.
Lemma hidden_acyclic : acyclic hidden_g.
Proof.
  apply (ranked_acyclic _ (fun _ => 0)). intros i j H. exfalso. unfold units, hidden_g in H. simpl in H.
  repeat match type of H with context [if ?b then _ else _] => destruct b; simpl in H end; repeat destruct H as [H|H]; try destruct H; try discriminate.
Qed.
Lemma hidden_sentence : parse_tree hidden_g (INode 1 [ILeaf 0]).
Proof. unfold parse_tree; simpl; tree. Qed.

Lemma hidden_reduces : forall fuel h red i rec q nb, q <= 1 -> nth_error h i = Some (mkNode (Some q) nb) -> apply_reduces fuel hidden_p (Some 0%N) h red [mkGss i rec] = OutOfFuel.
Proof.
  induction fuel as [|fuel IH]; intros h red i rec q nb Hq HT; [reflexivity|]. cbn [apply_reduces foldM]. unfold reduce_stack_glr. cbn [gt_heap gs_node bind].
  unfold gss_top, gss_inner. rewrite HT. cbn [bind gn_value].
  assert (glr_next_actions (gp_actions hidden_p) q (Some 0%N) = Ok [ActReduce 2; ActShift]) as -> by (destruct q as [|[|q]]; [reflexivity|reflexivity|lia]). cbn [foldM apply_action].
  assert (apply_reduce hidden_p 2 (mkGss i rec) (mkGState h red []) = Ok (mkGState (h ++ [mkNode (Some 1) [(Some (KNonTerminal 2), i)]]) red [mkGss (length h) (rec ++ [EReduce 2])])) as ->.
  { unfold apply_reduce. change (nth_error (gp_reductions hidden_p) 2) with (Some (0, NonTerminal 2)). cbn [unwind_stacks bind foldM gs_node gt_heap gs_recorded gt_reduced gt_todo]. unfold reduce_path. cbn [gss_pops bind gt_heap].
    unfold gss_top, gss_inner. rewrite HT. cbn [bind gn_value]. assert (glr_next_goto (gp_gotos hidden_p) q (KNonTerminal 2) = Some (GotoState 1)) as -> by (destruct q as [|[|q]]; [reflexivity|reflexivity|lia]). reflexivity. }
  cbn [bind gt_heap gt_reduced gt_todo]. destruct (red ++ [mkGss i rec]) as [|x l] eqn:EL; [destruct red; discriminate|].
  apply (IH _ _ _ _ 1 [(Some (KNonTerminal 2), i)]); [lia|]. rewrite nth_error_app2, Nat.sub_diag by lia. reflexivity.
Qed.

Lemma hidden_diverges : forall fuel, snd (glr_parse fuel hidden_p [0%N]) = OutOfFuel.
Proof.
  intros [|fuel]; [reflexivity|]. unfold glr_parse. cbn [glr_run peek gss_is_root nth_error gs_node gn_value]. unfold glr_pass.
  rewrite (hidden_reduces (S fuel) _ [] 1 [] 0 [(None, 0)]); auto.
Qed.

(** ** s = LPAR s RPAR | A | A RPAR RPAR: the entry symbol is used in a rule *)

Definition early_rules : rule_set :=
  mkRuleSet "s" [ex_tok "LPAR"; ex_tok "RPAR"; ex_tok "A"]
    [mkProdRule "s" None (QSeq [QRule "LPAR"; QRule "s"; QRule "RPAR"]); mkProdRule "s" None (QRule "A"); mkProdRule "s" None (QSeq [QRule "A"; QRule "RPAR"; QRule "RPAR"])].
Definition early_g : grammar := Eval vm_compute in of_rules early_rules.
Lemma early_built : from_rule_set early_rules = Ok early_g.
Proof. vm_compute. reflexivity. Qed.
Definition early_tb : lr_table := Eval vm_compute in table_from (generates KindLALR 100 early_g true).
Lemma early_tb_ok : exists r, generates KindLALR 100 early_g true = Ok r /\ table_of_result r early_tb.
Proof. eexists. split; [vm_compute; reflexivity|constructor]. Qed.
Definition early_p : glr_parser := Eval vm_compute in glr_from early_g early_tb.
Lemma early_p_ok : glr_write_parser early_g early_tb = Ok early_p.
Proof. vm_compute. reflexivity. Qed.
Lemma early_front : epsilon_in_front early_g.
Proof. apply (built_epsilon_in_front _ _ early_built). reflexivity. Qed.
Lemma early_ne : no_empty_rhs early_g.
Proof. apply (built_no_empty _ _ early_built). reflexivity. Qed.
Lemma early_nl : ~ entry_left_recursive early_g.
Proof. apply (not_left_recursive _ 0%N []); [reflexivity|vm_compute; intros x []|intros j []|intros []]. Qed.
Lemma early_tree : parse_tree early_g (INode 2 [ILeaf 2; ILeaf 1; ILeaf 1]).
Proof. unfold parse_tree; simpl; tree. Qed.
Ltac inv_parse := repeat match goal with H : iparses _ (_ :: _) _ |- _ => inversion H; clear H; subst | H : iparses _ [] _ |- _ => inversion H; clear H; subst end.
Lemma early_one_tree : ~ ambiguous_sentence early_g [2; 1; 1]%N.
Proof.
  assert (forall tr, parse_tree early_g tr -> iyield tr = [2; 1; 1]%N -> tr = INode 2 [ILeaf 2; ILeaf 1; ILeaf 1]) as X; [|intros (t1 & t2 & A & B & C & D & E); apply E; rewrite (X t1 A C), (X t2 B D); auto].
  intros tr H E. unfold parse_tree in H. change (g_entry early_g) with (NonTerminal 0) in H. inversion H as [| | |k r i al cs ts Hr Hi Hc Hn]; subst. inversion Hn; subst. clear H Hn.
  destruct k as [|[|[|k]]]; [| | |destruct k; discriminate]; injection Hr as <-; cbn in Hc.
  - inversion Hc; subst. cbn in E. discriminate.
  - inversion Hc as [| |? ? ? Hn|]; subst. inversion Hn; subst. discriminate.
  - inversion Hc as [| |? ? ? H1|]; subst. inversion H1 as [| |? ? ? H2|]; subst. inversion H2 as [| |? ? ? H3|]; subst. inversion H3; subst. reflexivity.
Qed.
Lemma early_panics : snd (glr_parse 20 early_p [2; 1; 1]%N) = Panic.
Proof. vm_compute. reflexivity. Qed.

(** ** s = A N B | x n C | L n D;  x = A;  n = N: a stack which cannot go on is dropped before the others *)

Definition drop_rules : rule_set :=
  mkRuleSet "s" [ex_tok "A"; ex_tok "B"; ex_tok "C"; ex_tok "D"; ex_tok "L"; ex_tok "N"]
    [mkProdRule "s" None (QSeq [QRule "A"; QRule "N"; QRule "B"]); mkProdRule "s" None (QSeq [QRule "x"; QRule "n"; QRule "C"]);
     mkProdRule "s" None (QSeq [QRule "L"; QRule "n"; QRule "D"]); mkProdRule "x" None (QRule "A"); mkProdRule "n" None (QRule "N")].
Definition drop_g : grammar := Eval vm_compute in of_rules drop_rules.
Lemma drop_built : from_rule_set drop_rules = Ok drop_g.
Proof. vm_compute. reflexivity. Qed.
Definition drop_tb : lr_table := Eval vm_compute in table_from (generates KindLALR 100 drop_g true).
Lemma drop_tb_ok : exists r, generates KindLALR 100 drop_g true = Ok r /\ table_of_result r drop_tb.
Proof. eexists. split; [vm_compute; reflexivity|constructor]. Qed.
Definition drop_p : glr_parser := Eval vm_compute in glr_from drop_g drop_tb.
Lemma drop_p_ok : glr_write_parser drop_g drop_tb = Ok drop_p.
Proof. vm_compute. reflexivity. Qed.
Lemma drop_error : glr_parse 20 drop_p [0; 5; 3]%N = ([EShift (Some 0%N)], Err (GUnexpectedToken (Some 3%N) [Some 2%N])).
Proof. vm_compute. reflexivity. Qed.
Lemma drop_sentence : parse_tree drop_g (INode 0 [ILeaf 0; ILeaf 5; ILeaf 1]).
Proof. unfold parse_tree; simpl; tree. Qed.
