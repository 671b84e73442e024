(** Proofs about what a compiler checks in the text of emitted C++ LR parsers. *)
From Coq Require Import String Ascii List Arith NArith ZArith Bool Lia FinFun.
From Verif Require Import Base GrammarModel LRModel NamesModel CppLexerModel CppLRModel TemplateModel TemplateFiles CppTextModel CppTextSpec CppTextProof CppLexTextSpec CppLexTextProof CppLRTextModel CppLRTextSpec CppCaseProof CppLRTextProof.
Import ListNotations.
Local Open Scope string_scope.
Local Open Scope list_scope.

Lemma in_label_bounds : forall P t z e (v : Z), label_bounds P e e = Some (Between None v v) -> in_label P (VInt t z) e e = Some (z =? v)%Z.
Proof. intros P t z e v H. unfold in_label. rewrite H. f_equal. apply eq_true_iff_eq. rewrite andb_true_iff, !Z.leb_le, Z.eqb_eq. lia. Qed.
Lemma in_enum_bounds : forall P t z e (v : Z), label_bounds P e e = Some (Between (Some t) v v) -> in_label P (VEnum t z) e e = Some (z =? v)%Z.
Proof. intros P t z e v H. unfold in_label. rewrite H, String.eqb_refl. reflexivity. Qed.

Section Checks.
Variables (c : cpp_lr) (fs : list (string * (list param * stmt))).
Notation P := (lr_program (enumerators (cx_names c)) (cx_nts c) fs).

(** ** Labels *)

Lemma token_bounds : forall l, token_case l -> label_bounds P (label_expr l) (label_expr l) = option_map (fun v => Between (Some "TokenType") (Z.of_N v) (Z.of_N v)) (token_label c l).
Proof.
  intros [n|n|] T; try destruct T. cbn [label_expr token_label]. unfold label_bounds.
  change (eval P (mkStore [] []) (EName ["lexer"; "TokenType"; n])) with (match find_name n (counted (enumerators (cx_names c))) with Some z => Some (VEnum "TokenType" z) | None => None end).
  rewrite counted_find. unfold enum_value. destruct (find_index (String.eqb n) (enumerators (cx_names c))) as [k|]; [|reflexivity]. cbn [option_map]. rewrite String.eqb_refl, Z.eqb_refl, nat_N_Z. reflexivity.
Qed.
Lemma nt_value : forall st n, eval P st (EName ["NonTerminalType"; n]) = option_map (fun v => VEnum "NonTerminalType" (Z.of_N v)) (enum_value (cx_nts c) n).
Proof.
  intros st n. change (eval P st (EName ["NonTerminalType"; n])) with (match find_name n (counted (cx_nts c)) with Some z => Some (VEnum "NonTerminalType" z) | None => None end).
  rewrite counted_find. unfold enum_value. destruct (find_index (String.eqb n) (cx_nts c)) as [k|]; [|reflexivity]. cbn [option_map]. rewrite nat_N_Z. reflexivity.
Qed.
Lemma nt_bounds : forall l, nt_case l -> label_bounds P (label_expr l) (label_expr l) = option_map (fun v => Between (Some "NonTerminalType") (Z.of_N v) (Z.of_N v)) (nt_label c l).
Proof.
  intros [n|n|] T; try destruct T. cbn [label_expr nt_label]. unfold label_bounds. rewrite nt_value. destruct (enum_value (cx_nts c) n) as [k|]; [|reflexivity]. cbn [option_map]. rewrite String.eqb_refl, Z.eqb_refl. reflexivity.
Qed.
Lemma number_bounds : forall k, in_word k -> label_bounds P (ENum (Z.of_nat k)) (ENum (Z.of_nat k)) = Some (Between None (Z.of_N (N.of_nat k)) (Z.of_N (N.of_nat k))).
Proof.
  intros k L. unfold in_word in L. unfold label_bounds. cbn [eval]. destruct (literal_int (Z.of_nat k)) as (t & ->). rewrite nat_N_Z.
  replace ((0 <=? Z.of_nat k) && (Z.of_nat k <=? Z.of_nat k) && (Z.of_nat k <? 4294967296))%Z with true; [reflexivity|]. symmetry. rewrite !andb_true_iff, !Z.leb_le, Z.ltb_lt. lia.
Qed.

(** The labels of a switch differ. *)
Lemma apart_iff : forall e (v w : N), apart (Between e (Z.of_N v) (Z.of_N v)) (Between e (Z.of_N w) (Z.of_N w)) = true <-> v <> w.
Proof.
  intros [e|] v w; cbn [apart].
  - rewrite String.eqb_refl. cbn [andb]. rewrite negb_true_iff, Z.eqb_neq. lia.
  - rewrite orb_true_iff, !Z.ltb_lt. lia.
Qed.
Definition labels_fit (b : items) : bool := match labels P b with Some (_, n) => Nat.leb n 1 | None => false end.
Lemma labels_iff : forall {A} (e : option string) (val : A -> option N) (f : A -> expr * list stmt) l b, labels P b = Some ([], 1%nat) ->
  (forall a, In a l -> label_bounds P (fst (f a)) (fst (f a)) = option_map (fun v => Between e (Z.of_N v) (Z.of_N v)) (val a)) ->
  labels_fit (case_items (map f l) b) = true <-> (forall a, In a l -> val a <> None) /\ NoDup (map val l).
Proof.
  intros A e val f l b B H. enough (X : match labels P (case_items (map f l) b) with
    | Some (bs, n) => n = 1%nat /\ (forall a, In a l -> val a <> None) /\ NoDup (map val l) /\ bs = flat_map (fun a => match val a with Some v => [Between e (Z.of_N v) (Z.of_N v)] | None => [] end) l
    | None => ~ ((forall a, In a l -> val a <> None) /\ NoDup (map val l)) end).
  { unfold labels_fit. destruct (labels P (case_items (map f l) b)) as [[bs n]|].
    - destruct X as (-> & X & Y & _). split; [intros _; split; assumption|reflexivity].
    - split; [discriminate|]. intros Y. destruct (X Y). }
  induction l as [|a l IH].
  - cbn. rewrite B. split; [reflexivity|]. split; [intros a []|]. split; [constructor|reflexivity].
  - specialize (IH (fun x J => H x (or_intror J))). pose proof (H a (or_introl eq_refl)) as HA. destruct (f a) as (x, ss) eqn:F. cbn [map]. rewrite F. cbn [case_items labels fst] in *. rewrite stmts_labels, HA.
    destruct (val a) as [v|] eqn:V; cbn [option_map].
    2:{ intros (X & _). apply (X a (or_introl eq_refl)). exact V. }
    destruct (labels P (case_items (map f l) b)) as [[bs n]|].
    2:{ intros (X & Y). cbn [map] in Y. inversion Y. apply IH. split; [intros y J; apply X; right; exact J|assumption]. }
    destruct IH as (-> & X & Y & ->). destruct (forallb (apart (Between e (Z.of_N v) (Z.of_N v))) (flat_map (fun a => match val a with Some v => [Between e (Z.of_N v) (Z.of_N v)] | None => [] end) l)) eqn:E.
    + rewrite forallb_forall in E. split; [reflexivity|]. split; [intros y [<-|J]; [congruence|exact (X y J)]|]. split; [|cbn [flat_map]; rewrite V; reflexivity].
      cbn [map]. constructor; [|exact Y]. intros J. apply in_map_iff in J. destruct J as (y & Q & J). assert (W : val y = Some v) by congruence. specialize (E (Between e (Z.of_N v) (Z.of_N v))).
      assert (K : v <> v); [|exact (K eq_refl)]. apply (apart_iff e). apply E. apply in_flat_map. exists y. split; [exact J|]. rewrite W. left. reflexivity.
    + intros (_ & Y'). cbn [map] in Y'. inversion Y' as [|? ? N _]. subst. assert (E' : forallb (apart (Between e (Z.of_N v) (Z.of_N v))) (flat_map (fun a => match val a with Some v => [Between e (Z.of_N v) (Z.of_N v)] | None => [] end) l) = true); [|congruence].
      apply forallb_forall. intros y J. apply in_flat_map in J. destruct J as (w & J & K). destruct (val w) as [u|] eqn:W; [|destruct K]. destruct K as [<-|[]]. apply apart_iff. intros ->. apply N. apply in_map_iff. exists w. split; [congruence|exact J].
Qed.

(** ** The statements *)

Lemma all_blocks : forall {A} (f : A -> expr * list stmt) l b, (forall a, In a l -> forallb no_decl (snd (f a)) = true) -> no_decls b = true -> no_decls (case_items (map f l) b) = true.
Proof.
  intros A f l b H B. rewrite case_no_decls, B, andb_true_r. apply forallb_forall. intros x J. apply in_map_iff in J. destruct J as (a & <- & J). exact (H a J).
Qed.
Lemma all_checked : forall {A} (f : A -> expr * list stmt) l b, checks_items P b = true -> (checks_items P (case_items (map f l) b) = true <-> forall a, In a l -> forallb (checks P) (snd (f a)) = true).
Proof.
  intros A f l b B. rewrite case_checks, B, andb_true_r, forallb_forall. split; intros H a J.
  - apply (H (f a)). apply in_map. exact J.
  - apply in_map_iff in J. destruct J as (x & <- & J). exact (H x J).
Qed.
Lemma switch_checks : forall e b, checks P (SSwitch e b) = true <-> names_ok P e = true /\ no_decls b = true /\ checks_items P b = true /\ labels_fit b = true.
Proof. intros e b. cbn [checks]. fold (labels_fit b). rewrite !andb_true_iff. tauto. Qed.
Lemma block_checks : forall s, checks P (block [s]) = checks P s.
Proof. intros s. unfold block. cbn [checks stmts fold_right checks_items labels]. rewrite !andb_true_r. reflexivity. Qed.

Lemma exact_u16 : forall k, exact "uint16_t" (literal (Z.of_nat k)) = if (N.of_nat k <? 65536)%N then Some (VInt U16 (Z.of_nat k)) else None.
Proof.
  intros k. destruct (literal_int (Z.of_nat k)) as (t & ->). change (exact "uint16_t" (VInt t (Z.of_nat k))) with (if ((Z.of_nat k mod 65536) =? Z.of_nat k)%Z then Some (VInt U16 (Z.of_nat k mod 65536)) else None).
  destruct (N.ltb_spec (N.of_nat k) 65536).
  - rewrite Z.mod_small by lia. rewrite Z.eqb_refl. reflexivity.
  - replace (Z.of_nat k mod 65536 =? Z.of_nat k)%Z with false; [reflexivity|]. symmetry. apply Z.eqb_neq. pose proof (Z.mod_pos_bound (Z.of_nat k) 65536). lia.
Qed.
Lemma exact_u32 : forall k, in_word k -> exact "uint32_t" (literal (Z.of_nat k)) = Some (VInt U32 (Z.of_nat k)).
Proof.
  intros k L. unfold in_word in L. destruct (literal_int (Z.of_nat k)) as (t & ->). change (exact "uint32_t" (VInt t (Z.of_nat k))) with (if ((Z.of_nat k mod 4294967296) =? Z.of_nat k)%Z then Some (VInt U32 (Z.of_nat k mod 4294967296)) else None).
  rewrite Z.mod_small by lia. rewrite Z.eqb_refl. reflexivity.
Qed.
Lemma action_stmt_checks : forall a, checks P (action_stmt a) = true <-> action_fits a.
Proof.
  intros [|k]; [split; [intros _; exact I|reflexivity]|]. unfold action_stmt. cbn [action_fits].
  change (checks P (block [SInit ["Action"] "act" [EName ["ActionType"; "Reduce"]; ENum (Z.of_nat k)]; give "act"])) with (match exact "uint16_t" (literal (Z.of_nat k)) with Some _ => true | None => false end && true && true).
  rewrite exact_u16, !andb_true_r. destruct (N.ltb_spec (N.of_nat k) 65536); split; intros X; try discriminate; try reflexivity; try assumption. lia.
Qed.
Lemma goto_stmt_checks : forall t, in_word (fst t) -> checks P (goto_stmt t) = true.
Proof.
  intros (k, [|]) L; [reflexivity|]. cbn [fst] in L. unfold goto_stmt. cbn [fst snd].
  change (checks P (block [SInit ["Transition"] "transition" [ENum (Z.of_nat k); EBool false]; give "transition"])) with (match exact "uint32_t" (literal (Z.of_nat k)) with Some _ => true | None => false end && true && true).
  rewrite (exact_u32 k L). reflexivity.
Qed.

Lemma action_switch_checks : forall cases ex, (forall l a, In (l, a) cases -> token_case l) -> checks P (action_switch cases ex) = true <-> switch_ok (token_label c) cases /\ forall l a, In (l, a) cases -> action_fits a.
Proof.
  intros cases ex T. unfold action_switch. rewrite switch_checks. rewrite (labels_iff (Some "TokenType") (fun x => token_label c (fst x)) action_case_of); [|reflexivity|intros (l, a) J; exact (token_bounds l (T l a J))].
  rewrite (all_checked action_case_of) by reflexivity. unfold switch_ok. split.
  - intros (_ & _ & A & B & D). split; [split; [intros l a J; exact (B (l, a) J)|exact D]|]. intros l a J. apply action_stmt_checks. specialize (A (l, a) J). cbn [action_case_of snd forallb] in A. rewrite andb_true_r in A. exact A.
  - intros ((B & D) & A). split; [reflexivity|]. split; [apply all_blocks; [intros (l, a) J; reflexivity|reflexivity]|]. split; [|split; [intros (l, a) J; exact (B l a J)|exact D]].
    intros (l, a) J. cbn [action_case_of snd forallb]. rewrite andb_true_r. apply action_stmt_checks. exact (A l a J).
Qed.
Lemma goto_switch_checks : forall ns t value cases, (forall x, names_ok P (ECast [ns; t] x) = names_ok P x) -> (forall l x, In (l, x) cases -> label_bounds P (label_expr l) (label_expr l) = option_map (fun v => Between (Some t) (Z.of_N v) (Z.of_N v)) (value l)) ->
  (forall l x, In (l, x) cases -> in_word (fst x)) -> checks P (goto_switch ns t cases) = true <-> switch_ok value cases.
Proof.
  intros ns t value cases NS L F. unfold goto_switch. rewrite switch_checks. rewrite (labels_iff (Some t) (fun x => value (fst x)) goto_case_of); [|reflexivity|intros (l, a) J; exact (L l a J)].
  unfold switch_ok. split.
  - intros (_ & _ & _ & B & D). split; [intros l a J; exact (B (l, a) J)|exact D].
  - intros (B & D). split; [reflexivity|]. split; [apply all_blocks; [intros (l, a) J; reflexivity|reflexivity]|]. split; [|split; [intros (l, a) J; exact (B l a J)|exact D]].
    apply all_checked; [reflexivity|]. intros (l, a) J. cbn [goto_case_of snd forallb]. rewrite andb_true_r. apply goto_stmt_checks. exact (F l a J).
Qed.

Lemma numbered_iff : forall {A} (f : nat * A -> expr * list stmt) l, (forall a, In a l -> fst (f a) = ENum (Z.of_nat (fst a)) /\ in_word (fst a)) -> labels_fit (case_items (map f l) or_terminate) = true <-> NoDup (map fst l).
Proof.
  intros A f l H. rewrite (labels_iff None (fun x => Some (N.of_nat (fst x))) f); [|reflexivity|intros a J; destruct (H a J) as (-> & L); exact (number_bounds _ L)].
  replace (map (fun x : nat * A => Some (N.of_nat (fst x))) l) with (map (fun k => Some (N.of_nat k)) (map fst l)) by (rewrite map_map; reflexivity). split.
  - intros (_ & D). apply NoDup_map_inv in D. exact D.
  - intros D. split; [discriminate|]. apply Injective_map_NoDup; [|exact D]. intros x y E. injection E as E. lia.
Qed.

Hypothesis W : writable_lr c.

Lemma action_body_checks : checks P (action_body c) = true <->
  NoDup (map fst (cx_actions c)) /\ forall q cases ex, In (q, (cases, ex)) (cx_actions c) -> switch_ok (token_label c) cases /\ forall l a, In (l, a) cases -> action_fits a.
Proof.
  unfold action_body. rewrite block_checks, switch_checks. rewrite (numbered_iff action_state_of) by (intros (q, (cases, ex)) J; split; [reflexivity|exact (proj1 (wl_actions c W q cases ex J))]).
  rewrite (all_checked action_state_of) by reflexivity. split.
  - intros (_ & _ & A & B). split; [exact B|]. intros q cases ex J. specialize (A _ J). cbn [action_state_of snd fst forallb] in A. rewrite block_checks in A. cbn [checks] in A. rewrite !andb_true_r in A.
    apply (action_switch_checks cases ex (proj2 (proj2 (wl_actions c W q cases ex J)))). exact A.
  - intros (B & A). split; [reflexivity|]. split; [apply all_blocks; [intros x J; reflexivity|reflexivity]|]. split; [|exact B]. intros (q, (cases, ex)) J. cbn [action_state_of snd fst forallb]. rewrite block_checks. cbn [checks]. rewrite !andb_true_r.
    apply (action_switch_checks cases ex (proj2 (proj2 (wl_actions c W q cases ex J)))). exact (A q cases ex J).
Qed.
Lemma goto_choice_checks : forall q ts nts, In (q, (ts, nts)) (cx_gotos c) -> checks P (goto_choice ts nts) = true <-> switch_ok (token_label c) ts /\ switch_ok (nt_label c) nts.
Proof.
  intros q ts nts J. destruct (wl_gotos c W q ts nts J) as (_ & T & NT). unfold goto_choice.
  change (checks P (SIf (kind_is "Terminal") (block [goto_switch "lexer" "TokenType" ts]) (Some (SIf (kind_is "NonTerminal") (block [goto_switch "parser" "NonTerminalType" nts]) (Some (block [terminate])))))) with
    (checks P (block [goto_switch "lexer" "TokenType" ts]) && (checks P (block [goto_switch "parser" "NonTerminalType" nts]) && true)).
  rewrite !block_checks, andb_true_r, andb_true_iff.
  rewrite (goto_switch_checks "lexer" "TokenType" (token_label c) ts); [|reflexivity|intros l x K; exact (token_bounds l (proj1 (T l x K)))|intros l x K; exact (proj2 (T l x K))].
  rewrite (goto_switch_checks "parser" "NonTerminalType" (nt_label c) nts); [|reflexivity|intros l x K; exact (nt_bounds l (proj1 (NT l x K)))|intros l x K; exact (proj2 (NT l x K))]. reflexivity.
Qed.
Lemma goto_body_checks : checks P (goto_body c) = true <->
  NoDup (map fst (cx_gotos c)) /\ forall q ts nts, In (q, (ts, nts)) (cx_gotos c) -> switch_ok (token_label c) ts /\ switch_ok (nt_label c) nts.
Proof.
  unfold goto_body. rewrite block_checks, switch_checks. rewrite (numbered_iff goto_state_of) by (intros (q, (ts, nts)) J; split; [reflexivity|exact (proj1 (wl_gotos c W q ts nts J))]).
  rewrite (all_checked goto_state_of) by reflexivity. split.
  - intros (_ & _ & A & B). split; [exact B|]. intros q ts nts J. specialize (A _ J). cbn [goto_state_of snd fst forallb] in A. rewrite block_checks in A. apply andb_true_iff in A. apply (goto_choice_checks q ts nts J). exact (proj1 A).
  - intros (B & A). split; [reflexivity|]. split; [apply all_blocks; [intros x J; reflexivity|reflexivity]|]. split; [|exact B]. intros (q, (ts, nts)) J. cbn [goto_state_of snd fst forallb]. rewrite block_checks. apply andb_true_iff. split; [|reflexivity].
    apply (goto_choice_checks q ts nts J). exact (A q ts nts J).
Qed.
Lemma reduction_checks : forall k n s, forallb (checks P) (snd (reduction_of (k, (n, s)))) = true <-> enum_value (cx_nts c) s <> None.
Proof.
  intros k n s. cbn [reduction_of snd fst forallb]. rewrite andb_true_r.
  assert (X : checks P (block ((if Nat.ltb 0 n then [loop_stmt n] else []) ++ push_stmts s)) = match eval P (mkStore [] []) (EName ["NonTerminalType"; s]) with Some _ => true | None => false end).
  { destruct (Nat.ltb 0 n);
    change (match eval P (mkStore [] []) (EName ["NonTerminalType"; s]) with Some _ => true | None => false end && true && true && true && true = match eval P (mkStore [] []) (EName ["NonTerminalType"; s]) with Some _ => true | None => false end);
    rewrite !andb_true_r; reflexivity. }
  rewrite X, nt_value. destruct (enum_value (cx_nts c) s); cbn [option_map]; split; congruence.
Qed.
Lemma reduce_body_checks : checks P (reduce_body c) = true <-> NoDup (map fst (cx_reductions c)) /\ forall k n s, In (k, (n, s)) (cx_reductions c) -> enum_value (cx_nts c) s <> None.
Proof.
  unfold reduce_body. rewrite block_checks, switch_checks. rewrite (numbered_iff reduction_of) by (intros (k, (n, s)) J; split; [reflexivity|exact (proj1 (wl_reductions c W k n s J))]).
  rewrite (all_checked reduction_of) by reflexivity. split.
  - intros (_ & _ & A & B). split; [exact B|]. intros k n s J. exact (proj1 (reduction_checks k n s) (A _ J)).
  - intros (B & A). split; [reflexivity|]. split; [apply all_blocks; [intros x J; reflexivity|reflexivity]|]. split; [|exact B]. intros (k, (n, s)) J. exact (proj2 (reduction_checks k n s) (A k n s J)).
Qed.
Lemma visit_body_checks : forall visits, writable_visits visits -> checks P (visit_body visits) = true <-> NoDup (map fst visits).
Proof.
  intros visits V. unfold visit_body. rewrite block_checks, switch_checks. rewrite (numbered_iff visit_of) by (intros (k, m) J; split; [reflexivity|exact (proj1 (V k m J))]).
  rewrite (all_checked visit_of) by reflexivity. split.
  - intros (_ & _ & _ & B). exact B.
  - intros B. split; [reflexivity|]. split; [apply all_blocks; [intros x J; reflexivity|reflexivity]|]. split; [|exact B]. intros (k, m) J. destruct m; reflexivity.
Qed.
Lemma parse_body_checks : checks P (parse_body (cx_entry c)) = true.
Proof. reflexivity. Qed.
End Checks.
