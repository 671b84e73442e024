(** Proofs about the texts of visitor.h and of the function of parser.cpp that reports unexpected tokens. *)
From Coq Require Import String Ascii List Arith NArith ZArith Bool Lia Permutation.
From Verif Require Import Base InputModel GrammarModel GrammarSpec GrammarProof GrammarNamesProof GrammarBuildProof GrammarFactsProof LLModel LLSpec LRModel NamesModel NamesSpec NamesVisitProof CppLexerModel CppLexerSpec CppLRModel CppLRSpec CppLRProof TableModel
  TemplateModel TemplateFiles CppTextModel CppTextSpec CppTextProof CppLexTextSpec CppLexTextProof CppTokTextProof CppLexGenProof CppLRTextModel CppLRTextSpec CppLRTextProof CppLRGenTextProof CppVisitorModel CppVisitorSpec CppLexerProof NamesExample CppLexTextExample.
Import ListNotations.
Local Open Scope string_scope.
Local Open Scope list_scope.

(** ** Names of rules *)

Lemma quotable_joined : forall l, Forall quotable l -> quotable (String.concat " " l).
Proof.
  intros l H. induction H as [|x l Hx Hl IH]; [intros c []|]. destruct l as [|y l]; [exact Hx|]. change (String.concat " " (x :: y :: l)) with (x ++ " " ++ String.concat " " (y :: l))%string.
  apply quotable_app; [exact Hx|]. apply quotable_app; [apply quotable_const; reflexivity|exact IH].
Qed.
Lemma quotable_line : forall s, quotable s -> one_line (chars s).
Proof.
  intros s H. split; [intros J; destruct (H _ J) as (_ & A & _); apply A; reflexivity|]. destruct (chars s) as [|c l] eqn:E; [discriminate|]. rewrite <- E.
  assert (J : In (last (chars s) 0%N) (chars s)). { rewrite E. clear. revert c. induction l as [|d l IH]; intros c; [left; reflexivity|]. right. exact (IH d). }
  destruct (H _ J) as (_ & _ & A & _). exact A.
Qed.

Section Written.
Variables (rs : rule_set) (g : grammar).
Hypothesis sm : small rs.
Hypothesis Hg : from_rule_set rs = Ok g.
Hypothesis (PT : Forall plain_name (token_names rs)) (PP : forall p, In p (rs_prods rs) -> plain_name (pr_name p)).
Let wf := grammar_wf rs g Hg.

Lemma symbol_quotable : forall s, known g s -> exists n, get_symbol_name g s = Ok n /\ quotable n.
Proof.
  intros [| |i|t] K; try contradiction.
  - eexists. split; [reflexivity|]. apply quotable_const. reflexivity.
  - unfold get_symbol_name. destruct (map_get (NonTerminal i) (g_prods g)) as [n|] eqn:E.
    + eexists. split; [reflexivity|]. apply (proj1 (map_get_In _ _ _ (prods_sorted _ _ Hg))) in E. destruct (prod_named _ _ Hg _ _ E) as (p & Hp & <-).
      apply quotable_app; [apply plain_quotable, PP, Hp|]. apply quotable_app; [apply quotable_const; reflexivity|]. apply quotable_app; [apply plain_quotable, plain_decimal|apply quotable_const; reflexivity].
    + eexists. split; [reflexivity|]. apply quotable_app; [apply quotable_const; reflexivity|]. apply quotable_app; [apply plain_quotable, plain_decimal|apply quotable_const; reflexivity].
  - destruct (token_name_ok rs g sm Hg t K) as (A & E). unfold get_symbol_name. rewrite A. cbn [bind]. eexists. split; [reflexivity|].
    apply nth_error_In in E. apply quotable_app; [apply plain_quotable; exact (proj1 (Forall_forall _ _) PT _ E)|]. apply quotable_app; [apply quotable_const; reflexivity|].
    apply quotable_app; [apply plain_quotable, plain_decimal|apply quotable_const; reflexivity].
Qed.
Lemma symbols_quotable : forall l, (forall s, In s l -> known g s) -> exists n, symbol_names g l = Ok n /\ quotable n.
Proof.
  intros l K. unfold symbol_names. assert (X : exists ns, res_list (map (get_symbol_name g) l) = Ok ns /\ Forall quotable ns).
  { induction l as [|s l IH]; [exists []; split; [reflexivity|constructor]|]. destruct (symbol_quotable s (K s (or_introl eq_refl))) as (n & E & Q). destruct (IH (fun x J => K x (or_intror J))) as (ns & E' & Q').
    exists (n :: ns). cbn [map res_list]. rewrite E. cbn [bind]. rewrite E'. cbn [bind]. split; [reflexivity|constructor; assumption]. }
  destruct X as (ns & E & Q). rewrite E. cbn [bind]. eexists. split; [reflexivity|]. apply quotable_joined. exact Q.
Qed.
Lemma rule_quotable : forall r, In r (g_rules g) -> exists n, rule_text g r = Ok n /\ quotable n.
Proof.
  intros r Hr. unfold rule_text. destruct (symbols_quotable (r_rhs r)) as (n & E & Q); [intros s Hs; eapply wf_rhs; eauto|]. rewrite E. cbn [bind].
  destruct (wf_lhs g wf r Hr) as (i & -> & Hi). destruct (symbol_quotable (NonTerminal i) Hi) as (l & -> & QL). cbn [bind]. eexists. split; [reflexivity|].
  apply quotable_app; [exact QL|]. apply quotable_app; [apply quotable_const; reflexivity|exact Q].
Qed.
Definition shown_rule (r : rule) : string := match rule_text g r with Ok n => n | _ => "" end.
Lemma shown_rule_ok : forall r, In r (g_rules g) -> rule_text g r = Ok (shown_rule r) /\ quotable (shown_rule r).
Proof. intros r Hr. destruct (rule_quotable r Hr) as (n & E & Q). unfold shown_rule. rewrite E. auto. Qed.

(** ** The lines *)

Definition pair_lines (x : string * string) : text := method_lines (fst x) (snd x).
Definition entry_pairs (e : symbol * list (nat * rule)) : list (string * string) := combine (map (fun kr => shown_rule (snd kr)) (snd e)) (map snd (visits_of false g e)).
Lemma combine_enumerate : forall {A B C} (f : A -> B) (h : nat * A -> C) (l : list A), combine (map f l) (map h (enumerate l)) = map (fun ir => (f (snd ir), h ir)) (enumerate l).
Proof.
  intros A B C f h l. rewrite enumerate_combine. generalize 0%nat. induction l as [|a l IH]; intros n; [reflexivity|]. cbn [List.length seq combine map fst snd]. f_equal. apply IH.
Qed.
Lemma entry_lines : forall i, rules_of g i <> [] -> visitor_lines_of g (NonTerminal i, rules_of g i) = Ok (concat (map pair_lines (entry_pairs (NonTerminal i, rules_of g i)))).
Proof.
  intros i N. pose proof (visits_of_cpp g i (rules_of g i) N) as V. assert (R : forall k r, In (k, r) (rules_of g i) -> rule_text g r = Ok (shown_rule r)).
  { intros k r J. apply shown_rule_ok. unfold rules_of in J. apply filter_In in J. destruct J as (J & _). eapply in_combine_r. exact J. }
  unfold entry_pairs. cbn [snd]. revert N V R. generalize (map snd (visits_of false g (NonTerminal i, rules_of g i))). generalize (rules_of g i). intros rules ms N V R. unfold visitor_lines_of. unfold cpp_visitor_methods_of in V.
  destruct (get_non_terminal_name g (NonTerminal i)) as [name| | |]; cbn [bind] in *; try discriminate. destruct (Nat.eqb (List.length rules) 1) eqn:L; cbn [negb] in *.
  - destruct rules as [|(k, r) [|x l]]; try discriminate. injection V as <-. cbn [snd]. rewrite (R k r (or_introl eq_refl)). cbn [bind map combine concat pair_lines fst snd]. rewrite app_nil_r. reflexivity.
  - injection V as <-. rewrite combine_enumerate, map_map. rewrite (res_list_map _ _ _ _ (fun ir => method_lines (shown_rule (snd (snd ir))) (cpp_method_of name (fst ir)))); [reflexivity|].
    intros (n, (k, r)) J. cbn [fst snd]. rewrite (R k r); [reflexivity|]. rewrite enumerate_combine in J. eapply in_combine_r. exact J.
Qed.
Definition all_pairs : list (string * string) := concat (map entry_pairs (rules_by_non_terminal g)).
Lemma lines_written : write_visitor_methods g = Ok (concat (map pair_lines all_pairs)).
Proof.
  unfold write_visitor_methods, all_pairs. destruct (rules_by_spec g) as (_ & _ & R). rewrite (res_list_map _ _ _ _ (fun e => concat (map pair_lines (entry_pairs e)))).
  - cbn [bind]. f_equal. rewrite concat_map_map. clear R. induction (rules_by_non_terminal g) as [|e l IH]; [reflexivity|]. cbn [map concat]. rewrite concat_app. f_equal. exact IH.
  - intros [k l] X. apply R in X. destruct X as (i & -> & -> & X). apply entry_lines. exact X.
Qed.
Lemma map_snd_combine_pairs : forall {A B} (a : list A) (b : list B), List.length a = List.length b -> map snd (combine a b) = b.
Proof. intros A B. induction a as [|x a IH]; intros [|y b] L; try discriminate; [reflexivity|]. cbn. f_equal. apply IH. injection L as L. exact L. Qed.
Lemma pairs_methods : map snd all_pairs = map snd (all_visits false g).
Proof.
  unfold all_pairs, all_visits. rewrite !concat_map_map. f_equal. apply map_ext. intros e. unfold entry_pairs. apply map_snd_combine_pairs. rewrite !map_length. unfold visits_of. rewrite combine_length, !map_length, base_length. lia.
Qed.
Lemma pairs_lines_ok : forall c m, In (c, m) all_pairs -> quotable c /\ exists s, m = ("reduce_" ++ s)%string /\ plain_name s.
Proof.
  intros c m J. split.
  - unfold all_pairs in J. apply in_concat in J. destruct J as (l & J & K). apply in_map_iff in J. destruct J as ((k, rules) & <- & J). destruct (rules_by_spec g) as (_ & _ & R). apply R in J. destruct J as (i & -> & -> & _).
    unfold entry_pairs in K. apply in_combine_l in K. apply in_map_iff in K. destruct K as ((j, r) & <- & K). apply shown_rule_ok. unfold rules_of in K. apply filter_In in K. destruct K as (K & _). eapply in_combine_r. exact K.
  - assert (X : In m (map snd (all_visits false g))) by (rewrite <- pairs_methods; apply (in_map snd) in J; exact J). apply in_map_iff in X. destruct X as ((j, w) & E & X). cbn [snd] in E. subst w. apply (visits_reduces rs g false Hg) in X.
    destruct X as (i & n & Hn & H).
    assert (P : plain_name n). { destruct Hn as [Hn|[_ ->]]; [|apply plain_app; [apply plain_const; reflexivity|apply plain_decimal]]. destruct (prod_named _ _ Hg _ _ Hn) as (p & Hp & <-). apply PP, Hp. }
    destruct H as [(r & _ & ->)|(_ & l & Hl & ->)]; [exists n; auto|]. exists (n ++ "_" ++ l)%string. split; [reflexivity|]. apply plain_app; [exact P|]. apply plain_app; [apply plain_const; reflexivity|].
    apply in_combine_r in Hl. rewrite cpp_labels in Hl. apply in_map_iff in Hl. destruct Hl as (x & <- & _). apply plain_decimal.
Qed.
End Written.

(** ** The text of visitor.h *)

Definition method_tokens (m : string) : list tok := [Word "virtual"; Word "void"; Word m; Mark LParen; Mark RParen; Mark Assign; Num 0; Mark Semi].
Lemma method_scans : forall c m, one_line (chars c) -> (exists s, m = ("reduce_" ++ s)%string /\ plain_name s) -> scans (method_lines c m) (method_tokens m).
Proof.
  intros c m (NL & L) (s & -> & H). unfold method_lines. rewrite !lines_cons. change (lines []) with (@nil N). rewrite app_nil_r. apply (scans_app _ _ [] (method_tokens ("reduce_" ++ s))).
  - unfold line. rewrite chars_app, <- app_assoc. unfold scans. apply (scan_app (chars "// ") _ Blank [] (InLine false) []); [reflexivity|]. apply (scan_app _ _ _ [] _ [] _ (scan_line (chars c) NL false)).
    destruct (chars c); [reflexivity|]. apply N.eqb_neq in L. rewrite L. reflexivity.
  - unfold method_tokens. change ("virtual void " ++ ("reduce_" ++ s) ++ "() = 0;")%string with ("virtual void reduce_" ++ s ++ "() = 0;")%string. change (Word ("reduce_" ++ s)) with (word_token ("reduce_" ++ s)).
    unfold line. rewrite !chars_app, <- !app_assoc. unfold scans.
    apply (scan_app (chars "virtual void reduce_") _ _ [Word "virtual"; Word "void"] (InWord "reduce_") [word_token ("reduce_" ++ s); Mark LParen; Mark RParen; Mark Assign; Num 0; Mark Semi]); [reflexivity|].
    apply (scan_app _ _ _ [] _ [word_token ("reduce_" ++ s); Mark LParen; Mark RParen; Mark Assign; Num 0; Mark Semi] _ (scan_word s "reduce_" (plain_wordy s H))). reflexivity.
Qed.
Definition visitor_front : text := Eval vm_compute in fst (cut lr_visitor_h).
Definition visitor_back : text := Eval vm_compute in snd (cut lr_visitor_h).
Lemma visitor_file : forall methods, CppTextModel.fill [("visitor_methods", methods)] lr_visitor_h = visitor_front ++ methods ++ visitor_back.
Proof. intros methods. vm_compute. reflexivity. Qed.
Definition visitor_front_tokens : list tok := Eval vm_compute in match scan Blank visitor_front with Some (l, _) => l | None => [] end.
Definition visitor_back_tokens : list tok := Eval vm_compute in match tokens visitor_back with Some l => l | None => [] end.

Definition shift_method : string * list param := ("shift", [mkParam ["lexer"; "TokenType"] "tk_type" false; mkParam ["T"] "data" false]).
Definition declared (ms : list string) : list (string * list param) := shift_method :: map (fun m => (m, [])) ms.
Lemma parses_methods : forall ms fuel, (List.length ms < fuel)%nat -> parse_methods fuel (concat (map method_tokens ms) ++ visitor_back_tokens) = Some (map (fun m => (m, [])) ms).
Proof.
  induction ms as [|m ms IH]; intros [|fuel] L; cbn [List.length] in L; try lia; [reflexivity|]. cbn [map concat]. unfold method_tokens at 1. cbn [app]. cbn [parse_methods option_map]. rewrite IH by lia. reflexivity.
Qed.
Lemma methods_once : forall t c l l', methods_in t c l -> methods_in t c l' -> l = l'.
Proof.
  intros t c l l' (ts & r & A & B & (n & C)) (ts' & r' & A' & B' & (n' & C')). rewrite A in A'. injection A' as <-. rewrite B in B'. injection B' as <-. specialize (C (n + n')%nat ltac:(lia)). specialize (C' (n + n')%nat ltac:(lia)). congruence.
Qed.
Lemma visitor_declares : forall rs g, small rs -> from_rule_set rs = Ok g -> Forall plain_name (token_names rs) -> (forall p, In p (rs_prods rs) -> plain_name (pr_name p)) ->
  exists t ms, visitor_h_text g = Ok t /\ cpp_visitor_methods g = Ok ms /\ methods_in t "Visitor" (declared ms).
Proof.
  intros rs g sm Hg PT PP. unfold visitor_h_text. rewrite (lines_written rs g sm Hg PT PP). cbn [bind]. eexists. exists (map snd (all_visits false g)). split; [reflexivity|]. split; [apply cpp_methods|]. rewrite <- pairs_methods.
  pose proof (pairs_lines_ok rs g sm Hg PT PP) as OK. revert OK. generalize (all_pairs g). intros l OK. unfold methods_in. rewrite visitor_file.
  exists (visitor_front_tokens ++ concat (map method_tokens (map snd l)) ++ visitor_back_tokens). eexists. split; [|split; [apply behind_app; vm_compute; reflexivity|]].
  - apply scans_then; [vm_compute; reflexivity|]. apply scans_then; [|vm_compute; reflexivity]. rewrite map_map. apply scans_concat. intros (c, m) J. destruct (OK c m J) as (Q & M). apply method_scans; [apply quotable_line; exact Q|exact M].
  - exists (List.length l + 4)%nat. intros fuel L. replace fuel with (S (S (S (fuel - 3)))) by lia. unfold declared, shift_method. rewrite <- app_comm_cons. cbn [parse_methods]. 
    pose proof (parses_methods (map snd l) (S (S (fuel - 3)))) as X. rewrite map_length in X. specialize (X ltac:(lia)). revert X. generalize (concat (map method_tokens (map snd l)) ++ visitor_back_tokens). intros ts X. cbn. cbn in X. rewrite X. reflexivity.
Qed.

(** ** The text of the function that throws *)

Definition throw_head : text := chars "void throw_unexpected_token_error(const char* expected, lexer::TokenType got)".
Definition name_head : text := chars "const char *get_token_name(TokenType tk_type)".
Definition throw_header : list tok := Eval vm_compute in match tokens throw_head with Some l => l | None => [] end.
Definition throw_rest : list tok := Eval vm_compute in match behind (throw_header ++ [Mark LBrace]) cpp_1_tokens with Some r => r | None => [] end.
Definition throw_body : list mstmt := Eval vm_compute in match parse_message 20 throw_rest with Some (l, _) => l | None => [] end.
Definition throw_after : list tok := Eval vm_compute in match parse_message 20 throw_rest with Some (_, r) => r | None => [] end.
Lemma throw_there : forall c, writable_lr c -> has_message (parser_cpp_text c) throw_head throw_body.
Proof.
  intros c W. unfold has_message. exists (cpp_1_tokens ++ action_table_tokens c ++ cpp_2_tokens ++ stack_reduce_tokens c ++ cpp_3_tokens ++ goto_table_tokens c ++ cpp_4_tokens), throw_header.
  eexists. split; [apply cpp_tokens; exact W|]. split; [vm_compute; reflexivity|]. split; [apply behind_app; vm_compute; reflexivity|]. 
  generalize (action_table_tokens c ++ cpp_2_tokens ++ stack_reduce_tokens c ++ cpp_3_tokens ++ goto_table_tokens c ++ cpp_4_tokens). intros ts.
  exists 20%nat. intros fuel L. exists (throw_after ++ ts). replace fuel with (20 + (fuel - 20))%nat by lia. generalize (fuel - 20)%nat. intros n. reflexivity.
Qed.
Lemma message_once : forall t h l l', has_message t h l -> has_message t h l' -> l = l'.
Proof.
  intros t h l l' (ts & hs & r & A & B & C & (n & D)) (ts' & hs' & r' & A' & B' & C' & (m & D')). rewrite A in A'. injection A' as <-. rewrite B in B'. injection B' as <-. rewrite C in C'. injection C' as <-.
  destruct (D (n + m)%nat ltac:(lia)) as (x & E). destruct (D' (n + m)%nat ltac:(lia)) as (y & E'). rewrite E in E'. injection E' as <- _. reflexivity.
Qed.
Lemma name_word : forall names z, name_value names z = match token_word names z with Some s => VStr s | None => VNull end.
Proof.
  intros names z. unfold name_value, token_word, name_table. destruct (z <? 0)%Z; [reflexivity|]. destruct (Z.to_nat z) as [|[|k]]; [reflexivity|reflexivity|]. cbn [nth_error]. rewrite nth_error_map. destruct (nth_error names k); reflexivity.
Qed.
Lemma throws_message : forall names, Forall plain_name names -> NoDup names -> ~ In "ERR" names -> ~ In "EOF" names ->
  exists naming, defines (tokens_cpp_text names) name_head naming /\
  forall P pull st expected a z, eval P st a = Some (VEnum "TokenType" z) ->
    eventually (fun fuel => run_message (naming_call fuel names naming) [] [("expected", VStr expected); ("got", VEnum "TokenType" z)] throw_body =
      option_map snd (outside P names pull st (EName ["throw_unexpected_token_error"]) [EStr expected; a])).
Proof.
  intros names F D1 D2 D3. assert (D : NoDup (enumerators names)) by (apply enumerators_distinct; auto). exists (name_body names). split; [apply tokens_cpp_defines; exact F|]. intros P pull st expected a z E.
  destruct (does_name names D (fun _ _ _ => None) z []) as (n & X). exists n. intros fuel L. specialize (X fuel L). unfold outside. rewrite E. cbn [String.eqb]. change (String.eqb "TokenType" "TokenType") with true. cbn iota.
  assert (Y : naming_call fuel names (name_body names) ["lexer"; "get_token_name"] (VEnum "TokenType" z) = Some (name_value names z)). { unfold naming_call. rewrite X. reflexivity. }
  rewrite name_word in Y. revert Y. generalize (naming_call fuel names (name_body names)). intros call Y. unfold throw_body. cbn [run_message find_name]. change (find_name "os" [("os", "")]) with (Some "").
  cbn [pieces_text piece_text]. change (find_name "got" [("expected", VStr expected); ("got", VEnum "TokenType" z)]) with (Some (VEnum "TokenType" z)). change (find_name "expected" [("expected", VStr expected); ("got", VEnum "TokenType" z)]) with (Some (VStr expected)).
  cbn iota. rewrite Y. destruct (token_word names z) as [s|]; [|reflexivity]. cbn iota. cbn [option_map snd]. rewrite append_nil. reflexivity.
Qed.

(** ** Together *)

Lemma visitor_exact : forall rs g, small rs -> from_rule_set rs = Ok g -> Forall plain_name (token_names rs) -> (forall p, In p (rs_prods rs) -> plain_name (pr_name p)) ->
  exists t ms vs, visitor_h_text g = Ok t /\ cpp_visitor_methods g = Ok ms /\ cpp_rule_visits g = Ok vs /\
  (forall l, methods_in t "Visitor" l <-> l = declared ms) /\ Permutation (map snd vs) (map Some ms).
Proof.
  intros rs g sm Hg PT PP. destruct (visitor_declares rs g sm Hg PT PP) as (t & ms & A & B & C). destruct (cpp_visits_complete _ _ Hg) as (vs & ms' & D & E & F & _). rewrite B in E. injection E as <-. exists t, ms, vs.
  repeat (split; [assumption|]). split; [|exact F]. intros l. split; [intros X; exact (methods_once _ _ _ _ X C)|intros ->; exact C].
Qed.
Lemma declared_distinct : forall rs g, small rs -> from_rule_set rs = Ok g -> Forall plain_name (token_names rs) -> (forall p, In p (rs_prods rs) -> plain_name (pr_name p)) ->
  (forall i j n, In (NonTerminal i) (non_terminals g) -> In (NonTerminal j) (non_terminals g) -> named g i n -> named g j n -> i = j) ->
  exists t l, visitor_h_text g = Ok t /\ methods_in t "Visitor" l /\
  (NoDup (map fst l) <->
   forall i j n m p, (1 < List.length (rules_of g i))%nat -> List.length (rules_of g j) = 1%nat -> named g i n -> named g j m -> (1 <= p <= List.length (rules_of g i))%nat -> m <> (n ++ "_" ++ decimal (N.of_nat p))%string).
Proof.
  intros rs g sm Hg PT PP U. destruct (visitor_declares rs g sm Hg PT PP) as (t & ms & A & B & C). exists t, (declared ms). split; [exact A|]. split; [exact C|]. destruct (cpp_methods_distinct rs g Hg U) as (ms' & B' & D). rewrite B in B'. injection B' as <-.
  rewrite <- D. unfold declared. cbn [map fst]. rewrite map_map. cbn [fst]. rewrite map_id. split; [intros X; inversion X; assumption|]. intros X. constructor; [|exact X]. intros J. rewrite cpp_methods in B. injection B as <-.
  rewrite <- pairs_methods in J. apply in_map_iff in J. destruct J as ((c, m) & E & J). destruct (pairs_lines_ok rs g sm Hg PT PP c m J) as (_ & s & -> & _). discriminate.
Qed.
Lemma message_exact : forall c names, writable_lr c -> Forall plain_name names -> NoDup names -> ~ In "ERR" names -> ~ In "EOF" names ->
  exists body naming, (forall l, has_message (parser_cpp_text c) throw_head l <-> l = body) /\ defines (tokens_cpp_text names) name_head naming /\
  forall P pull st expected a z, eval P st a = Some (VEnum "TokenType" z) ->
    eventually (fun fuel => run_message (naming_call fuel names naming) [] [("expected", VStr expected); ("got", VEnum "TokenType" z)] body =
      option_map snd (outside P names pull st (EName ["throw_unexpected_token_error"]) [EStr expected; a])).
Proof.
  intros c names W F D1 D2 D3. destruct (throws_message names F D1 D2 D3) as (naming & A & B). exists throw_body, naming. split; [|split; assumption].
  intros l. pose proof (throw_there c W) as T. split; [intros X; exact (message_once _ _ _ _ X T)|intros ->; exact T].
Qed.
Lemma visitor_twice : exists rs g t l, small rs /\ from_rule_set rs = Ok g /\ Forall plain_name (token_names rs) /\ (forall p, In p (rs_prods rs) -> plain_name (pr_name p)) /\
  visitor_h_text g = Ok t /\ methods_in t "Visitor" l /\ ~ NoDup (map fst l).
Proof.
  assert (A : small numbered_rules) by (apply smallb_ok; reflexivity). assert (B : Forall plain_name (token_names numbered_rules)) by (repeat constructor; apply plainb_ok; reflexivity).
  assert (C : forall p, In p (rs_prods numbered_rules) -> plain_name (pr_name p)) by (intros p H; repeat destruct H as [<-|H]; try destruct H; apply plainb_ok; reflexivity).
  destruct (visitor_declares _ _ A numbered_g_built B C) as (t & ms & D & E & F). exists numbered_rules, numbered_g, t, (declared ms). repeat (split; [assumption||exact numbered_g_built|]).
  vm_compute in E. injection E as <-. cbn. intros X. inversion X as [|? ? _ Y]. inversion Y as [|? ? Z _]. apply Z. right. left. reflexivity.
Qed.
