(** Property theorems C30 and C34 about the names in emitted parsers. *)
From Coq Require Import String Ascii List Arith NArith Bool Lia Permutation.
From Verif Require Import Base InputModel GrammarModel GrammarSpec GrammarFactsProof GrammarProperties LLExample NamesModel NamesSpec NamesProof NamesVisitProof NamesExample.
Import ListNotations.
Local Open Scope nat_scope.
Local Open Scope list_scope.

(** C30.  Camel case of an ASCII name panics exactly if the name has an empty segment, and two names get the same identifier exactly if they agree
    up to case and up to underscores which are not in front of a letter. *)
Theorem camel_case_panics : forall name, ascii_name name -> (convert_snake_to_upper_camel name = Panic <-> empty_segment name) /\
  (~ empty_segment name <-> exists s, convert_snake_to_upper_camel name = Ok s).
Proof. exact camel_panics. Qed.
Example camel_case_panics_case : ascii_name "KW_TOKEN"%string /\ convert_snake_to_upper_camel "KW_TOKEN"%string = Ok "KwToken"%string /\ empty_segment "a__b"%string /\ convert_snake_to_upper_camel "a__b"%string = Panic.
Proof. split; [cbn; repeat split; lia|]. split; [reflexivity|]. split; [exists "_a"%string, "b_"%string; reflexivity|reflexivity]. Qed.
Print Assumptions camel_case_panics.
Theorem camel_case_collides : forall a b x y, ascii_name a -> ascii_name b -> convert_snake_to_upper_camel a = Ok x -> convert_snake_to_upper_camel b = Ok y -> (x = y <-> kept a = kept b).
Proof. exact camel_collisions. Qed.
Example camel_case_collides_case : convert_snake_to_upper_camel "rep_1_X"%string = Ok "Rep1X"%string /\ convert_snake_to_upper_camel "REP1_x"%string = Ok "Rep1X"%string /\
  kept "rep_1_X"%string = "rep1_x"%string /\ kept "REP1_x"%string = "rep1_x"%string /\ convert_snake_to_upper_camel "rep_1x"%string = Ok "Rep1x"%string.
Proof. repeat split; reflexivity. Qed.
Print Assumptions camel_case_collides.

(** C30.  The variants of the token enumeration of the emitted Rust code. *)
Theorem rust_token_variants_distinct : forall names, (forall n, In n names -> ascii_name n) ->
  (rust_token_variants names = Panic <-> exists n, In n names /\ empty_segment n) /\
  ((forall n, In n names -> ~ empty_segment n) -> exists vs, rust_token_variants names = Ok vs /\ (NoDup vs <-> NoDup (map kept names))).
Proof. exact token_variants. Qed.
Example rust_token_variants_distinct_case : rust_token_variants ["LPAR"; "KW_IF"]%string = Ok ["EndOfFile"; "TkLpar"; "TkKwIf"]%string /\ NoDup (map kept ["LPAR"; "KW_IF"]%string).
Proof. split; [reflexivity|]. cbn. repeat constructor; cbn; intros H; repeat destruct H as [H|H]; try discriminate; destruct H. Qed.
Print Assumptions rust_token_variants_distinct.
(** C30.  Distinct token names may get the same variant: the emitted enumeration does not compile. *)
Theorem rust_token_variants_distinct_refuted : exists names vs, NoDup names /\ (forall n, In n names -> ascii_name n) /\ rust_token_variants names = Ok vs /\ ~ NoDup vs.
Proof.
  exists ["A_1"; "A1"]%string. eexists. split; [repeat constructor; cbn; intros H; repeat destruct H as [H|H]; try discriminate; destruct H|].
  split; [intros n H; repeat destruct H as [<-|H]; try destruct H; cbn; repeat split; lia|]. split; [vm_compute; reflexivity|]. intros H. inversion H as [|? ? _ H']; subst. inversion H' as [|? ? H'' _]; subst. apply H''. left. reflexivity.
Qed.
Print Assumptions rust_token_variants_distinct_refuted.

(** C30.  The variants of the non-terminal enumeration of the emitted Rust code. *)
Theorem rust_non_terminal_variants_distinct : forall rs g, from_rule_set rs = Ok g -> (forall p, In p (rs_prods rs) -> ascii_name (pr_name p)) ->
  (rust_non_terminal_variants g = Panic <-> exists i n, In (NonTerminal i, n) (g_prods g) /\ empty_segment n) /\
  ((forall i n, In (NonTerminal i, n) (g_prods g) -> ~ empty_segment n) ->
   exists vs, rust_non_terminal_variants g = Ok vs /\
   (NoDup vs <-> forall i j n m, In (NonTerminal i) (non_terminals g) -> In (NonTerminal j) (non_terminals g) -> named g i n -> named g j m -> kept n = kept m -> i = j)).
Proof. exact non_terminal_variants. Qed.
Example rust_non_terminal_variants_distinct_case : from_rule_set ll_expr = Ok ll_g /\ (forall p, In p (rs_prods ll_expr) -> ascii_name (pr_name p)) /\
  rust_non_terminal_variants ll_g = Ok ["NtExpr"; "NtTerm"; "NtAnon4"]%string.
Proof. split; [exact ll_g_built|]. split; [|vm_compute; reflexivity]. intros p H. repeat destruct H as [<-|H]; try destruct H; cbn; repeat split; lia. Qed.
Print Assumptions rust_non_terminal_variants_distinct.
(** C30.  A production named like an anonymous non-terminal gets the same variant. *)
Theorem rust_non_terminal_variants_distinct_refuted : exists rs g vs, from_rule_set rs = Ok g /\ NoDup (map snd (g_prods g)) /\ rust_non_terminal_variants g = Ok vs /\ ~ NoDup vs.
Proof.
  exists anon_rules, anon_g. eexists. split; [exact anon_g_built|]. split; [cbn; repeat constructor; cbn; intros H; repeat destruct H as [H|H]; try discriminate; destruct H|]. split; [vm_compute; reflexivity|].
  intros H. inversion H as [|? ? _ H']; subst. inversion H' as [|? ? H'' _]; subst. apply H''. left. reflexivity.
Qed.
Print Assumptions rust_non_terminal_variants_distinct_refuted.

(** C30.  The enumerators for non-terminals of the emitted C++ code: there is never a panic, and they are distinct exactly if no two names agree up to case. *)
Theorem cpp_non_terminal_variants_distinct : forall rs g, from_rule_set rs = Ok g -> exists vs, cpp_non_terminal_variants g = Ok vs /\
  (NoDup vs <-> forall i j n m, In (NonTerminal i) (non_terminals g) -> In (NonTerminal j) (non_terminals g) -> named g i n -> named g j m ->
                string_map ascii_lower n = string_map ascii_lower m -> i = j).
Proof. exact cpp_variants. Qed.
Example cpp_non_terminal_variants_distinct_case : cpp_non_terminal_variants ll_g = Ok ["NT_EXPR"; "NT_TERM"; "NT_ANON4"]%string.
Proof. vm_compute. reflexivity. Qed.
Print Assumptions cpp_non_terminal_variants_distinct.

(** C34.  The emitted Rust parser has exactly one arm for each rule; the arms call exactly the methods of the visitor, in their order; and the method of a
    rule is that of its non-terminal with the tag or the position of the rule. *)
Theorem rust_visits_match_methods : forall rs g, from_rule_set rs = Ok g -> exists vs ms,
  rule_visits g = Ok vs /\ visitor_methods g = Ok ms /\ map snd vs = ms /\ Permutation (map fst vs) (seq 0 (length (g_rules g))) /\ forall k m, In (k, m) vs <-> reduces true g k m.
Proof. exact rust_visits_complete. Qed.
Example rust_visits_match_methods_case : rule_visits ll_g = Ok [(2, "reduce_expr"); (3, "reduce_term_1"); (4, "reduce_term_2"); (0, "reduce_anon4_1"); (1, "reduce_anon4_2")]%string /\ length (g_rules ll_g) = 5.
Proof. split; vm_compute; reflexivity. Qed.
Print Assumptions rust_visits_match_methods.

(** C34.  The emitted C++ parser has a case for each rule in the order of the rules, and the cases call exactly the declared methods. *)
Theorem cpp_visits_match_methods : forall rs g, from_rule_set rs = Ok g -> exists vs ms,
  cpp_rule_visits g = Ok vs /\ cpp_visitor_methods g = Ok ms /\ Permutation (map snd vs) (map Some ms) /\ map fst vs = seq 0 (length (g_rules g)) /\ forall k m, In (k, Some m) vs <-> reduces false g k m.
Proof. exact cpp_visits_complete. Qed.
Example cpp_visits_match_methods_case : cpp_rule_visits tagged_g = Ok [(0, Some "reduce_anon3_1"); (1, Some "reduce_anon3_2"); (2, Some "reduce_s")]%string.
Proof. vm_compute. reflexivity. Qed.
Print Assumptions cpp_visits_match_methods.

(** C34.  When the methods of the visitor are distinct. *)
Theorem rust_methods_distinct_iff : forall rs g, from_rule_set rs = Ok g ->
  (forall i l, In l (labels true g i) -> no_underscore l) ->
  (forall i j n, In (NonTerminal i) (non_terminals g) -> In (NonTerminal j) (non_terminals g) -> named g i n -> named g j n -> i = j) ->
  exists ms, visitor_methods g = Ok ms /\
  (NoDup ms <->
   (forall i, 1 < length (rules_of g i) -> NoDup (labels true g i)) /\
   (forall i j n m l, 1 < length (rules_of g i) -> length (rules_of g j) = 1 -> named g i n -> named g j m -> In l (labels true g i) -> m <> (n ++ "_" ++ l)%string)).
Proof. exact rust_methods_distinct. Qed.
Example rust_methods_distinct_iff_case : from_rule_set tagged_rules = Ok tagged_g /\ labels true tagged_g 3 = ["pick"; "pick"]%string /\ no_underscore "pick"%string /\
  (forall i j n, In (NonTerminal i) (non_terminals tagged_g) -> In (NonTerminal j) (non_terminals tagged_g) -> named tagged_g i n -> named tagged_g j n -> i = j).
Proof.
  split; [exact tagged_g_built|]. split; [vm_compute; reflexivity|]. split; [cbn; repeat split; discriminate|].
  intros i j n _ _. revert i j n. apply (names_distinct tagged_rules); [apply smallb_ok; reflexivity|exact tagged_g_built|].
  intros p k H E. repeat destruct H as [<-|H]; try destruct H; discriminate.
Qed.
Print Assumptions rust_methods_distinct_iff.
Theorem cpp_methods_distinct_iff : forall rs g, from_rule_set rs = Ok g ->
  (forall i j n, In (NonTerminal i) (non_terminals g) -> In (NonTerminal j) (non_terminals g) -> named g i n -> named g j n -> i = j) ->
  exists ms, cpp_visitor_methods g = Ok ms /\
  (NoDup ms <->
   forall i j n m p, 1 < length (rules_of g i) -> length (rules_of g j) = 1 -> named g i n -> named g j m -> 1 <= p <= length (rules_of g i) -> m <> (n ++ "_" ++ decimal (N.of_nat p))%string).
Proof. exact cpp_methods_distinct. Qed.
Example cpp_methods_distinct_iff_case : from_rule_set numbered_rules = Ok numbered_g /\ cpp_visitor_methods numbered_g = Ok ["reduce_a_1"; "reduce_a_2"; "reduce_a_1"]%string /\
  (forall i j n, named numbered_g i n -> named numbered_g j n -> i = j).
Proof.
  split; [exact numbered_g_built|]. split; [vm_compute; reflexivity|]. apply (names_distinct numbered_rules); [apply smallb_ok; reflexivity|exact numbered_g_built|].
  intros p k H E. repeat destruct H as [<-|H]; try destruct H; discriminate.
Qed.
Print Assumptions cpp_methods_distinct_iff.

(** C34.  Sufficient: no tags, no production name which ends in an underscore and a number, and none which is anon and a number. *)
Theorem plain_names_distinct : forall rs g, small rs -> from_rule_set rs = Ok g ->
  (forall p, In p (rs_prods rs) -> pr_tag p = None /\ ~ numbered (pr_name p) /\ forall k, pr_name p <> ("anon" ++ decimal k)%string) ->
  exists ms ms', visitor_methods g = Ok ms /\ NoDup ms /\ cpp_visitor_methods g = Ok ms' /\ NoDup ms'.
Proof. exact plain_methods_distinct. Qed.
Example plain_names_distinct_case : small ll_expr /\ from_rule_set ll_expr = Ok ll_g /\ (forall p, In p (rs_prods ll_expr) -> pr_tag p = None /\ ~ numbered (pr_name p) /\ forall k, pr_name p <> ("anon" ++ decimal k)%string).
Proof.
  split; [apply smallb_ok; reflexivity|]. split; [exact ll_g_built|].
  assert (X : forall s, no_underscore s -> ~ numbered s) by (intros s U (a & d & E & _); rewrite E in U; apply all_chars_app in U; destruct U as [_ [U _]]; apply U; reflexivity).
  intros p H. repeat destruct H as [<-|H]; try destruct H; (split; [reflexivity|]; split; [apply X; cbn; repeat split; discriminate|discriminate]).
Qed.
Print Assumptions plain_names_distinct.

(** C34.  Each of the conditions is needed: the rules for the alternatives of a tagged production share their tag, ... *)
Theorem tagged_methods_refuted : exists rs g ms, (forall p, In p (rs_prods rs) -> ~ numbered (pr_name p) /\ forall k, pr_name p <> ("anon" ++ decimal k)%string) /\
  NoDup (map pr_tag (rs_prods rs)) /\ from_rule_set rs = Ok g /\ visitor_methods g = Ok ms /\ ~ NoDup ms.
Proof.
  exists tagged_rules, tagged_g. eexists. assert (X : forall s, no_underscore s -> ~ numbered s) by (intros s U (a & d & E & _); rewrite E in U; apply all_chars_app in U; destruct U as [_ [U _]]; apply U; reflexivity).
  split; [intros p H; repeat destruct H as [<-|H]; try destruct H; split; [apply X; cbn; repeat split; discriminate|discriminate]|]. split; [repeat constructor; intros []|].
  split; [exact tagged_g_built|]. split; [vm_compute; reflexivity|]. intros H. inversion H as [|? ? _ H']; subst. inversion H' as [|? ? H'' _]; subst. apply H''. left. reflexivity.
Qed.
Print Assumptions tagged_methods_refuted.
(** ... the second rule of a production may be named like another production, ... *)
Theorem numbered_methods_refuted : exists rs g ms, (forall p, In p (rs_prods rs) -> pr_tag p = None /\ forall k, pr_name p <> ("anon" ++ decimal k)%string) /\
  from_rule_set rs = Ok g /\ visitor_methods g = Ok ms /\ ~ NoDup ms /\ cpp_visitor_methods g = Ok ms.
Proof.
  exists numbered_rules, numbered_g. eexists. split; [intros p H; repeat destruct H as [<-|H]; try destruct H; (split; [reflexivity|discriminate])|].
  split; [exact numbered_g_built|]. split; [vm_compute; reflexivity|]. split; [|vm_compute; reflexivity]. intros H. inversion H as [|? ? H' _]; subst. apply H'. right. left. reflexivity.
Qed.
Print Assumptions numbered_methods_refuted.
(** ... and so may an anonymous non-terminal. *)
Theorem anon_methods_refuted : exists rs g ms, (forall p, In p (rs_prods rs) -> pr_tag p = None /\ ~ numbered (pr_name p)) /\
  from_rule_set rs = Ok g /\ visitor_methods g = Ok ms /\ ~ NoDup ms /\ cpp_visitor_methods g = Ok ms.
Proof.
  exists anon_rules, anon_g. eexists. assert (X : forall s, no_underscore s -> ~ numbered s) by (intros s U (a & d & E & _); rewrite E in U; apply all_chars_app in U; destruct U as [_ [U _]]; apply U; reflexivity).
  split; [intros p H; repeat destruct H as [<-|H]; try destruct H; (split; [reflexivity|apply X; cbn; repeat split; discriminate])|].
  split; [exact anon_g_built|]. split; [vm_compute; reflexivity|]. split; [|vm_compute; reflexivity]. intros H. inversion H as [|? ? _ H']; subst. inversion H' as [|? ? H'' _]; subst. apply H''. right. left. reflexivity.
Qed.
Print Assumptions anon_methods_refuted.
