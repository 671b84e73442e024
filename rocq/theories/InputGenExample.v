(** A grammar file, its tokens and its readings; and the grammar of grammar files, read by the parser generated from it. *)
From Coq Require Import String Ascii List Arith NArith Bool Lia.
From Verif Require Import Base InputModel GrammarModel LexerModel PositionModel LRModel BootModel BootExample InputGenModel InputGenSpec InputGenLapex InputGenProof.
Import ListNotations.
Local Open Scope nat_scope.
Local Open Scope string_scope.
Local Open Scope list_scope.

Definition no_regex : list N -> option hir := fun _ => None.

Definition in_text : string := "entry s; token A[3] = ""a"";
prod s[top] = A (A | s B)*  | (A | B); token B = ""\"""";".
Definition in_lex_result : res lex_err (list (string * list N)) := Eval vm_compute in lex_file lapex_gen 200 (lexer_new (bytes in_text)).
Definition in_raw : list (string * list N) := Eval vm_compute in match in_lex_result with Ok l => l | _ => [] end.
Definition in_placed : list tok * token_data := Eval vm_compute in match place_tokens lapex_gen in_raw 1 1 with Ok l => l | _ => ([], mkData [] zero_span) end.
Definition in_tokens : list tok := Eval vm_compute in fst in_placed.
Definition in_eof : token_data := Eval vm_compute in snd in_placed.
Definition in_out : spanned_rules := Eval vm_compute in match parse_tokens no_regex lapex_gen 300 in_tokens in_eof with Ok l => l | _ => mkSpannedRules (zero_span, "") [] [] end.

Lemma in_lexed : exists raw, lex_file lapex_gen 200 (lexer_new (bytes in_text)) = Ok raw /\ place_tokens lapex_gen raw 1 1 = Ok (in_tokens, in_eof).
Proof. exists in_raw. split; vm_compute; reflexivity. Qed.
Lemma in_read : parse_tokens no_regex lapex_gen 300 in_tokens in_eof = Ok in_out.
Proof. vm_compute. reflexivity. Qed.
Lemma in_out_rules : unspanned in_out = mkRuleSet "s" [mkTokenRule "B" None (TLiteral (bytes "\""")); mkTokenRule "A" (Some 3%N) (TLiteral (bytes "a"))]
  [mkProdRule "s" (Some "top") (QAlt [QRule "B"; QRule "A"; QSeq [QRule "A"; QStar (QAlt [QSeq [QRule "s"; QRule "B"]; QRule "A"])]])].
Proof. vm_compute. reflexivity. Qed.

Definition fits (t : tok) : bool :=
  let quoted q := match td_text (snd t) with c :: l => (c =? q)%N && match rev l with c' :: _ => (c' =? q)%N | [] => false end | [] => false end in
  match fst t with
  | 9%N => negb (Nat.eqb (length (td_text (snd t))) 0) && forallb decimal_digit (td_text (snd t))
  | 16%N => quoted 34%N
  | 17%N => quoted 47%N
  | _ => true
  end.
Lemma digits_decimal : forall cs, cs <> [] -> forallb decimal_digit cs = true -> exists n, decimal cs n.
Proof.
  induction cs as [|c cs IH] using rev_ind; intros N H; [congruence|]. rewrite forallb_app in H. apply andb_true_iff in H. destruct H as [H1 H2].
  cbn [forallb] in H2. rewrite andb_true_r in H2. unfold decimal_digit in H2. apply andb_true_iff in H2. rewrite !N.leb_le in H2. replace c with (48 + (c - 48))%N by lia.
  destruct cs as [|d cs]; [exists (c - 48)%N; constructor; lia|]. destruct IH as (n & Hn); [discriminate|auto|]. eexists. apply dec_more; [exact Hn|lia].
Qed.
Lemma fits_ok : forall ts, forallb fits ts = true -> Forall fitting ts.
Proof.
  intros ts H. apply Forall_forall. intros [k d] Ht. rewrite forallb_forall in H. specialize (H _ Ht). unfold fits in H. cbn [fst snd] in H.
  assert (forall q, match td_text d with c :: l => (c =? q)%N && match rev l with c' :: _ => (c' =? q)%N | [] => false end | [] => false end = true -> exists cs, td_text d = [q] ++ cs ++ [q]) as Q.
  { intros q E. destruct (td_text d) as [|c l]; [discriminate E|]. apply andb_true_iff in E. destruct E as [E1 E2]. apply N.eqb_eq in E1. subst c. destruct (rev l) as [|c' m] eqn:R; [discriminate E2|]. apply N.eqb_eq in E2. subst c'.
    exists (rev m). rewrite <- (rev_involutive l), R. reflexivity. }
  split; [|split]; cbn [fst snd]; intros ->.
  - apply andb_true_iff in H. destruct H as [H1 H2]. apply digits_decimal; auto. intros E. rewrite E in H1. discriminate H1.
  - apply Q. exact H.
  - apply Q. exact H.
Qed.
Lemma in_fitting : Forall fitting in_tokens.
Proof. apply fits_ok. vm_compute. reflexivity. Qed.

(** The same rules, read in the order of the file and without any dissolving. *)
Definition in_plain_out : spanned_rules := mkSpannedRules (sr_entry in_out) (rev (sr_tokens in_out))
  (map (fun r => (fst r, mkProdRule "s" (Some "top")
    (QAlt [QSeq [QRule "A"; QStar (QAlt [QSeq [QRule "A"]; QSeq [QRule "s"; QRule "B"]])]; QSeq [QAlt [QSeq [QRule "A"]; QSeq [QRule "B"]]]]))) (sr_prods in_out)).
Definition in_plain : list (spanned file_rule) := Eval vm_compute in
  match sr_tokens in_plain_out, sr_prods in_plain_out with
  | [a; b], [p] => [(fst (sr_entry in_plain_out), FEntry (snd (sr_entry in_plain_out))); (fst a, FToken (snd a)); (fst p, FProd (snd p)); (fst b, FToken (snd b))]
  | _, _ => []
  end.

Ltac name := match goal with |- item _ _ _ [(_, ?d)] => exact (it_name QSeq QAlt d) end.

Lemma in_plain_spelled : file_tokens QSeq QAlt no_regex in_plain in_tokens.
Proof.
  unfold in_plain, in_tokens.
  match goal with |- file_tokens _ _ _ _ ?l => let a := eval vm_compute in (firstn 3 l) in let b := eval vm_compute in (skipn 3 l) in change l with (a ++ b) end. apply ft_more; [match goal with |- rule_tokens _ _ _ _ [(_, ?a); (_, ?d); (_, ?b)] => exact (rt_entry QSeq QAlt no_regex a d b) end|].
  match goal with |- file_tokens _ _ _ _ ?l => let a := eval vm_compute in (firstn 8 l) in let b := eval vm_compute in (skipn 8 l) in change l with (a ++ b) end. apply ft_more.
  { match goal with |- rule_tokens _ _ _ _ [(_, ?a); (_, ?b); ?c; ?d; ?e; (_, ?f); ?g; (_, ?h)] =>
      apply (rt_token QSeq QAlt no_regex a b f h (Some 3%N) [c; d; e] (TLiteral [97%N]) g) end; [apply pr_some; [apply (dec_one 3); reflexivity|reflexivity]|apply (tt_literal no_regex [97%N]); reflexivity]. }
  match goal with |- file_tokens _ _ _ _ ?l => let a := eval vm_compute in (firstn 21 l) in let b := eval vm_compute in (skipn 21 l) in change l with (a ++ b) end. apply ft_more.
  { match goal with |- rule_tokens _ _ _ (_, FProd (mkProdRule _ _ ?p)) ((_, ?a) :: (_, ?b) :: ?c :: ?d :: ?e :: (?f1, ?f) :: ?l) => let m := eval vm_compute in (removelast l) in let z := eval vm_compute in (snd (last l (f1, f))) in
      apply (rt_prod QSeq QAlt no_regex a b f z (Some "top") [c; d; e] p m) end; [match goal with |- tagged _ [(_, ?a); (_, ?b); (_, ?c)] => exact (tg_some a b c) end|]. apply al_choice.
    match goal with |- choices _ _ _ ?l => let a := eval vm_compute in (firstn 8 l) in let z := eval vm_compute in (firstn 1 (skipn 8 l)) in let b := eval vm_compute in (skipn 9 l) in change l with (a ++ z ++ b) end.
    apply (ch_more QSeq QAlt [_; _]).
    - match goal with |- units _ _ _ (?a :: ?l) => change (a :: l) with ([a] ++ l) end. apply us_more; [apply un_once; name|]. apply us_one.
      match goal with |- unary _ _ _ [?a; ?b; ?c; ?d; ?e; ?f; ?g] => change [a; b; c; d; e; f; g] with ([a; b; c; d; e; f] ++ [g]); apply un_star; change [a; b; c; d; e; f] with ([a] ++ [b; c; d; e] ++ [f]) end.
      apply it_group, al_choice. match goal with |- choices _ _ _ [?a; ?b; ?c; ?d] => change [a; b; c; d] with ([a] ++ [b] ++ [c; d]) end. apply (ch_more QSeq QAlt [_]); [apply us_one; apply un_once; name|].
      apply (ch_one QSeq QAlt [_; _]). match goal with |- units _ _ _ [?a; ?b] => change [a; b] with ([a] ++ [b]) end. apply us_more; [apply un_once; name|]. apply us_one. apply un_once. name.
    - apply (ch_one QSeq QAlt [_]). apply us_one, un_once. match goal with |- item _ _ _ [?a; ?b; ?c; ?d; ?e] => change [a; b; c; d; e] with ([a] ++ [b; c; d] ++ [e]) end. apply it_group, al_choice.
      match goal with |- choices _ _ _ [?a; ?b; ?c] => change [a; b; c] with ([a] ++ [b] ++ [c]) end. apply (ch_more QSeq QAlt [_]); [apply us_one; apply un_once; name|]. apply (ch_one QSeq QAlt [_]). apply us_one. apply un_once. name. }
  apply ft_one. match goal with |- rule_tokens _ _ _ _ [(_, ?a); (_, ?b); (_, ?c); ?d; (_, ?e)] => apply (rt_token QSeq QAlt no_regex a b c e None [] (TLiteral (bytes "\""")) d) end; [apply pr_none|]. apply (tt_literal no_regex (bytes "\""")). reflexivity.
Qed.
Lemma in_plain_consists : consists_of in_plain_out in_plain.
Proof. split; reflexivity. Qed.

(** The regular expressions of lapex.lapex in the form of regex-syntax. *)
Definition lapex_regexes : list (string * hir) :=
  [("(0|[1-9][0-9]*)", HCapture (HAlternation [HLiteral (bytes "0"); HConcat [HUnicode [(49, 57)]; HRepetition 0 None true (HUnicode [(48, 57)])]]));
   ("[a-zA-Z][a-zA-Z0-9_]*", HConcat [HUnicode [(65, 90); (97, 122)]; HRepetition 0 None true (HUnicode [(48, 57); (65, 90); (95, 95); (97, 122)])]);
   ("""([^""\\\n]|\\.)*""", HConcat [HLiteral [34]; HRepetition 0 None true (HCapture (HAlternation [HUnicode [(0, 9); (11, 33); (35, 91); (93, 1114111)]; HConcat [HLiteral [92]; HUnicode [(0, 9); (11, 1114111)]]])); HLiteral [34]]);
   ("\/([^\/\\\n]|\\.)*\/", HConcat [HLiteral [47]; HRepetition 0 None true (HCapture (HAlternation [HUnicode [(0, 9); (11, 46); (48, 91); (93, 1114111)]; HConcat [HLiteral [92]; HUnicode [(0, 9); (11, 1114111)]]])); HLiteral [47]]);
   ("[ \t]+", HRepetition 1 None true (HUnicode [(9, 9); (32, 32)]));
   ("[\n]", HLiteral [10])]%N.
Definition lapex_regex (text : list N) : option hir := option_map snd (find (fun e => if list_eq_dec N.eq_dec (bytes (fst e)) text then true else false) lapex_regexes).

Definition self_result : res lex_err spanned_rules := Eval vm_compute in parse_lapex lapex_regex lapex_gen 3000 (bytes lapex_text).
Definition self_out : spanned_rules := Eval vm_compute in match self_result with Ok r => r | _ => mkSpannedRules (zero_span, "") [] [] end.
Lemma self_read : parse_lapex lapex_regex lapex_gen 3000 (bytes lapex_text) = Ok self_out.
Proof. vm_compute. reflexivity. Qed.
Lemma self_names : rs_entry (unspanned self_out) = rs_entry lapex_rules /\ map tr_name (rs_tokens (unspanned self_out)) = rev (map tr_name (rs_tokens lapex_rules)) /\
  map pr_name (rs_prods (unspanned self_out)) = rev (map pr_name (rs_prods lapex_rules)).
Proof. split; [|split]; vm_compute; reflexivity. Qed.

(** Two rules with one name, in the order of the file and as they are read. *)
Definition order_text : string := "entry s; prod s = A; prod s = B; token A = ""a""; token B = ""b"";".
Lemma order_read : exists out, parse_lapex no_regex lapex_gen 100 (bytes order_text) = Ok out /\
  map (fun p => pr_pattern (snd p)) (sr_prods out) = [QRule "B"; QRule "A"] /\ map (fun p => tr_name (snd p)) (sr_tokens out) = ["B"; "A"].
Proof. eexists. split; [vm_compute; reflexivity|]. split; reflexivity. Qed.
