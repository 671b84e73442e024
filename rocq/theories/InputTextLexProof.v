(** The lexer of grammar files: matches of the token rules of lapex.lapex are the lexemes of [InputTextSpec]. *)
From Coq Require Import String Ascii List Arith NArith Bool Lia.
From Verif Require Import Base InputModel LexerModel LexerSpec LexerExample LexerRunProof LexerFactsProof BootModel BootExample PositionModel InputGenModel InputGenSpec InputGenLapex InputTextSpec.
Import ListNotations.
Local Open Scope string_scope.
Local Open Scope N_scope.
Local Open Scope list_scope.

(** ** Languages *)

Lemma chars_match : forall cs w, matches (from_chars cs) w <-> w = cs.
Proof.
  intros cs. unfold from_chars. induction cs as [|c cs IH]; intros w; cbn [matches map lseq]; [reflexivity|]. unfold lcat. split.
  - intros (w1 & w2 & -> & (d & -> & Hd) & H). cbn in Hd. subst d. apply IH in H. subst w2. reflexivity.
  - intros ->. exists [c], cs. split; [reflexivity|]. split; [exists c; split; reflexivity|]. apply IH. reflexivity.
Qed.

Lemma star_match : forall (P : N -> Prop) (L : lang N), (forall w, L w <-> exists c, w = [c] /\ P c) -> forall w, lrep 0 None L w <-> Forall P w.
Proof.
  intros P L HL w. unfold lrep. split.
  - intros (k & _ & _ & H). revert w H. induction k as [|k IH]; intros w H; cbn [lpow] in H; [subst w; constructor|]. destruct H as (w1 & w2 & -> & H1 & H2). apply HL in H1. destruct H1 as (c & -> & Hc).
    constructor; auto.
  - intros H. induction H as [|c w Hc H IH]; [exists O; repeat split; lia|]. destruct IH as (k & _ & _ & IH). exists (S k). split; [lia|]. split; [exact I|]. exists [c], w. split; [reflexivity|].
    split; [apply HL; eauto|exact IH].
Qed.

Lemma plus_match : forall (P : N -> Prop) (L : lang N), (forall w, L w <-> exists c, w = [c] /\ P c) -> forall w, lrep 1 None L w <-> w <> [] /\ Forall P w.
Proof.
  intros P L HL w. unfold lrep. split.
  - intros (k & Hk & _ & H). destruct k as [|k]; [lia|]. destruct H as (w1 & w2 & -> & H1 & H2). apply HL in H1. destruct H1 as (c & -> & Hc). split; [discriminate|].
    constructor; auto. apply (star_match P L HL). exists k. split; [lia|]. split; [exact I|exact H2].
  - intros [N H]. destruct w as [|c w]; [contradiction|]. inversion H; subst. apply (star_match P L HL) in H3. destruct H3 as (k & _ & _ & H3). exists (S k). split; [lia|]. split; [exact I|].
    exists [c], w. split; [reflexivity|]. split; [apply HL; eauto|exact H3].
Qed.

Lemma set_match : forall cs w, matches (PSet cs false) w <-> exists c, w = [c] /\ Exists (fun s => in_characters s c) cs.
Proof. reflexivity. Qed.

Lemma lseq1 : forall (L : lang N) w, lseq [L] w <-> L w.
Proof. intros L w. cbn. unfold lcat. split; [intros (w1 & w2 & -> & H & ->); rewrite app_nil_r; auto|]. intros H. exists w, []. rewrite app_nil_r. auto. Qed.

Definition quoted (q : N) : pattern :=
  PSeq [PChar (Single q); PRep 0 None (PAlt [PSeq [PSet [Single q; Single 92; Single 10] true]; PSeq [PChar (Single 92); PSet [] true]]); PChar (Single q)].

Lemma body_match : forall q w, q <> 92 -> lrep 0 None (matches (PAlt [PSeq [PSet [Single q; Single 92; Single 10] true]; PSeq [PChar (Single 92); PSet [] true]])) w <-> body q w.
Proof.
  intros q w Hq. set (p := PAlt _).
  assert (forall v, matches p v <-> (exists c, v = [c] /\ c <> q /\ c <> 92 /\ c <> 10) \/ exists c, v = [92; c]) as HP.
  { intros v. subst p. cbn [matches map]. cbn [lunion lseq]. unfold lcat. split.
    - intros [(w1 & w2 & -> & (c & -> & Hc) & ->)|[(w1 & w2 & -> & (c & -> & Hc) & w3 & w4 & -> & (d & -> & _) & ->)|[]]].
      + left. exists c. split; [reflexivity|]. repeat split; intros ->; apply Hc.
        * constructor 1. reflexivity.
        * constructor 2. constructor 1. reflexivity.
        * constructor 2. constructor 2. constructor 1. reflexivity.
      + right. cbn in Hc. subst c. exists d. reflexivity.
    - intros [(c & -> & A & B & C)|(c & ->)].
      + left. exists [c], []. split; [reflexivity|]. split; [|reflexivity]. exists c. split; [reflexivity|]. intros X. inversion X as [? ? Y|? ? X1]; subst; [exact (A Y)|]. inversion X1 as [? ? Y|? ? X2]; subst; [exact (B Y)|].
        inversion X2 as [? ? Y|? ? X3]; subst; [exact (C Y)|]. inversion X3.
      + right. left. exists [92], [c]. split; [reflexivity|]. split; [exists 92; split; reflexivity|]. exists [c], []. split; [reflexivity|]. split; [|reflexivity]. exists c. split; [reflexivity|]. intros X. inversion X. }
  unfold lrep. split.
  - intros (k & _ & _ & H). revert w H. induction k as [|k IH]; intros w H; cbn [lpow] in H; [subst w; constructor|]. destruct H as (w1 & w2 & -> & H1 & H2). apply HP in H1.
    destruct H1 as [(c & -> & A & B & C)|(c & ->)]; cbn [app]; [apply body_char; auto|apply body_escape; auto].
  - intros H. induction H as [|c b A B C H IH|c b H IH]; [exists O; repeat split; lia| |]; destruct IH as (k & _ & _ & IH); exists (S k); (split; [lia|]); (split; [exact I|]).
    + exists [c], b. split; [reflexivity|]. split; [apply HP; left; eauto|exact IH].
    + exists [92; c], b. split; [reflexivity|]. split; [apply HP; right; eauto|exact IH].
Qed.

Lemma quoted_match : forall q w, q <> 92 -> matches (quoted q) w <-> exists b, body q b /\ w = q :: b ++ [q].
Proof.
  intros q w Hq. unfold quoted. cbn [matches map]. cbn [lseq]. unfold lcat. split.
  - intros (w1 & w2 & -> & (c & -> & Hc) & w3 & w4 & -> & Hb & w5 & w6 & -> & (d & -> & Hd) & ->). cbn in Hc, Hd. subst c d. exists w3. split; [apply body_match; auto|reflexivity].
  - intros (b & Hb & ->). exists [q], (b ++ [q]). split; [reflexivity|]. split; [exists q; split; reflexivity|]. exists b, [q]. split; [reflexivity|]. split; [apply body_match; auto|].
    exists [q], []. split; [reflexivity|]. split; [exists q; split; reflexivity|reflexivity].
Qed.

(** ** The rules *)

Definition lit (name : string) (cs : list N) : token_rule := mkTokenRule name None (TLiteral cs).
Definition pat (name : string) (p : pattern) : token_rule := mkTokenRule name None (TPattern p).
Definition digit_rule : token_rule := pat "DIGIT" (PSeq [PAlt [PSeq [PChar (Single 48)]; PSeq [PSet [CRange 49 57] false; PRep 0 None (PSet [CRange 48 57] false)]]]).
Definition ident_rule : token_rule := pat "IDENT" (PSeq [PSet [CRange 97 122; CRange 65 90] false; PRep 0 None (PSet [CRange 97 122; CRange 65 90; CRange 48 57; Single 95] false)]).
Definition blank_rule : token_rule := pat "WHITESPACE" (PSeq [PRep 1 None (PSet [Single 32; Single 9] false)]).
Definition newline_rule : token_rule := pat "NEWLINE" (PSeq [PSet [Single 10] false]).
Definition lapex_tokens : list token_rule :=
  [lit "KW_TOKEN" (bytes "token"); lit "KW_ENTRY" (bytes "entry"); lit "KW_PROD" (bytes "prod"); lit "EQUALS" [61]; lit "SEMI" [59]; lit "LPAR" [40]; lit "RPAR" [41]; lit "LBRACK" [91]; lit "RBRACK" [93];
   digit_rule; lit "QUESTION" [63]; lit "NOTHING" [33]; lit "ASTERISK" [42]; lit "PLUS" [43]; lit "PIPE" [124]; ident_rule; pat "STRING" (quoted 34); pat "REGEX" (quoted 47); blank_rule; newline_rule].

Lemma lapex_tokens_ok : rs_tokens lapex_rules = lapex_tokens.
Proof. vm_compute. reflexivity. Qed.

Lemma digit_match : forall w, rule_matches digit_rule w <-> w = [48] \/ exists c cs, w = c :: cs /\ 49 <= c <= 57 /\ Forall digit cs.
Proof.
  intros w. unfold rule_matches, digit_rule, pat, rule_pattern. cbn [tr_pattern]. set (d0 := PSet [CRange 48 57] false).
  assert (forall v, matches (PRep 0 None d0) v <-> Forall digit v) as HD.
  { apply star_match. intros v. subst d0. rewrite set_match. split; intros (c & -> & H); exists c; (split; [reflexivity|]); [|constructor; exact H]. inversion H as [? ? X|? ? X]; subst; [exact X|inversion X]. }
  cbn [matches map]. rewrite lseq1. cbn [lunion]. cbn [map] in *. rewrite lseq1. split.
  - intros [(c & -> & Hc)|[(w1 & w2 & -> & (c & -> & Hc) & w3 & w4 & -> & H & H0)|[]]]; [left; cbn in Hc; subst; reflexivity|]. cbn in H0. subst w4. right. exists c, w3. rewrite app_nil_r. split; [reflexivity|].
    split; [inversion Hc as [? ? X|? ? X]; subst; [exact X|inversion X]|apply HD; exact H].
  - intros [->|(c & cs & -> & Hc & H)]; [left; exists 48; split; reflexivity|]. right. left. exists [c], cs. split; [reflexivity|]. split; [exists c; split; [reflexivity|constructor; exact Hc]|].
    exists cs, []. rewrite app_nil_r. split; [reflexivity|]. split; [apply HD; exact H|reflexivity].
Qed.

Lemma ident_match : forall w, rule_matches ident_rule w <-> exists c cs, w = c :: cs /\ letter c /\ Forall word_char cs.
Proof.
  intros w. unfold rule_matches, ident_rule, pat, rule_pattern. cbn [tr_pattern]. set (d0 := PSet [CRange 97 122; CRange 65 90; CRange 48 57; Single 95] false).
  assert (forall v, matches (PRep 0 None d0) v <-> Forall word_char v) as HD.
  { apply star_match. intros v. subst d0. rewrite set_match. split; intros (c & -> & H); exists c; (split; [reflexivity|]).
    - repeat (apply Exists_cons in H; destruct H as [H|H]); try (cbn in H; unfold word_char, letter, digit; tauto). inversion H.
    - unfold word_char, letter, digit in H. destruct H as [[H|H]|[H|H]]; [constructor 1|constructor 2; constructor 1|constructor 2; constructor 2; constructor 1|constructor 2; constructor 2; constructor 2; constructor 1]; exact H. }
  cbn [matches map]. cbn [lseq]. unfold lcat. split.
  - intros (w1 & w2 & -> & (c & -> & Hc) & w3 & w4 & -> & H & ->). exists c, w3. rewrite app_nil_r. split; [reflexivity|]. split; [|apply HD; exact H].
    repeat (apply Exists_cons in Hc; destruct Hc as [Hc|Hc]); try (cbn in Hc; unfold letter; tauto). inversion Hc.
  - intros (c & cs & -> & Hc & H). exists [c], cs. split; [reflexivity|]. split; [exists c; split; [reflexivity|destruct Hc as [Hc|Hc]; [constructor 1|constructor 2; constructor 1]; exact Hc]|].
    exists cs, []. rewrite app_nil_r. split; [reflexivity|]. split; [apply HD; exact H|reflexivity].
Qed.

Lemma blank_match : forall w, rule_matches blank_rule w <-> w <> [] /\ Forall (fun c => c = 32 \/ c = 9) w.
Proof.
  intros w. unfold rule_matches, blank_rule, pat, rule_pattern. cbn [tr_pattern]. change (matches (PSeq ?l) w) with (lseq (map matches l) w). cbn [map]. rewrite lseq1. apply plus_match. intros v.
  split; intros (c & -> & H); exists c; (split; [reflexivity|]).
  - repeat (apply Exists_cons in H; destruct H as [H|H]); try (cbn in H; tauto). inversion H.
  - destruct H as [H|H]; [constructor 1|constructor 2; constructor 1]; exact H.
Qed.

Lemma newline_match : forall w, rule_matches newline_rule w <-> w = [10].
Proof.
  intros w. unfold rule_matches, newline_rule, pat, rule_pattern. cbn [tr_pattern]. change (matches (PSeq ?l) w) with (lseq (map matches l) w). cbn [map]. rewrite lseq1, set_match. split.
  - intros (c & -> & H). inversion H as [? ? X|? ? X]; subst; [cbn in X; subst; reflexivity|inversion X].
  - intros ->. exists 10. split; [reflexivity|constructor; reflexivity].
Qed.

Lemma lit_match : forall name cs w, rule_matches (lit name cs) w <-> w = cs.
Proof. intros name cs w. apply chars_match. Qed.

(** ** Kinds *)

Lemma body_end : forall q b b' x, q <> 92 -> body q b -> body q b' -> b' ++ q :: x = b ++ [q] -> b = b' /\ x = [].
Proof.
  intros q b b' x Hq Hb. revert b' x. induction Hb as [|c b A B C Hb IH|c b Hb IH]; intros b' x Hb' E.
  - destruct Hb' as [|c b' A' B' C' Hb'|c b' Hb']; cbn in E.
    + injection E as ->. auto.
    + injection E as E1 E2. subst. contradiction.
    + injection E as E1 E2. discriminate.
  - destruct Hb' as [|c' b' A' B' C' Hb'|c' b' Hb']; cbn in E; injection E as E1 E2; subst; try contradiction. destruct (IH _ _ Hb' E2) as [-> ->]. auto.
  - destruct Hb' as [|c' b' A' B' C' Hb'|c' b' Hb']; cbn in E; injection E as E1 E2; subst; try contradiction. destruct (IH _ _ Hb' E2) as [-> ->]. auto.
Qed.

Definition keyword_of (w : list N) : string :=
  match find (fun e => if list_eq_dec N.eq_dec (bytes (snd e)) w then true else false) keywords with Some e => fst e | None => "IDENT" end.
Definition kind_of (w : list N) : string :=
  match w with
  | [] => ""
  | c :: _ =>
    match find (fun e => snd e =? c) marks with
    | Some e => fst e
    | None => if c =? 34 then "STRING" else if c =? 47 then "REGEX" else if c =? 10 then "NEWLINE" else if (c =? 32) || (c =? 9) then "WHITESPACE"
              else if (48 <=? c) && (c <=? 57) then "DIGIT" else keyword_of w
    end
  end.

Lemma keyword_letter : forall name word, In (name, word) keywords -> exists c cs, bytes word = c :: cs /\ letter c /\ Forall word_char cs.
Proof.
  intros name word H. repeat destruct H as [H|H]; try contradiction; injection H as <- <-; eexists; eexists; (split; [reflexivity|]); (split; [left; split; discriminate|repeat (constructor; [left; left; split; discriminate|]); constructor]).
Qed.

Lemma mark_chars : forall name c, In (name, c) marks -> ~ letter c /\ ~ digit c /\ c <> 34 /\ c <> 47 /\ c <> 32 /\ c <> 9 /\ c <> 10.
Proof. intros name c H. unfold letter, digit. repeat destruct H as [H|H]; try contradiction; injection H as <- <-; lia. Qed.

Lemma no_mark : forall c, (forall name, ~ In (name, c) marks) -> find (fun e : string * N => snd e =? c) marks = None.
Proof. intros c H. destruct (find _ marks) as [[name d]|] eqn:E; auto. apply find_some in E. destruct E as [E1 E2]. apply N.eqb_eq in E2. cbn in E2. subst d. destruct (H _ E1). Qed.

Lemma letter_head : forall c cs, letter c -> kind_of (c :: cs) = keyword_of (c :: cs).
Proof.
  intros c cs H. unfold kind_of. assert (c <> 34 /\ c <> 47 /\ c <> 10 /\ c <> 32 /\ c <> 9 /\ ~ 48 <= c <= 57) as (A & B & C & D & E & F) by (unfold letter in H; lia).
  assert (find (fun e : string * N => snd e =? c) marks = None) as ->.
  { apply no_mark. intros n X. apply mark_chars in X. tauto. }
  destruct (N.eqb_spec c 34); [contradiction|]. destruct (N.eqb_spec c 47); [contradiction|]. destruct (N.eqb_spec c 10); [contradiction|]. destruct (N.eqb_spec c 32); [contradiction|].
  destruct (N.eqb_spec c 9); [contradiction|]. cbn [orb]. destruct (N.leb_spec 48 c); destruct (N.leb_spec c 57); cbn [andb]; auto. lia.
Qed.

Lemma keyword_head : forall name word, In (name, word) keywords -> keyword_of (bytes word) = name.
Proof. intros name word H. repeat destruct H as [H|H]; try contradiction; injection H as <- <-; reflexivity. Qed.

Lemma lexeme_kind : forall name w, lexeme name w -> name = kind_of w.
Proof.
  intros name w H. destruct H as [name word H|name c H| |c cs Hc H|c cs Hc H Hk|b H|b H|c cs H|].
  - destruct (keyword_letter _ _ H) as (c & cs & E & L & _). rewrite E, letter_head by auto. rewrite <- E. symmetry. apply keyword_head. auto.
  - repeat destruct H as [H|H]; try contradiction; injection H as <- <-; reflexivity.
  - reflexivity.
  - unfold kind_of. assert (find (fun e : string * N => snd e =? c) marks = None) as ->.
    { apply no_mark. intros n X. apply mark_chars in X. unfold digit in X. lia. }
    repeat match goal with |- context [c =? ?k] => destruct (N.eqb_spec c k); [exfalso; lia|] end. cbn [orb]. destruct (N.leb_spec 48 c); destruct (N.leb_spec c 57); cbn [andb]; auto; lia.
  - rewrite letter_head by auto. unfold keyword_of. destruct (find _ _) as [[name word]|] eqn:E; [|reflexivity]. apply find_some in E. destruct E as [E1 E2]. cbn [snd] in E2. destruct (list_eq_dec _ _ _); [|discriminate].
    destruct (Hk _ _ E1). auto.
  - reflexivity.
  - reflexivity.
  - inversion H as [|? ? [->| ->]]; reflexivity.
  - reflexivity.
Qed.

Lemma lexeme_nonempty : forall name w, lexeme name w -> w <> [].
Proof. intros name w H. destruct H as [name word H|name c H| |c cs Hc H|c cs Hc H Hk|b H|b H|c cs H|]; try discriminate. destruct (keyword_letter _ _ H) as (c & cs & E & _). rewrite E. discriminate. Qed.

(** ** Lexemes and matches *)

Lemma literal_in : forall name cs, In (lit name cs) lapex_tokens -> (exists word, In (name, word) keywords /\ cs = bytes word) \/ exists c, In (name, c) marks /\ cs = [c].
Proof.
  intros name cs H. unfold lapex_tokens in H. repeat destruct H as [H|H]; try contradiction; try discriminate H; injection H as <- <-;
    try (left; eexists; split; [|reflexivity]; cbn; tauto); right; eexists; (split; [|reflexivity]); cbn; tauto.
Qed.

Lemma rule_cases : forall t, In t lapex_tokens -> (exists name cs, t = lit name cs) \/ t = digit_rule \/ t = ident_rule \/ t = pat "STRING" (quoted 34) \/ t = pat "REGEX" (quoted 47) \/ t = blank_rule \/ t = newline_rule.
Proof.
  intros t H. unfold lapex_tokens in H. repeat destruct H as [H|H]; try contradiction; subst t; try (left; eexists; eexists; reflexivity); right; tauto.
Qed.

Lemma ident_prec : forall n, has_precedence ident_rule n -> n = 1.
Proof.
  intros n H. cbn [has_precedence ident_rule pat tr_prec tr_pattern] in H. inversion H as [l ns F El En| | | |]. subst l. inversion F as [|? ? ? ? H1 F1]; subst. inversion F1 as [|? ? ? ? H2 F2]; subst. inversion F2; subst.
  inversion H1; subst. inversion H2; subst. cbn [fold_right]. lia.
Qed.

Lemma best_lexeme : forall w t, best_rule lapex_tokens w t -> lexeme (tr_name t) w.
Proof.
  intros w t (before & after & E & Hm & Hb). assert (In t lapex_tokens) as Ht by (rewrite E; apply in_or_app; right; left; reflexivity).
  destruct (rule_cases t Ht) as [(name & cs & ->)|[->|[->|[->|[->|[->| ->]]]]]].
  - apply lit_match in Hm. subst w. destruct (literal_in _ _ Ht) as [(word & H & ->)|(c & H & ->)]; cbn [tr_name lit]; constructor; auto.
  - apply digit_match in Hm. destruct Hm as [->|(c & cs & -> & Hc & H)]; [apply lx_zero|apply lx_number; auto].
  - pose proof Hm as Hm'. apply ident_match in Hm. destruct Hm as (c & cs & -> & Hc & H). apply lx_ident; auto. intros name word Hk Ew.
    assert (exists name', In (lit name' (bytes word)) (before ++ after)) as (name' & Hin).
    { assert (In (lit name (bytes word)) lapex_tokens) as X.
      { repeat destruct Hk as [Hk|Hk]; try contradiction; injection Hk as <- <-; cbn; tauto. }
      exists name. rewrite E in X. apply in_or_app. apply in_app_or in X. destruct X as [X|[X|X]]; auto. discriminate X. }
    destruct (Hb _ Hin (proj2 (lit_match _ _ _) Ew)) as (n & n' & P1 & P2 & L). apply ident_prec in P1. subst n. cbn [has_precedence lit tr_prec tr_pattern] in P2. subst n'.
    destruct (keyword_letter _ _ Hk) as (c' & cs' & E' & _). rewrite E' in L. cbn [length] in L. lia.
  - apply quoted_match in Hm; [|discriminate]. destruct Hm as (b & Hbd & ->). apply lx_string. auto.
  - apply quoted_match in Hm; [|discriminate]. destruct Hm as (b & Hbd & ->). apply lx_regex. auto.
  - apply blank_match in Hm. destruct Hm as [Hn H]. destruct w as [|c cs]; [contradiction|]. apply lx_blank. auto.
  - apply newline_match in Hm. subst w. apply lx_newline.
Qed.

Lemma lexeme_matched : forall name w, lexeme name w -> matched lapex_tokens w.
Proof.
  intros name w H. destruct H as [name word H|name c H| |c cs Hc H|c cs Hc H Hk|b H|b H|c cs H|].
  - exists (lit name (bytes word)). split; [|apply lit_match; reflexivity]. repeat destruct H as [H|H]; try contradiction; injection H as <- <-; cbn; tauto.
  - exists (lit name [c]). split; [|apply lit_match; reflexivity]. repeat destruct H as [H|H]; try contradiction; injection H as <- <-; cbn; tauto.
  - exists digit_rule. split; [cbn; tauto|]. apply digit_match. auto.
  - exists digit_rule. split; [cbn; tauto|]. apply digit_match. right. eauto.
  - exists ident_rule. split; [cbn; tauto|]. apply ident_match. eauto.
  - exists (pat "STRING" (quoted 34)). split; [cbn; tauto|]. apply quoted_match; [discriminate|]. eauto.
  - exists (pat "REGEX" (quoted 47)). split; [cbn; tauto|]. apply quoted_match; [discriminate|]. eauto.
  - exists blank_rule. split; [cbn; tauto|]. apply blank_match. split; [discriminate|auto].
  - exists newline_rule. split; [cbn; tauto|]. apply newline_match. reflexivity.
Qed.

(** What can be matched, by the first character. *)
Lemma matched_cases : forall w, matched lapex_tokens w ->
  (exists c cs, w = c :: cs /\ letter c /\ Forall word_char cs) \/ (exists name c, In (name, c) marks /\ w = [c]) \/ w = [48] \/ (exists c cs, w = c :: cs /\ 49 <= c <= 57 /\ Forall digit cs) \/
  (exists q b, (q = 34 \/ q = 47) /\ body q b /\ w = q :: b ++ [q]) \/ (w <> [] /\ Forall (fun c => c = 32 \/ c = 9) w) \/ w = [10].
Proof.
  intros w (t & Ht & Hm). destruct (rule_cases t Ht) as [(name & cs & ->)|[->|[->|[->|[->|[->| ->]]]]]].
  - apply lit_match in Hm. subst w. destruct (literal_in _ _ Ht) as [(word & H & ->)|(c & H & ->)]; [left; eapply keyword_letter; eauto|right; left; eauto].
  - apply digit_match in Hm. tauto.
  - apply ident_match in Hm. tauto.
  - apply quoted_match in Hm; [|discriminate]. destruct Hm as (b & Hb & ->). do 4 right. left. exists 34, b. auto.
  - apply quoted_match in Hm; [|discriminate]. destruct Hm as (b & Hb & ->). do 4 right. left. exists 47, b. auto.
  - apply blank_match in Hm. tauto.
  - apply newline_match in Hm. tauto.
Qed.

Lemma viable_matched : forall name t x, lexeme name t -> viable lapex_tokens (t ++ x) -> matched lapex_tokens (t ++ x).
Proof.
  intros name t x Hl (r & y & Hr & _ & Hm). destruct x as [|x0 x]; [rewrite app_nil_r; eapply lexeme_matched; eauto|]. assert (x0 :: x <> []) as Hx by discriminate. remember (x0 :: x) as x' eqn:Ex. clear Ex x0 x.
  pose proof (matched_cases ((t ++ x') ++ y) (ex_intro _ r (conj Hr Hm))) as HC. rewrite <- app_assoc in HC.
  assert (forall c cs, t = c :: cs -> letter c -> matched lapex_tokens (t ++ x')) as Hletter.
  { intros c cs -> L. cbn [app] in *. destruct HC as [(c' & cs' & E & _ & F)|[(n & c' & Hn & E)|[E|[(c' & cs' & E & R & F)|[(q & b & Q & Hb & E)|[[Hn F]|E]]]]]].
    - injection E as <- <-. exists ident_rule. split; [cbn; tauto|]. apply ident_match. exists c, (cs ++ x'). split; [reflexivity|]. split; auto. rewrite app_assoc in F. apply Forall_app in F. tauto.
    - injection E as E _. apply mark_chars in Hn. subst c'. tauto.
    - injection E as -> _. exfalso. unfold letter in L. lia.
    - injection E as -> _. exfalso. unfold letter in L. lia.
    - injection E as -> _. exfalso. unfold letter in L. lia.
    - inversion F; subst. exfalso. unfold letter in L. lia.
    - injection E as -> _. exfalso. unfold letter in L. lia. }
  destruct Hl as [name word H|name c H| |c cs Hc H|c cs Hc H Hk|b H|b H|c cs H|].
  - destruct (keyword_letter _ _ H) as (c & cs & E & L & _). eapply Hletter; eauto.
  - exfalso. apply mark_chars in H. destruct H as (M1 & M2 & M3 & M4 & M5 & M6 & M7). cbn [app] in HC. destruct HC as [(c' & cs' & E & L & F)|[(n & c' & Hn & E)|[E|[(c' & cs' & E & R & F)|[(q & b & Q & Hb & E)|[[Hn F]|E]]]]]].
    + injection E as -> _. tauto.
    + injection E as _ E. destruct x'; [contradiction|discriminate].
    + injection E as -> _. apply M2. split; discriminate.
    + injection E as -> _. apply M2. unfold digit. lia.
    + injection E as -> _. tauto.
    + inversion F; subst. tauto.
    + injection E as -> _. tauto.
  - exfalso. cbn [app] in HC. destruct HC as [(c' & cs' & E & L & F)|[(n & c' & Hn & E)|[E|[(c' & cs' & E & R & F)|[(q & b & Q & Hb & E)|[[Hn F]|E]]]]]].
    + injection E as <- _. unfold letter in L. lia.
    + injection E as <- E. apply mark_chars in Hn. unfold digit in Hn. lia.
    + injection E as E. destruct x'; [contradiction|discriminate].
    + injection E as <- _. lia.
    + injection E as <- _. lia.
    + inversion F; subst. lia.
    + discriminate.
  - cbn [app] in HC. destruct HC as [(c' & cs' & E & L & F)|[(n & c' & Hn & E)|[E|[(c' & cs' & E & R & F)|[(q & b & Q & Hb & E)|[[Hn F]|E]]]]]].
    + exfalso. injection E as <- _. unfold letter in L. lia.
    + exfalso. injection E as <- E. apply mark_chars in Hn. unfold digit in Hn. lia.
    + exfalso. injection E as E1 E2. lia.
    + injection E as <- <-. exists digit_rule. split; [cbn; tauto|]. apply digit_match. right. exists c, (cs ++ x'). split; [reflexivity|]. split; auto. rewrite app_assoc in F. apply Forall_app in F. tauto.
    + exfalso. injection E as <- _. lia.
    + exfalso. inversion F; subst. lia.
    + exfalso. injection E as E1 E2. lia.
  - eapply Hletter; eauto.
  - exfalso. cbn [app] in HC. rewrite <- app_assoc in HC. destruct HC as [(c' & cs' & E & L & F)|[(n & c' & Hn & E)|[E|[(c' & cs' & E & R & F)|[(q & b' & Q & Hb & E)|[[Hn F]|E]]]]]].
    + injection E as <- _. unfold letter in L. lia.
    + injection E as <- E. apply mark_chars in Hn. tauto.
    + discriminate.
    + injection E as <- _. lia.
    + injection E as <- E. cbn [app] in E. destruct (body_end 34 b' b _ ltac:(discriminate) Hb H E) as [_ X]. destruct x'; [contradiction|discriminate].
    + inversion F; subst. lia.
    + discriminate.
  - exfalso. cbn [app] in HC. rewrite <- app_assoc in HC. destruct HC as [(c' & cs' & E & L & F)|[(n & c' & Hn & E)|[E|[(c' & cs' & E & R & F)|[(q & b' & Q & Hb & E)|[[Hn F]|E]]]]]].
    + injection E as <- _. unfold letter in L. lia.
    + injection E as <- E. apply mark_chars in Hn. tauto.
    + discriminate.
    + injection E as <- _. lia.
    + injection E as <- E. cbn [app] in E. destruct (body_end 47 b' b _ ltac:(discriminate) Hb H E) as [_ X]. destruct x'; [contradiction|discriminate].
    + inversion F; subst. lia.
    + discriminate.
  - inversion H as [|? ? Hc Hcs]; subst. destruct HC as [(c' & cs' & E & L & F)|[(n & c' & Hn & E)|[E|[(c' & cs' & E & R & F)|[(q & b' & Q & Hb & E)|[[Hn F]|E]]]]]].
    + exfalso. injection E as <- _. unfold letter in L. lia.
    + exfalso. injection E as <- E. apply mark_chars in Hn. tauto.
    + exfalso. injection E as -> _. lia.
    + exfalso. injection E as <- _. lia.
    + exfalso. injection E as <- _. lia.
    + exists blank_rule. split; [cbn; tauto|]. apply blank_match. split; [discriminate|]. rewrite app_assoc in F. apply Forall_app in F. tauto.
    + exfalso. injection E as -> _. lia.
  - exfalso. cbn [app] in HC. destruct HC as [(c' & cs' & E & L & F)|[(n & c' & Hn & E)|[E|[(c' & cs' & E & R & F)|[(q & b' & Q & Hb & E)|[[Hn F]|E]]]]]].
    + injection E as <- _. unfold letter in L. lia.
    + injection E as <- E. apply mark_chars in Hn. tauto.
    + discriminate.
    + injection E as <- _. lia.
    + injection E as <- _. lia.
    + inversion F; subst. lia.
    + injection E as E. destruct x'; [contradiction|discriminate].
Qed.
