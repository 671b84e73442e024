(** The generated parser on the text of grammar files. *)
From Coq Require Import String Ascii List Arith NArith Bool Lia.
From Verif Require Import Base InputModel GrammarModel LexerModel LexerSpec BootModel BootExample PositionModel InputGenModel InputGenSpec InputGenLapex InputGenFactsProof InputGenEndProof
  InputTextSpec InputTextLexProof InputTextDivideProof.
Import ListNotations.
Local Open Scope string_scope.
Local Open Scope N_scope.
Local Open Scope list_scope.

Lemma token_number_is : forall name, name <> "NEWLINE" -> name <> "WHITESPACE" ->
  match token_number lapex_gen name with Some t => In (name, t) kinds | None => forall t, ~ In (name, t) kinds end.
Proof.
  intros name N1 N2. unfold token_number. change (gn_tokens lapex_gen) with (g_tokens lapex_g). destruct (find _ _) as [[s n]|] eqn:E.
  - apply find_some in E. destruct E as [E1 E2]. cbn [snd] in E2. apply String.eqb_eq in E2. subst n. vm_compute in E1. repeat destruct E1 as [E1|E1]; try contradiction; injection E1 as <- <-; try contradiction; vm_compute; tauto.
  - intros t H. assert (In (Terminal t, name) (g_tokens lapex_g)) as I by (repeat destruct H as [H|H]; try contradiction; injection H as <- <-; vm_compute; tauto).
    pose proof (find_none _ _ E _ I) as F. cbn [snd] in F. rewrite String.eqb_refl in F. discriminate F.
Qed.

Lemma lexeme_names : forall name text, lexeme name text -> name = "NEWLINE" \/ name = "WHITESPACE" \/ exists t, In (name, t) kinds.
Proof.
  intros name text H. destruct H as [name word H|name c H| |c cs Hc H|c cs Hc H Hk|b H|b H|c cs H|]; auto; right; right;
    try (repeat destruct H as [H|H]; try contradiction; injection H as <- <-); eexists; vm_compute; tauto.
Qed.

Lemma kinds_visible : forall name t, In (name, t) kinds -> name <> "NEWLINE" /\ name <> "WHITESPACE".
Proof. intros name t H. repeat destruct H as [H|H]; try contradiction; injection H as <- <-; split; discriminate. Qed.
Lemma kinds_fun : forall name t t', In (name, t) kinds -> In (name, t') kinds -> t = t'.
Proof.
  assert (NoDup (map fst kinds)) as ND by (vm_compute; repeat (constructor; [cbn; intuition discriminate|]); constructor).
  intros name t t' H H'. revert ND H H'. generalize kinds. induction l as [|[n x] l IH]; intros ND H H'; [destruct H|]. inversion ND as [|? ? Hn ND']; subst. destruct H as [H|H], H' as [H'|H'].
  - congruence.
  - injection H as -> ->. destruct Hn. apply in_map_iff. exists (name, t'). auto.
  - injection H' as -> ->. destruct Hn. apply in_map_iff. exists (name, t). auto.
  - auto.
Qed.

Lemma place_tokens_ok : forall l, Forall (fun e => exists text, lexeme (fst e) text) l -> forall line col,
  match place_tokens lapex_gen l line col with
  | Ok (ts, _) => placed line col l ts
  | Panic => forall ts, ~ placed line col l ts
  | _ => False
  end.
Proof.
  induction l as [|[name text] l IH]; intros F line col; [constructor|]. inversion F as [|? ? [t0 Hl] F']; subst. cbn [fst] in Hl. cbn [place_tokens].
  destruct (String.eqb_spec name "NEWLINE") as [->|N1].
  { unfold add_u16. destruct (N.ltb_spec (line + 1) 65536) as [L|L]; cbn [bind].
    - specialize (IH F' (line + 1) 1). destruct (place_tokens lapex_gen l (line + 1) 1) as [[ts eof]| | |]; auto; [apply pl_newline; auto|]. intros ts P. inversion P as [|? ? ? ? ? A B| |? ? ? ? ? ? ? K]; subst; [eapply IH; eauto|].
      destruct (kinds_visible _ _ K). contradiction.
    - intros ts P. inversion P as [|? ? ? ? ? A B| |? ? ? ? ? ? ? K]; subst; [lia|]. destruct (kinds_visible _ _ K). contradiction. }
  destruct (String.eqb_spec name "WHITESPACE") as [->|N2].
  { change (slice_width text) with (width text). unfold add_u16. destruct (N.ltb_spec (col + width text) 65536) as [L|L]; cbn [bind].
    - specialize (IH F' line (col + width text)). destruct (place_tokens lapex_gen l line (col + width text)) as [[ts eof]| | |]; auto; [apply pl_blank; auto|].
      intros ts P. inversion P as [| |? ? ? ? ? A B|? ? ? ? ? ? ? K]; subst; [eapply IH; eauto|]. destruct (kinds_visible _ _ K). contradiction.
    - intros ts P. inversion P as [| |? ? ? ? ? A B|? ? ? ? ? ? ? K]; subst; [lia|]. destruct (kinds_visible _ _ K). contradiction. }
  change (slice_width text) with (width text). unfold add_u16. destruct (N.ltb_spec (col + width text) 65536) as [L|L]; cbn [bind].
  - pose proof (token_number_is name N1 N2) as T. destruct (token_number lapex_gen name) as [t|].
    + specialize (IH F' line (col + width text)). destruct (place_tokens lapex_gen l line (col + width text)) as [[ts eof]| | |]; cbn [bind]; auto; [apply pl_token; auto|].
      intros ts P. inversion P; subst; try contradiction. eapply IH; eauto.
    + exfalso. destruct (lexeme_names _ _ Hl) as [X|[X|[t X]]]; try contradiction. exact (T _ X).
  - intros ts P. inversion P; subst; try contradiction. lia.
Qed.

Lemma placed_fun : forall line col l ts ts', placed line col l ts -> placed line col l ts' -> ts = ts'.
Proof.
  intros line col l ts ts' H. revert ts'. induction H as [line col|line col text l ts A H IH|line col text l ts A H IH|line col name t text l ts K A H IH]; intros ts' H'.
  - inversion H'. reflexivity.
  - inversion H' as [| | |? ? ? ? ? ? ? K']; subst; auto. destruct (kinds_visible _ _ K'). contradiction.
  - inversion H' as [| | |? ? ? ? ? ? ? K']; subst; auto. destruct (kinds_visible _ _ K'). contradiction.
  - inversion H' as [| | |? ? ? t' ? ? ts2 K' A' P']; subst; try (destruct (kinds_visible _ _ K); contradiction). rewrite (kinds_fun _ _ _ K K'), (IH _ P'). reflexivity.
Qed.

(** ** Tokens fit *)

Lemma digits_decimal : forall cs c, digit c -> Forall digit cs -> exists n, decimal (c :: cs) n.
Proof.
  intros cs c Hc H. revert H. induction cs as [|d cs IH] using rev_ind; intros H.
  - exists (c - 48). replace c with (48 + (c - 48)) at 1 by (unfold digit in Hc; lia). constructor. unfold digit in Hc. lia.
  - apply Forall_app in H. destruct H as [H1 H2]. inversion H2; subst. destruct (IH H1) as [n Hn]. exists (10 * n + (d - 48)). replace (c :: cs ++ [d]) with ((c :: cs) ++ [48 + (d - 48)]).
    + constructor; auto. unfold digit in H3. lia.
    + unfold digit in H3. replace (48 + (d - 48)) with d by lia. reflexivity.
Qed.

Lemma lexeme_fitting : forall name t text span, lexeme name text -> In (name, t) kinds -> fitting (t, mkData text span).
Proof.
  intros name t text span H K. unfold fitting. cbn [fst snd td_text].
  assert (forall n', In (n', t) kinds -> name = n') as KI.
  { intros n' K'. clear H. vm_compute in K, K'. repeat destruct K as [K|K]; try contradiction; injection K as <- <-; repeat destruct K' as [K'|K']; try contradiction; (discriminate K' || congruence). }
  split; [|split]; intros ->.
  - assert (name = "DIGIT") as -> by (apply KI; vm_compute; tauto). inversion H as [n w X|n c X| |c cs Hc Hcs| | | | |]; subst; try (repeat destruct X as [X|X]; try contradiction; discriminate).
    + apply (digits_decimal [] 48); [split; discriminate|constructor].
    + apply digits_decimal; auto. unfold digit. lia.
  - assert (name = "STRING") as -> by (apply KI; vm_compute; tauto). inversion H as [n w X|n c X| |c cs Hc Hcs| |b Hb| | |]; subst; try (repeat destruct X as [X|X]; try contradiction; discriminate). exists b. reflexivity.
  - assert (name = "REGEX") as -> by (apply KI; vm_compute; tauto). inversion H as [n w X|n c X| |c cs Hc Hcs| | |b Hb| |]; subst; try (repeat destruct X as [X|X]; try contradiction; discriminate). exists b. reflexivity.
Qed.

Lemma division_lexemes : forall text l, division text l -> Forall (fun e => lexeme (fst e) (snd e)) l.
Proof. intros text l H. induction H; constructor; auto. Qed.

Lemma placed_fitting : forall line col l ts, placed line col l ts -> Forall (fun e => lexeme (fst e) (snd e)) l -> Forall fitting ts.
Proof.
  intros line col l ts H. induction H as [line col|line col text l ts A H IH|line col text l ts A H IH|line col name t text l ts K A H IH]; intros F; [constructor| | |]; inversion F; subst; auto.
  constructor; auto. eapply lexeme_fitting; eauto.
Qed.

(** ** Files *)

Lemma built_reads_file : forall regex gn source, built gn -> Forall valid_char source ->
  exists n, forall fuel, (n <= fuel)%nat ->
  match parse_lapex regex gn fuel source with
  | Ok out => reads_file regex source out
  | Panic => forall out, ~ reads_file regex source out
  | _ => False
  end.
Proof.
  intros regex gn source B Hv. destruct (up_to_nul_ex source) as (text & Hu). pose proof (fun fuel Hf => built_lexes gn source text B Hv Hu fuel Hf) as HL.
  assert (gn = lapex_gen) as E by (apply built_is; auto). unfold parse_lapex.
  assert (exists r, forall fuel, (length text < fuel)%nat -> lex_file gn fuel (lexer_new source) = r) as (r & Hr).
  { exists (lex_file gn (S (length text)) (lexer_new source)). intros fuel Hf. pose proof (HL fuel Hf) as H1. pose proof (HL (S (length text)) ltac:(lia)) as H2.
    destruct (lex_file gn fuel (lexer_new source)) as [l| | |], (lex_file gn (S (length text)) (lexer_new source)) as [l'| | |]; try contradiction; auto.
    - f_equal. eapply division_unique; eauto.
    - destruct (H2 _ H1).
    - destruct (H1 _ H2). }
  pose proof (HL (S (length text)) ltac:(lia)) as H1. rewrite (Hr (S (length text)) ltac:(lia)) in H1. destruct r as [l| | |]; try contradiction.
  - pose proof (division_lexemes _ _ H1) as FL. assert (Forall (fun e => exists t, lexeme (fst e) t) l) as FL' by (eapply Forall_impl; [|exact FL]; cbn beta; intros e He; exists (snd e); exact He).
    pose proof (place_tokens_ok l FL' 1 1) as P. rewrite <- E in P. destruct (place_tokens gn l 1 1) as [[ts eof]| | |] eqn:EP; try contradiction.
    + pose proof (placed_fitting _ _ _ _ P FL) as FT. destruct (built_decides regex gn eof ts B FT) as (n & Hn). exists (Nat.max n (S (length text))). intros fuel Hf.
      rewrite (Hr fuel ltac:(lia)). cbn [bind]. rewrite EP. cbn [bind]. specialize (Hn fuel ltac:(lia)). destruct (parse_tokens regex gn fuel ts eof) as [out| | |]; auto.
      * destruct Hn as (rules & R & C). exists text, l, ts, rules. auto.
      * intros out (text' & l' & ts' & rules & U & D & P' & R & C). apply Hn. assert (text' = text) as -> by (eapply up_to_nul_unique; eauto). assert (l' = l) as -> by (eapply division_unique; eauto).
        assert (ts' = ts) as -> by (eapply placed_fun; eauto). eauto.
    + exists (S (length text)). intros fuel Hf. rewrite (Hr fuel ltac:(lia)). cbn [bind]. rewrite EP. cbn [bind]. intros out (text' & l' & ts' & rules & U & D & P' & R & C).
      assert (text' = text) as -> by (eapply up_to_nul_unique; eauto). assert (l' = l) as -> by (eapply division_unique; eauto). exact (P _ P').
  - exists (S (length text)). intros fuel Hf. rewrite (Hr fuel ltac:(lia)). cbn [bind]. intros out (text' & l' & ts' & rules & U & D & _).
    assert (text' = text) as -> by (eapply up_to_nul_unique; eauto). exact (H1 _ D).
Qed.
