(** The lexer of grammar files divides them into lexemes. *)
From Coq Require Import String Ascii List Arith NArith Bool Lia.
From Verif Require Import Base InputModel LexerModel LexerSpec LexerExample LexerRunProof LexerFactsProof BootModel BootExample PositionModel InputGenModel InputGenSpec InputGenLapex InputGenFactsProof
  InputTextSpec InputTextLexProof.
Import ListNotations.
Local Open Scope string_scope.
Local Open Scope N_scope.
Local Open Scope list_scope.

Lemma lapex_valid : valid_rules lapex_tokens.
Proof. apply valid_rulesb_ok. vm_compute. reflexivity. Qed.
Lemma lapex_proper : proper_rules lapex_tokens.
Proof. apply simple_proper. vm_compute. reflexivity. Qed.
Lemma lapex_generated : generate_lexer 3000 lapex_tokens = Ok (lapex_al, lapex_dfa).
Proof. rewrite <- lapex_tokens_ok. exact lapex_lexer_ok. Qed.

Lemma app_split : forall A (a b c d : list A), a ++ b = c ++ d -> (length a <= length c)%nat -> exists x, c = a ++ x /\ b = x ++ d.
Proof.
  intros A a. induction a as [|e a IH]; intros b c d E L; [exists c; auto|]. destruct c as [|e' c]; [cbn in L; lia|]. injection E as <- E. cbn in L. destruct (IH b c d E ltac:(lia)) as (x & -> & ->). exists x. auto.
Qed.

Lemma nul_free_prefix : forall w rest text tail, w ++ rest = text ++ tail -> ~ In 0 w -> at_end tail -> exists x, text = w ++ x /\ rest = x ++ tail.
Proof.
  intros w rest text tail E Hw Ht. destruct (le_lt_dec (length w) (length text)) as [L|L]; [apply app_split; auto|].
  destruct (app_split _ _ _ _ _ (eq_sym E) ltac:(lia)) as (x & -> & E2). destruct x as [|c x]; [rewrite app_length in L; cbn in L; lia|]. exfalso. destruct tail as [|c' tail]; [discriminate|]. cbn in Ht. subst c'.
  injection E2 as <- _. apply Hw. apply in_or_app. right. left. reflexivity.
Qed.

(** ** One call *)

Lemma lex_step : forall lx text tail, Forall valid_char (lx_iter lx) -> lx_iter lx = text ++ tail -> ~ In 0 text -> at_end tail ->
  exists w rest r, lexer_next lapex_al lapex_dfa lx = Ok (mkLexer (lx_src lx) (rest ++ tail) (lx_position lx) (lx_position lx + byte_len w), r) /\ text = w ++ rest /\
  match r with
  | inl EndOfFile => text = []
  | inl (Tk t) => lexeme (tr_name t) w /\ forall name' text' rest', lexeme name' text' -> text = text' ++ rest' -> (length text' <= length w)%nat
  | inr _ => text <> [] /\ forall name' text' rest', lexeme name' text' -> text <> text' ++ rest'
  end.
Proof.
  intros lx text tail Hv E Hn Ht. destruct (next_proper _ _ _ _ lapex_valid lapex_proper lapex_generated lx Hv) as (w & rest & r & N & E1 & Hw & Vw & Vr & R).
  destruct (nul_free_prefix w rest text tail ltac:(congruence) Hw Ht) as (x & Ex & Er). subst rest. exists w, x, r. split; [exact N|]. split; [exact Ex|].
  assert (forall name' text' rest', lexeme name' text' -> text = text' ++ rest' -> (length text' <= length w)%nat) as Hmax.
  { intros name' text' rest' Hl Et. destruct (le_lt_dec (length text') (length w)) as [L|L]; auto. exfalso. rewrite Ex in Et. destruct (app_split _ _ _ _ _ Et ltac:(lia)) as (y & -> & ->).
    destruct y as [|c y]; [rewrite app_length in L; cbn in L; lia|]. destruct Vr as [Vr|Vr].
    - cbn in Vr. subst c. apply Hn. rewrite Ex. apply in_or_app. right. left. reflexivity.
    - apply Vr. cbn [app head_char]. destruct (lexeme_matched _ _ Hl) as (t & It & Mt). exists t, y. split; auto. rewrite <- app_assoc. split; [|exact Mt].
      rewrite E, Ex, <- !app_assoc in Hv. apply Forall_app in Hv. destruct Hv as [_ Hv]. cbn [app] in Hv. inversion Hv as [|? ? _ Hv']. subst. apply Forall_app in Hv'. tauto. }
  destruct r as [[|t]|e].
  - destruct R as [-> R]. destruct x as [|c x]; [rewrite Ex; reflexivity|]. cbn in R. subst c. exfalso. apply Hn. rewrite Ex. left. reflexivity.
  - destruct R as [R _]. split; [apply best_lexeme; exact R|exact Hmax].
  - assert (~ matched lapex_tokens w /\ ~ (w = [] /\ at_end (x ++ tail))) as [M Q].
    { destruct e as [c|[a b]]; [contradiction|]. tauto. }
    assert (text <> []) as Hne.
    { intros X. rewrite X in Ex. destruct w; [|discriminate]. destruct x; [|discriminate]. apply Q. auto. }
    split; auto. intros name' text' rest' Hl Et. pose proof (Hmax _ _ _ Hl Et) as L. rewrite Ex in Et. destruct (app_split _ _ _ _ _ (eq_sym Et) L) as (y & Ew & _). subst w. apply M.
    eapply viable_matched; eauto. destruct Vw as [X|Vw]; auto. destruct text'; [|discriminate]. destruct (lexeme_nonempty _ _ Hl). reflexivity.
Qed.

(** ** Divisions *)

Lemma division_nonempty : forall text l, division text l -> text <> [] -> exists name w rest, text = w ++ rest /\ lexeme name w.
Proof. intros text l H N. destruct H; [contradiction|]. eauto. Qed.

Lemma division_concat : forall text l, division text l -> text = concat (map snd l).
Proof. intros text l H. induction H as [|name w rest l Hl Hm H IH]; [reflexivity|]. cbn. congruence. Qed.

Lemma division_inv : forall name w rest l, lexeme name w -> (forall name' text' rest', lexeme name' text' -> w ++ rest = text' ++ rest' -> (length text' <= length w)%nat) ->
  division (w ++ rest) l -> exists l', l = (name, w) :: l' /\ division rest l'.
Proof.
  intros name w rest l Hl Hm H. remember (w ++ rest) as text eqn:E. destruct H as [|name' w' rest' l' Hl' Hm' H].
  - pose proof (lexeme_nonempty _ _ Hl). destruct w; [contradiction|discriminate].
  - pose proof (Hm' _ _ _ Hl E) as L1. pose proof (Hm _ _ _ Hl' eq_refl) as L2. destruct (app_split _ _ _ _ _ E ltac:(lia)) as (x & -> & ->). rewrite app_length in L1. destruct x; [|cbn in L1; lia]. rewrite app_nil_r in *.
    rewrite (lexeme_kind _ _ Hl), (lexeme_kind _ _ Hl'). exists l'. auto.
Qed.

Lemma division_unique : forall text l l', division text l -> division text l' -> l = l'.
Proof.
  intros text l l' H. revert l'. induction H as [|name w rest l Hl Hm H IH]; intros l' H'.
  - remember [] as t eqn:E. destruct H' as [|name w rest l Hl]; auto. pose proof (lexeme_nonempty _ _ Hl). destruct w; [contradiction|discriminate].
  - destruct (division_inv _ _ _ _ Hl Hm H') as (l2 & -> & H2). f_equal. auto.
Qed.

(** ** The whole file *)

Lemma lex_file_divides : forall n text tail lx done, (length text <= n)%nat -> Forall valid_char (lx_iter lx) -> lx_iter lx = text ++ tail -> ~ In 0 text -> at_end tail ->
  lx_src lx = done ++ lx_iter lx -> lx_position lx = byte_len done -> forall fuel, (n < fuel)%nat ->
  match lex_file lapex_gen fuel lx with
  | Ok l => division text l
  | Panic => forall l, ~ division text l
  | _ => False
  end.
Proof.
  induction n as [|n IH]; intros text tail lx done L Hv E Hn Ht Hs Hp fuel Hf; (destruct fuel as [|fuel]; [lia|]); cbn [lex_file gn_alphabet gn_dfa lapex_gen];
    destruct (lex_step lx text tail Hv E Hn Ht) as (w & rest & r & N & Ew & R); rewrite N; cbn [bind]; destruct r as [[|t]|e].
  - rewrite R. constructor.
  - destruct R as [R _]. pose proof (lexeme_nonempty _ _ R). destruct text; [|cbn in L; lia]. destruct w; [contradiction|discriminate].
  - destruct R as [R _]. destruct text; [contradiction|cbn in L; lia].
  - rewrite R. constructor.
  - destruct R as [R Hm]. pose proof (lexeme_nonempty _ _ R) as Hw. set (lx' := mkLexer _ _ _ _). assert (lexer_slice lx' = Ok w) as ->.
    { unfold lexer_slice. subst lx'. cbn [lx_src lx_start lx_position]. rewrite Hs, Hp, E, Ew, <- app_assoc. apply byte_slice_mid. }
    cbn [bind]. assert (length rest <= n)%nat as L' by (rewrite Ew, app_length in L; destruct w; [contradiction|cbn in L; lia]).
    assert (lx_iter lx' = rest ++ tail) as E' by reflexivity.
    specialize (IH rest tail lx' (done ++ w) L'). subst text. rewrite <- app_assoc in E. rewrite E in Hv, Hs. apply Forall_app in Hv. destruct Hv as [Vw Hv].
    specialize (IH Hv E' (fun X => Hn (in_or_app _ _ _ (or_intror X))) Ht).
    rewrite <- app_assoc in IH. specialize (IH Hs). change (lx_position lx') with (lx_position lx + byte_len w) in IH. rewrite Hp, byte_len_app in IH. specialize (IH eq_refl fuel ltac:(lia)).
    destruct (lex_file lapex_gen fuel lx') as [l| | |]; cbn [bind]; auto; try contradiction.
    + apply dv_next; auto.
    + intros l Hd. destruct (division_inv _ _ _ _ R Hm Hd) as (l' & _ & Hd'). exact (IH _ Hd').
  - destruct R as [R1 R2]. intros l Hd. destruct (division_nonempty _ _ Hd R1) as (name & w' & rest' & E' & Hl). exact (R2 _ _ _ Hl E').
Qed.

Lemma up_to_nul_ex : forall source, exists text, up_to_nul source text.
Proof.
  induction source as [|c source (text & IH)]; [exists []; constructor; auto|]. destruct (N.eq_dec c 0) as [->|Hc]; [exists []; apply (un_cut [] source); auto|].
  exists (c :: text). destruct IH as [text IH|text rest IH]; [apply un_all|apply (un_cut (c :: text))]; intros [X|X]; auto.
Qed.
Lemma up_to_nul_unique : forall source text text', up_to_nul source text -> up_to_nul source text' -> text = text'.
Proof.
  intros source text text' H H'. destruct H as [text H|text rest H]; inversion H' as [? G|t r G Et]; subst; auto.
  - exfalso. apply H. apply in_or_app. right. left. reflexivity.
  - exfalso. apply G. apply in_or_app. right. left. reflexivity.
  - destruct (nul_free_prefix text' (0 :: r) text (0 :: rest) Et G eq_refl) as (x & -> & E). destruct x as [|c x]; [apply app_nil_r|]. injection E as <- _. exfalso. apply H. apply in_or_app. right. left. reflexivity.
Qed.

Lemma built_lexes : forall gn source text, built gn -> Forall valid_char source -> up_to_nul source text -> forall fuel, (length text < fuel)%nat ->
  match lex_file gn fuel (lexer_new source) with
  | Ok l => division text l
  | Panic => forall l, ~ division text l
  | _ => False
  end.
Proof.
  intros gn source text B Hv Hu fuel Hf. rewrite (built_is _ B). destruct Hu as [text Hn|text rest Hn].
  - apply (lex_file_divides (length text) text [] (lexer_new text) []); auto; cbn; auto. rewrite app_nil_r. reflexivity.
  - apply (lex_file_divides (length text) text (0 :: rest) (lexer_new (text ++ 0 :: rest)) []); cbn; auto.
Qed.
