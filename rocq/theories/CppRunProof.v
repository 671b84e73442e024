(** Proofs about reading bytes with a generated C++ lexer and a generated C++ LR parser. *)
From Coq Require Import String List Arith NArith Bool Lia Relations.
From Verif Require NfaProof.
From Verif Require Import Base InputModel LexerSpec LexerModel LexerFactsProof GrammarModel GrammarSpec GrammarFactsProof LLSpec LRModel LRSpec LRCompleteProof
  LRWriteProof LRTableProof LRRunProof LRGenProof LRFactsProof LRTermSpec LRTermFactsProof GLRSpec RunModel RunSpec RunProof CppLexerModel CppLexerSpec CppLexerProof CppLRModel CppLRSpec CppLRProof CppRunModel CppRunSpec.
Import ListNotations.
Local Open Scope nat_scope.
Local Open Scope list_scope.

(** ** Bytes as a text *)

Lemma utf8_text_app_bytes : forall a b, utf8_text a b -> Forall is_byte b.
Proof. exact utf8_text_bytes. Qed.

Lemma holds_total : forall bytes, Forall is_byte bytes -> exists text junk, holds bytes text junk.
Proof.
  intros bytes. remember (length bytes) as n eqn:En. revert bytes En. induction n as [n IH] using lt_wf_ind. intros bytes -> B.
  destruct (utf8_decode bytes) as [[c e] rest] eqn:D. destruct (N.eq_dec e 0) as [->|He].
  - destruct (decode_sound bytes c rest B D) as [(-> & _)|(bs & U & ->)].
    + exists [], [], []. split; [reflexivity|]. split; [constructor|left; reflexivity].
    + apply Forall_app in B. destruct (IH (length rest)) with (bytes := rest) as (text & junk & enc & -> & T & J); [rewrite app_length; pose proof (utf8_nonempty c bs U); lia|reflexivity|tauto|].
      exists (c :: text), junk, (bs ++ enc). split; [apply app_assoc|]. split; [constructor; auto|exact J].
  - exists [], bytes, []. split; [reflexivity|]. split; [constructor|]. right. exact (proj1 (decode_error_iff bytes B c e rest D) He).
Qed.

Lemma holds_unique : forall bytes text junk text' junk', Forall is_byte bytes -> holds bytes text junk -> holds bytes text' junk' -> text = text' /\ junk = junk'.
Proof.
  intros bytes text junk text' junk' B (enc & -> & T & J). revert text' junk'. induction T as [|c bs text enc U T IH]; intros text' junk' (enc' & E & T' & J').
  - destruct T' as [|c' bs' text' enc' U' T']; [cbn in E; auto|]. exfalso. cbn in E. destruct J as [->|[_ J]]; [|apply (J c' bs' (enc' ++ junk') U'); rewrite E; symmetry; apply app_assoc].
    pose proof (utf8_nonempty c' bs' U'). apply (f_equal (@length N)) in E. rewrite !app_length in E. cbn in E. lia.
  - rewrite <- app_assoc in E, B. apply Forall_app in B. destruct B as [B1 B2]. destruct T' as [|c' bs' text' enc' U' T'].
    + exfalso. cbn in E. subst junk'. destruct J' as [J'|[_ J']]; [|apply (J' c bs (enc ++ junk) U); reflexivity].
      pose proof (utf8_nonempty c bs U). apply (f_equal (@length N)) in J'. rewrite !app_length in J'. cbn in J'. lia.
    + rewrite <- app_assoc in E. pose proof (decode_complete c bs (enc ++ junk) U B2) as D. rewrite E in D.
      assert (B3 : Forall is_byte (enc' ++ junk')).
      { assert (X : Forall is_byte (bs ++ enc ++ junk)) by (apply Forall_app; auto). rewrite E in X. apply Forall_app in X. tauto. }
      rewrite (decode_complete c' bs' (enc' ++ junk') U' B3) in D. injection D as D1 D2. subst c'.
      destruct (IH B2 text' junk') as [-> ->]; [|auto]. exists enc'. auto.
Qed.

(** ** Lexemes *)

Lemma lexemes_tokenised : forall rules text ls, lexemes rules text ls -> tokenised rules text (map snd ls).
Proof. intros rules text ls H. induction H as [|w rest t ls F H IH]; cbn; constructor; auto. Qed.

Lemma lexemes_unique : forall rules text ls, Forall valid_char text -> lexemes rules text ls -> forall ls', lexemes rules text ls' -> ls = ls'.
Proof.
  intros rules text ls V H. induction H as [rest He|w rest t ls F H IH]; intros ls' H'.
  - inversion H' as [rest' He'|w' rest' t' ls'' F' H'']; subst; auto. exfalso. eapply first_not_end; eauto.
  - remember (w ++ rest) as text eqn:E. destruct H' as [rest' He'|w' rest' t' ls'' F' H''].
    + subst. exfalso. eapply first_not_end; eauto.
    + assert (V' : Forall valid_char (w ++ rest)) by (rewrite <- E; auto).
      destruct (first_lexeme_unique rules w rest t w' rest' t' V' (eq_sym E) F F') as (-> & -> & ->).
      f_equal. apply IH; auto. apply Forall_app in V'. tauto.
Qed.

Lemma lexemes_exist : forall rules text ts, tokenised rules text ts -> exists ls, lexemes rules text ls /\ ts = map snd ls.
Proof.
  intros rules text ts H. induction H as [rest He|w rest t ts F H IH]; [exists []; split; [constructor; auto|reflexivity]|].
  destruct IH as (ls & L & ->). exists ((w, t) :: ls). split; [constructor; auto|reflexivity].
Qed.

Lemma places_length : forall ws from, length (places from ws) = length ws.
Proof. intros ws. induction ws as [|w ws IH]; intros from; cbn; auto. Qed.

(** ** Tokens fetched one by one *)

Section Feed.
Variables (al : alphabet) (d : dfa token_rule) (c : cpp_lr).

(** What the first [n] calls of the token function deliver. *)
Fixpoint feeds (n : nat) (cl : cpp_lexer) (toks : list cpp_tok) : Prop :=
  match n with
  | O => True
  | S n => exists tk cl', cpp_pull al d (cx_names c) cl = Ok (tk, cl') /\ match toks with t :: _ => tk = t | [] => ct_type tk = 1%N end /\ feeds n cl' (tl toks)
  end.

Lemma feeds_less : forall n cl toks, feeds (S n) cl toks -> feeds n cl toks.
Proof.
  induction n as [|n IH]; intros cl toks H; [exact Logic.I|]. destruct H as (tk & cl' & P & Ht & H). exists tk, cl'. split; auto. 
Qed.

(** The calls of the visitor when the tokens are [toks]. *)
Inductive shapes : list cpp_event -> list cpp_tok -> list cpp_call -> Prop :=
| sh_nil : forall toks, shapes [] toks []
| sh_shift : forall t ev toks calls, shapes ev toks calls -> shapes (CShift (ct_type t) :: ev) (t :: toks) (VShift t :: calls)
| sh_eof : forall t ev calls, ct_type t = 1%N -> shapes ev [] calls -> shapes (CShift 1 :: ev) [] (VShift t :: calls)
| sh_reduce : forall k ev toks calls, shapes ev toks calls -> shapes (CReduce k :: ev) toks (VReduce k :: calls).

Definition matching (lazy : list cpp_call * res cpp_error cpp_lexer) (eager : list cpp_event * res cpp_error (list N)) (toks : list cpp_tok) : Prop :=
  shapes (fst eager) toks (fst lazy) /\
  match snd lazy, snd eager with
  | Ok _, Ok _ => True
  | Err e, Err e' => e = e'
  | Panic, Panic => True
  | OutOfFuel, OutOfFuel => True
  | _, _ => False
  end.

Lemma text_run_feeds : forall fuel stack toks tk cl, match toks with t :: _ => tk = t | [] => ct_type tk = 1%N end -> feeds fuel cl (tl toks) ->
  matching (cpp_text_run fuel al d c stack tk cl) (cpp_lr_loop fuel c stack (map ct_type toks)) toks.
Proof.
  induction fuel as [|fuel IH]; intros stack toks tk cl Ht HF; [split; [constructor|exact Logic.I]|]. cbn [cpp_text_run cpp_lr_loop].
  destruct stack as [|x stack]; [split; [constructor|exact Logic.I]|]. unfold cpp_text_act, cpp_act.
  assert (Ek : cpp_peek (map ct_type toks) = ct_type tk) by (destruct toks as [|t toks]; cbn; [auto|subst; auto]). rewrite Ek.
  destruct (determine_action c (sy_ident x) (ct_type tk)) as [[|rule]|e| |]; try (split; [constructor|cbn; auto]; fail).
  - destruct HF as (tk' & cl' & P & Ht' & HF). rewrite P.
    assert (X : forall ev' calls', shapes ev' (tl toks) calls' -> shapes (CShift (ct_type tk) :: ev') toks (VShift tk :: calls')).
    { intros ev' calls' Y. destruct toks as [|t toks]; [rewrite Ht; constructor; auto|subst; constructor; auto]. }
    replace (tl (map ct_type toks)) with (map ct_type (tl toks)) by (destruct toks; reflexivity).
    destruct (cpp_goto c (mkSym KindTerminal (ct_type tk) :: x :: stack)) as [stack'|e| |]; try (split; [apply X; constructor|cbn; auto]; fail).
    specialize (IH stack' (tl toks) tk' cl' Ht' HF). destruct (cpp_text_run fuel al d c stack' tk' cl') as [ev1 r1]. destruct (cpp_lr_loop fuel c stack' (map ct_type (tl toks))) as [ev2 r2].
    destruct IH as [I1 I2]. split; [cbn [fst] in *; cbn [app]; apply X; exact I1|exact I2].
  - destruct (cpp_reduce_stack c rule (x :: stack)) as [stack'|e| |]; try (split; [constructor|cbn; auto]; fail).
    destruct (cpp_goto c stack') as [stack''|e| |]; try (split; [constructor; constructor|cbn; auto]; fail).
    specialize (IH stack'' toks tk cl Ht (feeds_less _ _ _ HF)). destruct (cpp_text_run fuel al d c stack'' tk cl) as [ev1 r1]. destruct (cpp_lr_loop fuel c stack'' (map ct_type toks)) as [ev2 r2].
    destruct IH as [I1 I2]. split; [cbn [fst] in *; cbn [app]; constructor; exact I1|exact I2].
Qed.

Lemma text_parse_feeds : forall fuel toks bytes, feeds (S fuel) (cpp_new bytes) toks -> matching (cpp_text_parse fuel al d c bytes) (cpp_parse fuel c (map ct_type toks)) toks.
Proof.
  intros fuel toks bytes (tk & cl & P & Ht & HF). unfold cpp_text_parse, cpp_parse. rewrite P. apply text_run_feeds; auto.
Qed.

End Feed.

(** ** The visitor *)

Fixpoint tok_list (names : list string) (ws : list N) (ps : list (nat * nat)) : list cpp_tok :=
  match ws, ps with
  | w :: ws, (s, e) :: ps => mkTok (cpp_token names (Some w)) s e :: tok_list names ws ps
  | _, _ => []
  end.

Lemma tok_list_types : forall names ws ps, length ws = length ps -> map ct_type (tok_list names ws ps) = map (fun t => cpp_token names (Some t)) ws.
Proof.
  intros names ws. induction ws as [|w ws IH]; intros [|[s e] ps] L; cbn in *; try discriminate; auto. f_equal. auto.
Qed.

Lemma shapes_told : forall names ev ws ps calls, shifted ev = ws -> (forall t, In (EShift t) ev -> t <> None) -> length ws = length ps -> shapes (map (cpp_event_of names) ev) (tok_list names ws ps) calls ->
  told names ev ps calls.
Proof.
  intros names ev. induction ev as [|[t|k] ev IH]; intros ws ps calls E NE L H.
  - cbn in E. subst ws. destruct ps; [|discriminate]. inversion H. constructor.
  - destruct t as [t|]; [|exfalso; exact (NE None (or_introl eq_refl) eq_refl)]. cbn in E. subst ws. destruct ps as [|[s e] ps]; [discriminate|]. cbn [map cpp_event_of tok_list] in H. inversion H; subst.
    constructor. eapply IH; eauto. intros t0 Ht. apply NE. right. exact Ht.
  - cbn in E. cbn [map cpp_event_of] in H. inversion H; subst. constructor. eapply IH; eauto. intros t0 Ht. apply NE. right. exact Ht.
Qed.

Lemma post_order_tokens : forall tr t, In (EShift t) (post_order tr) -> t <> None.
Proof.
  fix F 1. intros [x|k cs] t H; cbn [post_order] in H.
  - destruct H as [H|[]]. injection H as <-. discriminate.
  - apply in_app_or in H. destruct H as [H|[H|[]]]; [|discriminate]. induction cs as [|a cs IHc]; [destruct H|]. cbn [map concat] in H. apply in_app_or in H. destruct H as [H|H]; [exact (F a t H)|exact (IHc H)].
Qed.

(** ** What a generated C++ lexer delivers *)

Section Bytes.
Variable rs : rule_set.
Variable g : grammar.
Variable lfuel : nat.
Variable al : alphabet.
Variable d : dfa token_rule.
Hypothesis sm : small rs.
Hypothesis built : from_rule_set rs = Ok g.
Hypothesis us : usable_tokens (rs_tokens rs).
Hypothesis gen : generate_lexer lfuel (rs_tokens rs) = Ok (al, d).
Variable c : cpp_lr.
Hypothesis cn : cx_names c = token_names rs.
Hypothesis nd : NoDup (enumerators (token_names rs)).
Variable junk : list N.
Hypothesis HJ : Forall is_byte junk.
Hypothesis HM : junk = [] \/ malformed junk.

Let rx := mkRustLexer al d (g_tokens g).
Let names := token_names rs.

Lemma next_sim : forall lx lx' r cl, lexer_next al d lx = Ok (lx', r) -> cl_err cl = 0%N -> faces junk (lx_iter lx) (cl_ch cl) (cl_in cl) ->
  exists cl' tk w, cpp_next al d cl = Ok (cl', tk) /\ lx_iter lx = w ++ lx_iter lx' /\
  ((junk <> [] /\ lx_iter lx' = [] /\ tk = tk_err /\ broken cl') \/
   ((junk = [] \/ lx_iter lx' <> []) /\ tk = token_of r /\ cl_err cl' = 0%N /\ faces junk (lx_iter lx') (cl_ch cl') (cl_in cl') /\ cl_position cl' = cl_position cl + length w /\
     cl_start cl' = cl_position cl /\ (forall t, r = inl (Tk t) -> cl_end cl' = cl_position cl'))).
Proof.
  intros lx lx' r cl H1 He HF. unfold lexer_next in H1. apply bind_Ok in H1. destruct H1 as ([[iter' pos'] r'] & H1 & H4). injection H4 as <- <-. cbn [lx_iter].
  destruct (loop_sim al d junk HJ HM _ _ _ _ _ _ H1 (S (S (length (cl_in cl)))) (mkCpp (cl_in cl) (cl_ch cl) (cl_err cl) (cl_position cl) (cl_position cl) (cl_end cl))) as (cl' & tk & w & R1 & R2 & _ & R4).
  { cbn [cl_in cl_ch]. destruct (N.eqb (cl_ch cl) no_char); lia. }
  { exact He. }
  { exact HF. }
  exists cl', tk, w. split; [exact R1|]. split; [exact R2|]. destruct R4 as [A|(A1 & A2 & A3 & A4 & A5 & A6 & A7)]; [left; exact A|right].
  cbn [cl_position cl_start] in *. repeat split; auto. intros t ->. exact A7.
Qed.

Lemma err_value : enum_value (enumerators names) tk_err = Some 0%N.
Proof. rewrite (enum_value_nth _ 0 _ nd); reflexivity. Qed.

Lemma pull_of : forall cl cl' tk v, cpp_next al d cl = Ok (cl', tk) -> enum_value (enumerators names) tk = Some v -> cpp_pull al d (cx_names c) cl = Ok (mkTok v (cl_start cl') (cl_end cl'), cl').
Proof. intros cl cl' tk v H E. unfold cpp_pull. rewrite H. cbn [bind]. rewrite cn. fold names. rewrite E. reflexivity. Qed.

Definition alien : N := N.of_nat (length names).
Lemma alien_value : cpp_token names (Some alien) = 0%N.
Proof. unfold cpp_token, alien. rewrite N.ltb_irrefl. reflexivity. Qed.

(** Some tokens the first of which is no token of the grammar. *)
Lemma broken_feeds : forall n cl, broken cl -> exists toks ws, map ct_type toks = map (fun t => cpp_token names (Some t)) ws /\ feeds al d c n cl toks /\ In alien ws.
Proof.
  induction n as [|n IH]; intros cl B.
  - exists [mkTok 0 0 0], [alien]. split; [cbn [map ct_type]; rewrite alien_value; reflexivity|]. split; [exact Logic.I|left; reflexivity].
  - destruct (broken_next al d cl B) as (cl' & E & B'). destruct (IH cl' B') as (toks & ws & A1 & A2 & A3).
    exists (mkTok 0 (cl_start cl') (cl_end cl') :: toks), (alien :: ws). split; [cbn [map ct_type]; rewrite A1, alien_value; reflexivity|]. split; [|left; reflexivity].
    exists (mkTok 0 (cl_start cl') (cl_end cl')), cl'. split; [apply (pull_of _ _ _ _ E err_value)|]. split; [reflexivity|exact A2].
Qed.

Lemma lexeme_rule : forall lx w rest t, lexer_next al d lx = Ok (mkLexer (lx_src lx) rest (lx_position lx) (lx_position lx + byte_len w)%N, inl (Tk t)) -> best_rule (rs_tokens rs) w t ->
  exists k, token_named g k (tr_name t) /\ variant_number (g_tokens g) (tr_name t) = Some k /\ enum_value (enumerators names) (enumerator (tr_name t)) = Some (cpp_token names (Some k)).
Proof.
  intros lx w rest t _ B. destruct (rule_named rs g sm built t (best_in _ _ _ B)) as (k & K1 & K2). exists k. split; auto. split; auto.
  assert (I : In (Terminal k) (terminals g)) by (unfold terminals; apply in_map_iff; exists (Terminal k, tr_name t); auto).
  destruct (token_name_ok rs g sm built k I) as [_ X]. pose proof K1 as K3. apply (token_numbers rs g sm built) in K3. destruct K3 as (i & -> & r & Hr & En).
  rewrite Nat2N.id in X. unfold token_names in X. rewrite nth_error_map, Hr in X. cbn in X. injection X as X. rewrite <- En, X. apply (tk_value rs g sm built KindLR1 nd). exact I.
Qed.

Lemma eof_feeds : forall m lx cl, Forall valid_char (lx_iter lx) -> at_end (lx_iter lx) -> junk = [] \/ lx_iter lx <> [] -> cl_err cl = 0%N -> faces junk (lx_iter lx) (cl_ch cl) (cl_in cl) ->
  feeds al d c m cl [].
Proof.
  destruct us as [uv up ug]. intros m lx cl V R Ri. revert cl. induction m as [|m IH]; intros cl He HF; [exact Logic.I|].
  destruct (proj1 (proj1 (eof_ok lfuel _ al d uv (proper_no_empty _ up) gen lx V)) R) as [lx2 E2].
  pose proof (proj2 (eof_ok lfuel _ al d uv (proper_no_empty _ up) gen lx V) _ E2) as E3.
  destruct (next_sim lx _ _ cl E2 He HF) as (cl1 & tk & w' & P & Ew & [(A1 & A2 & A3 & A4)|(A1 & A2 & A3 & A4 & A5 & A6 & A7)]); subst lx2; cbn [lx_iter] in *.
  - exfalso. destruct Ri; contradiction.
  - subst tk. cbn [token_of] in *. eexists _, cl1. split; [apply (pull_of _ _ _ _ P (eof_value rs nd))|]. split; [reflexivity|]. apply IH; auto.
Qed.

Lemma any_feeds : forall n lx cl, Forall valid_char (lx_iter lx) -> cl_err cl = 0%N -> faces junk (lx_iter lx) (cl_ch cl) (cl_in cl) ->
  exists toks ws, map ct_type toks = map (fun t => cpp_token names (Some t)) ws /\ feeds al d c n cl toks.
Proof.
  destruct us as [uv up ug]. induction n as [|n IH]; intros lx cl V He HF; [exists [], []; split; [reflexivity|exact Logic.I]|].
  destruct (next_proper lfuel (rs_tokens rs) al d uv up gen lx V) as (w & rest & r & E & Ei & Z & Vw & O & R).
  destruct (next_sim lx _ r cl E He HF) as (cl' & tk & w' & P & Ew & [(A1 & A2 & A3 & A4)|(A1 & A2 & A3 & A4 & A5 & A6 & A7)]).
  - destruct (broken_feeds n cl' A4) as (toks & ws & B1 & B2 & _). exists (mkTok 0 (cl_start cl') (cl_end cl') :: toks), (alien :: ws). split; [cbn [map ct_type]; rewrite B1, alien_value; reflexivity|].
    exists (mkTok 0 (cl_start cl') (cl_end cl')), cl'. subst tk. split; [apply (pull_of _ _ _ _ P err_value)|]. split; [reflexivity|exact B2].
  - assert (V' : Forall valid_char rest) by (rewrite Ei in V; apply Forall_app in V; tauto). destruct r as [[|t]|e]; cbn [token_of] in A2; subst tk.
    + (* the end of the text *)
      destruct R as [-> R]. exists [], []. split; [reflexivity|]. cbn [app] in Ei. apply (eof_feeds (S n) lx cl V); auto; rewrite Ei; auto.
    + destruct R as [R _]. destruct (lexeme_rule lx w rest t E R) as (k & _ & _ & K3). destruct (IH (mkLexer (lx_src lx) rest (lx_position lx) (lx_position lx + byte_len w)%N) cl' V' A3 A4) as (toks & ws & B1 & B2).
      exists (mkTok (cpp_token names (Some k)) (cl_start cl') (cl_end cl') :: toks), (k :: ws). split; [cbn [map ct_type]; rewrite B1; reflexivity|].
      eexists _, cl'. split; [apply (pull_of _ _ _ _ P K3)|]. split; [reflexivity|exact B2].
    + destruct (IH (mkLexer (lx_src lx) rest (lx_position lx) (lx_position lx + byte_len w)%N) cl' V' A3 A4) as (toks & ws & B1 & B2).
      exists (mkTok 0 (cl_start cl') (cl_end cl') :: toks), (alien :: ws). split; [cbn [map ct_type]; rewrite B1, alien_value; reflexivity|].
      eexists _, cl'. split; [apply (pull_of _ _ _ _ P err_value)|]. split; [reflexivity|exact B2].
Qed.

Lemma bad_feeds : forall n cl cl' tk lx, cpp_next al d cl = Ok (cl', tk) -> tk = tk_err -> broken cl' \/ Forall valid_char (lx_iter lx) /\ cl_err cl' = 0%N /\ faces junk (lx_iter lx) (cl_ch cl') (cl_in cl') ->
  exists toks ws, map ct_type toks = map (fun t => cpp_token names (Some t)) (alien :: ws) /\ feeds al d c n cl toks.
Proof.
  intros n cl cl' tk lx P -> H. assert (X : exists toks ws, map ct_type toks = map (fun t => cpp_token names (Some t)) ws /\ feeds al d c n cl' toks).
  { destruct H as [B|(V & He & HF)]; [destruct (broken_feeds n cl' B) as (toks & ws & A1 & A2 & _); eauto|exact (any_feeds n lx cl' V He HF)]. }
  destruct X as (toks & ws & B1 & B2). exists (mkTok 0 (cl_start cl') (cl_end cl') :: toks), ws. split; [cbn [map ct_type]; rewrite B1, alien_value; reflexivity|].
  apply feeds_less. eexists _, cl'. split; [apply (pull_of _ _ _ _ P err_value)|]. split; [reflexivity|exact B2].
Qed.

Lemma stream_feeds : forall lx ws b, stream rx lx ws b -> forall cl, Forall valid_char (lx_iter lx) -> cl_err cl = 0%N -> faces junk (lx_iter lx) (cl_ch cl) (cl_in cl) ->
  (b = true -> readable (lx_iter lx) junk -> exists ls, lexemes (rs_tokens rs) (lx_iter lx) ls /\ length ws = length ls /\
     forall n, feeds al d c n cl (tok_list names ws (places (cl_position cl) (map fst ls)))) /\
  (~ (b = true /\ readable (lx_iter lx) junk) -> exists pre, forall n, exists toks ws, map ct_type toks = map (fun t => cpp_token names (Some t)) (pre ++ alien :: ws) /\ feeds al d c n cl toks).
Proof.
  destruct us as [uv up ug]. intros lx ws b H. induction H as [lx lx' P P'|lx P|lx lx' t ws b P H IH]; intros cl V He HF;
    destruct (next_proper lfuel (rs_tokens rs) al d uv up gen lx V) as (w & rest & r & E & Ei & Z & Vw & O & R);
    destruct (next_sim lx _ r cl E He HF) as (cl' & tk & w' & Pc & Ew & S); cbn [lx_iter] in *;
    assert (V' : Forall valid_char rest) by (rewrite Ei in V; apply Forall_app in V; tauto);
    assert (Eww : w' = w) by (rewrite Ei in Ew; apply app_inv_tail in Ew; auto); subst w';
    unfold pull in P; cbn [rx rx_alphabet rx_dfa rx_tokens] in P; rewrite E in P; cbn [bind] in P.
  - destruct r as [[|t]|e]; [|destruct (variant_number (g_tokens g) (tr_name t)); discriminate|discriminate]. destruct R as [-> R]. cbn [app] in *.
    split.
    + intros _ Hr. exists []. split; [constructor; rewrite Ei; exact R|]. split; [reflexivity|]. intros n. cbn [map places tok_list].
      apply (eof_feeds n lx cl V); auto; [rewrite Ei; exact R|]. destruct Hr as [Hr|Hr]; [left; exact Hr|right; intros X; rewrite X in Hr; destruct Hr].
    + intros Hn. exists []. intros n. destruct S as [(A1 & A2 & A3 & A4)|(A1 & A2 & A3 & A4 & A5 & A6 & A7)]; [apply (bad_feeds n cl cl' tk lx Pc A3); left; exact A4|].
      exfalso. apply Hn. split; [reflexivity|]. destruct A1 as [A1|A1]; [left; exact A1|right]. rewrite Ei. destruct rest as [|x rest]; [contradiction|]. cbn in R. subst x. left. reflexivity.
  - split; [discriminate|]. intros _. exists []. intros n.
    assert (Et : tk = tk_err).
    { destruct S as [(_ & _ & A3 & _)|(_ & A2 & _)]; [exact A3|]. destruct r as [[|t]|e]; [discriminate| |exact A2]. destruct R as [R _]. destruct (lexeme_rule lx w rest t E R) as (k & _ & K2 & _). rewrite K2 in P. discriminate. }
    apply (bad_feeds n cl cl' tk (mkLexer [] rest 0 0) Pc Et). cbn [lx_iter]. destruct S as [(A1 & A2 & A3 & A4)|(A1 & A2 & A3 & A4 & _)]; [left; exact A4|right; auto].
  - destruct r as [[|t0]|e]; [discriminate| |discriminate]. destruct R as [R Rn]. destruct (lexeme_rule lx w rest t0 E R) as (k & _ & K2 & K3). rewrite K2 in P. injection P as <- <-. cbn [lx_iter] in *.
    assert (Hw : w <> []).
    { intros ->. destruct R as (b0 & a & Eb & M & _). eapply ug; [|exact M]. rewrite Eb. apply in_or_app. right. left. auto. }
    assert (Hr : readable (lx_iter lx) junk <-> readable rest junk).
    { unfold readable. rewrite Ei. split; (intros [X|X]; [left; exact X|right]); [|apply in_or_app; right; exact X]. apply in_app_or in X. destruct X as [X|X]; [contradiction|exact X]. }
    destruct S as [(A1 & A2 & A3 & A4)|(A1 & A2 & A3 & A4 & A5 & A6 & A7)].
    + split; [|intros _; exists []; intros n; apply (bad_feeds n cl cl' tk lx Pc A3); left; exact A4]. intros _ X. exfalso. apply Hr in X. rewrite A2 in X. destruct X as [X|[]]. exact (A1 X).
    + destruct (IH cl' V' A3 A4) as [I1 I2]. split.
      * intros Eb X. destruct (I1 Eb (proj1 Hr X)) as (ls & L1 & L2 & L3). exists ((w, t0) :: ls). split; [rewrite Ei; constructor; [split; auto|exact L1]|]. split; [cbn; auto|].
        intros n. cbn [map fst places tok_list]. rewrite <- A5. destruct n as [|n]; [exact Logic.I|]. subst tk. cbn [token_of] in Pc.
        eexists _, cl'. split; [apply (pull_of _ _ _ _ Pc K3)|]. split; [rewrite A6, (A7 t0 eq_refl); reflexivity|]. cbn [tl]. apply L3.
      * intros X. destruct (I2 (fun Y => X (conj (proj1 Y) (proj2 Hr (proj2 Y))))) as (pre & I3). exists (k :: pre). intros n. destruct (I3 n) as (toks & ws' & B1 & B2). subst tk. cbn [token_of] in Pc.
        exists (mkTok (cpp_token names (Some k)) (cl_start cl') (cl_end cl') :: toks), ws'. split; [cbn [map ct_type app]; rewrite B1; reflexivity|].
        apply feeds_less. eexists _, cl'. split; [apply (pull_of _ _ _ _ Pc K3)|]. split; [reflexivity|exact B2].
Qed.

End Bytes.

(** ** A token which is not of the grammar *)

Lemma next_action_in : forall arms q t a, next_action arms q t = Ok a -> In (OnToken q t a) arms.
Proof.
  induction arms as [|x arms IH]; intros q t a H; cbn [next_action] in H; [discriminate|]. destruct x as [s t' a'|s e].
  - destruct (Nat.eqb_spec q s) as [->|Hq]; cbn [andb] in H; [|right; auto]. destruct (eqc t t') eqn:E; [|right; auto]. apply eqc_true in E. injection H as ->. subst t'. left. reflexivity.
  - destruct (Nat.eqb q s); [discriminate|]. right. auto.
Qed.

Section LRBytes.
Variable rs : rule_set.
Variable g : grammar.
Variable lfuel : nat.
Variable al : alphabet.
Variable d : dfa token_rule.
Hypothesis sm : small rs.
Hypothesis built : from_rule_set rs = Ok g.
Hypothesis us : usable_tokens (rs_tokens rs).
Hypothesis gen : generate_lexer lfuel (rs_tokens rs) = Ok (al, d).
Variables (k : table_kind) (m : nat) (allow : bool) (tb : lr_table) (p : lr_parser) (c : cpp_lr).
Hypothesis tgen : generates k m g allow = Ok (NoConflicts tb).
Hypothesis wrt : write_parser g tb = Ok p.
Hypothesis wrc : cpp_write (token_names rs) g tb = Ok c.
Hypothesis comp : cpp_compiles c.
Hypothesis front : epsilon_in_front g.
Hypothesis ne : no_empty_rhs g.
Hypothesis sealed_k : sealed k g.

Let wf := grammar_wf rs g built.
Let names := token_names rs.
Let stranger := alien rs.

Lemma stranger_out : ~ In (Terminal stranger) (terminals g).
Proof. intros H. apply (terminal_iff rs g sm built) in H. unfold stranger, alien in H. lia. Qed.

Lemma stranger_action : forall q a, next_action (lp_actions p) q (Some stranger) <> Ok a.
Proof.
  intros q a H. apply next_action_in in H. destruct (setup_ex k m g allow tb p wf tgen wrt) as (fs & pg & su & wr & E0).
  pose proof wrt as W. unfold write_parser in W. apply bind_Ok in W. destruct W as (arms & Ha & W). apply bind_Ok in W. destruct W as (gs & _ & W). apply bind_Ok in W. destruct W as (rds & _ & W). injection W as <-.
  cbn [lp_actions] in H. destruct (make_actions_spec g wf tb (tf_ok _ _ _ _ (su_tb _ _ _ _ _ su)) arms Ha) as [-> _].
  apply in_flat_map in H. destruct H as (q' & _ & H). unfold state_arms in H. apply in_app_or in H. destruct H as [H|[H|[]]]; [|discriminate].
  apply in_flat_map in H. destruct H as (s & Hs & H). unfold cell_arms in H. destruct (column_token s) as [t|] eqn:Et; [|destruct H]. destruct (cell_action _); [|destruct H]. destruct H as [H|[]].
  injection H as _ -> _. apply column_token_inv in Et. cbn [token_symbol] in Et. subst s. unfold token_columns in Hs. apply in_app_or in Hs. destruct Hs as [Hs|[Hs|[]]]; [|discriminate]. exact (stranger_out Hs).
Qed.

Lemma stranger_cut : forall fuel stack pre ws ws', 
  fst (lr_run fuel p stack (pre ++ stranger :: ws)) = fst (lr_run fuel p stack (pre ++ stranger :: ws')) /\
  (snd (lr_run fuel p stack (pre ++ stranger :: ws)) = OutOfFuel -> snd (lr_run fuel p stack (pre ++ stranger :: ws')) = OutOfFuel).
Proof.
  induction fuel as [|fuel IH]; intros stack pre ws ws'; [split; auto|]. cbn [lr_run]. destruct stack as [|x stack]; [split; auto; discriminate|]. unfold lr_act. destruct x as [t|i|q]; try (split; auto; fail).
  assert (Ep : peek (pre ++ stranger :: ws) = peek (pre ++ stranger :: ws')) by (destruct pre; reflexivity). rewrite Ep. destruct (next_action (lp_actions p) q (peek (pre ++ stranger :: ws'))) as [[|rule]|e| |] eqn:Ea; try (split; auto; fail).
  - destruct pre as [|t pre]; [cbn in Ea; exfalso; exact (stranger_action _ _ Ea)|]. cbn [app tl]. destruct (lr_goto_step p _) as [stack'|e| |]; try (split; auto; fail).
    destruct (IH stack' pre ws ws') as [I1 I2]. destruct (lr_run fuel p stack' (pre ++ stranger :: ws)) as [ev1 r1]. destruct (lr_run fuel p stack' (pre ++ stranger :: ws')) as [ev2 r2]. cbn [fst snd] in *. split; [congruence|exact I2].
  - destruct (reduce_stack p rule (KState q :: stack)) as [stack'|e| |]; try (split; auto; fail). destruct (lr_goto_step p stack') as [stack''|e| |]; try (split; auto; fail).
    destruct (IH stack'' pre ws ws') as [I1 I2]. destruct (lr_run fuel p stack'' (pre ++ stranger :: ws)) as [ev1 r1]. destruct (lr_run fuel p stack'' (pre ++ stranger :: ws')) as [ev2 r2]. cbn [fst snd] in *. split; [congruence|exact I2].
Qed.

Lemma stranger_rejected : forall fuel ws ev rest, lr_parse fuel p ws = (ev, Ok rest) -> ~ In stranger ws.
Proof.
  intros fuel ws ev rest H I. pose proof (parse_whole rs g built k m allow tb p tgen wrt sealed_k _ _ _ _ H) as ->. destruct (accepts_tree k m g allow tb p wf tgen wrt fuel ws ev [] H) as (tr & A & B & C). rewrite app_nil_r in C. subst ws.
  apply stranger_out. destruct (wf_entry g wf) as (i & Ei & Hi). eapply (iparses_known g [g_entry g] [tr] wf A).
  - intros s [<-|[]]. rewrite Ei. exact Hi.
  - unfold iyields. cbn [map concat]. rewrite app_nil_r. exact I.
Qed.

Lemma names_of : cx_names c = names.
Proof.
  pose proof wrc as W. unfold cpp_write in W. apply bind_Ok in W. destruct W as (a1 & _ & W). apply bind_Ok in W. destruct W as (a2 & _ & W). apply bind_Ok in W. destruct W as (a3 & _ & W).
  apply bind_Ok in W. destruct W as (a4 & _ & W). injection W as <-. reflexivity.
Qed.

Lemma names_nd : NoDup (enumerators (token_names rs)).
Proof. pose proof (cc_tokens _ comp) as X. rewrite names_of in X. exact X. Qed.

(** What the two programs do with the bytes, in terms of a token stream. *)
Lemma bytes_tokens : forall bytes text junk, Forall is_byte bytes -> holds bytes text junk ->
  (readable text junk /\ exists ls ws, lexemes (rs_tokens rs) text ls /\ Forall2 (token_named g) ws (map (fun l => tr_name (snd l)) ls) /\
     forall fuel, matching (cpp_text_parse fuel al d c bytes) (cpp_parse fuel c (map (fun t => cpp_token names (Some t)) ws)) (tok_list names ws (places 0 (map fst ls)))) \/
  (~ (readable text junk /\ exists ts, tokenised (rs_tokens rs) text ts) /\ exists pre, forall fuel, exists ws toks,
     matching (cpp_text_parse fuel al d c bytes) (cpp_parse fuel c (map (fun t => cpp_token names (Some t)) (pre ++ stranger :: ws))) toks).
Proof.
  intros bytes text junk B (enc & -> & T & J). assert (BJ : Forall is_byte junk) by (apply Forall_app in B; tauto). pose proof (utf8_text_chars _ _ T) as V.
  destruct (source_stream rs g lfuel al d sm built us gen text V) as (ws & b & Hst & Hb).
  destruct (stream_feeds rs g lfuel al d sm built us gen c names_of names_nd junk BJ J _ _ _ Hst (cpp_new (enc ++ junk)) V eq_refl (faces_start _ _ _ T)) as [H1 H2].
  change (lx_iter (lexer_new text)) with text in *.
  assert (D : readable text junk \/ ~ readable text junk).
  { unfold readable. destruct junk as [|x junk]; [auto|]. destruct (in_dec N.eq_dec 0%N text); [auto|]. right. intros [X|X]; [discriminate|contradiction]. }
  destruct b; [destruct D as [D|D]|].
  - left. split; [exact D|]. destruct (H1 eq_refl D) as (ls & L1 & L2 & L3). destruct Hb as (ts & Ht & F). exists ls, ws. split; [exact L1|]. split.
    + rewrite <- (map_map snd tr_name). rewrite (tokenised_unique _ _ _ V (lexemes_tokenised _ _ _ L1) _ Ht). exact F.
    + intros fuel. rewrite <- (tok_list_types names ws (places 0 (map fst ls))) by (rewrite places_length, map_length; exact L2). apply text_parse_feeds. apply L3.
  - right. split; [tauto|]. destruct H2 as (pre & H2); [tauto|]. exists pre. intros fuel. destruct (H2 (S fuel)) as (toks & ws' & E & HF). exists ws', toks. fold stranger names in E. rewrite <- E. apply text_parse_feeds. exact HF.
  - right. split; [tauto|]. destruct H2 as (pre & H2); [intros [X _]; discriminate|]. exists pre. intros fuel. destruct (H2 (S fuel)) as (toks & ws' & E & HF). exists ws', toks. fold stranger names in E. rewrite <- E. apply text_parse_feeds. exact HF.
Qed.

Lemma good_run : forall text ls ws, Forall valid_char text -> lexemes (rs_tokens rs) text ls -> Forall2 (token_named g) ws (map (fun l => tr_name (snd l)) ls) -> forall fuel,
  match lr_parse fuel p ws with
  | (ev, Ok _) => exists tr, parse_tree g tr /\ ws = iyield tr /\ ev = post_order tr
  | (_, Err _) => ~ text_of_language rs text
  | (_, Panic) => False
  | (_, OutOfFuel) => True
  end.
Proof.
  intros text ls ws V L F fuel. destruct (lr_parse fuel p ws) as [ev [rest|e| |]] eqn:R; auto.
  - pose proof (parse_whole rs g built k m allow tb p tgen wrt sealed_k _ _ _ _ R) as ->. destruct (accepts_tree k m g allow tb p wf tgen wrt fuel ws ev [] R) as (tr & A & B & C). rewrite app_nil_r in C. eauto.
  - intros Hl. rewrite <- (map_map snd tr_name) in F. apply (text_language rs g sm built text (map snd ls) ws V (lexemes_tokenised _ _ _ L) F) in Hl.
    destruct (complete_accepts k m g allow tb p wf tgen wrt front ne ws Hl) as (ev' & rest & A). unfold lr_parse in *.
    pose proof (lr_run_mono p _ _ _ _ _ R ltac:(discriminate) (fuel + S (length ev')) ltac:(lia)) as L'. rewrite A in L' by lia. discriminate.
  - apply (never_panics k m g allow tb p wf tgen wrt fuel ws). rewrite R. reflexivity.
Qed.

Lemma tokens_told : forall tr ls calls, Forall2 (token_named g) (iyield tr) (map (fun l => tr_name (snd l)) ls) ->
  shapes (map (cpp_event_of names) (post_order tr)) (tok_list names (iyield tr) (places 0 (map fst ls))) calls -> told names (post_order tr) (places 0 (map fst ls)) calls.
Proof.
  intros tr ls calls F H. apply (shapes_told names _ (iyield tr)); [apply shifted_tree|apply post_order_tokens| |exact H].
  rewrite places_length, map_length. pose proof (NfaProof.Forall2_len _ _ _ _ _ F) as X. rewrite map_length in X. exact X.
Qed.

Lemma bytes_exact : entry_starts g -> forall fuel bytes text junk, Forall is_byte bytes -> holds bytes text junk ->
  match cpp_text_parse fuel al d c bytes with
  | (calls, Ok _) => readable text junk /\ exists ls tr, lexemes (rs_tokens rs) text ls /\ parse_tree g tr /\
      Forall2 (token_named g) (iyield tr) (map (fun l => tr_name (snd l)) ls) /\ told names (post_order tr) (places 0 (map fst ls)) calls
  | (_, Err (Throw _)) => ~ (readable text junk /\ text_of_language rs text)
  | (_, OutOfFuel) => True
  | _ => False
  end.
Proof.
  intros es fuel bytes text junk B Hh. assert (V : Forall valid_char text) by (destruct Hh as (enc & _ & T & _); exact (utf8_text_chars _ _ T)).
  destruct (bytes_tokens bytes text junk B Hh) as [(Hr & ls & ws & L & F & M)|(Hn & pre & M)].
  - specialize (M fuel). pose proof (good_run text ls ws V L F fuel) as G. destruct (proj1 (run_cases rs g sm built k m allow tb tgen c wrc p wrt comp fuel ws) es) as [R1 R2]. fold names in R1, R2.
    destruct (cpp_text_parse fuel al d c bytes) as [calls r]. destruct (cpp_parse fuel c (map (fun t => cpp_token names (Some t)) ws)) as [ev' r']. destruct (lr_parse fuel p ws) as [ev r0]. destruct M as [M1 M2].
    cbn [fst snd] in *. subst ev' r'. destruct r0 as [rest|[got ex]| |]; cbn [cpp_result_of] in M2; destruct r as [lx|e| |]; try contradiction; auto.
    + split; [exact Hr|]. destruct G as (tr & A1 & -> & ->). exists ls, tr. split; [exact L|]. split; [exact A1|]. split; [exact F|]. apply tokens_told; auto.
    + subst e. tauto.
  - destruct (M fuel) as (ws & toks & M'). destruct (proj1 (run_cases rs g sm built k m allow tb tgen c wrc p wrt comp fuel (pre ++ stranger :: ws)) es) as [R1 R2]. fold names in R1, R2.
    pose proof (stranger_rejected fuel (pre ++ stranger :: ws)) as NR. pose proof (never_panics k m g allow tb p wf tgen wrt fuel (pre ++ stranger :: ws)) as NP.
    destruct (cpp_text_parse fuel al d c bytes) as [calls r]. destruct (cpp_parse fuel c (map (fun t => cpp_token names (Some t)) (pre ++ stranger :: ws))) as [ev' r']. destruct (lr_parse fuel p (pre ++ stranger :: ws)) as [ev r0].
    destruct M' as [M1 M2]. cbn [fst snd] in *. subst ev' r'. destruct r0 as [rest|[got ex]| |]; cbn [cpp_result_of] in M2; destruct r as [lx|e| |]; try contradiction; auto.
    + exfalso. apply (NR ev rest eq_refl). apply in_or_app. right. left. reflexivity.
    + subst e. intros [H1 (ts & H2 & _)]. apply Hn. eauto.
Qed.

Lemma bytes_terminate : ~ entry_starts g -> forall fuel bytes text junk, 2 <= fuel -> Forall is_byte bytes -> holds bytes text junk ->
  match cpp_text_parse fuel al d c bytes with
  | (calls, Err Terminated) => readable text junk /\ exists ls tr, lexemes (rs_tokens rs) text ls /\ parse_tree g tr /\
      Forall2 (token_named g) (iyield tr) (map (fun l => tr_name (snd l)) ls) /\ told names (post_order tr) (places 0 (map fst ls)) calls
  | (_, Err (Throw _)) => ~ (readable text junk /\ text_of_language rs text)
  | (_, OutOfFuel) => True
  | _ => False
  end.
Proof.
  intros es fuel bytes text junk Hf B Hh. assert (V : Forall valid_char text) by (destruct Hh as (enc & _ & T & _); exact (utf8_text_chars _ _ T)).
  destruct (bytes_tokens bytes text junk B Hh) as [(Hr & ls & ws & L & F & M)|(Hn & pre & M)].
  - specialize (M fuel). pose proof (good_run text ls ws V L F fuel) as G. destruct (proj2 (run_cases rs g sm built k m allow tb tgen c wrc p wrt comp fuel ws) es Hf) as [R1 R2]. fold names in R1, R2.
    destruct (cpp_text_parse fuel al d c bytes) as [calls r]. destruct (cpp_parse fuel c (map (fun t => cpp_token names (Some t)) ws)) as [ev' r']. destruct (lr_parse fuel p ws) as [ev r0]. destruct M as [M1 M2].
    cbn [fst snd] in *. subst ev' r'. destruct r0 as [rest|[got ex]| |]; cbn [cpp_result_of] in M2; destruct r as [lx|e| |]; try contradiction; auto.
    + subst e. split; [exact Hr|]. destruct G as (tr & A1 & -> & ->). exists ls, tr. split; [exact L|]. split; [exact A1|]. split; [exact F|]. apply tokens_told; auto.
    + subst e. tauto.
  - destruct (M fuel) as (ws & toks & M'). destruct (proj2 (run_cases rs g sm built k m allow tb tgen c wrc p wrt comp fuel (pre ++ stranger :: ws)) es Hf) as [R1 R2]. fold names in R1, R2.
    pose proof (stranger_rejected fuel (pre ++ stranger :: ws)) as NR. pose proof (never_panics k m g allow tb p wf tgen wrt fuel (pre ++ stranger :: ws)) as NP.
    destruct (cpp_text_parse fuel al d c bytes) as [calls r]. destruct (cpp_parse fuel c (map (fun t => cpp_token names (Some t)) (pre ++ stranger :: ws))) as [ev' r']. destruct (lr_parse fuel p (pre ++ stranger :: ws)) as [ev r0].
    destruct M' as [M1 M2]. cbn [fst snd] in *. subst ev' r'. destruct r0 as [rest|[got ex]| |]; cbn [cpp_result_of] in M2; destruct r as [lx|e| |]; try contradiction; auto.
    + exfalso. apply (NR ev rest eq_refl). apply in_or_app. right. left. reflexivity.
    + subst e. intros [H1 (ts & H2 & _)]. apply Hn. eauto.
Qed.

Lemma bytes_accepted : entry_starts g -> forall bytes text junk, Forall is_byte bytes -> holds bytes text junk -> readable text junk -> text_of_language rs text ->
  exists n, forall fuel, n <= fuel -> exists calls lx, cpp_text_parse fuel al d c bytes = (calls, Ok lx).
Proof.
  intros es bytes text junk B Hh Hr Hl. assert (V : Forall valid_char text) by (destruct Hh as (enc & _ & T & _); exact (utf8_text_chars _ _ T)).
  destruct (bytes_tokens bytes text junk B Hh) as [(_ & ls & ws & L & F & M)|(Hn & _)]; [|exfalso; apply Hn; split; [exact Hr|]; destruct Hl as (ts & H & _); eauto].
  rewrite <- (map_map snd tr_name) in F. apply (text_language rs g sm built text (map snd ls) ws V (lexemes_tokenised _ _ _ L) F) in Hl.
  destruct (complete_accepts k m g allow tb p wf tgen wrt front ne ws Hl) as (ev & rest & A). exists (S (length ev)). intros fuel Hf. specialize (M fuel).
  destruct (proj1 (run_cases rs g sm built k m allow tb tgen c wrc p wrt comp fuel ws) es) as [_ R2]. rewrite A in R2 by lia. fold names in R2.
  destruct (cpp_text_parse fuel al d c bytes) as [calls r]. destruct M as [_ M]. cbn [snd] in *. rewrite R2 in M. destruct r as [lx|e| |]; try contradiction. eauto.
Qed.

Lemma bytes_settle : all_productive g -> forall bytes, Forall is_byte bytes -> exists n, forall fuel, n <= fuel -> snd (cpp_text_parse fuel al d c bytes) <> OutOfFuel.
Proof.
  intros pr bytes B. destruct (holds_total bytes B) as (text & junk & Hh). pose proof (sealed_nl g k sealed_k) as nl.
  assert (D : forall ws toks n, (forall fuel, n <= fuel -> snd (lr_parse fuel p ws) <> OutOfFuel) -> forall fuel, n + 2 <= fuel -> 
    matching (cpp_text_parse fuel al d c bytes) (cpp_parse fuel c (map (fun t => cpp_token names (Some t)) ws)) toks -> snd (cpp_text_parse fuel al d c bytes) <> OutOfFuel).
  { intros ws toks n Hs fuel Hf [_ M] E. specialize (Hs fuel ltac:(lia)). rewrite E in M. destruct (snd (cpp_parse fuel c (map (fun t => cpp_token names (Some t)) ws))) as [a|e| |] eqn:Ec; try contradiction.
    destruct (Nat.eq_dec (if state_has_shift tb g 0 then 1 else 0) 1) as [X|X].
    - assert (es : entry_starts g). { destruct (setup_ex k m g allow tb p wf tgen wrt) as (fs & pg & su & wr & E0). apply (entry_shift_iff k g tb fs pg wf su). destruct (state_has_shift tb g 0); [reflexivity|discriminate]. }
      destruct (proj1 (run_cases rs g sm built k m allow tb tgen c wrc p wrt comp fuel ws) es) as [_ R2]. fold names in R2. rewrite Ec in R2. destruct (snd (lr_parse fuel p ws)) as [r|[got ex]| |]; try discriminate. congruence.
    - assert (es : ~ entry_starts g). { intros es. destruct (setup_ex k m g allow tb p wf tgen wrt) as (fs & pg & su & wr & E0). apply (entry_shift_iff k g tb fs pg wf su) in es. rewrite es in X. apply X. reflexivity. }
      destruct (proj2 (run_cases rs g sm built k m allow tb tgen c wrc p wrt comp fuel ws) es ltac:(lia)) as [_ R2]. fold names in R2. rewrite Ec in R2. destruct (snd (lr_parse fuel p ws)) as [r|[got ex]| |]; try discriminate. congruence. }
  destruct (bytes_tokens bytes text junk B Hh) as [(_ & ls & ws & L & F & M)|(_ & pre & M)].
  - destruct (productive_settles k m g allow tb p wf tgen wrt front ne nl pr ws) as (n & ev & r & Hr & A). exists (n + 2). intros fuel Hf.
    apply (D ws _ n) with (3 := M fuel); auto. intros f Hn. rewrite (A f Hn). exact Hr.
  - destruct (productive_settles k m g allow tb p wf tgen wrt front ne nl pr (pre ++ [stranger])) as (n & ev & r & Hr & A). exists (n + 2). intros fuel Hf. destruct (M fuel) as (ws & toks & M').
    apply (D (pre ++ stranger :: ws) toks n) with (3 := M'); auto. intros f Hn X. unfold lr_parse in *. apply (proj2 (stranger_cut f _ pre ws [])) in X. rewrite (A f Hn) in X. exact (Hr X).
Qed.

End LRBytes.
