(** Proofs about reading texts with a generated lexer and a generated parser. *)
From Coq Require Import String List Arith NArith Bool Lia Relations.
From Verif Require Import Base InputModel LexerSpec LexerModel LexerFactsProof PrecedenceProof GrammarModel GrammarSpec GrammarFactsProof LLSpec LRModel LRSpec LRCompleteProof
  LRFactsProof LRTermSpec LRTermFactsProof GLRModel GLRSpec GLRFactsProof RunModel RunSpec.
Import ListNotations.
Local Open Scope nat_scope.
Local Open Scope list_scope.

(** ** Division of texts is unique *)

Lemma has_precedence_fun : forall r n n', has_precedence r n -> has_precedence r n' -> n = n'.
Proof. intros r n n' H H'. apply (prec_iff unit) in H. apply (prec_iff unit) in H'. congruence. Qed.

Lemma split_compare : forall A (l b a b' a' : list A) x y, l = b ++ x :: a -> l = b' ++ y :: a' -> x = y \/ In y (b ++ a) /\ In x (b' ++ a').
Proof.
  intros A l b. revert l. induction b as [|c b IH]; intros l a b' a' x y E E'.
  - destruct b' as [|c' b']; subst l; cbn in E'; [left; injection E'; auto|]. right. injection E' as -> ->. split; [cbn; apply in_or_app; right; left; auto|left; auto].
  - destruct b' as [|c' b']; subst l.
    + right. cbn in E'. injection E' as <- <-. split; [left; auto|]. cbn. apply in_or_app. right. left. auto.
    + injection E' as -> E'. destruct (IH _ a b' a' x y eq_refl E') as [H|[H1 H2]]; auto. right. split; right; auto.
Qed.

Lemma best_rule_unique : forall rules w r r', best_rule rules w r -> best_rule rules w r' -> r = r'.
Proof.
  intros rules w r r' (b & a & E & M & H) (b' & a' & E' & M' & H'). destruct (split_compare _ rules b a b' a' r r' E E') as [|[I1 I2]]; auto. exfalso.
  destruct (H r' I1 M') as (n & n' & P & P' & L). destruct (H' r I2 M) as (k' & k & Q' & Q & L').
  pose proof (has_precedence_fun _ _ _ P Q). pose proof (has_precedence_fun _ _ _ P' Q'). lia.
Qed.

Lemma best_in : forall rules w r, best_rule rules w r -> In r rules.
Proof. intros rules w r (b & a & -> & _). apply in_or_app. right. left. auto. Qed.
Lemma best_matched : forall rules w r, best_rule rules w r -> matched rules w.
Proof. intros rules w r H. exists r. split; [eapply best_in; eauto|]. destruct H as (b & a & _ & M & _). exact M. Qed.

Lemma app_split : forall A (w rest w' rest' : list A), w ++ rest = w' ++ rest' -> length w = length w' -> w = w' /\ rest = rest'.
Proof.
  intros A w. induction w as [|c w IH]; intros rest [|c' w'] rest' E L; simpl in *; try discriminate; auto.
  injection E as -> E. destruct (IH rest w' rest' E) as [-> ->]; [lia|auto].
Qed.

Lemma first_lexeme_unique : forall rules w rest t w' rest' t', Forall valid_char (w ++ rest) -> w ++ rest = w' ++ rest' ->
  first_lexeme rules w rest t -> first_lexeme rules w' rest' t' -> w = w' /\ rest = rest' /\ t = t'.
Proof.
  intros rules w rest t w' rest' t' V E (N1 & Z1 & B1 & O1) (N2 & Z2 & B2 & O2).
  pose proof (longest rules w rest V O1 w' rest' E Z2 (best_matched _ _ _ B2)) as L1.
  rewrite E in V. pose proof (longest rules w' rest' V O2 w rest (eq_sym E) Z1 (best_matched _ _ _ B1)) as L2.
  destruct (app_split _ _ _ _ _ E) as [-> ->]; [lia|]. split; auto. split; auto. eapply best_rule_unique; eauto.
Qed.

Lemma first_not_end : forall rules w rest t, first_lexeme rules w rest t -> ~ at_end (w ++ rest).
Proof. intros rules w rest t (N1 & Z1 & _) H. destruct w as [|c w]; [auto|]. simpl in H. subst c. apply Z1. left. auto. Qed.

Lemma tokenised_unique : forall rules text ts, Forall valid_char text -> tokenised rules text ts -> forall ts', tokenised rules text ts' -> ts = ts'.
Proof.
  intros rules text ts V H. induction H as [rest He|w rest t ts F H IH]; intros ts' H'.
  - inversion H' as [rest' He'|w' rest' t' ts'' F' H'']; subst; auto. exfalso. eapply first_not_end; eauto.
  - remember (w ++ rest) as text eqn:E. destruct H' as [rest' He'|w' rest' t' ts'' F' H''].
    + subst. exfalso. eapply first_not_end; eauto.
    + assert (V' : Forall valid_char (w ++ rest)) by (rewrite <- E; auto).
      destruct (first_lexeme_unique rules w rest t w' rest' t' V' (eq_sym E) F F') as (-> & -> & ->).
      f_equal. apply IH; auto. apply Forall_app in V'. tauto.
Qed.

(** ** What a token function delivers *)

Section Stream.
Variable rx : rust_lexer.

(** The tokens delivered, up to the end of the text ([true]) or an error of the lexer ([false]). *)
Inductive stream : lexer -> list N -> bool -> Prop :=
| st_end : forall lx lx', pull rx lx = Ok (None, lx') -> pull rx lx' = Ok (None, lx') -> stream lx [] true
| st_bad : forall lx, pull rx lx = Panic -> stream lx [] false
| st_tok : forall lx lx' t ws b, pull rx lx = Ok (Some t, lx') -> stream lx' ws b -> stream lx (t :: ws) b.

(** The lookahead and the state of the lexer, in terms of the tokens which are left. *)
Inductive sim : token -> lexer -> list N -> bool -> Prop :=
| sim_end : forall lx, pull rx lx = Ok (None, lx) -> sim None lx [] true
| sim_tok : forall t lx ws b, stream lx ws b -> sim (Some t) lx (t :: ws) b.

Lemma sim_peek : forall tk lx ws b, sim tk lx ws b -> tk = peek ws.
Proof. intros tk lx ws b H. destruct H; auto. Qed.

Lemma stream_pull : forall lx ws b, stream lx ws b ->
  (exists tk lx', pull rx lx = Ok (tk, lx') /\ sim tk lx' ws b) \/ (pull rx lx = Panic /\ b = false /\ ws = []).
Proof.
  intros lx ws b H. destruct H as [lx lx' P P'|lx P|lx lx' t ws b P H].
  - left. exists None, lx'. split; auto. constructor. auto.
  - right. auto.
  - left. exists (Some t), lx'. split; auto. constructor. auto.
Qed.

Lemma sim_pull : forall tk lx ws b, sim tk lx ws b ->
  (exists tk' lx', pull rx lx = Ok (tk', lx') /\ sim tk' lx' (tl ws) b) \/ (pull rx lx = Panic /\ b = false).
Proof.
  intros tk lx ws b H. destruct H as [lx P|t lx ws b H].
  - left. exists None, lx. split; auto. constructor. auto.
  - destruct (stream_pull _ _ _ H) as [A|(A & B & C)]; auto.
Qed.

(** Running on tokens fetched one by one is running on the list of the tokens, except that an error of the lexer may end the run. *)
Definition lazily {E} (b : bool) (lazy : list lr_event * res E lexer) (eager : list lr_event * res E (list N)) : Prop :=
  match lazy with
  | (ev, Ok lx) => exists tk rest, eager = (ev, Ok rest) /\ sim tk lx rest b
  | (ev, Err e) => eager = (ev, Err e)
  | (ev, Panic) => b = false \/ eager = (ev, Panic)
  | (ev, OutOfFuel) => eager = (ev, OutOfFuel)
  end.

Lemma lazily_app : forall E b ev (lazy : list lr_event * res E lexer) eager, lazily b lazy eager ->
  lazily b (let '(ev', r) := lazy in (ev ++ ev', r)) (let '(ev', r) := eager in (ev ++ ev', r)).
Proof.
  intros E b ev [ev1 r1] [ev2 r2] H. destruct r1 as [lx|e| |]; cbn in *.
  - destruct H as (tk & rest & H & S). injection H as -> ->. eauto.
  - congruence.
  - destruct H as [H|H]; [auto|right; congruence].
  - congruence.
Qed.

Lemma text_run_sim : forall p fuel stack tk lx ws b, sim tk lx ws b -> lazily b (text_run fuel rx p stack tk lx) (lr_run fuel p stack ws).
Proof.
  intros p fuel. induction fuel as [|fuel IH]; intros stack tk lx ws b Hs; [reflexivity|]. cbn [text_run lr_run].
  destruct stack as [|x stack]; [exists tk, ws; auto|]. pose proof (sim_peek _ _ _ _ Hs) as Ek; subst tk. unfold text_act, lr_act.
  destruct x as [t|i|q]; try (right; reflexivity).
  destruct (next_action (lp_actions p) q (peek ws)) as [[|rule]|e| |]; try reflexivity; try (right; reflexivity).
  - destruct (sim_pull _ _ _ _ Hs) as [(tk' & lx' & P & Hs')|(P & Hb)]; rewrite P; [|left; auto].
    destruct (lr_goto_step p (KTerminal (peek ws) :: KState q :: stack)) as [stack'|e| |]; try reflexivity; try (right; reflexivity).
    apply lazily_app. apply IH. auto.
  - destruct (reduce_stack p rule (KState q :: stack)) as [stack'|e| |]; try reflexivity; try (right; reflexivity).
    destruct (lr_goto_step p stack') as [stack''|e| |]; try reflexivity; try (right; reflexivity).
    apply lazily_app. apply IH. auto.
Qed.

Lemma text_parse_sim : forall p fuel source ws b, stream (lexer_new source) ws b -> lazily b (text_parse fuel rx p source) (lr_parse fuel p ws).
Proof.
  intros p fuel source ws b H. unfold text_parse, lr_parse. destruct (stream_pull _ _ _ H) as [(tk & lx & P & Hs)|(P & -> & ->)]; rewrite P.
  - apply text_run_sim. auto.
  - left. auto.
Qed.

Lemma glr_text_run_sim : forall p rfuel fuel h stacks tk lx ws b, sim tk lx ws b ->
  lazily b (glr_text_run fuel rfuel rx p h stacks tk lx) (glr_run fuel rfuel p h stacks ws).
Proof.
  intros p rfuel fuel. induction fuel as [|fuel IH]; intros h stacks tk lx ws b Hs; [reflexivity|]. cbn [glr_text_run glr_run].
  destruct (match stacks with [s] => gss_is_root h s | _ => false end); [exists tk, ws; auto|].
  unfold glr_text_pass, glr_pass. pose proof (sim_peek _ _ _ _ Hs) as Ek; subst tk.
  destruct (apply_reduces rfuel p (peek ws) h [] stacks) as [[h1 reduced]|e| |]; cbn [bind]; try reflexivity; [|right; reflexivity].
  destruct (sim_pull _ _ _ _ Hs) as [(tk' & lx' & P & Hs')|(P & Hb)]; rewrite P; [|left; auto].
  assert (X : forall h1 stacks1, lazily b
    (match stacks1 with
     | [s] => let '(ev, r) := glr_text_run fuel rfuel rx p h1 [mkGss (gs_node s) []] tk' lx' in (gs_recorded s ++ ev, r)
     | _ => glr_text_run fuel rfuel rx p h1 stacks1 tk' lx'
     end)
    (match stacks1 with
     | [s] => let '(ev, r) := glr_run fuel rfuel p h1 [mkGss (gs_node s) []] (tl ws) in (gs_recorded s ++ ev, r)
     | _ => glr_run fuel rfuel p h1 stacks1 (tl ws)
     end)).
  { intros h2 [|s [|s' stacks1]]; [apply IH; auto|apply lazily_app; apply IH; auto|apply IH; auto]. }
  destruct (existsb (gss_is_root h1) reduced).
  - specialize (X h1 reduced). destruct reduced as [|s [|s' reduced]]; exact X.
  - destruct (foldM (shift_stack p (peek ws)) reduced (h1, [])) as [[h2 stacks2]|e| |]; cbn [bind]; try reflexivity; [|right; reflexivity].
    specialize (X h2 stacks2). destruct stacks2 as [|s [|s' stacks2]]; exact X.
Qed.

Lemma glr_text_parse_sim : forall p fuel source ws b, stream (lexer_new source) ws b -> lazily b (glr_text_parse fuel rx p source) (glr_parse fuel p ws).
Proof.
  intros p fuel source ws b H. unfold glr_text_parse, glr_parse. destruct (stream_pull _ _ _ H) as [(tk & lx & P & Hs)|(P & -> & ->)]; rewrite P.
  - apply glr_text_run_sim. auto.
  - left. auto.
Qed.

End Stream.

(** ** The token function of a generated lexer *)

Section Generated.
Variable rs : rule_set.
Variable g : grammar.
Variable lfuel : nat.
Variable al : alphabet.
Variable d : dfa token_rule.
Hypothesis sm : small rs.
Hypothesis built : from_rule_set rs = Ok g.
Hypothesis us : usable_tokens (rs_tokens rs).
Hypothesis gen : generate_lexer lfuel (rs_tokens rs) = Ok (al, d).

Let rx := mkRustLexer al d (g_tokens g).

Lemma named_number : forall name t, token_named g t name -> variant_number (g_tokens g) name = Some t.
Proof.
  intros name t H. unfold variant_number. pose proof H as H'. unfold token_named in H'.
  destruct (find (fun e => String.eqb (snd e) name) (g_tokens g)) as [[s n]|] eqn:F.
  - destruct (find_some _ _ F) as [I E]. cbn in E. apply String.eqb_eq in E. subst n.
    assert (Hs : exists t', s = Terminal t').
    { apply (wf_ts g (grammar_wf _ _ built)). apply in_map_iff. exists (s, name). auto. }
    destruct Hs as [t' ->]. f_equal.
    apply (token_numbers rs g sm built) in H. apply (token_numbers rs g sm built) in I. destruct H as (i & -> & H). destruct I as (j & -> & I).
    f_equal. eapply token_unique; eauto.
  - exfalso. apply (find_none _ _ F) in H'. cbn in H'. rewrite String.eqb_refl in H'. discriminate.
Qed.

Lemma rule_named : forall r, In r (rs_tokens rs) -> exists t, token_named g t (tr_name r) /\ variant_number (g_tokens g) (tr_name r) = Some t.
Proof.
  intros r H. apply In_nth_error in H. destruct H as [i H]. exists (N.of_nat i).
  assert (X : token_named g (N.of_nat i) (tr_name r)). { apply (token_numbers rs g sm built). exists i. split; auto. exists r. auto. }
  split; auto. apply named_number. auto.
Qed.

Lemma app_longer : forall A (w rest w' rest' : list A), w ++ rest = w' ++ rest' -> length w' < length w -> exists c z, w = w' ++ c :: z /\ rest' = c :: z ++ rest.
Proof.
  intros A w rest w'. revert w rest. induction w' as [|c' w' IH]; intros w rest rest' E L.
  - destruct w as [|c z]; [simpl in L; lia|]. exists c, z. split; auto.
  - destruct w as [|c w]; [simpl in L; lia|]. simpl in E. injection E as -> E. destruct (IH w rest rest' E) as (x & z & -> & ->); [simpl in L; lia|]. exists x, z. auto.
Qed.

Lemma viable_shorter : forall w c z, Forall valid_char (c :: z) -> viable (rs_tokens rs) (w ++ c :: z) -> viable (rs_tokens rs) (w ++ [c]).
Proof.
  intros w c z V (r & w' & I & V' & M). exists r, (z ++ w'). split; auto. split.
  - apply Forall_app. split; auto. inversion V; auto.
  - rewrite <- app_assoc. cbn. rewrite <- app_assoc in M. exact M.
Qed.

Lemma stream_total : forall n lx, length (lx_iter lx) <= n -> Forall valid_char (lx_iter lx) -> exists ws b, stream rx lx ws b /\
  if b then exists ts, tokenised (rs_tokens rs) (lx_iter lx) ts /\ Forall2 (token_named g) ws (map tr_name ts)
  else ~ exists ts, tokenised (rs_tokens rs) (lx_iter lx) ts.
Proof.
  destruct us as [uv up ug]. induction n as [n IH] using lt_wf_ind. intros lx Hn V.
  destruct (next_proper lfuel (rs_tokens rs) al d uv up gen lx V) as (w & rest & r & E & Ei & Z & Vw & O & R).
  assert (V' := V). rewrite Ei in V'.
  destruct r as [[|t]|[c|[a b]]].
  - destruct R as [-> R]. exists [], true. split.
    + pose proof (proj2 (eof_ok lfuel _ al d uv (proper_no_empty _ up) gen lx V) _ E) as El.
      apply (st_end rx lx (mkLexer (lx_src lx) (lx_iter lx) (lx_position lx) (lx_position lx))); unfold pull; cbn [rx rx_alphabet rx_dfa].
      * rewrite E. cbn [bind]. rewrite El. reflexivity.
      * destruct (next_proper lfuel (rs_tokens rs) al d uv up gen (mkLexer (lx_src lx) (lx_iter lx) (lx_position lx) (lx_position lx)) V) as (w1 & rest1 & r1 & E1 & _).
        destruct (proj1 (proj1 (eof_ok lfuel _ al d uv (proper_no_empty _ up) gen (mkLexer (lx_src lx) (lx_iter lx) (lx_position lx) (lx_position lx)) V))) as [lx2 E2].
        { cbn. rewrite Ei. exact R. }
        pose proof (proj2 (eof_ok lfuel _ al d uv (proper_no_empty _ up) gen (mkLexer (lx_src lx) (lx_iter lx) (lx_position lx) (lx_position lx)) V) _ E2) as E3.
        rewrite E2. cbn [bind]. rewrite E3. reflexivity.
    + exists []. split; [rewrite Ei; constructor; auto|constructor].
  - destruct R as [R Rn]. assert (Hw : w <> []).
    { intros ->. destruct R as (b & a & Eb & M & _). eapply ug; [|exact M]. rewrite Eb. apply in_or_app. right. left. auto. }
    set (lx1 := mkLexer (lx_src lx) rest (lx_position lx) (lx_position lx + byte_len w)) in *.
    assert (F : first_lexeme (rs_tokens rs) w rest t) by (split; auto).
    destruct (rule_named t (best_in _ _ _ R)) as (k & K1 & K2).
    assert (P : pull rx lx = Ok (Some k, lx1)). { unfold pull; cbn [rx rx_alphabet rx_dfa rx_tokens]. rewrite E. cbn [bind]. rewrite K2. reflexivity. }
    destruct (IH (length rest)) with (lx := lx1) as (ws & b & S & Hb).
    { rewrite Ei, app_length in Hn. destruct w; [contradiction|]. simpl in Hn. lia. }
    { simpl. lia. }
    { simpl. apply Forall_app in V'. tauto. }
    exists (k :: ws), b. split; [econstructor; eauto|]. rewrite Ei. cbn [lx1 lx_iter] in Hb. destruct b.
    + destruct Hb as (ts & T & T2). exists (t :: ts). split; [constructor; auto|]. constructor; auto.
    + intros (ts & T). apply Hb. remember (w ++ rest) as text eqn:Et. destruct T as [rest' He|w' rest' t' ts F' T].
      * subst. exfalso. eapply first_not_end; eauto.
      * assert (Vt : Forall valid_char (w ++ rest)) by (rewrite <- Et; auto).
        destruct (first_lexeme_unique _ _ _ _ _ _ _ Vt (eq_sym Et) F F') as (-> & -> & ->). eauto.
  - destruct R.
  - destruct R as (Nm & Ne & _). exists [], false. split.
    + apply st_bad. unfold pull; cbn [rx rx_alphabet rx_dfa]. rewrite E. reflexivity.
    + rewrite Ei. intros (ts & T). remember (w ++ rest) as text eqn:Et. destruct T as [rest' He|w' rest' t' ts F' T].
      * subst. destruct w as [|c w]; [auto|]. simpl in He. subst c. apply Z. left. auto.
      * rewrite Et in V'; destruct F' as (N' & Z' & B' & O').
        pose proof (longest (rs_tokens rs) w rest V' O w' rest' (eq_sym Et) Z' (best_matched _ _ _ B')) as L.
        destruct (Nat.eq_dec (length w') (length w)) as [El|Hne].
        { destruct (app_split _ _ _ _ _ Et El) as [-> ->]. apply Nm. eapply best_matched; eauto. }
        destruct (app_longer _ w rest w' rest' (eq_sym Et)) as (c & z & -> & ->); [apply (proj2 (Nat.le_neq _ _)); split; [exact L|exact Hne]|].
        destruct O' as [O'|O'].
        { simpl in O'. subst c. apply Z. apply in_or_app. right. left. auto. }
        destruct Vw as [Vw|Vw]; [destruct w'; discriminate|]. apply O'. simpl. apply (viable_shorter w' c z); auto.
        apply Forall_app in V'. destruct V' as [V' _]. apply Forall_app in V'. tauto.
Qed.

Lemma source_stream : forall source, Forall valid_char source -> exists ws b, stream rx (lexer_new source) ws b /\
  if b then exists ts, tokenised (rs_tokens rs) source ts /\ Forall2 (token_named g) ws (map tr_name ts) else ~ exists ts, tokenised (rs_tokens rs) source ts.
Proof. intros source V. apply (stream_total (length source) (lexer_new source)); auto. Qed.

(** At the end of the run. *)
Lemma pull_end : forall lx, Forall valid_char (lx_iter lx) -> pull rx lx = Ok (None, lx) -> at_end (lx_iter lx).
Proof.
  intros lx V H. unfold pull in H. cbn [rx rx_alphabet rx_dfa rx_tokens] in H. apply bind_Ok in H. destruct H as [[lx1 r] [E H]].
  destruct us as [uv up ug]. apply (eof_ok lfuel _ al d uv (proper_no_empty _ up) gen lx V). exists lx1.
  destruct r as [[|t]|e]; [auto| |discriminate]. destruct (variant_number (g_tokens g) (tr_name t)); discriminate.
Qed.

Lemma named_fun : forall ws names, Forall2 (token_named g) ws names -> forall ws', Forall2 (token_named g) ws' names -> ws = ws'.
Proof.
  intros ws names H. induction H as [|t n ws names H F IH]; intros ws' H'; inversion H' as [|t' n' ws0 names' H1 F1]; subst; auto.
  f_equal; [|auto]. apply named_number in H. apply named_number in H1. congruence.
Qed.

(** A text of the language, in terms of the grammar. *)
Lemma text_language : forall source ts ws, Forall valid_char source -> tokenised (rs_tokens rs) source ts -> Forall2 (token_named g) ws (map tr_name ts) ->
  (text_of_language rs source <-> derives (g_rules g) [g_entry g] ws).
Proof.
  intros source ts ws V T F. split.
  - intros (ts' & T' & L). rewrite <- (tokenised_unique _ _ _ V T _ T') in L. apply (language_ok rs g sm built) in L. destruct L as (ws' & D & F').
    rewrite (named_fun _ _ F _ F'). auto.
  - intros D. exists ts. split; auto. apply (language_ok rs g sm built). eauto.
Qed.

Lemma iter_valid : forall lx tk lx', Forall valid_char (lx_iter lx) -> pull rx lx = Ok (tk, lx') -> Forall valid_char (lx_iter lx').
Proof.
  intros lx tk lx' V H. destruct us as [uv up ug]. destruct (next_proper lfuel _ al d uv up gen lx V) as (w & rest & r & E & Ei & _).
  unfold pull in H. cbn [rx rx_alphabet rx_dfa rx_tokens] in H. rewrite E in H. cbn [bind] in H.
  assert (Forall valid_char rest) by (rewrite Ei in V; apply Forall_app in V; tauto).
  destruct r as [[|t]|e]; [injection H as <- <-; auto| |discriminate].
  destruct (variant_number (g_tokens g) (tr_name t)); [injection H as <- <-; auto|discriminate].
Qed.

Lemma text_run_valid : forall p fuel stack tk lx ev lx', Forall valid_char (lx_iter lx) -> text_run fuel rx p stack tk lx = (ev, Ok lx') -> Forall valid_char (lx_iter lx').
Proof.
  intros p fuel. induction fuel as [|fuel IH]; intros stack tk lx ev lx' V H; [discriminate|]. cbn [text_run] in H.
  destruct stack as [|x stack]; [injection H as _ <-; auto|].
  destruct (text_act rx p (x :: stack) tk lx) as [ev1 r1] eqn:A. destruct r1 as [[[stack1 tk1] lx1]|e| |]; try discriminate.
  destruct (lr_goto_step p stack1) as [stack2|e| |]; try discriminate.
  destruct (text_run fuel rx p stack2 tk1 lx1) as [ev2 r2] eqn:T. injection H as _ ->. apply (IH _ _ _ _ _) in T; auto.
  unfold text_act in A. destruct x as [t|i|q]; try discriminate. destruct (next_action (lp_actions p) q tk) as [[|rule]|e| |]; try discriminate.
  - destruct (pull rx lx) as [[tk2 lx2]|e| |] eqn:P; try discriminate. injection A as _ _ _ <-. eapply iter_valid; eauto.
  - destruct (reduce_stack p rule (KState q :: stack)); try discriminate. injection A as _ _ _ <-. auto.
Qed.

(** ** LR parsers *)

Section LRText.
Variables (k : table_kind) (m : nat) (allow : bool) (tb : lr_table) (p : lr_parser).
Hypothesis tgen : generates k m g allow = Ok (NoConflicts tb).
Hypothesis wrt : write_parser g tb = Ok p.
Hypothesis front : epsilon_in_front g.
Hypothesis ne : no_empty_rhs g.
Hypothesis sealed_k : sealed k g.

Let wf := grammar_wf rs g built.

Lemma sealed_nl : ~ entry_left_recursive g.
Proof.
  destruct sealed_k as [[_ H]|[_ H]]; auto. intros (i & Ei & C). apply clos_trans_tn1_iff in C.
  assert (X : exists j, left_corner g j i) by (destruct C; eauto). destruct X as (j & r & n & a & I & _ & Er). apply (H r I). rewrite Er, Ei. apply in_or_app. right. left. reflexivity.
Qed.

Lemma parse_whole : forall fuel w ev rest, lr_parse fuel p w = (ev, Ok rest) -> rest = [].
Proof.
  intros fuel w ev rest H. destruct sealed_k as [[A B]|[A B]].
  - exact (lr1_whole k m g allow tb p wf tgen wrt A B fuel w ev rest H).
  - exact (fresh_whole k m g allow tb p wf tgen wrt A B fuel w ev rest H).
Qed.

Lemma lr_run_mono : forall fuel stack w ev r, lr_run fuel p stack w = (ev, r) -> r <> OutOfFuel -> forall fuel', fuel <= fuel' -> lr_run fuel' p stack w = (ev, r).
Proof.
  induction fuel as [|fuel IH]; intros stack w ev r H Hr fuel' L; [injection H as <- <-; congruence|]. destruct fuel' as [|fuel']; [lia|]. cbn [lr_run] in *.
  destruct stack as [|x stack]; auto. destruct (lr_act p (x :: stack) w) as [ev1 [[stack1 w1]|e| |]]; auto.
  destruct (lr_goto_step p stack1) as [stack2|e| |]; auto. destruct (lr_run fuel p stack2 w1) as [ev2 r2] eqn:R. injection H as <- ->.
  rewrite (IH _ _ _ _ R Hr fuel') by lia. reflexivity.
Qed.

Lemma text_exact : forall fuel source, Forall valid_char source ->
  match text_parse fuel rx p source with
  | (ev, Ok lx) => at_end (lx_iter lx) /\ exists ts tr, tokenised (rs_tokens rs) source ts /\ parse_tree g tr /\ Forall2 (token_named g) (iyield tr) (map tr_name ts) /\ ev = post_order tr
  | (_, Err _) => ~ text_of_language rs source
  | (_, Panic) => ~ exists ts, tokenised (rs_tokens rs) source ts
  | (_, OutOfFuel) => True
  end.
Proof.
  intros fuel source V. destruct (source_stream source V) as (ws & b & S & Hb). pose proof (text_parse_sim rx p fuel source ws b S) as L.
  destruct (text_parse fuel rx p source) as [ev [lx|e| |]] eqn:T; cbn [lazily] in L; auto.
  - destruct L as (tk & rest & L & Hs). pose proof (parse_whole _ _ _ _ L) as ->. inversion Hs as [lx0 P|]; subst. split.
    + apply pull_end; auto. unfold text_parse in T. destruct (pull rx (lexer_new source)) as [[tk0 lx0]|e| |] eqn:P0; try discriminate.
      eapply text_run_valid; [|exact T]. eapply iter_valid; [|exact P0]. exact V.
    + destruct Hb as (ts & Ht & F). exists ts. destruct (accepts_tree k m g allow tb p wf tgen wrt fuel ws ev [] L) as (tr & A & B & C). rewrite app_nil_r in C. subst ws.
      exists tr. auto.
  - intros Hl. destruct b; [|destruct Hl as (ts & Ht & _); apply Hb; eauto]. destruct Hb as (ts & Ht & F). apply (text_language source ts ws V Ht F) in Hl.
    destruct (complete_accepts k m g allow tb p wf tgen wrt front ne ws Hl) as (ev' & rest & A). unfold lr_parse in *.
    pose proof (lr_run_mono _ _ _ _ _ L ltac:(discriminate) (fuel + Datatypes.S (length ev')) ltac:(lia)) as L'. rewrite A in L' by lia. discriminate.
  - destruct L as [->|L]; [exact Hb|]. exfalso. apply (never_panics k m g allow tb p wf tgen wrt fuel ws). rewrite L. reflexivity.
Qed.

Lemma text_accepts : forall source, Forall valid_char source -> text_of_language rs source ->
  exists ev n, forall fuel, n <= fuel -> exists lx, text_parse fuel rx p source = (ev, Ok lx).
Proof.
  intros source V Hl. destruct (source_stream source V) as (ws & b & S & Hb). destruct b; [|destruct Hl as (ts & Ht & _); exfalso; apply Hb; eauto].
  destruct Hb as (ts & Ht & F). apply (text_language source ts ws V Ht F) in Hl.
  destruct (complete_accepts k m g allow tb p wf tgen wrt front ne ws Hl) as (ev & rest & A).
  exists ev, (Datatypes.S (length ev)). intros fuel Hf. pose proof (text_parse_sim rx p fuel source ws true S) as L. rewrite A in L by lia.
  destruct (text_parse fuel rx p source) as [ev' [lx|e| |]]; cbn [lazily] in L; try discriminate.
  - destruct L as (tk & rest' & E & Hs). injection E as <- <-. eauto.
  - destruct L as [L|L]; discriminate.
Qed.

Lemma text_settles : all_productive g -> forall source, Forall valid_char source -> exists n, forall fuel, n <= fuel -> snd (text_parse fuel rx p source) <> OutOfFuel.
Proof.
  intros pr source V. destruct (source_stream source V) as (ws & b & S & _).
  destruct (productive_settles k m g allow tb p wf tgen wrt front ne sealed_nl pr ws) as (n & ev & r & Hr & A). exists n. intros fuel Hf.
  pose proof (text_parse_sim rx p fuel source ws b S) as L. rewrite (A fuel Hf) in L.
  destruct (text_parse fuel rx p source) as [ev' [lx|e| |]]; cbn [lazily snd] in *; try discriminate. congruence.
Qed.

End LRText.

(** ** GLR parsers *)

Section GLRText.
Variables (k : table_kind) (m : nat) (allow : bool) (r : generation_result) (tb : lr_table) (p : glr_parser).
Hypothesis tgen : generates k m g allow = Ok r.
Hypothesis tor : table_of_result r tb.
Hypothesis wrt : glr_write_parser g tb = Ok p.
Hypothesis front : epsilon_in_front g.
Hypothesis ne : no_empty_rhs g.
Hypothesis sealed_k : sealed k g.

Let wf := grammar_wf rs g built.

Lemma glr_text_exact : forall fuel source, Forall valid_char source ->
  match glr_text_parse fuel rx p source with
  | (ev, Ok lx) => exists ts tr, tokenised (rs_tokens rs) source ts /\ parse_tree g tr /\ Forall2 (token_named g) (iyield tr) (map tr_name ts) /\ ev = post_order tr /\
      forall tr', parse_tree g tr' -> iyield tr' = iyield tr -> tr' = tr
  | (_, Err _) => ~ text_of_language rs source
  | (_, Panic) => (~ exists ts, tokenised (rs_tokens rs) source ts) \/
      exists ts w, tokenised (rs_tokens rs) source ts /\ Forall2 (token_named g) w (map tr_name ts) /\ ambiguous_sentence g w
  | (_, OutOfFuel) => True
  end.
Proof.
  intros fuel source V. destruct (source_stream source V) as (ws & b & S & Hb). pose proof (glr_text_parse_sim rx p fuel source ws b S) as L.
  pose proof (glr_exact k m g allow r tb wf tgen tor p wrt front ne sealed_k fuel ws) as X.
  destruct (glr_text_parse fuel rx p source) as [ev [lx|e| |]] eqn:T; cbn [lazily] in L; auto.
  - destruct L as (tk & rest & L & Hs). rewrite L in X. destruct X as (-> & tr & A & B & C & D). inversion Hs as [lx0 P|]; subst.
    destruct Hb as (ts & Ht & F). exists ts, tr. auto.
  - rewrite L in X. intros Hl. destruct b; [|destruct Hl as (ts & Ht & _); apply Hb; eauto]. destruct Hb as (ts & Ht & F). apply (text_language source ts ws V Ht F) in Hl. auto.
  - destruct L as [->|L]; [left; exact Hb|]. destruct b; [|left; exact Hb]. rewrite L in X. destruct Hb as (ts & Ht & F). right. eauto.
Qed.

Lemma glr_text_settles : ~ hidden_left_recursive g -> ~ cyclic g -> forall source, Forall valid_char source ->
  exists n, forall fuel, n <= fuel -> snd (glr_text_parse fuel rx p source) <> OutOfFuel.
Proof.
  intros nh nc source V. destruct (source_stream source V) as (ws & b & S & _).
  destruct (glr_settles k m g allow r tb wf tgen tor p wrt nh nc ws) as (n & A). exists n. intros fuel Hf. specialize (A fuel Hf).
  pose proof (glr_text_parse_sim rx p fuel source ws b S) as L.
  destruct (glr_text_parse fuel rx p source) as [ev' [lx|e| |]]; cbn [lazily snd] in *; try discriminate. rewrite L in A. auto.
Qed.

End GLRText.

End Generated.
