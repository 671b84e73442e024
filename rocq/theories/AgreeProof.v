(** Generated parsers for one rule set agree: with tables of several kinds, GLR and LR, Rust and C++. *)
From Coq Require Import String List Arith NArith Bool Lia.
From Verif Require Import Base InputModel LexerSpec LexerModel GrammarModel GrammarSpec GrammarFactsProof LLModel LLSpec LRModel LRSpec LRTermSpec LRRunProof LRCompleteProof LRFactsProof LRErrorFactsProof LRTermFactsProof
  GLRModel GLRSpec GLRFactsProof RunModel RunSpec RunProof CppLexerModel CppLexerSpec CppLexerProof CppLRModel CppLRSpec CppLRProof CppRunModel CppRunSpec CppRunProof CppEndProof AgreeSpec.
Import ListNotations.
Local Open Scope nat_scope.
Local Open Scope list_scope.

(** ** More fuel *)

Lemma text_run_more : forall rx p fuel stack tk lx ev r, text_run fuel rx p stack tk lx = (ev, r) -> r <> OutOfFuel -> forall fuel', fuel <= fuel' -> text_run fuel' rx p stack tk lx = (ev, r).
Proof.
  intros rx p. induction fuel as [|fuel IH]; intros stack tk lx ev r H Hr fuel' L; [injection H as <- <-; congruence|]. destruct fuel' as [|fuel']; [lia|]. cbn [text_run] in *.
  destruct stack as [|x stack]; auto. destruct (text_act rx p (x :: stack) tk lx) as [ev1 [[[stack1 tk1] lx1]|e| |]]; auto.
  destruct (lr_goto_step p stack1) as [stack2|e| |]; auto. destruct (text_run fuel rx p stack2 tk1 lx1) as [ev2 r2] eqn:R. injection H as <- ->.
  rewrite (IH _ _ _ _ _ R Hr fuel') by lia. reflexivity.
Qed.
Lemma text_more : forall rx p text fuel ev r, text_parse fuel rx p text = (ev, r) -> r <> OutOfFuel -> forall fuel', fuel <= fuel' -> text_parse fuel' rx p text = (ev, r).
Proof.
  intros rx p text fuel ev r H Hr fuel' L. unfold text_parse in *. destruct (pull rx (lexer_new text)) as [[tk lx]|e| |]; auto. eapply text_run_more; eauto.
Qed.
Lemma cpp_run_more : forall al d c fuel stack tk lx ev r, cpp_text_run fuel al d c stack tk lx = (ev, r) -> r <> OutOfFuel -> forall fuel', fuel <= fuel' -> cpp_text_run fuel' al d c stack tk lx = (ev, r).
Proof.
  intros al d c. induction fuel as [|fuel IH]; intros stack tk lx ev r H Hr fuel' L; [injection H as <- <-; congruence|]. destruct fuel' as [|fuel']; [lia|]. cbn [cpp_text_run] in *.
  destruct stack as [|x stack]; auto. destruct (cpp_text_act al d c (x :: stack) tk lx) as [ev1 [[[stack1 tk1] lx1]|e| |]]; auto.
  destruct (cpp_goto c stack1) as [stack2|e| |]; auto. destruct (cpp_text_run fuel al d c stack2 tk1 lx1) as [ev2 r2] eqn:R. injection H as <- ->.
  rewrite (IH _ _ _ _ _ R Hr fuel') by lia. reflexivity.
Qed.
Lemma cpp_more : forall al d c bytes fuel ev r, cpp_text_parse fuel al d c bytes = (ev, r) -> r <> OutOfFuel -> forall fuel', fuel <= fuel' -> cpp_text_parse fuel' al d c bytes = (ev, r).
Proof.
  intros al d c bytes fuel ev r H Hr fuel' L. unfold cpp_text_parse in *. destruct (cpp_pull al d (cx_names c) (cpp_new bytes)) as [[tk lx]|e| |]; auto. eapply cpp_run_more; eauto.
Qed.

Section Agree.
Variable rs : rule_set.
Variable g : grammar.
Variable lfuel : nat.
Variable al : alphabet.
Variable d : dfa token_rule.
Hypothesis sm : small rs.
Hypothesis built : from_rule_set rs = Ok g.
Hypothesis us : usable_tokens (rs_tokens rs).
Hypothesis gen : generate_lexer lfuel (rs_tokens rs) = Ok (al, d).
Hypothesis front : epsilon_in_front g.
Hypothesis ne : no_empty_rhs g.

Let wf := grammar_wf rs g built.
Let rx := mkRustLexer al d (g_tokens g).

(** The tree of a text. *)
Definition text_tree (text : list N) (tr : itree) : Prop :=
  exists ts, tokenised (rs_tokens rs) text ts /\ parse_tree g tr /\ Forall2 (token_named g) (iyield tr) (map tr_name ts).

Lemma text_tree_language : forall text, Forall valid_char text -> (exists tr, text_tree text tr) <-> text_of_language rs text.
Proof.
  intros text V. split.
  - intros (tr & ts & T & P & F). apply (text_language rs g sm built text ts (iyield tr) V T F). apply (parse_tree_derives g _ wf). eauto.
  - intros H. pose proof H as (ts & T & _). destruct (source_stream rs g lfuel al d sm built us gen text V) as (ws & b & Hs & Hb). destruct b; [|exfalso; apply Hb; eauto].
    destruct Hb as (ts' & T' & F). apply (text_language rs g sm built text ts' ws V T' F) in H. apply (parse_tree_derives g _ wf) in H. destruct H as (tr & P & <-). exists tr, ts'. auto.
Qed.

Lemma text_tree_unique : unambiguous g -> forall text tr tr', Forall valid_char text -> text_tree text tr -> text_tree text tr' -> tr = tr'.
Proof.
  intros U text tr tr' V (ts & T & P & F) (ts' & T' & P' & F'). rewrite <- (tokenised_unique _ _ _ V T _ T') in F'. apply U; auto. exact (named_fun rs g sm built _ _ F _ F').
Qed.

(** ** LR parsers in Rust *)

Section LR.
Variables (k : table_kind) (m : nat) (allow : bool) (tb : lr_table) (p : lr_parser).
Hypothesis tgen : generates k m g allow = Ok (NoConflicts tb).
Hypothesis wrt : write_parser g tb = Ok p.
Hypothesis sealed_k : sealed k g.

Lemma lr_one_tree : unambiguous g.
Proof. apply (conflict_free_unambiguous k m g allow tb p wf tgen wrt front ne). exact (sealed_nl g k sealed_k). Qed.

Lemma lr_tree : forall text ev, Forall valid_char text ->
  ((exists fuel, succeeds ev (text_parse fuel rx p text)) <-> exists tr, text_tree text tr /\ ev = post_order tr) /\
  ((exists fuel, succeeds ev (text_parse fuel rx p text)) -> comes_to (fun fuel => text_parse fuel rx p text) (succeeds ev)).
Proof.
  intros text ev V.
  assert (A : forall fuel ev', succeeds ev' (text_parse fuel rx p text) -> exists tr, text_tree text tr /\ ev' = post_order tr).
  { intros fuel ev' (lx & E). pose proof (text_exact rs g lfuel al d sm built us gen k m allow tb p tgen wrt front ne sealed_k fuel text V) as X. fold rx in X. rewrite E in X.
    destruct X as (_ & ts & tr & T & P & F & ->). exists tr. split; auto. exists ts. auto. }
  assert (B : forall tr, text_tree text tr -> comes_to (fun fuel => text_parse fuel rx p text) (succeeds (post_order tr))).
  { intros tr Ht. destruct (text_accepts rs g lfuel al d sm built us gen k m allow tb p tgen wrt front ne text V) as (ev' & n & R); [apply text_tree_language; eauto|]. fold rx in R.
    destruct (A n ev') as (tr' & Ht' & ->); [destruct (R n (le_n n)) as (lx & E); exists lx; exact E|].
    rewrite (text_tree_unique lr_one_tree text tr tr' V Ht Ht'). exists n. exact R. }
  split; [split|].
  - intros (fuel & H). exact (A _ _ H).
  - intros (tr & Ht & ->). destruct (B tr Ht) as (n & R). exists n. apply R. lia.
  - intros (fuel & H). destruct (A _ _ H) as (tr & Ht & ->). exact (B tr Ht).
Qed.

Lemma lr_fails : all_productive g -> forall text, Forall valid_char text ->
  comes_to (fun fuel => text_parse fuel rx p text) fails <-> ~ text_of_language rs text.
Proof.
  intros pr text V. split.
  - intros (n & H) L. apply (text_tree_language text V) in L. destruct L as (tr & Ht). destruct (proj2 (lr_tree text (post_order tr) V)) as (n' & R); [apply (lr_tree text (post_order tr) V); eauto|].
    specialize (H (max n n') ltac:(lia)). destruct (R (max n n') ltac:(lia)) as (lx & E). rewrite E in H. exact H.
  - intros L. destruct (text_settles rs g lfuel al d sm built us gen k m allow tb p tgen wrt front ne sealed_k pr text V) as (n & H). fold rx in H. exists n. intros fuel Hf. specialize (H fuel Hf).
    destruct (text_parse fuel rx p text) as [ev [lx|e| |]] eqn:E; unfold fails; cbn [snd] in *; auto. apply L. apply (text_tree_language text V).
    destruct (proj1 (proj1 (lr_tree text ev V))) as (tr & Ht & _); [exists fuel, lx; exact E|eauto].
Qed.
End LR.

(** Two tables. *)
Section Pair.
Variables (k : table_kind) (m : nat) (allow : bool) (tb : lr_table) (p : lr_parser).
Hypothesis tgen : generates k m g allow = Ok (NoConflicts tb).
Hypothesis wrt : write_parser g tb = Ok p.
Hypothesis sealed_k : sealed k g.
Variables (k' : table_kind) (m' : nat) (allow' : bool) (tb' : lr_table) (p' : lr_parser).
Hypothesis tgen' : generates k' m' g allow' = Ok (NoConflicts tb').
Hypothesis wrt' : write_parser g tb' = Ok p'.
Hypothesis sealed_k' : sealed k' g.

Lemma comes_once : forall A (run : nat -> A) P, comes_to run P -> exists fuel, P (run fuel).
Proof. intros A run P (n & H). exists n. auto. Qed.

Lemma pair_accept : forall text, Forall valid_char text -> forall ev,
  comes_to (fun fuel => text_parse fuel rx p text) (succeeds ev) <-> comes_to (fun fuel => text_parse fuel rx p' text) (succeeds ev).
Proof.
  intros text V ev. destruct (lr_tree k m allow tb p tgen wrt sealed_k text ev V) as [A B]. destruct (lr_tree k' m' allow' tb' p' tgen' wrt' sealed_k' text ev V) as [A' B'].
  split; intros H; apply comes_once in H; [apply B', A', A, H|apply B, A, A', H].
Qed.
Lemma pair_reject : all_productive g -> forall text, Forall valid_char text ->
  (comes_to (fun fuel => text_parse fuel rx p text) fails <-> comes_to (fun fuel => text_parse fuel rx p' text) fails).
Proof.
  intros pr text V. rewrite (lr_fails k m allow tb p tgen wrt sealed_k pr text V), (lr_fails k' m' allow' tb' p' tgen' wrt' sealed_k' pr text V). reflexivity.
Qed.
End Pair.

(** ** GLR parsers *)

Section GLR.
Variables (k : table_kind) (m : nat) (allow : bool) (r : generation_result) (tb : lr_table) (p : glr_parser).
Hypothesis tgen : generates k m g allow = Ok r.
Hypothesis tor : table_of_result r tb.
Hypothesis wrt : glr_write_parser g tb = Ok p.
Hypothesis sealed_k : sealed k g.
Hypothesis nh : ~ hidden_left_recursive g.
Hypothesis nc : ~ cyclic g.
Hypothesis U : unambiguous g.

Lemma glr_tree : forall text ev, Forall valid_char text ->
  ((exists fuel, succeeds ev (glr_text_parse fuel rx p text)) <-> exists tr, text_tree text tr /\ ev = post_order tr) /\
  ((exists fuel, succeeds ev (glr_text_parse fuel rx p text)) -> comes_to (fun fuel => glr_text_parse fuel rx p text) (succeeds ev)).
Proof.
  intros text ev V.
  assert (A : forall fuel ev', succeeds ev' (glr_text_parse fuel rx p text) -> exists tr, text_tree text tr /\ ev' = post_order tr).
  { intros fuel ev' (lx & E). pose proof (glr_text_exact rs g lfuel al d sm built us gen k m allow r tb p tgen tor wrt front ne sealed_k fuel text V) as X. fold rx in X. rewrite E in X.
    destruct X as (ts & tr & T & P & F & -> & _). exists tr. split; auto. exists ts. auto. }
  assert (B : forall tr, text_tree text tr -> comes_to (fun fuel => glr_text_parse fuel rx p text) (succeeds (post_order tr))).
  { intros tr Ht. destruct (glr_text_settles rs g lfuel al d sm built us gen k m allow r tb p tgen tor wrt nh nc text V) as (n & R). fold rx in R. exists n. intros fuel Hf. specialize (R fuel Hf).
    pose proof (glr_text_exact rs g lfuel al d sm built us gen k m allow r tb p tgen tor wrt front ne sealed_k fuel text V) as X. fold rx in X.
    destruct (glr_text_parse fuel rx p text) as [ev' [lx|e| |]] eqn:E; cbn [snd] in R.
    - destruct (A fuel ev') as (tr' & Ht' & ->); [exists lx; exact E|]. rewrite (text_tree_unique U text tr tr' V Ht Ht'). exists lx. reflexivity.
    - exfalso. apply X. apply (text_tree_language text V). eauto.
    - exfalso. destruct Ht as (ts & T & _). destruct X as [X|(ts' & w & _ & _ & (t1 & t2 & P1 & P2 & Y1 & Y2 & D))]; [apply X; eauto|]. apply D, U; congruence.
    - congruence. }
  split; [split|].
  - intros (fuel & H). exact (A _ _ H).
  - intros (tr & Ht & ->). destruct (B tr Ht) as (n & R). exists n. apply R. lia.
  - intros (fuel & H). destruct (A _ _ H) as (tr & Ht & ->). exact (B tr Ht).
Qed.
End GLR.

Section GLRPair.
Variables (k : table_kind) (m : nat) (allow : bool) (tb : lr_table) (p : lr_parser).
Hypothesis tgen : generates k m g allow = Ok (NoConflicts tb).
Hypothesis wrt : write_parser g tb = Ok p.
Hypothesis sealed_k : sealed k g.
Variables (k' : table_kind) (m' : nat) (allow' : bool) (r : generation_result) (tb' : lr_table) (gp : glr_parser).
Hypothesis tgen' : generates k' m' g allow' = Ok r.
Hypothesis tor : table_of_result r tb'.
Hypothesis wrt' : glr_write_parser g tb' = Ok gp.
Hypothesis sealed_k' : sealed k' g.
Hypothesis pr : all_productive g.

Lemma glr_pair_accept : forall text, Forall valid_char text -> forall ev,
  comes_to (fun fuel => text_parse fuel rx p text) (succeeds ev) <-> comes_to (fun fuel => glr_text_parse fuel rx gp text) (succeeds ev).
Proof.
  intros text V ev. destruct (conflict_free_shape k m g allow tb p wf tgen wrt front ne (sealed_nl g k sealed_k) pr) as [nh nc].
  destruct (lr_tree k m allow tb p tgen wrt sealed_k text ev V) as [A B].
  destruct (glr_tree k' m' allow' r tb' gp tgen' tor wrt' sealed_k' nh nc (lr_one_tree k m allow tb p tgen wrt sealed_k) text ev V) as [A' B'].
  split; intros H; apply comes_once in H; [apply B', A', A, H|apply B, A, A', H].
Qed.
Lemma glr_pair_reject : forall text, Forall valid_char text ->
  (comes_to (fun fuel => text_parse fuel rx p text) fails <-> comes_to (fun fuel => glr_text_parse fuel rx gp text) fails).
Proof.
  intros text V. destruct (conflict_free_shape k m g allow tb p wf tgen wrt front ne (sealed_nl g k sealed_k) pr) as [nh nc].
  pose proof (fun ev => glr_tree k' m' allow' r tb' gp tgen' tor wrt' sealed_k' nh nc (lr_one_tree k m allow tb p tgen wrt sealed_k) text ev V) as G.
  rewrite (lr_fails k m allow tb p tgen wrt sealed_k pr text V). split.
  - intros L. destruct (glr_text_settles rs g lfuel al d sm built us gen k' m' allow' r tb' gp tgen' tor wrt' nh nc text V) as (n & R). fold rx in R. exists n. intros fuel Hf. specialize (R fuel Hf).
    destruct (glr_text_parse fuel rx gp text) as [ev [lx|e| |]] eqn:E; unfold fails; cbn [snd] in *; auto. apply L. apply (text_tree_language text V).
    destruct (proj1 (proj1 (G ev))) as (tr & Ht & _); [exists fuel, lx; exact E|eauto].
  - intros (n & H) L. apply (text_tree_language text V) in L. destruct L as (tr & Ht). destruct (proj2 (G (post_order tr))) as (n' & R); [apply G; eauto|].
    specialize (H (max n n') ltac:(lia)). destruct (R (max n n') ltac:(lia)) as (lx & E). rewrite E in H. exact H.
Qed.
End GLRPair.

(** ** C++ parsers *)

Let names := token_names rs.

Lemma token_in_range : forall t name, token_named g t name -> (t < N.of_nat (length names))%N.
Proof.
  intros t name H. apply (terminal_iff rs g sm built). unfold terminals. apply in_map_iff. exists (Terminal t, name). auto.
Qed.

Lemma told_inj : forall ev ps calls, told names ev ps calls -> (forall t, In (EShift (Some t)) ev -> (t < N.of_nat (length names))%N) -> (forall t, In (EShift t) ev -> t <> None) ->
  forall ev' ps', told names ev' ps' calls -> ev = ev'.
Proof.
  intros ev ps calls H. induction H as [|t s e ev ps calls H IH|k ev ps calls H IH]; intros R NE ev' ps' H'.
  - inversion H'. reflexivity.
  - inversion H' as [|t' s' e' ev1 ps1 calls1 H1 E1 E2 E3|]; subst. f_equal; [|eapply IH; eauto; intros; [apply R|apply NE]; right; auto]. f_equal.
    destruct t as [t|]; [|exfalso; exact (NE None (or_introl eq_refl) eq_refl)]. specialize (R t (or_introl eq_refl)). unfold cpp_token in *.
    destruct (N.ltb_spec t (N.of_nat (length names))); [|lia]. destruct t' as [t'|]; [|lia]. destruct (N.ltb_spec t' (N.of_nat (length names))); [|lia]. f_equal. lia.
  - inversion H' as [| |k' ev1 ps1 calls1 H1]; subst. f_equal. eapply IH; eauto; intros; [apply R|apply NE]; right; auto.
Qed.

Lemma Forall2_in_left : forall A B (R : A -> B -> Prop) l l', Forall2 R l l' -> forall x, In x l -> exists y, R x y.
Proof. intros A B R l l' H. induction H as [|x y l l' Hxy H IH]; intros z [].
  - subst z. eauto.
  - auto.
Qed.

Lemma shapes_first : forall ev ws ps calls, (exists rest, ws = shifted ev ++ rest) -> (forall t, In (EShift t) ev -> t <> None) -> length ws = length ps ->
  shapes (map (cpp_event_of names) ev) (tok_list names ws ps) calls -> told_first names ev ps calls.
Proof.
  induction ev as [|[t|k] ev IH]; intros ws ps calls (rest & E) NE L H.
  - inversion H. exists [], ps. split; [reflexivity|constructor].
  - destruct t as [t|]; [|exfalso; exact (NE None (or_introl eq_refl) eq_refl)]. cbn in E. subst ws. destruct ps as [|[s e] ps]; [discriminate|]. cbn [map cpp_event_of tok_list] in H. inversion H; subst.
    destruct (IH (shifted ev ++ rest) ps calls0) as (ps1 & ps2 & -> & T); eauto; [intros t0 Ht; apply NE; right; exact Ht|]. exists ((s, e) :: ps1), ps2. split; [reflexivity|]. constructor. exact T.
  - cbn in E. cbn [map cpp_event_of] in H. inversion H; subst. destruct (IH (shifted ev ++ rest) ps calls0) as (ps1 & ps2 & -> & T); eauto; [intros t0 Ht; apply NE; right; exact Ht|].
    exists ps1, ps2. split; [reflexivity|]. constructor. exact T.
Qed.

Section Both.
Variables (k : table_kind) (m : nat) (allow : bool) (tb : lr_table) (p : lr_parser) (c : cpp_lr).
Hypothesis tgen : generates k m g allow = Ok (NoConflicts tb).
Hypothesis wrt : write_parser g tb = Ok p.
Hypothesis wrc : cpp_write (token_names rs) g tb = Ok c.
Hypothesis comp : cpp_compiles c.
Hypothesis es : entry_starts g.

Lemma run_shifts : forall fuel ws ev r, lr_parse fuel p ws = (ev, r) -> (exists rest, ws = shifted ev ++ rest) /\ forall t, In (EShift t) ev -> t <> None.
Proof.
  destruct (setup_ex k m g allow tb p wf tgen wrt) as (fs & pg & su & wr & E0). pose proof (su_au _ _ _ _ _ su) as au. pose proof (su_tb _ _ _ _ _ su) as tf. pose proof (kind_n_le k) as n_le.
  assert (R : forall fuel fr ws ev r, valid g pg fr -> lr_run fuel p (concrete fr) ws = (ev, r) -> (exists rest, ws = shifted ev ++ rest) /\ forall t, In (EShift t) ev -> t <> None).
  { induction fuel as [|fuel IH]; intros fr ws ev r Hv H.
    - injection H as <- <-. split; [exists ws; reflexivity|intros t []].
    - destruct (driver_cases g wf _ n_le fs _ pg au tb tf p wr fr ws Hv) as [(ev1 & o & w1 & Hm)|[He _]].
      + pose proof (driver_step g wf _ n_le fs _ pg au tb tf p wr fr ws ev1 o w1 Hv Hm fuel) as Hd. rewrite Hd in H. destruct o as [fr1|tr].
        * destruct (lr_run fuel p (concrete fr1) w1) as [ev2 r2] eqn:E2. injection H as <- <-. destruct (mstep_valid _ _ _ _ _ _ _ _ _ Hv Hm) as (V1 & _).
          destruct (IH fr1 w1 ev2 r2 V1 E2) as [(rest & I1) I2]. rewrite shifted_app.
          destruct (mstep_peek _ _ _ _ _ _ _ _ _ Hm) as [(? & kk & _ & -> & -> & _)|[(tr & kk & X & _)|(t & fr1' & _ & -> & -> & _)]]; [|discriminate|].
          -- split; [exists rest; exact I1|]. intros t [X|X]; [discriminate|exact (I2 t X)].
          -- split; [exists rest; cbn; f_equal; exact I1|]. intros t' [X|X]; [injection X as <-; discriminate|exact (I2 t' X)].
        * rewrite lr_run_nil in H. injection H as <- <-. rewrite app_nil_r.
          destruct (mstep_peek _ _ _ _ _ _ _ _ _ Hm) as [(? & kk & X & _)|[(tr' & kk & _ & -> & -> & _)|(t & fr1' & X & _)]]; try discriminate.
          split; [exists ws; reflexivity|]. intros t [X|[]]; discriminate.
      + rewrite He in H. injection H as <- <-. split; [exists ws; reflexivity|intros t []]. }
  intros fuel ws ev r H. rewrite (parse_concrete p fuel ws E0) in H. exact (R _ _ _ _ _ (va_nil _ _) H).
Qed.

(** Step by step: the same calls, the same outcome, the same message. *)
Lemma lockstep : forall fuel bytes text junk ls, Forall is_byte bytes -> holds bytes text junk -> readable text junk -> lexemes (rs_tokens rs) text ls ->
  match text_parse fuel rx p text, cpp_text_parse fuel al d c bytes with
  | (ev, Ok _), (calls, Ok _) => told_first names ev (places 0 (map fst ls)) calls
  | (ev, Err (UnexpectedTok got expected)), (calls, Err (Throw text)) => text = message names got expected /\ told_first names ev (places 0 (map fst ls)) calls
  | (ev, OutOfFuel), (calls, OutOfFuel) => told_first names ev (places 0 (map fst ls)) calls
  | _, _ => False
  end.
Proof.
  intros fuel bytes text junk ls B Hh Hr L. assert (V : Forall valid_char text) by (destruct Hh as (enc & _ & T & _); exact (utf8_text_chars _ _ T)).
  destruct (source_stream rs g lfuel al d sm built us gen text V) as (ws & b & Hst & Hb). fold rx in Hst. destruct b; [|exfalso; apply Hb; exists (map snd ls); apply lexemes_tokenised; exact L].
  destruct Hb as (ts & T & F). pose proof (text_parse_sim rx p fuel text ws true Hst) as Hz.
  destruct (bytes_tokens rs g lfuel al d sm built us gen tb c wrc comp bytes text junk B Hh) as [(_ & ls' & ws' & L' & F' & M)|(Hn & _)]; [|exfalso; apply Hn; split; [exact Hr|eauto]].
  rewrite (lexemes_unique _ _ _ V L' _ L) in *. clear ls' L'. rewrite <- (map_map snd tr_name) in F'. rewrite (tokenised_unique _ _ _ V T _ (lexemes_tokenised _ _ _ L)) in F.
  pose proof (named_fun rs g sm built _ _ F' _ F) as ->. specialize (M fuel). fold names in M.
  assert (LL : length ws = length (places 0 (map fst ls))) by (rewrite places_length, map_length; pose proof (NfaProof.Forall2_len _ _ _ _ _ F) as X; rewrite !map_length in X; exact X).
  destruct (proj1 (run_cases rs g sm built k m allow tb tgen c wrc p wrt comp fuel ws) es) as [R1 R2]. fold names in R1, R2.
  pose proof (run_shifts fuel ws) as Sh. pose proof (never_panics k m g allow tb p wf tgen wrt fuel ws) as NP.
  destruct (cpp_text_parse fuel al d c bytes) as [calls r]. destruct (cpp_parse fuel c (map (fun t => cpp_token names (Some t)) ws)) as [ev' r']. destruct (lr_parse fuel p ws) as [ev r0].
  destruct (Sh _ _ eq_refl) as [S1 S2]. destruct M as [M1 M2]. cbn [fst snd] in *. subst ev' r'.
  assert (TF : told_first names ev (places 0 (map fst ls)) calls) by (apply (shapes_first ev ws); auto).
  destruct (text_parse fuel rx p text) as [ev2 r2]. destruct r2 as [lx|e| |]; cbn [lazily] in Hz.
  - destruct Hz as (tk & rest & E & _). injection E as -> ->. cbn [cpp_result_of] in M2. destruct r; try contradiction. exact TF.
  - injection Hz as -> ->. destruct e as [got ex]. cbn [cpp_result_of] in M2. destruct r as [|e| |]; try contradiction. subst e. auto.
  - destruct Hz as [Hz|Hz]; [discriminate|]. injection Hz as -> ->. congruence.
  - injection Hz as -> ->. cbn [cpp_result_of] in M2. destruct r; try contradiction. exact TF.
Qed.

Hypothesis sealed_k : sealed k g.

Lemma told_fun : forall ev ps calls, told names ev ps calls -> forall calls', told names ev ps calls' -> calls = calls'.
Proof.
  intros ev ps calls H. induction H as [|t s e ev ps calls H IH|kk ev ps calls H IH]; intros calls' H'; inversion H'; subst; auto; f_equal; auto.
Qed.

Lemma in_shifted : forall t ev, In (EShift (Some t)) ev -> In t (shifted ev).
Proof. intros t ev H. unfold shifted. apply in_flat_map. exists (EShift (Some t)). split; [exact H|left; reflexivity]. Qed.

Lemma both_accept : forall bytes text junk, Forall is_byte bytes -> holds bytes text junk -> readable text junk -> forall ev,
  comes_to (fun fuel => text_parse fuel rx p text) (succeeds ev) <->
  exists ls calls, lexemes (rs_tokens rs) text ls /\ told names ev (places 0 (map fst ls)) calls /\ comes_to (fun fuel => cpp_text_parse fuel al d c bytes) (returns calls).
Proof.
  intros bytes text junk B Hh Hr ev. assert (V : Forall valid_char text) by (destruct Hh as (enc & _ & T & _); exact (utf8_text_chars _ _ T)).
  assert (X : forall fuel, match cpp_text_parse fuel al d c bytes with (calls, Ok _) => exists ls tr, lexemes (rs_tokens rs) text ls /\ text_tree text tr /\ told names (post_order tr) (places 0 (map fst ls)) calls /\
      (forall t, In t (iyield tr) -> (t < N.of_nat (length names))%N) | _ => True end).
  { intros fuel. pose proof (exact_bytes rs g lfuel al d sm built us gen k m allow tb c tgen wrc comp front ne sealed_k es fuel bytes text junk B Hh) as Y. fold names in Y. destruct (cpp_text_parse fuel al d c bytes) as [calls [lx|e| |]]; auto.
    destruct Y as (_ & ls & tr & L & P & F & T). exists ls, tr. split; [exact L|]. rewrite <- (map_map snd tr_name) in F. split; [exists (map snd ls); split; [apply lexemes_tokenised; exact L|auto]|]. split; [exact T|].
    intros t Ht. destruct (Forall2_in_left _ _ _ _ _ F t Ht) as (name & Hn). exact (token_in_range t name Hn). }
  split.
  - intros (n & H). destruct (H n (le_n n)) as (lx & E). destruct (proj1 (proj1 (lr_tree k m allow tb p tgen wrt sealed_k text ev V))) as (tr & Ht & ->); [exists n, lx; exact E|].
    destruct (accepted_bytes rs g lfuel al d sm built us gen k m allow tb c tgen wrc comp front ne es bytes text junk B Hh Hr) as (n' & H'); [apply text_tree_language; eauto|].
    destruct (H' n' (le_n n')) as (calls & lx' & E'). pose proof (X n') as X'. rewrite E' in X'. destruct X' as (ls & tr' & L & Ht' & T & _).
    pose proof (text_tree_unique (lr_one_tree k m allow tb p tgen wrt sealed_k) text tr tr' V Ht Ht') as <-. exists ls, calls. split; [exact L|]. split; [exact T|]. exists n'. intros fuel Hf.
    destruct (H' fuel Hf) as (calls2 & lx2 & E2). pose proof (X fuel) as X'. rewrite E2 in X'. destruct X' as (ls2 & tr2 & L2 & Ht2 & T2 & _).
    pose proof (text_tree_unique (lr_one_tree k m allow tb p tgen wrt sealed_k) text tr tr2 V Ht Ht2) as <-. rewrite (lexemes_unique _ _ _ V L2 _ L) in T2. rewrite (told_fun _ _ _ T _ T2). exists lx2. exact E2.
  - intros (ls & calls & L & T & (n & H)). destruct (H n (le_n n)) as (lx & E). pose proof (X n) as X'. rewrite E in X'. destruct X' as (ls2 & tr & L2 & Ht & T2 & R).
    assert (post_order tr = ev) as <-. { eapply told_inj; [exact T2| | |exact T]; [|apply post_order_tokens]. intros t It. apply R. rewrite <- shifted_tree. apply in_shifted. exact It. }
    apply (lr_tree k m allow tb p tgen wrt sealed_k text (post_order tr) V). apply (lr_tree k m allow tb p tgen wrt sealed_k text (post_order tr) V). eauto.
Qed.

Lemma both_reject : all_productive g -> forall bytes text junk, Forall is_byte bytes -> holds bytes text junk -> readable text junk ->
  (comes_to (fun fuel => text_parse fuel rx p text) fails <-> comes_to (fun fuel => cpp_text_parse fuel al d c bytes) throws).
Proof.
  intros pr bytes text junk B Hh Hr. assert (V : Forall valid_char text) by (destruct Hh as (enc & _ & T & _); exact (utf8_text_chars _ _ T)).
  rewrite (lr_fails k m allow tb p tgen wrt sealed_k pr text V). split.
  - intros L. destruct (settled_bytes rs g lfuel al d sm built us gen k m allow tb c tgen wrc comp front ne sealed_k pr bytes B) as (n & H). exists n. intros fuel Hf. specialize (H fuel Hf).
    pose proof (exact_bytes rs g lfuel al d sm built us gen k m allow tb c tgen wrc comp front ne sealed_k es fuel bytes text junk B Hh) as Y.
    destruct (cpp_text_parse fuel al d c bytes) as [calls [lx|[text'| | |]| |]] eqn:E; cbn [snd] in H; try contradiction; try congruence.
    + exfalso. apply L. exact (proj2 (language_bytes rs g lfuel al d sm built us gen k m allow tb c tgen wrc comp front ne sealed_k es fuel bytes text junk calls lx B Hh E)).
    + exists calls, text'. reflexivity.
  - intros (n & H) L. destruct (accepted_bytes rs g lfuel al d sm built us gen k m allow tb c tgen wrc comp front ne es bytes text junk B Hh Hr L) as (n' & H').
    destruct (H (max n n') ltac:(lia)) as (calls & text' & E). destruct (H' (max n n') ltac:(lia)) as (calls' & lx & E'). congruence.
Qed.

End Both.

End Agree.
