(** Layout of grammar files: positions and blanks. *)
From Coq Require Import String Ascii List Arith NArith Bool Lia.
From Verif Require Import Base InputModel GrammarModel LexerModel LexerSpec BootModel PositionModel PositionSpec PositionProof InputGenModel InputGenSpec InputGenLapex InputGenProof InputGenFactsProof
  InputTextSpec InputTextLexProof InputTextDivideProof InputTextFileProof.
Import ListNotations.
Local Open Scope string_scope.
Local Open Scope N_scope.
Local Open Scope list_scope.

(** ** Tokens which differ only in their positions *)

Definition alike (t t' : tok) : Prop := fst t = fst t' /\ td_text (snd t) = td_text (snd t').

Lemma alike_cons : forall k d ts us, Forall2 alike ((k, d) :: ts) us -> exists d' us', us = (k, d') :: us' /\ td_text d = td_text d' /\ Forall2 alike ts us'.
Proof. intros k d ts us H. inversion H as [|? [k' d'] ? us' [A B] H']; subst. cbn in A, B. subst k'. eauto. Qed.
Lemma alike_nil : forall us, Forall2 alike [] us -> us = [].
Proof. intros us H. inversion H. reflexivity. Qed.

Section Alike.
Variable sequence choice : list prod_pattern -> prod_pattern.
Lemma alike_syntax :
  (forall p ts, item sequence choice p ts -> forall us, Forall2 alike ts us -> item sequence choice p us) /\
  (forall p ts, unary sequence choice p ts -> forall us, Forall2 alike ts us -> unary sequence choice p us) /\
  (forall ps ts, units sequence choice ps ts -> forall us, Forall2 alike ts us -> units sequence choice ps us) /\
  (forall ps ts, choices sequence choice ps ts -> forall us, Forall2 alike ts us -> choices sequence choice ps us) /\
  (forall p ts, alternatives sequence choice p ts -> forall us, Forall2 alike ts us -> alternatives sequence choice p us).
Proof.
  apply syntax_mut.
  - intros d us H. apply alike_cons in H. destruct H as (d' & us' & -> & E & H). rewrite (alike_nil _ H), E. constructor.
  - intros p ts a b _ IH us H. cbn [app] in H. apply alike_cons in H. destruct H as (a' & us1 & -> & _ & H). apply Forall2_app_inv_l in H. destruct H as (us2 & us3 & H2 & H3 & ->).
    apply alike_cons in H3. destruct H3 as (b' & us4 & -> & _ & H4). rewrite (alike_nil _ H4). apply (it_group _ _ p us2 a' b'). auto.
  - intros p ts _ IH us H. apply un_once. auto.
  - intros p ts d _ IH us H. apply Forall2_app_inv_l in H. destruct H as (us2 & us3 & H2 & H3 & ->). apply alike_cons in H3. destruct H3 as (b' & us4 & -> & _ & H4). rewrite (alike_nil _ H4). apply un_option. auto.
  - intros p ts d _ IH us H. apply Forall2_app_inv_l in H. destruct H as (us2 & us3 & H2 & H3 & ->). apply alike_cons in H3. destruct H3 as (b' & us4 & -> & _ & H4). rewrite (alike_nil _ H4). apply un_star. auto.
  - intros p ts d _ IH us H. apply Forall2_app_inv_l in H. destruct H as (us2 & us3 & H2 & H3 & ->). apply alike_cons in H3. destruct H3 as (b' & us4 & -> & _ & H4). rewrite (alike_nil _ H4). apply un_plus. auto.
  - intros p ts _ IH us H. apply us_one. auto.
  - intros p ts ps ts' _ IH _ IH' us H. apply Forall2_app_inv_l in H. destruct H as (us2 & us3 & H2 & H3 & ->). apply us_more; auto.
  - intros ps ts _ IH us H. apply ch_one. auto.
  - intros ps ts d qs ts' _ IH _ IH' us H. apply Forall2_app_inv_l in H. destruct H as (us2 & us3 & H2 & H3 & ->). cbn [app] in H3. apply alike_cons in H3. destruct H3 as (b' & us4 & -> & _ & H4).
    apply (ch_more _ _ ps us2 b' qs us4); auto.
  - intros d us H. apply alike_cons in H. destruct H as (d' & us' & -> & _ & H). rewrite (alike_nil _ H). constructor.
  - intros qs ts _ IH us H. apply al_choice. auto.
Qed.

Variable regex : list N -> option hir.
Lemma alike_rule : forall r ts, rule_tokens sequence choice regex r ts -> forall us, Forall2 alike ts us -> exists span, rule_tokens sequence choice regex (span, snd r) us.
Proof.
  intros r ts H us F. destruct H as [a d b|a d e b tag ts p ts' HT HA|a d e b prec ts p t HP HT]; cbn [app] in F.
  - apply alike_cons in F. destruct F as (a' & u1 & -> & _ & F). apply alike_cons in F. destruct F as (d' & u2 & -> & E & F). apply alike_cons in F. destruct F as (b' & u3 & -> & _ & F). rewrite (alike_nil _ F).
    cbn [snd]. rewrite E. eexists. apply (rt_entry _ _ regex a' d' b').
  - apply alike_cons in F. destruct F as (a' & u1 & -> & _ & F). apply alike_cons in F. destruct F as (d' & u2 & -> & E & F). apply Forall2_app_inv_l in F. destruct F as (u3 & u4 & F3 & F4 & ->).
    apply alike_cons in F4. destruct F4 as (e' & u5 & -> & _ & F). apply Forall2_app_inv_l in F. destruct F as (u6 & u7 & F6 & F7 & ->). apply alike_cons in F7. destruct F7 as (b' & u8 & -> & _ & F). rewrite (alike_nil _ F).
    cbn [snd]. rewrite E. eexists. apply (rt_prod _ _ regex a' d' e' b' tag u3 p u6); [|apply alike_syntax with (ts := ts'); auto].
    destruct HT as [|x y z]; [rewrite (alike_nil _ F3); constructor|]. apply alike_cons in F3. destruct F3 as (x' & v1 & -> & _ & F3). apply alike_cons in F3. destruct F3 as (y' & v2 & -> & E' & F3).
    apply alike_cons in F3. destruct F3 as (z' & v3 & -> & _ & F3). rewrite (alike_nil _ F3), E'. constructor.
  - apply alike_cons in F. destruct F as (a' & u1 & -> & _ & F). apply alike_cons in F. destruct F as (d' & u2 & -> & E & F). apply Forall2_app_inv_l in F. destruct F as (u3 & u4 & F3 & F4 & ->).
    apply alike_cons in F4. destruct F4 as (e' & u5 & -> & _ & F). destruct t as [k x]. apply alike_cons in F. destruct F as (x' & u6 & -> & Ex & F). apply alike_cons in F. destruct F as (b' & u8 & -> & _ & F). rewrite (alike_nil _ F).
    cbn [snd]. rewrite E. eexists. apply (rt_token _ _ regex a' d' e' b' prec u3 p (k, x')).
    + destruct HP as [|q y z n Hd Hn]; [rewrite (alike_nil _ F3); constructor|]. apply alike_cons in F3. destruct F3 as (q' & v1 & -> & _ & F3). apply alike_cons in F3. destruct F3 as (y' & v2 & -> & E' & F3).
      apply alike_cons in F3. destruct F3 as (z' & v3 & -> & _ & F3). rewrite (alike_nil _ F3). constructor; auto. congruence.
    + inversion HT as [cs ? X|cs h q ? X Y Z]; subst; [apply tt_literal; congruence|eapply tt_regex; eauto; congruence].
Qed.

Lemma alike_file : forall rules ts, file_tokens sequence choice regex rules ts -> forall us, Forall2 alike ts us -> exists rules', file_tokens sequence choice regex rules' us /\ map snd rules' = map snd rules.
Proof.
  induction 1 as [r ts H|r ts rs ts' H _ IH]; intros us F.
  - destruct (alike_rule _ _ H _ F) as (sp & H'). exists [(sp, snd r)]. split; [constructor; auto|reflexivity].
  - apply Forall2_app_inv_l in F. destruct F as (u1 & u2 & F1 & F2 & ->). destruct (alike_rule _ _ H _ F1) as (sp & H'). destruct (IH _ F2) as (rs' & H2 & E). exists ((sp, snd r) :: rs'). split; [apply ft_more; auto|cbn; congruence].
Qed.
End Alike.

(** The rules found, without their spans, do not depend on the spans. *)
Lemma consists_unspanned : forall out out' rules rules', consists_of out rules -> consists_of out' rules' -> map snd rules = map snd rules' -> unspanned out = unspanned out'.
Proof.
  intros out out' rules rules' [A B C] [A' B' C'] E.
  assert (forall (f : file_rule -> bool), map snd (filter (fun r : spanned file_rule => f (snd r)) rules) = map snd (filter (fun r : spanned file_rule => f (snd r)) rules')) as F.
  { intros f. clear -E. revert rules' E. induction rules as [|[s r] rules IH]; intros [|[s' r'] rules'] E; try discriminate; auto. injection E as E1 E2. subst r'. cbn [filter snd]. specialize (IH _ E2). destruct (f r); auto. cbn [map snd]. f_equal. auto. }
  assert (forall X (l l' : list (spanned X)) (k : X -> file_rule), (forall x y, k x = k y -> x = y) -> map snd (map (fun t : spanned X => (fst t, k (snd t))) l) = map snd (map (fun t : spanned X => (fst t, k (snd t))) l') -> map snd l = map snd l') as G.
  { intros X l l' k K. revert l'. induction l as [|[s x] l IH]; intros [|[s' x'] l'] M; try discriminate; auto. injection M as M1 M2. cbn [map snd]. f_equal; auto. }
  unfold unspanned. f_equal.
  - pose proof (F (fun r => match r with FEntry _ => true | _ => false end)) as X. apply (f_equal (map snd)) in C. apply (f_equal (map snd)) in C'. unfold spanned in *. cbn [map snd] in C, C'. rewrite X in C. rewrite <- C in C'. injection C' as C'. congruence.
  - apply (G _ _ _ FToken); [congruence|]. unfold spanned in *. rewrite A, A'. apply (F (fun r => match r with FToken _ => true | _ => false end)).
  - apply (G _ _ _ FProd); [congruence|]. unfold spanned in *. rewrite B, B'. apply (F (fun r => match r with FProd _ => true | _ => false end)).
Qed.

Lemma consists_exists : forall out rules rules', consists_of out rules -> map snd rules = map snd rules' -> exists out', consists_of out' rules'.
Proof.
  intros out rules rules' [_ _ C] E.
  assert (length (filter (fun r : spanned file_rule => match snd r with FEntry _ => true | _ => false end) rules') = 1%nat) as L.
  { apply (f_equal (@length _)) in C. cbn [length] in C. unfold spanned in *. rewrite C. clear C. revert rules' E. induction rules as [|[s r] rules IH]; intros [|[s' r'] rules'] E; try discriminate; auto. injection E as E1 E2. subst r'. cbn [filter snd]. specialize (IH _ E2). destruct r; cbn [length]; auto. }
  destruct (filter (fun r : spanned file_rule => match snd r with FEntry _ => true | _ => false end) rules') as [|[s e] [|]] eqn:Q; try discriminate.
  assert (exists n, e = FEntry n) as (n & ->).
  { assert (In (s, e) (filter (fun r : spanned file_rule => match snd r with FEntry _ => true | _ => false end) rules')) as I by (rewrite Q; left; auto). apply filter_In in I. destruct I as [_ I]. cbn in I. destruct e; try discriminate. eauto. }
  exists (mkSpannedRules (s, n) (flat_map (fun r : spanned file_rule => match snd r with FToken t => [(fst r, t)] | _ => [] end) rules') (flat_map (fun r : spanned file_rule => match snd r with FProd t => [(fst r, t)] | _ => [] end) rules')).
  constructor; cbn [sr_tokens sr_prods sr_entry fst snd].
  - clear. induction rules' as [|[s' r] l IH]; [reflexivity|]. cbn [flat_map filter snd fst]. destruct r; cbn [app map fst snd]; auto. f_equal. auto.
  - clear. induction rules' as [|[s' r] l IH]; [reflexivity|]. cbn [flat_map filter snd fst]. destruct r; cbn [app map fst snd]; auto. f_equal. auto.
  - symmetry. exact Q.
Qed.

(** ** Positions *)

Lemma seen_token : forall name text l, name <> "NEWLINE" -> name <> "WHITESPACE" -> seen ((name, text) :: l) = (name, text) :: seen l.
Proof. intros name text l A B. unfold seen. cbn [filter fst]. apply String.eqb_neq in A, B. rewrite A, B. reflexivity. Qed.

Lemma placed_seen : forall line col l ts, placed line col l ts -> Forall2 (fun e t => In (fst e, fst t) kinds /\ snd e = td_text (snd t)) (seen l) ts.
Proof.
  intros line col l ts H. induction H as [line col|line col text l ts A H IH|line col text l ts A H IH|line col name t text l ts K A H IH]; [constructor|exact IH|exact IH|].
  destruct (kinds_visible _ _ K) as [N1 N2]. rewrite seen_token by auto. constructor; auto.
Qed.

Lemma placed_alike : forall line col l ts line' col' l' ts', placed line col l ts -> placed line' col' l' ts' -> seen l = seen l' -> Forall2 alike ts ts'.
Proof.
  intros line col l ts line' col' l' ts' H H' E. apply placed_seen in H, H'. rewrite E in H. clear -H H'. revert ts' H'. induction H as [|e t l ts [A B] H IH]; intros ts' H'; inversion H' as [|? t' ? ts2 [A' B'] H2]; subst; constructor; auto.
  split; [|congruence]. eapply kinds_fun; eauto.
Qed.

Lemma placed_lower : forall line col l ts, placed line col l ts -> forall line' col', line' <= line -> col' <= col -> exists ts', placed line' col' l ts'.
Proof.
  intros line col l ts H. induction H as [line col|line col text l ts A H IH|line col text l ts A H IH|line col name t text l ts K A H IH]; intros line' col' L C.
  - exists []. constructor.
  - destruct (IH (line' + 1) 1 ltac:(lia) ltac:(lia)) as (ts' & P). exists ts'. apply pl_newline; auto. lia.
  - destruct (IH line' (col' + width text) ltac:(lia) ltac:(lia)) as (ts' & P). exists ts'. apply pl_blank; auto. lia.
  - destruct (IH line' (col' + width text) ltac:(lia) ltac:(lia)) as (ts' & P). eexists. apply pl_token; eauto. lia.
Qed.

Definition plain_lexeme (e : string * list N) : Prop := (forall c, In c (snd e) -> c < 128) /\ if String.eqb (fst e) "NEWLINE" then snd e = [newline] else ~ In newline (snd e).

Lemma width_length : forall p text rest, (forall c, In c text -> c < 128) -> ~ In newline text -> positions_fit (p ++ text ++ rest) -> width text = N.of_nat (length text).
Proof.
  intros p text rest A B F. rewrite app_assoc in F. destruct (fit_prefix _ _ F) as [_ F']. rewrite pos_of_line in F' by auto. cbn [sp_col] in F'. unfold width. rewrite ascii_len by auto. apply N.mod_small. lia.
Qed.

Lemma placed_split : forall line col l ts, placed line col l ts -> forall t1 t t2 p tail, ts = t1 ++ t :: t2 -> mkPos line col = pos_of p -> Forall plain_lexeme l -> positions_fit (p ++ concat (map snd l) ++ tail) ->
  exists l1 name l2, l = l1 ++ (name, td_text (snd t)) :: l2 /\
    placed line col l1 t1 /\ In (name, fst t) kinds /\
    td_span (snd t) = mkSpan (pos_of (p ++ concat (map snd l1))) (pos_of (p ++ concat (map snd l1) ++ td_text (snd t))) /\
    placed (sp_line (pos_of (p ++ concat (map snd l1) ++ td_text (snd t)))) (sp_col (pos_of (p ++ concat (map snd l1) ++ td_text (snd t)))) l2 t2.
Proof.
  intros line col l ts H. induction H as [line col|line col text l ts A H IH|line col text l ts A H IH|line col name t0 text l ts K A H IH]; intros t1 t t2 p tail E P F PF.
  - destruct t1; discriminate.
  - inversion F as [|? ? [_ Ft] F']; subst. cbn in Ft. subst text.
    destruct (IH t1 t t2 (p ++ [newline]) tail eq_refl) as (l1 & name & l2 & -> & H1 & H2 & H3 & H4); auto.
    { rewrite pos_of_newline, <- P. reflexivity. }
    { rewrite <- app_assoc. exact PF. }
    exists (("NEWLINE", [newline]) :: l1), name, l2. cbn [map snd concat]. split; [reflexivity|]. split; [apply pl_newline; auto|]. split; auto. repeat rewrite <- app_assoc in H3. repeat rewrite <- app_assoc in H4. repeat rewrite <- app_assoc. auto.
  - inversion F as [|? ? [Fa Ft] F']; subst. cbn in Fa, Ft. cbn [map snd concat] in PF. rewrite <- app_assoc in PF.
    assert (width text = N.of_nat (length text)) as W by (eapply width_length; eauto).
    destruct (IH t1 t t2 (p ++ text) tail eq_refl) as (l1 & name & l2 & -> & H1 & H2 & H3 & H4); auto.
    { rewrite pos_of_line, <- P by auto. cbn [sp_line sp_col]. rewrite W. reflexivity. }
    { rewrite <- app_assoc. exact PF. }
    exists (("WHITESPACE", text) :: l1), name, l2. cbn [map snd concat]. split; [reflexivity|]. split; [apply pl_blank; auto|]. split; auto. repeat rewrite <- app_assoc in H3. repeat rewrite <- app_assoc in H4. repeat rewrite <- app_assoc. auto.
  - inversion F as [|? ? [Fa Ft] F']; subst. cbn in Fa, Ft. cbn [map snd concat] in PF. rewrite <- app_assoc in PF.
    destruct (kinds_visible _ _ K) as [N1 _]. apply String.eqb_neq in N1. rewrite N1 in Ft.
    assert (width text = N.of_nat (length text)) as W by (eapply width_length; eauto).
    assert (mkPos line (col + width text) = pos_of (p ++ text)) as P2 by (rewrite pos_of_line, <- P by auto; cbn [sp_line sp_col]; rewrite W; reflexivity).
    destruct t1 as [|u t1].
    + injection E as <- <-. exists [], name, l. cbn [fst snd td_text td_span map concat app]. rewrite app_nil_r, <- P, <- P2. cbn [sp_line sp_col]. repeat split; auto; constructor.
    + injection E as <- ->. destruct (IH t1 t t2 (p ++ text) tail eq_refl) as (l1 & name' & l2 & -> & H1 & H2 & H3 & H4); auto.
      { rewrite <- app_assoc. exact PF. }
      exists ((name, text) :: l1), name', l2. cbn [map snd concat]. split; [reflexivity|]. split; [apply pl_token; auto|]. split; auto. repeat rewrite <- app_assoc in H3. repeat rewrite <- app_assoc in H4. repeat rewrite <- app_assoc. auto.
Qed.

Lemma placed_parts : forall l l' line col ts, placed line col (l ++ l') ts -> 1 <= line -> 1 <= col ->
  exists ts1 ts2 line' col', ts = ts1 ++ ts2 /\ placed line col l ts1 /\ placed line' col' l' ts2 /\ 1 <= line' /\ 1 <= col'.
Proof.
  induction l as [|[name text] l IH]; intros l' line col ts H L C.
  - exists [], ts, line, col. repeat split; auto. constructor.
  - cbn [app] in H. inversion H as [|? ? ? ? ? A H'|? ? ? ? ? A H'|? ? ? t ? ? ts' K A H']; subst.
    + destruct (IH _ _ _ _ H') as (t1 & t2 & line' & col' & -> & H1 & H2 & L2 & C2); [lia|lia|]. exists t1, t2, line', col'. repeat split; auto. apply pl_newline; auto.
    + destruct (IH _ _ _ _ H') as (t1 & t2 & line' & col' & -> & H1 & H2 & L2 & C2); [lia|lia|]. exists t1, t2, line', col'. repeat split; auto. apply pl_blank; auto.
    + destruct (IH _ _ _ _ H') as (t1 & t2 & line' & col' & -> & H1 & H2 & L2 & C2); [lia|lia|]. eexists (_ :: t1), t2, line', col'. repeat split; auto. apply pl_token; auto.
Qed.

Lemma Forall2_len : forall X Y (R : X -> Y -> Prop) l l', Forall2 R l l' -> length l = length l'.
Proof. intros X Y R l l' H. induction H; cbn; auto. Qed.
Lemma alike_refl : forall ts, Forall2 alike ts ts.
Proof. induction ts; constructor; auto. split; auto. Qed.

(** ** Parts of divisions *)

Lemma division_head : forall l1 l2 text, division text (l1 ++ l2) -> division (concat (map snd l1)) l1 /\ division (concat (map snd l2)) l2.
Proof.
  induction l1 as [|e l1 IH]; intros l2 text H.
  - split; [constructor|]. pose proof (division_concat _ _ H) as E. cbn [app] in E, H. rewrite <- E. exact H.
  - cbn [app] in H. inversion H as [|name w rest l Hl Hm Hd]; subst. destruct (IH _ _ Hd) as [A B]. split; auto. cbn [map snd concat]. apply dv_next; auto.
    intros name' text' rest' Hl' E. apply (Hm name' text' (rest' ++ concat (map snd l2)) Hl'). rewrite (division_concat _ _ Hd), map_app, concat_app, !app_assoc. f_equal. exact E.
Qed.

Lemma body_newline : forall q b, q <> 92 -> body q b -> In 10 b -> exists x y, b = x ++ [92; 10] ++ y.
Proof.
  intros q b Hq H. induction H as [|c b A B C H IH|c b H IH]; intros I; [contradiction| |].
  - destruct I as [I|I]; [congruence|]. destruct (IH I) as (x & y & ->). exists (c :: x), y. reflexivity.
  - destruct I as [I|[I|I]]; [discriminate|subst c; exists [], b; reflexivity|]. destruct (IH I) as (x & y & ->). exists (92 :: c :: x), y. reflexivity.
Qed.

Lemma lexeme_newline : forall name text, lexeme name text -> (exists x y, text = x ++ [92; 10] ++ y) \/ if String.eqb name "NEWLINE" then text = [newline] else ~ In newline text.
Proof.
  assert (forall c cs, c <> 10 -> Forall word_char cs -> ~ In newline (c :: cs)) as W.
  { intros c cs Hc H [I|I]; [auto|]. apply (proj1 (Forall_forall _ _) H) in I. unfold word_char, letter, digit, newline in I. lia. }
  intros name text H. destruct H as [name word H|name c H| |c cs Hc H|c cs Hc H Hk|b H|b H|c cs H|].
  - right. repeat destruct H as [H|H]; try contradiction; injection H as <- <-; cbn; intuition discriminate.
  - right. repeat destruct H as [H|H]; try contradiction; injection H as <- <-; cbn; intuition discriminate.
  - right. cbn. intuition discriminate.
  - right. cbn [String.eqb]. apply W; [lia|]. eapply Forall_impl; [|exact H]. intros d Hd. right. left. exact Hd.
  - right. apply W; auto. unfold letter in Hc. lia.
  - destruct (in_dec N.eq_dec 10 b) as [I|I].
    + left. destruct (body_newline 34 b ltac:(discriminate) H I) as (x & y & ->). exists (34 :: x), (y ++ [34]). rewrite <- !app_assoc. reflexivity.
    + right. cbn. intros [X|X]; [discriminate|]. apply in_app_or in X. destruct X as [X|[X|[]]]; [auto|discriminate].
  - destruct (in_dec N.eq_dec 10 b) as [I|I].
    + left. destruct (body_newline 47 b ltac:(discriminate) H I) as (x & y & ->). exists (47 :: x), (y ++ [47]). rewrite <- !app_assoc. reflexivity.
    + right. cbn. intros [X|X]; [discriminate|]. apply in_app_or in X. destruct X as [X|[X|[]]]; [auto|discriminate].
  - right. cbn [String.eqb]. intros I. apply (proj1 (Forall_forall _ _) H) in I. unfold newline in I. lia.
  - right. reflexivity.
Qed.

Lemma division_plain : forall text l, division text l -> Forall (fun c => c < 128) text -> unbroken text -> Forall plain_lexeme l.
Proof.
  intros text l H. induction H as [|name w rest l Hl Hm H IH]; intros A U; constructor.
  - apply Forall_app in A. destruct A as [A _]. split; [apply Forall_forall; exact A|]. cbn [fst snd]. destruct (lexeme_newline _ _ Hl) as [(x & y & ->)|X]; auto. exfalso. apply (U x (y ++ rest)). rewrite <- !app_assoc. reflexivity.
  - apply Forall_app in A. destruct A as [_ A]. apply IH; auto. intros x y ->. apply (U (w ++ x) y). rewrite <- app_assoc. reflexivity.
Qed.

(** ** Rules *)

Lemma rule_ends : forall sequence choice regex r ts, rule_tokens sequence choice regex r ts -> exists a m b, ts = a :: m ++ [b] /\ fst r = extent (snd a) (snd b).
Proof.
  intros sequence choice regex r ts H. destruct H as [a d b|a d e b tag ts p ts' HT HA|a d e b prec ts p t HP HT].
  - exists (KW_ENTRY, a), [(IDENT, d)], (SEMI, b). auto.
  - exists (KW_PROD, a), ((IDENT, d) :: ts ++ [(EQUALS, e)] ++ ts'), (SEMI, b). split; [cbn [app]; rewrite <- !app_assoc; reflexivity|reflexivity].
  - exists (KW_TOKEN, a), ((IDENT, d) :: ts ++ [(EQUALS, e); t]), (SEMI, b). split; [cbn [app]; rewrite <- !app_assoc; reflexivity|reflexivity].
Qed.

Lemma file_split : forall sequence choice regex rules ts, file_tokens sequence choice regex rules ts -> forall r, In r rules -> exists t1 tr t2, ts = t1 ++ tr ++ t2 /\ rule_tokens sequence choice regex r tr.
Proof.
  intros sequence choice regex rules ts H. induction H as [r0 ts H|r0 ts rs ts' H _ IH]; intros r I.
  - destruct I as [->|[]]. exists [], ts, []. rewrite app_nil_r. auto.
  - destruct I as [->|I]; [exists [], ts, ts'; auto|]. destruct (IH r I) as (t1 & tr & t2 & -> & Hr). exists (ts ++ t1), tr, t2. rewrite <- app_assoc. auto.
Qed.

Lemma rule_span_text : forall regex source text lexemes ts rules, up_to_nul source text -> division text lexemes -> placed 1 1 lexemes ts -> file_tokens joined_sequence joined_choice regex rules ts ->
  Forall (fun c => c < 128) source -> unbroken source -> positions_fit source ->
  forall r, In r rules -> exists t, span_substring (fst r) source = Ok (Some t) /\ spells_rule regex t (snd r).
Proof.
  intros regex source text lexemes ts rules HU HD HP HF HA HB HPF r Hr.
  assert (exists rest, source = text ++ rest) as (rest & Es) by (destruct HU as [t N|t rest N]; [exists []; rewrite app_nil_r; auto|eauto]).
  rewrite Es in HA. apply Forall_app in HA. destruct HA as [HA _].
  assert (unbroken text) as HB' by (intros x y E; apply (HB x (y ++ rest)); rewrite Es, E, <- !app_assoc; reflexivity).
  pose proof (division_plain _ _ HD HA HB') as HL.
  destruct (file_split _ _ _ _ _ HF _ Hr) as (t1 & tr & t2 & E & HR). destruct (rule_ends _ _ _ _ _ HR) as (a & m & b & Et & Esp).
  rewrite Et in E. cbn [app] in E.
  destruct (placed_split _ _ _ _ HP t1 a ((m ++ [b]) ++ t2) [] rest E eq_refl HL) as (l1 & na & l2 & El & P1 & Ka & Sa & P2).
  { cbn [app]. rewrite <- (division_concat _ _ HD), <- Es. exact HPF. }
  cbn [app] in Sa, P2. set (p := concat (map snd l1)) in *. rewrite <- app_assoc in P2. cbn [app] in P2.
  rewrite El in HL. apply Forall_app in HL. destruct HL as [HL1 HL2]. inversion HL2 as [|? ? HLa HL3]; subst x l.
  assert (text = (p ++ td_text (snd a)) ++ concat (map snd l2)) as Ex.
  { rewrite (division_concat _ _ HD), El, map_app, concat_app. cbn [map snd concat]. rewrite <- app_assoc. reflexivity. }
  destruct (placed_split _ _ _ _ P2 m b t2 (p ++ td_text (snd a)) rest eq_refl ltac:(destruct (pos_of (p ++ td_text (snd a))); reflexivity) HL3) as (l3 & nb & l4 & El2 & P3 & Kb & Sb & P4).
  { rewrite app_assoc, <- Ex, <- Es. exact HPF. }
  set (seg := (na, td_text (snd a)) :: l3 ++ [(nb, td_text (snd b))]).
  assert (lexemes = l1 ++ seg ++ l4) as E4 by (rewrite El, El2; unfold seg; cbn [app]; rewrite <- !app_assoc; reflexivity).
  exists (concat (map snd seg)). split.
  - apply substring_exact; auto. exists p, (concat (map snd l4) ++ rest). split; [rewrite Es, (division_concat _ _ HD), E4, !map_app, !concat_app, <- !app_assoc; reflexivity|].
    rewrite Esp. unfold extent. cbn [ss_start ss_end]. rewrite Sa, Sb. cbn [ss_start ss_end]. split; [apply pos_of_at|].
    replace (p ++ concat (map snd seg)) with ((p ++ td_text (snd a)) ++ concat (map snd l3) ++ td_text (snd b)); [apply pos_of_at|].
    unfold seg. cbn [map concat snd]. rewrite map_app, concat_app. cbn [map concat snd]. rewrite app_nil_r, <- !app_assoc. reflexivity.
  - rewrite E4 in HD. destruct (division_head _ _ _ HD) as [_ HD2]. destruct (division_head _ _ _ HD2) as [HD3 _].
    assert (exists line col us, 1 <= line /\ 1 <= col /\ placed line col seg us /\ Forall2 alike tr us) as (line & col & us & L & C & PS & AL).
    { rewrite E4 in HP. destruct (placed_parts _ _ _ _ _ HP) as (u1 & u2 & line & col & Eu & Q1 & Q2 & L & C); [lia|lia|]. rewrite (placed_fun _ _ _ _ _ Q1 P1) in Eu. rewrite E, Et in *.
      destruct (placed_parts _ _ _ _ _ Q2) as (u3 & u4 & line' & col' & Eu2 & Q3 & _); [lia|lia|]. exists line, col, u3. repeat split; auto.
      assert (length u3 = length (a :: m ++ [b])) as Len.
      { pose proof (Forall2_len _ _ _ _ _ (placed_seen _ _ _ _ Q3)) as A1. pose proof (Forall2_len _ _ _ _ _ (placed_seen _ _ _ _ P3)) as A2. etransitivity; [symmetry; exact A1|]. unfold seg.
        destruct (kinds_visible _ _ Ka) as [X1 X2]. destruct (kinds_visible _ _ Kb) as [X3 X4]. rewrite seen_token by auto. unfold seen at 1. rewrite filter_app. fold (seen l3). cbn [filter fst].
        apply String.eqb_neq in X3, X4. rewrite X3, X4. cbn [orb negb length]. rewrite !app_length. cbn [length]. unfold tok in *. lia. }
      assert (u3 = a :: m ++ [b]) as ->.
      { apply app_inv_head in Eu. rewrite <- Eu in Eu2. cbn [app] in Eu2. change (a :: (m ++ [b]) ++ t2) with ((a :: m ++ [b]) ++ t2) in Eu2. clear -Eu2 Len. revert Eu2 Len. generalize (a :: m ++ [b]). intros l. revert u3. induction l as [|x l IH]; intros [|y u] E Len; try discriminate; auto.
        injection E as -> E. f_equal. apply IH; auto. }
      apply alike_refl. }
    destruct (placed_lower _ _ _ _ PS 1 1 L C) as (vs & PV). pose proof (placed_alike _ _ _ _ _ _ _ _ PS PV eq_refl) as AL2.
    assert (Forall2 alike tr vs) as AL3. { clear -AL AL2. revert vs AL2. induction AL as [|x y l l' [A B] H IH]; intros vs H2; inversion H2 as [|? z ? l2 [A' B'] H3]; subst; constructor; auto. split; congruence. }
    destruct (alike_rule _ _ _ _ _ HR _ AL3) as (sp & HR'). exists seg, vs, sp. auto.
Qed.
