(** Proofs about the generated parser of grammar files on the level of tokens. *)
From Coq Require Import String Ascii List Arith NArith Bool Lia.
From Verif Require Import Base InputModel GrammarModel GrammarSpec LexerModel PositionModel LLSpec LRModel LRSpec LRFactsProof NamesModel BootModel InputGenModel InputGenSpec InputGenLapex.
Import ListNotations.
Local Open Scope nat_scope.
Local Open Scope list_scope.

(** ** The grammar, without the productions it stems from *)

Definition lapex_shape : list (option N * list symbol) := Eval vm_compute in map (fun r => (r_lhs r, r_rhs r)) (g_rules lapex_g).
Lemma lapex_shape_ok : map (fun r => (r_lhs r, r_rhs r)) (g_rules lapex_g) = lapex_shape.
Proof. vm_compute. reflexivity. Qed.
Lemma lapex_rule : forall k r, nth_error (g_rules lapex_g) k = Some r -> nth_error lapex_shape k = Some (r_lhs r, r_rhs r).
Proof. intros k r H. rewrite <- lapex_shape_ok. apply (map_nth_error (fun r => (r_lhs r, r_rhs r)) k _ H). Qed.
Lemma lapex_rule_ex : forall k i al, nth_error lapex_shape k = Some (i, al) -> exists r, nth_error (g_rules lapex_g) k = Some r /\ r_lhs r = i /\ r_rhs r = al.
Proof.
  intros k i al H. destruct (nth_error (g_rules lapex_g) k) as [r|] eqn:E.
  - apply lapex_rule in E as E'. rewrite H in E'. injection E' as -> ->. eauto.
  - apply nth_error_None in E. assert (k < length lapex_shape) as X by (apply nth_error_Some; congruence). rewrite <- lapex_shape_ok, map_length in X. lia.
Qed.

(** ** Joining *)

Definition seq_parts (q : prod_pattern) : list prod_pattern := match q with QSeq l => l | p => [p] end.
Definition alt_parts (q : prod_pattern) : list prod_pattern := match q with QAlt l => l | p => [p] end.

Lemma joined_sequence_cons : forall p ps, ps <> [] -> joined_sequence (p :: ps) = QSeq (p :: seq_parts (joined_sequence ps)).
Proof.
  intros p [|q ps] H; [congruence|]. destruct ps as [|r ps]; [destruct q; reflexivity|]. change (last (p :: q :: r :: ps) QEps) with (last (q :: r :: ps) QEps). reflexivity.
Qed.
Lemma joined_choice_cons : forall p ps, ps <> [] -> joined_choice (p :: ps) = QAlt (alt_parts (joined_choice ps) ++ [p]).
Proof.
  intros p [|q ps] H; [congruence|]. destruct ps as [|r ps]; [destruct q; reflexivity|].
  change (joined_choice (p :: q :: r :: ps)) with (QAlt (match last (q :: r :: ps) QEps with QAlt l => l | q => [q] end ++ rev (p :: removelast (q :: r :: ps)))).
  change (joined_choice (q :: r :: ps)) with (QAlt (match last (q :: r :: ps) QEps with QAlt l => l | q => [q] end ++ rev (removelast (q :: r :: ps)))). cbn [alt_parts rev]. rewrite app_assoc. reflexivity.
Qed.

Scheme item_mut := Minimality for item Sort Prop
  with unary_mut := Minimality for unary Sort Prop
  with units_mut := Minimality for units Sort Prop
  with choices_mut := Minimality for choices Sort Prop
  with alternatives_mut := Minimality for alternatives Sort Prop.
Combined Scheme syntax_mut from item_mut, unary_mut, units_mut, choices_mut, alternatives_mut.

Ltac runs H := match type of H with _ = ?r => match goal with |- context [foldM ?a ?b ?c] => replace (foldM a b c) with r by (symmetry; exact H) end end.

Section Input.
Variable regex : list N -> option hir.
Variable eof : token_data.

Notation Item := (item joined_sequence joined_choice).
Notation Unary := (unary joined_sequence joined_choice).
Notation Units := (units joined_sequence joined_choice).
Notation Choices := (choices joined_sequence joined_choice).
Notation Alternatives := (alternatives joined_sequence joined_choice).
Notation Rule := (rule_tokens joined_sequence joined_choice regex).
Notation Rules := (file_tokens joined_sequence joined_choice regex).

(** ** The method of each rule *)

Definition methods : list (ast_stack -> res lex_err ast_stack) :=
  [reduce_rules_1; reduce_rules_2; reduce_noop; reduce_noop; reduce_noop; reduce_entry_rule; reduce_noop; reduce_anon26_2; reduce_prod_rule;
   reduce_noop; reduce_anon27_2; reduce_token_rule regex; reduce_precedence; reduce_tag; reduce_noop; reduce_noop; reduce_noop; reduce_pattern_2;
   reduce_alternative_1; reduce_noop; reduce_concatenation_1; reduce_noop; reduce_noop; reduce_noop; reduce_noop; reduce_noop; reduce_option;
   reduce_repetition_zero; reduce_repetition_one; reduce_item_1; reduce_item_2].

Definition step := visit regex lapex_visits eof.

Lemma step_reduce : forall k f s data, nth_error methods k = Some f -> step (s, data) (EReduce k) = do s <- f s; Ok (s, data).
Proof.
  intros k f s data H. do 31 (destruct k as [|k]; [cbn [methods nth_error] in H; injection H as <-; reflexivity|]). destruct k; discriminate H.
Qed.

(** ** Values on the stack *)

Definition sem (i : N) (v : spanned ast) (ts : list tok) : Prop :=
  match i with
  | 0 => exists rules, Rules rules ts /\ v = (zero_span, ARules (rev rules))
  | 2 | 5 | 6 | 7 => exists r, Rule r ts /\ v = (fst r, ARule (snd r))
  | 8 => exists sp n, prioritised (Some n) ts /\ v = (sp, APrecedence (Some n))
  | 9 => exists sp n, tagged (Some n) ts /\ v = (sp, ATag (Some n))
  | 10 => exists t, ts = [t] /\ (fst t = STRING \/ fst t = REGEX) /\ fitting t /\ v = (td_span (snd t), AToken (td_text (snd t)))
  | 12 => exists sp p, Alternatives p ts /\ v = (sp, APattern p)
  | 14 => exists sp qs, Choices qs ts /\ v = (sp, APattern (joined_choice qs))
  | 16 => exists sp ps, Units ps ts /\ v = (sp, APattern (joined_sequence ps))
  | 18 | 22 | 23 | 24 => exists sp p, Unary p ts /\ v = (sp, APattern p)
  | 25 => exists sp p, Item p ts /\ v = (sp, APattern p)
  | 26 => exists sp tag, tagged tag ts /\ v = (sp, ATag tag)
  | 27 => exists sp prec, prioritised prec ts /\ v = (sp, APrecedence prec)
  | _ => False
  end%N.

Inductive sems : list symbol -> list (spanned ast) -> list tok -> Prop :=
| sems_nil : sems [] [] []
| sems_eps al vs ts : sems al vs ts -> sems (Epsilon :: al) vs ts
| sems_term t d al vs ts : fitting (t, d) -> sems al vs ts -> sems (Terminal t :: al) ((td_span d, AToken (td_text d)) :: vs) ((t, d) :: ts)
| sems_nt i v al vs us ts : sem i v us -> sems al vs ts -> sems (NonTerminal i :: al) (v :: vs) (us ++ ts).

Lemma units_nonempty : forall ps ts, Units ps ts -> ps <> [].
Proof. intros ps ts H. inversion H; discriminate. Qed.
Lemma choices_nonempty : forall ps ts, Choices ps ts -> ps <> [].
Proof. intros ps ts H. inversion H; discriminate. Qed.

(** Decimal numerals. *)
Lemma decimal_parse : forall cs n, decimal cs n -> digits_value cs = n /\ forallb decimal_digit cs = true /\ cs <> [] /\ hd 0%N cs <> 43%N.
Proof.
  induction 1 as [d Hd|cs n d H IH Hd].
  - unfold digits_value. cbn [fold_left forallb]. unfold decimal_digit. repeat split; [lia| |discriminate|cbn [hd]; lia].
    rewrite andb_true_r. apply andb_true_iff. rewrite !N.leb_le. lia.
  - destruct IH as (A & B & C & D). unfold digits_value in *. rewrite fold_left_app, A, forallb_app, B. cbn [fold_left forallb].
    repeat split; [lia| | |].
    + unfold decimal_digit. cbn [andb]. rewrite andb_true_r. apply andb_true_iff. rewrite !N.leb_le. lia.
    + destruct cs; discriminate.
    + destruct cs; [congruence|exact D].
Qed.
Lemma parse_u16_decimal : forall cs n, decimal cs n -> parse_u16 cs = if (n <? 65536)%N then Some n else None.
Proof.
  intros cs n H. destruct (decimal_parse _ _ H) as (A & B & C & D). unfold parse_u16. destruct cs as [|c cs]; [congruence|]. cbn [hd] in D.
  rewrite (proj2 (N.eqb_neq c 43) D). cbn zeta. rewrite A, B. reflexivity.
Qed.

(** Texts of tokens. *)
Lemma get_chars_ok : forall cs : list N, get_unescaped_chars ([34%N] ++ cs ++ [34%N]) = cs.
Proof. intros cs. unfold get_unescaped_chars. cbn [app tl]. apply removelast_last. Qed.

Lemma len_utf8_pos : forall c, (1 <= len_utf8 c)%N.
Proof. intros c. unfold len_utf8. repeat destruct (_ <? _)%N; lia. Qed.

Lemma take_bytes_all : forall cs r, (forall c, In c r -> True) -> take_bytes (cs ++ r) (byte_len cs) = Ok cs.
Proof.
  induction cs as [|c cs IH]; intros r _.
  - cbn. destruct r; reflexivity.
  - cbn [app take_bytes byte_len fold_right]. fold (byte_len cs). pose proof (len_utf8_pos c).
    rewrite (proj2 (N.eqb_neq _ 0)), (proj2 (N.ltb_ge _ _)) by lia. replace (len_utf8 c + byte_len cs - len_utf8 c)%N with (byte_len cs) by lia. rewrite IH by auto. reflexivity.
Qed.
Lemma regex_slice : forall cs : list N, byte_slice ([47%N] ++ cs ++ [47%N]) 1 (byte_len ([47%N] ++ cs ++ [47%N]) - 1) = Ok cs.
Proof.
  intros cs. assert (byte_len ([47%N] ++ cs ++ [47%N]) = 2 + byte_len cs)%N as E.
  { cbn [app byte_len fold_right]. change (len_utf8 47) with 1%N. assert (forall l, fold_right (fun c n => (len_utf8 c + n)%N) 0%N (l ++ [47%N]) = (1 + byte_len l)%N) as X; [|rewrite X; lia].
    induction l as [|c l IH]; [reflexivity|]. cbn [app fold_right byte_len]. fold (byte_len l). rewrite IH. lia. }
  rewrite E. unfold byte_slice. rewrite (proj2 (N.ltb_ge _ _)) by lia. cbn [app drop_bytes]. change (len_utf8 47) with 1%N. change (1 =? 0)%N with false. change (1 <? 1)%N with false. cbv iota. change (1 - 1)%N with 0%N.
  assert (drop_bytes (cs ++ [47%N]) 0 = Ok (cs ++ [47%N])) as -> by (destruct cs; reflexivity). cbn [bind]. replace (2 + byte_len cs - 1 - 1)%N with (byte_len cs) by lia. apply take_bytes_all. auto.
Qed.

Lemma token_pattern_ok : forall t, (fst t = STRING \/ fst t = REGEX) -> fitting t ->
  token_pattern_of regex (td_text (snd t)) = Panic \/ exists p, token_pattern_of regex (td_text (snd t)) = Ok p /\ token_text regex p t.
Proof.
  intros [k d] Hk (_ & Hs & Hr). cbn [fst snd] in *. destruct Hk as [->| ->].
  - destruct (Hs eq_refl) as (cs & E). right. rewrite E. exists (TLiteral cs). split; [|constructor; auto].
    unfold token_pattern_of. rewrite get_chars_ok. reflexivity.
  - destruct (Hr eq_refl) as (cs & E). rewrite E. unfold token_pattern_of, get_regex_pattern. rewrite regex_slice. cbn [app]. change (47 =? 34)%N with false. change (47 =? 47)%N with true. cbv iota.
    destruct (regex cs) as [h|] eqn:Eh; [|left; reflexivity]. destruct (make_pattern_from_hir h) as [p| | |] eqn:Ep; try (left; reflexivity).
    right. exists (TPattern p). split; auto. apply tt_regex with (cs := cs) (h := h); auto.
Qed.
Lemma token_pattern_complete : forall p t, token_text regex p t -> token_pattern_of regex (td_text (snd t)) = Ok p.
Proof.
  intros p t H. destruct H as [cs d E|cs h p d E Eh Ep]; cbn [snd]; rewrite E.
  - unfold token_pattern_of. rewrite get_chars_ok. reflexivity.
  - unfold token_pattern_of, get_regex_pattern. rewrite regex_slice, Eh, Ep. reflexivity.
Qed.

Ltac inv_sems :=
  repeat match goal with
  | H : sems [] _ _ |- _ => inversion H; clear H; subst
  | H : sems (_ :: _) _ _ |- _ => inversion H; clear H; subst
  end;
  repeat match goal with
  | H : sem _ _ _ |- _ => cbn [sem] in H
  | H : ex _ |- _ => destruct H
  | H : _ /\ _ |- _ => destruct H
  end; subst.

Ltac peel n k tac := lazymatch n with O => idtac | S ?m => destruct k as [|k]; [tac | peel m k tac] end.

Lemma rule_sound : forall k i al f, nth_error lapex_shape k = Some (Some i, al) -> nth_error methods k = Some f ->
  forall vs ts s, sems al vs ts -> f (rev vs ++ s) = Panic \/ exists v, f (rev vs ++ s) = Ok (v :: s) /\ sem i v ts.
Proof.
  intros k i al f Hk Hf vs ts s H.
  peel 31 k ltac:(cbn [lapex_shape methods nth_error] in Hk, Hf; injection Hk as <- <-; injection Hf as <-; inv_sems; cbn [rev app sem]).
  all: rewrite ?app_nil_r; try (right; eexists; split; [reflexivity|]).
  - exists [x]. split; [constructor; auto|]. destruct x; reflexivity.
  - exists (x0 :: x). split; [apply ft_more; auto|]. destruct x0; reflexivity.
  - eauto.
  - eauto.
  - eauto.
  - eexists. split; [apply rt_entry|reflexivity].
  - eauto.
  - eexists. eexists. split; [apply tg_none|reflexivity].
  - eexists. split; [apply (rt_prod joined_sequence joined_choice regex d d0 d1 d2 x2 us x0 us0); auto|reflexivity].
  - eauto.
  - eexists. eexists. split; [apply pr_none|reflexivity].
  - unfold reduce_token_rule. cbn [pop bind pop_token tl pop_precedence].
    match goal with Hk : fst x = STRING \/ _, Hf : fitting x |- _ => destruct (token_pattern_ok x Hk Hf) as [->|(p & Ep & Ht)]; [left; reflexivity|] end.
    rewrite Ep. right. eexists. split; [reflexivity|]. eexists. split; [apply (rt_token joined_sequence joined_choice regex d d0 d1 d2 x1 us p x); auto|reflexivity].
  - unfold reduce_precedence. cbn [pop bind pop_token].
    match goal with Hf : fitting (9%N, d0) |- _ => destruct (proj1 Hf eq_refl) as (n & Hn) end. cbn [snd] in Hn. rewrite (parse_u16_decimal _ _ Hn). destruct (n <? 65536)%N eqn:E; [|left; reflexivity].
    right. eexists. split; [reflexivity|]. eexists. eexists. split; [|reflexivity]. apply pr_some; auto. apply N.ltb_lt. auto.
  - eexists. eexists. split; [|reflexivity]. apply tg_some.
  - eexists. split; [reflexivity|]. split; [right; reflexivity|]. split; auto.
  - eexists. split; [reflexivity|]. split; [left; reflexivity|]. split; auto.
  - eexists. eexists. split; [|reflexivity]. apply al_choice; auto.
  - eexists. eexists. split; [|reflexivity]. apply al_nothing.
  - eexists. exists (joined_sequence x2 :: x0). split; [apply (ch_more joined_sequence joined_choice x2 us d x0 us0); auto|]. rewrite joined_choice_cons; [reflexivity|]. eapply choices_nonempty; eauto.
  - eexists. exists [joined_sequence x0]. split; [|reflexivity]. apply ch_one; auto.
  - eexists. exists (x2 :: x0). split; [apply us_more; auto|]. rewrite joined_sequence_cons; [reflexivity|]. eapply units_nonempty; eauto.
  - eexists. exists [x0]. split; [|reflexivity]. apply us_one; auto.
  - eauto.
  - eauto.
  - eauto.
  - eexists. eexists. split; [|reflexivity]. apply un_once; auto.
  - eexists. eexists. split; [|reflexivity]. apply un_option; auto.
  - eexists. eexists. split; [|reflexivity]. apply un_star; auto.
  - eexists. eexists. split; [|reflexivity]. apply un_plus; auto.
  - eexists. eexists. split; [|reflexivity]. apply it_name.
  - eexists. eexists. split; [|reflexivity]. apply (it_group joined_sequence joined_choice x0 us d d0); auto.
  - destruct k; discriminate Hk.
Qed.

Lemma methods_all : forall k i al, nth_error lapex_shape k = Some (i, al) -> exists f, nth_error methods k = Some f.
Proof.
  intros k i al H. destruct (nth_error methods k) eqn:E; eauto. apply nth_error_None in E. assert (k < length lapex_shape) by (apply nth_error_Some; congruence).
  change (length lapex_shape) with 31 in *. change (length methods) with 31 in *. lia.
Qed.

Lemma trees_sound : forall al trs, iparses (g_rules lapex_g) al trs -> forall ts, map fst ts = iyields trs -> Forall fitting ts -> forall s rest,
  foldM step (post_orders trs) (s, map snd ts ++ rest) = Panic \/
  exists vs, foldM step (post_orders trs) (s, map snd ts ++ rest) = Ok (rev vs ++ s, rest) /\ sems al vs ts.
Proof.
  induction 1 as [|al trs H IH|t al trs H IH|k r i al cs trs Hk Hi Hc IHc H IH]; intros ts E Hf s rest.
  - destruct ts; [|discriminate E]. right. exists []. split; [reflexivity|constructor].
  - destruct (IH ts E Hf s rest) as [X|(vs & X & Y)]; [auto|]. right. exists vs. split; auto. constructor; auto.
  - change (iyields (ILeaf t :: trs)) with (t :: iyields trs) in E. destruct ts as [|[t' d] ts]; [discriminate E|]. cbn [map fst] in E. injection E as -> E. inversion Hf as [|x l Hx Hl]; subst.
    change (post_orders (ILeaf t :: trs)) with (EShift (Some t) :: post_orders trs). cbn [foldM map snd app].
    change (step (s, d :: map snd ts ++ rest) (EShift (Some t))) with (Ok ((td_span d, AToken (td_text d)) :: s, map snd ts ++ rest) : res lex_err _). cbn [bind].
    destruct (IH ts E Hl ((td_span d, AToken (td_text d)) :: s) rest) as [X|(vs & X & Y)]; [auto|]. right. exists ((td_span d, AToken (td_text d)) :: vs). split.
    + etransitivity; [exact X|]. cbn [rev]. rewrite <- app_assoc. reflexivity.
    + constructor; auto.
  - change (iyields (INode k cs :: trs)) with (iyields cs ++ iyields trs) in E.
    assert (exists us ts', ts = us ++ ts' /\ map fst us = iyields cs /\ map fst ts' = iyields trs) as (us & ts' & -> & Eu & Et').
    { exists (firstn (length (iyields cs)) ts), (skipn (length (iyields cs)) ts). split; [symmetry; apply firstn_skipn|]. rewrite <- firstn_map, <- skipn_map, E.
      rewrite firstn_app, Nat.sub_diag, firstn_all, firstn_O, app_nil_r, skipn_app, skipn_all, Nat.sub_diag. auto. }
    apply Forall_app in Hf. destruct Hf as [Hu Ht']. change (post_orders (INode k cs :: trs)) with ((post_orders cs ++ [EReduce k]) ++ post_orders trs). rewrite <- !app_assoc, !foldM_app, map_app, <- app_assoc.
    destruct (IHc us Eu Hu s (map snd ts' ++ rest)) as [X|(vs & X & Y)]; [left; rewrite X; reflexivity|]. rewrite X. cbn [bind].
    pose proof (lapex_rule _ _ Hk) as Hs. rewrite Hi in Hs. destruct (methods_all _ _ _ Hs) as (f & Ef). cbn [app foldM]. rewrite (step_reduce _ _ _ _ Ef).
    destruct (rule_sound _ _ _ _ Hs Ef vs us s Y) as [Z|(v & Z & Zs)]; [left; rewrite Z; reflexivity|]. rewrite Z. cbn [bind].
    destruct (IH ts' Et' Ht' (v :: s) rest) as [W|(ws & W & Ws)]; [auto|]. right. exists (v :: ws). split.
    + rewrite W. cbn [rev]. rewrite <- app_assoc. reflexivity.
    + constructor; auto.
Qed.

(** ** Trees of files *)

Definition good (i : N) (v : spanned ast) (ts : list tok) : Prop :=
  exists tr, iparses (g_rules lapex_g) [NonTerminal i] [tr] /\ iyield tr = map fst ts /\
  forall s rest, foldM step (post_order tr) (s, map snd ts ++ rest) = Ok (v :: s, rest).
Definition goods (al : list symbol) (vs : list (spanned ast)) (ts : list tok) : Prop :=
  exists trs, iparses (g_rules lapex_g) al trs /\ iyields trs = map fst ts /\
  forall s rest, foldM step (post_orders trs) (s, map snd ts ++ rest) = Ok (rev vs ++ s, rest).

Lemma goods_nil : goods [] [] [].
Proof. exists []. split; [constructor|]. split; [reflexivity|]. reflexivity. Qed.
Lemma goods_eps : forall al vs ts, goods al vs ts -> goods (Epsilon :: al) vs ts.
Proof. intros al vs ts (trs & A & B & C). exists trs. split; [constructor; auto|]. auto. Qed.
Lemma goods_term : forall t d al vs ts, goods al vs ts -> goods (Terminal t :: al) ((td_span d, AToken (td_text d)) :: vs) ((t, d) :: ts).
Proof.
  intros t d al vs ts (trs & A & B & C). exists (ILeaf t :: trs). split; [constructor; auto|]. split; [cbn; f_equal; auto|]. intros s rest.
  change (post_orders (ILeaf t :: trs)) with (EShift (Some t) :: post_orders trs). cbn [foldM map snd app].
  change (step (s, d :: map snd ts ++ rest) (EShift (Some t))) with (Ok ((td_span d, AToken (td_text d)) :: s, map snd ts ++ rest) : res lex_err _). cbn [bind].
  etransitivity; [apply C|]. cbn [rev]. rewrite <- app_assoc. reflexivity.
Qed.
Lemma goods_nt : forall i v us al vs ts, good i v us -> goods al vs ts -> goods (NonTerminal i :: al) (v :: vs) (us ++ ts).
Proof.
  intros i v us al vs ts (tr & A & B & C) (trs & A' & B' & C'). exists (tr :: trs). split; [|split].
  - inversion A as [| | |k r j al' cs ts' Hk Hl Hc Hn]; subst. econstructor; eauto.
  - change (iyields (tr :: trs)) with (iyield tr ++ iyields trs). rewrite B, B', map_app. auto.
  - intros s rest. change (post_orders (tr :: trs)) with (post_order tr ++ post_orders trs). rewrite foldM_app, map_app, <- app_assoc, C. cbn [bind]. rewrite C'. cbn [rev]. rewrite <- app_assoc. reflexivity.
Qed.
Lemma good_node : forall k i al f vs ts v, nth_error lapex_shape k = Some (Some i, al) -> nth_error methods k = Some f -> goods al vs ts ->
  (forall s, f (rev vs ++ s) = Ok (v :: s)) -> good i v ts.
Proof.
  intros k i al f vs ts v Hk Hf (trs & A & B & C) H. destruct (lapex_rule_ex _ _ _ Hk) as (r & Er & El & Eh). exists (INode k trs). split; [|split].
  - econstructor; [exact Er|exact El|rewrite Eh; exact A|constructor].
  - exact B.
  - intros s rest. change (post_order (INode k trs)) with (post_orders trs ++ [EReduce k]). rewrite foldM_app, C. cbn [bind foldM]. rewrite (step_reduce _ _ _ _ Hf), H. reflexivity.
Qed.

(** One step up the tree; the right-hand side is given as the goal [goods]. *)
Ltac node k := eapply (good_node k); [reflexivity|reflexivity| |].
Ltac parts := repeat first [apply goods_nil | apply goods_eps | apply goods_term | eapply goods_nt; [eassumption|]].

Lemma good_one : forall i v ts, good i v ts -> goods [NonTerminal i] [v] ts.
Proof. intros i v ts H. rewrite <- (app_nil_r ts). apply goods_nt; auto. apply goods_nil. Qed.
Lemma goods_one : forall i v ts t d, good i v ts -> goods [NonTerminal i; Terminal t] [v; (td_span d, AToken (td_text d))] (ts ++ [(t, d)]).
Proof. intros i v ts t d H. apply goods_nt; auto. apply goods_term, goods_nil. Qed.

Lemma patterns_good :
  (forall p ts, Item p ts -> exists sp, good 25 (sp, APattern p) ts) /\
  (forall p ts, Unary p ts -> exists sp, good 18 (sp, APattern p) ts) /\
  (forall ps ts, Units ps ts -> exists sp, good 16 (sp, APattern (joined_sequence ps)) ts) /\
  (forall qs ts, Choices qs ts -> exists sp, good 14 (sp, APattern (joined_choice qs)) ts) /\
  (forall p ts, Alternatives p ts -> exists sp, good 12 (sp, APattern p) ts).
Proof.
  assert (forall qs ts, Choices qs ts -> qs <> []) as NC by (exact choices_nonempty). assert (forall qs ts, Units qs ts -> qs <> []) as NU by (exact units_nonempty).
  apply syntax_mut.
  - intros d. eexists. node 29; [parts|]. intros s. reflexivity.
  - intros p ts a b _ (sp & H). eexists. node 30; [apply goods_term; eapply goods_nt; [eassumption|]; parts|]. intros s. reflexivity.
  - intros p ts _ (sp & H). eexists. node 25; [apply good_one; eassumption|]. intros s. reflexivity.
  - intros p ts d _ (sp & H). eexists. node 22; [apply good_one; node 26; [apply goods_one; eassumption|intros s; reflexivity]|]. intros s. reflexivity.
  - intros p ts d _ (sp & H). eexists. node 24; [apply good_one; node 27; [apply goods_one; eassumption|intros s; reflexivity]|]. intros s. reflexivity.
  - intros p ts d _ (sp & H). eexists. node 23; [apply good_one; node 28; [apply goods_one; eassumption|intros s; reflexivity]|]. intros s. reflexivity.
  - intros p ts _ (sp & H). eexists. node 21; [apply good_one; eassumption|]. intros s. reflexivity.
  - intros p ts ps ts' _ (sp & H) Hu (sp' & H'). eexists. node 20; [eapply goods_nt; [eassumption|]; apply good_one; eassumption|]. intros s. rewrite joined_sequence_cons by (eapply NU; eauto). reflexivity.
  - intros ps ts _ (sp & H). eexists. node 19; [apply good_one; eassumption|]. intros s. reflexivity.
  - intros ps ts d qs ts' _ (sp & H) Hc (sp' & H'). eexists. node 18; [eapply goods_nt; [eassumption|]; apply goods_term; apply good_one; eassumption|]. intros s. rewrite joined_choice_cons by (eapply NC; eauto). reflexivity.
  - intros d. eexists. node 17; [parts|]. intros s. reflexivity.
  - intros qs ts _ (sp & H). eexists. node 16; [apply good_one; eassumption|]. intros s. reflexivity.
Qed.
Definition alternatives_good := proj2 (proj2 (proj2 (proj2 patterns_good))).

Lemma tag_good : forall tag ts, tagged tag ts -> exists sp, good 26 (sp, ATag tag) ts.
Proof.
  intros tag ts H. destruct H as [|a d b]; eexists.
  - node 7; [parts|]. intros s. reflexivity.
  - node 6; [apply good_one; node 13; [parts|intros s; reflexivity]|]. intros s. reflexivity.
Qed.
Lemma precedence_good : forall prec ts, prioritised prec ts -> exists sp, good 27 (sp, APrecedence prec) ts.
Proof.
  intros prec ts H. destruct H as [|a d b n Hd Hn]; eexists.
  - node 10; [parts|]. intros s. reflexivity.
  - node 9; [apply good_one; node 12; [parts|intros s]|].
    + cbn [rev app]. unfold reduce_precedence. cbn [pop bind pop_token]. rewrite (parse_u16_decimal _ _ Hd), (proj2 (N.ltb_lt _ _) Hn). reflexivity.
    + intros s. reflexivity.
Qed.
Lemma text_good : forall p t, token_text regex p t -> good 10 (td_span (snd t), AToken (td_text (snd t))) [t].
Proof.
  intros p t H. destruct H as [cs d E|cs h p d E Eh Ep]; cbn [snd].
  - node 15; [parts|]. intros s. reflexivity.
  - node 14; [parts|]. intros s. reflexivity.
Qed.

Lemma rule_good : forall r ts, Rule r ts -> good 2 (fst r, ARule (snd r)) ts.
Proof.
  intros r ts H. destruct H as [a d b|a d e b tag us p us' Ht Ha|a d e b prec us p t Hp Ht]; cbn [fst snd].
  - node 2; [apply good_one; node 5; [parts|intros s; reflexivity]|]. intros s. reflexivity.
  - destruct (tag_good _ _ Ht) as (sp & Gt). destruct (alternatives_good _ _ Ha) as (sp' & Ga).
    node 3; [apply good_one; node 8|].
    + apply goods_term, goods_term. eapply goods_nt; [eassumption|]. apply goods_term. eapply goods_nt; [eassumption|]. parts.
    + intros s. reflexivity.
    + intros s. reflexivity.
  - destruct (precedence_good _ _ Hp) as (sp & Gp). pose proof (text_good _ _ Ht) as Gt.
    node 4; [apply good_one; node 11|].
    + apply goods_term, goods_term. eapply goods_nt; [eassumption|]. apply goods_term. eapply (goods_nt 10 _ [t]); [exact Gt|]. parts.
    + intros s. cbn [rev app]. unfold reduce_token_rule. cbn [pop bind pop_token tl pop_precedence]. rewrite (token_pattern_complete _ _ Ht). reflexivity.
    + intros s. reflexivity.
Qed.

Lemma rules_good : forall rules ts, Rules rules ts -> good 0 (zero_span, ARules (rev rules)) ts.
Proof.
  induction 1 as [r ts H|r ts rs ts' H Hs IH].
  - node 0; [apply good_one, rule_good; eassumption|]. intros s. destruct r. reflexivity.
  - node 1; [eapply goods_nt; [apply rule_good; eassumption|apply good_one; eassumption]|]. intros s. destruct r. reflexivity.
Qed.

(** ** Sorting *)

Lemma sort_consists : forall rules out, sort_rules rules = Ok out <-> consists_of out rules.
Proof.
  intros rules out.
  assert (forall rules, map (fun t : spanned token_rule => (fst t, FToken (snd t))) (flat_map (fun r : spanned file_rule => match snd r with FToken t => [(fst r, t)] | _ => [] end) rules) =
    filter (fun r => match snd r with FToken _ => true | _ => false end) rules) as A.
  { induction rules0 as [|[sp [t|t|t]] rs IH]; cbn [flat_map snd fst map app filter]; try exact IH; try (f_equal; exact IH); reflexivity. }
  assert (forall rules, map (fun t : spanned prod_rule => (fst t, FProd (snd t))) (flat_map (fun r : spanned file_rule => match snd r with FProd t => [(fst r, t)] | _ => [] end) rules) =
    filter (fun r => match snd r with FProd _ => true | _ => false end) rules) as B.
  { induction rules0 as [|[sp [t|t|t]] rs IH]; cbn [flat_map snd fst map app filter]; try exact IH; try (f_equal; exact IH); reflexivity. }
  assert (forall rules, map (fun t : spanned string => (fst t, FEntry (snd t))) (flat_map (fun r : spanned file_rule => match snd r with FEntry t => [(fst r, t)] | _ => [] end) rules) =
    filter (fun r => match snd r with FEntry _ => true | _ => false end) rules) as C.
  { induction rules0 as [|[sp [t|t|t]] rs IH]; cbn [flat_map snd fst map app filter]; try exact IH; try (f_equal; exact IH); reflexivity. }
  specialize (A rules). specialize (B rules). specialize (C rules). unfold sort_rules.
  assert (forall X (f : X -> spanned file_rule), (forall x y, f x = f y -> x = y) -> forall l l', map f l = map f l' -> l = l') as I.
  { intros X f Hf. induction l as [|x l IH]; intros [|y l'] E; cbn in E; try discriminate; auto. injection E as E1 E2. f_equal; auto. }
  split.
  - intros H. match type of H with match ?x with _ => _ end = _ => destruct x as [|e [|]] eqn:E; try discriminate H end. injection H as <-. split; cbn [sr_tokens sr_prods sr_entry]; auto. apply (f_equal (map (fun t : spanned string => (fst t, FEntry (snd t))))) in E. symmetry. etransitivity; [symmetry; exact C|exact E].
  - intros [Ht Hp He]. rewrite <- A in Ht. rewrite <- B in Hp. rewrite <- C in He.
    apply I in Ht; [|intros [] [] E; injection E as -> ->; reflexivity]. apply I in Hp; [|intros [] [] E; injection E as -> ->; reflexivity].
    change [(fst (sr_entry out), FEntry (snd (sr_entry out)))] with (map (fun t : spanned string => (fst t, FEntry (snd t))) [sr_entry out]) in He.
    apply I in He; [|intros [] [] E; injection E as -> ->; reflexivity]. unfold spanned in *. rewrite <- Ht, <- Hp, <- He. destruct out. reflexivity.
Qed.

(** ** The parser *)

Lemma parse_ok : forall fuel ts tr v, parse_tree lapex_g tr -> iyield tr = map fst ts -> (forall s rest, foldM step (post_order tr) (s, map snd ts ++ rest) = Ok (v :: s, rest)) ->
  length (post_order tr) < fuel ->
  parse_tokens regex lapex_gen fuel ts eof = match v with (_, ARules rules) => sort_rules rules | _ => Panic end.
Proof.
  intros fuel ts tr v Ht Hy Hs Hf. unfold parse_tokens.
  pose proof (complete_whole _ _ _ _ _ _ lapex_g_wf lapex_tb_ok lapex_p_ok lapex_g_front lapex_g_ne lapex_g_nl tr Ht fuel Hf) as E. rewrite Hy in E.
  change (gn_parser lapex_gen) with lapex_p. rewrite E. change (gn_visits lapex_gen) with lapex_visits.
  specialize (Hs [] []). rewrite app_nil_r in Hs. runs Hs. cbn [bind]. destruct v as [sp []]; reflexivity.
Qed.

Lemma reads : forall rules ts, Rules rules ts -> exists n, forall fuel, n < fuel -> parse_tokens regex lapex_gen fuel ts eof = sort_rules (rev rules).
Proof.
  intros rules ts H. destruct (rules_good _ _ H) as (tr & A & B & C). exists (length (post_order tr)). intros fuel Hf. exact (parse_ok fuel ts tr _ A B C Hf).
Qed.

Lemma entry_of_lapex : g_entry lapex_g = NonTerminal 0.
Proof. vm_compute. reflexivity. Qed.

Lemma parse_sound : forall fuel ts, Forall fitting ts ->
  match parse_tokens regex lapex_gen fuel ts eof with
  | Ok out => exists rules, Rules rules ts /\ consists_of out (rev rules)
  | Err _ => False
  | _ => True
  end.
Proof.
  intros fuel ts Hf. unfold parse_tokens. change (gn_parser lapex_gen) with lapex_p. destruct (lr_parse fuel lapex_p (map fst ts)) as [ev r] eqn:E. destruct r as [rest| | |]; auto.
  destruct (accepts_tree _ _ _ _ _ _ lapex_g_wf lapex_tb_ok lapex_p_ok fuel (map fst ts) ev rest E) as (tr & Ht & -> & Ew).
  assert (rest = []) as -> by (exact (lr1_whole _ _ _ _ _ _ lapex_g_wf lapex_tb_ok lapex_p_ok eq_refl lapex_g_nl fuel (map fst ts) (post_order tr) rest E)). rewrite app_nil_r in Ew.
  unfold parse_tree in Ht. rewrite entry_of_lapex in Ht.
  assert (map fst ts = iyields [tr]) as Ew'. { unfold iyields. cbn [map concat]. rewrite app_nil_r. exact Ew. }
  pose proof (trees_sound [NonTerminal 0] [tr] Ht ts Ew' Hf [] []) as X. unfold post_orders in X. cbn [map concat] in X. rewrite !app_nil_r in X. change (gn_visits lapex_gen) with lapex_visits.
  destruct X as [X|(vs & X & Y)]; runs X; cbn [bind]; auto.
  inversion Y as [| | |i v al vs' us ts' Hv Hn]; subst. inversion Hn; subst. cbn [rev app]. destruct Hv as (rules & Hr & ->). rewrite app_nil_r.
  destruct (sort_rules (rev rules)) as [out|e| |] eqn:Es; auto.
  - exists rules. split; auto. apply sort_consists. auto.
  - unfold sort_rules in Es. match type of Es with match ?x with _ => _ end = _ => destruct x as [|e' [|]]; discriminate Es end.
Qed.

Lemma sort_total : forall rules, sort_rules rules = Panic \/ exists out, sort_rules rules = Ok out.
Proof. intros rules. unfold sort_rules. match goal with |- match ?x with _ => _ end = _ \/ _ => destruct x as [|e [|]]; eauto end. Qed.

Lemma rules_unique : forall rules rules' ts, Rules rules ts -> Rules rules' ts -> rules = rules'.
Proof.
  intros rules rules' ts H H'. destruct (rules_good _ _ H) as (tr & A & B & C). destruct (rules_good _ _ H') as (tr' & A' & B' & C').
  assert (tr = tr') as <-.
  { apply (conflict_free_unambiguous _ _ _ _ _ _ lapex_g_wf lapex_tb_ok lapex_p_ok lapex_g_front lapex_g_ne lapex_g_nl); [exact A|exact A'|congruence]. }
  specialize (C [] []). specialize (C' [] []). rewrite C in C'. injection C' as E. rewrite <- (rev_involutive rules), <- (rev_involutive rules'), E. auto.
Qed.
End Input.
