(** Execution of the generated lexer (C06-C10). *)
From Coq Require Import String List Arith NArith Bool Lia.
From Verif Require Import Base InputModel LexerModel LexerSpec GraphProof AlphabetProof NfaProof NfaLang
  PowersetProof ConvertProof PrecedenceProof LexerProof.
Import ListNotations.
Open Scope nat_scope.

Definition default_action (s : astate token_rule) : lex_action :=
  match s with Accepting r => ActToken r | Intermediate _ => ActUnexpected end.

Definition fits (state symbol : nat) (c : lex_case) : bool :=
  let '(s, t, _) := c in (s =? state) && match t with Some t => t =? symbol | None => true end.

Lemma find_app : forall A (f : A -> bool) l l', find f (l ++ l') = match find f l with Some a => Some a | None => find f l' end.
Proof. induction l as [|a l IH]; intros; simpl; auto. destruct (f a); auto. Qed.

Lemma find_none_all : forall A (f : A -> bool) l, (forall a, In a l -> f a = false) -> find f l = None.
Proof. induction l as [|a l IH]; intros H; simpl; auto. rewrite H by (left; auto). apply IH. intros; apply H; right; auto. Qed.

Lemma state_cases_id : forall d k s c, In c (state_cases d k s) -> fst (fst c) = k.
Proof.
  intros d k s c H. unfold state_cases in H. rewrite !in_app_iff in H. destruct H as [H|[H|H]].
  - destruct (k =? 0); [|destruct H]. destruct H as [<-|[]]. reflexivity.
  - apply in_flat_map in H. destruct H as [[t v] [_ H]]. destruct (t =? 0); [destruct H|]. destruct H as [<-|[]]. reflexivity.
  - destruct s; destruct H as [<-|[]]; reflexivity.
Qed.

Lemma find_cases : forall d nodes k0 k sym s, nth_error nodes k = Some s ->
  find (fits (k0 + k) sym) (automaton_cases_from d k0 nodes) = find (fits (k0 + k) sym) (state_cases d (k0 + k) s).
Proof.
  induction nodes as [|s0 nodes IH]; intros k0 k sym s H; [destruct k; discriminate|].
  cbn [automaton_cases_from]. rewrite find_app. destruct k as [|k]; simpl in H.
  - injection H as ->. rewrite Nat.add_0_r. destruct (find (fits k0 sym) (state_cases d k0 s)) eqn:E; auto.
    apply find_none_all. intros c Hc.
    assert (X : forall nodes k1, k0 < k1 -> In c (automaton_cases_from d k1 nodes) -> fits k0 sym c = false).
    { clear. induction nodes as [|s nodes IH]; intros k1 Hk Hc; [destruct Hc|]. cbn [automaton_cases_from] in Hc.
      apply in_app_or in Hc. destruct Hc as [Hc|Hc].
      - apply state_cases_id in Hc. destruct c as [[a b] x]. simpl in *. subst a. destruct (Nat.eqb_spec k1 k0); auto; lia.
      - apply (IH (S k1)); auto. }
    apply (X nodes (S k0)); auto.
  - rewrite find_none_all.
    + replace (k0 + S k) with (S k0 + k) by lia. apply IH. auto.
    + intros c Hc. apply state_cases_id in Hc. destruct c as [[a b] x]. simpl in *. subst a.
      destruct (Nat.eqb_spec k0 (k0 + S k)); auto; lia.
Qed.

Lemma select_case_spec : forall d k sym s, deterministic (dfa_edges d) -> nth_error (dfa_nodes d) k = Some s ->
  (k = 0 -> sym = 0 -> select_case (automaton_cases d) k sym = Some ActEof) /\
  (forall v, sym <> 0 -> In (k, sym, v) (dfa_edges d) -> select_case (automaton_cases d) k sym = Some (ActMove v)) /\
  ((k <> 0 \/ sym <> 0) -> (sym = 0 \/ forall v, ~ In (k, sym, v) (dfa_edges d)) ->
     select_case (automaton_cases d) k sym = Some (default_action s)).
Proof.
  intros d k sym s Hdet Hs.
  assert (E0 : select_case (automaton_cases d) k sym = option_map snd (find (fits k sym) (state_cases d k s))).
  { unfold select_case, automaton_cases. f_equal. apply (find_cases d (dfa_nodes d) 0 k sym s Hs). }
  rewrite E0. unfold state_cases. rewrite !find_app.
  set (moves := flat_map _ _).
  set (first := if k =? 0 then _ else _).
  assert (Hmoves : forall c, In c moves -> exists t v, c = (k, Some t, ActMove v) /\ t <> 0 /\ In (k, t, v) (dfa_edges d)).
  { intros c Hc. unfold moves in Hc. apply in_flat_map in Hc. destruct Hc as [[t v] [H1 H2]]. destruct (Nat.eqb_spec t 0); [destruct H2|].
    destruct H2 as [<-|[]]. exists t, v. split; auto. split; auto. apply out_edges_In. auto. }
  assert (Hmoves2 : forall t v, t <> 0 -> In (k, t, v) (dfa_edges d) -> In (k, Some t, ActMove v) moves).
  { intros t v Ht Hin. unfold moves. apply in_flat_map. exists (t, v). split; [apply out_edges_In; auto|].
    destruct (Nat.eqb_spec t 0); [congruence|left; auto]. }
  set (last := match s with Accepting _ => _ | Intermediate _ => _ end).
  assert (Hlast : find (fits k sym) last = Some (k, None, default_action s)).
  { unfold last. destruct s; simpl; rewrite Nat.eqb_refl; reflexivity. }
  assert (Hnom : (sym = 0 \/ forall v, ~ In (k, sym, v) (dfa_edges d)) -> find (fits k sym) moves = None).
  { intros Hor. apply find_none_all. intros c Hc. destruct (Hmoves c Hc) as [t [v [-> [Ht Hin]]]]. simpl.
    rewrite Nat.eqb_refl. simpl. destruct (Nat.eqb_spec t sym) as [->|]; auto. destruct Hor as [Hor|Hor]; [congruence|].
    exfalso. eapply Hor; eauto. }
  assert (Heof : (k <> 0 \/ sym <> 0) -> find (fits k sym) first = None).
  { intros Hor. unfold first. destruct (Nat.eqb_spec k 0); auto. simpl. rewrite Nat.eqb_refl. simpl. destruct sym; auto. lia. }
  unfold lex_case in *.
  split; [|split].
  - intros -> ->. unfold first. reflexivity.
  - intros v Hsym Hin. rewrite Heof by auto.
    assert (X : find (fits k sym) moves = Some (k, Some sym, ActMove v)).
    { destruct (find (fits k sym) moves) as [c|] eqn:Ef.
      - apply find_some in Ef. destruct Ef as [H1 H2]. destruct (Hmoves c H1) as [t [v' [-> [Ht Hin']]]].
        simpl in H2. rewrite Nat.eqb_refl in H2. simpl in H2. apply Nat.eqb_eq in H2. subst t.
        assert (v' = v) by (eapply Hdet; eauto). subst v'. reflexivity.
      - exfalso. eapply find_none in Ef; [|apply Hmoves2; eauto]. simpl in Ef. rewrite !Nat.eqb_refl in Ef. discriminate. }
    unfold lex_case in *. rewrite X. reflexivity.
  - intros H1 H2. rewrite Heof by auto. rewrite Hnom by auto. rewrite Hlast. reflexivity.
Qed.


Section Run.
Variable rules : list token_rule.
Variable al : alphabet.
Variable d : dfa token_rule.
Hypothesis HF : lex_facts rules al d.

Lemma idx_zero : forall c, valid_char c -> (idx al c = 0 <-> c = 0%N).
Proof.
  intros c Hc. destruct (lf_zero _ _ _ HF) as [rest Hz]. pose proof (lf_al _ _ _ HF) as Hal. split.
  - intros H. destruct (idx_spec al Hal c Hc) as [s [e [_ [H2 H3]]]]. rewrite H, Hz in H2. simpl in H2. injection H2 as <- <-. lia.
  - intros ->. destruct (idx_spec al Hal 0%N Hc) as [s [e [H1 _]]]. rewrite Hz in H1. simpl in H1. unfold get_alphabet_index in H1.
    simpl in H1. congruence.
Qed.

Lemma head_valid : forall iter, Forall valid_char iter -> valid_char (head_char iter).
Proof. intros [|c iter] H; simpl; [unfold valid_char; lia|inversion H; auto]. Qed.

Definition result_ok (u v rest : list N) (k : nat) (r : token_type + lexer_error) : Prop :=
  match r with
  | inl EndOfFile => u ++ v = [] /\ at_end rest
  | inl (Tk t) => best_rule rules (u ++ v) t /\ ~ (u ++ v = [] /\ at_end rest)
  | inr (InvalidChar _) => False
  | inr (UnexpectedAlphabet (a, b)) => ~ matched rules (u ++ v) /\ ~ (u ++ v = [] /\ at_end rest) /\
      (a <= head_char rest <= b)%N /\ In (a, b) al
  end.

Lemma lexer_loop_spec : forall iter u pos k, Forall valid_char iter -> Forall valid_char u ->
  run (dfa_edges d) 0 (map (idx al) u) k ->
  exists v rest k' r, lexer_loop al (automaton_cases d) iter pos k = Ok (rest, (pos + byte_len v)%N, r) /\
    iter = v ++ rest /\ ~ In 0%N v /\ run (dfa_edges d) 0 (map (idx al) (u ++ v)) k' /\
    (at_end rest \/ forall k'', ~ run (dfa_edges d) 0 (map (idx al) (u ++ v ++ [head_char rest])) k'') /\
    result_ok u v rest k' r.
Proof.
  pose proof (lf_al _ _ _ HF) as Hal.
  assert (Hrun0 : forall u k, Forall valid_char u -> run (dfa_edges d) 0 (map (idx al) u) k -> k = 0 -> u = []).
  { intros u k Hu Hr ->. apply (lf_start _ _ _ HF) in Hr. destruct u; auto; discriminate. }
  assert (Hdetrun : forall w a k1 k2, run (dfa_edges d) a w k1 -> run (dfa_edges d) a w k2 -> k1 = k2).
  { induction w as [|t w IH]; intros a k1 k2 H1 H2; inversion H1; inversion H2; subst; auto.
    assert (v = v0) by (eapply (lf_det _ _ _ HF); eauto). subst. eauto. }
  assert (Hstop : forall iter u pos k, Forall valid_char iter -> Forall valid_char u ->
    run (dfa_edges d) 0 (map (idx al) u) k ->
    (at_end iter \/ forall v, ~ In (k, idx al (head_char iter), v) (dfa_edges d)) ->
    exists r, lexer_loop al (automaton_cases d) iter pos k = Ok (iter, pos, r) /\ result_ok u [] iter k r).
  { intros iter u pos k Hi Hu Hr Hor. pose proof (head_valid _ Hi) as Hh.
    assert (Hk : k < length (dfa_nodes d)).
    { inversion Hr; subst; [apply (lf_pos _ _ _ HF)|]. clear - HF Hr.
      assert (X : forall a w b, run (dfa_edges d) a w b -> a < length (dfa_nodes d) -> b < length (dfa_nodes d)).
      { induction 1; auto. intros _. apply IHrun. apply (lf_range _ _ _ HF) in H. tauto. }
      eapply X; eauto. apply (lf_pos _ _ _ HF). }
    destruct (nth_error_ex _ (dfa_nodes d) k Hk) as [s Hs].
    destruct (idx_spec al Hal _ Hh) as [sa [ea [G1 [G2 G3]]]].
    destruct (select_case_spec d k (idx al (head_char iter)) s (lf_det _ _ _ HF) Hs) as [S1 [S2 S3]].
    assert (Hat : at_end iter -> idx al (head_char iter) = 0).
    { intros H. apply idx_zero; auto. destruct iter; simpl in *; auto. }
    assert (Hat' : idx al (head_char iter) = 0 -> at_end iter).
    { intros H. apply idx_zero in H; auto. destruct iter; simpl in *; auto. }
    assert (Hloop : lexer_loop al (automaton_cases d) iter pos k =
      match select_case (automaton_cases d) k (idx al (head_char iter)) with
      | None => Panic
      | Some ActEof => Ok (iter, pos, inl EndOfFile)
      | Some (ActToken r) => Ok (iter, pos, inl (Tk r))
      | Some ActUnexpected => match get_alphabet_range al (idx al (head_char iter)) with
          None => Panic | Some r => Ok (iter, pos, inr (UnexpectedAlphabet r)) end
      | Some (ActMove target) => match iter with [] => Panic
          | c :: iter' => lexer_loop al (automaton_cases d) iter' (pos + len_utf8 c)%N target end
      end).
    { destruct iter as [|c iter]; cbn [lexer_loop head_char] in *; rewrite G1; reflexivity. }
    rewrite Hloop. clear Hloop.
    destruct (Nat.eq_dec k 0) as [Hk0|Hk0].
    - assert (u = []) by eauto. subst u.
      destruct (Nat.eq_dec (idx al (head_char iter)) 0) as [Hz|Hz].
      + rewrite S1; auto. eexists. split; [reflexivity|]. simpl. auto.
      + assert (Hna : ~ at_end iter) by auto. destruct Hor as [Hor|Hor]; [tauto|].
        rewrite S3; auto. destruct (lf_label _ _ _ HF [] k) as [[m [L1 L2]]|[r [L1 L2]]]; auto; rewrite Hs in L1; injection L1 as ->; simpl.
        * unfold get_alphabet_range. rewrite G2. eexists. split; [reflexivity|]. simpl. repeat split; auto; try lia; try tauto.
          eapply nth_error_In; eauto.
        * eexists. split; [reflexivity|]. simpl. tauto.
    - assert (Hne : u <> []). { intros ->. inversion Hr; subst. congruence. }
      assert (Hne' : ~ (u ++ [] = [] /\ at_end iter)). { rewrite app_nil_r. tauto. }
      rewrite S3; auto.
      + destruct (lf_label _ _ _ HF u k) as [[m [L1 L2]]|[r [L1 L2]]]; auto; rewrite Hs in L1; injection L1 as ->; simpl.
        * unfold get_alphabet_range. rewrite G2. eexists. split; [reflexivity|]. simpl. rewrite app_nil_r in *. repeat split; auto; try lia.
          eapply nth_error_In; eauto.
        * eexists. split; [reflexivity|]. simpl. rewrite app_nil_r in *. tauto.
      + destruct Hor as [Hor|Hor]; auto. }
  induction iter as [|c iter IH]; intros u pos k Hi Hu Hr.
  - destruct (Hstop [] u pos k Hi Hu Hr) as [r [H1 H2]]; [left; exact I|].
    exists [], [], k, r. rewrite H1. cbn [byte_len fold_right]. rewrite N.add_0_r.
    split; [auto|]. split; [auto|]. split; [intros []|]. split; [rewrite app_nil_r; auto|]. split; [left; exact I|auto].
  - inversion Hi as [|? ? Hc Hi']; subst.
    assert (Hk : k < length (dfa_nodes d)).
    { clear - HF Hr.
      assert (X : forall a w b, run (dfa_edges d) a w b -> a < length (dfa_nodes d) -> b < length (dfa_nodes d)).
      { induction 1; auto. intros _. apply IHrun. apply (lf_range _ _ _ HF) in H. tauto. }
      eapply X; eauto. apply (lf_pos _ _ _ HF). }
    assert (D : at_end (c :: iter) \/ (~ at_end (c :: iter) /\ ((exists v, In (k, idx al c, v) (dfa_edges d)) \/ forall v, ~ In (k, idx al c, v) (dfa_edges d)))).
    { simpl. destruct (N.eq_dec c 0); auto. right. split; auto.
      destruct (find (fun e => let '(a, b, _) := e in (a =? k) && (b =? idx al c)) (dfa_edges d)) as [[[a b] v]|] eqn:Ef.
      - apply find_some in Ef. destruct Ef as [H1 H2]. apply andb_true_iff in H2. destruct H2 as [H2 H3].
        apply Nat.eqb_eq in H2, H3. subst. left. eauto.
      - right. intros v Hin. eapply find_none in Ef; eauto. simpl in Ef. rewrite !Nat.eqb_refl in Ef. discriminate. }
    destruct D as [D|[D [[t Ht]|D2]]].
    + destruct (Hstop (c :: iter) u pos k Hi Hu Hr (or_introl D)) as [r [H1 H2]].
      exists [], (c :: iter), k, r. rewrite H1. cbn [byte_len fold_right]. rewrite N.add_0_r.
      split; [auto|]. split; [auto|]. split; [intros []|]. split; [rewrite app_nil_r; auto|]. split; [left; exact D|auto].
    + assert (Hz : idx al c <> 0). { rewrite idx_zero; auto. }
      destruct (nth_error_ex _ (dfa_nodes d) k Hk) as [s Hs].
      destruct (select_case_spec d k (idx al c) s (lf_det _ _ _ HF) Hs) as [_ [S2 _]].
      destruct (idx_spec al Hal c Hc) as [sa [ea [G1 _]]].
      cbn [lexer_loop]. rewrite G1. rewrite (S2 t Hz Ht).
      assert (Hr' : run (dfa_edges d) 0 (map (idx al) (u ++ [c])) t).
      { rewrite map_app. eapply run_trans; eauto. simpl. econstructor; eauto. constructor. }
      destruct (IH (u ++ [c]) (pos + len_utf8 c)%N t) as [v [rest [k' [r [H1 [H2 [H3 [H4 [H5 H6]]]]]]]]]; auto.
      { apply Forall_app; auto. }
      exists (c :: v), rest, k', r. rewrite H1. split.
      { f_equal. f_equal. f_equal. cbn [byte_len fold_right]. fold (byte_len v). lia. }
      split; [rewrite H2; reflexivity|]. split; [intros [->|Hin]; [simpl in D; congruence|auto]|].
      rewrite <- app_assoc in H4, H5. split; [exact H4|]. split; [exact H5|].
      unfold result_ok in *. rewrite <- app_assoc in H6. exact H6.
    + destruct (Hstop (c :: iter) u pos k Hi Hu Hr (or_intror D2)) as [r [H1 H2]].
      exists [], (c :: iter), k, r. rewrite H1. cbn [byte_len fold_right]. rewrite N.add_0_r.
      split; [auto|]. split; [auto|]. split; [intros []|]. split; [rewrite app_nil_r; auto|]. split; [|auto].
      right. intros k'' Hr''. simpl in Hr''. rewrite map_app in Hr''. apply run_app_inv in Hr''. destruct Hr'' as [y [Y1 Y2]].
      assert (y = k) by eauto. subst y. inversion Y2; subst. eapply D2; eauto.
Qed.

End Run.
