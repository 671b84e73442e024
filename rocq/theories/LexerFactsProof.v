(** Final lemmas about the lexer pipeline, in the form used by the property theorems. *)
From Coq Require Import String List Arith NArith Bool Lia.
From Verif Require Import Base InputModel LexerModel LexerSpec GraphProof AlphabetProof NfaProof NfaLang
  PowersetProof ConvertProof PrecedenceProof LexerProof LexerRunProof.
Import ListNotations.
Open Scope nat_scope.

(** ** Alphabet *)

Lemma contiguous_adjacent : forall lo al hi, contiguous lo al hi -> forall i s e s' e',
  nth_error al i = Some (s, e) -> nth_error al (S i) = Some (s', e') -> s' = (e + 1)%N.
Proof.
  induction 1; intros i s1 e1 s2 e2 H1 H2; [destruct i; discriminate|].
  destruct i; simpl in *; [|eauto]. injection H1 as <- <-. inversion H0; subst; simpl in H2; [discriminate|].
  injection H2 as <- <-. reflexivity.
Qed.

Lemma alphabet_ok : forall rules, valid_rules rules -> exists al, generate_alphabet rules = Ok al /\
  (forall c, valid_char c -> exists! i, exists s e, nth_error al i = Some (s, e) /\ (s <= c <= e)%N) /\
  (forall i s e, nth_error al i = Some (s, e) -> (s <= e <= CHAR_MAX)%N) /\
  (forall i s e s' e', nth_error al i = Some (s, e) -> nth_error al (S i) = Some (s', e') -> s' = (e + 1)%N) /\
  nth_error al 0 = Some (0, 0)%N /\
  (forall r c, In r rules -> mentions c (rule_pattern r) -> In (c, c) al) /\
  (forall c, valid_char c -> exists i s e, find_range al c = Ok (Some i) /\ nth_error al i = Some (s, e) /\ (s <= c <= e)%N).
Proof.
  intros rules Hv. destruct (generate_alphabet_total rules) as [al Hal]. exists al. split; auto.
  destruct (generate_alphabet_spec rules al Hv Hal) as [H1 [H2 [rest ->]]].
  split; [|split; [|split; [|split; [|split]]]]; auto.
  - intros c Hc. unfold valid_char in Hc. destruct (contiguous_cover _ _ _ H1 c) as [i [s [e [A B]]]]; [lia|].
    exists i. split; [eauto|]. intros j [s' [e' [A' B']]]. eapply contiguous_unique; eauto.
  - intros i s e Hi. apply (contiguous_bounds _ _ _ H1) in Hi. lia.
  - eapply contiguous_adjacent; eauto.
  - intros c Hc. unfold valid_char in Hc. eapply find_range_spec; eauto. lia.
Qed.

(** Characters of the same range are interchangeable in every rule. *)
Lemma class_lang : forall al, contiguous 0%N al (CHAR_MAX + 1)%N -> forall p, known al p ->
  exists L : lang nat, forall w, Forall valid_char w -> (L (map (idx al) w) <-> matches p w).
Proof.
  intros al Hal p. induction p as [l IH|l IH|mn mx p IH|cs b|c] using pattern_ind'; intros Hk.
  - apply known_seq in Hk. revert Hk. induction IH as [|p l Hp Hl IHl]; intros Hk.
    + exists (fun w => w = []). intros w Hw. simpl. apply nil_map.
    + inversion Hk; subst. destruct (Hp H1) as [L1 E1]. destruct (IHl H2) as [L2 E2]. exists (lcat L1 L2).
      intros w Hw. change (lcat L1 L2 (map (idx al) w) <-> lcat (matches p) (matches (PSeq l)) w). apply lcat_map; auto.
  - apply known_alt in Hk. revert Hk. induction IH as [|p l Hp Hl IHl]; intros Hk.
    + exists (fun w => False). intros w Hw. simpl. tauto.
    + inversion Hk; subst. destruct (Hp H1) as [L1 E1]. destruct (IHl H2) as [L2 E2]. exists (fun w => L1 w \/ L2 w).
      intros w Hw. change (L1 (map (idx al) w) \/ L2 (map (idx al) w) <-> matches p w \/ matches (PAlt l) w).
      rewrite E1, E2 by auto. tauto.
  - apply known_rep in Hk. destruct (IH Hk) as [L EL]. exists (lrep mn mx L). intros w Hw. simpl. unfold lrep.
    split; intros [k [H1 [H2 H3]]]; exists k; (split; [auto|split; [auto|]]); eapply lpow_map; eauto.
  - exists (lmatches al (PSet cs b)). intros w Hw. apply lmatches_matches; auto.
  - exists (lmatches al (PChar c)). intros w Hw. apply lmatches_matches; auto.
Qed.

Lemma range_idx : forall al, contiguous 0%N al (CHAR_MAX + 1)%N -> forall s e c c', In (s, e) al -> (s <= c <= e)%N -> (s <= c' <= e)%N ->
  idx al c = idx al c'.
Proof.
  intros al Hal s e c c' Hin Hc Hc'. apply In_nth_error in Hin. destruct Hin as [i Hi].
  pose proof (contiguous_bounds _ _ _ Hal _ _ _ Hi) as Hb.
  destruct (idx_spec al Hal c) as [s1 [e1 [_ [A1 B1]]]]; [unfold valid_char; lia|].
  destruct (idx_spec al Hal c') as [s2 [e2 [_ [A2 B2]]]]; [unfold valid_char; lia|].
  transitivity i.
  - eapply contiguous_unique; eauto.
  - symmetry. eapply contiguous_unique; eauto.
Qed.

Lemma class_equiv : forall rules al, valid_rules rules -> generate_alphabet rules = Ok al ->
  forall w w', Forall2 (fun c c' => exists s e, In (s, e) al /\ (s <= c <= e)%N /\ (s <= c' <= e)%N) w w' ->
  forall r, In r rules -> (rule_matches r w <-> rule_matches r w').
Proof.
  intros rules al Hv Hg w w' HF r Hr. destruct (generate_alphabet_spec rules al Hv Hg) as [Hal [H2 _]].
  assert (Hk : known al (rule_pattern r)). { intros c Hc. split; eauto. }
  destruct (class_lang al Hal _ Hk) as [L EL].
  assert (Hvw : forall w w', Forall2 (fun c c' => exists s e, In (s, e) al /\ (s <= c <= e)%N /\ (s <= c' <= e)%N) w w' ->
    Forall valid_char w /\ Forall valid_char w' /\ map (idx al) w = map (idx al) w').
  { clear w w' HF. induction 1 as [|c c' w w' [s [e [Hin [Hc Hc']]]] HF IH]; [auto|].
    destruct IH as [I1 [I2 I3]]. assert (Hb : (e <= CHAR_MAX)%N).
    { apply In_nth_error in Hin. destruct Hin as [i Hi]. apply (contiguous_bounds _ _ _ Hal) in Hi. lia. }
    split; [constructor; auto; unfold valid_char; lia|]. split; [constructor; auto; unfold valid_char; lia|].
    simpl. f_equal; auto. eapply range_idx; eauto. }
  destruct (Hvw _ _ HF) as [V1 [V2 V3]]. unfold rule_matches. rewrite <- !EL by auto. rewrite V3. tauto.
Qed.

(** ** NFA *)

Lemma indices_idx : forall al, contiguous 0%N al (CHAR_MAX + 1)%N -> forall w ws,
  Forall valid_char w -> Forall2 (fun c i => find_range al c = Ok (Some i)) w ws -> ws = map (idx al) w.
Proof.
  intros al Hal w ws Hv H. induction H; auto. inversion Hv; subst. simpl. f_equal; auto.
  rewrite find_range_idx in H by auto. congruence.
Qed.

Lemma nfa_ok : forall rules al start g, valid_rules rules -> generate_alphabet rules = Ok al ->
  generate_nfa al rules = Ok (start, g) ->
  exists accs, length accs = length rules /\
  (forall x a, nth_error (nfa_nodes g) x = Some (Accepting a) <-> exists i, nth_error accs i = Some x /\ nth_error rules i = Some a) /\
  (forall i x r, nth_error accs i = Some x -> nth_error rules i = Some r ->
     forall w ws, Forall valid_char w -> Forall2 (fun c i => find_range al c = Ok (Some i)) w ws ->
     (path (nfa_edges g) start ws x <-> matches (norm (rule_pattern r)) w)).
Proof.
  intros rules al start g Hv Hg Hn. destruct (generate_alphabet_spec rules al Hv Hg) as [Hal [H2 _]].
  assert (Hk : forall r, In r rules -> known al (rule_pattern r)). { intros r Hr c Hc. split; eauto. }
  destruct (generate_nfa_spec al Hal rules start g Hk Hn) as [-> [accs HI]]. exists accs.
  split; [apply HI|]. split; [apply HI|]. intros i x r Hx Hr w ws Hw HF.
  rewrite (indices_idx al Hal w ws Hw HF). rewrite (ni_lang _ _ _ _ HI i x r Hx Hr).
  apply lmatches_matches; auto. apply Hk. eapply nth_error_In; eauto.
Qed.

Lemma nfa_panics : forall rules al, valid_rules rules -> generate_alphabet rules = Ok al ->
  (Exists (fun r => bad_repetition (rule_pattern r)) rules <-> generate_nfa al rules = Panic) /\
  (~ Exists (fun r => bad_repetition (rule_pattern r)) rules <-> exists start g, generate_nfa al rules = Ok (start, g)).
Proof.
  intros rules al Hv Hg. destruct (generate_alphabet_spec rules al Hv Hg) as [Hal [H2 _]].
  destruct (generate_nfa_total al rules Hal) as [[H3 H4]|[H3 [[st g] H4]]].
  - intros r Hr c Hc. split; eauto.
  - split; split; auto; [tauto|]. intros [st [g H]]. congruence.
  - split; split; auto; [tauto| |eauto]. intros H. congruence.
Qed.

(** ** Powerset construction *)

Definition nfa_label {A} (g : nfa A) (x : nat) : option A :=
  match nth_error (nfa_nodes g) x with Some (Accepting a) => Some a | _ => None end.

Lemma accepts_along : forall A (g : nfa A) c, labels_along (nfa_label g) c (accepts_of g c).
Proof.
  intros A g c. unfold accepts_of. induction c as [|x c [c' [H1 H2]]]; simpl.
  - exists []. split; constructor.
  - destruct (nth_error (nfa_nodes g) x) as [[a|m]|] eqn:E; simpl.
    + exists (x :: c'). assert (nfa_label g x = Some a) by (unfold nfa_label; rewrite E; auto). split; constructor; auto. congruence.
    + exists c'. assert (nfa_label g x = None) by (unfold nfa_label; rewrite E; auto). split; auto. constructor 3; auto.
    + exists c'. assert (nfa_label g x = None) by (unfold nfa_label; rewrite E; auto). split; auto. constructor 3; auto.
Qed.

Lemma powerset_ok : forall A (g : nfa A) entry,
  (forall u l v, In (u, l, v) (nfa_edges g) -> u < length (nfa_nodes g) /\ v < length (nfa_nodes g)) ->
  entry < length (nfa_nodes g) ->
  exists d fuel0, (forall fuel, fuel0 <= fuel -> powerset_construction fuel g entry = Ok d) /\
  deterministic (dfa_edges d) /\
  (forall w, (exists k, run (dfa_edges d) 0 w k) <-> exists x, path (nfa_edges g) entry w x) /\
  (forall w k, run (dfa_edges d) 0 w k -> exists c ls s,
     sorted c /\ (forall x, In x c <-> path (nfa_edges g) entry w x) /\ labels_along (nfa_label g) c ls /\
     nth_error (dfa_nodes d) k = Some s /\
     match ls with [] => exists m, s = Intermediate m | _ => s = Accepting ls end).
Proof.
  intros A g entry Hwf He.
  destruct (powerset_total g Hwf entry He (2 ^ length (nfa_nodes g) + length (nfa_nodes g) + 1)) as [d Hd]; [lia|].
  exists d, (2 ^ length (nfa_nodes g) + length (nfa_nodes g) + 1). split.
  { intros fuel Hf. eapply powerset_mono; eauto. }
  destruct (powerset_correct g _ entry d He Hd) as [P1 [P2 [P3 [P4 [P5 [P6 P7]]]]]].
  split; auto. split; auto. intros w k Hr. destruct (P6 w k Hr) as [c [s [Q1 [Q2 [Q3 Q4]]]]].
  exists c, (accepts_of g c), s. split; auto. split; auto. split; [apply accepts_along|]. split; auto.
  unfold node_ok in Q4. destruct (accepts_of g c); auto.
Qed.

(** Every answer of the construction is this one. *)
Lemma powerset_any : forall A (g : nfa A) entry d fuel, powerset_construction fuel g entry = Ok d ->
  forall fuel' d', powerset_construction fuel' g entry = Ok d' -> d = d'.
Proof.
  intros A g entry d fuel H fuel' d' H'. apply (powerset_mono g _ (fuel + fuel')) in H; [|lia].
  apply (powerset_mono g _ (fuel + fuel')) in H'; [|lia]. congruence.
Qed.

(** ** Precedence *)

Lemma sole_best_of : forall sel r, sole_max sel r -> best_of sel r.
Proof.
  intros sel r [b [c [H1 H2]]]. exists b, c. split; auto. intros r' Hr. destruct (H2 r' Hr) as [n [n' [Q1 [Q2 Q3]]]].
  apply prec_iff in Q1. apply prec_iff in Q2. eauto.
Qed.

Lemma resolve_best : forall sel r, resolve_precedence sel = Ok r -> best_of sel r.
Proof.
  intros sel r H. destruct sel as [|a l]; [discriminate|].
  assert (Hp : forall r0, In r0 (a :: l) -> exists n, @rule_precedence lex_err r0 = Ok n).
  { unfold resolve_precedence in H. inv_bind H. apply res_list_ok in Hb.
    clear H. induction Hb; intros r0 Hr0; [destruct Hr0|]. destruct Hr0 as [<-|Hr0]; eauto. }
  destruct (resolve_cases (a :: l)) as [h [tied [_ [_ [_ [[r' [_ [Hr' Hsm]]]|[_ Hx]]]]]]]; auto; try discriminate.
  - rewrite Hr' in H. injection H as <-. apply sole_best_of. auto.
  - rewrite Hx in H. discriminate.
Qed.

Lemma precedence_ok : forall old d,
  (forall j t v, In (j, t, v) (dfa_edges old) -> j < length (dfa_nodes old) /\ v < length (dfa_nodes old)) ->
  apply_precedence_to_dfa old = Ok d ->
  Forall2 (fun s s' => match s with
             | Accepting sel => exists r, s' = Accepting r /\ best_of sel r
             | Intermediate _ => exists m, s' = Intermediate m
             end) (dfa_nodes old) (dfa_nodes d) /\
  (forall j t v, In (j, t, v) (dfa_edges d) <-> In (j, t, v) (dfa_edges old)).
Proof.
  intros old d Hw H. destruct (apply_precedence_ok old d Hw H) as [H1 H2]. split; auto.
  clear - H1. induction H1; constructor; auto. destruct x as [sel|m]; simpl in H; auto.
  destruct H as [r [Hr ->]]. exists r. split; auto. apply resolve_best. auto.
Qed.

Lemma generate_lexer_stable : forall rules, valid_rules rules -> no_empty_sequence rules ->
  (forall r, In r rules -> ~ bad_repetition (rule_pattern r)) ->
  exists res fuel0, forall fuel, fuel0 <= fuel -> generate_lexer fuel rules = res.
Proof.
  intros rules Hv Hn Hbad. unfold generate_lexer.
  destruct (generate_alphabet_total rules) as [al Hal]. rewrite Hal. cbn [bind].
  pose proof (pipeline_al rules Hv al Hal) as Hc.
  destruct (generate_nfa_total al rules Hc) as [[Hex _]|[_ [[st g] Hg]]].
  { intros r Hr. eapply rules_known; eauto. }
  { apply Exists_exists in Hex. destruct Hex as [r [Hr Hb]]. exfalso. eapply Hbad; eauto. }
  rewrite Hg. cbn [bind].
  destruct (generate_nfa_spec al Hc) with (rules := rules) (start := st) (g := g) as [-> _]; auto.
  { intros r Hr. eapply rules_known; eauto. }
  destruct (powerset_ok _ g 0) as [d0 [fuel0 [H0 _]]].
  { eapply nfa_bounds; eauto. }
  { eapply nfa_entry; eauto. }
  eexists. exists fuel0. intros fuel Hf. rewrite (H0 fuel Hf). cbn [bind]. reflexivity.
Qed.

Lemma generation_ok : forall rules, valid_rules rules -> no_empty_sequence rules ->
  (forall r, In r rules -> ~ bad_repetition (rule_pattern r)) ->
  (forall r, In r rules -> exists n, has_precedence r n) ->
  exists res fuel0, (forall fuel, fuel0 <= fuel -> generate_lexer fuel rules = res) /\
  match res with
  | Ok (al, d) => (forall u h tied, Forall valid_char u -> ~ tie rules u h tied) /\
      (forall u ws k, Forall valid_char u -> Forall2 (fun c i => find_range al c = Ok (Some i)) u ws -> run (dfa_edges d) 0 ws k ->
         (exists m, nth_error (dfa_nodes d) k = Some (Intermediate m) /\ ~ matched rules u) \/
         (exists r, nth_error (dfa_nodes d) k = Some (Accepting r) /\ best_rule rules u r))
  | Err e => exists u h tied, Forall valid_char u /\ tie rules u h tied /\ e = PrecedenceError tied h
  | _ => False
  end.
Proof.
  intros rules Hv Hn Hb Hp. destruct (generate_lexer_result rules Hv Hn Hb Hp) as [fuel0 Hf].
  destruct (generate_lexer_stable rules Hv Hn Hb) as [res [fuel1 Hs]].
  exists res, fuel1. split; auto. specialize (Hs (fuel0 + fuel1) ltac:(lia)).
  destruct (Hf (fuel0 + fuel1) ltac:(lia)) as [[[al [d H1]] H2]|[u [h [tied [H1 [H2 H3]]]]]].
  - assert (res = Ok (al, d)) as -> by congruence. split; auto.
    pose proof (generate_lexer_facts _ _ _ _ Hv Hn H1) as F. intros u ws k Hu HF Hr.
    apply (indices_idx al (lf_al _ _ _ F)) in HF; auto. subst ws. eapply lf_label; eauto.
  - assert (res = Err (PrecedenceError tied h)) as -> by congruence. exists u, h, tied. auto.
Qed.

(** ** Running the lexer *)

Section Lexer.
Variable rules : list token_rule.
Variable al : alphabet.
Variable d : dfa token_rule.
Hypothesis HF : lex_facts rules al d.

Lemma next_ok : forall lx, Forall valid_char (lx_iter lx) ->
  exists w rest r, lexer_next al d lx = Ok (mkLexer (lx_src lx) rest (lx_position lx) (lx_position lx + byte_len w)%N, r) /\
    lx_iter lx = w ++ rest /\ ~ In 0%N w /\
    (proper_rules rules -> w = [] \/ viable rules w) /\
    (at_end rest \/ ~ viable rules (w ++ [head_char rest])) /\
    match r with
    | inl EndOfFile => w = [] /\ at_end rest
    | inl (Tk t) => best_rule rules w t /\ ~ (w = [] /\ at_end rest)
    | inr (InvalidChar _) => False
    | inr (UnexpectedAlphabet (a, b)) => ~ matched rules w /\ ~ (w = [] /\ at_end rest) /\
        (a <= head_char rest <= b)%N /\ In (a, b) al
    end.
Proof.
  intros lx Hv. destruct (lexer_loop_spec rules al d HF (lx_iter lx) [] (lx_position lx) 0) as [w [rest [k [r [H1 [H2 [H3 [H4 [H5 H6]]]]]]]]]; auto.
  { constructor. }
  exists w, rest, r. unfold lexer_next. rewrite H1. cbn [bind]. split; auto. split; auto. split; auto.
  assert (Hvw : Forall valid_char w /\ Forall valid_char rest) by (rewrite H2 in Hv; apply Forall_app in Hv; auto).
  destruct Hvw as [Hw Hrest]. split; [|split].
  - intros Hp. eapply lf_viable; eauto.
  - destruct H5 as [H5|H5]; auto. right. intros [t [w' [Ht [Hw' Hm]]]].
    destruct (lf_alive _ _ _ HF (w ++ [head_char rest]) w') as [k' Hk'].
    + apply Forall_app. split; auto. apply Forall_app. split; auto. constructor; auto. apply head_valid. auto.
    + eauto.
    + eapply H5. exact Hk'.
  - unfold result_ok in H6. simpl in H6. exact H6.
Qed.

Lemma viable_prefix : forall w c w', Forall valid_char (w ++ c :: w') -> matched rules (w ++ c :: w') -> viable rules (w ++ [c]).
Proof.
  intros w c w' Hv [r [Hr Hm]]. exists r, w'. split; auto. split.
  - apply Forall_app in Hv. destruct Hv as [_ Hv]. inversion Hv; auto.
  - rewrite <- app_assoc. exact Hm.
Qed.

(** No longer match than what was consumed. *)
Lemma longest : forall w rest, Forall valid_char (w ++ rest) -> (at_end rest \/ ~ viable rules (w ++ [head_char rest])) ->
  forall w' rest', w ++ rest = w' ++ rest' -> ~ In 0%N w' -> matched rules w' -> length w' <= length w.
Proof.
  intros w rest Hv Hor w' rest' E Hn Hm. destruct (le_lt_dec (length w') (length w)) as [Hle|Hgt]; auto. exfalso.
  assert (X : exists z, w' = w ++ z /\ rest = z ++ rest').
  { clear - E Hgt. revert w' E Hgt. induction w as [|c w IH]; intros w' E Hgt; simpl in *.
    - exists w'. auto.
    - destruct w' as [|c' w']; [simpl in Hgt; lia|]. simpl in E. injection E as <- E. destruct (IH w' E) as [z [-> ->]]; [simpl in Hgt; lia|].
      exists z. auto. }
  destruct X as [z [-> ->]]. destruct z as [|c z]; [rewrite app_nil_r in Hgt; lia|].
  simpl in Hor. destruct Hor as [Hor|Hor].
  - subst c. apply Hn. apply in_or_app. right. left. auto.
  - apply Hor. eapply viable_prefix; [|exact Hm]. rewrite app_assoc in Hv. apply Forall_app in Hv. tauto.
Qed.

Lemma next_token : forall lx lx' t, Forall valid_char (lx_iter lx) -> lexer_next al d lx = Ok (lx', inl (Tk t)) ->
  exists w, lx_iter lx = w ++ lx_iter lx' /\ best_rule rules w t /\
  forall w' rest', lx_iter lx = w' ++ rest' -> ~ In 0%N w' -> matched rules w' -> length w' <= length w.
Proof.
  intros lx lx' t Hv H. destruct (next_ok lx Hv) as [w [rest [r [H1 [H2 [H3 [H4 [H5 H6]]]]]]]].
  rewrite H1 in H. injection H as <- ->. exists w. split; auto. split; [apply H6|].
  intros w' rest' E. rewrite H2 in E, Hv. exact (longest w rest Hv H5 w' rest' E).
Qed.

(** *** Spans *)

Lemma len_utf8_pos : forall c, (1 <= len_utf8 c)%N.
Proof. intros c. unfold len_utf8. destruct (c <? 128)%N; [lia|]. destruct (c <? 2048)%N; [lia|]. destruct (c <? 65536)%N; lia. Qed.

Lemma byte_len_app : forall u v, byte_len (u ++ v) = (byte_len u + byte_len v)%N.
Proof. induction u; intros v; simpl; auto. unfold byte_len in *. simpl. rewrite IHu. lia. Qed.

Lemma drop_bytes_app : forall u v, drop_bytes (u ++ v) (byte_len u) = Ok v.
Proof.
  induction u as [|c u IH]; intros v; simpl.
  - destruct v; reflexivity.
  - pose proof (len_utf8_pos c). unfold byte_len in *. simpl. fold (byte_len u) in *.
    destruct (N.eqb_spec (len_utf8 c + byte_len u) 0); [lia|]. destruct (N.ltb_spec (len_utf8 c + byte_len u) (len_utf8 c)); [lia|].
    replace (len_utf8 c + byte_len u - len_utf8 c)%N with (byte_len u) by lia. apply IH.
Qed.

Lemma take_bytes_app : forall u v, take_bytes (u ++ v) (byte_len u) = Ok u.
Proof.
  induction u as [|c u IH]; intros v; simpl.
  - destruct v; reflexivity.
  - pose proof (len_utf8_pos c). unfold byte_len in *. simpl. fold (byte_len u) in *.
    destruct (N.eqb_spec (len_utf8 c + byte_len u) 0); [lia|]. destruct (N.ltb_spec (len_utf8 c + byte_len u) (len_utf8 c)); [lia|].
    replace (len_utf8 c + byte_len u - len_utf8 c)%N with (byte_len u) by lia. rewrite IH. reflexivity.
Qed.

Lemma byte_slice_mid : forall u v x, byte_slice (u ++ v ++ x) (byte_len u) (byte_len u + byte_len v) = Ok v.
Proof.
  intros u v x. unfold byte_slice. destruct (N.ltb_spec (byte_len u + byte_len v) (byte_len u)); [lia|].
  rewrite drop_bytes_app. cbn [bind]. replace (byte_len u + byte_len v - byte_len u)%N with (byte_len v) by lia. apply take_bytes_app.
Qed.

(** A run of [n] calls: results with the consumed texts. *)
Lemma run_ok : forall n consumed lx, Forall valid_char (lx_iter lx) -> lx_src lx = consumed ++ lx_iter lx ->
  lx_position lx = byte_len consumed ->
  exists rs texts, lexer_run al d n lx = Ok rs /\ length rs = n /\ length texts = n /\
  forall i lx' r, nth_error rs i = Some (lx', r) ->
    exists w, nth_error texts i = Some w /\ lexer_slice lx' = Ok w /\
    lexer_span lx' = (byte_len (consumed ++ concat (firstn i texts)), byte_len (consumed ++ concat (firstn (S i) texts))) /\
    lx_src lx = consumed ++ concat (firstn (S i) texts) ++ lx_iter lx' /\ lx_src lx' = lx_src lx /\
    (r = inl EndOfFile -> w = [] /\ at_end (lx_iter lx')).
Proof.
  induction n as [|n IH]; intros consumed lx Hv Hs Hp.
  - exists [], []. split; auto. split; auto. split; auto. intros [|i] lx' r H; discriminate.
  - destruct (next_ok lx Hv) as [w [rest [r [H1 [H2 [H3 [_ [_ H6]]]]]]]].
    cbn [lexer_run]. rewrite H1. cbn [bind].
    set (lx1 := mkLexer (lx_src lx) rest (lx_position lx) (lx_position lx + byte_len w)%N) in *.
    destruct (IH (consumed ++ w) lx1) as [rs [texts [R1 [R2 [R3 R4]]]]].
    { simpl. rewrite H2 in Hv. apply Forall_app in Hv. tauto. }
    { simpl. rewrite <- app_assoc. congruence. }
    { simpl. rewrite byte_len_app. lia. }
    exists ((lx1, r) :: rs), (w :: texts). rewrite R1. cbn [bind]. split; auto. split; [simpl; lia|]. split; [simpl; lia|].
    intros [|i] lx' r' Hi; simpl in Hi.
    + injection Hi as <- <-. exists w. split; auto. split.
      { unfold lexer_slice. simpl. rewrite Hp, Hs, H2. apply byte_slice_mid. }
      split. { unfold lexer_span, lx1. cbn [lx_start lx_position firstn concat]. rewrite Hp. f_equal; [rewrite app_nil_r; auto|]. rewrite app_nil_r, byte_len_app. auto. }
      split. { simpl. rewrite app_nil_r. rewrite <- H2. auto. }
      split; auto. intros ->. exact H6.
    + destruct (R4 i lx' r' Hi) as [w' [A1 [A2 [A3 [A4 [A5 A6]]]]]]. exists w'. split; auto. split; auto.
      split. { rewrite A3. cbn [firstn concat]. rewrite <- !app_assoc. reflexivity. }
      split. { simpl in A4. rewrite A4. cbn [firstn concat]. rewrite <- !app_assoc. reflexivity. }
      split; auto.
Qed.

(** *** End of file *)

Lemma next_eof : forall lx, Forall valid_char (lx_iter lx) ->
  (at_end (lx_iter lx) <-> exists lx', lexer_next al d lx = Ok (lx', inl EndOfFile)) /\
  (forall lx', lexer_next al d lx = Ok (lx', inl EndOfFile) ->
     lx' = mkLexer (lx_src lx) (lx_iter lx) (lx_position lx) (lx_position lx)).
Proof.
  intros lx Hv. destruct (next_ok lx Hv) as [w [rest [r [H1 [H2 [H3 [_ [_ H6]]]]]]]].
  assert (Hw0 : at_end (lx_iter lx) -> w = [] /\ at_end rest).
  { intros H. destruct w as [|c w]; [split; auto; rewrite H2 in H; auto|]. exfalso. rewrite H2 in H. simpl in H. subst c. apply H3. left; auto. }
  split; [split|].
  - intros H. apply Hw0 in H. exists (mkLexer (lx_src lx) rest (lx_position lx) (lx_position lx + byte_len w)%N). rewrite H1. f_equal. f_equal.
    destruct r as [[|t]|[c|[a b]]]; auto; tauto.
  - intros [lx' H]. rewrite H1 in H. injection H as <- ->. destruct H6 as [-> H6]. rewrite H2. auto.
  - intros lx' H. rewrite H1 in H. injection H as <- ->. destruct H6 as [-> H6]. rewrite H2. simpl. rewrite N.add_0_r. reflexivity.
Qed.

(** Once at the end, always at the end. *)
Lemma eof_stays : forall n lx, Forall valid_char (lx_iter lx) -> at_end (lx_iter lx) ->
  exists rs, lexer_run al d n lx = Ok rs /\ forall lx' r, In (lx', r) rs -> r = inl EndOfFile /\ lx_iter lx' = lx_iter lx.
Proof.
  induction n as [|n IH]; intros lx Hv He.
  - exists []. split; auto. intros lx' r [].
  - destruct (next_eof lx Hv) as [H1 H2]. apply H1 in He as [lx1 E]. pose proof (H2 _ E) as ->.
    cbn [lexer_run]. rewrite E. cbn [bind].
    destruct (IH (mkLexer (lx_src lx) (lx_iter lx) (lx_position lx) (lx_position lx))) as [rs [R1 R2]]; auto.
    { simpl. apply H1. eauto. }
    rewrite R1. cbn [bind]. eexists. split; [reflexivity|]. intros lx' r [Hin|Hin].
    + injection Hin as <- <-. auto.
    + apply R2 in Hin. auto.
Qed.

(** *** Progress *)

Lemma next_progress : (forall r, In r rules -> ~ rule_matches r []) -> forall lx lx' t, Forall valid_char (lx_iter lx) ->
  lexer_next al d lx = Ok (lx', inl (Tk t)) -> length (lx_iter lx') < length (lx_iter lx).
Proof.
  intros Hn lx lx' t Hv H. destruct (next_token lx lx' t Hv H) as [w [H1 [[b [a [H2 [H3 _]]]] _]]]. rewrite H1, app_length.
  destruct w as [|c w]; [|simpl; lia]. exfalso. eapply Hn; eauto. rewrite H2. apply in_or_app. right. left. auto.
Qed.

Lemma next_rest_valid : forall lx lx' r, Forall valid_char (lx_iter lx) -> lexer_next al d lx = Ok (lx', r) -> Forall valid_char (lx_iter lx').
Proof.
  intros lx lx' r Hv H. destruct (next_ok lx Hv) as [w [rest [r' [H1 [H2 _]]]]]. rewrite H1 in H. injection H as <- <-. simpl.
  rewrite H2 in Hv. apply Forall_app in Hv. tauto.
Qed.

Lemma stream_finite : (forall r, In r rules -> ~ rule_matches r []) -> forall n lx rs, Forall valid_char (lx_iter lx) ->
  length (lx_iter lx) < n -> lexer_run al d n lx = Ok rs -> exists lx' r, In (lx', r) rs /\ forall t, r <> inl (Tk t).
Proof.
  intros Hn. induction n as [|n IH]; intros lx rs Hv Hlt H; [lia|].
  cbn [lexer_run] in H. inv_bind H. destruct a as [lx1 r1]. inv_bind H. injection H as <-.
  destruct r1 as [[|t]|e].
  - exists lx1, (inl EndOfFile). split; [left; auto|]. intros t; discriminate.
  - pose proof (next_progress Hn _ _ _ Hv Hb). destruct (IH lx1 a) as [lx' [r [R1 R2]]]; auto.
    + eapply next_rest_valid; eauto.
    + lia.
    + exists lx', r. split; auto. right. auto.
  - exists lx1, (inr e). split; [left; auto|]. intros t; discriminate.
Qed.

End Lexer.

(** A call returning the same remaining input repeats forever. *)
Lemma stuck_forever : forall al d lx r, lexer_next al d lx = Ok (lx, r) ->
  forall n, lexer_run al d n lx = Ok (repeat (lx, r) n).
Proof. intros al d lx r H n. induction n; auto. cbn [lexer_run]. rewrite H. cbn [bind]. rewrite IHn. reflexivity. Qed.

(** ** Packaged for a generated lexer *)

Lemma proper_no_empty : forall rules, proper_rules rules -> no_empty_sequence rules.
Proof. intros rules H r q Hr Hq. destruct (H r Hr q Hq). auto. Qed.

Lemma next_proper : forall fuel rules al d, valid_rules rules -> proper_rules rules -> generate_lexer fuel rules = Ok (al, d) ->
  forall lx, Forall valid_char (lx_iter lx) ->
  exists w rest r, lexer_next al d lx = Ok (mkLexer (lx_src lx) rest (lx_position lx) (lx_position lx + byte_len w)%N, r) /\
    lx_iter lx = w ++ rest /\ ~ In 0%N w /\
    (w = [] \/ viable rules w) /\
    (at_end rest \/ ~ viable rules (w ++ [head_char rest])) /\
    match r with
    | inl EndOfFile => w = [] /\ at_end rest
    | inl (Tk t) => best_rule rules w t /\ ~ (w = [] /\ at_end rest)
    | inr (InvalidChar _) => False
    | inr (UnexpectedAlphabet (a, b)) => ~ matched rules w /\ ~ (w = [] /\ at_end rest) /\
        (a <= head_char rest <= b)%N /\ In (a, b) al
    end.
Proof.
  intros fuel rules al d Hv Hp H lx Hx.
  pose proof (generate_lexer_facts _ _ _ _ Hv (proper_no_empty _ Hp) H) as F.
  destruct (next_ok rules al d F lx Hx) as [w [rest [r [H1 [H2 [H3 [H4 H5]]]]]]].
  exists w, rest, r. split; auto.
Qed.

Lemma next_longest_ok : forall fuel rules al d, valid_rules rules -> no_empty_sequence rules -> generate_lexer fuel rules = Ok (al, d) ->
  forall lx lx' t, Forall valid_char (lx_iter lx) -> lexer_next al d lx = Ok (lx', inl (Tk t)) ->
  exists w, lx_iter lx = w ++ lx_iter lx' /\ best_rule rules w t /\
  forall w' rest', lx_iter lx = w' ++ rest' -> ~ In 0%N w' -> matched rules w' -> length w' <= length w.
Proof.
  intros fuel rules al d Hv Hn H. pose proof (generate_lexer_facts _ _ _ _ Hv Hn H) as F. apply next_token. auto.
Qed.

Lemma spans_ok : forall fuel rules al d, valid_rules rules -> no_empty_sequence rules -> generate_lexer fuel rules = Ok (al, d) ->
  forall src n, Forall valid_char src ->
  exists rs texts, lexer_run al d n (lexer_new src) = Ok rs /\ length rs = n /\ length texts = n /\
  forall i lx' r, nth_error rs i = Some (lx', r) ->
    exists w, nth_error texts i = Some w /\ lexer_slice lx' = Ok w /\
    lexer_span lx' = (byte_len (concat (firstn i texts)), byte_len (concat (firstn (S i) texts))) /\
    src = concat (firstn (S i) texts) ++ lx_iter lx' /\
    (r = inl EndOfFile -> w = [] /\ at_end (lx_iter lx')) /\
    (r = inl EndOfFile -> ~ In 0%N src -> concat (firstn (S i) texts) = src).
Proof.
  intros fuel rules al d Hv Hn H src n Hsrc. pose proof (generate_lexer_facts _ _ _ _ Hv Hn H) as F.
  destruct (run_ok rules al d F n [] (lexer_new src)) as [rs [texts [R1 [R2 [R3 R4]]]]]; auto.
  exists rs, texts. split; auto. split; auto. split; auto. intros i lx' r Hi.
  destruct (R4 i lx' r Hi) as [w [A1 [A2 [A3 [A4 [A5 A6]]]]]]. exists w. split; auto. split; auto. split; auto. split; [exact A4|].
  split; auto. intros Hr H0. destruct (A6 Hr) as [_ He]. cbn [app lexer_new lx_src] in A4.
  destruct (lx_iter lx') as [|c rest].
  - rewrite app_nil_r in A4. auto.
  - simpl in He. subst c. exfalso. apply H0. rewrite A4. apply in_or_app. right. left. auto.
Qed.

Lemma eof_ok : forall fuel rules al d, valid_rules rules -> no_empty_sequence rules -> generate_lexer fuel rules = Ok (al, d) ->
  forall lx, Forall valid_char (lx_iter lx) ->
  (at_end (lx_iter lx) <-> exists lx', lexer_next al d lx = Ok (lx', inl EndOfFile)) /\
  (forall lx', lexer_next al d lx = Ok (lx', inl EndOfFile) ->
     lx' = mkLexer (lx_src lx) (lx_iter lx) (lx_position lx) (lx_position lx)).
Proof.
  intros fuel rules al d Hv Hn H. pose proof (generate_lexer_facts _ _ _ _ Hv Hn H) as F. eapply next_eof; eauto.
Qed.

Lemma run_length : forall al d n lx rs, lexer_run al d n lx = Ok rs -> length rs = n.
Proof.
  induction n as [|n IH]; intros lx rs H; simpl in H; [injection H as <-; auto|].
  inv_bind H. destruct a as [lx1 r]. inv_bind H. injection H as <-. simpl. f_equal. eauto.
Qed.

Lemma eof_forever_ok : forall fuel rules al d, valid_rules rules -> no_empty_sequence rules -> generate_lexer fuel rules = Ok (al, d) ->
  forall n lx, Forall valid_char (lx_iter lx) -> at_end (lx_iter lx) ->
  exists rs, lexer_run al d n lx = Ok rs /\ length rs = n /\
  forall lx' r, In (lx', r) rs -> r = inl EndOfFile /\ lx_iter lx' = lx_iter lx.
Proof.
  intros fuel rules al d Hv Hn H n lx Hx He. pose proof (generate_lexer_facts _ _ _ _ Hv Hn H) as F.
  destruct (eof_stays rules al d F n lx Hx He) as [rs [R1 R2]]. exists rs. split; auto. split; auto. eapply run_length; eauto.
Qed.

Lemma progress_ok : forall fuel rules al d, valid_rules rules -> no_empty_sequence rules -> generate_lexer fuel rules = Ok (al, d) ->
  (forall r, In r rules -> ~ rule_matches r []) ->
  (forall lx lx' t, Forall valid_char (lx_iter lx) -> lexer_next al d lx = Ok (lx', inl (Tk t)) ->
     length (lx_iter lx') < length (lx_iter lx)) /\
  (forall src, Forall valid_char src -> exists rs lx' r, lexer_run al d (S (length src)) (lexer_new src) = Ok rs /\
     In (lx', r) rs /\ forall t, r <> inl (Tk t)).
Proof.
  intros fuel rules al d Hv Hn H Hne. pose proof (generate_lexer_facts _ _ _ _ Hv Hn H) as F. split.
  - eapply next_progress; eauto.
  - intros src Hs. destruct (run_ok rules al d F (S (length src)) [] (lexer_new src)) as [rs [texts [R1 _]]]; auto.
    destruct (stream_finite rules al d F Hne (S (length src)) (lexer_new src) rs) as [lx' [r [Q1 Q2]]]; auto.
    exists rs, lx', r. auto.
Qed.
