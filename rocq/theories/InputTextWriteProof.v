(** Writing rule sets down as grammar files. *)
From Coq Require Import String Ascii List Arith NArith Bool Lia.
From Verif Require Import Base InputModel GrammarModel LexerModel LexerSpec BootModel PositionModel PositionSpec PositionProof InputGenModel InputGenSpec InputGenLapex InputGenProof InputGenMeaningProof
  InputGenFactsProof InputTextSpec InputTextLexProof InputTextDivideProof InputTextFileProof InputTextLayoutProof.
Import ListNotations.
Local Open Scope string_scope.
Local Open Scope N_scope.
Local Open Scope list_scope.

(** ** One lexeme on each line *)

Lemma quote_lexeme : forall q name r, q = 34 \/ q = 47 -> lexeme name (q :: r) -> exists b, body q b /\ r = b ++ [q].
Proof.
  intros q name r Hq H. remember (q :: r) as w eqn:E. destruct H as [n word K|n c K| |c cs Hc Hcs|c cs Hc Hcs Hk|b Hb|b Hb|c cs Hc|]; try (injection E as <- <-).
  - exfalso. destruct (keyword_letter _ _ K) as (c & cs & E' & L & _). rewrite E' in E. injection E as -> _. unfold letter in L. lia.
  - exfalso. apply mark_chars in K. lia.
  - exfalso. lia.
  - exfalso. lia.
  - exfalso. unfold letter in Hc. lia.
  - eauto.
  - eauto.
  - exfalso. inversion Hc; subst. lia.
  - exfalso. lia.
Qed.

Lemma newline_longest : forall name w name' w' rest rest', lexeme name w -> lexeme name' w' -> w ++ 10 :: rest = w' ++ rest' -> (length w' <= length w)%nat.
Proof.
  intros name w name' w' rest rest' H H' E. destruct (le_lt_dec (length w') (length w)) as [L|L]; auto. exfalso.
  destruct (app_split _ _ _ _ _ E ltac:(lia)) as (y & -> & Ey). destruct y as [|c y]; [rewrite app_nil_r in L; lia|]. cbn [app] in Ey. injection Ey as <- Ey.
  assert (In 10 (w ++ 10 :: y)) as I by (apply in_or_app; right; left; reflexivity). pose proof (lexeme_nonempty _ _ H) as Hw. destruct w as [|c w]; [contradiction|]. cbn [app] in *.
  assert (forall q b b', q = 34 \/ q = 47 -> body q b -> body q b' -> w = b ++ [q] -> w ++ 10 :: y = b' ++ [q] -> False) as Q.
  { intros q b b' Hq Hb Hb' E1 E2. subst w. rewrite <- app_assoc in E2. cbn [app] in E2. destruct (body_end q b' b (10 :: y) ltac:(destruct Hq; subst; discriminate) Hb' Hb E2) as [_ X]. discriminate. }
  remember (c :: w ++ 10 :: y) as v eqn:E1. destruct H' as [n word K|n d K| |d cs Hc Hcs|d cs Hc Hcs Hk|b Hb|b Hb|d cs Hc|]; try (injection E1 as <- E1).
  - destruct (keyword_letter _ _ K) as (c' & cs & E' & L' & W). rewrite E' in E1. rewrite E' in I. destruct I as [I|I]; [unfold letter in L'; lia|]. apply (proj1 (Forall_forall _ _) W) in I. unfold word_char, letter, digit in I. lia.
  - destruct w; discriminate.
  - destruct w; discriminate.
  - subst cs. apply Forall_app in Hcs. destruct Hcs as [_ X]. inversion X as [|? ? D]; subst. unfold digit in D. lia.
  - subst cs. apply Forall_app in Hcs. destruct Hcs as [_ X]. inversion X as [|? ? D]; subst. unfold word_char, letter, digit in D. lia.
  - destruct (quote_lexeme 34 _ _ (or_introl eq_refl) H) as (b' & Hb' & E2). exact (Q 34 b' b (or_introl eq_refl) Hb' Hb E2 (eq_sym E1)).
  - destruct (quote_lexeme 47 _ _ (or_intror eq_refl) H) as (b' & Hb' & E2). exact (Q 47 b' b (or_intror eq_refl) Hb' Hb E2 (eq_sym E1)).
  - subst cs. inversion Hc as [|? ? _ X]; subst. apply Forall_app in X. destruct X as [_ X]. inversion X as [|? ? D]; subst. lia.
  - destruct w; discriminate.
Qed.

Lemma newline_alone : forall name' w' rest rest', lexeme name' w' -> 10 :: rest = w' ++ rest' -> (length w' <= 1)%nat.
Proof.
  intros name' w' rest rest' H E. destruct w' as [|c w]; [cbn; lia|]. injection E as <- _.
  remember (10 :: w) as v eqn:E1. destruct H as [n word K|n d K| |d cs Hc Hcs|d cs Hc Hcs Hk|b Hb|b Hb|d cs Hc|]; try discriminate E1; try (injection E1 as -> E1); cbn [length]; try lia.
  - destruct (keyword_letter _ _ K) as (c' & cs & E' & L' & W). rewrite E' in E1. injection E1 as -> _. unfold letter in L'. lia.
  - unfold letter in Hc. lia.
  - inversion Hc; subst. lia.
Qed.

Definition lines (l : list (string * list N)) : list (string * list N) := flat_map (fun e => [e; ("NEWLINE", [10])]) l.
Lemma lines_division : forall l, Forall (fun e => lexeme (fst e) (snd e)) l -> division (concat (map snd (lines l))) (lines l).
Proof.
  induction 1 as [|[name w] l H _ IH]; [constructor|]. cbn [lines flat_map app map snd concat fst] in *. fold (lines l). apply dv_next; auto.
  - intros name' text' rest' H' E. cbn [app] in E. eapply newline_longest; eauto.
  - apply (dv_next "NEWLINE" [10]); auto; [apply lx_newline|]. intros name' text' rest' H' E. eapply newline_alone; eauto.
Qed.
Lemma lines_seen : forall l, Forall (fun e => exists t, In (fst e, t) kinds) l -> seen (lines l) = l.
Proof.
  induction 1 as [|[name w] l [t H] _ IH]; [reflexivity|]. cbn [fst] in H. destruct (kinds_visible _ _ H) as [A B]. cbn [lines flat_map app]. fold (lines l). rewrite seen_token by auto. f_equal. exact IH.
Qed.
Lemma lines_placed : forall l, Forall (fun e => (exists t, In (fst e, t) kinds) /\ byte_len (snd e) < 65535) l -> forall line, line + N.of_nat (length l) < 65536 -> exists ts, placed line 1 (lines l) ts.
Proof.
  induction 1 as [|[name w] l [[t K] W] _ IH]; intros line L; [exists []; constructor|]. cbn [length] in L. destruct (IH (line + 1) ltac:(lia)) as (ts & P). eexists. cbn [lines flat_map app]. fold (lines l).
  cbn [fst snd] in *. apply pl_token; [exact K| |apply pl_newline; [lia|exact P]]. unfold width. rewrite N.mod_small by lia. lia.
Qed.

(** ** Tokens as they are written *)

Definition written (t : tok) : Prop :=
  exists name, In (name, fst t) kinds /\ lexeme name (td_text (snd t)) /\ ~ In 0 (td_text (snd t)) /\ Forall valid_char (td_text (snd t)) /\ byte_len (td_text (snd t)) < 65535.

Lemma ascii_valid : forall l, Forall (fun c => c < 128) l -> Forall valid_char l.
Proof. intros l H. eapply Forall_impl; [|exact H]. intros c Hc. cbn beta in Hc. unfold valid_char, CHAR_MAX. lia. Qed.
Lemma word_text : forall c cs, letter c -> Forall word_char cs -> ~ In 0 (c :: cs) /\ Forall valid_char (c :: cs).
Proof.
  intros c cs Hc H. assert (Forall word_char (c :: cs)) as W by (constructor; [left; auto|auto]). split.
  - intros I. apply (proj1 (Forall_forall _ _) W) in I. unfold word_char, letter, digit in I. lia.
  - apply ascii_valid. eapply Forall_impl; [|exact W]. intros d D. unfold word_char, letter, digit in D. lia.
Qed.

Lemma mark_written : forall name k c, In (name, k) kinds -> In (name, c) marks -> written (k, some_data [c]).
Proof.
  intros name k c K M. exists name. cbn [fst snd td_text some_data]. split; auto. split; [constructor; auto|]. clear K. repeat destruct M as [M|M]; try contradiction; injection M as <- <-; (split; [cbn; intuition discriminate|]); (split; [apply ascii_valid; repeat constructor|reflexivity]).
Qed.
Lemma keyword_written : forall name k word, In (name, k) kinds -> In (name, word) keywords -> written (k, some_data (bytes word)).
Proof.
  intros name k word K M. exists name. cbn [fst snd td_text some_data]. split; auto. split; [constructor; auto|]. destruct (keyword_letter _ _ M) as (c & cs & E & L & W). rewrite E. destruct (word_text _ _ L W). split; auto. split; auto.
  rewrite <- E. clear -M. repeat destruct M as [M|M]; try contradiction; injection M as <- <-; reflexivity.
Qed.
Lemma ident_written : forall n, identifier n -> written (IDENT, some_data (text_of n)).
Proof.
  intros n [L B]. exists "IDENT". cbn [fst snd td_text some_data]. change (text_of n) with (bytes n). split; [vm_compute; tauto|]. split; auto.
  revert L B. generalize (bytes n). intros w L B. assert (exists c cs, w = c :: cs /\ letter c /\ Forall word_char cs) as (c & cs & -> & Hc & Hcs).
  { inversion L as [n' word K E1|n' d K E1| | |c cs Hc Hcs Hk E1 E2| | | |]; subst; try (repeat destruct K as [K|K]; try contradiction; discriminate). eauto. }
  destruct (word_text _ _ Hc Hcs). auto.
Qed.

Lemma decimal_zero : forall m, decimal [48] m -> m = 0.
Proof.
  intros m H. remember [48] as w eqn:E. destruct H as [d D|cs n d A D]; [assert (48 + d = 48) as E2 by congruence; lia|]. destruct cs as [|x cs]; [|destruct cs; discriminate]. exfalso. inversion A as [|cs' ? ? ? ? X]. destruct cs'; discriminate.
Qed.
Lemma numeral : forall n, exists cs, decimal cs n /\ lexeme "DIGIT" cs /\ Forall digit cs /\ N.of_nat (length cs) <= 1 + n / 10.
Proof.
  intros n. induction n as [n IH] using (well_founded_induction N.lt_wf_0). destruct (N.lt_ge_cases n 10) as [H|H].
  - exists [48 + n]. split; [apply dec_one; auto|]. split; [destruct (N.eq_dec n 0) as [->|]; [apply lx_zero|apply lx_number; [lia|constructor]]|]. split; [constructor; [unfold digit; lia|constructor]|]. cbn [length]. change (N.of_nat 1) with 1. apply N.le_add_r.
  - destruct (IH (n / 10)) as (cs & Hc & Hl & Hd & Hn); [apply N.div_lt; lia|]. assert (n mod 10 < 10) as M by (apply N.mod_lt; lia). assert (digit (48 + n mod 10)) as MD by (unfold digit; revert M; generalize (n mod 10); intros; lia). exists (cs ++ [48 + n mod 10]). split; [|split; [|split]].
    + rewrite (N.div_mod n 10) at 2 by lia. apply dec_more; auto.
    + assert (1 <= n / 10) as P by (apply N.div_le_lower_bound; lia). inversion Hl as [n' word K E1|n' d K E1|E1|c cs' Hc' Hcs' E1| | | | |]; subst; try (repeat destruct K as [K|K]; try contradiction; discriminate).
      * exfalso. rewrite (decimal_zero _ Hc) in P. lia.
      * cbn [app]. apply lx_number; auto. apply Forall_app. split; [auto|constructor; [exact MD|constructor]].
    + apply Forall_app. split; [auto|constructor; [exact MD|constructor]].
    + rewrite app_length, Nat2N.inj_add. cbn [length]. assert (1 <= n / 10) as P by (apply N.div_le_lower_bound; lia). change (N.of_nat 1) with 1. pose proof (N.div_mod (n / 10) 10 ltac:(discriminate)) as X. revert Hn P X. generalize (n / 10) as m. intros m. generalize (m / 10) (m mod 10). intros. lia.
Qed.

Lemma digits_len : forall cs, Forall digit cs -> byte_len cs = N.of_nat (length cs).
Proof. intros cs H. apply ascii_len. intros c I. apply (proj1 (Forall_forall _ _) H) in I. unfold digit in I. lia. Qed.

(** ** Patterns *)

Definition sum (l : list prod_pattern) : nat := fold_right (fun p n => 3 + pattern_size p + n)%nat 0%nat l.
Lemma sum_app : forall a b, (sum (a ++ b) = sum a + sum b)%nat.
Proof. induction a as [|p a IH]; intros b; [reflexivity|]. change (sum ((p :: a) ++ b)) with (3 + pattern_size p + sum (a ++ b))%nat. change (sum (p :: a)) with (3 + pattern_size p + sum a)%nat. rewrite IH. lia. Qed.
Lemma sum_rev : forall l, (sum (rev l) = sum l)%nat.
Proof. induction l as [|p a IH]; [reflexivity|]. cbn [rev]. rewrite sum_app, IH. change (sum (p :: a)) with (3 + pattern_size p + sum a)%nat. change (sum [p]) with (3 + pattern_size p + 0)%nat. lia. Qed.

Notation JItem := (item joined_sequence joined_choice).
Notation JUnits := (units joined_sequence joined_choice).
Notation JChoices := (choices joined_sequence joined_choice).
Notation JAlternatives := (alternatives joined_sequence joined_choice).
Definition spelt (p : prod_pattern) : Prop := exists ts, JAlternatives p ts /\ Forall written ts /\ (length ts <= pattern_size p)%nat.
Definition bracketed (p : prod_pattern) : Prop := exists ts, JItem p ts /\ Forall written ts /\ (length ts <= 2 + pattern_size p)%nat.

Ltac mark_of nm := (apply (mark_written nm); vm_compute; tauto).

Lemma spelt_bracketed : forall p, spelt p -> bracketed p.
Proof.
  intros p (ts & A & W & L). exists ([(LPAR, some_data [40])] ++ ts ++ [(RPAR, some_data [41])]). split; [constructor; auto|]. split.
  - constructor; [mark_of "LPAR"|]. apply Forall_app. split; auto. constructor; [mark_of "RPAR"|constructor].
  - cbn [app length]. rewrite app_length. cbn [length]. unfold tok in *. lia.
Qed.

Lemma written_units : forall l q, Forall bracketed l -> bracketed q -> exists us, JUnits (l ++ [q]) us /\ Forall written us /\ (length us <= sum (l ++ [q]))%nat.
Proof.
  intros l q H Hq. induction H as [|p l (ts & A & W & L) _ (us & B & V & M)].
  - destruct Hq as (ts & A & W & L). exists ts. split; [apply us_one, un_once; auto|]. split; auto. change (sum ([] ++ [q])) with (3 + pattern_size q + 0)%nat. lia.
  - exists (ts ++ us). split; [cbn [app]; apply us_more; [apply un_once|]; auto|]. split; [apply Forall_app; auto|]. change (sum ((p :: l) ++ [q])) with (3 + pattern_size p + sum (l ++ [q]))%nat. rewrite app_length. unfold tok in *. lia.
Qed.
Lemma written_choices : forall l q, Forall bracketed l -> bracketed q -> exists us, JChoices (l ++ [q]) us /\ Forall written us /\ (length us <= sum (l ++ [q]))%nat.
Proof.
  intros l q H Hq. induction H as [|p l (ts & A & W & L) _ (us & B & V & M)].
  - destruct Hq as (ts & A & W & L). exists ts. split; [apply (ch_one joined_sequence joined_choice [q]); apply us_one, un_once; auto|]. split; auto. change (sum ([] ++ [q])) with (3 + pattern_size q + 0)%nat. lia.
  - exists (ts ++ [(PIPE, some_data [124])] ++ us). split; [cbn [app]; apply (ch_more joined_sequence joined_choice [p] ts (some_data [124])); [apply us_one, un_once; auto|auto]|]. split.
    + apply Forall_app. split; auto. constructor; [mark_of "PIPE"|auto].
    + change (sum ((p :: l) ++ [q])) with (3 + pattern_size p + sum (l ++ [q]))%nat. rewrite !app_length. cbn [length]. unfold tok in *. lia.
Qed.

Lemma readable_written : forall p, readable p -> named p -> spelt p.
Proof.
  fix IH 2. intros p H Hm.
  assert (forall l, Forall readable l -> Forall named l -> Forall bracketed l) as A.
  { fix IHl 2. intros l Hl Hn. destruct Hl as [|x l Hx Hl]; [constructor|]. constructor; [|apply IHl; [exact Hl|inversion Hn; auto]]. apply spelt_bracketed. apply (IH x Hx). inversion Hn; auto. }
  destruct H as [n| |q H|q H|q H|l q N HF H Hn|l q N HF H Hn].
  - exists [(IDENT, some_data (text_of n))]. split; [|split; [|cbn; lia]].
    + apply one_choice, un_once. rewrite <- (name_text n) at 1. apply (it_name joined_sequence joined_choice (some_data (text_of n))).
    + constructor; [|constructor]. apply ident_written. inversion Hm; auto.
  - exists [(NOTHING, some_data [33])]. split; [constructor|]. split; [|cbn; lia]. constructor; [mark_of "NOTHING"|constructor].
  - destruct (spelt_bracketed q (IH q H ltac:(inversion Hm; auto))) as (ts & X & W & L). exists (ts ++ [(QUESTION, some_data [63])]). split; [apply one_choice, un_option; auto|].
    split; [apply Forall_app; split; auto; constructor; [mark_of "QUESTION"|constructor]|]. rewrite app_length. cbn [length pattern_size]. unfold tok in *. lia.
  - destruct (spelt_bracketed q (IH q H ltac:(inversion Hm; auto))) as (ts & X & W & L). exists (ts ++ [(ASTERISK, some_data [42])]). split; [apply one_choice, un_star; auto|].
    split; [apply Forall_app; split; auto; constructor; [mark_of "ASTERISK"|constructor]|]. rewrite app_length. cbn [length pattern_size]. unfold tok in *. lia.
  - destruct (spelt_bracketed q (IH q H ltac:(inversion Hm; auto))) as (ts & X & W & L). exists (ts ++ [(PLUS, some_data [43])]). split; [apply one_choice, un_plus; auto|].
    split; [apply Forall_app; split; auto; constructor; [mark_of "PLUS"|constructor]|]. rewrite app_length. cbn [length pattern_size]. unfold tok in *. lia.
  - assert (Forall named l /\ named q) as [M1 M2].
    { inversion Hm as [| | | | |l' M|]; subst. apply Forall_app in M. destruct M as [M1 M2]. inversion M2; auto. }
    destruct (written_units l q (A l HF M1) (spelt_bracketed q (IH q H M2))) as (us & Hu & W & L).
    exists us. split; [|split; auto]. replace (QSeq (l ++ [q])) with (joined_choice [joined_sequence (l ++ [q])]); [apply al_choice, ch_one; auto|].
    cbn [joined_choice]. unfold joined_sequence. destruct l as [|p l]; [congruence|]. assert (exists r m, (p :: l) ++ [q] = p :: r :: m) as (r & m & E) by (destruct l as [|r l]; cbn [app]; eauto).
    rewrite E at 1. rewrite removelast_last, last_last. destruct q; try reflexivity. destruct Hn. eexists. reflexivity.
  - assert (Forall named l /\ named q) as [M1 M2].
    { inversion Hm as [| | | | | |l' M]; subst. inversion M; auto. }
    destruct (written_choices (rev l) q (Forall_rev (A l HF M1)) (spelt_bracketed q (IH q H M2))) as (us & Hu & W & L).
    exists us. split; [|split; auto].
    + replace (QAlt (q :: l)) with (joined_choice (rev l ++ [q])); [apply al_choice; auto|].
      unfold joined_choice. assert (rev l <> []) as M by (intros E; apply N; rewrite <- (rev_involutive l), E; reflexivity). destruct (rev l) as [|p l'] eqn:El; [congruence|].
      assert (exists r m, (p :: l') ++ [q] = p :: r :: m) as (r & m & E) by (destruct l' as [|r l']; cbn [app]; eauto).
      rewrite E at 1. rewrite removelast_last, last_last. rewrite <- El, rev_involutive. destruct q; try reflexivity. destruct Hn. eexists. reflexivity.
    + rewrite sum_app, sum_rev in L. change (pattern_size (QAlt (q :: l))) with (3 + pattern_size q + sum l)%nat. change (sum [q]) with (3 + pattern_size q + 0)%nat in L. lia.
Qed.

(** ** Rules *)

Notation JRule := (rule_tokens joined_sequence joined_choice).

Lemma entry_written : forall regex n, identifier n -> exists sp ts, JRule regex (sp, FEntry n) ts /\ Forall written ts /\ (length ts <= 3)%nat.
Proof.
  intros regex n H. eexists. exists [(KW_ENTRY, some_data (bytes "entry")); (IDENT, some_data (text_of n)); (SEMI, some_data [59])]. split; [|split; [|cbn; lia]].
  - rewrite <- (name_text n) at 1. apply (rt_entry joined_sequence joined_choice regex _ (some_data (text_of n)) _).
  - constructor; [apply (keyword_written "KW_ENTRY"); vm_compute; tauto|]. constructor; [apply ident_written; auto|]. constructor; [mark_of "SEMI"|constructor].
Qed.

Lemma prod_written : forall regex p, writable_prod p -> exists sp ts, JRule regex (sp, FProd p) ts /\ Forall written ts /\ (length ts <= 7 + pattern_size (pr_pattern p))%nat.
Proof.
  intros regex [n tag q] (Hn & Ht & Hm & Hr). cbn [pr_name pr_tag pr_pattern] in *. destruct (readable_written q Hr Hm) as (ts & A & W & L).
  assert (exists us, tagged tag us /\ Forall written us /\ (length us <= 3)%nat) as (us & T & V & M).
  { destruct tag as [m|]; [|exists []; repeat split; [constructor|constructor|cbn; lia]]. rewrite <- (name_text m). eexists. split; [apply (tg_some (some_data [91]) (some_data (text_of m)) (some_data [93]))|]. split; [|cbn; lia].
    constructor; [mark_of "LBRACK"|]. constructor; [apply ident_written; apply Ht; reflexivity|]. constructor; [mark_of "RBRACK"|constructor]. }
  eexists. exists ([(KW_PROD, some_data (bytes "prod")); (IDENT, some_data (text_of n))] ++ us ++ [(EQUALS, some_data [61])] ++ ts ++ [(SEMI, some_data [59])]). split; [|split].
  - rewrite <- (name_text n) at 1. apply (rt_prod joined_sequence joined_choice regex _ (some_data (text_of n)) _ _ tag us q ts T A).
  - constructor; [apply (keyword_written "KW_PROD"); vm_compute; tauto|]. constructor; [apply ident_written; auto|]. apply Forall_app. split; auto. constructor; [mark_of "EQUALS"|]. apply Forall_app. split; auto. constructor; [mark_of "SEMI"|constructor].
  - cbn [app length]. rewrite !app_length. cbn [length]. rewrite app_length. cbn [length]. unfold tok in *. lia.
Qed.

Lemma quoted_written : forall q name k cs, q = 34 /\ name = "STRING" \/ q = 47 /\ name = "REGEX" -> In (name, k) kinds -> writable q cs -> written (k, some_data ([q] ++ cs ++ [q])).
Proof.
  intros q name k cs Q K (B & N0 & V & L). exists name. cbn [fst snd td_text some_data app]. split; auto. split; [destruct Q as [[-> ->]|[-> ->]]; constructor; auto|].
  split; [|split].
  - intros [I|I]; [lia|]. apply in_app_or in I. destruct I as [I|[I|[]]]; [auto|lia].
  - assert (valid_char q) as Vq by (unfold valid_char, CHAR_MAX; lia). constructor; auto. apply Forall_app. split; auto.
  - change (byte_len ([q] ++ cs ++ [q]) < 65535). rewrite !byte_len_app. assert (byte_len [q] = 1) as -> by (destruct Q as [[-> _]|[-> _]]; reflexivity). lia.
Qed.

Lemma token_written : forall regex t, writable_token regex t -> exists sp ts, JRule regex (sp, FToken t) ts /\ Forall written ts /\ (length ts <= 8)%nat.
Proof.
  intros regex [n prec q] (Hn & Hp & Hq). cbn [tr_name tr_prec tr_pattern] in *.
  assert (exists us, prioritised prec us /\ Forall written us /\ (length us <= 3)%nat) as (us & T & V & M).
  { destruct prec as [m|]; [|exists []; repeat split; [constructor|constructor|cbn; lia]]. destruct (numeral m) as (cs & Hc & Hl & Hd & Hk). specialize (Hp m eq_refl). eexists. split; [apply (pr_some (some_data [91]) (some_data cs) (some_data [93]) m); [exact Hc|auto]|]. split; [|cbn; lia].
    constructor; [mark_of "LBRACK"|]. constructor; [|constructor; [mark_of "RBRACK"|constructor]]. exists "DIGIT". cbn [fst snd td_text some_data]. split; [vm_compute; tauto|]. split; auto. split; [|split].
    - intros I. apply (proj1 (Forall_forall _ _) Hd) in I. unfold digit in I. lia.
    - apply ascii_valid. eapply Forall_impl; [|exact Hd]. intros d D. unfold digit in D. lia.
    - rewrite digits_len by auto. assert (m / 10 < 6554) by (apply N.div_lt_upper_bound; lia). lia. }
  assert (exists t, token_text regex q t /\ written t) as (t & X & Y).
  { destruct q as [cs|p].
    - exists (STRING, some_data ([34] ++ cs ++ [34])). split; [constructor; reflexivity|]. apply (quoted_written 34 "STRING"); auto. vm_compute. tauto.
    - destruct Hq as (cs & h & Hw & E & Eh). exists (REGEX, some_data ([47] ++ cs ++ [47])). split; [apply tt_regex with (cs := cs) (h := h); auto|]. apply (quoted_written 47 "REGEX"); auto. vm_compute. tauto. }
  eexists. exists ([(KW_TOKEN, some_data (bytes "token")); (IDENT, some_data (text_of n))] ++ us ++ [(EQUALS, some_data [61]); t; (SEMI, some_data [59])]). split; [|split].
  - rewrite <- (name_text n) at 1. apply (rt_token joined_sequence joined_choice regex _ (some_data (text_of n)) _ _ prec us q t T X).
  - constructor; [apply (keyword_written "KW_TOKEN"); vm_compute; tauto|]. constructor; [apply ident_written; auto|]. apply Forall_app. split; auto. constructor; [mark_of "EQUALS"|]. constructor; [exact Y|]. constructor; [mark_of "SEMI"|constructor].
  - cbn [app length]. rewrite app_length. cbn [length]. unfold tok in *. lia.
Qed.

(** ** Files *)

Notation JFile := (file_tokens joined_sequence joined_choice).

Lemma files_written : forall regex X (k : X -> file_rule) (size : X -> nat) l l0 ts0,
  Forall (fun x => exists sp ts, JRule regex (sp, k x) ts /\ Forall written ts /\ (length ts <= size x)%nat) l -> JFile regex l0 ts0 -> Forall written ts0 ->
  exists l1 ts, JFile regex (l1 ++ l0) ts /\ map snd l1 = map k l /\ Forall written ts /\ (length ts <= fold_right (fun x n => size x + n) 0 l + length ts0)%nat.
Proof.
  intros regex X k size l l0 ts0 H H0 W0. induction H as [|x l (sp & us & A & W & L) _ (l1 & ts & B & E & V & M)].
  - exists [], ts0. repeat split; auto.
  - exists ((sp, k x) :: l1), (us ++ ts). split; [cbn [app]; apply ft_more; auto|]. split; [cbn; congruence|]. split; [apply Forall_app; auto|]. rewrite app_length. cbn [fold_right]. unfold tok in *. lia.
Qed.

Lemma sum_const : forall X (l : list X), fold_right (fun _ n => 8 + n)%nat 0%nat l = (8 * length l)%nat.
Proof. intros X. induction l as [|x l IH]; [reflexivity|]. cbn [fold_right length]. rewrite IH. lia. Qed.
Lemma sum_sizes : forall X (f : X -> nat) l, fold_right (fun x n => f x + n)%nat 0%nat (rev l) = fold_right (fun x n => f x + n)%nat 0%nat l.
Proof.
  intros X f. assert (forall a b, fold_right (fun x n => f x + n)%nat 0%nat (a ++ b) = (fold_right (fun x n => f x + n) 0 a + fold_right (fun x n => f x + n) 0 b)%nat) as A.
  { induction a as [|x a IH]; intros b; [reflexivity|]. cbn [app fold_right]. rewrite IH. lia. }
  induction l as [|x l IH]; [reflexivity|]. cbn [rev]. rewrite A, IH. cbn [fold_right]. lia.
Qed.

Lemma rule_set_written : forall regex rs, identifier (rs_entry rs) -> Forall (writable_token regex) (rs_tokens rs) -> Forall writable_prod (rs_prods rs) ->
  exists rules ts, JFile regex rules ts /\ map snd (rev rules) = FEntry (rs_entry rs) :: map FToken (rs_tokens rs) ++ map FProd (rs_prods rs) /\ Forall written ts /\ (length ts <= file_size rs)%nat.
Proof.
  intros regex [en toks prods] He Ht Hp. cbn [rs_entry rs_tokens rs_prods] in *. destruct (entry_written regex en He) as (sp & ts0 & A & W & L).
  destruct (files_written regex _ FToken (fun _ => 8%nat) (rev toks) [(sp, FEntry en)] ts0) as (l1 & ts1 & A1 & E1 & W1 & L1); auto.
  { apply Forall_rev. eapply Forall_impl; [|exact Ht]. intros t. apply token_written. }
  { constructor. exact A. }
  destruct (files_written regex _ FProd (fun p => 7 + pattern_size (pr_pattern p))%nat (rev prods) (l1 ++ [(sp, FEntry en)]) ts1) as (l2 & ts2 & A2 & E2 & W2 & L2); auto.
  { apply Forall_rev. eapply Forall_impl; [|exact Hp]. intros t. apply prod_written. }
  exists (l2 ++ l1 ++ [(sp, FEntry en)]), ts2. split; auto. split; [|split; auto].
  - rewrite map_rev, !map_app. cbn [map snd]. unfold spanned in *. rewrite E1, E2, !rev_app_distr, <- !map_rev, !rev_involutive. reflexivity.
  - unfold file_size. cbn [rs_tokens rs_prods]. rewrite (sum_sizes _ (fun _ => 8%nat)), (sum_const _ toks) in L1. rewrite (sum_sizes _ (fun p => 7 + pattern_size (pr_pattern p))%nat) in L2. lia.
Qed.

Lemma sorted_rules : forall rules e ts ps, map snd rules = FEntry e :: map FToken ts ++ map FProd ps -> exists out, consists_of out rules /\ unspanned out = mkRuleSet e ts ps.
Proof.
  intros rules e ts ps E.
  set (z := zero_span). set (rules0 := (z, FEntry e) :: map (fun t => (z, FToken t)) ts ++ map (fun p => (z, FProd p)) ps : list (spanned file_rule)).
  set (out0 := mkSpannedRules (z, e) (map (pair z) ts) (map (pair z) ps)).
  assert (map snd rules0 = map snd rules) as E0. { rewrite E. unfold rules0. cbn [map snd]. f_equal. rewrite map_app, !map_map. reflexivity. }
  assert (forall X (f : spanned file_rule -> bool) (k : X -> spanned file_rule) l, (forall x, f (k x) = true) -> filter f (map k l) = map k l) as F1 by (intros X f k l K; induction l as [|x l IH]; [reflexivity|]; cbn [map filter]; rewrite K, IH; reflexivity).
  assert (forall X (f : spanned file_rule -> bool) (k : X -> spanned file_rule) l, (forall x, f (k x) = false) -> filter f (map k l) = []) as F0 by (intros X f k l K; induction l as [|x l IH]; [reflexivity|]; cbn [map filter]; rewrite K, IH; reflexivity).
  assert (consists_of out0 rules0) as C0.
  { constructor; unfold rules0, out0; cbn [sr_tokens sr_prods sr_entry filter snd fst]; rewrite filter_app.
    - rewrite F1, F0 by reflexivity. rewrite app_nil_r, map_map. reflexivity.
    - rewrite F0, F1 by reflexivity. rewrite map_map. reflexivity.
    - rewrite !F0 by reflexivity. reflexivity. }
  destruct (consists_exists _ _ rules C0 E0) as (out & C). exists out. split; auto. rewrite <- (consists_unspanned _ _ _ _ C0 C E0). unfold unspanned, out0. cbn [sr_tokens sr_prods sr_entry snd]. rewrite !map_map. cbn [snd]. rewrite !map_id. reflexivity.
Qed.

Lemma reads_file_unique : forall regex source out out', reads_file regex source out -> reads_file regex source out' -> out = out'.
Proof.
  intros regex source out out' (text & l & ts & rules & U & D & P & R & C) (text' & l' & ts' & rules' & U' & D' & P' & R' & C').
  assert (text' = text) as -> by (eapply up_to_nul_unique; eauto). assert (l' = l) as -> by (eapply division_unique; eauto). assert (ts' = ts) as -> by (eapply placed_fun; eauto).
  destruct (built_reads regex lapex_gen (some_data []) _ _ lapex_gen_built R) as (n & Hn). destruct (built_reads regex lapex_gen (some_data []) _ _ lapex_gen_built R') as (n' & Hn').
  destruct (Hn (S (n + n')) ltac:(lia)) as [X _]. destruct (Hn' (S (n + n')) ltac:(lia)) as [X' _]. apply X in C. apply X' in C'. congruence.
Qed.

Lemma same_layout : forall regex source text l out source' text' l' ts', reads_file regex source out -> up_to_nul source text -> division text l ->
  up_to_nul source' text' -> division text' l' -> placed 1 1 l' ts' -> seen l = seen l' -> exists out', reads_file regex source' out' /\ unspanned out' = unspanned out.
Proof.
  intros regex source text l out source' text' l' ts' (text0 & l0 & ts & rules & U0 & D0 & P & R & C) U D U' D' P' E.
  assert (text0 = text) as -> by (eapply up_to_nul_unique; eauto). assert (l0 = l) as -> by (eapply division_unique; eauto).
  destruct (alike_file _ _ _ _ _ R _ (placed_alike _ _ _ _ _ _ _ _ P P' E)) as (rules' & R' & E').
  assert (map snd (rev rules) = map snd (rev rules')) as E2 by (unfold spanned in *; rewrite !map_rev; f_equal; symmetry; exact E').
  destruct (consists_exists _ _ _ C E2) as (out' & C'). exists out'. split; [exists text', l', ts', rules'; auto|]. symmetry. eapply consists_unspanned; eauto.
Qed.

Lemma rule_set_file : forall regex rs, identifier (rs_entry rs) -> Forall (writable_token regex) (rs_tokens rs) -> Forall writable_prod (rs_prods rs) -> (file_size rs < N.to_nat 65535)%nat ->
  exists source out, Forall valid_char source /\ reads_file regex source out /\ unspanned out = rs.
Proof.
  intros regex rs He Ht Hp Hs. destruct (rule_set_written regex rs He Ht Hp) as (rules & ts & R & E & W & L).
  assert (exists l, Forall2 (fun e t => In (fst e, fst t) kinds /\ lexeme (fst e) (snd e) /\ ~ In 0 (snd e) /\ Forall valid_char (snd e) /\ byte_len (snd e) < 65535 /\ snd e = td_text (snd t)) l ts) as (l & F).
  { clear -W. induction W as [|t ts (name & K & Hl & Z & V & B) _ (l & IH)]; [exists []; constructor|]. exists ((name, td_text (snd t)) :: l). constructor; auto 10. }
  assert (length l = length ts) as LE by (eapply Forall2_len; exact F).
  assert (Forall (fun e => lexeme (fst e) (snd e)) l) as F1 by (clear -F; induction F as [|e t l ts H _ IH]; constructor; tauto).
  assert (Forall (fun e => (exists t, In (fst e, t) kinds) /\ byte_len (snd e) < 65535) l) as F2 by (clear -F; induction F as [|e t l ts H _ IH]; constructor; auto; split; [exists (fst t)|]; tauto).
  assert (Forall (fun e => exists t, In (fst e, t) kinds) l) as F3 by (eapply Forall_impl; [|exact F2]; cbn beta; tauto).
  destruct (lines_placed l F2 1 ltac:(lia)) as (us & P).
  assert (Forall2 alike ts us) as AL.
  { apply placed_seen in P. rewrite lines_seen in P by auto. clear -F P. revert us P. induction F as [|e t l ts H _ IH]; intros us P; inversion P as [|? u ? us' [K E] P']; subst; constructor; auto. split; [eapply kinds_fun; [|exact K]; tauto|]. rewrite <- E. symmetry. tauto. }
  destruct (alike_file _ _ _ _ _ R _ AL) as (rules' & R' & E'). assert (map snd (rev rules') = map snd (rev rules)) as E2 by (unfold spanned in *; rewrite !map_rev; f_equal; exact E').
  rewrite E in E2. destruct (sorted_rules _ _ _ _ E2) as (out & C & U). set (text := concat (map snd (lines l))).
  assert (~ In 0 text /\ Forall valid_char text) as [Z V].
  { subst text. clear -F. induction F as [|e t l ts H _ [IH1 IH2]]; [split; [intros []|constructor]|]. cbn [lines flat_map app map snd concat]. fold (lines l). split.
    - intros I. apply in_app_or in I. destruct I as [I|[I|I]]; [tauto|discriminate|auto].
    - apply Forall_app. split; [tauto|]. constructor; auto. unfold valid_char, CHAR_MAX. lia. }
  exists text, out. split; auto. split; [|rewrite U; destruct rs; reflexivity]. exists text, (lines l), us, rules'. split; [constructor; auto|]. split; [apply lines_division; auto|]. auto.
Qed.
