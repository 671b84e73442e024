(** What the texts of symbols, rules, items and tables tell. *)
From Coq Require Import String Ascii List Arith NArith Bool Lia.
From Verif Require Import Base InputModel GrammarModel GrammarSpec GrammarNamesProof GrammarBuildProof GrammarFactsProof LRModel LRSpec LRGenProof LRFactsProof GLRModel GLRSpec NamesModel NamesSpec NamesProof NamesVisitProof CppLRModel
  TableModel TableSpec PipelineModel PipelineSpec PipelineReportProof PipelineFactsProof.
Import ListNotations.
Local Open Scope string_scope.
Local Open Scope nat_scope.
Local Open Scope list_scope.

(** ** Strings *)

Definition lacks (c : ascii) (s : string) : Prop := all_chars (fun d => d <> c) s.

Lemma lacks_app : forall c a b, lacks c (a ++ b)%string <-> lacks c a /\ lacks c b.
Proof. intros. apply all_chars_app. Qed.

Lemma first_split : forall c a b x y, lacks c a -> lacks c b -> (a ++ String c x = b ++ String c y)%string -> a = b /\ x = y.
Proof.
  induction a as [|d a IH]; intros [|e b] x y A B H; cbn in *.
  - injection H as ->. auto.
  - injection H as -> H. destruct B as [B _]. congruence.
  - injection H as -> H. destruct A as [A _]. congruence.
  - injection H as -> H. destruct A as [_ A], B as [_ B]. destruct (IH b x y A B H) as [-> ->]. auto.
Qed.

Lemma lacks_not : forall c a x, ~ lacks c (a ++ String c x)%string.
Proof. intros c a x H. apply lacks_app in H. destruct H as [_ [H _]]. auto. Qed.

Definition spaceless (s : string) : Prop := lacks " " s.

Lemma concat_cons : forall sep a l, l <> [] -> String.concat sep (a :: l) = (a ++ sep ++ String.concat sep l)%string.
Proof. intros sep a [|b l] H; [congruence|reflexivity]. Qed.

Lemma concat_app : forall sep a b, a <> [] -> b <> [] -> String.concat sep (a ++ b) = (String.concat sep a ++ sep ++ String.concat sep b)%string.
Proof.
  intros sep a b Ha Hb. induction a as [|x a IH]; [congruence|]. destruct a as [|y a].
  - cbn [app]. rewrite concat_cons by exact Hb. reflexivity.
  - cbn [app] in *. rewrite concat_cons by discriminate. rewrite IH by discriminate. rewrite (concat_cons sep x (y :: a)) by discriminate. rewrite !append_assoc. reflexivity.
Qed.

Lemma join_inj : forall l m, Forall spaceless l -> Forall spaceless m -> l <> [] -> m <> [] -> String.concat " " l = String.concat " " m -> l = m.
Proof.
  induction l as [|a l IH]; intros [|b m] A B NA NB H; try congruence. inversion A as [|? ? A1 A2]; inversion B as [|? ? B1 B2]; subst.
  destruct l as [|a' l], m as [|b' m].
  - cbn in H. congruence.
  - rewrite (concat_cons _ b) in H by discriminate. cbn [String.concat] in H. exfalso. rewrite H in A1. revert A1. apply lacks_not.
  - rewrite (concat_cons _ a) in H by discriminate. cbn [String.concat] in H. exfalso. rewrite <- H in B1. revert B1. apply lacks_not.
  - rewrite (concat_cons _ a), (concat_cons _ b) in H by discriminate. apply first_split in H; auto. destruct H as [-> H]. f_equal. apply IH; auto; discriminate.
Qed.

(** ** Symbols *)

Lemma plain_lacks : forall c s, ~ plain_char c -> plain_name s -> lacks c s.
Proof. intros c s N H. apply (all_chars_impl plain_char); [|exact H]. intros d P ->. exact (N P). Qed.
Lemma plain_no : forall c, letter c = false -> ~ digit c -> c <> "_"%char -> ~ plain_char c.
Proof. intros c A B C [D|[D|D]]; congruence. Qed.
Lemma not_digit : forall c, (N_of_ascii c < 48)%N \/ (57 < N_of_ascii c)%N -> ~ digit c.
Proof. unfold digit. intros c H. lia. Qed.
Ltac not_plain := apply plain_no; [reflexivity|apply not_digit; cbn; lia|discriminate].
Ltac not_dig := apply not_digit; cbn; lia.

Lemma plain_paren : forall s, plain_name s -> lacks "(" s.
Proof. intros s. apply plain_lacks. not_plain. Qed.
Lemma decimal_lacks : forall c n, ~ digit c -> lacks c (decimal n).
Proof. intros c n H. apply (all_chars_impl digit); [|apply decimal_digits]. intros d D ->. exact (H D). Qed.

(** All names shown have one of three forms. *)
Inductive form : symbol -> string -> Prop :=
| fm_numbered s name i : lacks "(" name -> (s = Terminal i \/ s = NonTerminal i) -> form s (name ++ String "(" (decimal i ++ ")"))
| fm_eps : form Epsilon "<eps>"
| fm_end : form End "<end>".

Section Shown.
Variable rs : rule_set.
Variable g : grammar.
Hypothesis built : from_rule_set rs = Ok g.
Hypothesis sm : small rs.
Hypothesis pn : plain_names rs.

Lemma token_plain : forall t name, In (Terminal t, name) (g_tokens g) -> plain_name name /\ exists i, token_at rs i name.
Proof.
  intros t name H. apply (token_numbers rs g sm built) in H. destruct H as (i & _ & r & Hr & <-). split; [|exists i, r; auto]. apply (proj1 pn). eapply nth_error_In; eauto.
Qed.
Lemma prod_plain : forall t name, In (NonTerminal t, name) (g_prods g) -> plain_name name /\ exists i, prod_at rs i name.
Proof.
  intros t name H. apply (production_numbers rs g sm built) in H. destruct H as (i & _ & X). destruct X as [(r & Hr & <-) _]. split; [|exists i, r; auto]. apply (proj2 pn). eapply nth_error_In; eauto.
Qed.
Lemma names_apart : forall i j name, token_at rs i name -> prod_at rs j name -> False.
Proof.
  intros i j name A B. destruct (proj1 (ok_iff rs) (ex_intro _ g built)) as [N _]. apply (N (TokenAt i) (ProdAt j)). exists name. auto.
Qed.

Lemma shown_form : forall s n, shown g s n -> form s n.
Proof.
  intros s n H. destruct H as [t name H|i name H|i H| |]; try constructor; auto.
  - apply plain_paren. apply (token_plain _ _ H).
  - apply plain_paren. apply (prod_plain _ _ H).
  - change ("<anon>(" ++ decimal i ++ ")")%string with ("<anon>" ++ String "(" (decimal i ++ ")"))%string. constructor; auto. cbn. repeat split; discriminate.
Qed.

Lemma form_split : forall name i name' j, lacks "(" name -> lacks "(" name' -> (name ++ String "(" (decimal i ++ ")") = name' ++ String "(" (decimal j ++ ")"))%string -> name = name' /\ i = j.
Proof.
  intros name i name' j A B H. apply first_split in H; auto. destruct H as [-> H]. split; auto. apply first_split in H; [|apply decimal_lacks; not_dig|apply decimal_lacks; not_dig].
  destruct H as [H _]. exact (decimal_inj _ _ H).
Qed.

Lemma shown_inj : forall s s' n, shown g s n -> shown g s' n -> s = s'.
Proof.
  intros s s' n H H'.
  assert (forall name i, (name ++ String "(" (decimal i ++ ")"))%string = "<eps>" -> False) as E1.
  { intros name i E. apply (lacks_not "(" name (decimal i ++ ")")%string). rewrite E. cbn. repeat split; discriminate. }
  assert (forall name i, (name ++ String "(" (decimal i ++ ")"))%string = "<end>" -> False) as E2.
  { intros name i E. apply (lacks_not "(" name (decimal i ++ ")")%string). rewrite E. cbn. repeat split; discriminate. }
  assert (forall name name' i j, plain_name name -> plain_name name' -> (name ++ "(" ++ decimal i ++ ")" = name' ++ "(" ++ decimal j ++ ")")%string -> name = name' /\ i = j) as E3.
  { intros name name' i j A B E. apply form_split; auto; apply plain_paren; auto. }
  assert (forall name i j, plain_name name -> (name ++ "(" ++ decimal i ++ ")" = "<anon>(" ++ decimal j ++ ")")%string -> False) as E4.
  { intros name i j A E. change ("<anon>(" ++ decimal j ++ ")")%string with ("<anon>" ++ String "(" (decimal j ++ ")"))%string in E. apply form_split in E; [|apply plain_paren; auto|cbn; repeat split; discriminate].
    destruct E as [-> _]. destruct A as [A _]. revert A. not_plain. }
  destruct H as [t name H|i name H|i H| |]; inversion H' as [t' name' K E0 E|i' name' K E0 E|i' K E0 E|E0 E|E0 E]; subst; auto.
  all: try (exfalso; eapply E1; eassumption). all: try (exfalso; eapply E2; eassumption).
  all: try (exfalso; eapply E1; symmetry; eassumption). all: try (exfalso; eapply E2; symmetry; eassumption).
  all: try discriminate.
  - destruct (token_plain _ _ H) as [P _], (token_plain _ _ K) as [P' _]. destruct (E3 _ _ _ _ P P' (eq_sym E)) as [_ ->]. auto.
  - destruct (token_plain _ _ H) as [P X], (prod_plain _ _ K) as [P' Y]. destruct (E3 _ _ _ _ P P' (eq_sym E)) as [-> _]. destruct X as [a X], Y as [b Y]. destruct (names_apart _ _ _ X Y).
  - exfalso. eapply E4; [apply (token_plain _ _ H)|]. symmetry. exact E.
  - destruct (prod_plain _ _ H) as [P X], (token_plain _ _ K) as [P' Y]. destruct (E3 _ _ _ _ P P' (eq_sym E)) as [-> _]. destruct X as [a X], Y as [b Y]. destruct (names_apart _ _ _ Y X).
  - destruct (prod_plain _ _ H) as [P _], (prod_plain _ _ K) as [P' _]. destruct (E3 _ _ _ _ P P' (eq_sym E)) as [_ ->]. auto.
  - exfalso. eapply E4; [apply (prod_plain _ _ H)|]. symmetry. exact E.
  - exfalso. eapply E4; [apply (token_plain _ _ K)|]. exact E.
  - exfalso. eapply E4; [apply (prod_plain _ _ K)|]. exact E.
  - apply first_split in E; [|apply decimal_lacks; not_dig|apply decimal_lacks; not_dig]. destruct E as [E _]. apply decimal_inj in E. congruence.
Qed.

(** ** Words *)

Lemma shown_spaceless : forall s n, shown g s n -> spaceless n.
Proof.
  intros s n H. unfold spaceless. assert (forall i, lacks " " ("(" ++ decimal i ++ ")")%string) as D.
  { intros i. split; [discriminate|]. apply (proj2 (lacks_app " " (decimal i) ")")). split; [apply decimal_lacks; not_dig|cbn; repeat split; discriminate]. }
  destruct H as [t name H|i name H|i H| |].
  - apply lacks_app. split; [|apply D]. apply plain_lacks; [not_plain|]. apply (token_plain _ _ H).
  - apply lacks_app. split; [|apply D]. apply plain_lacks; [not_plain|]. apply (prod_plain _ _ H).
  - change ("<anon>(" ++ decimal i ++ ")")%string with ("<anon>" ++ ("(" ++ decimal i ++ ")"))%string. apply lacks_app. split; [|apply D]. cbn. repeat split; discriminate.
  - cbn. repeat split; discriminate.
  - cbn. repeat split; discriminate.
Qed.

Definition wordy (w : string) : Prop := w <> "" /\ w <> "->" /\ w <> bullet.
Lemma shown_wordy : forall s n, shown g s n -> wordy n.
Proof.
  intros s n H. apply shown_form in H. destruct H as [s name i L _| |]; [|split; [|split]; discriminate|split; [|split]; discriminate].
  split; [|split]; intros E; apply (lacks_not "(" name (decimal i ++ ")")%string); rewrite E; cbn; repeat split; discriminate.
Qed.

(** The words of a list of names: no name at all is one empty word. *)
Definition words (l : list string) : list string := match l with [] => [""] | _ => l end.
Lemma words_join : forall l, String.concat " " (words l) = String.concat " " l.
Proof. intros [|a l]; reflexivity. Qed.
Lemma words_nonempty : forall l, words l <> [].
Proof. intros [|a l]; discriminate. Qed.
Lemma words_spaceless : forall ss l, Forall2 (shown g) ss l -> Forall spaceless (words l).
Proof.
  intros ss l H. assert (Forall spaceless l) as F by (induction H; constructor; auto; eapply shown_spaceless; eauto). destruct l; cbn [words]; auto. repeat constructor.
Qed.
Lemma words_inj : forall ss l ss' l', Forall2 (shown g) ss l -> Forall2 (shown g) ss' l' -> words l = words l' -> ss = ss'.
Proof.
  intros ss l ss' l' H H' E.
  assert (l = l') as <-.
  { destruct H as [|s n ss l W H]; destruct H' as [|s' n' ss' l' W' H']; cbn [words] in E; auto.
    - injection E as E _. apply shown_wordy in W'. destruct W' as [W' _]. congruence.
    - injection E as E _. apply shown_wordy in W. destruct W as [W _]. congruence. }
  clear E. revert ss' H'. induction H as [|s n ss l W H IH]; intros ss' H'; inversion H' as [|s' ? ss0 ? W' H0]; subst; auto. f_equal; auto. eapply shown_inj; eauto.
Qed.
Lemma words_lack : forall ss l w, Forall2 (shown g) ss l -> (w = "->" \/ w = bullet) -> ~ In w (words l).
Proof.
  intros ss l w H E I. assert (In w l \/ w = "") as [J|J].
  { destruct l; cbn [words] in I; auto. destruct I as [I|[]]; auto. }
  - clear I. induction H as [|s n ss l W H IH]; [contradiction|]. destruct J as [J|J]; auto. subst n. apply shown_wordy in W. destruct W as (_ & A & B). destruct E; congruence.
  - subst w. destruct E; discriminate.
Qed.

Lemma split_at : forall (w : string) a b x y, ~ In w a -> ~ In w b -> a ++ w :: x = b ++ w :: y -> a = b /\ x = y.
Proof.
  induction a as [|d a IH]; intros [|e b] x y A B H; cbn in *.
  - injection H as ->. auto.
  - injection H as <- H. tauto.
  - injection H as -> H. tauto.
  - injection H as -> H. destruct (IH b x y) as [-> ->]; tauto.
Qed.

(** ** Items and rules *)

Lemma item_words : forall it text, shown_item g it text -> exists before after pre post, rhs_of g (it_rule it) = before ++ after /\ length before = it_dot it /\
  Forall2 (shown g) before pre /\ Forall2 (shown g) after post /\
  exists front, text = String.concat " " (front ++ words pre ++ bullet :: words post) /\ match lhs_of g (it_rule it) with Some i => exists lhs, shown g (NonTerminal i) lhs /\ front = [lhs; "->"] | None => front = [] end.
Proof.
  intros it text (before & after & pre & post & E & L & A & B & C). exists before, after, pre, post. split; auto. split; auto. split; auto. split; auto.
  assert (String.concat " " (words pre ++ bullet :: words post) = (String.concat " " pre ++ " " ++ bullet ++ " " ++ String.concat " " post)%string) as D.
  { rewrite concat_app; [|apply words_nonempty|discriminate]. rewrite concat_cons by apply words_nonempty. rewrite !words_join. reflexivity. }
  destruct (lhs_of g (it_rule it)) as [i|].
  - destruct C as (lhs & C & ->). exists [lhs; "->"]. split; [|eauto]. rewrite concat_app; [|discriminate|destruct (words pre); discriminate]. rewrite D. cbn [String.concat]. rewrite !append_assoc. reflexivity.
  - exists []. split; auto. cbn [app]. rewrite D. exact C.
Qed.

Lemma item_tells : forall it it' text, shown_item g it text -> shown_item g it' text ->
  lhs_of g (it_rule it) = lhs_of g (it_rule it') /\ rhs_of g (it_rule it) = rhs_of g (it_rule it') /\ it_dot it = it_dot it'.
Proof.
  intros it it' text H H'. apply item_words in H, H'. destruct H as (b & a & pr & po & E & L & A & B & f & T & F). destruct H' as (b' & a' & pr' & po' & E' & L' & A' & B' & f' & T' & F').
  assert (forall o ff, match o with Some i => exists lhs, shown g (NonTerminal i) lhs /\ ff = [lhs; "->"] | None => ff = [] end -> Forall spaceless ff) as SX.
  { intros [i|] ff; [intros (lhs & X & ->)|intros ->; constructor]. constructor; [eapply shown_spaceless; eassumption|]. repeat constructor; discriminate. }
  pose proof (SX _ _ F) as SF. pose proof (SX _ _ F') as SF'. clear SX.
  assert (spaceless bullet) as SB by (cbn; repeat split; discriminate).
  assert (f ++ words pr ++ bullet :: words po = f' ++ words pr' ++ bullet :: words po') as W.
  { apply join_inj; [| | | |congruence].
    - apply Forall_app. split; auto. apply Forall_app. split; [eapply words_spaceless; eauto|constructor; auto; eapply words_spaceless; eauto].
    - apply Forall_app. split; auto. apply Forall_app. split; [eapply words_spaceless; eauto|constructor; auto; eapply words_spaceless; eauto].
    - destruct f; [destruct (words pr)|]; discriminate.
    - destruct f'; [destruct (words pr')|]; discriminate. }
  clear T T'.
  assert (forall bb pp aa qq, Forall2 (shown g) bb pp -> Forall2 (shown g) aa qq -> ~ In "->" (words pp ++ bullet :: words qq)) as NA.
  { intros bb pp aa qq X Y I. apply in_app_or in I. destruct I as [I|[I|I]]; [|discriminate|]; revert I; eapply words_lack; eauto. }
  assert (lhs_of g (it_rule it) = lhs_of g (it_rule it') /\ words pr ++ bullet :: words po = words pr' ++ bullet :: words po') as [EL W'].
  { destruct (lhs_of g (it_rule it)) as [i|], (lhs_of g (it_rule it')) as [j|].
    - destruct F as (l & F & ->), F' as (l' & F' & ->). cbn [app] in W. injection W as -> W. split; auto. f_equal. assert (NonTerminal i = NonTerminal j) as X by (eapply shown_inj; eauto). congruence.
    - destruct F as (l & F & ->). subst f'. exfalso. cbn [app] in W. apply (NA _ _ _ _ A' B'). rewrite <- W. right. left. auto.
    - destruct F' as (l & F' & ->). subst f. exfalso. cbn [app] in W. apply (NA _ _ _ _ A B). rewrite W. right. left. auto.
    - subst. auto. }
  apply split_at in W'; [|eapply words_lack; eauto|eapply words_lack; eauto]. destruct W' as [X Y].
  assert (b = b') as <- by (eapply words_inj; eauto). assert (a = a') as <- by (eapply words_inj; eauto). split; auto. split; congruence.
Qed.

Lemma rule_tells : forall r r' text, r_lhs r <> None -> r_lhs r' <> None -> rule_text g r = Ok text -> rule_text g r' = Ok text -> r_lhs r = r_lhs r' /\ r_rhs r = r_rhs r'.
Proof.
  pose proof (tokens_sorted _ _ built) as ts. pose proof (prods_sorted _ _ built) as ps.
  assert (forall r text, r_lhs r <> None -> rule_text g r = Ok text -> exists i lhs ns, r_lhs r = Some i /\ shown g (NonTerminal i) lhs /\ Forall2 (shown g) (r_rhs r) ns /\ text = String.concat " " ([lhs; "->"] ++ words ns)) as X.
  { intros r text N H. unfold rule_text, symbol_names in H. apply bind_Ok in H. destruct H as (t & Ht & H). apply bind_Ok in Ht. destruct Ht as (ns & Hns & Ht). injection Ht as <-.
    apply (symbol_names_shown g ts ps) in Hns. destruct (r_lhs r) as [i|]; [|congruence]. apply bind_Ok in H. destruct H as (lhs & Hl & H). injection H as <-. apply (symbol_name_shown g ts ps) in Hl.
    exists i, lhs, ns. split; auto. split; auto. split; auto. rewrite concat_app; [|discriminate|apply words_nonempty]. rewrite words_join. cbn [String.concat]. rewrite !append_assoc. reflexivity. }
  intros r r' text N N' H H'. destruct (X _ _ N H) as (i & l & ns & E & Hl & Hn & T). destruct (X _ _ N' H') as (i' & l' & ns' & E' & Hl' & Hn' & T').
  assert (spaceless "->") as SA by (cbn; repeat split; discriminate).
  assert ([l; "->"] ++ words ns = [l'; "->"] ++ words ns') as W.
  { apply join_inj; [| |discriminate|discriminate|congruence].
    - cbn [app]. constructor; [eapply shown_spaceless; eassumption|constructor; [exact SA|eapply words_spaceless; eassumption]].
    - cbn [app]. constructor; [eapply shown_spaceless; eassumption|constructor; [exact SA|eapply words_spaceless; eassumption]]. }
  cbn [app] in W. injection W as <- W. assert (NonTerminal i = NonTerminal i') as Y by (eapply shown_inj; eauto). rewrite E, E'. split; [congruence|]. eapply words_inj; eauto.
Qed.

End Shown.

(** ** The table *)

Lemma pad_inj : forall a b n m, spaceless a -> spaceless b -> (a ++ fill " " n = b ++ fill " " m)%string -> a = b.
Proof.
  induction a as [|c a IH]; intros [|d b] n m A B H; cbn in *; auto.
  - destruct n; cbn in H; [discriminate|]. injection H as H _. destruct B as [B _]. congruence.
  - destruct m; cbn in H; [discriminate|]. injection H as H _. destruct A as [A _]. congruence.
  - injection H as -> H. f_equal. destruct A, B. eauto.
Qed.
Lemma fill_lacks : forall c d n, d <> c -> lacks c (fill d n).
Proof. intros c d n H. induction n; cbn; [exact I|]. split; auto. Qed.
Lemma fill_split : forall n m x y, (fill " " n ++ String "|" x = fill " " m ++ String "|" y)%string -> n = m /\ x = y.
Proof.
  intros n m x y H. apply first_split in H; [|apply fill_lacks; discriminate|apply fill_lacks; discriminate]. destruct H as [E ->]. split; auto.
  revert m E. induction n as [|n IH]; intros [|m] E; cbn in E; try discriminate; auto. injection E as E. f_equal. auto.
Qed.

(** The text of a cell tells its entry. *)
Lemma letter_decimal : forall c, letter c = true -> forall n, lacks "|" (String c (decimal n)) /\ spaceless (String c (decimal n)).
Proof.
  intros c L n. split; (split; [intros ->; discriminate L|apply decimal_lacks; not_dig]).
Qed.
Lemma cell_chars : forall c t, cell_text c = Ok t -> lacks "|" t /\ spaceless t.
Proof.
  intros c t H. unfold cell_text in H.
  destruct c as [[|e [|e2 l]]|]; [| |destruct e as [k|[k|]| |]|]; try destruct e as [k|[k|]| |]; try discriminate H; injection H as <-; try (split; cbn; repeat split; discriminate).
  - apply (letter_decimal "s" eq_refl).
  - apply (letter_decimal "r" eq_refl).
Qed.
Lemma cell_tells : forall c c' t, cell_text c = Ok t -> cell_text c' = Ok t -> c = c' \/ (crowded c /\ crowded c').
Proof.
  assert (forall c t, cell_text c = Ok t -> (t = "" /\ c = None) \/ (exists k, t = String "s" (decimal (N.of_nat k)) /\ c = Some [Shift k]) \/ (exists k, t = String "r" (decimal (N.of_nat k)) /\ c = Some [Reduce (Some k)]) \/
    (t = "e" /\ c = Some [Error]) \/ (t = "a" /\ c = Some [Accept]) \/ (t = "c" /\ crowded c)) as X.
  { intros c t H. unfold cell_text in H. destruct c as [[|e [|e2 l]]|].
    - injection H as <-. do 5 right. split; auto. exists []. split; [auto|discriminate].
    - destruct e as [k|[k|]| |]; try discriminate H; injection H as <-; [right; left; exists k; auto|right; right; left; exists k; auto|auto 10|auto 10].
    - assert (t = "c") as -> by (destruct e as [k|[k|]| |]; injection H as <-; auto). do 5 right. split; auto. eexists. split; [reflexivity|]. cbn. lia.
    - injection H as <-. auto. }
  intros c c' t H H'. apply X in H, H'.
  destruct H as [[E H]|[(k & E & H)|[(k & E & H)|[[E H]|[[E H]|[E H]]]]]]; destruct H' as [[E' H']|[(k' & E' & H')|[(k' & E' & H')|[[E' H']|[[E' H']|[E' H']]]]]]; subst; try discriminate E'; auto.
  - injection E' as E'. apply decimal_inj in E'. apply Nnat.Nat2N.inj in E'. subst. auto.
  - injection E' as E'. apply decimal_inj in E'. apply Nnat.Nat2N.inj in E'. subst. auto.
Qed.

Definition told (c c' : option (list table_entry)) : Prop := c = c' \/ (crowded c /\ crowded c').

Lemma concat_empty : forall a l, String.concat "" (a :: l) = (a ++ String.concat "" l)%string.
Proof. intros a [|b l]; cbn [String.concat]; [rewrite append_nil; reflexivity|reflexivity]. Qed.

Lemma cells_tell : forall tb tb' q columns cells cells' x y, res_list (map (table_cell tb q) columns) = Ok cells -> res_list (map (table_cell tb' q) columns) = Ok cells' ->
  (String.concat "" cells ++ x = String.concat "" cells' ++ y)%string -> x = y /\ (forall c, In c columns -> told (get_entry tb q (fst c)) (get_entry tb' q (fst c))).
Proof.
  intros tb tb' q. induction columns as [|c columns IH]; intros cells cells' x y H H' E; cbn [map res_list] in H, H'.
  - injection H as <-. injection H' as <-. cbn in E. split; auto. intros c [].
  - apply bind_Ok in H. destruct H as (t & Ht & H). apply bind_Ok in H. destruct H as (ts & Hts & H). injection H as <-.
    apply bind_Ok in H'. destruct H' as (t' & Ht' & H'). apply bind_Ok in H'. destruct H' as (ts' & Hts' & H'). injection H' as <-.
    rewrite !concat_empty, !append_assoc in E. unfold table_cell in Ht, Ht'. apply bind_Ok in Ht. destruct Ht as (u & Hu & Ht). injection Ht as <-. apply bind_Ok in Ht'. destruct Ht' as (u' & Hu' & Ht'). injection Ht' as <-.
    rewrite !append_assoc in E. cbn [append] in E. destruct (cell_chars _ _ Hu) as [U1 U2]. destruct (cell_chars _ _ Hu') as [V1 V2].
    apply first_split in E; [|apply lacks_app; split; [auto|apply fill_lacks; discriminate]|apply lacks_app; split; [auto|apply fill_lacks; discriminate]].
    destruct E as [E1 E2]. unfold pad_right in E1. apply pad_inj in E1; auto. subst u'. destruct (IH _ _ _ _ Hts Hts' E2) as [A B]. split; auto. intros c' [<-|I]; auto. exact (cell_tells _ _ _ Hu Hu').
Qed.

Lemma lines_tell : forall tb tb' d columns n n' k lines lines', res_list (map (table_line tb d columns) (seq k n)) = Ok lines -> res_list (map (table_line tb' d columns) (seq k n')) = Ok lines' ->
  String.concat "" lines = String.concat "" lines' -> n = n' /\ (forall q c, k <= q < k + n -> In c columns -> told (get_entry tb q (fst c)) (get_entry tb' q (fst c))).
Proof.
  intros tb tb' d columns.
  assert (forall tb q t, table_line tb d columns q = Ok t -> exists cells, res_list (map (table_cell tb q) columns) = Ok cells /\ t = (pad_zeros d (decimal (N.of_nat q)) ++ "|" ++ String.concat "" cells ++ newline_text)%string) as X.
  { intros tb0 q t H. unfold table_line in H. apply bind_Ok in H. destruct H as (cells & Hc & H). injection H as <-. eauto. }
  assert (forall a b : string, (a ++ String "|" b)%string = "" -> False) as NE by (intros [|? ?]; discriminate).
  induction n as [|n IH]; intros [|n'] k lines lines' H H' E; cbn [seq map res_list] in H, H'.
  - split; auto. intros q c Hq. lia.
  - apply bind_Ok in H'. destruct H' as (t & Ht & H'). apply bind_Ok in H'. destruct H' as (ts & _ & H'). injection H' as <-. injection H as <-. exfalso.
    apply X in Ht. destruct Ht as (cells & _ & ->). rewrite concat_empty, !append_assoc in E. cbn [String.concat append] in E. eapply NE. symmetry. exact E.
  - apply bind_Ok in H. destruct H as (t & Ht & H). apply bind_Ok in H. destruct H as (ts & _ & H). injection H as <-. injection H' as <-. exfalso.
    apply X in Ht. destruct Ht as (cells & _ & ->). rewrite concat_empty, !append_assoc in E. cbn [String.concat append] in E. eapply NE. exact E.
  - apply bind_Ok in H. destruct H as (t & Ht & H). apply bind_Ok in H. destruct H as (ts & Hts & H). injection H as <-.
    apply bind_Ok in H'. destruct H' as (t' & Ht' & H'). apply bind_Ok in H'. destruct H' as (ts' & Hts' & H'). injection H' as <-.
    apply X in Ht, Ht'. destruct Ht as (cells & Hc & ->), Ht' as (cells' & Hc' & ->). rewrite !concat_empty, !append_assoc in E. apply append_inj in E. apply append_inj in E.
    destruct (cells_tell _ _ _ _ _ _ _ _ Hc Hc' E) as [E' A]. apply append_inj in E'. destruct (IH _ _ _ _ Hts Hts' E') as [-> B]. split; auto. intros q c Hq Hic.
    destruct (Nat.eq_dec q k) as [->|N]; auto. apply B; auto. lia.
Qed.

Lemma table_tells : forall g tb tb' text, output_table g tb = Ok text -> output_table g tb' = Ok text ->
  tb_states tb = tb_states tb' /\ forall q s, q < tb_states tb -> In s (table_columns g) -> get_entry tb q s = get_entry tb' q s \/ (crowded (get_entry tb q s) /\ crowded (get_entry tb' q s)).
Proof.
  intros g tb tb' text H H'. unfold output_table in H, H'. apply bind_Ok in H. destruct H as (rules & Hr & H). apply bind_Ok in H'. destruct H' as (rules' & Hr' & H').
  assert (rules' = rules) as -> by congruence. clear Hr Hr'. cbv zeta in H, H'.
  apply bind_Ok in H. destruct H as (names & Hn & H). apply bind_Ok in H'. destruct H' as (names' & Hn' & H'). assert (names' = names) as -> by congruence. clear Hn'.
  apply bind_Ok in H. destruct H as (lines & Hl & H). apply bind_Ok in H'. destruct H' as (lines' & Hl' & H'). rewrite <- H in H'. clear H.
  apply (f_equal (fun r => match r with Ok x => x | _ => EmptyString end)) in H'. cbv beta iota in H'. do 2 apply append_inj in H'. do 2 apply append_inj in H'. rewrite !append_assoc in H'.
  assert (length names = length (table_columns g)) as L.
  { apply list_ok in Hn. clear -Hn. revert Hn. generalize (table_columns g). intros l Hn. induction Hn; cbn; auto. }
  assert (exists h, (forall x : string, String.concat "" (map (fun n => ("|" ++ n)%string) names) ++ "|" ++ newline_text ++ x = String "|" (h ++ x))%string) as [h Hh].
  { destruct names as [|a l]; [unfold table_columns in L; rewrite app_length in L; cbn in L; lia|]. exists (a ++ String.concat "" (map (fun n => ("|" ++ n)%string) l) ++ "|" ++ newline_text)%string.
    intros x. cbn [map]. rewrite concat_empty, !append_assoc. reflexivity. }
  rewrite !Hh in H'. apply fill_split in H'. destruct H' as [D H']. apply append_inj in H'. rewrite D in Hl'.
  destruct (lines_tell _ _ _ _ _ _ _ _ _ Hl Hl' (eq_sym H')) as [S T]. split; auto. intros q s Hq Hs.
  destruct (In_nth_error _ _ Hs) as [j Hj]. destruct (nth_error names j) as [n|] eqn:En; [|apply nth_error_None in En; assert (j < length (table_columns g)) by (apply nth_error_Some; congruence); lia].
  apply (T q (s, n)); [lia|]. clear -Hj En. revert j names Hj En. induction (table_columns g) as [|c l IH]; intros [|j] [|m names] Hj En; cbn in *; try discriminate; [left; congruence|right; eauto].
Qed.

Lemma symbols_tell : forall rs g, from_rule_set rs = Ok g -> small rs -> plain_names rs -> forall s s' n, get_symbol_name g s = Ok n -> get_symbol_name g s' = Ok n -> s = s'.
Proof.
  intros rs g B S P s s' n H H'. pose proof (tokens_sorted _ _ B) as ts. pose proof (prods_sorted _ _ B) as ps. apply (symbol_name_shown g ts ps) in H, H'. exact (shown_inj rs g B S P _ _ _ H H').
Qed.
Lemma rules_tell : forall rs g, from_rule_set rs = Ok g -> small rs -> plain_names rs -> forall r r' text, In r (g_rules g) -> In r' (g_rules g) -> rule_text g r = Ok text -> rule_text g r' = Ok text ->
  r_lhs r = r_lhs r' /\ r_rhs r = r_rhs r'.
Proof.
  intros rs g B S P r r' text I I'. pose proof (grammar_wf _ _ B) as wf. apply (rule_tells rs g B S P).
  - destruct (wf_lhs g wf r I) as (i & E & _). congruence.
  - destruct (wf_lhs g wf r' I') as (i & E & _). congruence.
Qed.
Lemma items_tell : forall rs g, from_rule_set rs = Ok g -> small rs -> plain_names rs -> forall it it' text, it_dot it <= length (rhs_of g (it_rule it)) -> it_dot it' <= length (rhs_of g (it_rule it')) ->
  item_text g it = Ok text -> item_text g it' = Ok text -> lhs_of g (it_rule it) = lhs_of g (it_rule it') /\ rhs_of g (it_rule it) = rhs_of g (it_rule it') /\ it_dot it = it_dot it'.
Proof.
  intros rs g B S P it it' text D D' H H'. pose proof (tokens_sorted _ _ B) as ts. pose proof (prods_sorted _ _ B) as ps. apply (item_text_shown g ts ps it D) in H. apply (item_text_shown g ts ps it' D') in H'.
  exact (item_tells rs g B S P _ _ _ H H').
Qed.

(** ** The table file and the parser *)

Lemma foldM_ext : forall E S A (f h : S -> A -> res E S) l s, (forall a s, In a l -> f s a = h s a) -> foldM f l s = foldM h l s.
Proof.
  induction l as [|a l IH]; intros s H; cbn [foldM]; auto. rewrite (H a s (or_introl eq_refl)). destruct (h s a); cbn [bind]; auto. apply IH. intros. apply H. right. auto.
Qed.
Lemma foldM_ext2 : forall E S A B (f : S -> B -> res E S) (u v : A -> B) l s, (forall a s, In a l -> f s (u a) = f s (v a)) -> foldM f (map u l) s = foldM f (map v l) s.
Proof.
  induction l as [|a l IH]; intros s H; cbn [map foldM]; auto. rewrite (H a s (or_introl eq_refl)). destruct (f s (v a)); cbn [bind]; auto. apply IH. intros. apply H. right. auto.
Qed.
Lemma goto_told : forall c c' q acc s, told c c' -> goto_cell q acc (s, c) = goto_cell q acc (s, c').
Proof.
  intros c c' q acc s [->|[(l & -> & L) (l' & -> & L')]]; auto. unfold goto_cell. cbn [snd]. destruct l as [|e [|e2 l]]; destruct l' as [|e' [|e2' l']]; cbn in *; try congruence.
Qed.
Lemma action_told : forall c c' q acc s, told c c' -> action_cell q acc (s, c) = action_cell q acc (s, c').
Proof.
  intros c c' q acc s [->|[(l & -> & L) (l' & -> & L')]]; auto. unfold action_cell. cbn [snd]. destruct l as [|e [|e2 l]]; destruct l' as [|e' [|e2' l']]; cbn in *; try congruence.
Qed.

Lemma parser_told : forall g tb tb' text, output_table g tb = Ok text -> output_table g tb' = Ok text -> tb_entry tb = tb_entry tb' -> write_parser g tb = write_parser g tb'.
Proof.
  intros g tb tb' text H H' E. destruct (table_tells _ _ _ _ H H') as [ES T].
  assert (forall q s, q < tb_states tb -> In s (terminals g) \/ In s (non_terminals g) \/ s = End -> told (get_entry tb q s) (get_entry tb' q s)) as T'.
  { intros q s Hq Hs. apply T; auto. unfold table_columns, all_symbols. apply in_or_app. destruct Hs as [Hs|[Hs| ->]]; [left; apply in_or_app; auto|left; apply in_or_app; auto|right; left; auto]. }
  unfold write_parser. rewrite <- E.
  assert (make_actions g tb = make_actions g tb') as ->.
  { unfold make_actions. rewrite <- ES. apply foldM_ext. intros q acc Hq. apply in_seq in Hq. unfold iter_state_terminals.
    rewrite (foldM_ext2 _ _ _ _ (action_cell q) (fun s => (s, get_entry tb q s)) (fun s => (s, get_entry tb' q s))); auto.
    intros s a Hs. apply action_told. apply T'; [lia|]. apply in_app_or in Hs. destruct Hs as [Hs|[<-|[]]]; auto. }
  assert (make_gotos g tb = make_gotos g tb') as ->; auto.
  unfold make_gotos. rewrite <- ES. apply foldM_ext. intros q acc Hq. apply in_seq in Hq. unfold iter_state_terminals, iter_state_non_terminals. rewrite <- !map_app.
  apply foldM_ext2. intros s a Hs. apply goto_told. apply T'; [lia|]. apply in_app_or in Hs. destruct Hs as [Hs|Hs]; auto. apply in_app_or in Hs. destruct Hs as [Hs|[<-|[]]]; auto.
Qed.

Lemma parsers_tell : forall rs g k m allow r tb k' m' allow' r' tb' text, from_rule_set rs = Ok g -> generates k m g allow = Ok r -> table_of_result r tb -> generates k' m' g allow' = Ok r' -> table_of_result r' tb' ->
  output_table g tb = Ok text -> output_table g tb' = Ok text -> write_parser g tb = write_parser g tb'.
Proof.
  intros rs g k m allow r tb k' m' allow' r' tb' text B H T H' T' X X'. pose proof (grammar_wf _ _ B) as wf. apply (parser_told g tb tb' text X X').
  assert (forall k m allow r tb, generates k m g allow = Ok r -> table_of_result r tb -> tb_entry tb = 0) as Z.
  { clear -wf. intros k m allow r tb H T. destruct (generate_inv g wf m (kind_n k) allow (kind_lalr k) _ (kind_n_le k) H) as (fs & pg & cs & A & au & C & D). destruct T; inversion D as [? ? F|? ? ? F|]; subst; exact (tf_entry _ _ _ _ F). }
  rewrite (Z _ _ _ _ _ H T), (Z _ _ _ _ _ H' T'). auto.
Qed.

Lemma table_file : forall rs g k m allow r tb, from_rule_set rs = Ok g -> generates k m g allow = Ok r -> table_of_result r tb ->
  exists text, output_table g tb = Ok text /\ forall tb', output_table g tb' = Ok text ->
    tb_states tb = tb_states tb' /\ forall q s, q < tb_states tb -> In s (all_symbols g) \/ s = End -> get_entry tb q s = get_entry tb' q s \/ (crowded (get_entry tb q s) /\ crowded (get_entry tb' q s)).
Proof.
  intros rs g k m allow r tb B H T. destruct (table_written rs g k m allow r tb B H T) as [text X]. exists text. split; [exact X|]. intros tb' X'. destruct (table_tells g tb tb' text X X') as [A C].
  split; [exact A|]. intros q s Hq Hs. apply C; [exact Hq|]. unfold table_columns. apply in_or_app. destruct Hs as [Hs| ->]; [left; exact Hs|right; left; reflexivity].
Qed.
