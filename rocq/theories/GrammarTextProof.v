(** What the displayed text of a grammar tells. *)
From Coq Require Import String Ascii List Arith NArith Bool Lia.
From Verif Require Import Base InputModel GrammarModel GrammarSpec GrammarNamesProof GrammarBuildProof GrammarFactsProof LRModel LRSpec NamesModel NamesSpec NamesProof NamesVisitProof TableModel TableSpec PipelineModel PipelineSpec PipelineReportProof PipelineFactsProof
  TableProof GrammarTextModel.
Import ListNotations.
Local Open Scope string_scope.
Local Open Scope list_scope.

(** Strings. *)
Lemma concat_lacks : forall c l, lacks c " " -> Forall (lacks c) l -> lacks c (String.concat " " l).
Proof.
  intros c l S. induction l as [|x l IH]; intros F; [exact Logic.I|]. inversion F as [|? ? A B]; subst. cbn [String.concat]. destruct l as [|y l]; [exact A|]. apply lacks_app. split; [exact A|]. apply lacks_app. split; [exact S|exact (IH B)].
Qed.
Lemma lines_cut : forall l l', Forall (lacks "010") l -> Forall (lacks "010") l' -> (String.concat "" (map rule_line l) ++ "}" = String.concat "" (map rule_line l') ++ "}")%string -> l = l'.
Proof.
  assert (U : forall x l, String.concat "" (map rule_line (x :: l)) = (String "009" (x ++ String "010" (String.concat "" (map rule_line l))))%string).
  { intros x l. cbn [map]. rewrite concat_empty. unfold rule_line, tab, line_end. cbn [append]. rewrite append_assoc. reflexivity. }
  induction l as [|x l IH]; intros [|x' l'] F F' E; [reflexivity| | |].
  - rewrite U in E. discriminate.
  - rewrite U in E. discriminate.
  - rewrite !U in E. cbn [append] in E. injection E as E. rewrite !append_assoc in E. cbn [append] in E. inversion F as [|? ? A B]; subst. inversion F' as [|? ? A' B']; subst.
    apply first_split in E; [|exact A|exact A']. destruct E as (-> & E). rewrite (IH l' B B' E). reflexivity.
Qed.
Lemma append_tail : forall a b x, (a ++ x = b ++ x)%string -> a = b.
Proof.
  assert (L : forall a b, String.length (a ++ b)%string = (String.length a + String.length b)%nat) by (intros a b; induction a as [|c a IH]; [reflexivity|cbn; rewrite IH; reflexivity]).
  induction a as [|c a IH]; intros [|d b] x E; [reflexivity| | |].
  - apply (f_equal String.length) in E. rewrite !L in E. cbn in E. lia.
  - apply (f_equal String.length) in E. rewrite !L in E. cbn in E. lia.
  - cbn in E. injection E as -> E. rewrite (IH b x E). reflexivity.
Qed.

(** One grammar. *)
Inductive shape (g : grammar) : symbol -> string -> Prop :=
| shape_token t name : plain_name name -> In (Terminal t, name) (g_tokens g) -> shape g (Terminal t) (name ++ String "(" (decimal t ++ ")"))
| shape_prod i name : plain_name name -> In (NonTerminal i, name) (g_prods g) -> shape g (NonTerminal i) (name ++ String "(" (decimal i ++ ")"))
| shape_anon i name : name = "<anon>" -> shape g (NonTerminal i) (name ++ String "(" (decimal i ++ ")"))
| shape_epsilon : shape g Epsilon "<eps>"
| shape_end : shape g End "<end>".
Lemma anon_paren : lacks "(" "<anon>". Proof. cbn. repeat split; discriminate. Qed.
Lemma plain_not_anon : ~ plain_name "<anon>".
Proof. intros (H & _). revert H. apply plain_no; [reflexivity|apply not_digit; right; reflexivity|discriminate]. Qed.
Lemma line_end_plain : ~ plain_char "010". Proof. apply plain_no; [reflexivity|apply not_digit; left; reflexivity|discriminate]. Qed.

Section One.
Variables (rs : rule_set) (g : grammar).
Hypothesis built : from_rule_set rs = Ok g.
Hypothesis sm : small rs.
Hypothesis pn : plain_names rs.
Lemma shown_shape : forall s n, shown g s n -> shape g s n.
Proof.
  intros s n [t name H|i name H|i H| |]; [constructor; [|exact H]|constructor; [|exact H]|exact (shape_anon g i "<anon>" eq_refl)|constructor|constructor].
  - exact (proj1 (token_plain rs g built sm pn _ _ H)).
  - exact (proj1 (prod_plain rs g built sm pn _ _ H)).
Qed.
Lemma shown_line : forall s n, shown g s n -> lacks "010" n.
Proof.
  intros s n H. assert (D : forall i, lacks "010" (String "(" (decimal i ++ ")"))).
  { intros i. split; [discriminate|]. apply lacks_app. split; [apply decimal_lacks, not_digit; left; reflexivity|cbn; repeat split; discriminate]. }
  destruct (shown_shape s n H) as [t name P _|i name P _|i name ->| |]; try (cbn; repeat split; discriminate); (apply lacks_app; split; [|apply D]); first [exact (plain_lacks _ _ line_end_plain P)|cbn; repeat split; discriminate].
Qed.
Lemma production_rule : forall i name, In (NonTerminal i, name) (g_prods g) -> exists r, In r (g_rules g) /\ r_lhs r = Some i.
Proof.
  intros i name H. destruct (prod_named rs g built _ _ H) as (p & Hp & <-). destruct (provenance rs g built) as (P & _). rewrite <- P in Hp. apply in_map_iff in Hp. destruct Hp as (r & <- & Hr). apply filter_In in Hr.
  destruct Hr as (Hr & Hn). destruct (named_lhs rs g sm built r Hr Hn) as (j & L & J). exists r. split; [exact Hr|]. rewrite L. f_equal.
  apply (production_numbers rs g sm built) in H. apply (production_numbers rs g sm built) in J. destruct H as (a & -> & X1 & X2). destruct J as (b & -> & Y1 & Y2). f_equal.
  destruct (Nat.lt_trichotomy a b) as [Z|[Z|Z]]; [destruct (Y2 a Z X1)|symmetry; exact Z|destruct (X2 b Z Y1)].
Qed.
Lemma rule_words : forall r text, In r (g_rules g) -> rule_text g r = Ok text -> exists i lhs ns, r_lhs r = Some i /\ shown g (NonTerminal i) lhs /\ Forall2 (shown g) (r_rhs r) ns /\ text = String.concat " " ([lhs; "->"] ++ words ns).
Proof.
  pose proof (tokens_sorted _ _ built) as ts. pose proof (prods_sorted _ _ built) as ps.
  intros r text I H. destruct (wf_lhs _ (grammar_wf _ _ built) r I) as (i & E & _). unfold rule_text, symbol_names in H. apply bind_Ok in H. destruct H as (t & Ht & H). apply bind_Ok in Ht. destruct Ht as (ns & Hns & Ht). injection Ht as <-.
  apply (symbol_names_shown g ts ps) in Hns. rewrite E in H. apply bind_Ok in H. destruct H as (lhs & Hl & H). injection H as <-. apply (symbol_name_shown g ts ps) in Hl.
  exists i, lhs, ns. split; [exact E|]. split; [exact Hl|]. split; [exact Hns|]. rewrite concat_app; [|discriminate|apply words_nonempty]. rewrite words_join. cbn [String.concat]. rewrite !append_assoc. reflexivity.
Qed.
Lemma rule_line_free : forall r text, In r (g_rules g) -> rule_text g r = Ok text -> lacks "010" text.
Proof.
  intros r text I H. destruct (rule_words r text I H) as (i & lhs & ns & _ & L & F & ->). apply concat_lacks; [cbn; repeat split; discriminate|]. cbn [app]. constructor; [exact (shown_line _ _ L)|]. constructor; [cbn; repeat split; discriminate|].
  assert (G : Forall (lacks "010") ns) by (clear - F built sm pn; induction F as [|s n l m S F IH]; constructor; [exact (shown_line _ _ S)|exact IH]). destruct ns as [|n ns]; [repeat constructor|exact G].
Qed.
Lemma words_same : forall ss l l', Forall2 (shown g) ss l -> Forall (fun n => n <> "") l' -> words l = words l' -> l = l'.
Proof.
  intros ss l l' F N E. destruct l as [|a l], l' as [|b l']; cbn in E; [reflexivity| | |exact E].
  - injection E as <- _. inversion N; congruence.
  - injection E as -> _. inversion F as [|s x ? ? S]; subst. destruct (shown_wordy rs g built sm pn _ _ S). congruence.
Qed.
Lemma names_there : forall ss l, Forall2 (shown g) ss l -> Forall (fun n => n <> "") l.
Proof. intros ss l F. induction F as [|s n ss l S F IH]; constructor; [exact (proj1 (shown_wordy rs g built sm pn _ _ S))|exact IH]. Qed.
Lemma grammar_shown : forall text, grammar_text g = Ok text -> exists e ls, shown g (g_entry g) e /\ res_list (map (rule_text g) (g_rules g)) = Ok ls /\ text = ("Grammar (entry: " ++ e ++ ") {" ++ line_end ++ String.concat "" (map rule_line ls) ++ "}")%string.
Proof.
  intros text H. unfold grammar_text in H. apply bind_Ok in H. destruct H as (e & He & H). apply bind_Ok in H. destruct H as (ls & Hl & H). injection H as <-. exists e, ls. split; [|auto].
  apply (symbol_name_shown g (tokens_sorted _ _ built) (prods_sorted _ _ built)). exact He.
Qed.
Lemma res_list_each : forall (E A B : Type) (f : A -> res E B) l m, res_list (map f l) = Ok m -> Forall2 (fun a b => f a = Ok b) l m.
Proof.
  intros E A B f. induction l as [|a l IH]; intros m H; cbn [map res_list] in H; [injection H as <-; constructor|]. apply bind_Ok in H. destruct H as (b & Hb & H). apply bind_Ok in H. destruct H as (m' & Hm & H). injection H as <-. constructor; [exact Hb|exact (IH _ Hm)].
Qed.
Lemma grammar_text_total_proof : exists text, grammar_text g = Ok text.
Proof.
  pose proof (grammar_wf _ _ built) as wf. pose proof (tokens_sorted _ _ built) as ts. pose proof (prods_sorted _ _ built) as ps.
  assert (N : forall s, known g s -> exists n, get_symbol_name g s = Ok n) by (intros s K; destruct (known_shown g ps s K) as (n & S); exists n; apply (symbol_name_shown g ts ps); exact S).
  assert (A : forall l, (forall s, In s l -> known g s) -> exists ns, res_list (map (get_symbol_name g) l) = Ok ns).
  { induction l as [|s l IH]; intros K; [exists []; reflexivity|]. destruct (N s (K s (or_introl eq_refl))) as (n & Hn). destruct IH as (ns & Hs); [intros x X; apply K; right; exact X|]. exists (n :: ns). cbn [map res_list]. rewrite Hn. cbn [bind]. rewrite Hs. reflexivity. }
  assert (R : forall r, In r (g_rules g) -> exists t, rule_text g r = Ok t).
  { intros r I. destruct (A (r_rhs r) (fun s S => wf_rhs _ wf r s I S)) as (ns & Hs). destruct (wf_lhs _ wf r I) as (i & E & K). destruct (N (NonTerminal i) K) as (n & Hn). unfold rule_text, symbol_names. rewrite Hs. cbn [bind]. rewrite E, Hn. cbn [bind]. eauto. }
  assert (L : forall l, incl l (g_rules g) -> exists ls, res_list (map (rule_text g) l) = Ok ls).
  { induction l as [|r l IH]; intros K; [exists []; reflexivity|]. destruct (R r (K r (or_introl eq_refl))) as (n & Hn). destruct IH as (ns & Hs); [intros x X; apply K; right; exact X|]. exists (n :: ns). cbn [map res_list]. rewrite Hn. cbn [bind]. rewrite Hs. reflexivity. }
  destruct (wf_entry _ wf) as (i & E & K). destruct (N (NonTerminal i) K) as (e & He). destruct (L (g_rules g) (incl_refl _)) as (ls & Hl). unfold grammar_text. rewrite E, He. cbn [bind]. rewrite Hl. cbn [bind]. eauto.
Qed.
End One.

(** Two grammars. *)
Lemma paren_not : forall name x s, lacks "(" s -> (name ++ String "(" x)%string <> s.
Proof. intros name x s L E. apply (lacks_not "(" name x). rewrite E. exact L. Qed.
Lemma angle_free : lacks "(" "<eps>" /\ lacks "(" "<end>". Proof. split; cbn; repeat split; discriminate. Qed.
Section Two.
Variables (rs rs' : rule_set) (g g' : grammar).
Hypothesis built : from_rule_set rs = Ok g.
Hypothesis built' : from_rule_set rs' = Ok g'.
Hypothesis sm : small rs.
Hypothesis sm' : small rs'.
Hypothesis pn : plain_names rs.
Hypothesis pn' : plain_names rs'.
Definition line_alike (r r' : rule) : Prop := exists i i' lhs ns, r_lhs r = Some i /\ r_lhs r' = Some i' /\ shown g (NonTerminal i) lhs /\ shown g' (NonTerminal i') lhs /\ Forall2 (shown g) (r_rhs r) ns /\ Forall2 (shown g') (r_rhs r') ns.
Variable text : string.
Hypothesis told : grammar_text g = Ok text.
Hypothesis told' : grammar_text g' = Ok text.

Lemma lines_alike : (exists e, shown g (g_entry g) e /\ shown g' (g_entry g') e) /\ Forall2 line_alike (g_rules g) (g_rules g').
Proof.
  destruct (grammar_shown rs g built text told) as (e & ls & He & Hl & T). destruct (grammar_shown rs' g' built' text told') as (e' & ls' & He' & Hl' & T'). rewrite T in T'. clear T.
  assert (X : forall e ls, ("Grammar (entry: " ++ e ++ ") {" ++ line_end ++ String.concat "" (map rule_line ls) ++ "}" = ("Grammar (entry: " ++ e ++ ") {") ++ String "010" (String.concat "" (map rule_line ls) ++ "}"))%string) by (intros x l; cbn; rewrite append_assoc; reflexivity).
  rewrite !X in T'. assert (Y : forall e, lacks "010" e -> lacks "010" ("Grammar (entry: " ++ e ++ ") {")) by (intros x L; apply lacks_app; split; [cbn; repeat split; discriminate|]; apply lacks_app; split; [exact L|cbn; repeat split; discriminate]).
  apply first_split in T'; [|exact (Y _ (shown_line rs g built sm pn _ _ He))|exact (Y _ (shown_line rs' g' built' sm' pn' _ _ He'))]. destruct T' as (T1 & T2). cbn in T1. injection T1 as T1. apply append_tail in T1. subst e'. split; [exists e; auto|].
  apply res_list_each in Hl. apply res_list_each in Hl'.
  assert (F : Forall (lacks "010") ls). { clear - Hl built sm pn. assert (I : incl (g_rules g) (g_rules g)) by apply incl_refl. revert I. generalize (g_rules g) at 1. intros l. assert (A : forall l ls, Forall2 (fun a b => rule_text g a = Ok b) l ls -> incl l (g_rules g) -> Forall (lacks "010") ls).
    { clear l ls Hl. intros l ls F. induction F as [|r t l ls R F IH]; intros K; constructor; [exact (rule_line_free rs g built sm pn r t (K r (or_introl eq_refl)) R)|apply IH; intros x X; apply K; right; exact X]. }
    intros _. exact (A _ _ Hl (incl_refl _)). }
  assert (F' : Forall (lacks "010") ls'). { clear - Hl' built' sm' pn'. assert (A : forall l ls, Forall2 (fun a b => rule_text g' a = Ok b) l ls -> incl l (g_rules g') -> Forall (lacks "010") ls).
    { intros l ls F. induction F as [|r t l ls R F IH]; intros K; constructor; [exact (rule_line_free rs' g' built' sm' pn' r t (K r (or_introl eq_refl)) R)|apply IH; intros x X; apply K; right; exact X]. }
    exact (A _ _ Hl' (incl_refl _)). }
  apply (lines_cut ls ls' F F') in T2. subst ls'. clear F F' He He' X Y told told' text.
  assert (A : forall l l', Forall2 (fun a b => rule_text g a = Ok b) l ls -> Forall2 (fun a b => rule_text g' a = Ok b) l' ls -> incl l (g_rules g) -> incl l' (g_rules g') -> Forall2 line_alike l l').
  { clear Hl Hl'. induction ls as [|t ls IH]; intros l l' F F' K K'; inversion F as [|r ? l1 ? R F1]; subst; inversion F' as [|r' ? l1' ? R' F1']; subst; constructor.
    - destruct (rule_words rs g built r t (K r (or_introl eq_refl)) R) as (i & lhs & ns & E & L & N & T). destruct (rule_words rs' g' built' r' t (K' r' (or_introl eq_refl)) R') as (i' & lhs' & ns' & E' & L' & N' & T'). rewrite T in T'.
      assert (SA : spaceless "->") by (cbn; repeat split; discriminate). apply join_inj in T'; [| | |discriminate|discriminate].
      + cbn [app] in T'. injection T' as <- W. assert (ns = ns') as <- by exact (words_same rs g built sm pn _ _ _ N (names_there rs' g' built' sm' pn' _ _ N') W). exists i, i', lhs, ns. repeat split; assumption.
      + cbn [app]. constructor; [exact (shown_spaceless rs g built sm pn _ _ L)|constructor; [exact SA|exact (words_spaceless rs g built sm pn _ _ N)]].
      + cbn [app]. constructor; [exact (shown_spaceless rs' g' built' sm' pn' _ _ L')|constructor; [exact SA|exact (words_spaceless rs' g' built' sm' pn' _ _ N')]].
    - apply IH; [exact F1|exact F1'|intros x X; apply K; right; exact X|intros x X; apply K'; right; exact X]. }
  exact (A _ _ Hl Hl' (incl_refl _) (incl_refl _)).
Qed.
Lemma token_prod : forall t i n, shown g (Terminal t) n -> shown g' (NonTerminal i) n -> (exists name, In (NonTerminal i, name) (g_prods g')) -> False.
Proof.
  intros t i n S S' (name & P). destruct (production_rule rs' g' built' sm' i name P) as (r' & R' & L'). destruct lines_alike as (_ & F). 
  assert (X : exists r, line_alike r r'). { clear - F R'. induction F as [|r r1 l l1 A F IH]; [destruct R'|]. destruct R' as [<-|R']; [exists r; exact A|exact (IH R')]. }
  destruct X as (r & j & j' & lhs & ns & E & E' & A & A' & _). rewrite L' in E'. injection E' as <-.
  assert (lhs = n) as ->. { apply (symbol_name_shown g' (tokens_sorted _ _ built') (prods_sorted _ _ built')) in A'. apply (symbol_name_shown g' (tokens_sorted _ _ built') (prods_sorted _ _ built')) in S'. congruence. }
  discriminate (shown_inj rs g built sm pn _ _ _ S A).
Qed.
Lemma prod_token : forall t i n, shown g' (Terminal t) n -> shown g (NonTerminal i) n -> (exists name, In (NonTerminal i, name) (g_prods g)) -> False.
Proof.
  intros t i n S S' (name & P). destruct (production_rule rs g built sm i name P) as (r & R & L). destruct lines_alike as (_ & F). 
  assert (X : exists r', line_alike r r'). { clear - F R. induction F as [|r0 r1 l l1 A F IH]; [destruct R|]. destruct R as [<-|R]; [exists r1; exact A|exact (IH R)]. }
  destruct X as (r' & j & j' & lhs & ns & E & E' & A & A' & _). rewrite L in E. injection E as <-.
  assert (lhs = n) as ->. { apply (symbol_name_shown g (tokens_sorted _ _ built) (prods_sorted _ _ built)) in A. apply (symbol_name_shown g (tokens_sorted _ _ built) (prods_sorted _ _ built)) in S'. congruence. }
  discriminate (shown_inj rs' g' built' sm' pn' _ _ _ S A').
Qed.
Lemma cross : forall s s' n, shown g s n -> shown g' s' n -> s = s'.
Proof.
  intros s s' n S S'. pose proof (shown_shape rs g built sm pn s n S) as H. pose proof (shown_shape rs' g' built' sm' pn' s' n S') as H'. destruct angle_free as (A1 & A2).
  assert (Q : forall a b x y, plain_name a \/ a = "<anon>" -> plain_name b \/ b = "<anon>" -> (a ++ String "(" (decimal x ++ ")") = b ++ String "(" (decimal y ++ ")"))%string -> a = b /\ x = y).
  { intros a b x y A B E. apply form_split; [| |exact E]; [destruct A as [A| ->]|destruct B as [B| ->]]; first [apply plain_paren; assumption|exact anon_paren]. }
  destruct H as [t a P I|t a P I|t a P| |]; inversion H' as [t' b P' I' E0 E|t' b P' I' E0 E|t' b P' E0 E|E0 E|E0 E]; subst s'; try reflexivity; try discriminate E;
    try (exfalso; exact (paren_not _ _ _ A1 E)); try (exfalso; exact (paren_not _ _ _ A2 E)); try (exfalso; exact (paren_not _ _ _ A1 (eq_sym E))); try (exfalso; exact (paren_not _ _ _ A2 (eq_sym E)));
    (apply Q in E; [|auto|auto]); destruct E as (B & ->); try reflexivity; exfalso.
  - apply (token_prod t t _ S S'). eauto.
  - subst b a. exact (plain_not_anon P).
  - apply (prod_token t t _ S' S). eauto.
  - subst a b. exact (plain_not_anon P').
Qed.
Lemma cross_list : forall l l' ns, Forall2 (shown g) l ns -> Forall2 (shown g') l' ns -> l = l'.
Proof.
  intros l l' ns F. revert l'. induction F as [|s n l ns S F IH]; intros l' F'; inversion F' as [|s' ? l1 ? S' F1]; subst; [reflexivity|]. rewrite (cross _ _ _ S S'), (IH _ F1). reflexivity.
Qed.
Lemma entry_told : g_entry g = g_entry g'.
Proof. destruct lines_alike as ((e & E & E') & _). exact (cross _ _ _ E E'). Qed.
Lemma rules_told : map (fun r => (r_lhs r, r_rhs r)) (g_rules g) = map (fun r => (r_lhs r, r_rhs r)) (g_rules g').
Proof.
  destruct lines_alike as (_ & F). induction F as [|r r' l l' A F IH]; [reflexivity|]. cbn [map]. rewrite IH. destruct A as (i & i' & lhs & ns & E & E' & L & L' & N & N'). rewrite (cross_list _ _ _ N N'), E, E'.
  assert (X : NonTerminal i = NonTerminal i') by exact (cross _ _ _ L L'). injection X as ->. reflexivity.
Qed.
Lemma derives_told : forall R R', map (fun r => (r_lhs r, r_rhs r)) R = map (fun r => (r_lhs r, r_rhs r)) R' -> forall al w, derives R al w -> derives R' al w.
Proof.
  intros R R' E al w D. induction D as [|al w D IH|t al w D IH|r i al u w I L D1 IH1 D2 IH2]; try (constructor; assumption). apply (in_map (fun r => (r_lhs r, r_rhs r))) in I. rewrite E in I. apply in_map_iff in I. destruct I as (r' & X & I). apply pair_equal_spec in X. destruct X as (X1 & X2).
  apply (d_nt R' r'); [exact I|congruence|rewrite X2; exact IH1|exact IH2].
Qed.
Lemma derived_there : forall R al w, derives R al w -> forall t, In t w -> In (Terminal t) al \/ exists r, In r R /\ In (Terminal t) (r_rhs r).
Proof.
  intros R al w D. induction D as [|al w D IH|t al w D IH|r i al u w I L D1 IH1 D2 IH2]; intros x X.
  - destruct X.
  - destruct (IH x X) as [Y|Y]; [left; right; exact Y|right; exact Y].
  - destruct X as [<-|X]; [left; left; reflexivity|]. destruct (IH x X) as [Y|Y]; [left; right; exact Y|right; exact Y].
  - apply in_app_or in X. destruct X as [X|X]; [destruct (IH1 x X) as [Y|Y]; [right; exists r; auto|right; exact Y]|]. destruct (IH2 x X) as [Y|Y]; [left; right; exact Y|right; exact Y].
Qed.
Lemma token_told : forall r t name, In r (g_rules g) -> In (Terminal t) (r_rhs r) -> token_named g t name -> token_named g' t name.
Proof.
  intros r t name I T N. destruct lines_alike as (_ & F). assert (X : exists r', line_alike r r'). { clear - F I. induction F as [|r0 r1 l l1 A F IH]; [destruct I|]. destruct I as [<-|I]; [exists r1; exact A|exact (IH I)]. }
  destruct X as (r' & _ & _ & _ & ns & _ & _ & _ & _ & A & A'). assert (Y : exists n, shown g (Terminal t) n /\ exists s', shown g' s' n).
  { clear - A A' T. revert A'. generalize (r_rhs r'). induction A as [|s n l ns S A IH]; intros l' A'; [destruct T|]. inversion A' as [|s' ? l1 ? S' A1]; subst. destruct T as [->|T]; [exists n; eauto|exact (IH T _ A1)]. }
  destruct Y as (n & S & s' & S'). pose proof (cross _ _ _ S S') as <-. assert (n = (name ++ "(" ++ decimal t ++ ")")%string) as ->.
  { pose proof (sh_terminal g t name N) as S1. apply (symbol_name_shown g (tokens_sorted _ _ built) (prods_sorted _ _ built)) in S1. apply (symbol_name_shown g (tokens_sorted _ _ built) (prods_sorted _ _ built)) in S. congruence. }
  pose proof (shown_shape rs' g' built' sm' pn' _ _ S') as H. inversion H as [t' b P I' E0 E| | | |]; subst. destruct (token_plain rs g built sm pn _ _ N) as (P0 & _).
  apply form_split in E; [|apply plain_paren; exact P|apply plain_paren; exact P0]. destruct E as (-> & _). exact I'.
Qed.
Lemma language_half : forall ts, ebnf rs (QRule (rs_entry rs)) ts -> ebnf rs' (QRule (rs_entry rs')) ts.
Proof.
  intros ts H. apply (language_ok rs g sm built) in H. destruct H as (w & D & F). apply (language_ok rs' g' sm' built'). exists w. split; [rewrite <- entry_told; exact (derives_told _ _ rules_told _ _ D)|].
  assert (K : forall t, In t w -> exists r, In r (g_rules g) /\ In (Terminal t) (r_rhs r)).
  { intros t T. destruct (derived_there _ _ _ D t T) as [[X|[]]|X]; [|exact X]. destruct (wf_entry _ (grammar_wf _ _ built)) as (i & E & _). congruence. }
  clear D. induction F as [|t n w ts T F IH]; constructor; [destruct (K t (or_introl eq_refl)) as (r & R1 & R2); exact (token_told r t n R1 R2 T)|apply IH; intros x X; apply K; right; exact X].
Qed.
End Two.
Lemma grammar_told_proof : forall rs rs' g g' text, from_rule_set rs = Ok g -> from_rule_set rs' = Ok g' -> small rs -> small rs' -> plain_names rs -> plain_names rs' -> grammar_text g = Ok text -> grammar_text g' = Ok text ->
  g_entry g = g_entry g' /\ map (fun r => (r_lhs r, r_rhs r)) (g_rules g) = map (fun r => (r_lhs r, r_rhs r)) (g_rules g') /\ forall ts, ebnf rs (QRule (rs_entry rs)) ts <-> ebnf rs' (QRule (rs_entry rs')) ts.
Proof.
  intros rs rs' g g' text B B' S S' P P' T T'. split; [exact (entry_told rs rs' g g' B B' S S' P P' text T T')|]. split; [exact (rules_told rs rs' g g' B B' S S' P P' text T T')|].
  intros ts. split; [exact (language_half rs rs' g g' B B' S S' P P' text T T' ts)|exact (language_half rs' rs g' g B' B S' S P' P text T' T ts)].
Qed.
