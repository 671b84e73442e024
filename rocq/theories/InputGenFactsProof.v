(** The facts about the generated parser of grammar files, for whatever the build script generates from lapex.lapex. *)
From Coq Require Import String Ascii List Arith NArith Bool Lia Permutation.
From Verif Require Import Base InputModel GrammarModel GrammarSpec LexerModel PositionModel LRModel NamesModel BootModel BootExample InputGenModel InputGenSpec InputGenLapex InputGenProof InputGenMeaningProof.
Import ListNotations.
Local Open Scope nat_scope.
Local Open Scope list_scope.

Notation built gn := (build_input_parser 3000 (bytes lapex_text) = Some gn).

Lemma built_is : forall gn, built gn -> gn = lapex_gen.
Proof. intros gn H. pose proof (eq_trans (eq_sym H) lapex_gen_built) as E. injection E. auto. Qed.

Lemma filter_rev_length : forall A (f : A -> bool) l, length (filter f (rev l)) = length (filter f l).
Proof. intros A f. induction l as [|x l IH]; [reflexivity|]. cbn [rev]. rewrite filter_app, app_length, IH. cbn [filter]. destruct (f x); cbn [length]; lia. Qed.
Lemma built_reads : forall regex gn eof rules ts, built gn -> file_tokens joined_sequence joined_choice regex rules ts ->
  exists n, forall fuel, n < fuel ->
  (forall out, parse_tokens regex gn fuel ts eof = Ok out <-> consists_of out (rev rules)) /\
  (length (filter (fun r => match snd r with FEntry _ => true | _ => false end) rules) <> 1 -> parse_tokens regex gn fuel ts eof = Panic).
Proof.
  intros regex gn eof rules ts H R. rewrite (built_is _ H). destruct (reads regex eof _ _ R) as (n & Hn). exists n. intros fuel Hf. rewrite (Hn fuel Hf). split; [intros out; apply sort_consists|].
  intros N. destruct (sort_total (rev rules)) as [X|(out & X)]; auto. apply sort_consists in X. destruct X as [_ _ E]. destruct N. apply (f_equal (@length _)) in E. exact (eq_trans (eq_sym (filter_rev_length _ _ rules)) (eq_sym E)).
Qed.
Lemma built_sound : forall regex gn eof fuel ts, built gn -> Forall fitting ts ->
  match parse_tokens regex gn fuel ts eof with
  | Ok out => exists rules, file_tokens joined_sequence joined_choice regex rules ts /\ consists_of out (rev rules)
  | Err _ => False
  | _ => True
  end.
Proof. intros regex gn eof fuel ts H. rewrite (built_is _ H). apply parse_sound. Qed.
Lemma built_meaning : forall regex gn fuel eof ts plain outp out, built gn -> file_tokens QSeq QAlt regex plain ts -> consists_of outp plain -> parse_tokens regex gn fuel ts eof = Ok out ->
  sr_entry out = sr_entry outp /\ sr_tokens out = rev (sr_tokens outp) /\
  Forall2 (fun q p => fst q = fst p /\ pr_name (snd q) = pr_name (snd p) /\ pr_tag (snd q) = pr_tag (snd p)) (sr_prods out) (rev (sr_prods outp)) /\
  forall p w, ebnf (unspanned out) p w <-> ebnf (unspanned outp) p w.
Proof. intros regex gn fuel eof ts plain outp out H. rewrite (built_is _ H). apply file_meaning. Qed.
Lemma readings : forall regex ts, (exists rules, file_tokens joined_sequence joined_choice regex rules ts) <-> exists rules, file_tokens QSeq QAlt regex rules ts.
Proof. intros regex ts. split; intros (rules & H); [exact (rules_joined _ _ _ H)|]. destruct (rules_plain _ _ _ H) as (r & X & _). eauto. Qed.
Lemma built_round_trip : forall regex gn eof rs, built gn -> Forall (fun p => readable (pr_pattern p)) (rs_prods rs) -> Forall (spellable_token regex) (rs_tokens rs) ->
  exists ts n, Forall fitting ts /\ forall fuel, n < fuel -> exists out, parse_tokens regex gn fuel ts eof = Ok out /\ unspanned out = rs.
Proof. intros regex gn eof rs H. rewrite (built_is _ H). apply rule_set_spelled. Qed.
Lemma built_readable : forall regex gn eof fuel ts out, built gn -> Forall fitting ts -> parse_tokens regex gn fuel ts eof = Ok out ->
  Forall (fun p => readable (pr_pattern p)) (rs_prods (unspanned out)) /\ Forall (spellable_token regex) (rs_tokens (unspanned out)).
Proof.
  intros regex gn eof fuel ts out H Hf E. rewrite (built_is _ H) in E. split; [apply Forall_forall; intros p Hp; apply in_map_iff in Hp; destruct Hp as (r & <- & Hr); exact (prod_readable _ _ _ _ _ _ Hf E Hr)|].
  apply Forall_forall. intros t Ht. cbn [unspanned rs_tokens] in Ht. apply in_map_iff in Ht. destruct Ht as (r & <- & Hr).
  pose proof (parse_sound regex eof fuel ts Hf) as X. rewrite E in X. destruct X as (rules & Hs & [Hp _ _]).
  assert (In (fst r, FToken (snd r)) (rev rules)) as Hi.
  { assert (In (fst r, FToken (snd r)) (map (fun t : spanned token_rule => (fst t, FToken (snd t))) (sr_tokens out))) as Y by (apply (in_map (fun t : spanned token_rule => (fst t, FToken (snd t)))); exact Hr).
    assert (In (fst r, FToken (snd r)) (filter (fun r => match snd r with FToken _ => true | _ => false end) (rev rules))) as Z by (rewrite <- Hp; exact Y). apply filter_In in Z. tauto. }
  apply in_rev in Hi. clear -Hs Hi.
  assert (forall r' ts, rule_tokens joined_sequence joined_choice regex r' ts -> (fst r, FToken (snd r)) = r' -> spellable_token regex (snd r)) as A.
  { intros r' us H E. destruct H as [a d b|a d e b tag us p us' Ht Ha|a d e b prec us p t Hp Ht]; inversion E as [[E1 E2]]. rewrite E2. split; cbn [tr_prec tr_pattern].
    - intros n En. subst prec. inversion Hp; subst. auto.
    - destruct Ht as [cs d' Ed|cs h q d' Ed Eh Eq]; eauto. }
  induction Hs as [r' ts H|r' ts rs ts' H Hs IH].
  - destruct Hi as [->|[]]. exact (A _ _ H eq_refl).
  - destruct Hi as [->|Hi]; [exact (A _ _ H eq_refl)|auto].
Qed.

Lemma visitor_complete : forall regex gn, built gn -> NoDup (map fst (visitor_impl regex)) /\ NoDup (map fst (gn_visits gn)) /\ Permutation (map snd (gn_visits gn)) (map fst (visitor_impl regex)).
Proof.
  intros regex gn H. rewrite (built_is _ H). change (gn_visits lapex_gen) with lapex_visits. change (map fst (visitor_impl regex)) with (map fst (visitor_impl (fun _ => None))).
  assert (forall (eqb : forall a b : string, {a = b} + {a <> b}) l, (fix nd l := match l with [] => true | x :: l => negb (existsb (fun y => if eqb x y then true else false) l) && nd l end) l = true -> NoDup l) as A.
  { intros eqb. induction l as [|x l IH]; intros E; [constructor|]. apply andb_true_iff in E. destruct E as [E1 E2]. constructor; auto. intros Hx. apply negb_true_iff in E1. rewrite <- not_true_iff_false in E1. apply E1.
    apply existsb_exists. exists x. split; auto. destruct (eqb x x); congruence. }
  assert (forall l, (fix nd l := match l with [] => true | x :: l => negb (existsb (Nat.eqb x) l) && nd l end) l = true -> NoDup l) as B.
  { induction l as [|x l IH]; intros E; [constructor|]. apply andb_true_iff in E. destruct E as [E1 E2]. constructor; auto. intros Hx. apply negb_true_iff in E1. rewrite <- not_true_iff_false in E1. apply E1.
    apply existsb_exists. exists x. split; auto. apply Nat.eqb_refl. }
  assert (NoDup (map fst (visitor_impl (fun _ => None)))) as N1 by (apply (A string_dec); vm_compute; reflexivity). split; auto. split; [apply B; vm_compute; reflexivity|].
  apply NoDup_Permutation; auto; [apply (A string_dec); vm_compute; reflexivity|].
  assert (forall l m : list string, forallb (fun x => existsb (String.eqb x) m) l = true -> forall x, In x l -> In x m) as D.
  { intros l m E x Hx. rewrite forallb_forall in E. specialize (E x Hx). apply existsb_exists in E. destruct E as (y & Hy & Ey). apply String.eqb_eq in Ey. subst. auto. }
  intros x. split; apply D; vm_compute; reflexivity.
Qed.
