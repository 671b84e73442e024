(** The generated parser of grammar files stops: proofs. *)
From Coq Require Import String List Arith NArith Bool Lia.
From Verif Require Import Base InputModel GrammarModel GrammarSpec GrammarFactsProof LRModel LRSpec LRFactsProof BootModel BootExample PositionModel
  InputGenModel InputGenSpec InputGenLapex InputGenProof InputGenFactsProof LRTermSpec LRTermFactsProof.
Import ListNotations.
Local Open Scope nat_scope.
Local Open Scope list_scope.

Lemma lapex_productive : all_productive lapex_g.
Proof. apply productiveb_ok; [exact lapex_g_wf|vm_compute; reflexivity]. Qed.

Lemma lapex_settles : forall w, settles (fun fuel => lr_parse fuel lapex_p w).
Proof. exact (productive_settles _ _ _ _ _ _ lapex_g_wf lapex_tb_ok lapex_p_ok lapex_g_front lapex_g_ne lapex_g_nl lapex_productive). Qed.

Lemma parse_fuel : forall regex eof fuel ts, Forall fitting ts -> snd (lr_parse fuel lapex_p (map fst ts)) <> OutOfFuel -> parse_tokens regex lapex_gen fuel ts eof <> OutOfFuel.
Proof.
  intros regex eof fuel ts Hf N. unfold parse_tokens. change (gn_parser lapex_gen) with lapex_p. destruct (lr_parse fuel lapex_p (map fst ts)) as [ev r] eqn:E. destruct r as [rest| | |]; try discriminate; [|elim N; reflexivity].
  destruct (accepts_tree _ _ _ _ _ _ lapex_g_wf lapex_tb_ok lapex_p_ok fuel (map fst ts) ev rest E) as (tr & Ht & -> & Ew).
  assert (rest = []) as -> by (exact (lr1_whole _ _ _ _ _ _ lapex_g_wf lapex_tb_ok lapex_p_ok eq_refl lapex_g_nl fuel (map fst ts) (post_order tr) rest E)). rewrite app_nil_r in Ew.
  unfold parse_tree in Ht. rewrite entry_of_lapex in Ht.
  assert (map fst ts = iyields [tr]) as Ew'. { unfold iyields. cbn [map List.concat]. rewrite app_nil_r. exact Ew. }
  pose proof (trees_sound regex eof [NonTerminal 0] [tr] Ht ts Ew' Hf [] []) as X. unfold post_orders in X. cbn [map List.concat] in X. rewrite !app_nil_r in X. change (gn_visits lapex_gen) with lapex_visits.
  destruct X as [X|(vs & X & Y)]; runs X; cbn [bind]; [discriminate|].
  inversion Y as [| | |i v al vs' us ts' Hv Hn]; subst. inversion Hn; subst. cbn [rev app]. destruct Hv as (rules & Hr & ->).
  destruct (sort_total (rev rules)) as [Z|(out & Z)]; rewrite Z; discriminate.
Qed.

Lemma built_decides : forall regex gn eof ts, build_input_parser 3000 (bytes lapex_text) = Some gn -> Forall fitting ts ->
  exists n, forall fuel, n <= fuel ->
  match parse_tokens regex gn fuel ts eof with
  | Ok out => exists rules, file_tokens joined_sequence joined_choice regex rules ts /\ consists_of out (rev rules)
  | Panic => ~ exists rules out, file_tokens joined_sequence joined_choice regex rules ts /\ consists_of out (rev rules)
  | _ => False
  end.
Proof.
  intros regex gn eof ts H Hf. destruct (lapex_settles (map fst ts)) as (n & a & r & N & Hn). exists n. intros fuel Hl.
  pose proof (built_sound regex gn eof fuel ts H Hf) as Hs.
  assert (parse_tokens regex gn fuel ts eof <> OutOfFuel) as S2. { rewrite (built_is _ H). apply parse_fuel; auto. rewrite Hn; auto. }
  destruct (parse_tokens regex gn fuel ts eof) as [out|e| |] eqn:E; auto. intros (rules & out & A & B).
  destruct (built_reads regex gn eof rules ts H A) as (n' & Hn'). destruct (Hn' (S (n' + fuel)) ltac:(lia)) as [Hr _].
  assert (parse_tokens regex gn (S (n' + fuel)) ts eof = parse_tokens regex gn fuel ts eof) as Ee.
  { rewrite (built_is _ H). unfold parse_tokens. change (gn_parser lapex_gen) with lapex_p. rewrite (Hn fuel), (Hn (S (n' + fuel))) by lia. reflexivity. }
  apply Hr in B. rewrite Ee in B. congruence.
Qed.
