(** The lines of a displayed grammar. *)
From Coq Require Import String Ascii List Arith NArith Bool.
From Verif Require Import Base InputModel GrammarModel GrammarSpec GrammarFactsProof LRModel NamesModel NamesSpec NamesVisitProof TableModel TableSpec TableProof PipelineSpec PipelineReportProof PipelineFactsProof GrammarTextModel GrammarTextSpec GrammarTextProof.
Import ListNotations.
Local Open Scope string_scope.
Local Open Scope list_scope.

Lemma lines_join : forall ls, String.concat end_of_line (map (fun r => "	" ++ r)%string ls ++ ["}"]) = (String.concat "" (map rule_line ls) ++ "}")%string.
Proof.
  induction ls as [|l ls IH]; [reflexivity|]. cbn [map app]. rewrite concat_empty. unfold rule_line at 1, tab, line_end. rewrite !append_assoc. rewrite <- IH.
  set (m := map _ ls ++ ["}"]). assert (m <> []) as X by (unfold m; intros E; apply app_eq_nil in E; destruct E; discriminate). destruct m as [|x m]; [congruence|]. cbn [String.concat]. rewrite !append_assoc. reflexivity.
Qed.
Lemma join_lines : forall e ls, ("Grammar (entry: " ++ e ++ ") {" ++ line_end ++ String.concat "" (map rule_line ls) ++ "}")%string = String.concat end_of_line (grammar_lines e ls).
Proof.
  intros e ls. unfold grammar_lines. rewrite <- lines_join. set (m := map _ ls ++ ["}"]). assert (m <> []) as X by (unfold m; intros E; apply app_eq_nil in E; destruct E; discriminate).
  destruct m as [|x m]; [congruence|]. cbn [String.concat]. rewrite !append_assoc. reflexivity.
Qed.
Lemma grammar_layout_proof : forall rs g text, from_rule_set rs = Ok g -> (grammar_text g = Ok text <-> exists entry rules, shown g (g_entry g) entry /\ Forall2 (shown_rule g) (g_rules g) rules /\ text = String.concat end_of_line (grammar_lines entry rules)).
Proof.
  intros rs g text B. pose proof (tokens_sorted _ _ B) as ts. pose proof (prods_sorted _ _ B) as ps. pose proof (grammar_wf _ _ B) as wf.
  assert (R : forall r t, In r (g_rules g) -> (rule_text g r = Ok t <-> shown_rule g r t)).
  { intros r t I. destruct (wf_lhs _ wf r I) as (i & L & _). unfold rule_text, shown_rule, symbol_names. rewrite L. split.
    - intros H. apply bind_Ok in H. destruct H as (rhs & H1 & H). apply bind_Ok in H1. destruct H1 as (ns & H1 & H2). injection H2 as <-. apply bind_Ok in H. destruct H as (lhs & H3 & H). injection H as <-.
      exists i, lhs, ns. split; [reflexivity|]. split; [apply (symbol_name_shown g ts ps); exact H3|]. split; [apply (symbol_names_shown g ts ps); exact H1|reflexivity].
    - intros (j & lhs & ns & E & H1 & H2 & ->). injection E as <-. apply (symbol_names_shown g ts ps) in H2. rewrite H2. apply (symbol_name_shown g ts ps) in H1. cbn [bind]. rewrite H1. reflexivity. }
  assert (RL : forall l m, incl l (g_rules g) -> (res_list (map (rule_text g) l) = Ok m <-> Forall2 (shown_rule g) l m)).
  { induction l as [|r l IH]; intros m I.
    - cbn [map res_list]. split; [intros H; injection H as <-; constructor|intros H; inversion H; reflexivity].
    - assert (I' : incl l (g_rules g)) by (intros x X; apply I; right; exact X). cbn [map res_list]. split.
      + intros H. apply bind_Ok in H. destruct H as (b & Hb & H). apply bind_Ok in H. destruct H as (m' & Hm & H). injection H as <-. constructor; [apply R; [apply I; left; reflexivity|exact Hb]|apply IH; assumption].
      + intros H. inversion H as [|? b ? m' Hb Hm]; subst. apply R in Hb; [|apply I; left; reflexivity]. rewrite Hb. cbn [bind]. apply (IH _ I') in Hm. rewrite Hm. reflexivity. }
  unfold grammar_text. split.
  - intros H. apply bind_Ok in H. destruct H as (e & He & H). apply bind_Ok in H. destruct H as (ls & Hl & H). injection H as <-. exists e, ls. split; [apply (symbol_name_shown g ts ps); exact He|]. split; [apply RL; [apply incl_refl|exact Hl]|]. exact (join_lines e ls).
  - intros (e & ls & He & Hl & ->). apply (symbol_name_shown g ts ps) in He. rewrite He. cbn [bind]. apply RL in Hl; [|apply incl_refl]. rewrite Hl. cbn [bind]. f_equal. exact (join_lines e ls).
Qed.
