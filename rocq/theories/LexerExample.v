(** Concrete rule sets used as witnesses beside the lexer theorems. *)
From Coq Require Import String List Arith NArith Bool Lia.
From Verif Require Import Base InputModel LexerModel LexerSpec GraphProof AlphabetProof NfaProof NfaLang
  PowersetProof ConvertProof PrecedenceProof LexerProof LexerRunProof LexerFactsProof.
Import ListNotations.
Open Scope N_scope.

(** All parts of a pattern. *)
Fixpoint parts (p : pattern) : list pattern :=
  p :: match p with
       | PSeq l => flat_map parts l
       | PAlt l => flat_map parts l
       | PRep _ _ q => parts q
       | PSet _ _ => []
       | PChar _ => []
       end.

Lemma parts_spec : forall q p, subpattern q p -> In q (parts p).
Proof.
  induction 1; simpl.
  - destruct q; left; auto.
  - right. apply in_flat_map. eauto.
  - right. apply in_flat_map. eauto.
  - right. auto.
Qed.

Definition chars_of (s : characters) : list N := match s with Single c => [c] | CRange a b => [a; b] end.
Definition written (p : pattern) : list N :=
  flat_map (fun q => match q with PSet cs _ => flat_map chars_of cs | PChar c => chars_of c | _ => [] end) (parts p).

Lemma parts_refl : forall p, In p (parts p).
Proof. destruct p; left; auto. Qed.

Lemma written_spec : forall c p, mentions c p -> In c (written p).
Proof.
  assert (up : forall c p (ps : list pattern), In p ps -> In c (written p) ->
     In c (flat_map (fun q => match q with PSet cs _ => flat_map chars_of cs | PChar c => chars_of c | _ => [] end) (flat_map parts ps))).
  { intros c p ps Hp Hc. apply in_flat_map in Hc. destruct Hc as [q [Hq Hc]]. apply in_flat_map. exists q. split; auto.
    apply in_flat_map. eauto. }
  induction 1; unfold written; cbn [parts flat_map]; rewrite ?app_nil_r.
  - apply (up c p); auto.
  - apply (up c p); auto.
  - auto.
  - apply in_flat_map. eexists. split; [eauto|]. left. auto.
  - apply in_flat_map. eexists. split; [eauto|]. left. auto.
  - apply in_flat_map. eexists. split; [eauto|]. right. left. auto.
  - left. auto.
  - left. auto.
  - right. left. auto.
Qed.

Definition valid_rulesb (rules : list token_rule) : bool :=
  forallb (fun r => forallb (fun c => c <=? CHAR_MAX) (written (rule_pattern r))) rules.
Lemma valid_rulesb_ok : forall rules, valid_rulesb rules = true -> valid_rules rules.
Proof.
  intros rules H r c Hr Hc. unfold valid_rulesb in H. rewrite forallb_forall in H. specialize (H r Hr).
  rewrite forallb_forall in H. apply written_spec in Hc. apply H in Hc. apply N.leb_le in Hc. exact Hc.
Qed.

Definition nonempty_seqb (q : pattern) : bool := match q with PSeq [] => false | _ => true end.
Definition no_empty_sequenceb (rules : list token_rule) : bool :=
  forallb (fun r => forallb nonempty_seqb (parts (rule_pattern r))) rules.
Lemma no_empty_sequenceb_ok : forall rules, no_empty_sequenceb rules = true -> no_empty_sequence rules.
Proof.
  intros rules H r q Hr Hq. unfold no_empty_sequenceb in H. rewrite forallb_forall in H. specialize (H r Hr).
  rewrite forallb_forall in H. apply parts_spec in Hq. apply H in Hq. destruct q as [[|]| | | |]; discriminate.
Qed.

Definition good_repb (q : pattern) : bool := match q with PRep mn (Some m) _ => mn <? m | _ => true end.
Lemma good_repb_ok : forall rules, forallb (fun r => forallb good_repb (parts (rule_pattern r))) rules = true ->
  forall r, In r rules -> ~ bad_repetition (rule_pattern r).
Proof.
  intros rules H r Hr [mn [m [q [Hq Hle]]]]. rewrite forallb_forall in H. specialize (H r Hr).
  rewrite forallb_forall in H. apply parts_spec in Hq. apply H in Hq. simpl in Hq. apply N.ltb_lt in Hq. lia.
Qed.

(** [sample p]: some text matched by [p], for the shapes used in the examples. *)
Fixpoint sample (p : pattern) : list N :=
  match p with
  | PSeq l => flat_map sample l
  | PAlt l => match l with q :: _ => sample q | [] => [] end
  | PRep mn _ q => concat (repeat (sample q) (N.to_nat mn))
  | PSet (s :: _) false => match s with Single c => [c] | CRange a _ => [a] end
  | PSet _ true => [97]
  | PSet _ _ => []
  | PChar s => match s with Single c => [c] | CRange a _ => [a] end
  end.

Definition simple_char (s : characters) : bool := match s with Single c => c <=? CHAR_MAX | CRange a b => (a <=? b) && (a <=? CHAR_MAX) end.
Definition avoids (c : N) (s : characters) : bool := match s with Single a => negb (a =? c) | CRange a b => negb ((a <=? c) && (c <=? b)) end.
Fixpoint simple (p : pattern) : bool :=
  match p with
  | PSeq l => match l with [] => false | _ => forallb simple l end
  | PAlt l => match l with [] => false | _ => forallb simple l end
  | PRep mn mx q => simple q && match mx with Some m => mn <=? m | None => true end
  | PSet (s :: _) false => simple_char s
  | PSet cs true => forallb (avoids 97) cs
  | PSet _ _ => false
  | PChar s => simple_char s
  end.

Lemma simple_sample : forall p, simple p = true -> Forall valid_char (sample p) /\ matches p (sample p).
Proof.
  induction p as [l IH|l IH|mn mx p IH|cs b|c] using pattern_ind'; intros H.
  - assert (H' : forallb simple l = true) by (destruct l; [discriminate|exact H]). clear H. simpl.
    induction IH as [|p l Hp Hl IHl]; simpl in *; [split; auto|]. apply andb_true_iff in H'. destruct H' as [A B].
    destruct (Hp A) as [P1 P2]. destruct (IHl B) as [Q1 Q2]. split; [apply Forall_app; auto|]. exists (sample p), (flat_map sample l). auto.
  - destruct l as [|q l]; [discriminate|]. cbn [simple forallb] in H. apply andb_true_iff in H. destruct H as [A B]. inversion IH; subst.
    destruct (H1 A) as [P1 P2]. split; auto. simpl. auto.
  - cbn [simple] in H. apply andb_true_iff in H. destruct H as [A B]. destruct (IH A) as [P1 P2]. cbn [sample matches]. split.
    + induction (N.to_nat mn); simpl; auto. apply Forall_app; auto.
    + exists (N.to_nat mn). rewrite N2Nat.id. split; [lia|]. split; [destruct mx; auto; apply N.leb_le; auto|].
      induction (N.to_nat mn); simpl; auto. exists (sample p), (concat (repeat (sample p) n)). auto.
  - destruct b.
    { assert (forallb (avoids 97) cs = true) as H' by (destruct cs; exact H). replace (sample (PSet cs true)) with [97] by (destruct cs; reflexivity). split; [constructor; auto; unfold valid_char, CHAR_MAX; lia|].
      exists 97. split; [reflexivity|]. intros X. apply Exists_exists in X. destruct X as (s & Hs & Hx). rewrite forallb_forall in H'. specialize (H' s Hs). destruct s as [c|a e]; cbn in Hx, H'.
      - subst c. discriminate.
      - apply negb_true_iff in H'. apply andb_false_iff in H'. rewrite !N.leb_gt in H'. lia. }
    destruct cs as [|s cs]; try discriminate. simpl in H. simpl.
    destruct s as [c|a e]; simpl in H.
    + split; [constructor; auto; apply N.leb_le; auto|]. exists c. split; auto. left. reflexivity.
    + apply andb_true_iff in H. rewrite !N.leb_le in H. split; [constructor; auto; unfold valid_char; lia|].
      exists a. split; auto. left. simpl. lia.
  - simpl in H. destruct c as [c|a e]; simpl in *.
    + split; [constructor; auto; apply N.leb_le; auto|]. exists c. auto.
    + apply andb_true_iff in H. rewrite !N.leb_le in H. split; [constructor; auto; unfold valid_char; lia|].
      exists a. split; auto. lia.
Qed.

Lemma simple_parts : forall p, simple p = true -> forall q, In q (parts p) -> simple q = true.
Proof.
  induction p as [l IH|l IH|mn mx p IH|cs b|c] using pattern_ind'; intros H q Hq; cbn [parts] in Hq; destruct Hq as [<-|Hq]; auto.
  - apply in_flat_map in Hq. destruct Hq as [x [Hx Hq]]. rewrite Forall_forall in IH. apply (IH x Hx); auto.
    destruct l; [discriminate|]. cbn [simple] in H. rewrite forallb_forall in H. auto.
  - apply in_flat_map in Hq. destruct Hq as [x [Hx Hq]]. rewrite Forall_forall in IH. apply (IH x Hx); auto.
    destruct l; [discriminate|]. cbn [simple] in H. rewrite forallb_forall in H. auto.
  - cbn [simple] in H. apply andb_true_iff in H. apply IH; tauto.
Qed.

Lemma simple_proper : forall rules, forallb (fun r => simple (rule_pattern r)) rules = true -> proper_rules rules.
Proof.
  intros rules H r Hr q Hq. rewrite forallb_forall in H. specialize (H r Hr). apply parts_spec in Hq.
  pose proof (simple_parts _ H q Hq) as Hs. split.
  - intros ->. discriminate.
  - exists (sample q). apply simple_sample. auto.
Qed.

(** A small language: [if], identifiers, numbers with optional fraction, blanks. *)
Definition ex_if := mkTokenRule "IF" None (TLiteral [105; 102]).
Definition ex_id := mkTokenRule "ID" None (TPattern (PSeq [PSet [CRange 97 122; Single 95] false; PRep 0 None (PSet [CRange 97 122; CRange 48 57] false)])).
Definition ex_num := mkTokenRule "NUM" None (TPattern (PSeq [PRep 1 None (PChar (CRange 48 57)); PRep 0 (Some 1) (PSeq [PChar (Single 46); PRep 1 None (PChar (CRange 48 57))])])).
Definition ex_ws := mkTokenRule "WS" None (TPattern (PRep 1 None (PSet [Single 32; Single 10] false))).
Definition ex_rules := [ex_if; ex_id; ex_num; ex_ws].

Definition ex_lexer : res lex_err (alphabet * dfa token_rule) := Eval vm_compute in generate_lexer 100 ex_rules.

(** [if x1 2.5] *)
Definition ex_text : list N := [105; 102; 32; 120; 49; 32; 50; 46; 53].

(** Rules without backtracking: ["a"], ["b"], ["abc"]. *)
Definition ex_a := mkTokenRule "A" None (TLiteral [97]).
Definition ex_b := mkTokenRule "B" None (TLiteral [98]).
Definition ex_abc := mkTokenRule "ABC" None (TLiteral [97; 98; 99]).
Definition munch_rules := [ex_a; ex_b; ex_abc].

(** A rule matching the empty text: [/x*/]. *)
Definition ex_star := mkTokenRule "XS" None (TPattern (PRep 0 None (PChar (Single 120)))).

Definition lexer_of (rules : list token_rule) : alphabet * dfa token_rule :=
  match generate_lexer 100 rules with Ok p => p | _ => ([], dfa_new) end.
