(** Proofs about the generated parser of grammar files: the meaning of the rules read, and which patterns can be read. *)
From Coq Require Import String Ascii List Arith NArith Bool Lia.
From Verif Require Import Base InputModel GrammarModel GrammarSpec LexerModel PositionModel LRModel BootModel InputGenModel InputGenSpec InputGenLapex InputGenProof.
Import ListNotations.
Local Open Scope nat_scope.
Local Open Scope list_scope.

(** ** Patterns over given languages of names *)

Section Denotation.
Variable L : string -> list string -> Prop.
Inductive den : prod_pattern -> list string -> Prop :=
| dn_seq_nil : den (QSeq []) []
| dn_seq_cons p l ts ts' : den p ts -> den (QSeq l) ts' -> den (QSeq (p :: l)) (ts ++ ts')
| dn_alt p l ts : In p l -> den p ts -> den (QAlt l) ts
| dn_plus_one p ts : den p ts -> den (QPlus p) ts
| dn_plus_more p ts ts' : den p ts -> den (QPlus p) ts' -> den (QPlus p) (ts ++ ts')
| dn_star_none p : den (QStar p) []
| dn_star_more p ts ts' : den p ts -> den (QStar p) ts' -> den (QStar p) (ts ++ ts')
| dn_opt_none p : den (QOpt p) []
| dn_opt_some p ts : den p ts -> den (QOpt p) ts
| dn_rule name ts : L name ts -> den (QRule name) ts
| dn_eps : den QEps [].

Definition equal (p q : prod_pattern) : Prop := forall w, den p w <-> den q w.

Lemma den_seq : forall l l', Forall2 equal l l' -> equal (QSeq l) (QSeq l').
Proof.
  induction 1 as [|p q l l' E H IH]; [intros w; reflexivity|]. intros w. split; intros D; inversion D; subst; constructor; try (apply E; auto); apply IH; auto.
Qed.
Lemma den_alt : forall l l', Forall2 equal l l' -> equal (QAlt l) (QAlt l').
Proof.
  assert (forall l l', Forall2 equal l l' -> forall p, In p l -> exists q, In q l' /\ equal p q) as A.
  { induction 1 as [|p q l l' E H IH]; intros x Hx; [destruct Hx|]. destruct Hx as [<-|Hx]; [exists q; split; [left|]; auto|]. destruct (IH _ Hx) as (y & Hy & Ey). exists y. split; [right|]; auto. }
  assert (forall l l', Forall2 equal l l' -> Forall2 equal l' l) as B. { induction 1; constructor; auto. intros w. symmetry. apply H. }
  intros l l' H w. split; intros D; inversion D as [| |p m ts Hp Dp| | | | | | | |]; subst.
  - destruct (A _ _ H _ Hp) as (q & Hq & E). apply dn_alt with q; auto. apply E. auto.
  - destruct (A _ _ (B _ _ H) _ Hp) as (q & Hq & E). apply dn_alt with q; auto. apply E. auto.
Qed.
Lemma den_opt : forall p q, equal p q -> equal (QOpt p) (QOpt q).
Proof. intros p q E w. split; intros D; inversion D; subst; constructor; apply E; auto. Qed.
Lemma den_star_imp : forall p q, (forall w, den p w -> den q w) -> forall w, den (QStar p) w -> den (QStar q) w.
Proof. intros p q E w D. remember (QStar p) as r eqn:Er. induction D; inversion Er; subst; constructor; auto. Qed.
Lemma den_star : forall p q, equal p q -> equal (QStar p) (QStar q).
Proof. intros p q E w. split; apply den_star_imp; intros x; apply E. Qed.
Lemma den_plus_imp : forall p q, (forall w, den p w -> den q w) -> forall w, den (QPlus p) w -> den (QPlus q) w.
Proof. intros p q E w D. remember (QPlus p) as r eqn:Er. induction D; inversion Er; subst; [apply dn_plus_one|apply dn_plus_more]; auto. Qed.
Lemma den_plus : forall p q, equal p q -> equal (QPlus p) (QPlus q).
Proof. intros p q E w. split; apply den_plus_imp; intros x; apply E. Qed.

Lemma den_seq_app : forall l l' w, den (QSeq (l ++ l')) w <-> exists u v, w = u ++ v /\ den (QSeq l) u /\ den (QSeq l') v.
Proof.
  induction l as [|p l IH]; intros l' w.
  - split; [intros D; exists [], w; split; [|split]; auto; constructor|]. intros (u & v & -> & A & B). inversion A; subst. auto.
  - split.
    + intros D. inversion D as [|p' m u v Dp Dl| | | | | | | | |]; subst. apply IH in Dl. destruct Dl as (v1 & v2 & -> & A & B). exists (u ++ v1), v2. rewrite app_assoc. split; [|split]; auto. constructor; auto.
    + intros (u & v & -> & A & B). inversion A as [|p' m u1 u2 Dp Dl| | | | | | | | |]; subst. rewrite <- app_assoc. cbn [app]. constructor; auto. apply IH. exists u2, v. auto.
Qed.
Lemma den_seq_one : forall p w, den (QSeq [p]) w <-> den p w.
Proof.
  intros p w. split.
  - intros D. inversion D as [|p' m u1 u2 Dp Dl| | | | | | | | |]; subst. inversion Dl; subst. rewrite app_nil_r. auto.
  - intros D. rewrite <- (app_nil_r w). constructor; auto. constructor.
Qed.
Lemma den_seq_parts : forall q w, den (QSeq (seq_parts q)) w <-> den q w.
Proof. intros q w. destruct q; try apply den_seq_one. reflexivity. Qed.
Lemma den_joined_sequence : forall ps, ps <> [] -> equal (QSeq ps) (joined_sequence ps).
Proof.
  induction ps as [|p ps IH]; intros H w; [congruence|]. destruct ps as [|q ps]; [apply den_seq_one|].
  assert (q :: ps <> []) as N by discriminate. rewrite joined_sequence_cons by auto. specialize (IH N).
  split; intros D; inversion D as [|p' m u1 u2 Dp Dl| | | | | | | | |]; subst; constructor; auto.
  - apply den_seq_parts. apply IH. auto.
  - apply IH. apply den_seq_parts. auto.
Qed.
Lemma den_alt_one : forall p w, den (QAlt [p]) w <-> den p w.
Proof. intros p w. split; [intros D; inversion D as [| |q m ts Hq Dq| | | | | | | |]; subst; destruct Hq as [<-|[]]; auto|intros D; apply dn_alt with p; [left|]; auto]. Qed.
Lemma den_alt_parts : forall q w, den (QAlt (alt_parts q)) w <-> den q w.
Proof. intros q w. destruct q; try apply den_alt_one. reflexivity. Qed.
Lemma den_alt_app : forall l l' w, den (QAlt (l ++ l')) w <-> den (QAlt l) w \/ den (QAlt l') w.
Proof.
  intros l l' w. split.
  - intros D. inversion D as [| |q m ts Hq Dq| | | | | | | |]; subst. apply in_app_iff in Hq. destruct Hq; [left|right]; apply dn_alt with q; auto.
  - intros [D|D]; inversion D as [| |q m ts Hq Dq| | | | | | | |]; subst; apply dn_alt with q; auto; apply in_app_iff; auto.
Qed.
Lemma den_joined_choice : forall ps, ps <> [] -> equal (QAlt ps) (joined_choice ps).
Proof.
  induction ps as [|p ps IH]; intros H w; [congruence|]. destruct ps as [|q ps]; [apply den_alt_one|].
  assert (q :: ps <> []) as N by discriminate. rewrite joined_choice_cons by auto. specialize (IH N).
  rewrite den_alt_app, den_alt_one, den_alt_parts, <- (IH w). change (p :: q :: ps) with ([p] ++ q :: ps). rewrite den_alt_app, den_alt_one. tauto.
Qed.
End Denotation.

Lemma den_mono : forall (L L' : string -> list string -> Prop), (forall n w, L n w -> L' n w) -> forall p w, den L p w -> den L' p w.
Proof. intros L L' H p w D. induction D; try (econstructor; eauto; fail). Qed.

(** ** Languages of names by depth *)

Fixpoint level (rs : rule_set) (k : nat) (name : string) (w : list string) : Prop :=
  (is_token rs name /\ w = [name]) \/
  match k with O => False | S k => exists p, In p (rs_prods rs) /\ pr_name p = name /\ den (level rs k) (pr_pattern p) w end.

Lemma level_S : forall rs k n w, level rs k n w -> level rs (S k) n w.
Proof.
  induction k as [|k IH]; intros n w [H|H]; try (left; auto; fail); [destruct H|]. destruct H as (p & A & B & C). right. exists p. split; [|split]; auto. eapply den_mono; [|exact C]. exact IH.
Qed.
Lemma level_le : forall rs k k', k <= k' -> forall n w, level rs k n w -> level rs k' n w.
Proof. induction 1; intros n w; auto. intros X. apply level_S. auto. Qed.

Lemma ebnf_den : forall rs p w, ebnf rs p w <-> exists k, den (level rs k) p w.
Proof.
  intros rs p w. split.
  - assert (forall k k' p w, k <= k' -> den (level rs k) p w -> den (level rs k') p w) as M. { intros k k' q u Hk. apply den_mono. intros n v. apply level_le. auto. }
    induction 1 as [|p l ts ts' H (k & D) H' (k' & D')|p l ts Hp H (k & D)|p ts H (k & D)|p ts ts' H (k & D) H' (k' & D')|p|p ts ts' H (k & D) H' (k' & D')|p|p ts H (k & D)|n Hn|p ts Hp H (k & D)|].
    + exists 0. constructor.
    + exists (Nat.max k k'). constructor; [apply (M k)|apply (M k')]; auto; lia.
    + exists k. apply dn_alt with p; auto.
    + exists k. constructor; auto.
    + exists (Nat.max k k'). apply dn_plus_more; [apply (M k)|apply (M k')]; auto; lia.
    + exists 0. constructor.
    + exists (Nat.max k k'). constructor; [apply (M k)|apply (M k')]; auto; lia.
    + exists 0. constructor.
    + exists k. constructor; auto.
    + exists 0. constructor. left. auto.
    + exists (S k). constructor. right. exists p. auto.
    + exists 0. constructor.
  - intros (k & D). revert p w D. induction k as [|k IH]; intros p w D; induction D as [| | | | | | | | |n ts H|]; try (econstructor; eauto; fail).
    + destruct H as [(A & ->)|[]]. apply e_token. auto.
    + destruct H as [(A & ->)|(p & A & <- & C)]; [apply e_token; auto|]. apply e_prod; auto.
Qed.

(** ** Rule sets with the same meaning *)

Definition alike (p q : prod_pattern) : Prop := forall L, equal L p q.

Lemma same_language : forall rs rs', (forall n, is_token rs n <-> is_token rs' n) ->
  (forall p, In p (rs_prods rs) -> exists q, In q (rs_prods rs') /\ pr_name p = pr_name q /\ alike (pr_pattern p) (pr_pattern q)) ->
  forall p w, ebnf rs p w -> ebnf rs' p w.
Proof.
  intros rs rs' Ht Hp.
  assert (forall k n w, level rs k n w -> level rs' k n w) as A.
  { induction k as [|k IH]; intros n w [(X & E)|X]; try (left; split; auto; apply Ht; auto; fail); [destruct X|].
    destruct X as (p & Hi & En & D). right. destruct (Hp _ Hi) as (q & Hq & Eq & Hl). exists q. split; auto. split; [congruence|]. apply Hl. eapply den_mono; [exact IH|exact D]. }
  intros p w H. apply ebnf_den in H. destruct H as (k & D). apply ebnf_den. exists k. eapply den_mono; [apply A|exact D].
Qed.

(** ** The two readings of the syntax *)

Notation PItem := (item QSeq QAlt).
Notation PUnary := (unary QSeq QAlt).
Notation PUnits := (units QSeq QAlt).
Notation PChoices := (choices QSeq QAlt).
Notation PAlternatives := (alternatives QSeq QAlt).
Notation JItem := (item joined_sequence joined_choice).
Notation JUnary := (unary joined_sequence joined_choice).
Notation JUnits := (units joined_sequence joined_choice).
Notation JChoices := (choices joined_sequence joined_choice).
Notation JAlternatives := (alternatives joined_sequence joined_choice).

Lemma alike_list : forall l l', Forall2 alike l l' -> forall L, Forall2 (equal L) l l'.
Proof. intros l l' H L. induction H; constructor; auto. Qed.
Lemma alike_seq : forall l l', l' <> [] -> Forall2 alike l l' -> alike (QSeq l) (joined_sequence l').
Proof. intros l l' N H L w. rewrite (den_seq L l l' (alike_list _ _ H L) w). apply den_joined_sequence. auto. Qed.
Lemma alike_alt : forall l l', l' <> [] -> Forall2 alike l l' -> alike (QAlt l) (joined_choice l').
Proof. intros l l' N H L w. rewrite (den_alt L l l' (alike_list _ _ H L) w). apply den_joined_choice. auto. Qed.

Lemma patterns_plain :
  (forall p ts, PItem p ts -> exists q, JItem q ts /\ alike p q) /\
  (forall p ts, PUnary p ts -> exists q, JUnary q ts /\ alike p q) /\
  (forall ps ts, PUnits ps ts -> exists qs, JUnits qs ts /\ Forall2 alike ps qs) /\
  (forall ps ts, PChoices ps ts -> exists qs, JChoices qs ts /\ Forall2 alike ps qs) /\
  (forall p ts, PAlternatives p ts -> exists q, JAlternatives q ts /\ alike p q).
Proof.
  assert (forall p, alike p p) as R by (intros p L w; reflexivity).
  apply syntax_mut.
  - intros d. eexists. split; [constructor|auto].
  - intros p ts a b _ (q & H & E). exists q. split; [apply it_group; auto|auto].
  - intros p ts _ (q & H & E). exists q. split; [apply un_once; auto|auto].
  - intros p ts d _ (q & H & E). exists (QOpt q). split; [apply un_option; auto|]. intros L. apply den_opt. auto.
  - intros p ts d _ (q & H & E). exists (QStar q). split; [apply un_star; auto|]. intros L. apply den_star. auto.
  - intros p ts d _ (q & H & E). exists (QPlus q). split; [apply un_plus; auto|]. intros L. apply den_plus. auto.
  - intros p ts _ (q & H & E). exists [q]. split; [apply us_one; auto|]. constructor; auto.
  - intros p ts ps ts' _ (q & H & E) _ (qs & H' & E'). exists (q :: qs). split; [apply us_more; auto|]. constructor; auto.
  - intros ps ts _ (qs & H & E). exists [joined_sequence qs]. split; [apply ch_one; auto|]. constructor; auto. apply alike_seq; auto. eapply units_nonempty; eauto.
  - intros ps ts d rs ts' _ (qs & H & E) _ (us & H' & E'). exists (joined_sequence qs :: us). split; [apply ch_more; auto|]. constructor; auto. apply alike_seq; auto. eapply units_nonempty; eauto.
  - intros d. exists QEps. split; [constructor|auto].
  - intros ps ts _ (qs & H & E). exists (joined_choice qs). split; [apply al_choice; auto|]. apply alike_alt; auto. eapply choices_nonempty; eauto.
Qed.
Lemma patterns_joined :
  (forall p ts, JItem p ts -> exists q, PItem q ts) /\
  (forall p ts, JUnary p ts -> exists q, PUnary q ts) /\
  (forall ps ts, JUnits ps ts -> exists qs, PUnits qs ts) /\
  (forall ps ts, JChoices ps ts -> exists qs, PChoices qs ts) /\
  (forall p ts, JAlternatives p ts -> exists q, PAlternatives q ts).
Proof.
  apply syntax_mut.
  - intros d. eexists. constructor.
  - intros p ts a b _ (q & H). exists q. apply it_group; auto.
  - intros p ts _ (q & H). exists q. apply un_once; auto.
  - intros p ts d _ (q & H). exists (QOpt q). apply un_option; auto.
  - intros p ts d _ (q & H). exists (QStar q). apply un_star; auto.
  - intros p ts d _ (q & H). exists (QPlus q). apply un_plus; auto.
  - intros p ts _ (q & H). exists [q]. apply us_one; auto.
  - intros p ts ps ts' _ (q & H) _ (qs & H'). exists (q :: qs). apply us_more; auto.
  - intros ps ts _ (qs & H). exists [QSeq qs]. apply ch_one; auto.
  - intros ps ts d rs ts' _ (qs & H) _ (us & H'). exists (QSeq qs :: us). apply ch_more; auto.
  - intros d. exists QEps. constructor.
  - intros ps ts _ (qs & H). exists (QAlt qs). apply al_choice; auto.
Qed.

(** The rules of the two readings. *)
Definition matching (r r' : spanned file_rule) : Prop :=
  fst r = fst r' /\
  match snd r, snd r' with
  | FProd p, FProd q => pr_name p = pr_name q /\ pr_tag p = pr_tag q /\ alike (pr_pattern p) (pr_pattern q)
  | FToken t, FToken u => t = u
  | FEntry n, FEntry m => n = m
  | _, _ => False
  end.

Lemma rules_plain : forall regex rules ts, file_tokens QSeq QAlt regex rules ts -> exists rules', file_tokens joined_sequence joined_choice regex rules' ts /\ Forall2 matching rules rules'.
Proof.
  intros regex.
  assert (forall r ts, rule_tokens QSeq QAlt regex r ts -> exists r', rule_tokens joined_sequence joined_choice regex r' ts /\ matching r r') as A.
  { intros r ts H. destruct H as [a d b|a d e b tag us p us' Ht Ha|a d e b prec us p t Hp Ht].
    - eexists. split; [apply rt_entry|]. split; reflexivity.
    - destruct (proj2 (proj2 (proj2 (proj2 patterns_plain))) _ _ Ha) as (q & Hq & E). eexists. split; [apply rt_prod; eassumption|]. split; [reflexivity|]. split; [reflexivity|]. split; [reflexivity|exact E].
    - eexists. split; [apply rt_token; eassumption|]. split; reflexivity. }
  induction 1 as [r ts H|r ts rs ts' H Hs IH]; destruct (A _ _ H) as (r' & Hr & Em).
  - exists [r']. split; [constructor; auto|]. constructor; auto.
  - destruct IH as (rs' & Hrs & E). exists (r' :: rs'). split; [constructor; auto|]. constructor; auto.
Qed.
Lemma rules_joined : forall regex rules ts, file_tokens joined_sequence joined_choice regex rules ts -> exists rules', file_tokens QSeq QAlt regex rules' ts.
Proof.
  intros regex.
  assert (forall r ts, rule_tokens joined_sequence joined_choice regex r ts -> exists r', rule_tokens QSeq QAlt regex r' ts) as A.
  { intros r ts H. destruct H as [a d b|a d e b tag us p us' Ht Ha|a d e b prec us p t Hp Ht].
    - eexists. apply rt_entry.
    - destruct (proj2 (proj2 (proj2 (proj2 patterns_joined))) _ _ Ha) as (q & Hq). eexists. apply rt_prod; eassumption.
    - eexists. apply rt_token; eassumption. }
  induction 1 as [r ts H|r ts rs ts' H Hs IH]; destruct (A _ _ H) as (r' & Hr).
  - exists [r']. constructor; auto.
  - destruct IH as (rs' & Hrs). exists (r' :: rs'). constructor; auto.
Qed.

(** ** Texts *)

Lemma patterns_fitting : forall s c,
  (forall p ts, item s c p ts -> Forall fitting ts) /\ (forall p ts, unary s c p ts -> Forall fitting ts) /\ (forall ps ts, units s c ps ts -> Forall fitting ts) /\
  (forall ps ts, choices s c ps ts -> Forall fitting ts) /\ (forall p ts, alternatives s c p ts -> Forall fitting ts).
Proof.
  intros s c. assert (forall k d, k <> DIGIT -> k <> STRING -> k <> REGEX -> fitting (k, d)) as F by (intros k d A B C; split; [|split]; intros E; contradiction).
  apply syntax_mut; intros; rewrite ?Forall_app; repeat split; auto; repeat constructor; auto; try (intros E; discriminate E).
Qed.
Lemma file_fitting : forall s c regex rules ts, file_tokens s c regex rules ts -> Forall fitting ts.
Proof.
  intros s c regex.
  assert (forall k d, k <> DIGIT -> k <> STRING -> k <> REGEX -> fitting (k, d)) as F by (intros k d A B C; split; [|split]; intros E; contradiction).
  assert (forall r ts, rule_tokens s c regex r ts -> Forall fitting ts) as A.
  { intros r ts H. destruct H as [a d b|a d e b tag us p us' Ht Ha|a d e b prec us p t Hp Ht].
    - repeat (constructor; [apply F; discriminate|]). constructor.
    - rewrite !Forall_app. split; [repeat (constructor; [apply F; discriminate|]); constructor|]. split; [destruct Ht; repeat (constructor; [apply F; discriminate|]); constructor|].
      split; [repeat (constructor; [apply F; discriminate|]); constructor|]. split; [exact (proj2 (proj2 (proj2 (proj2 (patterns_fitting s c)))) _ _ Ha)|repeat (constructor; [apply F; discriminate|]); constructor].
    - rewrite !Forall_app. split; [repeat (constructor; [apply F; discriminate|]); constructor|]. split.
      + destruct Hp as [|x y z n Hd Hn]; [constructor|]. constructor; [apply F; discriminate|]. constructor; [|constructor; [apply F; discriminate|constructor]].
        split; [|split]; intros E; try discriminate E. exists n. exact Hd.
      + constructor; [apply F; discriminate|]. constructor; [|constructor; [apply F; discriminate|constructor]].
        destruct Ht as [cs x E|cs h q x E Eh Ep]; (split; [|split]); intros E'; try discriminate E'; exists cs; exact E. }
  induction 1; rewrite ?Forall_app; eauto.
Qed.

(** ** The meaning of a file *)

Lemma consists_matching : forall out outp rules plain, consists_of out (rev rules) -> consists_of outp plain -> Forall2 matching plain rules ->
  sr_entry out = sr_entry outp /\ sr_tokens out = rev (sr_tokens outp) /\
  Forall2 (fun q p => fst p = fst q /\ pr_name (snd p) = pr_name (snd q) /\ pr_tag (snd p) = pr_tag (snd q) /\ alike (pr_pattern (snd p)) (pr_pattern (snd q))) (sr_prods out) (rev (sr_prods outp)).
Proof.
  intros out outp rules plain [Ht Hp He] [Ht' Hp' He'] M. unfold spanned in *.
  assert (forall f, (forall r r', matching r r' -> f r = f r') -> Forall2 matching (filter f plain) (filter f rules)) as A.
  { intros f Hf. clear -M Hf. induction M as [|r r' l l' Hr H IH]; [constructor|]. cbn [filter]. rewrite <- (Hf _ _ Hr). destruct (f r); auto. }
  assert (forall f l, filter f (rev l) = rev (filter f l) :> list (source_span * file_rule)) as R.
  { intros f. induction l as [|x l IH]; [reflexivity|]. cbn [rev filter]. rewrite filter_app, IH. cbn [filter]. destruct (f x); cbn [rev]; [reflexivity|apply app_nil_r]. }
  assert (forall X (g : X -> (source_span * file_rule)) l l', Forall2 matching (map g l) (map g l') -> Forall2 (fun a b => matching (g a) (g b)) l l') as I.
  { intros X g. induction l as [|x l IH]; intros [|y l'] H; inversion H; subst; constructor; auto. }
  assert (forall (P Q : (source_span * prod_rule) -> (source_span * prod_rule) -> Prop) l l', (forall a b, P a b -> Q b a) -> Forall2 P l l' -> Forall2 Q l' l) as W. { intros P Q l l' H. induction 1; constructor; auto. }
  assert (forall X (P : X -> X -> Prop) l l', Forall2 P l l' -> Forall2 P (rev l) (rev l')) as V. { intros X P. induction 1; cbn [rev]; [constructor|]. apply Forall2_app; auto. }
  rewrite R in Ht, Hp, He. split; [|split].
  - specialize (A (fun r => match snd r with FEntry _ => true | _ => false end)). unfold spanned in *. rewrite <- He' in A.
    assert (filter (fun r => match snd r with FEntry _ => true | _ => false end) rules = [(fst (sr_entry out), FEntry (snd (sr_entry out)))]) as E. { rewrite <- (rev_involutive (filter _ rules)). rewrite <- He. reflexivity. }
    rewrite E in A. assert (Forall2 matching [(fst (sr_entry outp), FEntry (snd (sr_entry outp)))] [(fst (sr_entry out), FEntry (snd (sr_entry out)))]) as B.
    { apply A. intros [sp r] [sp' r'] (_ & X). cbn [snd] in *. destruct r, r'; tauto. }
    inversion B as [|x y lx ly (B1 & B2) B3]; subst. cbn [fst snd] in *. destruct (sr_entry out), (sr_entry outp). cbn [fst snd] in *. congruence.
  - specialize (A (fun r => match snd r with FToken _ => true | _ => false end)). unfold spanned in *. rewrite <- Ht' in A.
    assert (filter (fun r => match snd r with FToken _ => true | _ => false end) rules = map (fun t => (fst t, FToken (snd t))) (rev (sr_tokens out))) as E. { rewrite map_rev. etransitivity; [symmetry; apply rev_involutive|]. f_equal. symmetry. exact Ht. }
    rewrite E in A. assert (Forall2 (fun a b : (source_span * token_rule) => a = b) (sr_tokens outp) (rev (sr_tokens out))) as B.
    { assert (Forall2 (fun a b : (source_span * token_rule) => matching (fst a, FToken (snd a)) (fst b, FToken (snd b))) (sr_tokens outp) (rev (sr_tokens out))) as B.
      { apply (I _ (fun a : (source_span * token_rule) => (fst a, FToken (snd a)))). apply A. intros [sp r] [sp' r'] (_ & X). cbn [snd] in *. destruct r, r'; tauto. }
      clear -B. induction B as [|a b l l' (X & Y) H IH]; constructor; auto. destruct a, b. cbn [fst snd] in *. congruence. }
    assert (sr_tokens outp = rev (sr_tokens out)) as ->. { clear -B. induction B; congruence. } rewrite rev_involutive. reflexivity.
  - specialize (A (fun r => match snd r with FProd _ => true | _ => false end)). unfold spanned in *. rewrite <- Hp' in A.
    assert (filter (fun r => match snd r with FProd _ => true | _ => false end) rules = map (fun t => (fst t, FProd (snd t))) (rev (sr_prods out))) as E. { rewrite map_rev. etransitivity; [symmetry; apply rev_involutive|]. f_equal. symmetry. exact Hp. }
    rewrite E in A. assert (Forall2 (fun a b : (source_span * prod_rule) => matching (fst a, FProd (snd a)) (fst b, FProd (snd b))) (sr_prods outp) (rev (sr_prods out))) as B.
    { apply (I _ (fun a : (source_span * prod_rule) => (fst a, FProd (snd a)))). apply A. intros [sp r] [sp' r'] (_ & X). cbn [snd] in *. destruct r, r'; tauto. }
    apply V in B. rewrite rev_involutive in B. revert B. apply W. intros a b (X & Y). cbn [fst snd] in *. tauto.
Qed.

Lemma Forall2_left : forall A B (P : A -> B -> Prop) l l', Forall2 P l l' -> forall x, In x l -> exists y, In y l' /\ P x y.
Proof. induction 1 as [|a b l l' H F IH]; intros x Hx; [destruct Hx|]. destruct Hx as [<-|Hx]; [exists b; split; [left|]; auto|]. destruct (IH _ Hx) as (y & Hy & E). exists y. split; [right|]; auto. Qed.
Lemma Forall2_right : forall A B (P : A -> B -> Prop) l l', Forall2 P l l' -> forall y, In y l' -> exists x, In x l /\ P x y.
Proof. induction 1 as [|a b l l' H F IH]; intros y Hy; [destruct Hy|]. destruct Hy as [<-|Hy]; [exists a; split; [left|]; auto|]. destruct (IH _ Hy) as (x & Hx & E). exists x. split; [right|]; auto. Qed.

Lemma file_meaning : forall regex fuel eof ts plain outp out, file_tokens QSeq QAlt regex plain ts -> consists_of outp plain -> parse_tokens regex lapex_gen fuel ts eof = Ok out ->
  sr_entry out = sr_entry outp /\ sr_tokens out = rev (sr_tokens outp) /\
  Forall2 (fun q p => fst q = fst p /\ pr_name (snd q) = pr_name (snd p) /\ pr_tag (snd q) = pr_tag (snd p)) (sr_prods out) (rev (sr_prods outp)) /\
  forall p w, ebnf (unspanned out) p w <-> ebnf (unspanned outp) p w.
Proof.
  intros regex fuel eof ts plain outp out Hp Hc E. pose proof (parse_sound regex eof fuel ts (file_fitting _ _ _ _ _ Hp)) as S. rewrite E in S. destruct S as (rules & Hr & Ho).
  destruct (rules_plain _ _ _ Hp) as (rules' & Hr' & M). rewrite (rules_unique regex eof _ _ _ Hr' Hr) in M.
  destruct (consists_matching _ _ _ _ Ho Hc M) as (A & B & C). split; auto. split; auto. split.
  { clear -C. induction C as [|a b l l' (X1 & X2 & X3 & _) H IH]; constructor; auto. }
  assert (forall n, is_token (unspanned out) n <-> is_token (unspanned outp) n) as T.
  { intros n. unfold is_token, unspanned. cbn [rs_tokens]. rewrite B. split; intros (r & Hi & En); exists r; split; auto; apply in_map_iff in Hi; destruct Hi as (x & <- & Hx); apply in_map; apply in_rev in Hx; auto. }
  intros p w. split; apply same_language.
  - exact T.
  - intros q Hq. cbn [unspanned rs_prods] in Hq. apply in_map_iff in Hq. destruct Hq as (x & <- & Hx). destruct (Forall2_left _ _ _ _ _ C _ Hx) as (y & Hy & X1 & X2 & X3 & X4).
    exists (snd y). split; [cbn [unspanned rs_prods]; apply in_map; apply in_rev; auto|]. split; auto. intros L v. symmetry. apply X4.
  - intros n. symmetry. apply T.
  - intros q Hq. cbn [unspanned rs_prods] in Hq. apply in_map_iff in Hq. destruct Hq as (x & <- & Hx). apply in_rev in Hx. destruct (Forall2_right _ _ _ _ _ C _ Hx) as (y & Hy & X1 & X2 & X3 & X4).
    exists (snd y). split; [cbn [unspanned rs_prods]; apply in_map; auto|]. split; auto.
Qed.

(** ** Patterns which can be read *)

Lemma readable_parts : forall q, readable q -> exists l x, seq_parts q = l ++ [x] /\ Forall readable l /\ readable x /\ ~ is_seq x.
Proof.
  intros q H. destruct H as [n| |p H|p H|p H|l p N HF H Hn|l p N HF H Hn]; cbn [seq_parts];
    try (exists [], (QRule n); repeat split; [constructor|constructor|intros (? & E); discriminate E]; fail).
  - exists [], QEps. repeat split; [constructor|constructor|intros (? & E); discriminate E].
  - exists [], (QOpt p). repeat split; [constructor|constructor; auto|intros (? & E); discriminate E].
  - exists [], (QStar p). repeat split; [constructor|constructor; auto|intros (? & E); discriminate E].
  - exists [], (QPlus p). repeat split; [constructor|constructor; auto|intros (? & E); discriminate E].
  - exists l, p. auto.
  - exists [], (QAlt (p :: l)). repeat split; [constructor|constructor; auto|intros (? & E); discriminate E].
Qed.
Lemma readable_alts : forall q, readable q -> exists x l, alt_parts q = x :: l /\ Forall readable l /\ readable x /\ ~ is_alt x.
Proof.
  intros q H. destruct H as [n| |p H|p H|p H|l p N HF H Hn|l p N HF H Hn]; cbn [alt_parts];
    try (exists (QRule n), []; repeat split; [constructor|constructor|intros (? & E); discriminate E]; fail).
  - exists QEps, []. repeat split; [constructor|constructor|intros (? & E); discriminate E].
  - exists (QOpt p), []. repeat split; [constructor|constructor; auto|intros (? & E); discriminate E].
  - exists (QStar p), []. repeat split; [constructor|constructor; auto|intros (? & E); discriminate E].
  - exists (QPlus p), []. repeat split; [constructor|constructor; auto|intros (? & E); discriminate E].
  - exists (QSeq (l ++ [p])), []. repeat split; [constructor|constructor; auto|intros (? & E); discriminate E].
  - exists p, l. auto.
Qed.
Lemma joined_sequence_readable : forall ps, ps <> [] -> Forall readable ps -> readable (joined_sequence ps).
Proof.
  induction ps as [|p ps IH]; intros N H; [congruence|]. inversion H; subst. destruct ps as [|q ps]; [auto|].
  assert (q :: ps <> []) as M by discriminate. rewrite joined_sequence_cons by auto. destruct (readable_parts _ (IH M H3)) as (l & x & -> & A & B & C).
  apply (rd_seq (p :: l) x); auto. discriminate.
Qed.
Lemma joined_choice_readable : forall ps, ps <> [] -> Forall readable ps -> readable (joined_choice ps).
Proof.
  induction ps as [|p ps IH]; intros N H; [congruence|]. inversion H; subst. destruct ps as [|q ps]; [auto|].
  assert (q :: ps <> []) as M by discriminate. rewrite joined_choice_cons by auto. destruct (readable_alts _ (IH M H3)) as (x & l & -> & A & B & C).
  apply (rd_alt (l ++ [p]) x); auto; [destruct l; discriminate|]. apply Forall_app. auto.
Qed.
Lemma patterns_readable :
  (forall p ts, JItem p ts -> readable p) /\ (forall p ts, JUnary p ts -> readable p) /\ (forall ps ts, JUnits ps ts -> Forall readable ps) /\
  (forall ps ts, JChoices ps ts -> Forall readable ps) /\ (forall p ts, JAlternatives p ts -> readable p).
Proof.
  apply syntax_mut; intros; repeat constructor; auto.
  - apply joined_sequence_readable; auto. eapply units_nonempty; eauto.
  - apply joined_sequence_readable; auto. eapply units_nonempty; eauto.
  - apply joined_choice_readable; auto. eapply choices_nonempty; eauto.
Qed.

Definition some_data (text : list N) : token_data := mkData text zero_span.
Definition text_of (n : string) : list N := map N_of_ascii (list_ascii_of_string n).
Lemma name_text : forall n, name_of (text_of n) = n.
Proof.
  intros n. unfold name_of, text_of. rewrite map_map. rewrite (map_ext _ (fun a => a)); [|intros a; apply ascii_N_embedding]. rewrite map_id. apply string_of_list_ascii_of_string.
Qed.

Lemma one_choice : forall p ts, JUnary p ts -> JAlternatives p ts.
Proof. intros p ts H. apply (al_choice joined_sequence joined_choice [p]). apply (ch_one joined_sequence joined_choice [p]). apply us_one. auto. Qed.
Lemma readable_spelled : forall p, readable p -> exists ts, JAlternatives p ts.
Proof.
  assert (forall p ts, JAlternatives p ts -> exists ts', JItem p ts') as G. { intros p ts H. eexists. apply (it_group _ _ p ts (some_data []) (some_data [])). exact H. }
  fix IH 2. intros p H.
  assert (forall l, Forall readable l -> Forall (fun p => exists ts, JItem p ts) l) as A.
  { fix IHl 2. intros l Hl. destruct Hl as [|x l Hx Hl]; [constructor|]. constructor; [|apply IHl; exact Hl]. destruct (IH x Hx) as (ts & X). exact (G _ _ X). }
  destruct H as [n| |q H|q H|q H|l q N HF H Hn|l q N HF H Hn].
  - exists [(IDENT, some_data (text_of n))]. apply one_choice, un_once. rewrite <- (name_text n) at 1. apply (it_name joined_sequence joined_choice (some_data (text_of n))).
  - exists [(NOTHING, some_data [])]. constructor.
  - destruct (IH q H) as (ts & X). destruct (G _ _ X) as (ts' & Y). eexists. apply one_choice. apply un_option with (d := some_data []). exact Y.
  - destruct (IH q H) as (ts & X). destruct (G _ _ X) as (ts' & Y). eexists. apply one_choice. apply un_star with (d := some_data []). exact Y.
  - destruct (IH q H) as (ts & X). destruct (G _ _ X) as (ts' & Y). eexists. apply one_choice. apply un_plus with (d := some_data []). exact Y.
  - destruct (IH q H) as (ts & X). destruct (G _ _ X) as (ts' & Y).
    assert (exists us, JUnits (l ++ [q]) us) as (us & Hu).
    { specialize (A l HF). clear -A Y. induction A as [|p l (us & Hp) _ (us' & Hl)]; [exists ts'; apply us_one, un_once; auto|]. eexists. cbn [app]. apply us_more; [apply un_once; exact Hp|exact Hl]. }
    exists us. replace (QSeq (l ++ [q])) with (joined_choice [joined_sequence (l ++ [q])]); [apply al_choice, ch_one; auto|].
    cbn [joined_choice]. unfold joined_sequence. destruct l as [|p l]; [congruence|]. assert (exists r m, (p :: l) ++ [q] = p :: r :: m) as (r & m & E) by (destruct l as [|r l]; cbn [app]; eauto).
    rewrite E at 1. rewrite removelast_last, last_last. destruct q; try reflexivity. destruct Hn. eexists. reflexivity.
  - destruct (IH q H) as (ts & X). destruct (G _ _ X) as (ts' & Y).
    assert (exists us, JChoices (rev l ++ [q]) us) as (us & Hu).
    { specialize (A l HF). apply Forall_rev in A. clear -A Y. induction A as [|p l' (us & Hp) _ (us' & Hl)]; [exists ts'; apply (ch_one joined_sequence joined_choice [q]); apply us_one, un_once; auto|].
      eexists. cbn [app]. apply (ch_more joined_sequence joined_choice [p] us (some_data [])); [apply us_one, un_once; exact Hp|exact Hl]. }
    exists us. replace (QAlt (q :: l)) with (joined_choice (rev l ++ [q])); [apply al_choice; auto|].
    unfold joined_choice. assert (rev l <> []) as M by (intros E; apply N; rewrite <- (rev_involutive l), E; reflexivity). destruct (rev l) as [|p l'] eqn:El; [congruence|].
    assert (exists r m, (p :: l') ++ [q] = p :: r :: m) as (r & m & E) by (destruct l' as [|r l']; cbn [app]; eauto).
    rewrite E at 1. rewrite removelast_last, last_last. rewrite <- El, rev_involutive. destruct q; try reflexivity. destruct Hn. eexists. reflexivity.
Qed.

(** Numerals. *)
Lemma decimal_exists : forall n, exists cs, decimal cs n.
Proof.
  intros n. induction n as [n IH] using (well_founded_induction N.lt_wf_0). destruct (N.lt_ge_cases n 10) as [H|H].
  - exists [48 + n]%N. constructor. auto.
  - destruct (IH (n / 10)%N) as (cs & Hc); [apply N.div_lt; lia|]. exists (cs ++ [48 + n mod 10]%N). pose proof (N.div_mod n 10). rewrite (N.div_mod n 10) at 2 by lia. apply dec_more; auto. apply N.mod_lt. lia.
Qed.

(** ** Rule sets which can be read *)

Definition entry_text (n : string) : list tok := [(KW_ENTRY, some_data []); (IDENT, some_data (text_of n)); (SEMI, some_data [])].

Lemma prod_spelled : forall regex p, readable (pr_pattern p) -> exists sp ts, rule_tokens joined_sequence joined_choice regex (sp, FProd p) ts.
Proof.
  intros regex [n tag q] H. cbn [pr_pattern] in H. destruct (readable_spelled _ H) as (ts & X).
  assert (exists us, tagged tag us) as (us & Y).
  { destruct tag as [m|]; [|exists []; constructor]. rewrite <- (name_text m). eexists. apply (tg_some (some_data []) (some_data (text_of m)) (some_data [])). }
  rewrite <- (name_text n). eexists. eexists. apply (rt_prod joined_sequence joined_choice regex (some_data []) (some_data (text_of n)) (some_data []) (some_data []) tag us q ts Y X).
Qed.
Lemma token_spelled : forall regex t, spellable_token regex t -> exists sp ts, rule_tokens joined_sequence joined_choice regex (sp, FToken t) ts.
Proof.
  intros regex [n prec q] (Hp & Hq). cbn [tr_prec tr_pattern] in *.
  assert (exists us, prioritised prec us) as (us & Y).
  { destruct prec as [m|]; [|exists []; constructor]. destruct (decimal_exists m) as (cs & Hc). eexists. apply (pr_some (some_data []) (some_data cs) (some_data []) m); [exact Hc|]. apply Hp. reflexivity. }
  assert (exists t, token_text regex q t) as (t & X).
  { destruct q as [cs|p].
    - exists (STRING, some_data ([34%N] ++ cs ++ [34%N])). constructor. reflexivity.
    - destruct Hq as (cs & h & E & Eh). exists (REGEX, some_data ([47%N] ++ cs ++ [47%N])). apply tt_regex with (cs := cs) (h := h); auto. }
  rewrite <- (name_text n). eexists. eexists. apply (rt_token joined_sequence joined_choice regex (some_data []) (some_data (text_of n)) (some_data []) (some_data []) prec us q t Y X).
Qed.

Lemma rule_set_spelled : forall regex eof rs, Forall (fun p => readable (pr_pattern p)) (rs_prods rs) -> Forall (spellable_token regex) (rs_tokens rs) ->
  exists ts n, Forall fitting ts /\ forall fuel, n < fuel -> exists out, parse_tokens regex lapex_gen fuel ts eof = Ok out /\ unspanned out = rs.
Proof.
  intros regex eof [en toks prods] HP HT. cbn [rs_prods rs_tokens] in *.
  assert (forall l, Forall (fun p => readable (pr_pattern p)) l -> exists l', map snd l' = l /\ Forall (fun r => exists ts, rule_tokens joined_sequence joined_choice regex (fst r, FProd (snd r)) ts) l') as A.
  { induction 1 as [|p l Hp _ (l' & E & F)]; [exists []; split; [reflexivity|constructor]|]. destruct (prod_spelled regex p Hp) as (sp & ts & X). exists ((sp, p) :: l'). split; [cbn; congruence|]. constructor; auto. exists ts. exact X. }
  assert (forall l, Forall (spellable_token regex) l -> exists l', map snd l' = l /\ Forall (fun r => exists ts, rule_tokens joined_sequence joined_choice regex (fst r, FToken (snd r)) ts) l') as B.
  { induction 1 as [|p l Hp _ (l' & E & F)]; [exists []; split; [reflexivity|constructor]|]. destruct (token_spelled regex p Hp) as (sp & ts & X). exists ((sp, p) :: l'). split; [cbn; congruence|]. constructor; auto. exists ts. exact X. }
  destruct (A prods HP) as (ps & Ep & Fp). destruct (B toks HT) as (qs & Et & Ft).
  set (entry := (extent (some_data []) (some_data []), FEntry en) : spanned file_rule).
  set (rules := map (fun r => (fst r, FProd (snd r))) (rev ps) ++ map (fun r => (fst r, FToken (snd r))) (rev qs) ++ [entry] : list (spanned file_rule)).
  assert (rule_tokens joined_sequence joined_choice regex entry (entry_text en)) as He.
  { unfold entry. rewrite <- (name_text en) at 1. apply (rt_entry joined_sequence joined_choice regex (some_data []) (some_data (text_of en)) (some_data [])). }
  assert (exists ts, file_tokens joined_sequence joined_choice regex rules ts) as (ts & Hts).
  { assert (forall l l', Forall (fun r => exists ts, rule_tokens joined_sequence joined_choice regex r ts) l -> (exists ts, file_tokens joined_sequence joined_choice regex l' ts) -> exists ts, file_tokens joined_sequence joined_choice regex (l ++ l') ts) as C.
    { induction 1 as [|r l (us & Hr) _ IH]; intros X; auto. destruct (IH X) as (us' & H'). exists (us ++ us'). apply ft_more; auto. }
    apply C; [apply Forall_map, Forall_rev; exact Fp|]. apply C; [apply Forall_map, Forall_rev; exact Ft|]. exists (entry_text en). apply ft_one. exact He. }
  destruct (reads regex eof _ _ Hts) as (n & Hn). exists ts, n. split; [exact (file_fitting _ _ _ _ _ Hts)|]. intros fuel Hf. rewrite (Hn fuel Hf).
  exists (mkSpannedRules (extent (some_data []) (some_data []), en) qs ps). split; [|unfold unspanned; cbn; congruence].
  unfold rules, sort_rules. rewrite !rev_app_distr, <- !map_rev, !rev_involutive. cbn [rev app].
  assert (forall X (f : spanned file_rule -> list X) l l', flat_map f (l ++ l') = flat_map f l ++ flat_map f l') as FA. { intros X f. induction l; intros l'; cbn [flat_map app]; [reflexivity|]. rewrite IHl, app_assoc. reflexivity. }
  assert (forall X Y (f : spanned file_rule -> list Y) (g : X -> spanned file_rule) l, (forall x, f (g x) = []) -> flat_map f (map g l) = []) as F0. { intros X Y f g l H. induction l; cbn [map flat_map]; auto. rewrite H. auto. }
  assert (forall X (f : spanned file_rule -> list X) (g : X -> spanned file_rule) l, (forall x, f (g x) = [x]) -> flat_map f (map g l) = l) as F1. { intros X f g l H. induction l; cbn [map flat_map]; auto. rewrite H. cbn [app]. congruence. }
  unfold spanned in *.
  change (entry :: map (fun r : source_span * token_rule => (fst r, FToken (snd r))) qs ++ map (fun r : source_span * prod_rule => (fst r, FProd (snd r))) ps)
    with ([entry] ++ map (fun r : source_span * token_rule => (fst r, FToken (snd r))) qs ++ map (fun r : source_span * prod_rule => (fst r, FProd (snd r))) ps).
  rewrite !FA. repeat rewrite F0 by reflexivity. repeat rewrite F1 by (intros []; reflexivity). repeat rewrite F0 by reflexivity. rewrite !app_nil_r. reflexivity.
Qed.

Lemma prod_readable : forall regex eof fuel ts out r, Forall fitting ts -> parse_tokens regex lapex_gen fuel ts eof = Ok out -> In r (sr_prods out) -> readable (pr_pattern (snd r)).
Proof.
  intros regex eof fuel ts out r Hf E Hr. pose proof (parse_sound regex eof fuel ts Hf) as X. rewrite E in X. destruct X as (rules & Hs & [_ Hp _]).
  assert (In (fst r, FProd (snd r)) (rev rules)) as Hi.
  { assert (In (fst r, FProd (snd r)) (map (fun t : spanned prod_rule => (fst t, FProd (snd t))) (sr_prods out))) as Y by (apply (in_map (fun t : spanned prod_rule => (fst t, FProd (snd t)))); exact Hr). assert (In (fst r, FProd (snd r)) (filter (fun r => match snd r with FProd _ => true | _ => false end) (rev rules))) as Z by (rewrite <- Hp; exact Y). apply filter_In in Z. tauto. }
  apply in_rev in Hi. clear -Hs Hi.
  assert (forall r' ts, rule_tokens joined_sequence joined_choice regex r' ts -> (fst r, FProd (snd r)) = r' -> readable (pr_pattern (snd r))) as A.
  { intros r' us H E. destruct H; inversion E as [[E1 E2]]. rewrite E2. exact (proj2 (proj2 (proj2 (proj2 patterns_readable))) _ _ H0). }
  induction Hs as [r' ts H|r' ts rs ts' H Hs IH].
  - destruct Hi as [->|[]]. exact (A _ _ H eq_refl).
  - destruct Hi as [->|Hi]; [exact (A _ _ H eq_refl)|auto].
Qed.
