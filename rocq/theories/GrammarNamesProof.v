(** Registering names and numbering symbols ([GrammarBuilder::from_rule_set]). *)
From Coq Require Import String List Arith NArith Bool Lia.
From Verif Require Import Base InputModel GrammarModel GrammarSpec.
Import ListNotations.

Lemma nth_error_snoc_iff : forall A (l : list A) a i x,
  nth_error (l ++ [a]) i = Some x <-> nth_error l i = Some x \/ (i = length l /\ x = a).
Proof.
  intros A l a i x. destruct (lt_dec i (length l)) as [Hi|Hi].
  - rewrite nth_error_app1 by lia. split; [auto|intros [?|[? ?]]; [auto|lia]].
  - rewrite nth_error_app2 by lia. split.
    + intros H. right. destruct (i - length l)%nat as [|k] eqn:Ek; simpl in H; [injection H as <-; split; [lia|auto]|destruct k; discriminate].
    + intros [H|[-> ->]]; [apply nth_error_lt in H; lia|rewrite Nat.sub_diag; auto].
Qed.

Lemma enumerate_from_snoc : forall A (l : list A) a k,
  enumerate_from k (l ++ [a]) = enumerate_from k l ++ [((k + length l)%nat, a)].
Proof.
  induction l as [|b l IH]; intros a k; simpl; [rewrite Nat.add_0_r; auto|].
  rewrite IH. rewrite Nat.add_succ_r. auto.
Qed.
Lemma enumerate_snoc : forall A (l : list A) a, enumerate (l ++ [a]) = enumerate l ++ [(length l, a)].
Proof. intros. unfold enumerate. rewrite enumerate_from_snoc. auto. Qed.

Lemma map_mem_In : forall K `{Cmp K} V (m : list (K * V)) k, msorted m -> (map_mem k m = true <-> In k (map fst m)).
Proof.
  intros K C V m k Hs. unfold map_mem. destruct (map_get k m) as [v|] eqn:E.
  - apply map_get_In in E; auto. split; auto. intros _. apply in_map_iff. exists (k, v); auto.
  - apply map_get_None in E; auto. split; [discriminate|contradiction].
Qed.

Lemma as_u16_small : forall i, (N.of_nat i < 65536)%N -> as_u16 (N.of_nat i) = N.of_nat i.
Proof. intros. unfold as_u16. apply N.mod_small. auto. Qed.
Lemma as_u16_lt : forall n, (as_u16 n < 65536)%N.
Proof. intros. unfold as_u16. apply N.mod_lt. lia. Qed.

Definition tok_at (l : list token_rule) (i : nat) (name : string) : Prop :=
  exists r, nth_error l i = Some r /\ tr_name r = name.
Definition prd_at (l : list prod_rule) (i : nat) (name : string) : Prop :=
  exists r, nth_error l i = Some r /\ pr_name r = name.
Definition first_prd (l : list prod_rule) (i : nat) (name : string) : Prop :=
  prd_at l i name /\ forall j, (j < i)%nat -> ~ prd_at l j name.

Lemma tok_at_snoc : forall l r i name,
  tok_at (l ++ [r]) i name <-> tok_at l i name \/ (i = length l /\ tr_name r = name).
Proof.
  intros l r i name. unfold tok_at. split.
  - intros [x [Hx Hn]]. apply nth_error_snoc_iff in Hx. destruct Hx as [Hx|[-> ->]]; eauto.
  - intros [[x [Hx Hn]]|[-> Hn]].
    + exists x. split; auto. apply nth_error_snoc_iff; auto.
    + exists r. split; auto. apply nth_error_snoc_iff; auto.
Qed.
Lemma prd_at_snoc : forall l r i name,
  prd_at (l ++ [r]) i name <-> prd_at l i name \/ (i = length l /\ pr_name r = name).
Proof.
  intros l r i name. unfold prd_at. split.
  - intros [x [Hx Hn]]. apply nth_error_snoc_iff in Hx. destruct Hx as [Hx|[-> ->]]; eauto.
  - intros [[x [Hx Hn]]|[-> Hn]].
    + exists x. split; auto. apply nth_error_snoc_iff; auto.
    + exists r. split; auto. apply nth_error_snoc_iff; auto.
Qed.
Lemma tok_at_lt : forall l i n, tok_at l i n -> (i < length l)%nat.
Proof. intros l i n [r [H _]]. eapply nth_error_lt; eauto. Qed.
Lemma prd_at_lt : forall l i n, prd_at l i n -> (i < length l)%nat.
Proof. intros l i n [r [H _]]. eapply nth_error_lt; eauto. Qed.

Lemma first_prd_snoc : forall l r i name,
  first_prd (l ++ [r]) i name <->
  first_prd l i name \/ (i = length l /\ pr_name r = name /\ forall j, ~ prd_at l j name).
Proof.
  intros l r i name. unfold first_prd. split.
  - intros [H Hf]. rewrite prd_at_snoc in H. destruct H as [H|[-> H]].
    + left. split; auto. intros j Hj X. apply (Hf j Hj). apply prd_at_snoc; auto.
    + right. split; auto. split; auto. intros j X. apply (Hf j); [eapply prd_at_lt; eauto|apply prd_at_snoc; auto].
  - intros [[H Hf]|(-> & H & Hf)].
    + split; [apply prd_at_snoc; auto|]. intros j Hj X. apply prd_at_snoc in X. destruct X as [X|[-> _]].
      * apply (Hf j); auto.
      * apply prd_at_lt in H. lia.
    + split; [apply prd_at_snoc; auto|]. intros j Hj X. apply prd_at_snoc in X. destruct X as [X|[-> _]]; [|lia].
      apply (Hf j X).
Qed.

(** A name with a production has a first one. *)
Lemma first_exists : forall l i name, prd_at l i name -> exists j, first_prd l j name.
Proof.
  induction l as [|r l IH] using rev_ind; intros i name H.
  - apply prd_at_lt in H. simpl in H. lia.
  - apply prd_at_snoc in H. destruct H as [H|[-> H]].
    + destruct (IH i name H) as [j Hj]. exists j. apply first_prd_snoc; auto.
    + assert (D : (exists j, prd_at l j name) \/ forall j, ~ prd_at l j name).
      { clear. induction l as [|r l IH] using rev_ind.
        - right. intros j X. apply prd_at_lt in X. simpl in X. lia.
        - destruct IH as [[j Hj]|Hn]; [left; exists j; apply prd_at_snoc; auto|].
          destruct (string_dec (pr_name r) name) as [E|E].
          + left. exists (length l). apply prd_at_snoc; auto.
          + right. intros j X. apply prd_at_snoc in X. destruct X as [X|[_ X]]; [apply (Hn j X)|congruence]. }
      destruct D as [[j Hj]|Hn].
      * destruct (IH j name Hj) as [k Hk]. exists k. apply first_prd_snoc; auto.
      * exists (length l). apply first_prd_snoc; auto.
Qed.
Lemma first_unique : forall l i j name, first_prd l i name -> first_prd l j name -> i = j.
Proof.
  intros l i j name [H1 F1] [H2 F2]. destruct (lt_eq_lt_dec i j) as [[L|E]|L]; auto.
  - elim (F2 i L H1).
  - elim (F1 j L H2).
Qed.

(** ** Tokens *)

Definition tokens_ok (l : list token_rule) (st : span_map * list (symbol * string)) : Prop :=
  let '(syms, tokens) := st in
  (forall i j name, tok_at l i name -> tok_at l j name -> i = j) /\
  msorted syms /\ msorted tokens /\
  (forall name s id, map_get name syms = Some (s, id) <->
     exists i, tok_at l i name /\ s = Terminal (as_u16 (N.of_nat i)) /\ id = TokenAt i) /\
  (forall s name, In (s, name) tokens -> exists i, tok_at l i name /\ s = Terminal (as_u16 (N.of_nat i))) /\
  (forall i name, tok_at l i name -> In (Terminal (as_u16 (N.of_nat i))) (map fst tokens)) /\
  ((N.of_nat (length l) <= 65536)%N -> forall i name, tok_at l i name -> In (Terminal (N.of_nat i), name) tokens).

Lemma add_tokens_ok : forall l,
  match foldM add_token (enumerate l) ([], []) with
  | Ok st => tokens_ok l st
  | Err e => exists i j name, (i < j)%nat /\ tok_at l i name /\ tok_at l j name /\ e = ConflictingRules [TokenAt i; TokenAt j]
  | _ => False
  end.
Proof.
  induction l as [|r l IH] using rev_ind.
  - simpl. split.
    { intros i j name X. apply tok_at_lt in X. simpl in X. lia. }
    split; [apply msorted_nil|]. split; [apply msorted_nil|]. split.
    { intros name s id. split; [discriminate|]. intros [i [X _]]. apply tok_at_lt in X. simpl in X. lia. }
    split; [intros s name []|]. split.
    { intros i name X. apply tok_at_lt in X. simpl in X. lia. }
    intros _ i name X. apply tok_at_lt in X. simpl in X. lia.
  - rewrite enumerate_snoc, foldM_app.
    destruct (foldM add_token (enumerate l) ([], [])) as [[syms tokens]|e| |]; cbn [bind]; try contradiction.
    + destruct IH as (Hinj & Hs & Ht & Hget & Htok & Hkeys & Hnames). cbn [foldM add_token].
      destruct (map_get (tr_name r) syms) as [[s prev]|] eqn:E.
      * cbn [bind]. apply Hget in E. destruct E as (i & Hi & _ & ->).
        exists i, (length l), (tr_name r). split; [eapply tok_at_lt; eauto|].
        split; [apply tok_at_snoc; auto|]. split; [apply tok_at_snoc; auto|auto].
      * cbn [bind].
        assert (Hnew : forall i, ~ tok_at l i (tr_name r)).
        { intros i Hi. assert (X : map_get (tr_name r) syms = Some (Terminal (as_u16 (N.of_nat i)), TokenAt i)) by (apply Hget; eauto). congruence. }
        split.
        { intros i j name Hi Hj. apply tok_at_snoc in Hi, Hj.
          destruct Hi as [Hi|[-> Hi]], Hj as [Hj|[-> Hj]]; subst; auto.
          - eapply Hinj; eauto.
          - elim (Hnew i); auto.
          - elim (Hnew j); auto. }
        split; [apply map_insert_sorted; auto|]. split; [apply map_insert_sorted; auto|]. split.
        { intros name s id. rewrite map_get_insert by auto. destruct (cmp_dec name (tr_name r)) as [->|Hne].
          - split.
            + intros X. injection X as <- <-. exists (length l). split; auto. apply tok_at_snoc; auto.
            + intros (i & Hi & -> & ->). apply tok_at_snoc in Hi. destruct Hi as [Hi|[-> _]]; auto. elim (Hnew i Hi).
          - rewrite Hget. split; intros (i & Hi & X); exists i; (split; [|exact X]).
            + apply tok_at_snoc; auto.
            + apply tok_at_snoc in Hi. destruct Hi as [Hi|[_ Hi]]; auto. congruence. }
        split.
        { intros s name Hin. apply map_insert_In in Hin; auto. destruct Hin as [[-> ->]|[_ Hin]].
          - exists (length l). split; auto. apply tok_at_snoc; auto.
          - destruct (Htok _ _ Hin) as (i & Hi & ->). exists i. split; auto. apply tok_at_snoc; auto. }
        split.
        { intros i name Hi. apply map_insert_keys. apply tok_at_snoc in Hi. destruct Hi as [Hi|[-> _]]; eauto. }
        { intros Hlen i name Hi. rewrite app_length in Hlen. simpl in Hlen.
          apply map_insert_In; auto. rewrite (as_u16_small (length l)) by lia.
          apply tok_at_snoc in Hi. destruct Hi as [Hi|[-> Hi]]; [|auto].
          right. split; [|apply Hnames; auto; lia]. apply tok_at_lt in Hi. intros X. injection X as X. lia. }
    + destruct IH as (i & j & name & Hij & Hi & Hj & ->). exists i, j, name.
      split; auto. split; [apply tok_at_snoc; auto|]. split; [apply tok_at_snoc; auto|auto].
Qed.

(** ** Productions *)

Definition names_ok (tl : list token_rule) (l : list prod_rule) (st : span_map * list (symbol * string)) : Prop :=
  let '(syms, prods) := st in
  (forall i j name, tok_at tl i name -> ~ prd_at l j name) /\
  msorted syms /\ msorted prods /\
  (forall name s id, map_get name syms = Some (s, id) <->
     (exists i, tok_at tl i name /\ s = Terminal (as_u16 (N.of_nat i)) /\ id = TokenAt i) \/
     (exists i, first_prd l i name /\ s = NonTerminal (as_u16 (N.of_nat i)) /\ id = ProdAt i)) /\
  (forall s name, In (s, name) prods -> exists i, first_prd l i name /\ s = NonTerminal (as_u16 (N.of_nat i))) /\
  (forall i name, first_prd l i name -> In (NonTerminal (as_u16 (N.of_nat i))) (map fst prods)) /\
  ((N.of_nat (length l) <= 65536)%N -> forall i name, first_prd l i name -> In (NonTerminal (N.of_nat i), name) prods).

Lemma add_productions_ok : forall tl syms0 tokens, tokens_ok tl (syms0, tokens) -> forall l,
  match foldM (add_production tokens) (enumerate l) (syms0, []) with
  | Ok st => names_ok tl l st
  | Err e => exists i j name, tok_at tl i name /\ prd_at l j name /\ e = ConflictingRules [TokenAt i; ProdAt j]
  | _ => False
  end.
Proof.
  intros tl syms0 tokens (Tinj & Ts & Tt & Tget & Ttok & Tkeys & _).
  assert (Hno : forall i name, ~ prd_at [] i name) by (intros i name X; apply prd_at_lt in X; simpl in X; lia).
  induction l as [|r l IH] using rev_ind.
  - simpl. split; [intros i j name _; apply Hno|]. split; auto. split; [apply msorted_nil|]. split.
    { intros name s id. rewrite Tget. split; [auto|]. intros [X|[i [[X _] _]]]; auto. elim (Hno _ _ X). }
    split; [intros s name []|]. split.
    { intros i name [X _]. elim (Hno _ _ X). }
    intros _ i name [X _]. elim (Hno _ _ X).
  - rewrite enumerate_snoc, foldM_app.
    destruct (foldM (add_production tokens) (enumerate l) (syms0, [])) as [[syms prods]|e| |]; cbn [bind]; try contradiction.
    + destruct IH as (Hdis & Hs & Hp & Hget & Hprd & Hkeys & Hnames). cbn [foldM add_production].
      destruct (map_get (pr_name r) syms) as [[s prev]|] eqn:E.
      * apply Hget in E. destruct E as [(i & Hi & -> & ->)|(i & Hi & -> & ->)].
        -- assert (M : map_mem (Terminal (as_u16 (N.of_nat i))) tokens = true) by (apply map_mem_In; auto; eapply Tkeys; eauto).
           rewrite M. cbn [bind]. exists i, (length l), (pr_name r). split; auto. split; auto. apply prd_at_snoc; auto.
        -- assert (M : map_mem (NonTerminal (as_u16 (N.of_nat i))) tokens = false).
           { destruct (map_mem (NonTerminal (as_u16 (N.of_nat i))) tokens) eqn:M; auto. apply map_mem_In in M; auto.
             apply in_map_iff in M. destruct M as [[s name] [M1 M2]]. simpl in M1. subst s.
             destruct (Ttok _ _ M2) as (k & _ & X). discriminate. }
           rewrite M. cbn [bind].
           assert (Hold : prd_at l i (pr_name r)) by apply Hi.
           assert (Hsame : forall k name, first_prd (l ++ [r]) k name <-> first_prd l k name).
           { intros k name. rewrite first_prd_snoc. split; [|auto]. intros [X|(_ & <- & X)]; auto. elim (X _ Hold). }
           split.
           { intros a j name Ha Hj. apply prd_at_snoc in Hj. destruct Hj as [Hj|[_ <-]].
             - apply (Hdis a j name Ha Hj).
             - apply (Hdis a i (pr_name r) Ha Hold). }
           split; auto. split; auto. split.
           { intros name s id. rewrite Hget. split; (intros [X|(k & Hk & X)]; [auto|right; exists k; split; [apply Hsame; exact Hk|exact X]]). }
           split.
           { intros s name Hin. destruct (Hprd _ _ Hin) as (k & Hk & X). exists k. split; auto. apply Hsame; auto. }
           split; [intros k name Hk; apply Hsame in Hk; eauto|].
           intros Hlen k name Hk. rewrite app_length in Hlen. simpl in Hlen. apply Hsame in Hk. apply Hnames; auto. lia.
      * cbn [bind].
        assert (Hnot : forall i, ~ tok_at tl i (pr_name r)).
        { intros i Hi. assert (X : map_get (pr_name r) syms = Some (Terminal (as_u16 (N.of_nat i)), TokenAt i)) by (apply Hget; eauto). congruence. }
        assert (Hnew : forall i, ~ prd_at l i (pr_name r)).
        { intros i Hi. destruct (first_exists _ _ _ Hi) as [k Hk].
          assert (X : map_get (pr_name r) syms = Some (NonTerminal (as_u16 (N.of_nat k)), ProdAt k)) by (apply Hget; eauto). congruence. }
        assert (Hfirst : first_prd (l ++ [r]) (length l) (pr_name r)) by (apply first_prd_snoc; auto).
        split.
        { intros a j name Ha Hj. apply prd_at_snoc in Hj. destruct Hj as [Hj|[_ <-]].
          - apply (Hdis a j name Ha Hj).
          - apply (Hnot a Ha). }
        split; [apply map_insert_sorted; auto|]. split; [apply map_insert_sorted; auto|]. split.
        { intros name s id. rewrite map_get_insert by auto. destruct (cmp_dec name (pr_name r)) as [->|Hne].
          - split.
            + intros X. injection X as <- <-. right. exists (length l). auto.
            + intros [(i & Hi & _)|(i & Hi & -> & ->)]; [elim (Hnot i Hi)|].
              rewrite (first_unique _ _ _ _ Hi Hfirst). auto.
          - rewrite Hget. split; (intros [X|(k & Hk & X)]; [auto|right; exists k; split; [|exact X]]).
            + apply first_prd_snoc; auto.
            + apply first_prd_snoc in Hk. destruct Hk as [Hk|(_ & Hk & _)]; auto. congruence. }
        split.
        { intros s name Hin. apply map_insert_In in Hin; auto. destruct Hin as [[-> ->]|[_ Hin]].
          - exists (length l). auto.
          - destruct (Hprd _ _ Hin) as (k & Hk & X). exists k. split; auto. apply first_prd_snoc; auto. }
        split.
        { intros i name Hi. apply map_insert_keys. apply first_prd_snoc in Hi. destruct Hi as [Hi|[-> _]]; eauto. }
        { intros Hlen i name Hi. rewrite app_length in Hlen. simpl in Hlen.
          apply map_insert_In; auto. rewrite (as_u16_small (length l)) by lia.
          apply first_prd_snoc in Hi. destruct Hi as [Hi|(-> & Hi & _)]; [|auto].
          right. split; [|apply Hnames; auto; lia]. destruct Hi as [Hi _]. apply prd_at_lt in Hi. intros X. injection X as X. lia. }
    + destruct IH as (i & j & name & Hi & Hj & ->). exists i, j, name.
      split; auto. split; auto. apply prd_at_snoc; auto.
Qed.

(** ** The initial builder *)

Record start_ok (rs : rule_set) (b : builder) : Prop := {
  so_temp : b_temp b = 0%N;
  so_anon : b_anon b = [];
  so_rules : b_rules b = [];
  so_tinj : forall i j name, token_at rs i name -> token_at rs j name -> i = j;
  so_disj : forall i j name, token_at rs i name -> ~ prod_at rs j name;
  so_get : forall name s, map_get name (b_symbols b) = Some s <->
     (exists i, token_at rs i name /\ s = Terminal (as_u16 (N.of_nat i))) \/
     (exists i, first_prod_at rs i name /\ s = NonTerminal (as_u16 (N.of_nat i)));
  so_max_ub : forall i, introduces rs i -> (as_u16 (N.of_nat i) <= b_max b)%N;
  so_max_in : exists i, introduces rs i /\ b_max b = as_u16 (N.of_nat i);
  so_tsorted : msorted (b_tokens b);
  so_psorted : msorted (b_prods b);
  so_tok : forall s name, In (s, name) (b_tokens b) -> exists i, token_at rs i name /\ s = Terminal (as_u16 (N.of_nat i));
  so_tokkeys : forall i name, token_at rs i name -> In (Terminal (as_u16 (N.of_nat i))) (map fst (b_tokens b));
  so_toknames : (N.of_nat (length (rs_tokens rs)) <= 65536)%N -> forall i name, token_at rs i name -> In (Terminal (N.of_nat i), name) (b_tokens b);
  so_prd : forall s name, In (s, name) (b_prods b) -> exists i, first_prod_at rs i name /\ s = NonTerminal (as_u16 (N.of_nat i));
  so_prdkeys : forall i name, first_prod_at rs i name -> In (NonTerminal (as_u16 (N.of_nat i))) (map fst (b_prods b));
  so_prdnames : (N.of_nat (length (rs_prods rs)) <= 65536)%N -> forall i name, first_prod_at rs i name -> In (NonTerminal (N.of_nat i), name) (b_prods b)
}.

Lemma map_get_map : forall K `{Cmp K} V W (f : V -> W) (m : list (K * V)) k,
  map_get k (map (fun e => (fst e, f (snd e))) m) = option_map f (map_get k m).
Proof.
  intros K C V W f m k. induction m as [|[k1 v] m IH]; simpl; auto. destruct (cmp k k1); auto.
Qed.

Lemma fold_max_ub : forall l a x, (x = a \/ In x l) -> (x <= fold_left N.max l a)%N.
Proof.
  induction l as [|y l IH]; intros a x H; simpl in *.
  - destruct H as [->|[]]. lia.
  - destruct H as [->|[->|H]].
    + etransitivity; [|apply IH; left; reflexivity]. lia.
    + etransitivity; [|apply IH; left; reflexivity]. lia.
    + apply IH; auto.
Qed.
Lemma fold_max_in : forall l a, fold_left N.max l a = a \/ In (fold_left N.max l a) l.
Proof.
  induction l as [|y l IH]; intros a; simpl; auto.
  destruct (IH (N.max a y)) as [E|E]; auto. rewrite E.
  destruct (N.max_spec a y) as [[_ ->]|[_ ->]]; auto.
Qed.

Lemma builder_start : forall rs,
  match builder_from_rule_set rs with
  | Ok b => start_ok rs b /\ (rs_tokens rs <> [] \/ rs_prods rs <> [])
  | Err e => exists x y, clash rs x y /\ e = ConflictingRules [x; y]
  | Panic => rs_tokens rs = [] /\ rs_prods rs = []
  | OutOfFuel => False
  end.
Proof.
  intros rs. unfold builder_from_rule_set.
  pose proof (add_tokens_ok (rs_tokens rs)) as HT.
  destruct (foldM add_token (enumerate (rs_tokens rs)) ([], [])) as [[syms0 tokens]|e| |]; cbn [bind]; try contradiction.
  2:{ destruct HT as (i & j & name & Hij & Hi & Hj & ->). exists (TokenAt i), (TokenAt j). split; auto.
      split; auto. exists name. auto. }
  pose proof (add_productions_ok _ _ _ HT (rs_prods rs)) as HP.
  destruct (foldM (add_production tokens) (enumerate (rs_prods rs)) (syms0, [])) as [[syms prods]|e| |]; cbn [bind]; try contradiction.
  2:{ destruct HP as (i & j & name & Hi & Hj & ->). exists (TokenAt i), (ProdAt j). split; auto. exists name. auto. }
  destruct HT as (Tinj & Ts & Tt & Tget & Ttok & Tkeys & Tnames).
  destruct HP as (Hdis & Hs & Hp & Hget & Hprd & Hkeys & Hnames).
  assert (Hidx : forall k, In k (map (fun e => symbol_index (fst (snd e))) syms) <-> exists i, introduces rs i /\ k = as_u16 (N.of_nat i)).
  { intros k. rewrite in_map_iff. split.
    - intros [[name [s id]] [<- Hin]]. apply map_get_In in Hin; auto. apply Hget in Hin.
      destruct Hin as [(i & Hi & -> & _)|(i & Hi & -> & _)]; exists i; (split; [|auto]).
      + left. exists name. auto.
      + right. exists name. auto.
    - intros (i & [[name Hi]|[name Hi]] & ->).
      + exists (name, (Terminal (as_u16 (N.of_nat i)), TokenAt i)). split; auto. apply map_get_In; auto. apply Hget. left. exists i. auto.
      + exists (name, (NonTerminal (as_u16 (N.of_nat i)), ProdAt i)). split; auto. apply map_get_In; auto. apply Hget. right. exists i. auto. }
  unfold max_index. destruct (map (fun e => symbol_index (fst (snd e))) syms) as [|k ks] eqn:Em; cbn [bind].
  - assert (Hnone : forall i, ~ introduces rs i) by (intros i Hi; destruct (Hidx (as_u16 (N.of_nat i))) as [_ X]; destruct X; eauto).
    split.
    + destruct (rs_tokens rs) as [|r l] eqn:E; auto. exfalso. apply (Hnone O). left. exists (tr_name r). exists r. rewrite E. auto.
    + destruct (rs_prods rs) as [|r l] eqn:E; auto. exfalso. apply (Hnone O). right. exists (pr_name r). split.
      * exists r. rewrite E. auto.
      * intros j Hj. lia.
  - split.
    2:{ destruct (Hidx k) as [X _]. destruct X as [i [Hi _]]; [left; auto|].
        destruct Hi as [[name [r [Hr _]]]|[name [[r [Hr _]] _]]].
        - left. intros E. rewrite E in Hr. destruct i; discriminate.
        - right. intros E. rewrite E in Hr. destruct i; discriminate. }
    constructor; cbn [b_temp b_anon b_rules b_symbols b_max b_tokens b_prods]; auto.
    + intros name s. rewrite (map_get_map _ _ _ fst).
      destruct (map_get name syms) as [[s0 id]|] eqn:E; simpl.
      * pose proof (proj1 (Hget _ _ _) E) as Hg. split.
        -- intros X. injection X as <-. destruct Hg as [(i & Hi & -> & _)|(i & Hi & -> & _)]; eauto.
        -- intros H. assert (X : exists id', map_get name syms = Some (s, id')).
           { destruct H as [(i & Hi & ->)|(i & Hi & ->)]; eexists; apply Hget; eauto. }
           destruct X as [id' X]. congruence.
      * split; [discriminate|]. intros H. assert (X : exists id', map_get name syms = Some (s, id')).
        { destruct H as [(i & Hi & ->)|(i & Hi & ->)]; eexists; apply Hget; eauto. }
        destruct X as [id' X]. congruence.
    + intros i Hi. apply fold_max_ub. assert (X : In (as_u16 (N.of_nat i)) (k :: ks)) by (apply Hidx; eauto).
      destruct X as [<-|X]; auto.
    + assert (X : In (fold_left N.max ks k) (k :: ks)) by (destruct (fold_max_in ks k) as [->|X]; simpl; auto).
      apply Hidx in X. destruct X as (i & Hi & E). eauto.
Qed.

Lemma clash_none : forall rs b, start_ok rs b -> forall x y, ~ clash rs x y.
Proof.
  intros rs b Hb [i|i] [j|j] H; simpl in H; try contradiction.
  - destruct H as (Hlt & name & Hi & Hj). pose proof (so_tinj _ _ Hb _ _ _ Hi Hj). lia.
  - destruct H as (name & Hi & Hj). apply (so_disj _ _ Hb _ _ _ Hi Hj).
Qed.
