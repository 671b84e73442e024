(** Proofs about variants of enumerations and visitor methods. *)
From Coq Require Import String Ascii List Arith NArith Bool Lia DecimalString DecimalN Permutation FinFun.
From Verif Require Import Base InputModel GrammarModel GrammarSpec GrammarNamesProof GrammarBuildProof GrammarFactsProof NamesModel NamesSpec NamesProof.
Import ListNotations.
Local Open Scope nat_scope.
Local Open Scope list_scope.

(** ** Lists *)

Lemma res_list_map : forall E A B (f : A -> res E B) h l, (forall a, In a l -> f a = Ok (h a)) -> res_list (map f l) = Ok (map h l).
Proof.
  induction l as [|a l IH]; intros H; cbn [map res_list]; [reflexivity|]. rewrite (H a (or_introl eq_refl)). cbn [bind]. rewrite IH; [reflexivity|]. intros b Hb. apply H. right. exact Hb.
Qed.

Lemma res_list_panic : forall E A B (f : A -> res E B) h l, (forall a, In a l -> f a = Ok (h a) \/ f a = Panic) ->
  (res_list (map f l) = Panic <-> exists a, In a l /\ f a = Panic) /\ ((forall a, In a l -> f a <> Panic) -> res_list (map f l) = Ok (map h l)).
Proof.
  induction l as [|a l IH]; intros H.
  - split; [|reflexivity]. split; [discriminate|]. intros (a & [] & _).
  - destruct (IH (fun b Hb => H b (or_intror Hb))) as [IA IB]. cbn [map res_list]. destruct (H a (or_introl eq_refl)) as [Ha|Ha]; rewrite Ha; cbn [bind].
    + split.
      * transitivity (res_list (map f l) = Panic).
        -- destruct (res_list (map f l)); cbn; split; intros X; congruence.
        -- rewrite IA. split; intros (b & Hb & X); [exists b; split; [right; exact Hb|exact X]|]. destruct Hb as [->|Hb]; [congruence|eauto].
      * intros X. rewrite IB; [reflexivity|]. intros b Hb. apply X. right. exact Hb.
    + split; [|intros X; exfalso; apply (X a (or_introl eq_refl)); exact Ha]. split; [|reflexivity]. intros _. exists a. split; [left; reflexivity|exact Ha].
Qed.

Lemma nodup_map_inj : forall A B (f : A -> B) l, NoDup l -> (NoDup (map f l) <-> forall a b, In a l -> In b l -> f a = f b -> a = b).
Proof.
  intros A B f l. induction l as [|x l IH]; intros H; cbn [map].
  - split; [intros _ a b []|constructor].
  - inversion H as [|? ? Hx Hl]; subst. rewrite NoDup_cons_iff, (IH Hl). split.
    + intros [X Y] a b [<-|Ha] [<-|Hb] E; auto.
      * exfalso. apply X. rewrite E. apply in_map. exact Hb.
      * exfalso. apply X. rewrite <- E. apply in_map. exact Ha.
    + intros X. split; [|intros a b Ha Hb; apply X; right; assumption]. intros Y. apply in_map_iff in Y. destruct Y as (y & E & Hy).
      apply Hx. rewrite (X x y (or_introl eq_refl) (or_intror Hy) (eq_sym E)). exact Hy.
Qed.

Lemma nodup_app_iff : forall A (l m : list A), NoDup (l ++ m) <-> NoDup l /\ NoDup m /\ forall x, In x l -> ~ In x m.
Proof.
  induction l as [|a l IH]; intros m; cbn [app].
  - split; [intros H; split; [constructor|split; [exact H|intros x []]]|tauto].
  - rewrite !NoDup_cons_iff, IH, in_app_iff. split.
    + intros (X & Y & Z & W). split; [split; tauto|]. split; [exact Z|]. intros x [<-|Hx]; [tauto|apply W; exact Hx].
    + intros ((X & Y) & Z & W). split; [|split; [exact Y|split; [exact Z|]]].
      * intros [K|K]; [tauto|]. exact (W a (or_introl eq_refl) K).
      * intros x Hx. apply W. right. exact Hx.
Qed.

Lemma nodup_concat_map : forall A B (f : A -> list B) l, NoDup l ->
  (NoDup (concat (map f l)) <-> (forall a, In a l -> NoDup (f a)) /\ (forall a b x, In a l -> In b l -> In x (f a) -> In x (f b) -> a = b)).
Proof.
  intros A B f l. induction l as [|y l IH]; intros H; cbn [map concat].
  - split; [intros _; split; [intros a []|intros a b x []]|constructor].
  - inversion H as [|? ? Hy Hl]; subst. rewrite nodup_app_iff, (IH Hl). clear IH. split.
    + intros (X & (Y & Z) & W). split.
      * intros a [<-|Ha]; auto.
      * intros a b x [<-|Ha] [<-|Hb] I J; eauto.
        -- exfalso. apply (W x I). apply in_concat. exists (f b). split; [apply in_map; exact Hb|exact J].
        -- exfalso. apply (W x J). apply in_concat. exists (f a). split; [apply in_map; exact Ha|exact I].
    + intros (X & Y). split; [apply X; left; reflexivity|]. split; [split|].
      * intros a Ha. apply X. right. exact Ha.
      * intros a b x Ha Hb. apply Y; right; assumption.
      * intros x I J. apply in_concat in J. destruct J as (m & J & K). apply in_map_iff in J. destruct J as (b & <- & Hb).
        apply Hy. rewrite (Y y b x (or_introl eq_refl) (or_intror Hb) I K). exact Hb.
Qed.

Lemma enumerate_from_combine : forall A (l : list A) j, enumerate_from j l = combine (seq j (length l)) l.
Proof. induction l as [|a l IH]; intros j; cbn; [reflexivity|]. rewrite IH. reflexivity. Qed.
Lemma enumerate_combine : forall A (l : list A), enumerate l = combine (seq 0 (length l)) l.
Proof. intros. apply enumerate_from_combine. Qed.
Lemma map_fst_combine : forall A B (l : list A) (m : list B), length l = length m -> map fst (combine l m) = l.
Proof. induction l as [|a l IH]; intros [|b m] H; cbn in *; try discriminate; [reflexivity|]. f_equal. apply IH. lia. Qed.
Lemma map_snd_combine : forall A B (l : list A) (m : list B), length l = length m -> map snd (combine l m) = m.
Proof. induction l as [|a l IH]; intros [|b m] H; cbn in *; try discriminate; [reflexivity|]. f_equal. apply IH. lia. Qed.
Lemma combine_seq_S : forall A (l : list A) j, combine (seq (S j) (length l)) l = map (fun e => (S (fst e), snd e)) (combine (seq j (length l)) l).
Proof. induction l as [|a l IH]; intros j; cbn; [reflexivity|]. f_equal. apply IH. Qed.

(** ** Strings *)

Lemma append_nil : forall s : string, (s ++ "")%string = s.
Proof. induction s as [|c s IH]; cbn; [reflexivity|]. rewrite IH. reflexivity. Qed.
Lemma append_assoc : forall a b c : string, ((a ++ b) ++ c = a ++ (b ++ c))%string.
Proof. induction a as [|x a IH]; intros; cbn; [reflexivity|]. rewrite IH. reflexivity. Qed.
Lemma append_inj : forall a b c : string, (a ++ b = a ++ c)%string -> b = c.
Proof. induction a as [|x a IH]; intros b c H; cbn in H; [exact H|]. injection H as H. exact (IH _ _ H). Qed.
Lemma all_chars_app : forall P a b, all_chars P (a ++ b) <-> all_chars P a /\ all_chars P b.
Proof. induction a as [|x a IH]; intros b; cbn; [tauto|]. rewrite IH. tauto. Qed.
Lemma all_chars_impl : forall (P Q : ascii -> Prop) s, (forall c, P c -> Q c) -> all_chars P s -> all_chars Q s.
Proof. intros P Q. induction s as [|x s IH]; intros H X; cbn in *; [exact I|]. destruct X as [X Y]. split; [exact (H _ X)|exact (IH H Y)]. Qed.

Lemma last_underscore : forall a b l k : string, no_underscore l -> no_underscore k -> (a ++ "_" ++ l = b ++ "_" ++ k)%string -> a = b /\ l = k.
Proof.
  induction a as [|x a IH]; intros b l k Hl Hk E.
  - destruct b as [|y b]; cbn in E; [injection E as E; auto|]. injection E as <- E. exfalso. subst l. apply all_chars_app in Hl. destruct Hl as [_ [Hl _]]. apply Hl. reflexivity.
  - destruct b as [|y b]; cbn in E.
    + injection E as -> E. exfalso. subst k. apply all_chars_app in Hk. destruct Hk as [_ [Hk _]]. apply Hk. reflexivity.
    + injection E as -> E. destruct (IH _ _ _ Hl Hk E) as [-> ->]. auto.
Qed.

Lemma decimal_digits : forall n, all_chars digit (decimal n).
Proof. intros n. unfold decimal. generalize (N.to_uint n). induction u; cbn; auto; split; auto; unfold digit; cbn; lia. Qed.
Lemma decimal_inj : forall n m, decimal n = decimal m -> n = m.
Proof.
  intros n m H. unfold decimal in H. assert (X : Some (N.to_uint n) = Some (N.to_uint m)) by (rewrite <- !NilEmpty.usu, H; reflexivity).
  injection X as X. rewrite <- (Unsigned.of_to n), <- (Unsigned.of_to m), X. reflexivity.
Qed.
Lemma decimal_nonempty : forall n, decimal n <> ""%string.
Proof.
  intros n H. assert (X : Some (N.to_uint n) = Some Decimal.Nil) by (rewrite <- NilEmpty.usu; unfold decimal in H; rewrite H; reflexivity).
  injection X as X. assert (n = 0%N) as -> by (rewrite <- (Unsigned.of_to n), X; reflexivity). discriminate.
Qed.
Lemma digit_not_underscore : forall c, digit c -> c <> "_"%char.
Proof. intros c [A B] ->. cbn in *. lia. Qed.
Lemma digit_ascii : forall c, digit c -> (N_of_ascii c < 128)%N.
Proof. intros c [A B]. lia. Qed.
Lemma digit_lower : forall c, digit c -> ascii_lower c = c.
Proof. intros c [A B]. unfold ascii_lower, is_upper. destruct (N.leb_spec 65 (N_of_ascii c)); [lia|reflexivity]. Qed.
Lemma digit_upper : forall c, digit c -> ascii_upper c = c.
Proof. intros c [A B]. unfold ascii_upper, is_lower. destruct (N.leb_spec 97 (N_of_ascii c)); [lia|reflexivity]. Qed.
Lemma decimal_no_underscore : forall n, no_underscore (decimal n).
Proof. intros n. exact (all_chars_impl _ _ _ digit_not_underscore (decimal_digits n)). Qed.
Lemma anon_ascii : forall n, ascii_name ("anon" ++ decimal n).
Proof. intros n. apply all_chars_app. split; [cbn; lia|]. exact (all_chars_impl _ _ _ digit_ascii (decimal_digits n)). Qed.

Lemma camel_digits : forall s, all_chars digit s -> camel_from false s = Some s.
Proof.
  induction s as [|c s IH]; intros H; cbn [camel_from]; [reflexivity|]. destruct H as [Hc H]. destruct (Ascii.eqb_spec c "_") as [->|_]; [destruct (digit_not_underscore _ Hc eq_refl)|].
  rewrite (IH H), (digit_lower _ Hc). reflexivity.
Qed.
Lemma anon_camel : forall n, convert_snake_to_upper_camel ("anon" ++ decimal n) = Ok ("Anon" ++ decimal n)%string.
Proof.
  intros n. rewrite (proj2 (camel_auto _ (anon_ascii n))). cbn [append camel_from Ascii.eqb Bool.eqb]. rewrite (camel_digits _ (decimal_digits n)). reflexivity.
Qed.
Lemma anon_upper : forall n, string_map ascii_upper ("anon" ++ decimal n) = ("ANON" ++ decimal n)%string.
Proof.
  intros n. cbn. do 4 f_equal. generalize (decimal_digits n). generalize (decimal n). induction s as [|c s IH]; intros H; cbn; [reflexivity|].
  destruct H as [Hc H]. rewrite (digit_upper _ Hc), (IH H). reflexivity.
Qed.

(** ** Names of non-terminals *)

Definition nm (g : grammar) (s : symbol) : string :=
  match s with NonTerminal i => match map_get s (g_prods g) with Some n => n | None => ("anon" ++ decimal i)%string end | _ => ""%string end.

Lemma prods_sorted : forall rs g, from_rule_set rs = Ok g -> msorted (g_prods g).
Proof.
  intros rs g H. destruct (from_rule_set_built _ _ H) as (b & als & [Hs (b' & B & Er & Et & Ep & Ea & Hrun) _]). rewrite Ep. exact (so_psorted _ _ Hs).
Qed.

Lemma named_nm : forall rs g, from_rule_set rs = Ok g -> forall i n, named g i n <-> n = nm g (NonTerminal i).
Proof.
  intros rs g H i n. pose proof (prods_sorted _ _ H) as S. unfold named, nm. destruct (map_get (NonTerminal i) (g_prods g)) as [m|] eqn:E.
  - apply (proj1 (map_get_In _ _ _ S)) in E. split.
    + intros [X|[X _]].
      * apply (proj2 (map_get_In _ _ _ S)) in X. apply (proj2 (map_get_In _ _ _ S)) in E. congruence.
      * exfalso. apply X. apply in_map_iff. exists (NonTerminal i, m). auto.
    + intros ->. left. exact E.
  - apply (proj1 (map_get_None _ _ S)) in E. split.
    + intros [X|[_ X]]; [|exact X]. exfalso. apply E. apply in_map_iff. exists (NonTerminal i, n). auto.
    + intros ->. right. auto.
Qed.

Lemma name_nm : forall g i, get_non_terminal_name g (NonTerminal i) = Ok (nm g (NonTerminal i)).
Proof. intros g i. unfold get_non_terminal_name, get_production_name, nm. destruct (map_get (NonTerminal i) (g_prods g)); reflexivity. Qed.

(** ** Variants *)

Lemma enum_name_nm : forall g i, get_non_terminal_enum_name g (NonTerminal i) = do s <- convert_snake_to_upper_camel (nm g (NonTerminal i)); Ok ("Nt" ++ s)%string.
Proof.
  intros g i. unfold get_non_terminal_enum_name, get_production_name, nm. destruct (map_get (NonTerminal i) (g_prods g)); [reflexivity|]. rewrite anon_camel. reflexivity.
Qed.
Lemma cpp_enum_name_nm : forall g i, cpp_non_terminal_enum_name g (NonTerminal i) = Ok ("NT_" ++ string_map ascii_upper (nm g (NonTerminal i)))%string.
Proof.
  intros g i. unfold cpp_non_terminal_enum_name, get_production_name, nm. destruct (map_get (NonTerminal i) (g_prods g)); [reflexivity|]. rewrite anon_upper. reflexivity.
Qed.

Definition camelled (s : string) : string := match convert_snake_to_upper_camel s with Ok x => x | _ => ""%string end.
Lemma camel_cases : forall s, ascii_name s -> convert_snake_to_upper_camel s = Ok (camelled s) \/ convert_snake_to_upper_camel s = Panic.
Proof. intros s H. unfold camelled. rewrite (proj2 (camel_auto s H)). destruct (camel_from true s); cbn; auto. Qed.

Lemma nt_names_ascii : forall rs g, from_rule_set rs = Ok g -> (forall p, In p (rs_prods rs) -> ascii_name (pr_name p)) -> forall s, In s (non_terminals g) -> ascii_name (nm g s).
Proof.
  intros rs g H A s Hs. pose proof (prods_sorted _ _ H) as S. destruct (wf_nts g (grammar_wf _ _ H) s Hs) as [i ->]. unfold nm.
  destruct (map_get (NonTerminal i) (g_prods g)) as [n|] eqn:E; [|apply anon_ascii]. apply (proj1 (map_get_In _ _ _ S)) in E.
  destruct (from_rule_set_built _ _ H) as (b & als & [Hst (b' & B & Er & Et & Ep & Ea & Hrun) _]). rewrite Ep in E. destruct (so_prd _ _ Hst _ _ E) as (k & [(p & Hp & <-) _] & _).
  apply A. eapply nth_error_In. exact Hp.
Qed.

Lemma nts_nodup : forall rs g, from_rule_set rs = Ok g -> NoDup (non_terminals g).
Proof.
  intros rs g H. pose proof (wf_symbols g (grammar_wf _ _ H)) as X. unfold all_symbols in X. apply nodup_app_iff in X. tauto.
Qed.

Lemma token_variants : forall names, (forall n, In n names -> ascii_name n) ->
  (rust_token_variants names = Panic <-> exists n, In n names /\ empty_segment n) /\
  ((forall n, In n names -> ~ empty_segment n) -> exists vs, rust_token_variants names = Ok vs /\ (NoDup vs <-> NoDup (map kept names))).
Proof.
  intros names A. assert (C : forall n, In n names -> get_token_enum_name n = Ok ("Tk" ++ camelled n)%string \/ get_token_enum_name n = Panic).
  { intros n Hn. unfold get_token_enum_name. destruct (camel_cases n (A n Hn)) as [E|E]; rewrite E; cbn; auto. }
  assert (P : forall n, In n names -> (get_token_enum_name n = Panic <-> empty_segment n)).
  { intros n Hn. rewrite <- (proj1 (camel_panics n (A n Hn))). unfold get_token_enum_name. destruct (camel_cases n (A n Hn)) as [E|E]; rewrite E; cbn; split; intros X; congruence. }
  destruct (res_list_panic _ _ _ get_token_enum_name _ names C) as [PA PB]. unfold rust_token_variants. split.
  - transitivity (res_list (map get_token_enum_name names) = Panic).
    + destruct (res_list (map get_token_enum_name names)); cbn; split; intros X; congruence.
    + rewrite PA. split; intros (n & Hn & X); exists n; split; auto; apply (P n Hn); exact X.
  - intros X. rewrite PB by (intros n Hn K; apply (P n Hn) in K; exact (X n Hn K)). cbn [bind]. eexists. split; [reflexivity|].
    rewrite NoDup_cons_iff. transitivity (NoDup (map (fun a => ("Tk" ++ camelled a)%string) names)).
    + split; [tauto|]. intros Y. split; [|exact Y]. intros Z. apply in_map_iff in Z. destruct Z as (z & Z & _). discriminate.
    + assert (I : forall a b, In a names -> In b names -> (("Tk" ++ camelled a)%string = ("Tk" ++ camelled b)%string <-> kept a = kept b)).
      { intros a b Ha Hb. destruct (camel_cases a (A a Ha)) as [Ea|Ea]; [|destruct (X a Ha); apply (proj1 (camel_panics a (A a Ha))); exact Ea].
        destruct (camel_cases b (A b Hb)) as [Eb|Eb]; [|destruct (X b Hb); apply (proj1 (camel_panics b (A b Hb))); exact Eb].
        rewrite <- (camel_collisions a b _ _ (A a Ha) (A b Hb) Ea Eb). split; [intros Y; injection Y as Y; exact Y|intros ->; reflexivity]. }
      clear - I. induction names as [|n l IH]; cbn [map]; [split; constructor|]. rewrite !NoDup_cons_iff, !in_map_iff. rewrite IH by (intros a b Ha Hb; apply I; right; assumption).
      assert (Y : (exists x, ("Tk" ++ camelled x)%string = ("Tk" ++ camelled n)%string /\ In x l) <-> (exists x, kept x = kept n /\ In x l)).
      { split; intros (x & E & Hx); exists x; (split; [|exact Hx]); apply (I x n (or_intror Hx) (or_introl eq_refl)); exact E. }
      rewrite Y. reflexivity.
Qed.

Lemma non_terminal_variants : forall rs g, from_rule_set rs = Ok g -> (forall p, In p (rs_prods rs) -> ascii_name (pr_name p)) ->
  (rust_non_terminal_variants g = Panic <-> exists i n, In (NonTerminal i, n) (g_prods g) /\ empty_segment n) /\
  ((forall i n, In (NonTerminal i, n) (g_prods g) -> ~ empty_segment n) ->
   exists vs, rust_non_terminal_variants g = Ok vs /\
   (NoDup vs <-> forall i j n m, In (NonTerminal i) (non_terminals g) -> In (NonTerminal j) (non_terminals g) -> named g i n -> named g j m -> kept n = kept m -> i = j)).
Proof.
  intros rs g H A. pose proof (nt_names_ascii _ _ H A) as AN. pose proof (wf_nts g (grammar_wf _ _ H)) as NT. pose proof (prods_sorted _ _ H) as S.
  assert (C : forall s, In s (non_terminals g) -> get_non_terminal_enum_name g s = Ok ("Nt" ++ camelled (nm g s))%string \/ get_non_terminal_enum_name g s = Panic).
  { intros s Hs. destruct (NT s Hs) as [i ->]. rewrite enum_name_nm. destruct (camel_cases _ (AN _ Hs)) as [E|E]; rewrite E; cbn; auto. }
  assert (P : forall s, In s (non_terminals g) -> (get_non_terminal_enum_name g s = Panic <-> empty_segment (nm g s))).
  { intros s Hs. rewrite <- (proj1 (camel_panics _ (AN _ Hs))). destruct (NT s Hs) as [i ->]. rewrite enum_name_nm. destruct (camel_cases _ (AN _ Hs)) as [E|E]; rewrite E; cbn; split; intros X; congruence. }
  assert (Q : forall s, In s (non_terminals g) -> empty_segment (nm g s) -> exists i n, In (NonTerminal i, n) (g_prods g) /\ empty_segment n).
  { intros s Hs X. destruct (NT s Hs) as [i ->]. unfold nm in X. destruct (map_get (NonTerminal i) (g_prods g)) as [n|] eqn:E.
    - apply (proj1 (map_get_In _ _ _ S)) in E. eauto.
    - apply (proj1 (camel_panics _ (anon_ascii i))) in X. rewrite anon_camel in X. discriminate. }
  assert (R : forall i n, In (NonTerminal i, n) (g_prods g) -> In (NonTerminal i) (non_terminals g) /\ nm g (NonTerminal i) = n).
  { intros i n X. split; [apply in_or_app; left; apply in_map_iff; exists (NonTerminal i, n); auto|]. symmetry. apply (named_nm _ _ H). left. exact X. }
  destruct (res_list_panic _ _ _ (get_non_terminal_enum_name g) _ (non_terminals g) C) as [PA PB]. unfold rust_non_terminal_variants. split.
  - rewrite PA. split.
    + intros (s & Hs & X). apply (Q s Hs). apply (P s Hs). exact X.
    + intros (i & n & X & Y). destruct (R i n X) as [R1 R2]. exists (NonTerminal i). split; [exact R1|]. apply (P _ R1). rewrite R2. exact Y.
  - intros X. assert (X' : forall s, In s (non_terminals g) -> ~ empty_segment (nm g s)).
    { intros s Hs Y. destruct (Q s Hs Y) as (i & n & K & L). exact (X i n K L). }
    rewrite PB by (intros s Hs K; apply (P s Hs) in K; exact (X' s Hs K)). eexists. split; [reflexivity|]. rewrite (nodup_map_inj _ _ _ _ (nts_nodup _ _ H)).
    assert (Z : forall a b, In a (non_terminals g) -> In b (non_terminals g) -> (("Nt" ++ camelled (nm g a))%string = ("Nt" ++ camelled (nm g b))%string <-> kept (nm g a) = kept (nm g b))).
    { intros a b Ha Hb. destruct (camel_cases _ (AN a Ha)) as [Ea|Ea]; [|destruct (X' a Ha); apply (proj1 (camel_panics _ (AN a Ha))); exact Ea].
      destruct (camel_cases _ (AN b Hb)) as [Eb|Eb]; [|destruct (X' b Hb); apply (proj1 (camel_panics _ (AN b Hb))); exact Eb].
      rewrite <- (camel_collisions _ _ _ _ (AN a Ha) (AN b Hb) Ea Eb). split; [intros Y; injection Y as Y; exact Y|intros ->; reflexivity]. }
    split.
    + intros Y i j n m Hi Hj Hn Hm E. apply (named_nm _ _ H) in Hn. apply (named_nm _ _ H) in Hm. subst n m. apply (Z _ _ Hi Hj) in E. specialize (Y _ _ Hi Hj E). congruence.
    + intros Y a b Ha Hb E. apply (Z _ _ Ha Hb) in E. destruct (NT a Ha) as [i ->]. destruct (NT b Hb) as [j ->]. f_equal.
      apply (Y i j (nm g (NonTerminal i)) (nm g (NonTerminal j)) Ha Hb); [apply (named_nm _ _ H); reflexivity|apply (named_nm _ _ H); reflexivity|exact E].
Qed.

Lemma upper_eq_lower : forall a b, ascii_upper a = ascii_upper b <-> ascii_lower a = ascii_lower b.
Proof. intros a b. split; intros E; [rewrite <- (lower_upper a), <- (lower_upper b), E|rewrite <- (upper_lower a), <- (upper_lower b), E]; reflexivity. Qed.
Lemma map_upper_lower : forall a b, string_map ascii_upper a = string_map ascii_upper b <-> string_map ascii_lower a = string_map ascii_lower b.
Proof.
  induction a as [|x a IH]; intros [|y b]; cbn; try (split; intros; discriminate); [tauto|]. split; intros E; injection E as E1 E2; apply upper_eq_lower in E1; apply IH in E2; congruence.
Qed.

Lemma cpp_variants : forall rs g, from_rule_set rs = Ok g -> exists vs, cpp_non_terminal_variants g = Ok vs /\
  (NoDup vs <-> forall i j n m, In (NonTerminal i) (non_terminals g) -> In (NonTerminal j) (non_terminals g) -> named g i n -> named g j m ->
                string_map ascii_lower n = string_map ascii_lower m -> i = j).
Proof.
  intros rs g H. pose proof (wf_nts g (grammar_wf _ _ H)) as NT. unfold cpp_non_terminal_variants.
  rewrite (res_list_map _ _ _ _ (fun s => ("NT_" ++ string_map ascii_upper (nm g s))%string)).
  2: { intros s Hs. destruct (NT s Hs) as [i ->]. apply cpp_enum_name_nm. }
  eexists. split; [reflexivity|]. rewrite (nodup_map_inj _ _ _ _ (nts_nodup _ _ H)). split.
  - intros Y i j n m Hi Hj Hn Hm E. apply (named_nm _ _ H) in Hn. apply (named_nm _ _ H) in Hm. subst n m. apply map_upper_lower in E.
    assert (Z : NonTerminal i = NonTerminal j) by (apply (Y _ _ Hi Hj); rewrite E; reflexivity). congruence.
  - intros Y a b Ha Hb E. injection E as E. apply map_upper_lower in E. destruct (NT a Ha) as [i ->]. destruct (NT b Hb) as [j ->]. f_equal.
    apply (Y i j (nm g (NonTerminal i)) (nm g (NonTerminal j)) Ha Hb); [apply (named_nm _ _ H); reflexivity|apply (named_nm _ _ H); reflexivity|exact E].
Qed.

(** ** Rules of a non-terminal *)

Definition of_lhs (i : N) (e : nat * rule) : bool := match r_lhs (snd e) with Some j => N.eqb j i | None => false end.
Definition nonempty_list {A} (l : list A) : option (list A) := match l with [] => None | _ => Some l end.

Lemma add_rules : forall es m done,
  msorted m -> (forall k l, In (k, l) m -> exists i, k = NonTerminal i) -> (forall i, map_get (NonTerminal i) m = nonempty_list (filter (of_lhs i) done)) ->
  let m' := fold_left add_rule es m in
  msorted m' /\ (forall k l, In (k, l) m' -> exists i, k = NonTerminal i) /\ (forall i, map_get (NonTerminal i) m' = nonempty_list (filter (of_lhs i) (done ++ es))).
Proof.
  induction es as [|e es IH]; intros m done S K G; cbn [fold_left].
  - rewrite app_nil_r. auto.
  - replace (done ++ e :: es) with ((done ++ [e]) ++ es) by (rewrite <- app_assoc; reflexivity). apply IH; unfold add_rule; destruct (r_lhs (snd e)) as [j|] eqn:E; auto.
    + apply map_insert_sorted. exact S.
    + intros k l X. apply map_insert_In in X; [|exact S]. destruct X as [[-> _]|[_ X]]; eauto.
    + intros i. rewrite map_get_insert by exact S. rewrite filter_app. cbn [filter]. unfold of_lhs at 2. rewrite E. destruct (cmp_dec (NonTerminal i) (NonTerminal j)) as [X|X].
      * injection X as ->. rewrite N.eqb_refl, (G j). destruct (filter (of_lhs j) done); reflexivity.
      * destruct (N.eqb_spec j i) as [->|_]; [congruence|]. rewrite app_nil_r. apply G.
    + intros i. rewrite filter_app. cbn [filter]. unfold of_lhs at 2. rewrite E, app_nil_r. apply G.
Qed.

Lemma rules_by_spec : forall g, msorted (rules_by_non_terminal g) /\
  (forall i, map_get (NonTerminal i) (rules_by_non_terminal g) = nonempty_list (rules_of g i)) /\
  (forall k l, In (k, l) (rules_by_non_terminal g) <-> exists i, k = NonTerminal i /\ l = rules_of g i /\ l <> []).
Proof.
  intros g. destruct (add_rules (enumerate (g_rules g)) [] [] msorted_nil (fun k l (X : In (k, l) []) => match X with end) (fun i => eq_refl)) as (S & K & G).
  change (fold_left add_rule (enumerate (g_rules g)) []) with (rules_by_non_terminal g) in *. cbn [app] in G. rewrite enumerate_combine in G. split; [exact S|]. split; [exact G|].
  intros k l. split.
  - intros X. destruct (K k l X) as [i ->]. apply (proj2 (map_get_In _ _ _ S)) in X. rewrite G in X. exists i. unfold rules_of. unfold of_lhs in X.
    destruct (filter _ _) as [|a l']; [discriminate|]. injection X as <-. repeat split. discriminate.
  - intros (i & -> & -> & X). apply (proj1 (map_get_In _ _ _ S)). rewrite G. unfold rules_of in *. unfold of_lhs. destruct (filter _ _); [congruence|reflexivity].
Qed.

Lemma rules_of_In : forall g i k r, In (k, r) (rules_of g i) <-> nth_error (g_rules g) k = Some r /\ r_lhs r = Some i.
Proof.
  intros g i k r. unfold rules_of. rewrite filter_In. cbn [snd].
  assert (X : forall l j, In (k, r) (combine (seq j (length l)) l) <-> j <= k /\ nth_error l (k - j) = Some r).
  { induction l as [|a l IH]; intros j; cbn [length seq combine].
    - split; [intros []|]. intros [_ X]. destruct (k - j); discriminate.
    - cbn [In]. rewrite IH. split.
      + intros [X|[X Y]]; [injection X as -> ->; rewrite Nat.sub_diag; auto|]. split; [lia|]. replace (k - j) with (S (k - S j)) by lia. exact Y.
      + intros [X Y]. destruct (Nat.eq_dec k j) as [->|Hne].
        * rewrite Nat.sub_diag in Y. injection Y as ->. left. reflexivity.
        * right. split; [lia|]. replace (k - j) with (S (k - S j)) in Y by lia. exact Y. }
  rewrite X, Nat.sub_0_r. destruct (r_lhs r) as [j|].
  - destruct (N.eqb_spec j i) as [->|Hne]; split; intros Y; repeat split; try (apply Y); try lia; destruct Y; congruence.
  - split; intros Y; destruct Y; congruence.
Qed.

Lemma rules_of_nodup : forall g i, NoDup (map fst (rules_of g i)).
Proof.
  intros g i. unfold rules_of. assert (X : NoDup (map fst (combine (seq 0 (length (g_rules g))) (g_rules g)))) by (rewrite map_fst_combine; [apply seq_NoDup|apply seq_length]).
  revert X. generalize (combine (seq 0 (length (g_rules g))) (g_rules g)). induction l as [|e l IH]; intros X; cbn [filter map]; [constructor|].
  cbn [map] in X. inversion X as [|? ? Hx Hl]; subst. match goal with |- context [if ?b then _ else _] => destruct b end; [|exact (IH Hl)]. cbn [map]. constructor; [|exact (IH Hl)].
  intros Y. apply Hx. apply in_map_iff in Y. destruct Y as (y & E & Hy). apply filter_In in Hy. rewrite <- E. apply in_map. tauto.
Qed.

(** ** Methods *)

(** The visit of each rule of an entry of [rules_by_non_terminal]. *)
Definition suffixes (tags : bool) (rules : list (nat * rule)) : list string :=
  map (fun pe => match pr_tag (r_prod (snd (snd pe))) with
                 | Some t => if tags then t else decimal (N.of_nat (fst pe))
                 | None => decimal (N.of_nat (fst pe))
                 end) (combine (seq 1 (length rules)) rules).
Definition base_names (tags : bool) (g : grammar) (e : symbol * list (nat * rule)) : list string :=
  if length (snd e) =? 1 then [nm g (fst e)] else map (fun l => (nm g (fst e) ++ "_" ++ l)%string) (suffixes tags (snd e)).
Definition visits_of (tags : bool) (g : grammar) (e : symbol * list (nat * rule)) : list (nat * string) :=
  combine (map fst (snd e)) (map (append "reduce_") (base_names tags g e)).

Lemma base_length : forall tags g e, length (base_names tags g e) = length (snd e).
Proof.
  intros tags g e. unfold base_names. destruct (Nat.eqb_spec (length (snd e)) 1) as [E|_]; [rewrite E; reflexivity|]. unfold suffixes. rewrite !map_length, combine_length, seq_length. lia.
Qed.
Lemma visits_fst : forall tags g e, map fst (visits_of tags g e) = map fst (snd e).
Proof. intros. apply map_fst_combine. rewrite !map_length, base_length. reflexivity. Qed.
Lemma visits_snd : forall tags g e, map snd (visits_of tags g e) = map (append "reduce_") (base_names tags g e).
Proof. intros. apply map_snd_combine. rewrite !map_length, base_length. reflexivity. Qed.

Lemma combine_map_map : forall A B C (f : A -> B) (h : A -> C) l, combine (map f l) (map h l) = map (fun a => (f a, h a)) l.
Proof. induction l as [|a l IH]; cbn; [reflexivity|]. rewrite IH. reflexivity. Qed.

Lemma visits_of_rust : forall g i rules, rules <> [] -> rule_visits_of g (NonTerminal i, rules) = Ok (visits_of true g (NonTerminal i, rules)) /\
  visitor_methods_of g (NonTerminal i, rules) = Ok (map snd (visits_of true g (NonTerminal i, rules))).
Proof.
  intros g i rules Hr. rewrite visits_snd. unfold rule_visits_of, visitor_methods_of, visits_of, base_names. rewrite name_nm. cbn [bind fst snd].
  destruct (Nat.eqb_spec (length rules) 1) as [E|E]; cbn [negb].
  - destruct rules as [|r [|]]; try discriminate. split; reflexivity.
  - unfold suffixes. rewrite combine_seq_S, enumerate_combine. set (L := combine (seq 0 (length rules)) rules).
    assert (X : map fst rules = map (fun ir => fst (snd ir)) L).
    { unfold L. transitivity (map fst (map snd (combine (seq 0 (length rules)) rules))); [rewrite map_snd_combine; [reflexivity|apply seq_length]|apply map_map]. }
    rewrite X, !map_map, combine_map_map. split; f_equal; apply map_ext; intros [p [k r]]; cbn [fst snd]; unfold method_of; rewrite Nat.add_1_r; destruct (pr_tag (r_prod r)); reflexivity.
Qed.

Lemma visits_of_cpp : forall g i rules, rules <> [] -> cpp_visitor_methods_of g (NonTerminal i, rules) = Ok (map snd (visits_of false g (NonTerminal i, rules))).
Proof.
  intros g i rules Hr. rewrite visits_snd. unfold cpp_visitor_methods_of, base_names. rewrite name_nm. cbn [bind fst snd].
  destruct (Nat.eqb_spec (length rules) 1) as [E|E]; cbn [negb].
  - destruct rules as [|r [|]]; try discriminate. reflexivity.
  - unfold suffixes. rewrite combine_seq_S, enumerate_combine, !map_map. f_equal. apply map_ext. intros [p [k r]]; cbn [fst snd]; unfold cpp_method_of; rewrite Nat.add_1_r; destruct (pr_tag (r_prod r)); reflexivity.
Qed.

Definition all_visits (tags : bool) (g : grammar) : list (nat * string) := concat (map (visits_of tags g) (rules_by_non_terminal g)).

Lemma concat_map_map : forall A B C (f : B -> C) (h : A -> list B) l, map f (concat (map h l)) = concat (map (fun a => map f (h a)) l).
Proof. intros. rewrite concat_map, map_map. reflexivity. Qed.

Lemma rust_visits : forall g, rule_visits g = Ok (all_visits true g) /\ visitor_methods g = Ok (map snd (all_visits true g)).
Proof.
  intros g. unfold rule_visits, visitor_methods, all_visits. destruct (rules_by_spec g) as (_ & _ & R).
  rewrite (res_list_map _ _ _ _ (visits_of true g)), (res_list_map _ _ _ _ (fun e => map snd (visits_of true g e))).
  - cbn [bind]. rewrite concat_map_map. auto.
  - intros [k l] X. apply R in X. destruct X as (i & -> & _ & X). apply visits_of_rust. exact X.
  - intros [k l] X. apply R in X. destruct X as (i & -> & _ & X). apply visits_of_rust. exact X.
Qed.

Lemma cpp_methods : forall g, cpp_visitor_methods g = Ok (map snd (all_visits false g)).
Proof.
  intros g. unfold cpp_visitor_methods, all_visits. destruct (rules_by_spec g) as (_ & _ & R).
  rewrite (res_list_map _ _ _ _ (fun e => map snd (visits_of false g e))).
  - cbn [bind]. rewrite concat_map_map. auto.
  - intros [k l] X. apply R in X. destruct X as (i & -> & _ & X). apply visits_of_cpp. exact X.
Qed.

Lemma sorted_map_nodup : forall V (m : list (symbol * V)), msorted m -> NoDup m.
Proof. intros V m S. apply (NoDup_map_inv fst). apply sorted_NoDup in S. exact S. Qed.

(** Every rule is visited once. *)
Lemma visits_once : forall rs g tags, from_rule_set rs = Ok g -> Permutation (map fst (all_visits tags g)) (seq 0 (length (g_rules g))).
Proof.
  intros rs g tags H. destruct (rules_by_spec g) as (S & _ & R). unfold all_visits. rewrite concat_map_map. apply NoDup_Permutation.
  - apply nodup_concat_map; [apply sorted_map_nodup; exact S|]. split.
    + intros [k l] X. rewrite visits_fst. apply R in X. destruct X as (i & _ & -> & _). apply rules_of_nodup.
    + intros [k l] [k' l'] x X Y. rewrite !visits_fst. apply R in X. apply R in Y. destruct X as (i & -> & -> & _). destruct Y as (j & -> & -> & _). cbn [snd]. intros I J.
      apply in_map_iff in I. destruct I as ((k & r) & E1 & I). apply in_map_iff in J. destruct J as ((k' & r') & E2 & J). cbn in E1, E2. subst k k'.
      apply rules_of_In in I. apply rules_of_In in J. destruct I as [I1 I2]. destruct J as [J1 J2]. assert (i = j) as -> by congruence. reflexivity.
  - apply seq_NoDup.
  - intros k. rewrite in_concat, in_seq. split.
    + intros (l & X & Y). apply in_map_iff in X. destruct X as ((s & e) & <- & X). rewrite visits_fst in Y. apply R in X. destruct X as (i & -> & -> & _). cbn [snd] in Y.
      apply in_map_iff in Y. destruct Y as ((k' & r) & E & Y). cbn in E. subst k'. apply rules_of_In in Y. destruct Y as [Y _]. assert (nth_error (g_rules g) k <> None) as Z by congruence.
      apply nth_error_Some in Z. lia.
    + intros [_ X]. destruct (nth_error (g_rules g) k) as [r|] eqn:E; [|apply nth_error_None in E; lia]. destruct (wf_lhs g (grammar_wf _ _ H) r (nth_error_In _ _ E)) as (i & Hi & _).
      assert (Y : In (k, r) (rules_of g i)) by (apply rules_of_In; auto). exists (map fst (rules_of g i)). split.
      * apply in_map_iff. exists (NonTerminal i, rules_of g i). rewrite visits_fst. split; [reflexivity|]. apply R. exists i. repeat split. intros Z. rewrite Z in Y. exact Y.
      * apply in_map_iff. exists (k, r). auto.
Qed.

Lemma visits_In : forall tags g k m, In (k, m) (all_visits tags g) <-> exists i,
  (exists r, rules_of g i = [(k, r)] /\ m = ("reduce_" ++ nm g (NonTerminal i))%string) \/
  (1 < length (rules_of g i) /\ exists l, In (k, l) (combine (map fst (rules_of g i)) (labels tags g i)) /\ m = ("reduce_" ++ nm g (NonTerminal i) ++ "_" ++ l)%string).
Proof.
  intros tags g k m. destruct (rules_by_spec g) as (_ & _ & R). unfold all_visits. rewrite in_concat. change (labels tags g) with (fun i => suffixes tags (rules_of g i)). cbn beta. split.
  - intros (l & X & Y). apply in_map_iff in X. destruct X as ((s & e) & <- & X). apply R in X. destruct X as (i & -> & -> & X). exists i. unfold visits_of, base_names in Y. cbn [fst snd] in Y.
    destruct (Nat.eqb_spec (length (rules_of g i)) 1) as [E|E].
    + destruct (rules_of g i) as [|[k' r] [|]]; try discriminate. cbn in Y. destruct Y as [Y|[]]. injection Y as -> <-. left. exists r. auto.
    + right. split; [destruct (rules_of g i) as [|? [|]]; cbn in *; try congruence; lia|]. rewrite map_map in Y. revert Y. generalize (map fst (rules_of g i)) as a. generalize (suffixes tags (rules_of g i)) as b. clear.
      induction b as [|y b IH]; intros [|x a] Y; cbn in Y; try contradiction. destruct Y as [Y|Y].
      * injection Y as -> <-. exists y. split; [left; reflexivity|reflexivity].
      * destruct (IH a Y) as (l & I & E). exists l. split; [right; exact I|exact E].
  - intros (i & [(r & E & ->)|(L & l & I & ->)]).
    + exists [(k, ("reduce_" ++ nm g (NonTerminal i))%string)]. split; [|left; reflexivity]. apply in_map_iff. exists (NonTerminal i, rules_of g i). split.
      * unfold visits_of, base_names. cbn [fst snd]. rewrite E. reflexivity.
      * apply R. exists i. repeat split. rewrite E. discriminate.
    + exists (visits_of tags g (NonTerminal i, rules_of g i)). split.
      * apply in_map_iff. exists (NonTerminal i, rules_of g i). split; [reflexivity|]. apply R. exists i. repeat split. intros Z. rewrite Z in L. cbn in L. lia.
      * unfold visits_of, base_names. cbn [fst snd]. destruct (Nat.eqb_spec (length (rules_of g i)) 1) as [Z|_]; [lia|]. rewrite map_map. revert I.
        generalize (map fst (rules_of g i)) as a. generalize (suffixes tags (rules_of g i)) as b. clear.
        induction b as [|y b IH]; intros [|x a] I; cbn in I; try contradiction. destruct I as [I|I]; [injection I as -> ->; left; reflexivity|]. right. apply IH. exact I.
Qed.

(** ** Distinctness *)

Lemma methods_distinct : forall rs g tags, from_rule_set rs = Ok g ->
  (forall i l, In l (labels tags g i) -> no_underscore l) ->
  (forall i j n, In (NonTerminal i) (non_terminals g) -> In (NonTerminal j) (non_terminals g) -> named g i n -> named g j n -> i = j) ->
  (NoDup (map snd (all_visits tags g)) <->
   (forall i, 1 < length (rules_of g i) -> NoDup (labels tags g i)) /\
   (forall i j n m l, 1 < length (rules_of g i) -> length (rules_of g j) = 1 -> named g i n -> named g j m -> In l (labels tags g i) -> m <> (n ++ "_" ++ l)%string)).
Proof.
  intros rs g tags H U D. destruct (rules_by_spec g) as (S & _ & R). unfold all_visits. rewrite concat_map_map.
  assert (D' : forall i j, rules_of g i <> [] -> rules_of g j <> [] -> nm g (NonTerminal i) = nm g (NonTerminal j) -> i = j).
  { assert (K : forall i, rules_of g i <> [] -> In (NonTerminal i) (non_terminals g)).
    { intros i X. destruct (rules_of g i) as [|[k r] l] eqn:E; [congruence|]. assert (Y : In (k, r) (rules_of g i)) by (rewrite E; left; reflexivity). apply rules_of_In in Y. destruct Y as [Y1 Y2].
      destruct (wf_lhs g (grammar_wf _ _ H) r (nth_error_In _ _ Y1)) as (i' & Hi & Hn). congruence. }
    intros i j Hi Hj E. apply (D i j (nm g (NonTerminal i)) (K i Hi) (K j Hj)); apply (named_nm _ _ H); congruence. }
  rewrite (nodup_concat_map _ _ _ _ (sorted_map_nodup _ _ S)). change (labels tags g) with (fun i => suffixes tags (rules_of g i)) in *. cbn beta in *.
  assert (F : forall s, Injective (append s)) by (intros s x y; apply append_inj). split.
  - intros [X Y]. split.
    + intros i L. assert (E : In (NonTerminal i, rules_of g i) (rules_by_non_terminal g)) by (apply R; exists i; repeat split; intros Z; rewrite Z in L; cbn in L; lia).
      specialize (X _ E). rewrite visits_snd in X. apply NoDup_map_inv in X. unfold base_names in X. cbn [fst snd] in X. destruct (Nat.eqb_spec (length (rules_of g i)) 1) as [Z|_]; [lia|].
      apply NoDup_map_inv in X. exact X.
    + intros i j n m l Li Lj Hn Hm Il E. apply (named_nm _ _ H) in Hn. apply (named_nm _ _ H) in Hm. subst n m.
      assert (Ei : In (NonTerminal i, rules_of g i) (rules_by_non_terminal g)) by (apply R; exists i; repeat split; intros Z; rewrite Z in Li; cbn in Li; lia).
      assert (Ej : In (NonTerminal j, rules_of g j) (rules_by_non_terminal g)) by (apply R; exists j; repeat split; intros Z; rewrite Z in Lj; cbn in Lj; lia).
      assert (Z : (NonTerminal i, rules_of g i) = (NonTerminal j, rules_of g j)).
      { apply (Y _ _ ("reduce_" ++ nm g (NonTerminal j))%string Ei Ej); rewrite visits_snd; apply in_map; unfold base_names; cbn [fst snd].
        - destruct (Nat.eqb_spec (length (rules_of g i)) 1) as [K|_]; [lia|]. rewrite E. exact (in_map (fun l => (nm g (NonTerminal i) ++ "_" ++ l)%string) _ _ Il).
        - rewrite Lj. cbn. auto. }
      injection Z as -> _. lia.
  - intros [X Y]. split.
    + intros [k l] E. rewrite visits_snd. apply Injective_map_NoDup; [apply F|]. apply R in E. destruct E as (i & -> & -> & E). unfold base_names. cbn [fst snd].
      destruct (Nat.eqb_spec (length (rules_of g i)) 1) as [Z|Z]; [constructor; [intros []|constructor]|]. apply Injective_map_NoDup; [|apply X; destruct (rules_of g i) as [|? [|]]; cbn in *; try congruence; lia].
      intros x y K. apply append_inj in K. injection K as K. exact K.
    + intros [k l] [k' l'] x E E'. rewrite !visits_snd. apply R in E. apply R in E'. destruct E as (i & -> & -> & E). destruct E' as (j & -> & -> & E'). intros I J.
      apply in_map_iff in I. destruct I as (a & Ea & I). apply in_map_iff in J. destruct J as (b & Eb & J). assert (b = a) as -> by (apply (F "reduce_"%string); congruence). clear x Ea Eb.
      assert (i = j) as ->; [|reflexivity]. unfold base_names in I, J. cbn [fst snd] in I, J.
      assert (N1 : forall q, named g q (nm g (NonTerminal q))) by (intros q; apply (named_nm _ _ H); reflexivity).
      assert (L1 : forall q, rules_of g q <> [] -> length (rules_of g q) <> 1 -> 1 < length (rules_of g q)) by (intros q Q1 Q2; destruct (rules_of g q) as [|? [|]]; cbn in *; try congruence; lia).
      destruct (Nat.eqb_spec (length (rules_of g i)) 1) as [Z|Z]; destruct (Nat.eqb_spec (length (rules_of g j)) 1) as [W|W].
      * destruct I as [I|[]]. destruct J as [J|[]]. apply (D' i j E E'). congruence.
      * destruct I as [I|[]]. apply in_map_iff in J. destruct J as (l & J & Jl). exfalso. apply (Y j i _ _ l (L1 j E' W) Z (N1 j) (N1 i) Jl). congruence.
      * destruct J as [J|[]]. apply in_map_iff in I. destruct I as (l & I & Il). exfalso. apply (Y i j _ _ l (L1 i E Z) W (N1 i) (N1 j) Il). congruence.
      * apply in_map_iff in I. destruct I as (l & I & Il). apply in_map_iff in J. destruct J as (l' & J & Jl). rewrite <- J in I. apply last_underscore in I; [|apply (U i); exact Il|apply (U j); exact Jl].
        apply (D' i j E E'). tauto.
Qed.

Lemma cpp_labels : forall g i, labels false g i = map (fun p => decimal (N.of_nat p)) (seq 1 (length (rules_of g i))).
Proof.
  intros g i. unfold labels. transitivity (map (fun p => decimal (N.of_nat p)) (map fst (combine (seq 1 (length (rules_of g i))) (rules_of g i)))).
  - rewrite map_map. apply map_ext. intros [p [k r]]. cbn. destruct (pr_tag (r_prod r)); reflexivity.
  - rewrite map_fst_combine; [reflexivity|apply seq_length].
Qed.
Lemma untagged_labels : forall g i, (forall r, In r (g_rules g) -> pr_tag (r_prod r) = None) -> labels true g i = labels false g i.
Proof.
  intros g i T. unfold labels. apply map_ext_in. intros [p [k r]] X. apply in_combine_r in X. apply rules_of_In in X. cbn. rewrite (T r); [reflexivity|]. eapply nth_error_In. apply X.
Qed.
Lemma cpp_labels_ok : forall g i, NoDup (labels false g i) /\ forall l, In l (labels false g i) -> no_underscore l.
Proof.
  intros g i. rewrite cpp_labels. split.
  - apply Injective_map_NoDup; [|apply seq_NoDup]. intros p q E. apply decimal_inj in E. lia.
  - intros l X. apply in_map_iff in X. destruct X as (p & <- & _). apply decimal_no_underscore.
Qed.

Lemma cpp_visits : forall rs g, from_rule_set rs = Ok g -> exists vs, cpp_rule_visits g = Ok vs /\ map fst vs = seq 0 (length (g_rules g)) /\
  Permutation vs (map (fun v => (fst v, Some (snd v))) (all_visits false g)).
Proof.
  intros rs g H. destruct (rules_by_spec g) as (_ & G & _). unfold cpp_rule_visits.
  assert (X : forall e, In e (enumerate (g_rules g)) -> exists m, cpp_rule_visit g e = Ok (fst e, Some m) /\ In (fst e, m) (all_visits false g)).
  { intros [k r] X. rewrite enumerate_combine in X. assert (Y : nth_error (g_rules g) k = Some r).
    { assert (Z : forall i, r_lhs r = Some i -> In (k, r) (rules_of g i)) by (intros i Hi; unfold rules_of; apply filter_In; split; [exact X|]; cbn; rewrite Hi; apply N.eqb_refl).
      destruct (wf_lhs g (grammar_wf _ _ H) r) as (i & Hi & _); [eapply in_combine_r; exact X|]. specialize (Z i Hi). apply rules_of_In in Z. tauto. }
    destruct (wf_lhs g (grammar_wf _ _ H) r (nth_error_In _ _ Y)) as (i & Hi & _). assert (Z : In (k, r) (rules_of g i)) by (apply rules_of_In; auto).
    unfold cpp_rule_visit. rewrite Hi, G, name_nm. cbn [bind fst]. destruct (rules_of g i) as [|e l] eqn:E; [destruct Z|]. cbn [nonempty_list]. destruct (Nat.eqb_spec (length (e :: l)) 1) as [W|W].
    - destruct l; [|discriminate]. destruct Z as [->|[]]. eexists. split; [reflexivity|]. apply visits_In. exists i. left. exists r. auto.
    - rewrite <- E in *. unfold rule_position. destruct (find_index (fun e0 => fst e0 =? k) (rules_of g i)) as [p|] eqn:F.
      + apply find_index_Some in F. destruct F as (a & A1 & A2 & _). apply Nat.eqb_eq in A2. eexists. split; [reflexivity|]. apply visits_In. exists i. right.
        split; [rewrite E in *; destruct l; cbn in *; [congruence|lia]|]. exists (decimal (N.of_nat (p + 1))). split; [|unfold cpp_method_of; reflexivity].
        rewrite cpp_labels. apply (nth_error_In _ p). revert A1 A2. clear. generalize (rules_of g i) as rules. intros rules A1 A2.
        assert (Q : forall (rules : list (nat * rule)) p j, nth_error rules p = Some a -> nth_error (combine (map fst rules) (map (fun p => decimal (N.of_nat p)) (seq j (length rules)))) p = Some (fst a, decimal (N.of_nat (p + j)))).
        { clear. induction rules as [|b rules IH]; intros [|p] j X; try discriminate; cbn in *; [injection X as ->; reflexivity|]. rewrite (IH p (S j) X). replace (p + S j) with (S (p + j)) by lia. reflexivity. }
        rewrite (Q rules p 1 A1), A2. reflexivity.
      + rewrite find_index_None in F. specialize (F _ Z). cbn in F. rewrite Nat.eqb_refl in F. discriminate. }
  assert (X' : exists h, forall e, In e (enumerate (g_rules g)) -> cpp_rule_visit g e = Ok (fst e, Some (h e)) /\ In (fst e, h e) (all_visits false g)).
  { exists (fun e => match cpp_rule_visit g e with Ok (_, Some m) => m | _ => ""%string end). intros e He. destruct (X e He) as (m & E & I). rewrite E. auto. }
  destruct X' as [h X']. rewrite (res_list_map _ _ _ _ (fun e => (fst e, Some (h e)))) by (intros e He; apply X'; exact He).
  eexists. split; [reflexivity|]. rewrite map_map. cbn [fst]. rewrite enumerate_combine in *. assert (E : map fst (combine (seq 0 (length (g_rules g))) (g_rules g)) = seq 0 (length (g_rules g))) by (apply map_fst_combine; apply seq_length).
  split; [exact E|]. apply NoDup_Permutation_bis.
  - apply (NoDup_map_inv fst). rewrite map_map. cbn [fst]. refine (eq_ind_r (@NoDup nat) _ E). apply seq_NoDup.
  - pose proof (Permutation_length (visits_once _ _ false H)) as L. rewrite map_length, seq_length in L. rewrite !map_length, L, combine_length, seq_length. lia.
  - intros x Hx. apply in_map_iff in Hx. destruct Hx as (e & <- & He). apply in_map_iff. exists (fst e, h e). split; [reflexivity|]. apply X'. exact He.
Qed.

(** ** Statements *)

Lemma visits_reduces : forall rs g tags, from_rule_set rs = Ok g -> forall k m, In (k, m) (all_visits tags g) <-> reduces tags g k m.
Proof.
  intros rs g tags H k m. rewrite visits_In. unfold reduces. split.
  - intros (i & X). exists i, (nm g (NonTerminal i)). split; [apply (named_nm _ _ H); reflexivity|exact X].
  - intros (i & n & X & Y). apply (named_nm _ _ H) in X. subst n. exists i. exact Y.
Qed.

Lemma rust_visits_complete : forall rs g, from_rule_set rs = Ok g -> exists vs ms,
  rule_visits g = Ok vs /\ visitor_methods g = Ok ms /\ map snd vs = ms /\ Permutation (map fst vs) (seq 0 (length (g_rules g))) /\ forall k m, In (k, m) vs <-> reduces true g k m.
Proof.
  intros rs g H. destruct (rust_visits g) as [A B]. exists (all_visits true g), (map snd (all_visits true g)). split; [exact A|]. split; [exact B|]. split; [reflexivity|].
  split; [apply (visits_once _ _ _ H)|apply (visits_reduces _ _ _ H)].
Qed.

Lemma cpp_visits_complete : forall rs g, from_rule_set rs = Ok g -> exists vs ms,
  cpp_rule_visits g = Ok vs /\ cpp_visitor_methods g = Ok ms /\ Permutation (map snd vs) (map Some ms) /\ map fst vs = seq 0 (length (g_rules g)) /\ forall k m, In (k, Some m) vs <-> reduces false g k m.
Proof.
  intros rs g H. destruct (cpp_visits _ _ H) as (vs & A & B & C). exists vs, (map snd (all_visits false g)). split; [exact A|]. split; [apply cpp_methods|].
  split; [|split; [exact B|]].
  - rewrite C, !map_map. apply Permutation_refl.
  - intros k m. rewrite <- (visits_reduces _ _ _ H). split.
    + intros X. eapply Permutation_in in X; [|exact C]. apply in_map_iff in X. destruct X as ((k' & m') & E & X). injection E as <- <-. exact X.
    + intros X. apply Permutation_sym in C. eapply Permutation_in; [exact C|]. apply in_map_iff. exists (k, m). auto.
Qed.

Lemma rust_methods_distinct : forall rs g, from_rule_set rs = Ok g ->
  (forall i l, In l (labels true g i) -> no_underscore l) ->
  (forall i j n, In (NonTerminal i) (non_terminals g) -> In (NonTerminal j) (non_terminals g) -> named g i n -> named g j n -> i = j) ->
  exists ms, visitor_methods g = Ok ms /\
  (NoDup ms <->
   (forall i, 1 < length (rules_of g i) -> NoDup (labels true g i)) /\
   (forall i j n m l, 1 < length (rules_of g i) -> length (rules_of g j) = 1 -> named g i n -> named g j m -> In l (labels true g i) -> m <> (n ++ "_" ++ l)%string)).
Proof. intros rs g H U D. eexists. split; [apply rust_visits|]. exact (methods_distinct _ _ _ H U D). Qed.

Lemma cpp_methods_distinct : forall rs g, from_rule_set rs = Ok g ->
  (forall i j n, In (NonTerminal i) (non_terminals g) -> In (NonTerminal j) (non_terminals g) -> named g i n -> named g j n -> i = j) ->
  exists ms, cpp_visitor_methods g = Ok ms /\
  (NoDup ms <->
   forall i j n m p, 1 < length (rules_of g i) -> length (rules_of g j) = 1 -> named g i n -> named g j m -> 1 <= p <= length (rules_of g i) -> m <> (n ++ "_" ++ decimal (N.of_nat p))%string).
Proof.
  intros rs g H D. eexists. split; [apply cpp_methods|]. rewrite (methods_distinct _ _ false H (fun i => proj2 (cpp_labels_ok g i)) D). split.
  - intros [_ X] i j n m p Li Lj Hn Hm Hp. apply (X i j n m _ Li Lj Hn Hm). rewrite cpp_labels. apply (in_map (fun p => decimal (N.of_nat p))). apply in_seq. lia.
  - intros X. split; [intros i _; apply cpp_labels_ok|]. intros i j n m l Li Lj Hn Hm Hl. rewrite cpp_labels in Hl. apply in_map_iff in Hl. destruct Hl as (p & <- & Hp). apply in_seq in Hp.
    apply (X i j n m p Li Lj Hn Hm). lia.
Qed.

Lemma prod_named : forall rs g, from_rule_set rs = Ok g -> forall s n, In (s, n) (g_prods g) -> exists p, In p (rs_prods rs) /\ pr_name p = n.
Proof.
  intros rs g H s n E. destruct (from_rule_set_built _ _ H) as (b & als & [Hst (b' & B & Er & Et & Ep & Ea & Hrun) _]). rewrite Ep in E. destruct (so_prd _ _ Hst _ _ E) as (k & [(p & Hp & <-) _] & _).
  exists p. split; [eapply nth_error_In; exact Hp|reflexivity].
Qed.

Lemma names_distinct : forall rs g, small rs -> from_rule_set rs = Ok g -> (forall p k, In p (rs_prods rs) -> pr_name p <> ("anon" ++ decimal k)%string) ->
  forall i j n, named g i n -> named g j n -> i = j.
Proof.
  intros rs g S H A i j n [X|[_ X]] [Y|[_ Y]].
  - apply (production_numbers _ _ S H) in X. apply (production_numbers _ _ S H) in Y. destruct X as (a & -> & X1 & X2). destruct Y as (b & -> & Y1 & Y2). f_equal.
    destruct (Nat.lt_trichotomy a b) as [L|[L|L]]; [destruct (Y2 a L X1)|exact L|destruct (X2 b L Y1)].
  - destruct (prod_named _ _ H _ _ X) as (p & Hp & E). destruct (A p j Hp). congruence.
  - destruct (prod_named _ _ H _ _ Y) as (p & Hp & E). destruct (A p i Hp). congruence.
  - rewrite X in Y. apply append_inj in Y. exact (decimal_inj _ _ Y).
Qed.

Lemma numbered_decimal : forall n k, numbered (n ++ "_" ++ decimal k).
Proof. intros n k. exists n, (decimal k). split; [reflexivity|]. split; [apply decimal_nonempty|apply decimal_digits]. Qed.
Lemma anon_not_numbered : forall k, ~ numbered ("anon" ++ decimal k).
Proof.
  intros k (p & d & E & _). assert (X : no_underscore ("anon" ++ decimal k)) by (apply all_chars_app; split; [cbn; repeat split; discriminate|apply decimal_no_underscore]).
  rewrite E in X. apply all_chars_app in X. destruct X as [_ [X _]]. apply X. reflexivity.
Qed.

Lemma plain_methods_distinct : forall rs g, small rs -> from_rule_set rs = Ok g ->
  (forall p, In p (rs_prods rs) -> pr_tag p = None /\ ~ numbered (pr_name p) /\ forall k, pr_name p <> ("anon" ++ decimal k)%string) ->
  exists ms ms', visitor_methods g = Ok ms /\ NoDup ms /\ cpp_visitor_methods g = Ok ms' /\ NoDup ms'.
Proof.
  intros rs g S H A. assert (D : forall i j n, named g i n -> named g j n -> i = j) by (apply (names_distinct _ _ S H); intros p k Hp; apply (A p Hp)).
  assert (T : forall i, labels true g i = labels false g i) by (intros i; apply untagged_labels; intros r Hr; apply (A (r_prod r)); apply (proj2 (provenance _ _ H)); exact Hr).
  assert (M : forall i j n m l, named g i n -> named g j m -> In l (labels false g i) -> m <> (n ++ "_" ++ l)%string).
  { intros i j n m l Hn Hm Hl ->. rewrite cpp_labels in Hl. apply in_map_iff in Hl. destruct Hl as (p & <- & _). pose proof (numbered_decimal n (N.of_nat p)) as X. destruct Hm as [Hm|[_ Hm]].
    - destruct (prod_named _ _ H _ _ Hm) as (q & Hq & E). rewrite <- E in X. exact (proj1 (proj2 (A q Hq)) X).
    - rewrite Hm in X. exact (anon_not_numbered _ X). }
  destruct (rust_methods_distinct _ _ H) as (ms & E & Q).
  { intros i l Hl. rewrite T in Hl. exact (proj2 (cpp_labels_ok g i) l Hl). }
  { intros i j n _ _. apply D. }
  destruct (cpp_methods_distinct _ _ H) as (ms' & E' & Q').
  { intros i j n _ _. apply D. }
  exists ms, ms'. split; [exact E|]. split; [|split; [exact E'|]].
  - apply Q. split; [intros i _; rewrite T; apply cpp_labels_ok|]. intros i j n m l _ _ Hn Hm Hl. rewrite T in Hl. exact (M i j n m l Hn Hm Hl).
  - apply Q'. intros i j n m p Li Lj Hn Hm Hp. apply (M i j n m _ Hn Hm). rewrite cpp_labels. apply (in_map (fun p => decimal (N.of_nat p))). apply in_seq. lia.
Qed.
