(** Whole runs of the generator: the files written. *)
From Coq Require Import String List Arith NArith Bool Lia.
From Verif Require Import Base InputModel LexerSpec LexerModel BootModel PositionModel PositionSpec InputGenModel InputGenSpec InputTextSpec GrammarModel GrammarSpec GrammarBuildProof LLModel LRModel LRSpec GLRModel NamesModel TableModel PipelineModel PipelineSpec.
Import ListNotations.
Local Open Scope nat_scope.
Local Open Scope list_scope.

(** ** Steps *)

Lemma io_bind_cases : forall A B (m : io A) (f : A -> io B) fs fs' r, io_bind m f fs = (fs', r) ->
  (exists a fs1, m fs = (fs1, Ok a) /\ f a fs1 = (fs', r)) \/
  (exists r0, m fs = (fs', r0) /\ match r0 with Ok _ => False | Err e => r = Err e | Panic => r = Panic | OutOfFuel => r = OutOfFuel end).
Proof.
  intros A B m f fs fs' r H. unfold io_bind in H. destruct (m fs) as [fs1 [a|e| |]]; [left; eauto|right..]; injection H as <- <-; eexists; (split; [reflexivity|]); reflexivity.
Qed.

Section Files.
Variable create : string -> bool.

(** Files of a finished step. *)
Definition made (l : list (string * res name_err artifact)) (fs : list file) : Prop :=
  Forall2 (fun f e => create (fst f) = true /\ fst e = fst f /\ exists a, snd f = Ok a /\ snd e = Some a) l fs.

Lemma made_app : forall l l' fs fs', made l fs -> made l' fs' -> made (l ++ l') (fs ++ fs').
Proof. intros. apply Forall2_app; auto. Qed.

Lemma made_finished : forall l fs, made l fs -> finished (map fst l) fs.
Proof.
  intros l fs H. induction H as [|f e l fs (A & B & a & C & D) H [I1 I2]]; [split; auto|]. split; [cbn [map]; congruence|]. constructor; auto. congruence.
Qed.

Lemma made_fun : forall l fs fs', made l fs -> made l fs' -> fs = fs'.
Proof.
  intros l fs fs' H. revert fs'. induction H as [|f e l fs (A & B & a & C & D) H IH]; intros fs' H'; inversion H' as [|f' e' l' fs1 (A' & B' & a' & C' & D') H1]; subst; auto.
  f_equal; auto. destruct e, e'; cbn [fst snd] in *. congruence.
Qed.

Lemma emit_all_cases : forall l fs fs' r, emit_all create l fs = (fs', r) ->
  exists new, fs' = fs ++ new /\
  match r with
  | Ok _ => made l new
  | Err _ => False
  | Panic => begun (map fst l) new /\ exists a f b, l = a ++ f :: b /\ (create (fst f) = false \/ match snd f with Err _ | Panic => True | _ => False end)
  | OutOfFuel => begun (map fst l) new /\ Exists (fun f => snd f = OutOfFuel) l
  end.
Proof.
  assert (begun_nil : forall names, begun names []) by (intros names; exists names; split; [reflexivity|]; intros a f b E; destruct a; discriminate).
  induction l as [|f l IH]; intros fs fs' r H; cbn [emit_all] in H.
  - injection H as <- <-. exists []. split; [symmetry; apply app_nil_r|constructor].
  - apply io_bind_cases in H. unfold emit in H. destruct H as [(u & fs1 & H1 & H2)|(r0 & H1 & H2)].
    + destruct (create (fst f)) eqn:Ec; [|discriminate]. destruct (snd f) as [a|e| |] eqn:Ef; try discriminate. injection H1 as <- <-.
      destruct (IH _ _ _ H2) as (new & -> & X). exists ((fst f, Some a) :: new). split; [rewrite <- app_assoc; reflexivity|].
      assert (forall names, begun names new -> begun (fst f :: names) ((fst f, Some a) :: new)) as Y.
      { intros names (rest & E & B). exists rest. split; [cbn [map fst app]; congruence|]. intros x y z E' Hz. destruct x as [|x0 x]; [injection E' as <- <-; discriminate|]. injection E' as <- E'. eapply B; eauto. }
      destruct r as [u|e| |]; auto.
      * constructor; auto. cbn [fst snd]. eauto.
      * destruct X as [X1 (x & y & z & -> & X2)]. split; [apply Y; auto|]. exists (f :: x), y, z. auto.
      * destruct X as [X1 X2]. split; [apply Y; auto|]. apply Exists_cons_tl; auto.
    + destruct (create (fst f)) eqn:Ec.
      * assert (begun (map fst (f :: l)) [(fst f, None)]) as Y.
        { exists (map fst l). split; [reflexivity|]. intros x y z E Hz. destruct x as [|x0 [|]]; [injection E as <- <-; contradiction|discriminate|discriminate]. }
        destruct (snd f) as [a|e| |] eqn:Ef; injection H1 as <- <-; try contradiction; subst r.
        -- exists [(fst f, None)]. split; auto. split; auto. exists [], f, l. rewrite Ef. auto.
        -- exists [(fst f, None)]. split; auto. split; auto. exists [], f, l. rewrite Ef. auto.
        -- exists []. split; [symmetry; apply app_nil_r|]. split; [apply begun_nil|]. apply Exists_cons_hd; auto.
      * injection H1 as <- <-. subst r. exists []. split; [symmetry; apply app_nil_r|]. split; [apply begun_nil|]. exists [], f, l. auto.
Qed.

Lemma emit_all_made : forall l fs new, made l new -> emit_all create l fs = (fs ++ new, Ok tt).
Proof.
  intros l fs new H. revert fs. induction H as [|f e l new (A & B & a & C & D) H IH]; intros fs; cbn [emit_all].
  - unfold pure. rewrite app_nil_r. reflexivity.
  - unfold io_bind, emit. rewrite A, C. rewrite IH. rewrite <- app_assoc. cbn [app]. repeat f_equal. destruct e; cbn [fst snd] in *. congruence.
Qed.

(** Whether all files of a list can be written. *)
Lemma made_ex : forall l, (forall f, In f l -> create (fst f) = true /\ exists a, snd f = Ok a) -> exists new, made l new.
Proof.
  induction l as [|f l IH]; intros H; [exists []; constructor|]. destruct (H f (or_introl eq_refl)) as (A & a & B). destruct IH as (new & Hn); [intros x Hx; apply H; right; auto|].
  exists ((fst f, Some a) :: new). constructor; auto. split; auto. split; auto. exists a. auto.
Qed.

(** ** Lists of files *)

Lemma begun_nil : forall names, begun names [].
Proof. intros names. exists names. split; [reflexivity|]. intros a f b E. destruct a; discriminate. Qed.

Lemma begun_app : forall names names' fs, begun names fs -> begun (names ++ names') fs.
Proof. intros names names' fs (rest & -> & H). exists (rest ++ names'). split; [symmetry; apply app_assoc|auto]. Qed.

Lemma finished_begun : forall names fs, finished names fs -> begun names fs.
Proof.
  intros names fs [H1 H2]. exists []. split; [rewrite app_nil_r; auto|]. intros a f b E _. rewrite Forall_forall in H2. apply H2. rewrite E. apply in_or_app. right. left. auto.
Qed.

Lemma finished_app : forall n n' fs fs', finished n fs -> finished n' fs' -> finished (n ++ n') (fs ++ fs').
Proof. intros n n' fs fs' [A B] [C D]. split; [subst; apply map_app|apply Forall_app; auto]. Qed.


Lemma finished_begun_app : forall n n' fs fs', finished n fs -> begun n' fs' -> begun (n ++ n') (fs ++ fs').
Proof.
  intros n n' fs fs' [A B] (rest & E & C). exists rest. split; [rewrite E, <- A; rewrite app_assoc; f_equal; symmetry; apply map_app|]. clear A E n n'.
  induction B as [|x fs Hx B IH]; [exact C|]. intros a f b E Hb. destruct a as [|y a]; [injection E as <- <-; auto|]. injection E as <- E. eapply IH; eauto.
Qed.

Lemma emit_all_app : forall l l' fs, io_bind (emit_all create l) (fun _ => emit_all create l') fs = emit_all create (l ++ l') fs.
Proof.
  induction l as [|f l IH]; intros l' fs; cbn [emit_all app]; [reflexivity|]. unfold io_bind at 1 2 3. destruct (emit create f fs) as [fs1 [a|e| |]]; auto. apply IH.
Qed.

(** ** The stages of a run *)

Section Run.
Variable fuel : nat.
Variable read : list N -> res lex_err spanned_rules.
Variable lexer : bool.
Variable alg : algorithm.
Variable table : bool.
Variable l : language.
Variable source : list N.

Definition names_of (sr : spanned_rules) : list string := map tr_name (map snd (sr_tokens sr)).

(** The files made before the grammar is looked at. *)
Definition early (sr : spanned_rules) (fs : list file) : Prop :=
  exists tf lf, made (tokens_files l (names_of sr)) tf /\ fs = tf ++ lf /\
  if lexer then exists al d, generate_lexer fuel (map snd (sr_tokens sr)) = Ok (al, d) /\ made (lexer_files l al d) lf else lf = [].

Inductive stopped : list file -> res (list report) unit -> Prop :=
| st_read : (forall sr, read source <> Ok sr) -> read source <> OutOfFuel -> stopped [] Panic
| st_read_fuel : read source = OutOfFuel -> stopped [] OutOfFuel
| st_tokens sr fs r : read source = Ok sr -> emit_all create (tokens_files l (names_of sr)) [] = (fs, r) -> r <> Ok tt -> stopped fs r
| st_tie sr tf tied h r : read source = Ok sr -> made (tokens_files l (names_of sr)) tf -> lexer = true -> generate_lexer fuel (map snd (sr_tokens sr)) = Err (PrecedenceError tied h) ->
    r = bind (report_precedence sr source (PrecedenceError tied h)) Err -> stopped tf r
| st_lexer sr tf : read source = Ok sr -> made (tokens_files l (names_of sr)) tf -> lexer = true -> generate_lexer fuel (map snd (sr_tokens sr)) = Panic -> stopped tf Panic
| st_lexer_fuel sr tf : read source = Ok sr -> made (tokens_files l (names_of sr)) tf -> lexer = true -> generate_lexer fuel (map snd (sr_tokens sr)) = OutOfFuel -> stopped tf OutOfFuel
| st_lexer_files sr tf al d fs r : read source = Ok sr -> made (tokens_files l (names_of sr)) tf -> lexer = true -> generate_lexer fuel (map snd (sr_tokens sr)) = Ok (al, d) ->
    emit_all create (lexer_files l al d) [] = (fs, r) -> r <> Ok tt -> stopped (tf ++ fs) r
| st_grammar sr fs : read source = Ok sr -> early sr fs -> (forall g, from_rule_set (unspanned sr) <> Ok g) -> stopped fs Panic.

Lemma emit_all_shift : forall x fs, emit_all create x fs = (fs ++ fst (emit_all create x []), snd (emit_all create x [])).
Proof.
  induction x as [|f x IH]; intros fs; cbn [emit_all]; [unfold pure; cbn [fst snd]; rewrite app_nil_r; reflexivity|].
  unfold io_bind, emit. destruct (create (fst f)); cbn [app]; [|cbn [fst snd]; rewrite app_nil_r; reflexivity].
  destruct (snd f) as [a|e| |]; cbn [fst snd]; auto; [|rewrite app_nil_r; reflexivity].
  rewrite (IH (fs ++ _)), (IH [(fst f, Some a)]). cbn [fst snd]. rewrite <- app_assoc. reflexivity.
Qed.

Lemma emit_all_ok : forall x fs fs', emit_all create x fs = (fs', Ok tt) -> exists new, fs' = fs ++ new /\ made x new.
Proof. intros x fs fs' H. destruct (emit_all_cases _ _ _ _ H) as (new & E & M). eauto. Qed.

Lemma expect_cases : forall E F A (r : res E A), (exists a, r = Ok a /\ @expect E F A r = Ok a) \/ (r = OutOfFuel /\ @expect E F A r = OutOfFuel) \/ ((forall a, r <> Ok a) /\ r <> OutOfFuel /\ @expect E F A r = Panic).
Proof. intros E F A [a|e| |]; cbn [expect]; [left; eauto|right; right|right; right|right; left; auto]; (split; [|split]); try discriminate; auto. Qed.

Lemma generate_stages : forall files r, generate create fuel read lexer alg table l (Some source) = (files, r) ->
  stopped files r \/ exists sr g fs, read source = Ok sr /\ early sr fs /\ from_rule_set (unspanned sr) = Ok g /\ parser_step create fuel l alg table source sr g fs = (files, r).
Proof.
  intros files r H. cbn [generate] in H. apply io_bind_cases in H. unfold pure at 1 2 in H.
  destruct (expect_cases lex_err (list report) _ (read source)) as [(sr & Es & X)|[(Es & X)|(Es & Es' & X)]]; rewrite X in H.
  2: { left. destruct H as [(a & fs & H & _)|(r0 & H & H')]; [discriminate|]. injection H as <- <-. subst r. apply st_read_fuel; auto. }
  2: { left. destruct H as [(a & fs & H & _)|(r0 & H & H')]; [discriminate|]. injection H as <- <-. subst r. apply st_read; auto. }
  destruct H as [(a & fs0 & H & H')|(r0 & H & H')]; [|injection H as <- <-; contradiction]. injection H as <- <-. rename H' into H. fold (names_of sr) in H.
  apply io_bind_cases in H. destruct H as [(u & fs & H1 & H)|(r0 & H1 & H)].
  2: { left. destruct (emit_all_cases _ _ _ _ H1) as (new & _ & M). apply st_tokens with (sr := sr); auto.
       - destruct r0; try contradiction; subst r; auto.
       - destruct r0; try contradiction; subst r; discriminate. }
  destruct u. apply emit_all_ok in H1. destruct H1 as (tf & E & Mt). cbn [app] in E. subst fs.
  apply io_bind_cases in H. destruct H as [(u & fs & H1 & H)|(r0 & H1 & H)].
  - assert (early sr fs) as HE.
    { exists tf. destruct lexer; [|unfold pure in H1; injection H1 as <- _; exists []; rewrite app_nil_r; auto].
      unfold lexer_step in H1. destruct (generate_lexer fuel (map snd (sr_tokens sr))) as [[al d]|e| |] eqn:Eg; try (unfold pure in H1; discriminate).
      - destruct u. apply emit_all_ok in H1. destruct H1 as (lf & -> & Ml). exists lf. split; auto. split; auto. exists al, d. auto.
      - unfold pure in H1. destruct (report_precedence sr source e); cbn [bind] in H1; discriminate. }
    apply io_bind_cases in H. unfold pure in H. destruct (expect_cases grammar_error (list report) _ (from_rule_set (unspanned sr))) as [(g & Eg & Y)|[(Eg & Y)|(Eg & Eg' & Y)]]; rewrite Y in H.
    + right. exists sr, g, fs. destruct H as [(a & fs0 & H & H')|(r0 & H & H')]; [|injection H as <- <-; contradiction]. injection H as <- <-. auto.
    + exfalso. revert Eg. pose proof (from_rule_set_outcome (unspanned sr)) as Z. destruct (from_rule_set (unspanned sr)); try discriminate. contradiction.
    + left. destruct H as [(a & fs0 & H & H')|(r0 & H & H')]; [discriminate|]. injection H as <- <-. subst r. eapply st_grammar; eauto.
  - left. destruct lexer eqn:El; [|unfold pure in H1; injection H1 as <- <-; contradiction].
    unfold lexer_step in H1. destruct (generate_lexer fuel (map snd (sr_tokens sr))) as [[al d]|e| |] eqn:Eg.
    + rewrite emit_all_shift in H1. destruct (emit_all create (lexer_files l al d) []) as [fs r1] eqn:Ee. cbn [fst snd] in H1. injection H1 as <- <-.
      eapply st_lexer_files; eauto; destruct r1; try contradiction; subst r; auto; discriminate.
    + unfold pure in H1. injection H1 as <- <-. destruct e as [tied h]. eapply st_tie; eauto.
      destruct (report_precedence sr source (PrecedenceError tied h)) as [x|x| |]; cbn [bind] in *; try contradiction; auto.
    + unfold pure in H1. injection H1 as <- <-. subst r. eapply st_lexer; eauto.
    + unfold pure in H1. injection H1 as <- <-. subst r. eapply st_lexer_fuel; eauto.
Qed.

(** Conversely. *)
Lemma generate_reaches : forall sr g fs, read source = Ok sr -> early sr fs -> from_rule_set (unspanned sr) = Ok g ->
  generate create fuel read lexer alg table l (Some source) = parser_step create fuel l alg table source sr g fs.
Proof.
  intros sr g fs Hr (tf & lf & Mt & -> & Hl) Hg. cbn [generate]. unfold io_bind, pure. rewrite Hr. cbn [expect]. fold (names_of sr). rewrite (emit_all_made _ [] _ Mt). cbn [app].
  destruct lexer.
  - destruct Hl as (al & d & Eg & Ml). unfold lexer_step. rewrite Eg, (emit_all_made _ _ _ Ml), Hg. reflexivity.
  - subst lf. rewrite Hg, app_nil_r. reflexivity.
Qed.

Lemma generate_ties : forall sr tf tied h, read source = Ok sr -> made (tokens_files l (names_of sr)) tf -> lexer = true -> generate_lexer fuel (map snd (sr_tokens sr)) = Err (PrecedenceError tied h) ->
  generate create fuel read lexer alg table l (Some source) = (tf, bind (report_precedence sr source (PrecedenceError tied h)) Err).
Proof.
  intros sr tf tied h Hr Mt Hl Hg. cbn [generate]. unfold io_bind, pure. rewrite Hr. cbn [expect]. fold (names_of sr). rewrite (emit_all_made _ [] _ Mt). cbn [app]. rewrite Hl.
  unfold lexer_step, pure. rewrite Hg. destruct (report_precedence sr source (PrecedenceError tied h)); reflexivity.
Qed.

(** ** The parser *)

(** The files of the last stage, if there are some. *)
Inductive late (sr : spanned_rules) (g : grammar) : list (string * res name_err artifact) -> Prop :=
| lt_ll tb x : alg = LL1 -> ll_generate_table fuel g = Ok tb -> ll_files l g tb = Some x -> late sr g x
| lt_lr k tb : strict_kind alg = Some k -> generates k fuel g false = Ok (NoConflicts tb) -> late sr g (table_files table g tb ++ lr_files l (names_of sr) g tb)
| lt_glr r tb x : alg = GLR -> generates KindLALR fuel g true = Ok r -> r = NoConflicts tb \/ (exists cs, r = AllowedConflicts tb cs) -> glr_files l g tb = Some x -> late sr g (table_files table g tb ++ x).

Inductive stuck (sr : spanned_rules) (g : grammar) : res (list report) unit -> Prop :=
| sk_conflicts k cs r : strict_kind alg = Some k -> generates k fuel g false = Ok (BadConflicts cs) -> r = bind (report_conflicts sr g source cs) Err -> stuck sr g r
| sk_panic : stuck sr g Panic
| sk_fuel : (alg = LL1 /\ ll_generate_table fuel g = OutOfFuel) \/ (exists k, strict_kind alg = Some k /\ generates k fuel g false = OutOfFuel) \/ (alg = GLR /\ generates KindLALR fuel g true = OutOfFuel) -> stuck sr g OutOfFuel.

Lemma strict_step : forall k sr g fs, strict_kind alg = Some k -> parser_step create fuel l alg table source sr g fs =
  match generates k fuel g false with
  | Ok (NoConflicts tb) => emit_all create (table_files table g tb ++ lr_files l (names_of sr) g tb) fs
  | Ok (BadConflicts cs) => (fs, bind (report_conflicts sr g source cs) Err)
  | OutOfFuel => (fs, OutOfFuel)
  | _ => (fs, Panic)
  end.
Proof.
  intros k sr g fs H. destruct alg; try discriminate; injection H as <-; unfold parser_step, lr_step, generates, kind_n, kind_lalr; fold (names_of sr);
    match goal with |- context[generate_table ?a ?b ?c ?d ?e] => destruct (generate_table a b c d e) as [[tb|tb cs|cs]| | |] end; try reflexivity; apply emit_all_app.
Qed.

Lemma parser_step_cases : forall sr g fs files r, parser_step create fuel l alg table source sr g fs = (files, r) ->
  (exists x new, late sr g x /\ emit_all create x [] = (new, r) /\ files = fs ++ new) \/
  (exists tb new r0, l = Cpp /\ alg = GLR /\ emit_all create (table_files table g tb) [] = (new, r0) /\ files = fs ++ new /\ r = match r0 with Ok _ => Panic | _ => r0 end) \/
  (files = fs /\ stuck sr g r).
Proof.
  intros sr g fs files r H.
  assert (forall x, emit_all create x fs = (files, r) -> exists new, emit_all create x [] = (new, r) /\ files = fs ++ new) as X.
  { intros x Hx. rewrite emit_all_shift in Hx. destruct (emit_all create x []) as [new r1]. injection Hx as <- <-. eauto. }
  destruct (strict_kind alg) as [k|] eqn:Ek.
  { rewrite (strict_step _ _ _ _ Ek) in H. destruct (generates k fuel g false) as [[tb|tb cs|cs]| | |] eqn:Eg.
    - left. destruct (X _ H) as (new & A & B). exists (table_files table g tb ++ lr_files l (names_of sr) g tb), new. split; auto. eapply lt_lr; eauto.
    - right. right. injection H as <- <-. split; auto. constructor.
    - right. right. injection H as <- <-. split; auto. eapply sk_conflicts; eauto.
    - right. right. injection H as <- <-. split; auto. constructor.
    - right. right. injection H as <- <-. split; auto. constructor.
    - right. right. injection H as <- <-. split; auto. constructor. right. left. eauto. }
  destruct alg eqn:Ea; try discriminate; unfold parser_step in H.
  - destruct (ll_generate_table fuel g) as [tb| | |] eqn:Eg; try (right; right; injection H as <- <-; split; [auto|constructor]; auto).
    destruct (ll_files l g tb) as [x|] eqn:Ex; cbn [emit_or_todo] in H.
    + left. destruct (X _ H) as (new & A & B). exists x, new. split; auto. eapply lt_ll; eauto.
    + right. right. injection H as <- <-. split; auto. constructor.
  - fold (generates KindLALR fuel g true) in H. change (generate_table fuel g 1 true true) with (generates KindLALR fuel g true) in H.
    assert (forall tb, (exists r, generates KindLALR fuel g true = Ok r /\ (r = NoConflicts tb \/ exists cs, r = AllowedConflicts tb cs)) ->
      io_bind (emit_all create (table_files table g tb)) (fun _ => emit_or_todo create (glr_files l g tb)) fs = (files, r) ->
      (exists x new, late sr g x /\ emit_all create x [] = (new, r) /\ files = fs ++ new) \/
      (exists tb new r0, l = Cpp /\ GLR = GLR /\ emit_all create (table_files table g tb) [] = (new, r0) /\ files = fs ++ new /\ r = match r0 with Ok _ => Panic | _ => r0 end)) as Y.
    { intros tb (r1 & E1 & E2) E3. destruct (glr_files l g tb) as [x|] eqn:Ex; cbn [emit_or_todo] in E3.
      - left. rewrite emit_all_app in E3. destruct (X _ E3) as (new & A & B). exists (table_files table g tb ++ x), new. split; auto. eapply lt_glr; eauto.
      - right. exists tb. assert (l = Cpp) as El by (destruct l; [discriminate|reflexivity]).
        unfold io_bind in E3. rewrite emit_all_shift in E3. destruct (emit_all create (table_files table g tb) []) as [new r0]. cbn [fst snd] in E3. exists new, r0.
        destruct r0 as [u|e| |]; unfold pure in E3; injection E3 as <- <-; auto. }
    destruct (generates KindLALR fuel g true) as [[tb|tb cs|cs]| | |] eqn:Eg; try (right; right; injection H as <- <-; split; [auto|constructor]; auto).
    + destruct (Y tb) as [Z|Z]; eauto.
    + destruct (Y tb) as [Z|Z]; eauto 6.
Qed.

(** ** Names of the files *)

Lemma tokens_names : forall names, map fst (tokens_files l names) = token_outputs l.
Proof. intros. destruct l; reflexivity. Qed.
Lemma lexer_names : forall al d, map fst (lexer_files l al d) = lexer_outputs l.
Proof. intros. destruct l; reflexivity. Qed.
Lemma early_names : forall sr fs, early sr fs -> finished (early_outputs l lexer) fs.
Proof.
  intros sr fs (tf & lf & A & -> & B). unfold early_outputs. apply made_finished in A. rewrite tokens_names in A. apply finished_app; auto.
  destruct lexer; [|subst lf; split; auto]. destruct B as (al & d & _ & B). apply made_finished in B. rewrite lexer_names in B. auto.
Qed.
Lemma late_names : forall sr g x, late sr g x -> map fst x = late_outputs l alg table /\ supported l alg.
Proof.
  intros sr g x H. unfold supported. destruct H as [tb x -> A B|k tb A B|r tb x -> A B C].
  - destruct l; [discriminate|]. injection B as <-. split; [reflexivity|]. split; intros [? ?]; discriminate.
  - split; [|destruct alg; try discriminate; split; intros [? ?]; discriminate]. unfold late_outputs. rewrite map_app.
    assert (map fst (table_files table g tb) = match alg with LL1 => [] | _ => if table then ["table"%string] else [] end) as -> by (destruct alg; try discriminate; destruct table; reflexivity).
    f_equal. destruct l; reflexivity.
  - destruct l; [|discriminate]. injection C as <-. split; [|split; intros [? ?]; discriminate]. unfold late_outputs. rewrite map_app. destruct table; reflexivity.
Qed.
End Run.
End Files.

(** ** The files of a run *)

Definition no_err {E A} (r : res E A) : Prop := match r with Err _ => False | _ => True end.
Lemma no_err_bind : forall E A B (r : res E A) (f : A -> res E B), no_err r -> (forall a, r = Ok a -> no_err (f a)) -> no_err (bind r f).
Proof. intros E A B [a|e| |] f H H'; cbn [bind]; auto. Qed.
Lemma no_err_expect : forall E F A (r : res E A), no_err (@expect E F A r).
Proof. intros E F A [a|e| |]; exact I. Qed.
Lemma no_err_list : forall E A (l : list (res E A)), (forall r, In r l -> no_err r) -> no_err (res_list l).
Proof.
  induction l as [|r l IH]; intros H; [exact I|]. assert (no_err r) as Hr by (apply H; left; auto). assert (no_err (res_list l)) as Hl by (apply IH; intros x Hx; apply H; right; auto).
  cbn [res_list]. destruct r; auto. destruct (res_list l); auto.
Qed.
Lemma no_err_location : forall F source span, no_err (@location_of F source span).
Proof. intros. unfold location_of. apply no_err_bind; [apply no_err_expect|intros; exact I]. Qed.
Lemma no_err_item : forall F sr g source it, no_err (@report_item F sr g source it).
Proof.
  intros. unfold report_item. apply no_err_bind; [apply no_err_expect|]. intros t _. apply no_err_bind; [apply no_err_expect|]. intros s _. apply no_err_bind; [apply no_err_location|]. intros; exact I.
Qed.
Lemma no_err_conflicts : forall F sr g source cs, no_err (@report_conflicts F sr g source cs).
Proof.
  intros. apply no_err_list. intros r Hr. apply in_map_iff in Hr. destruct Hr as (c & <- & _). destruct c as [q it s|q its]; cbn [report_conflict].
  - apply no_err_bind; [apply no_err_expect|]. intros n _. apply no_err_bind; [apply no_err_item|]. intros [w t] _. exact I.
  - apply no_err_bind; [|intros; exact I]. apply no_err_list. intros r Hr. apply in_map_iff in Hr. destruct Hr as (it & <- & _). apply no_err_item.
Qed.
Lemma no_err_precedence : forall F sr source e, no_err (@report_precedence F sr source e).
Proof.
  intros F sr source [tied h]. cbn [report_precedence]. apply no_err_bind; [|intros; exact I]. apply no_err_list. intros r Hr. apply in_map_iff in Hr. destruct Hr as (t & <- & _).
  apply no_err_bind; [apply no_err_location|intros; exact I].
Qed.

Lemma conflicts_reports : forall F sr g source cs rs, @report_conflicts F sr g source cs = Ok rs -> Forall conflict_report rs.
Proof.
  intros F sr g source cs rs H. unfold report_conflicts in H. revert rs H. induction cs as [|c cs IH]; intros rs H; cbn [map res_list] in H; [injection H as <-; constructor|].
  apply bind_Ok in H. destruct H as (r & Hr & H). apply bind_Ok in H. destruct H as (rs' & Hs & H). injection H as <-. constructor; auto.
  destruct c as [q it s|q its]; cbn [report_conflict] in Hr.
  - inv_bind Hr. inv_bind Hr. destruct a0 as [w t]. injection Hr as <-. exact I.
  - inv_bind Hr. injection Hr as <-. exact I.
Qed.

Lemma files_ok : forall create fuel read lexer alg table l contents,
  match generate create fuel read lexer alg table l contents with
  | (files, Ok _) => finished (early_outputs l lexer ++ late_outputs l alg table) files /\ supported l alg
  | (files, Err reports) =>
      (contents = None /\ files = [] /\ reports = [IoReport]) \/
      (lexer = true /\ finished (token_outputs l) files /\ exists ties, reports = [PrecedenceReport ties]) \/
      (finished (early_outputs l lexer) files /\ strict_kind alg <> None /\ Forall conflict_report reports)
  | (files, _) => begun (early_outputs l lexer ++ late_outputs l alg table) files
  end.
Proof.
  intros create fuel read lexer alg table l contents. destruct contents as [source|]; [|left; auto].
  destruct (generate create fuel read lexer alg table l (Some source)) as [files r] eqn:E. apply generate_stages in E. destruct E as [E|(sr & g & fs & Hr & He & Hg & E)].
  - destruct E as [A B|A|sr fs r A B C|sr tf tied h r A B C D F|sr tf A B C D|sr tf A B C D|sr tf al d fs r A B C D F G|sr fs A B C].
    + apply begun_nil.
    + apply begun_nil.
    + destruct (emit_all_cases _ _ _ _ _ B) as (new & X & Y). cbn [app] in X. subst new. rewrite tokens_names in Y. unfold early_outputs. rewrite <- app_assoc.
      destruct r as [[]| | |]; try contradiction; destruct Y as [Y _]; apply begun_app; exact Y.
    + apply made_finished in B. rewrite tokens_names in B. pose proof (no_err_precedence (list report) sr source (PrecedenceError tied h)) as X. subst r.
      destruct (report_precedence sr source (PrecedenceError tied h)) as [x|x| |] eqn:Ex; cbn [bind]; try contradiction.
      * right. left. split; auto. split; auto. cbn [report_precedence] in Ex. inv_bind Ex. injection Ex as <-. eauto.
      * unfold early_outputs. rewrite <- app_assoc. apply begun_app. apply finished_begun; auto.
      * unfold early_outputs. rewrite <- app_assoc. apply begun_app. apply finished_begun; auto.
    + apply made_finished in B. rewrite tokens_names in B. unfold early_outputs. rewrite <- app_assoc. apply begun_app. apply finished_begun; auto.
    + apply made_finished in B. rewrite tokens_names in B. unfold early_outputs. rewrite <- app_assoc. apply begun_app. apply finished_begun; auto.
    + apply made_finished in B. rewrite tokens_names in B. destruct (emit_all_cases _ _ _ _ _ F) as (new & X & Y). cbn [app] in X. subst new. rewrite lexer_names in Y.
      assert (forall n, begun (lexer_outputs l) fs -> begun (early_outputs l lexer ++ n) (tf ++ fs)) as Z.
      { intros n Hn. unfold early_outputs. rewrite C. apply begun_app. apply finished_begun_app; auto. }
      destruct r as [[]| | |]; try contradiction; destruct Y as [Y _]; auto.
    + apply early_names in B. apply begun_app. apply finished_begun; auto.
  - apply early_names in He. apply parser_step_cases in E. destruct E as [(x & new & A & B & ->)|[(tb & new & r0 & -> & -> & A & -> & B)|[-> A]]].
    + destruct (late_names _ _ _ _ _ _ _ A) as [C D]. destruct (emit_all_cases _ _ _ _ _ B) as (new' & X & Y). cbn [app] in X. subst new'.
      destruct r as [u|e| |]; try contradiction.
      * split; auto. apply finished_app; auto. apply made_finished in Y. rewrite <- C. auto.
      * destruct Y as [Y _]. apply finished_begun_app; auto. rewrite <- C. auto.
      * destruct Y as [Y _]. apply finished_begun_app; auto. rewrite <- C. auto.
    + destruct (emit_all_cases _ _ _ _ _ A) as (new' & X & Y). cbn [app] in X. subst new'.
      assert (forall n, begun (map fst (table_files table g tb)) n -> begun (early_outputs Cpp lexer ++ late_outputs Cpp GLR table) (fs ++ n)) as Z.
      { intros n Hn. apply finished_begun_app; auto. unfold late_outputs. apply begun_app. destruct table; exact Hn. }
      destruct r0 as [u|e| |]; try contradiction; subst r; apply Z; try apply Y. apply finished_begun. apply made_finished in Y. exact Y.
    + destruct A as [k cs r A B C| |A].
      * pose proof (no_err_conflicts (list report) sr g source cs) as X. subst r. destruct (report_conflicts sr g source cs) as [x|x| |] eqn:Ex; cbn [bind]; try contradiction.
        -- right. right. split; auto. split; [congruence|]. eapply conflicts_reports; eauto.
        -- apply begun_app. apply finished_begun; auto.
        -- apply begun_app. apply finished_begun; auto.
      * apply begun_app. apply finished_begun; auto.
      * apply begun_app. apply finished_begun; auto.
Qed.
