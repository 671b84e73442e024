(** Proofs about printed reports. *)
From Coq Require Import String Ascii List Arith NArith Bool Lia.
From Verif Require Import Base InputModel LexerModel NamesModel NamesSpec NamesVisitProof BootModel PositionModel PipelineModel ReportModel ReportSpec.
Import ListNotations.
Local Open Scope string_scope.
Local Open Scope list_scope.

(** ** Lines *)

Lemma lines_other : forall c r, c <> 10%N -> c <> 13%N -> std_lines (c :: r) = match std_lines r with [] => [[c]] | x :: xs => (c :: x) :: xs end.
Proof. intros c r A B. destruct c as [|p]; [reflexivity|]. do 4 (destruct p as [p|p|]; try reflexivity); congruence. Qed.
Lemma pieces_some : forall l, exists x xs, pieces l = x :: xs.
Proof. intros [|c l]; [exists [], []; reflexivity|]. cbn. destruct (N.eqb c 10); [eauto|]. destruct (pieces l); eauto. Qed.
Lemma lines_piece : forall t r, ~ In 13%N t -> std_lines (t ++ 10%N :: r) = pieces t ++ std_lines r.
Proof.
  induction t as [|c t IH]; intros r H; [reflexivity|]. assert (H' : ~ In 13%N t) by (intros X; apply H; right; exact X). specialize (IH r H'). cbn [pieces]. destruct (N.eqb_spec c 10) as [->|D].
  - cbn [app]. rewrite <- IH. reflexivity.
  - change ((c :: t) ++ 10%N :: r) with (c :: (t ++ 10%N :: r)). rewrite lines_other; [|exact D|intros ->; apply H; left; reflexivity]. rewrite IH. destruct (pieces_some t) as (x & xs & ->). reflexivity.
Qed.
Lemma lines_of_text_proof : forall t, ~ In 13%N t -> std_lines (t ++ [10%N]) = pieces t /\ std_lines t = if (last t 10 =? 10)%N then removelast (pieces t) else pieces t.
Proof.
  intros t H. split; [rewrite (lines_piece t [] H); apply app_nil_r|]. revert H. induction t as [|c t IH]; intros H; [reflexivity|].
  assert (R : ~ In 13%N t) by (intros X; apply H; right; exact X). specialize (IH R). destruct (pieces_some t) as (x & xs & E). destruct (N.eq_dec c 10) as [->|C].
  - change (pieces (10%N :: t)) with ([] :: pieces t). change (std_lines (10%N :: t)) with ([] :: std_lines t). rewrite IH. destruct t as [|d t]; [reflexivity|]. change (last (10%N :: d :: t) 10%N) with (last (d :: t) 10%N).
    destruct (last (d :: t) 10 =? 10)%N; [|reflexivity]. rewrite E. reflexivity.
  - rewrite lines_other; [|exact C|intros ->; apply H; left; reflexivity]. cbn [pieces]. destruct (N.eqb_spec c 10) as [X|_]; [contradiction|]. rewrite IH, E. destruct t as [|d t].
    + injection E as <- <-. cbn. destruct (N.eqb_spec c 10) as [X|_]; [contradiction|reflexivity].
    + change (last (c :: d :: t) 10%N) with (last (d :: t) 10%N). destruct (N.eqb_spec (last (d :: t) 10%N) 10) as [L|L]; [|reflexivity].
      destruct xs as [|y xs]; [|reflexivity]. exfalso. assert (Q : forall a, ~ In 10%N a -> a <> [] -> last a 10%N <> 10%N). { induction a as [|u a IHa]; intros N1 N2; [contradiction|]. destruct a as [|v a]; [cbn; intros ->; apply N1; left; reflexivity|]. change (last (u :: v :: a) 10%N) with (last (v :: a) 10%N). apply IHa; [intros X; apply N1; right; exact X|discriminate]. }
      apply (Q (d :: t)); [|discriminate|exact L]. revert E. clear. generalize (d :: t). intros l. revert x. induction l as [|u l IH]; intros x E X; [destruct X|]. cbn [pieces] in E. destruct (N.eqb_spec u 10) as [->|U]; [injection E as _ E; destruct (pieces_some l) as (? & ? & E'); congruence|].
      destruct X as [X|X]; [congruence|]. destruct (pieces_some l) as (z & zs & E'). rewrite E' in E. injection E as _ E. subst zs. exact (IH z E' X).
Qed.
Lemma piece_one : forall x, ~ In 10%N x -> pieces x = [x].
Proof. induction x as [|c x IH]; intros H; [reflexivity|]. cbn. destruct (N.eqb_spec c 10) as [->|D]; [exfalso; apply H; left; reflexivity|]. rewrite IH; [reflexivity|]. intros X. apply H. right. exact X. Qed.
Lemma unbroken_nl : forall x, unbroken_line x -> ~ In 10%N x. Proof. intros x H X. destruct (H _ X) as (A & _). congruence. Qed.
Lemma unbroken_cr : forall x, unbroken_line x -> ~ In 13%N x. Proof. intros x H X. destruct (H _ X) as (_ & A). congruence. Qed.
Lemma unbroken_app : forall x y, unbroken_line x -> unbroken_line y -> unbroken_line (x ++ y).
Proof. intros x y A B c H. apply in_app_or in H. destruct H as [H|H]; [exact (A c H)|exact (B c H)]. Qed.
Lemma lines_first : forall x r, unbroken_line x -> std_lines (x ++ 10%N :: r) = x :: std_lines r.
Proof. intros x r H. rewrite (lines_piece x r (unbroken_cr x H)), (piece_one x (unbroken_nl x H)). reflexivity. Qed.
Lemma lines_last : forall x, unbroken_line x -> x <> [] -> std_lines x = [x].
Proof.
  induction x as [|c x IH]; intros H N; [congruence|]. destruct (H c (or_introl eq_refl)) as (A & B). rewrite (lines_other _ _ A B). destruct x as [|d x]; [reflexivity|].
  rewrite IH; [reflexivity| |discriminate]. intros e X. apply H. right. exact X.
Qed.
Lemma joined_ended : forall l, l <> [] -> joined [10%N] l ++ [10%N] = ended l.
Proof.
  induction l as [|x l IH]; intros N; [congruence|]. destruct l as [|y l]; [unfold ended; cbn; rewrite app_nil_r; reflexivity|].
  change (joined [10%N] (x :: y :: l)) with (x ++ [10%N] ++ joined [10%N] (y :: l)). rewrite <- !app_assoc, IH by discriminate. unfold ended. cbn [map concat]. rewrite <- !app_assoc. reflexivity.
Qed.
Lemma ended_app : forall a b, ended (a ++ b) = ended a ++ ended b.
Proof. intros a b. unfold ended. rewrite map_app, concat_app. reflexivity. Qed.

(** ** Cutting *)

Lemma cut : forall (A : Type) (c : A) x y r r', ~ In c x -> ~ In c y -> x ++ c :: r = y ++ c :: r' -> x = y /\ r = r'.
Proof.
  intros A c. induction x as [|a x IH]; intros [|b y] r r' H H' E; cbn in E.
  - injection E as ->. auto.
  - injection E as -> _. exfalso. apply H'. left. reflexivity.
  - injection E as -> _. exfalso. apply H. left. reflexivity.
  - injection E as -> E. destruct (IH y r r') as (-> & ->); auto; intros X; [apply H|apply H']; right; exact X.
Qed.
Lemma ended_inj : forall l l', (forall x, In x l -> ~ In 10%N x) -> (forall x, In x l' -> ~ In 10%N x) -> ended l = ended l' -> l = l'.
Proof.
  unfold ended. induction l as [|x l IH]; intros [|y l'] H H' E; cbn [map concat] in E; [reflexivity|destruct y; discriminate|destruct x; discriminate|]. rewrite <- !app_assoc in E.
  destruct (cut _ 10%N x y _ _ (H x (or_introl eq_refl)) (H' y (or_introl eq_refl)) E) as (-> & E'). rewrite (IH l'); auto; intros z Z; [apply H|apply H']; right; exact Z.
Qed.
Lemma pieces_inj : forall a b, pieces a = pieces b -> a = b.
Proof.
  assert (J : forall a, joined [10%N] (pieces a) = a).
  { induction a as [|c a IH]; [reflexivity|]. cbn [pieces]. destruct (pieces_some a) as (x & xs & E). rewrite E in *. destruct (N.eqb_spec c 10) as [->|D].
    - change (joined [10%N] ([] :: x :: xs)) with (10%N :: joined [10%N] (x :: xs)). rewrite IH. reflexivity.
    - destruct xs as [|y xs]; [cbn in IH |- *; rewrite IH; reflexivity|]. change (joined [10%N] ((c :: x) :: y :: xs)) with (c :: joined [10%N] (x :: y :: xs)). rewrite IH. reflexivity. }
  intros a b E. rewrite <- (J a), <- (J b), E. reflexivity.
Qed.
Lemma pieces_no_nl : forall a x, In x (pieces a) -> ~ In 10%N x.
Proof.
  induction a as [|c a IH]; intros x H; [destruct H as [<-|[]]; intros []|]. cbn [pieces] in H. destruct (N.eqb_spec c 10) as [->|D].
  - destruct H as [<-|H]; [intros []|exact (IH x H)].
  - destruct (pieces_some a) as (y & ys & E). rewrite E in H, IH. destruct H as [<-|H]; [|apply IH; right; exact H]. intros [X|X]; [congruence|]. exact (IH y (or_introl eq_refl) X).
Qed.
Lemma bytes_inj : forall a b, bytes a = bytes b -> a = b.
Proof.
  unfold bytes. intros a b E. rewrite <- (string_of_list_ascii_of_string a), <- (string_of_list_ascii_of_string b). f_equal. revert E. generalize (list_ascii_of_string a) (list_ascii_of_string b).
  induction l as [|x l IH]; intros [|y l'] E; try discriminate; [reflexivity|]. cbn in E. injection E as E1 E2. rewrite (IH l' E2). f_equal. rewrite <- (ascii_N_embedding x), <- (ascii_N_embedding y), E1. reflexivity.
Qed.

(** ** Layout *)

Section Layout.
Variables (paint : style -> list N -> list N) (before after : style -> list N) (file reason : list N).
Hypothesis pt : painted paint before after.

Lemma paint_unbroken : forall s x, unbroken_line x -> unbroken_line (paint s x).
Proof. intros s x H. rewrite (pt_paint _ _ _ pt). apply unbroken_app; [apply (pt_before _ _ _ pt)|]. apply unbroken_app; [exact H|apply (pt_after _ _ _ pt)]. Qed.
Definition unbrokenb (l : list N) : bool := forallb (fun c => negb (N.eqb c 10) && negb (N.eqb c 13)) l.
Lemma unbrokenb_ok : forall l, unbrokenb l = true -> unbroken_line l.
Proof. intros l H c I. unfold unbrokenb in H. rewrite forallb_forall in H. specialize (H c I). apply andb_true_iff in H. destruct H as (A & B). apply negb_true_iff, N.eqb_neq in A. apply negb_true_iff, N.eqb_neq in B. auto. Qed.
Lemma decimal_chars : forall n c, In c (bytes (decimal n)) -> (48 <= c <= 57)%N.
Proof.
  intros n c. pose proof (decimal_digits n) as H. unfold bytes. induction (decimal n) as [|a s IH]; intros I; [destruct I|]. cbn in H, I. destruct H as (A & B). destruct I as [<-|I]; [exact A|exact (IH B I)].
Qed.
Lemma decimal_unbroken : forall n, unbroken_line (bytes (decimal n)).
Proof. intros n c I. apply decimal_chars in I. lia. Qed.
Lemma tildes_unbroken : forall n, unbroken_line (repeat 126%N n).
Proof. intros n c I. apply repeat_spec in I. subst c. split; discriminate. Qed.
Lemma state_unbroken : forall s, unbroken_line (state_line paint s).
Proof. intros s. unfold state_line, bold. apply unbroken_app; [apply unbrokenb_ok; reflexivity|]. apply unbroken_app; [|apply unbrokenb_ok; reflexivity]. apply paint_unbroken, decimal_unbroken. Qed.
Lemma tabbed_unbroken : forall s, readable_name s -> unbroken_line (tabbed paint s).
Proof. intros s H. unfold tabbed. change (unbroken_line ([9%N] ++ bold paint s)). apply unbroken_app; [apply unbrokenb_ok; reflexivity|]. apply paint_unbroken, H. Qed.

Lemma section_written : forall w contents said, readable_location w -> std_lines contents = said ->
  write_section paint file w contents ++ [10%N] = ended (section_lines paint file w said).
Proof.
  intros w contents said R S. unfold write_section, section_lines. change (ended (?x :: ?l)) with ((x ++ [10%N]) ++ ended l). unfold place_line, number_text. rewrite <- !app_assoc. do 9 f_equal.
  assert (E : std_lines (section_text paint w contents) = pieces (lc_text w) ++ [underline paint w; []] ++ said).
  { unfold section_text. change ([10%N] ++ ?x) with (10%N :: x) at 1. rewrite (lines_piece _ _ R). f_equal. change ([10; 10]%N ++ contents) with (10%N :: 10%N :: contents).
    rewrite lines_first by (apply paint_unbroken, tildes_unbroken). change (std_lines (10%N :: contents)) with ([] :: std_lines contents). rewrite S. reflexivity. }
  rewrite E, joined_ended by discriminate. unfold margin. rewrite <- !app_assoc. reflexivity.
Qed.
Lemma shift_said : forall state name item, readable_name name -> readable_name item ->
  std_lines (shift_contents paint state name item) = [state_line paint state; bytes "Could shift token"; tabbed paint name; bytes "Or reduce item"; tabbed paint item].
Proof.
  intros state name item A B. assert (E : shift_contents paint state name item = state_line paint state ++ 10%N :: bytes "Could shift token" ++ 10%N :: tabbed paint name ++ 10%N :: bytes "Or reduce item" ++ 10%N :: tabbed paint item).
  { unfold shift_contents, state_line, tabbed, bold, number_text. rewrite <- !app_assoc. reflexivity. }
  rewrite E, lines_first by apply state_unbroken. rewrite lines_first by (apply unbrokenb_ok; reflexivity). rewrite lines_first by (apply tabbed_unbroken, A). rewrite lines_first by (apply unbrokenb_ok; reflexivity).
  rewrite lines_last; [reflexivity|apply tabbed_unbroken, B|discriminate].
Qed.
Lemma reduce_said : forall state item, readable_name item -> std_lines (reduce_contents paint state item) = [state_line paint state; bytes "Could reduce this item:"; tabbed paint item].
Proof.
  intros state item A. assert (E : reduce_contents paint state item = state_line paint state ++ 10%N :: bytes "Could reduce this item:" ++ 10%N :: tabbed paint item).
  { unfold reduce_contents, state_line, tabbed, bold, number_text. rewrite <- !app_assoc. reflexivity. }
  rewrite E, lines_first by apply state_unbroken. rewrite lines_first by (apply unbrokenb_ok; reflexivity). rewrite lines_last; [reflexivity|apply tabbed_unbroken, A|discriminate].
Qed.
Lemma precedence_said : forall rule, readable_name rule -> std_lines (precedence_contents paint rule) = [bytes "Token has identical precedence:"; tabbed paint rule].
Proof.
  intros rule A. assert (E : precedence_contents paint rule = bytes "Token has identical precedence:" ++ 10%N :: tabbed paint rule) by reflexivity.
  rewrite E, lines_first by (apply unbrokenb_ok; reflexivity). rewrite lines_last; [reflexivity|apply tabbed_unbroken, A|discriminate].
Qed.
Lemma sections_written : forall contents said l, (forall w s, In (w, s) l -> readable_location w /\ std_lines (contents s) = said s) -> l <> [] ->
  write_sections paint file contents l ++ [10%N] = ended (concat (map (fun x => section_lines paint file (fst x) (snd x)) (map (fun x => (fst x, said (snd x))) l))).
Proof.
  intros contents said. induction l as [|(w, s) l IH]; intros H N; [congruence|]. destruct (H w s (or_introl eq_refl)) as (A & B). cbn [map concat fst snd]. rewrite ended_app, <- (section_written w (contents s) (said s) A B).
  cbn [write_sections]. destruct l as [|y l]; [cbn; rewrite !app_nil_r; reflexivity|]. rewrite <- IH; [|intros w' s' X; apply H; right; exact X|discriminate]. rewrite <- !app_assoc. reflexivity.
Qed.
Lemma report_written : forall r, readable r -> display_report paint file reason r ++ [10%N] = ended (report_lines paint file reason r).
Proof.
  intros r R. unfold display_report, report_lines. change (ended (?x :: ?l)) with ((x ++ [10%N]) ++ ended l). replace (report_message r) with (bytes (report_title r)) by (destruct r; reflexivity). rewrite <- !app_assoc. do 4 f_equal.
  destruct r as [|state name w item|state l|l]; cbn [readable display_type report_sections] in *.
  - unfold ended. cbn [map concat]. rewrite app_nil_r, <- !app_assoc. reflexivity.
  - destruct R as (A & B & C). cbn [map concat fst snd]. rewrite app_nil_r. apply section_written; [exact B|apply shift_said; assumption].
  - destruct R as (A & B). apply (sections_written (reduce_contents paint state) (fun s => [state_line paint state; bytes "Could reduce this item:"; tabbed paint s])); [|exact A].
    intros w s I. destruct (B w s I) as (C & D). split; [exact C|apply reduce_said, D].
  - destruct R as (A & B). apply (sections_written (precedence_contents paint) (fun s => [bytes "Token has identical precedence:"; tabbed paint s])); [|exact A].
    intros w s I. destruct (B w s I) as (C & D). split; [exact C|apply precedence_said, D].
Qed.
Lemma reports_layout_proof : forall l, Forall readable l -> print_reports paint file reason l = ended (reports_lines paint file reason l).
Proof.
  induction l as [|r l IH]; intros H; [reflexivity|]. inversion H as [|? ? R F]; subst. cbn [print_reports reports_lines]. destruct l as [|r' l].
  - cbn [print_reports]. rewrite !app_nil_r. exact (report_written r R).
  - rewrite !ended_app, <- (report_written r R), <- (IH F), <- !app_assoc. reflexivity.
Qed.

(** ** Reading *)

Lemma margin_inj : forall x y, margin paint x = margin paint y -> x = y.
Proof. intros x y E. unfold margin in E. do 3 apply app_inv_head in E. exact E. Qed.
Lemma place_not_margin : forall w x, place_line paint file w <> margin paint x.
Proof.
  intros w x E. unfold place_line, margin in E. rewrite !(pt_paint _ _ _ pt), <- !app_assoc in E. pose proof (pt_first _ _ _ pt BoldBlue) as F. destruct (before BoldBlue) as [|c b].
  - discriminate.
  - cbn in E, F. injection E as E _. congruence.
Qed.
Lemma paint_inj : forall s x y, paint s x = paint s y -> x = y.
Proof. intros s x y E. rewrite !(pt_paint _ _ _ pt) in E. apply app_inv_head, app_inv_tail in E. exact E. Qed.
Lemma bold_inj : forall a b, bold paint a = bold paint b -> a = b.
Proof. intros a b E. exact (bytes_inj _ _ (paint_inj _ _ _ E)). Qed.
Lemma tabbed_inj : forall a b, tabbed paint a = tabbed paint b -> a = b.
Proof. intros a b E. unfold tabbed in E. injection E as E. exact (bold_inj _ _ E). Qed.
Lemma state_inj : forall a b, state_line paint a = state_line paint b -> a = b.
Proof. intros a b E. unfold state_line in E. apply app_inv_head, app_inv_tail, bold_inj, decimal_inj in E. lia. Qed.
Lemma place_inj : forall w w', place_line paint file w = place_line paint file w' -> lc_pos w = lc_pos w'.
Proof.
  intros ((l, c), t) ((l', c'), t') E. unfold place_line in E. cbn [lc_pos sp_line sp_col] in *. do 5 apply app_inv_head in E. change (bytes ":" ++ ?x) with (58%N :: x) in E.
  assert (D : forall n, ~ In 58%N (bytes (decimal n))) by (intros n I; apply decimal_chars in I; lia). apply cut in E; [|apply D|apply D]. destruct E as (E1 & E2).
  apply bytes_inj, decimal_inj in E1, E2. subst. reflexivity.
Qed.
Definition body (w : location) (said : list (list N)) : list (list N) := [[]] ++ pieces (lc_text w) ++ [underline paint w; []] ++ said ++ [[]].
Lemma app_same_length : forall (A : Type) (b b' a a' : list A), List.length b = List.length b' -> a ++ b = a' ++ b' -> a = a' /\ b = b'.
Proof.
  intros A b b' a a' L E. assert (L' : List.length a = List.length a') by (apply (f_equal (@List.length A)) in E; rewrite !app_length in E; lia). revert a' L' E.
  induction a as [|x a IH]; intros [|y a'] L' E; cbn in L'; try lia; [auto|]. cbn in E. injection E as -> E. destruct (IH a' ltac:(lia) E) as (-> & ->). auto.
Qed.
Lemma section_inj : forall w w' said said', place_line paint file w = place_line paint file w' -> body w said = body w' said' -> List.length said = List.length said' -> w = w' /\ said = said'.
Proof.
  intros w w' said said' P B L. apply place_inj in P. unfold body in B. apply app_inv_head, app_same_length in B; [|cbn [List.length app]; rewrite !app_length; cbn [List.length]; lia]. destruct B as (B1 & B2).
  apply pieces_inj in B1. split; [destruct w, w'; cbn in *; subst; reflexivity|]. apply app_same_length in B2; [|rewrite !app_length, L; reflexivity]. destruct B2 as (_ & B2). apply app_inv_tail in B2. exact B2.
Qed.
Lemma cons_inv : forall (A : Type) (x y : A) l l', x :: l = y :: l' -> x = y /\ l = l'. Proof. intros A x y l l' E. inversion E. auto. Qed.
Lemma strip : forall p q R R', (forall x R1, R = x :: R1 -> forall y, x <> margin paint y) -> (forall x R1, R' = x :: R1 -> forall y, x <> margin paint y) -> map (margin paint) p ++ R = map (margin paint) q ++ R' -> p = q /\ R = R'.
Proof.
  induction p as [|a p IH]; intros [|b q] R R' H H' E; cbn in E.
  - auto.
  - exfalso. exact (H _ _ E b eq_refl).
  - exfalso. symmetry in E. exact (H' _ _ E a eq_refl).
  - apply cons_inv in E. destruct E as (E1 & E2). apply margin_inj in E1. destruct (IH q R R' H H' E2) as (-> & ->). subst. auto.
Qed.
Definition sections_of (S : list (location * list (list N))) : list (list N) := concat (map (fun x => section_lines paint file (fst x) (snd x)) S).
Lemma sections_head : forall S x R, sections_of S = x :: R -> forall y, x <> margin paint y.
Proof. intros [|(w, said) S] x R E y; [discriminate|]. unfold sections_of in E. cbn in E. injection E as <- _. apply place_not_margin. Qed.
Lemma sections_inj : forall S S', (forall a b, In a S -> In b S' -> List.length (snd a) = List.length (snd b)) -> sections_of S = sections_of S' -> S = S'.
Proof.
  induction S as [|(w, said) S IH]; intros [|(w', said') S'] L E; [reflexivity|discriminate|discriminate|].
  assert (U : forall w said S, sections_of ((w, said) :: S) = place_line paint file w :: (map (margin paint) (body w said) ++ sections_of S)) by reflexivity. rewrite !U in E. apply cons_inv in E. destruct E as (E1 & E2).
  destruct (strip _ _ _ _ (sections_head S) (sections_head S') E2) as (B & R). destruct (section_inj _ _ _ _ E1 B (L _ _ (or_introl eq_refl) (or_introl eq_refl))) as (-> & ->). f_equal. apply IH; [|exact R].
  intros a b A C. apply L; right; assumption.
Qed.
Lemma map_inj : forall (A B : Type) (f : A -> B) l l', (forall x y, f x = f y -> x = y) -> map f l = map f l' -> l = l'.
Proof. intros A B f. induction l as [|x l IH]; intros [|y l'] H E; cbn in E; try discriminate; [reflexivity|]. apply cons_inv in E. destruct E as (E1 & E2). rewrite (H _ _ E1), (IH l' H E2). reflexivity. Qed.
Lemma said_length : forall r x, In x (report_sections paint r) -> List.length (snd x) = match r with ShiftReduceReport _ _ _ _ => 5 | ReduceReduceReport _ _ => 3 | _ => 2 end%nat.
Proof.
  intros [|state name w item|state l|l] x H; cbn [report_sections] in H.
  - destruct H.
  - destruct H as [<-|[]]. reflexivity.
  - apply in_map_iff in H. destruct H as (y & <- & _). reflexivity.
  - apply in_map_iff in H. destruct H as (y & <- & _). reflexivity.
Qed.
Lemma report_inj : forall r r', readable r -> readable r' -> report_lines paint file reason r = report_lines paint file reason r' -> r = r'.
Proof.
  intros r r' H H' E. unfold report_lines in E. apply cons_inv in E. destruct E as (T & E). do 2 apply app_inv_head in T. apply bytes_inj in T.
  assert (K : match r with IoReport => True | _ => report_sections paint r = report_sections paint r' end).
  { destruct r as [|s n w i|s l|l], r' as [|s' n' w' i'|s' l'|l']; try discriminate T; try exact Logic.I; (apply sections_inj; [|exact E]; intros a b A B; rewrite (said_length _ _ A), (said_length _ _ B); reflexivity). }
  clear E. destruct r as [|s n w i|s l|l], r' as [|s' n' w' i'|s' l'|l']; try discriminate T; [reflexivity| | |]; cbn [report_sections] in K.
  - apply cons_inv in K. destruct K as (K & _). apply pair_equal_spec in K. destruct K as (-> & K). apply cons_inv in K. destruct K as (K1 & K). apply cons_inv in K. destruct K as (_ & K). apply cons_inv in K. destruct K as (K2 & K).
    apply cons_inv in K. destruct K as (_ & K). apply cons_inv in K. destruct K as (K3 & _). rewrite (state_inj _ _ K1), (tabbed_inj _ _ K2), (tabbed_inj _ _ K3). reflexivity.
  - assert (s = s') as ->. { destruct l as [|x l]; [destruct H as (X & _); congruence|]. destruct l' as [|x' l']; [discriminate|]. cbn [map] in K. apply cons_inv in K. destruct K as (K & _). apply pair_equal_spec in K. destruct K as (_ & K). apply cons_inv in K. destruct K as (K & _). exact (state_inj _ _ K). }
    f_equal. revert K. apply map_inj. intros (w1, t1) (w2, t2) X. cbn [fst snd] in X. apply pair_equal_spec in X. destruct X as (-> & X). do 2 (apply cons_inv in X; destruct X as (_ & X)). apply cons_inv in X. destruct X as (X & _). rewrite (tabbed_inj _ _ X). reflexivity.
  - f_equal. revert K. apply map_inj. intros (w1, t1) (w2, t2) X. cbn [fst snd] in X. apply pair_equal_spec in X. destruct X as (-> & X). apply cons_inv in X. destruct X as (_ & X). apply cons_inv in X. destruct X as (X & _). rewrite (tabbed_inj _ _ X). reflexivity.
Qed.

(** No line is empty, and none contains the end of a line. *)
Hypothesis one_file : unbroken_line file.
Hypothesis one_reason : unbroken_line reason.
Lemma margin_line : forall x, ~ In 10%N x -> margin paint x <> [] /\ ~ In 10%N (margin paint x).
Proof.
  intros x H. split; [discriminate|]. unfold margin. intros I. apply in_app_or in I. destruct I as [I|I]; [revert I; apply unbroken_nl, unbrokenb_ok; reflexivity|]. apply in_app_or in I.
  destruct I as [I|I]; [revert I; apply unbroken_nl, paint_unbroken, unbrokenb_ok; reflexivity|]. destruct I as [I|[I|I]]; [discriminate|discriminate|exact (H I)].
Qed.
Lemma place_unbroken : forall w, unbroken_line (place_line paint file w).
Proof.
  intros w. unfold place_line. repeat (apply unbroken_app; [first [apply unbrokenb_ok; reflexivity|apply paint_unbroken, unbrokenb_ok; reflexivity|exact one_file|apply decimal_unbroken]|]). apply decimal_unbroken.
Qed.
Lemma section_plain : forall w said x, (forall y, In y said -> unbroken_line y) -> In x (section_lines paint file w said) -> x <> [] /\ ~ In 10%N x.
Proof.
  intros w said x H I. destruct I as [<-|I]; [split; [discriminate|apply unbroken_nl, place_unbroken]|]. apply in_map_iff in I. destruct I as (y & <- & I). apply margin_line.
  rewrite !in_app_iff in I. destruct I as [[<-|[]]|[I|[[<-|[<-|[]]]|[I|[<-|[]]]]]]; [intros []|exact (pieces_no_nl _ _ I)|apply unbroken_nl, paint_unbroken, tildes_unbroken|intros []|exact (unbroken_nl _ (H y I))|intros []].
Qed.
Lemma report_plain : forall r x, readable r -> In x (report_lines paint file reason r) -> x <> [] /\ ~ In 10%N x.
Proof.
  intros r x H I. destruct I as [<-|I].
  - split; [destruct (paint BoldRed (bytes "error")); discriminate|]. apply unbroken_nl, unbroken_app; [apply paint_unbroken, unbrokenb_ok; reflexivity|]. apply unbroken_app; [apply unbrokenb_ok; reflexivity|]. destruct r; apply unbrokenb_ok; reflexivity.
  - assert (J : r = IoReport \/ exists w said, In (w, said) (report_sections paint r) /\ In x (section_lines paint file w said)).
    { destruct r; [left; reflexivity| | |]; right; apply in_concat in I; destruct I as (L & A & B); apply in_map_iff in A; destruct A as ((w, said) & <- & A); exists w, said; split; assumption. }
    destruct J as [->|(w & said & A & B)].
    + destruct I as [<-|[<-|[]]]; (split; [discriminate|]); apply unbroken_nl, unbroken_app; try (apply unbrokenb_ok; reflexivity); assumption.
    + apply (section_plain w said x); [|exact B]. intros y Y. destruct r as [|s n w' i|s l|l]; cbn [report_sections readable] in A, H.
      * destruct A.
      * destruct A as [A|[]]. apply pair_equal_spec in A. destruct A as (_ & <-). destruct H as (H1 & _ & H2). destruct Y as [<-|[<-|[<-|[<-|[<-|[]]]]]]; first [apply state_unbroken|apply tabbed_unbroken; assumption|apply unbrokenb_ok; reflexivity].
      * apply in_map_iff in A. destruct A as ((w1, t) & A & In1). apply pair_equal_spec in A. destruct A as (_ & <-). destruct (proj2 H _ _ In1) as (_ & T). destruct Y as [<-|[<-|[<-|[]]]]; first [apply state_unbroken|apply tabbed_unbroken; exact T|apply unbrokenb_ok; reflexivity].
      * apply in_map_iff in A. destruct A as ((w1, t) & A & In1). apply pair_equal_spec in A. destruct A as (_ & <-). destruct (proj2 H _ _ In1) as (_ & T). destruct Y as [<-|[<-|[]]]; first [apply tabbed_unbroken; exact T|apply unbrokenb_ok; reflexivity].
Qed.
Lemma reports_no_nl : forall l, Forall readable l -> forall x, In x (reports_lines paint file reason l) -> ~ In 10%N x.
Proof.
  induction l as [|r l IH]; intros H x I; [destruct I|]. inversion H as [|? ? R F]; subst. cbn [reports_lines] in I. destruct l as [|r' l]; [exact (proj2 (report_plain r x R I))|].
  apply in_app_or in I. destruct I as [I|[<-|I]]; [exact (proj2 (report_plain r x R I))|intros []|exact (IH F x I)].
Qed.
Lemma lines_inj : forall l l', Forall readable l -> Forall readable l' -> reports_lines paint file reason l = reports_lines paint file reason l' -> l = l'.
Proof.
  assert (N : forall r, readable r -> ~ In [] (report_lines paint file reason r)) by (intros r R I; destruct (report_plain r [] R I) as (X & _); congruence).
  assert (S : forall r l, reports_lines paint file reason (r :: l) <> []) by (intros r [|r' l]; discriminate).
  induction l as [|r l IH]; intros [|r' l'] H H' E; [reflexivity|symmetry in E; exfalso; exact (S _ _ E)|exfalso; exact (S _ _ E)|]. inversion H as [|? ? R F]; subst. inversion H' as [|? ? R' F']; subst.
  cbn [reports_lines] in E. destruct l as [|a l], l' as [|a' l'].
  - rewrite (report_inj _ _ R R' E). reflexivity.
  - exfalso. apply (N r R). rewrite E. apply in_or_app. right. left. reflexivity.
  - exfalso. apply (N r' R'). rewrite <- E. apply in_or_app. right. left. reflexivity.
  - change ([[]] ++ ?x) with ([] :: x) in E. apply cut in E; [|exact (N r R)|exact (N r' R')]. destruct E as (E1 & E2). rewrite (report_inj _ _ R R' E1), (IH _ F F' E2). reflexivity.
Qed.
Lemma reports_told_proof : forall l l', Forall readable l -> Forall readable l' -> print_reports paint file reason l = print_reports paint file reason l' -> l = l'.
Proof.
  intros l l' H H' E. rewrite (reports_layout_proof l H), (reports_layout_proof l' H') in E. apply ended_inj in E; [|exact (reports_no_nl l H)|exact (reports_no_nl l' H')]. exact (lines_inj l l' H H' E).
Qed.
End Layout.

(** The underline. *)
Lemma len_some : forall c, (1 <= len_utf8 c)%N. Proof. intros c. unfold len_utf8. destruct (c <? 128)%N, (c <? 2048)%N, (c <? 65536)%N; discriminate. Qed.
Lemma len_one : forall c, len_utf8 c = 1%N <-> (c < 128)%N.
Proof. intros c. unfold len_utf8. destruct (N.ltb_spec c 128) as [L|L]; [tauto|]. split; [|lia]. destruct (c <? 2048)%N, (c <? 65536)%N; discriminate. Qed.
Lemma len_least : forall l, (N.of_nat (List.length l) <= byte_len l)%N.
Proof. induction l as [|c l IH]; [reflexivity|]. change (byte_len (c :: l)) with (len_utf8 c + byte_len l)%N. cbn [List.length]. pose proof (len_some c). lia. Qed.
Lemma len_ascii : forall l, byte_len l = N.of_nat (List.length l) <-> Forall (fun c => (c < 128)%N) l.
Proof.
  induction l as [|c l IH]; [split; [constructor|reflexivity]|]. change (byte_len (c :: l)) with (len_utf8 c + byte_len l)%N. cbn [List.length]. pose proof (len_some c). pose proof (len_least l). split.
  - intros E. constructor; [apply len_one|apply IH]; lia.
  - intros F. inversion F as [|? ? A B]; subst. apply len_one in A. apply IH in B. lia.
Qed.
Lemma underline_proof : forall paint before after where_, painted paint before after ->
  (underline paint where_ = before BoldRed ++ repeat 126%N (List.length (lc_text where_)) ++ after BoldRed <-> Forall (fun c => (c < 128)%N) (lc_text where_)).
Proof.
  intros paint before after w pt. unfold underline. rewrite (pt_paint _ _ _ pt), <- len_ascii. split.
  - intros E. apply app_inv_head, app_inv_tail in E. apply (f_equal (@List.length N)) in E. rewrite !repeat_length in E. lia.
  - intros E. rewrite E, Nat2N.id. reflexivity.
Qed.
