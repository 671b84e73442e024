(** Proofs about the small part of C++ of CppTextSpec.v: reading text piece by piece, decimal numbers, parsing and running with enough fuel. *)
From Coq Require Import String Ascii List Arith NArith ZArith Bool Lia Decimal DecimalString DecimalFacts DecimalN DecimalPos.
From Verif Require Import Base TemplateModel TemplateFiles NamesModel CppTextModel CppTextSpec.
Import ListNotations.
Local Open Scope string_scope.
Local Open Scope list_scope.

(** ** Scanning *)

Lemma scan_app : forall a b m l m' l' m'', scan m a = Some (l, m') -> scan m' b = Some (l', m'') -> scan m (a ++ b) = Some (l ++ l', m'').
Proof.
  induction a as [|c a IH]; intros b m l m' l' m'' H H'.
  - cbn in H. injection H as <- <-. exact H'.
  - change ((c :: a) ++ b) with (c :: (a ++ b)). cbn [scan] in *. destruct (scan_char m c) as [[l1 m1]|]; [|discriminate]. destruct (scan m1 a) as [[l2 m2]|] eqn:E; [|discriminate].
    injection H as <- <-. rewrite (IH b m1 _ _ _ _ E H'). rewrite app_assoc. reflexivity.
Qed.

(** A piece of text that is tokens of its own. *)
Definition scans (t : text) (l : list tok) : Prop := scan Blank t = Some (l, Blank).
Lemma scans_nil : scans [] []. Proof. reflexivity. Qed.
Lemma scans_app : forall a b l m, scans a l -> scans b m -> scans (a ++ b) (l ++ m).
Proof. intros a b l m H K. exact (scan_app _ _ _ _ _ _ _ H K). Qed.
Lemma scans_tokens : forall t l, scans t l -> tokens t = Some l.
Proof. intros t l H. unfold tokens. rewrite H. reflexivity. Qed.
Lemma scans_concat : forall {A} (f : A -> text) (g : A -> list tok) l, (forall a, In a l -> scans (f a) (g a)) -> scans (concat (map f l)) (concat (map g l)).
Proof. intros A f g. induction l as [|a l IH]; intros H; [exact scans_nil|]. cbn. apply scans_app; [apply H; left; reflexivity|]. apply IH. intros b B. apply H. right. exact B. Qed.
Lemma scans_lines : forall (l : list string) (f : string -> list tok), (forall s, In s l -> scans (line s) (f s)) -> scans (lines l) (concat (map f l)).
Proof. intros l f H. unfold lines. apply scans_concat. exact H. Qed.
Lemma lines_cons : forall s l, lines (s :: l) = line s ++ lines l. Proof. reflexivity. Qed.

(** Words. *)
Fixpoint wordy (s : string) : bool := match s with EmptyString => true | String c s => word_char (N_of_ascii c) && wordy s end.
Lemma chars_app : forall a b, chars (String.append a b) = chars a ++ chars b.
Proof. intros a b. unfold chars. induction a as [|c a IH]; [reflexivity|]. cbn. f_equal. exact IH. Qed.
Lemma append_assoc : forall a b c : string, String.append (String.append a b) c = String.append a (String.append b c).
Proof. induction a as [|x a IH]; intros b c; [reflexivity|]. cbn. f_equal. apply IH. Qed.
Lemma append_nil : forall a : string, String.append a "" = a.
Proof. induction a as [|x a IH]; [reflexivity|]. cbn. f_equal. exact IH. Qed.
Lemma one_ascii : forall c, one (N_of_ascii c) = String c "".
Proof. intros c. unfold one. rewrite ascii_N_embedding. reflexivity. Qed.
Lemma scan_word : forall s v, wordy s = true -> scan (InWord v) (chars s) = Some ([], InWord (String.append v s)).
Proof.
  induction s as [|c s IH]; intros v W.
  - cbn. rewrite append_nil. reflexivity.
  - cbn in W. apply andb_true_iff in W. destruct W as (W1 & W2). change (chars (String c s)) with (N_of_ascii c :: chars s). cbn [scan scan_char]. rewrite W1, one_ascii.
    rewrite (IH _ W2). rewrite append_assoc. reflexivity.
Qed.
Lemma word_not_space : forall c, word_char c = true -> space_char c = false.
Proof. intros c H. unfold word_char, space_char in *. destruct (c =? 32)%N eqn:E1; [apply N.eqb_eq in E1; subst c; discriminate H|]. destruct (c =? 9)%N eqn:E2; [apply N.eqb_eq in E2; subst c; discriminate H|].
  destruct (c =? 10)%N eqn:E3; [apply N.eqb_eq in E3; subst c; discriminate H|]. destruct (c =? 13)%N eqn:E4; [apply N.eqb_eq in E4; subst c; discriminate H|]. reflexivity. Qed.
Lemma scan_start : forall s, wordy s = true -> s <> "" -> scan Blank (chars s) = Some ([], InWord s).
Proof.
  intros [|c s] W E; [congruence|]. cbn in W. apply andb_true_iff in W. destruct W as (W1 & W2). change (chars (String c s)) with (N_of_ascii c :: chars s). cbn [scan scan_char].
  unfold begin_token. rewrite (word_not_space _ W1), W1. cbn [also]. rewrite one_ascii. rewrite (scan_word s _ W2). reflexivity.
Qed.
Lemma wordy_app : forall a b, wordy (String.append a b) = wordy a && wordy b.
Proof. induction a as [|c a IH]; intros b; [reflexivity|]. cbn. rewrite IH. apply andb_assoc. Qed.

(** ** Decimal numbers *)

Fixpoint uint_value (acc : Z) (d : uint) : Z :=
  (match d with
   | Nil => acc
   | D0 d => uint_value (10 * acc) d
   | D1 d => uint_value (10 * acc + 1) d
   | D2 d => uint_value (10 * acc + 2) d
   | D3 d => uint_value (10 * acc + 3) d
   | D4 d => uint_value (10 * acc + 4) d
   | D5 d => uint_value (10 * acc + 5) d
   | D6 d => uint_value (10 * acc + 6) d
   | D7 d => uint_value (10 * acc + 7) d
   | D8 d => uint_value (10 * acc + 8) d
   | D9 d => uint_value (10 * acc + 9) d
   end)%Z.
Lemma digits_uint : forall d acc, digits_value acc (NilEmpty.string_of_uint d) = Some (uint_value acc d).
Proof.
  induction d; intros acc; try reflexivity; cbn [NilEmpty.string_of_uint digits_value uint_value];
    match goal with |- context [digit ?c] => change (digit c) with true end; cbv iota; rewrite IHd; f_equal; f_equal; cbn; lia.
Qed.
Lemma uint_acc : forall d p, Z.pos (Pos.of_uint_acc d p) = uint_value (Z.pos p) d.
Proof. induction d; intros p; cbn [Pos.of_uint_acc uint_value]; try reflexivity; rewrite IHd; f_equal; lia. Qed.
Lemma uint_of : forall d, Z.of_N (N.of_uint d) = uint_value 0 d.
Proof. unfold N.of_uint. induction d; cbn [Pos.of_uint uint_value]; try reflexivity; try exact IHd; match goal with |- Z.of_N (N.pos (Pos.of_uint_acc ?d ?p)) = _ => exact (uint_acc d p) end. Qed.

Lemma decimal_digits : forall n, digits_value 0 (decimal n) = Some (Z.of_N n).
Proof. intros n. unfold decimal. rewrite digits_uint, <- uint_of, DecimalN.Unsigned.of_to. reflexivity. Qed.
Lemma to_uint_norm : forall n, unorm (N.to_uint n) = N.to_uint n.
Proof. intros n. rewrite <- DecimalN.Unsigned.to_of. rewrite DecimalN.Unsigned.of_to. reflexivity. Qed.
Lemma decimal_number : forall n, number (decimal n) = Some (Z.of_N n).
Proof.
  intros n. pose proof (decimal_digits n) as H. pose proof (to_uint_norm n) as U. unfold decimal in *. unfold unorm in U. destruct (nzhead (N.to_uint n)) eqn:Z.
  - rewrite <- U in *. exact H.
  - exfalso. exact (nzhead_nonzero _ _ Z).
  - rewrite <- U in *. unfold number. cbn [NilEmpty.string_of_uint] in *. destruct (NilEmpty.string_of_uint u); exact H.
  - rewrite <- U in *. unfold number. cbn [NilEmpty.string_of_uint] in *. destruct (NilEmpty.string_of_uint u); exact H.
  - rewrite <- U in *. unfold number. cbn [NilEmpty.string_of_uint] in *. destruct (NilEmpty.string_of_uint u); exact H.
  - rewrite <- U in *. unfold number. cbn [NilEmpty.string_of_uint] in *. destruct (NilEmpty.string_of_uint u); exact H.
  - rewrite <- U in *. unfold number. cbn [NilEmpty.string_of_uint] in *. destruct (NilEmpty.string_of_uint u); exact H.
  - rewrite <- U in *. unfold number. cbn [NilEmpty.string_of_uint] in *. destruct (NilEmpty.string_of_uint u); exact H.
  - rewrite <- U in *. unfold number. cbn [NilEmpty.string_of_uint] in *. destruct (NilEmpty.string_of_uint u); exact H.
  - rewrite <- U in *. unfold number. cbn [NilEmpty.string_of_uint] in *. destruct (NilEmpty.string_of_uint u); exact H.
  - rewrite <- U in *. unfold number. cbn [NilEmpty.string_of_uint] in *. destruct (NilEmpty.string_of_uint u); exact H.
Qed.
Lemma string_of_wordy : forall d, wordy (NilEmpty.string_of_uint d) = true.
Proof. induction d; cbn [NilEmpty.string_of_uint wordy]; try reflexivity; rewrite IHd; reflexivity. Qed.
Lemma decimal_wordy : forall n, wordy (decimal n) = true. Proof. intros n. apply string_of_wordy. Qed.
Lemma decimal_head : forall n, exists c s, decimal n = String c s /\ digit c = true.
Proof.
  intros n. unfold decimal. pose proof (to_uint_norm n) as U. destruct (N.to_uint n); try discriminate U; cbn [NilEmpty.string_of_uint]; eexists; eexists; (split; [reflexivity|reflexivity]).
Qed.
Lemma decimal_token : forall n, word_token (decimal n) = Num (Z.of_N n).
Proof.
  intros n. destruct (decimal_head n) as (c & s & E & D). unfold word_token.
  assert (F : find_name (decimal n) keywords = None).
  { rewrite E. assert (K : forall w k, In (w, k) keywords -> String.eqb (String c s) w = false).
    { intros w k I. apply String.eqb_neq. intros Q. cbn in I. repeat (destruct I as [I|I]; [injection I as <- _; injection Q as -> _; discriminate D|]). destruct I. }
    revert K. generalize keywords. induction l as [|[w k] l IH]; intros K; [reflexivity|]. cbn [find_name]. rewrite (K w k (or_introl eq_refl)). apply IH. intros w' k' I. apply (K w' k'). right. exact I. }
  rewrite F, E, D, <- E, decimal_number. reflexivity.
Qed.
Lemma decimal_nonempty : forall n, decimal n <> "".
Proof. intros n. destruct (decimal_head n) as (c & s & E & _). rewrite E. discriminate. Qed.

(** An identifier that is no keyword, because of its beginning. *)
Lemma enum_token : forall s, word_token (String.append "TK_" s) = Word (String.append "TK_" s). Proof. reflexivity. Qed.
Lemma scan_scope : forall s, wordy s = true -> s <> "" -> scan (InMark "::") (chars s) = Some ([Mark Scope], InWord s).
Proof.
  intros [|c s] W E; [congruence|]. cbn in W. apply andb_true_iff in W. destruct W as (W1 & W2). change (chars (String c s)) with (N_of_ascii c :: chars s). cbn [scan].
  assert (X : scan_char (InMark "::") (N_of_ascii c) = also [Mark Scope] (begin_token (N_of_ascii c))).
  { unfold scan_char. cbn [String.eqb Ascii.eqb Bool.eqb andb]. replace (find_name ("::" ++ one (N_of_ascii c))%string marks) with (@None mark) by reflexivity. rewrite andb_false_r. reflexivity. }
  rewrite X. unfold begin_token. rewrite (word_not_space _ W1), W1. cbn [also]. rewrite one_ascii, (scan_word s _ W2). reflexivity.
Qed.
Lemma scan_quote : forall s v, wordy s = true -> scan (InQuote v) (chars s) = Some ([], InQuote (String.append v s)).
Proof.
  induction s as [|c s IH]; intros v W.
  - cbn. rewrite append_nil. reflexivity.
  - cbn in W. apply andb_true_iff in W. destruct W as (W1 & W2). change (chars (String c s)) with (N_of_ascii c :: chars s). cbn [scan scan_char].
    assert (X : ((N_of_ascii c =? 34) = false /\ ((N_of_ascii c =? 10) || (N_of_ascii c =? 92) || (128 <=? N_of_ascii c)) = false)%N).
    { unfold word_char in W1. generalize dependent (N_of_ascii c). intros n W1. destruct (N.eqb_spec n 34); [subst n; discriminate W1|]. destruct (N.eqb_spec n 10); [subst n; discriminate W1|].
      destruct (N.eqb_spec n 92); [subst n; discriminate W1|]. split; [reflexivity|]. cbn [orb]. apply N.leb_gt. repeat rewrite ?orb_true_iff, ?andb_true_iff, ?N.leb_le, ?N.eqb_eq in W1. lia. }
    destruct X as (X1 & X2). rewrite X1, X2, one_ascii. rewrite (IH _ W2). rewrite append_assoc. reflexivity.
Qed.
Lemma scan_line : forall t, ~ In 10%N t -> forall b, scan (InLine b) t = Some ([], InLine (match t with [] => b | _ => (last t 0 =? 92)%N end)).
Proof.
  induction t as [|c t IH]; intros N b; [reflexivity|]. cbn [scan scan_char]. destruct (N.eqb_spec c 10); [subst c; exfalso; apply N; left; reflexivity|].
  rewrite IH; [|intros X; apply N; right; exact X]. cbn. destruct t; reflexivity.
Qed.

(** ** Enough fuel *)

Lemma ev_const : forall (P : nat -> Prop) k, (forall n, P (k + n)) -> eventually P.
Proof. intros P k H. exists k. intros fuel L. replace fuel with (k + (fuel - k)) by lia. apply H. Qed.
Lemma ev_and : forall P Q : nat -> Prop, eventually P -> eventually Q -> eventually (fun n => P n /\ Q n).
Proof. intros P Q (n & H) (m & K). exists (n + m). intros fuel L. split; [apply H|apply K]; lia. Qed.
Lemma ev_imp : forall (P Q : nat -> Prop) k j, eventually P -> (forall n, P (j + n) -> Q (k + n)) -> eventually Q.
Proof. intros P Q k j (n & H) X. exists (k + n). intros fuel L. replace fuel with (k + (fuel - k)) by lia. apply X. apply H. lia. Qed.
Lemma ev_imp2 : forall (P Q R : nat -> Prop) k j i, eventually P -> eventually Q -> (forall n, P (j + n) -> Q (i + n) -> R (k + n)) -> eventually R.
Proof. intros P Q R k j i (n & H) (m & K) X. exists (k + n + m). intros fuel L. replace fuel with (k + (fuel - k)) by lia. apply X; [apply H|apply K]; lia. Qed.

Definition parses_items (ts : list tok) (b : items) (r : list tok) : Prop := eventually (fun fuel => parse_items fuel ts = Some (b, r)).
Definition parses_stmt (ts : list tok) (s : stmt) (r : list tok) : Prop := eventually (fun fuel => parse_stmt fuel ts = Some (s, r)).
(** The first token belongs to a statement. *)
Definition starts (ts : list tok) : Prop := match ts with [] | Mark RBrace :: _ | Key Case :: _ | Key Default :: _ => False | _ => True end.
Lemma parses_end : forall r, parses_items (Mark RBrace :: r) INil (Mark RBrace :: r).
Proof. intros r. apply (ev_const _ 1). intros n. reflexivity. Qed.
Lemma parses_cons : forall ts s r b r', starts ts -> parses_stmt ts s r -> parses_items r b r' -> parses_items ts (IStmt s b) r'.
Proof.
  intros ts s r b r' S H K. apply (ev_imp2 _ _ _ 1 0 0 H K). intros n P Q. cbn [Nat.add parse_items] in *. destruct ts as [|t ts]; [destruct S|].
  destruct t as [| | | |m|k]; try (rewrite P, Q; reflexivity); [destruct m|destruct k]; try destruct S; rewrite P, Q; reflexivity.
Qed.
Lemma parses_switch : forall e x b r r', eventually (fun fuel => parse_paren fuel e = Some (x, Mark LBrace :: r)) -> parses_items r b (Mark RBrace :: r') -> parses_stmt (Key Switch :: e) (SSwitch x b) r'.
Proof. intros e x b r r' H K. apply (ev_imp2 _ _ _ 1 0 0 H K). intros n P Q. cbn [Nat.add parse_stmt] in *. rewrite P, Q. reflexivity. Qed.
Lemma parses_block : forall b r r', parses_items r b (Mark RBrace :: r') -> parses_stmt (Mark LBrace :: r) (SBlock b) r'.
Proof. intros b r r' H. apply (ev_imp _ _ 1 0 H). intros n P. cbn [Nat.add parse_stmt] in *. rewrite P. reflexivity. Qed.
Lemma parses_while : forall e x s r r', eventually (fun fuel => parse_paren fuel e = Some (x, r)) -> parses_stmt r s r' -> parses_stmt (Key While :: e) (SWhile x s) r'.
Proof. intros e x s r r' H K. apply (ev_imp2 _ _ _ 1 0 0 H K). intros n P Q. cbn [Nat.add parse_stmt] in *. rewrite P, Q. reflexivity. Qed.
Lemma parses_if_else : forall e x s r t r1 r2, eventually (fun fuel => parse_paren fuel e = Some (x, r)) -> parses_stmt r s (Key Else :: r1) -> parses_stmt r1 t r2 -> parses_stmt (Key If :: e) (SIf x s (Some t)) r2.
Proof. intros e x s r t r1 r2 H K J. apply (ev_imp2 _ _ _ 1 0 0 (ev_and _ _ H K) J). intros n (P & Q) R. cbn [Nat.add parse_stmt] in *. rewrite P, Q, R. reflexivity. Qed.
(** A label whose value is a number or an enumerator. *)
Lemma parses_label : forall e x r b r', eventually (fun fuel => parse_expr fuel e = Some (x, Mark Colon :: r)) -> match r with Mark RBrace :: _ => False | _ => True end ->
  parses_items r b r' -> parses_items (Key Case :: e) (ICase x x b) r'.
Proof.
  intros e x r b r' H F K. apply (ev_imp2 _ _ _ 2 1 0 H K). intros n P Q. change (2 + n) with (S (S n)). change (1 + n) with (S n) in P. cbn [Nat.add] in Q. cbn [parse_items]. rewrite P.
  cbn [parse_labelled]. destruct r as [|t r]; [rewrite Q; reflexivity|]. destruct t as [| | | |m|k]; try (rewrite Q; reflexivity). destruct m; try destruct F; rewrite Q; reflexivity.
Qed.
Lemma parses_range : forall e x e' y r b r', eventually (fun fuel => parse_expr fuel e = Some (x, Mark Dots :: e')) -> eventually (fun fuel => parse_expr fuel e' = Some (y, Mark Colon :: r)) ->
  match r with Mark RBrace :: _ => False | _ => True end -> parses_items r b r' -> parses_items (Key Case :: e) (ICase x y b) r'.
Proof.
  intros e x e' y r b r' H H' F K. apply (ev_imp2 _ _ _ 2 1 0 (ev_and _ _ H H') K). intros n (P & P') Q. change (2 + n) with (S (S n)). change (1 + n) with (S n) in P, P'. cbn [Nat.add] in Q. cbn [parse_items]. rewrite P, P'.
  cbn [parse_labelled]. destruct r as [|t r]; [rewrite Q; reflexivity|]. destruct t as [| | | |m|k]; try (rewrite Q; reflexivity). destruct m; try destruct F; rewrite Q; reflexivity.
Qed.
Lemma parses_default : forall r b r', match r with Mark RBrace :: _ => False | _ => True end -> parses_items r b r' -> parses_items (Key Default :: Mark Colon :: r) (IDefault b) r'.
Proof.
  intros r b r' F K. apply (ev_imp _ _ 2 0 K). intros n Q. change (2 + n) with (S (S n)). cbn [Nat.add] in Q. cbn [parse_items parse_labelled].
  destruct r as [|t r]; [rewrite Q; reflexivity|]. destruct t as [| | | |m|k]; try (rewrite Q; reflexivity). destruct m; try destruct F; rewrite Q; reflexivity.
Qed.

(** Searching tokens. *)
Lemma tok_eq_refl : forall t, tok_eq t t = true.
Proof. intros t. destruct t; cbn; try apply String.eqb_refl; try apply Z.eqb_refl; [destruct m|destruct k]; reflexivity. Qed.
Lemma strip_some : forall p a r b, strip_tokens p a = Some r -> strip_tokens p (a ++ b) = Some (r ++ b).
Proof.
  induction p as [|x p IH]; intros a r b H; [cbn in *; injection H as <-; reflexivity|]. destruct a as [|y a]; [discriminate|]. cbn [strip_tokens Datatypes.app] in *.
  destruct (tok_eq x y); [apply IH; exact H|discriminate].
Qed.
Lemma strip_length : forall p a r, strip_tokens p a = Some r -> List.length p <= List.length a.
Proof. induction p as [|x p IH]; intros a r H; [cbn; lia|]. destruct a as [|y a]; [discriminate|]. cbn in *. destruct (tok_eq x y); [|discriminate]. apply IH in H. lia. Qed.
Lemma strip_none : forall p a b, List.length p <= List.length a -> strip_tokens p a = None -> strip_tokens p (a ++ b) = None.
Proof.
  induction p as [|x p IH]; intros a b L H; [discriminate|]. destruct a as [|y a]; [cbn in L; lia|]. cbn [strip_tokens Datatypes.app List.length] in *. destruct (tok_eq x y); [apply IH; [lia|exact H]|reflexivity].
Qed.
Lemma behind_app : forall p a r b, behind p a = Some r -> behind p (a ++ b) = Some (r ++ b).
Proof.
  intros p. assert (L : forall a r, behind p a = Some r -> List.length p <= List.length a).
  { induction a as [|y a IH]; intros r H; cbn [behind] in H; destruct (strip_tokens p _) eqn:E; try discriminate; try exact (strip_length _ _ _ E). apply IH in H. cbn. lia. }
  induction a as [|y a IH]; intros r b H.
  - cbn [behind] in H. destruct (strip_tokens p []) eqn:E; [|discriminate]. injection H as <-. destruct p; [|discriminate]. cbn in E. injection E as <-. destruct b; reflexivity.
  - pose proof (L _ _ H) as LL. cbn [behind] in H. destruct (strip_tokens p (y :: a)) eqn:E.
    + injection H as <-. change ((y :: a) ++ b) with (y :: (a ++ b)). cbn [behind]. change (y :: (a ++ b)) with ((y :: a) ++ b). rewrite (strip_some _ _ _ b E). reflexivity.
    + change ((y :: a) ++ b) with (y :: (a ++ b)). cbn [behind]. change (y :: (a ++ b)) with ((y :: a) ++ b). rewrite (strip_none _ _ b LL E). apply IH. exact H.
Qed.

(** ** Running *)

Section Running.
Variables (P : program) (ext : externals).
Definition runs (st : store) (b : items) (st' : store) (r : result) : Prop := eventually (fun fuel => exec_items fuel P ext st b = Some (st', r)).
Notation does := (does P ext).

Lemma runs_nil : forall st, runs st INil st RNext.
Proof. intros st. apply (ev_const _ 1). reflexivity. Qed.
Lemma runs_cons : forall st s st1 b st' r, does st s st1 RNext -> runs st1 b st' r -> runs st (IStmt s b) st' r.
Proof. intros st s st1 b st' r H K. apply (ev_imp2 _ _ _ 1 0 0 H K). intros n X Y. cbn [Nat.add exec_items] in *. rewrite X. exact Y. Qed.
Lemma runs_stop : forall st s st' r b, does st s st' r -> r <> RNext -> runs st (IStmt s b) st' r.
Proof. intros st s st' r b H N. apply (ev_imp _ _ 1 0 H). intros n X. cbn [Nat.add exec_items] in *. rewrite X. destruct r; try reflexivity. congruence. Qed.
Lemma runs_case : forall st lo hi b st' r, runs st b st' r -> runs st (ICase lo hi b) st' r.
Proof. intros st lo hi b st' r H. apply (ev_imp _ _ 1 0 H). intros n X. exact X. Qed.
Lemma runs_default : forall st b st' r, runs st b st' r -> runs st (IDefault b) st' r.
Proof. intros st b st' r H. apply (ev_imp _ _ 1 0 H). intros n X. exact X. Qed.

(** Statements that finish at once. *)
Lemma does_now : forall st s st' r, (forall n, exec (S n) P ext st s = Some (st', r)) -> does st s st' r.
Proof. intros st s st' r H. apply (ev_const _ 1). exact H. Qed.
Lemma does_soon : forall st s st' r, (forall n, exec (S (S (S (S n)))) P ext st s = Some (st', r)) -> does st s st' r.
Proof. intros st s st' r H. apply (ev_const _ 4). exact H. Qed.
Lemma does_block : forall st b st' r, runs st b st' r -> does st (SBlock b) (leave st st') r.
Proof. intros st b st' r H. apply (ev_imp _ _ 1 0 H). intros n X. cbn [Nat.add exec] in *. rewrite X. reflexivity. Qed.
Lemma does_switch : forall st e v b c st' r, eval P st e = Some v -> selected P v b = Some c -> runs st c st' r ->
  does st (SSwitch e b) (leave st st') (match r with RBreak => RNext | _ => r end).
Proof. intros st e v b c st' r E S H. apply (ev_imp _ _ 1 0 H). intros n X. cbn [Nat.add exec] in *. rewrite E, S, X. destruct r; reflexivity. Qed.
Lemma does_if : forall st e v s t st' r, eval P st e = Some v -> truth v = Some true -> does st s st' r -> does st (SIf e s t) st' r.
Proof. intros st e v s t st' r E T H. apply (ev_imp _ _ 1 0 H). intros n X. cbn [Nat.add exec] in *. rewrite E, T. exact X. Qed.
Lemma does_else : forall st e v s t st' r, eval P st e = Some v -> truth v = Some false -> does st t st' r -> does st (SIf e s (Some t)) st' r.
Proof. intros st e v s t st' r E T H. apply (ev_imp _ _ 1 0 H). intros n X. cbn [Nat.add exec] in *. rewrite E, T. exact X. Qed.
Lemma does_skip : forall st e v s, eval P st e = Some v -> truth v = Some false -> does st (SIf e s None) st RNext.
Proof. intros st e v s E T. apply does_now. intros n. cbn [exec]. rewrite E, T. reflexivity. Qed.
Lemma does_turn : forall st e v s st1 st' r, eval P st e = Some v -> truth v = Some true -> does st s st1 RNext -> does st1 (SWhile e s) st' r -> does st (SWhile e s) st' r.
Proof. intros st e v s st1 st' r E T H K. apply (ev_imp2 _ _ _ 1 0 0 H K). intros n X Y. cbn [Nat.add] in *. change (exec (S n) P ext st (SWhile e s) = Some (st', r)). cbn [exec]. rewrite E, T, X. exact Y. Qed.
Lemma does_leave : forall st e v s st' r, eval P st e = Some v -> truth v = Some true -> does st s st' r -> r <> RNext -> r <> RBreak -> does st (SWhile e s) st' r.
Proof. intros st e v s st' r E T H N B. apply (ev_imp _ _ 1 0 H). intros n X. cbn [Nat.add] in *. change (exec (S n) P ext st (SWhile e s) = Some (st', r)). cbn [exec]. rewrite E, T, X. destruct r; try reflexivity; congruence. Qed.
Lemma does_done : forall st e v s, eval P st e = Some v -> truth v = Some false -> does st (SWhile e s) st RNext.
Proof. intros st e v s E T. apply does_now. intros n. cbn [exec]. rewrite E, T. reflexivity. Qed.
Lemma does_eq : forall st s st1 r1 st' r, does st s st1 r1 -> st1 = st' -> r1 = r -> does st s st' r.
Proof. intros; subst; assumption. Qed.
End Running.

(** One result only. *)
Lemma does_once : forall P ext st s st1 r1 st2 r2, does P ext st s st1 r1 -> does P ext st s st2 r2 -> st1 = st2 /\ r1 = r2.
Proof. intros P ext st s st1 r1 st2 r2 (n & H) (m & K). specialize (H (n + m) ltac:(lia)). specialize (K (n + m) ltac:(lia)). rewrite H in K. injection K as <- <-. split; reflexivity. Qed.
Lemma defines_once : forall t h b b', defines t h b -> defines t h b' -> b = b'.
Proof.
  intros t h b b' (ts & hs & r & A & B & C & (n & D)) (ts' & hs' & r' & A' & B' & C' & (m & D')). rewrite A in A'. injection A' as <-. rewrite B in B'. injection B' as <-. rewrite C in C'. injection C' as <-.
  destruct (D (n + m) ltac:(lia)) as (x & E). destruct (D' (n + m) ltac:(lia)) as (y & E'). rewrite E in E'. injection E' as <- _. reflexivity.
Qed.
