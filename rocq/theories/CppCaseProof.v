(** Proofs about switches that are lists of cases: reading them, the checks of a compiler, and which case is taken. *)
From Coq Require Import String Ascii List Arith NArith ZArith Bool Lia.
From Verif Require Import Base TemplateModel TemplateFiles NamesModel CppTextModel CppTextSpec CppTextProof CppLexTextSpec CppLRTextSpec.
Import ListNotations.
Local Open Scope string_scope.
Local Open Scope list_scope.

(** ** Words in lines *)

Lemma scan_mark : forall mk s, String.eqb mk "/" = false -> (forall x, word_char (N_of_ascii x) = true -> find_name (mk ++ String x "")%string marks = None) ->
  wordy s = true -> s <> "" -> scan (InMark mk) (chars s) = Some ([mark_token mk], InWord s).
Proof.
  intros mk [|c s] NS NF W E; [congruence|]. cbn in W. apply andb_true_iff in W. destruct W as (W1 & W2). change (chars (String c s)) with (N_of_ascii c :: chars s). cbn [scan].
  assert (X : scan_char (InMark mk) (N_of_ascii c) = also [mark_token mk] (begin_token (N_of_ascii c))).
  { unfold scan_char. rewrite NS. cbn [andb]. rewrite one_ascii, (NF c W1), andb_false_r. reflexivity. }
  rewrite X. unfold begin_token. rewrite (word_not_space _ W1), W1. cbn [also]. rewrite one_ascii, (scan_word s _ W2). reflexivity.
Qed.
(** A literal, a word, a literal. *)
Lemma line_word : forall pre l m s l1 post l2, scan Blank (chars pre) = Some (l, m) -> scan m (chars s) = Some (l1, InWord s) -> scan (InWord s) (chars post ++ [10%N]) = Some (l2, Blank) ->
  scans (line (pre ++ s ++ post)) (l ++ l1 ++ l2).
Proof.
  intros pre l m s l1 post l2 A B C. unfold line. rewrite !chars_app, <- !app_assoc. unfold scans. eapply scan_app; [exact A|]. eapply scan_app; [exact B|exact C].
Qed.
Lemma scan_blank : forall s, wordy s = true -> s <> "" -> scan Blank (chars s) = Some ([], InWord s).
Proof. exact scan_start. Qed.
(** Text in quotes. *)
Lemma scan_quoted : forall s v, quotable s -> scan (InQuote v) (chars s) = Some ([], InQuote (String.append v s)).
Proof.
  induction s as [|c s IH]; intros v W.
  - cbn. rewrite append_nil. reflexivity.
  - change (chars (String c s)) with (N_of_ascii c :: chars s) in *. destruct (W _ (or_introl eq_refl)) as (A & B & D & L). cbn [scan scan_char].
    apply N.eqb_neq in A, B, D. rewrite A, B, D. replace (128 <=? N_of_ascii c)%N with false by (symmetry; apply N.leb_gt; exact L). cbn [orb]. rewrite one_ascii.
    rewrite IH; [|intros x X; apply W; right; exact X]. rewrite append_assoc. reflexivity.
Qed.

(** ** Cases *)

Definition stmts (ss : list stmt) (b : items) : items := fold_right IStmt b ss.
Fixpoint case_items (l : list (expr * list stmt)) (b : items) : items :=
  match l with
  | [] => b
  | (e, ss) :: l => ICase e e (stmts ss (case_items l b))
  end.
(** Tokens of a label and of what is behind it. *)
Definition piece_tokens (x : list tok * list tok) : list tok := Key Case :: fst x ++ Mark Colon :: snd x.
Definition not_closing (ts : list tok) : Prop := match ts with Mark RBrace :: _ => False | _ => True end.
Definition piece_ok (x : list tok * list tok) (e : expr) (ss : list stmt) : Prop :=
  (forall r, eventually (fun fuel => parse_expr fuel (fst x ++ Mark Colon :: r) = Some (e, Mark Colon :: r))) /\
  (forall r b r', parses_items r b r' -> parses_items (snd x ++ r) (stmts ss b) r') /\
  match snd x with [] | Mark RBrace :: _ => False | _ => True end.
Lemma parses_cases : forall l m, Forall2 (fun x c => piece_ok x (fst c) (snd c)) l m -> forall ts b r, parses_items ts b r -> parses_items (concat (map piece_tokens l) ++ ts) (case_items m b) r.
Proof.
  intros l m F. induction F as [|(lt, bt) (e, ss) l m (A & B & C) F IH]; intros ts b r H; [exact H|]. cbn [map concat case_items fst snd] in *. rewrite <- app_assoc. unfold piece_tokens at 1. cbn [fst snd].
  change ((Key Case :: lt ++ Mark Colon :: bt) ++ concat (map piece_tokens l) ++ ts) with (Key Case :: ((lt ++ Mark Colon :: bt) ++ concat (map piece_tokens l) ++ ts)). rewrite <- app_assoc. change ((Mark Colon :: bt) ++ concat (map piece_tokens l) ++ ts) with (Mark Colon :: (bt ++ concat (map piece_tokens l) ++ ts)).
  eapply parses_label; [apply A| |].
  - destruct bt as [|t bt]; [destruct C|]. exact C.
  - apply B. apply IH. exact H.
Qed.
Lemma parses_pieces : forall ss pieces, Forall2 (fun ts s => starts ts /\ forall r, parses_stmt (ts ++ r) s r) pieces ss -> forall r b r', parses_items r b r' -> parses_items (concat pieces ++ r) (stmts ss b) r'.
Proof.
  intros ss pieces F. induction F as [|ts s pieces ss (A & B) F IH]; intros r b r' H; [exact H|]. cbn [concat stmts fold_right]. rewrite <- app_assoc. eapply parses_cons.
  - destruct ts as [|t ts]; [destruct A|exact A].
  - apply B.
  - apply IH. exact H.
Qed.

Lemma stmts_labels : forall P ss b, labels P (stmts ss b) = labels P b.
Proof. intros P. induction ss as [|s ss IH]; intros b; [reflexivity|]. cbn. apply IH. Qed.
Definition no_decl (s : stmt) : bool := match s with SDecl _ _ | SLet _ _ _ | SInit _ _ _ => false | _ => true end.
Lemma stmts_no_decls : forall ss b, no_decls (stmts ss b) = forallb no_decl ss && no_decls b.
Proof. induction ss as [|s ss IH]; intros b; [reflexivity|]. cbn. fold (stmts ss b). destruct s; cbn; try reflexivity; apply IH. Qed.
Lemma stmts_checks : forall P ss b, checks_items P (stmts ss b) = forallb (checks P) ss && checks_items P b.
Proof. intros P. induction ss as [|s ss IH]; intros b; [reflexivity|]. cbn [stmts fold_right checks_items forallb]. fold (stmts ss b). rewrite IH. apply andb_assoc. Qed.
Lemma stmts_at_case : forall P v ss b, at_case P v (stmts ss b) = at_case P v b.
Proof. intros P v. induction ss as [|s ss IH]; intros b; [reflexivity|]. cbn. apply IH. Qed.
Lemma stmts_at_default : forall ss b, at_default (stmts ss b) = at_default b.
Proof. induction ss as [|s ss IH]; intros b; [reflexivity|]. cbn. apply IH. Qed.

(** The labels are known and differ, and there is one default. *)
Lemma case_labels : forall P l b n, labels P b = Some ([], n) ->
  (exists bs, labels P (case_items l b) = Some (bs, n)) <-> exists bs, Forall2 (fun c x => label_bounds P (fst c) (fst c) = Some x) l bs /\ ForallOrdPairs (fun x y => apart x y = true) bs /\ labels P (case_items l b) = Some (bs, n).
Proof.
  intros P l b n H. split; [|intros (bs & _ & _ & L); exists bs; exact L]. induction l as [|(e, ss) l IH]; intros (bs & L).
  - cbn in L. rewrite H in L. injection L as <-. exists []. split; [constructor|]. split; [constructor|exact H].
  - cbn [case_items labels] in L. rewrite stmts_labels in L. destruct (label_bounds P e e) as [x|] eqn:E; [|discriminate]. destruct (labels P (case_items l b)) as [[bs' n']|] eqn:L'; [|discriminate].
    destruct (forallb (apart x) bs') eqn:A; [|discriminate]. injection L as <- ->. destruct (IH (ex_intro _ bs' eq_refl)) as (bs'' & F & O & L''). injection L'' as <-.
    exists (x :: bs'). split; [constructor; [exact E|exact F]|]. split; [constructor; [apply Forall_forall; rewrite forallb_forall in A; exact A|exact O]|]. cbn [case_items labels]. rewrite E, stmts_labels, L', A. reflexivity.
Qed.
Lemma case_labels_ok : forall P l b n bs, labels P b = Some ([], n) -> Forall2 (fun c x => label_bounds P (fst c) (fst c) = Some x) l bs -> ForallOrdPairs (fun x y => apart x y = true) bs -> labels P (case_items l b) = Some (bs, n).
Proof.
  intros P l b n bs H F. induction F as [|(e, ss) x l bs E F IH]; intros O; [exact H|]. inversion O as [|? ? O1 O2]. subst. cbn [case_items labels fst] in *. rewrite E, stmts_labels, (IH O2).
  replace (forallb (apart x) bs) with true; [reflexivity|]. symmetry. apply forallb_forall. rewrite Forall_forall in O1. exact O1.
Qed.
Lemma case_no_decls : forall l b, no_decls (case_items l b) = forallb (fun c => forallb no_decl (snd c)) l && no_decls b.
Proof. induction l as [|(e, ss) l IH]; intros b; [reflexivity|]. cbn [case_items no_decls forallb snd]. rewrite stmts_no_decls, IH. apply andb_assoc. Qed.
Lemma case_checks : forall P l b, checks_items P (case_items l b) = forallb (fun c => forallb (checks P) (snd c)) l && checks_items P b.
Proof. intros P. induction l as [|(e, ss) l IH]; intros b; [reflexivity|]. cbn [case_items checks_items forallb snd]. rewrite stmts_checks, IH. apply andb_assoc. Qed.

(** The case that is taken, by a function that says whether a label has the value. *)
Lemma case_taken : forall P v l b (hit : expr -> bool), (forall e ss, In (e, ss) l -> in_label P v e e = Some (hit e)) -> at_case P v b = Some None ->
  match find (fun c => hit (fst c)) l with
  | Some (_, ss) => exists rest, at_case P v (case_items l b) = Some (Some (stmts ss rest))
  | None => at_case P v (case_items l b) = Some None
  end.
Proof.
  intros P v. induction l as [|(e, ss) l IH]; intros b hit H K; [exact K|]. cbn [find fst case_items at_case]. rewrite (H e ss (or_introl eq_refl)). destruct (hit e); [eexists; reflexivity|].
  rewrite stmts_at_case. apply IH; [|exact K]. intros e' ss' I. apply (H e' ss'). right. exact I.
Qed.
Lemma case_default : forall l b, at_default (case_items l b) = at_default b.
Proof. induction l as [|(e, ss) l IH]; intros b; [reflexivity|]. cbn [case_items at_default]. rewrite stmts_at_default. apply IH. Qed.
(** A switch of cases with a default. *)
Lemma case_selected : forall P v l d (hit : expr -> bool), (forall e ss, In (e, ss) l -> in_label P v e e = Some (hit e)) -> at_case P v d = Some None ->
  match find (fun c => hit (fst c)) l with
  | Some (_, ss) => exists rest, selected P v (case_items l (IDefault d)) = Some (stmts ss rest)
  | None => selected P v (case_items l (IDefault d)) = Some d
  end.
Proof.
  intros P v l d hit H K. pose proof (case_taken P v l (IDefault d) hit H K) as X. unfold selected. destruct (find (fun c => hit (fst c)) l) as [(e, ss)|].
  - destruct X as (rest & ->). exists rest. reflexivity.
  - rewrite X, case_default. reflexivity.
Qed.

(** Running one statement that does not go on. *)
Lemma runs_first : forall P ext st s ss rest st' r, does P ext st s st' r -> r <> RNext -> runs P ext st (stmts (s :: ss) rest) st' r.
Proof. intros P ext st s ss rest st' r H N. cbn [stmts fold_right]. apply runs_stop; assumption. Qed.
