(** Proofs about the text of the emitted files tokens.h and tokens.cpp. *)
From Coq Require Import String Ascii List Arith NArith ZArith Bool Lia.
From Verif Require Import Base InputModel LexerSpec LexerModel NamesModel CppLexerModel CppLexerSpec CppLexerProof TemplateModel TemplateFiles CppTextModel CppTextSpec CppTextProof CppLexTextSpec CppLexTextProof CppLexRunProof.
Import ListNotations.
Local Open Scope string_scope.
Local Open Scope list_scope.

(** ** The enumeration *)

Lemma line_variant : forall s, plain_name s -> scans (line (enumerator s ++ ",")) [Word (enumerator s); Mark Comma].
Proof.
  intros s H. scan_pieces. unfold scans. apply (scan_app _ _ Blank [] _ [Word (enumerator s); Mark Comma] _ (scan_start _ (enumerator_wordy s H) (enumerator_nonempty s))). reflexivity.
Qed.
Definition variants_tokens (names : list string) : list tok := concat (map (fun s => [Word (enumerator s); Mark Comma]) names).
Lemma variants_scans : forall names, Forall plain_name names -> scans (write_token_enum_variants names) (variants_tokens names).
Proof.
  unfold write_token_enum_variants, variants_tokens. induction names as [|s names IH]; intros F; [exact scans_nil|]. inversion F. subst. cbn [map concat]. rewrite lines_cons. apply scans_app; [apply line_variant; assumption|apply IH; assumption].
Qed.
Definition tokens_front : text := Eval vm_compute in fst (cut tokens_h).
Definition tokens_back : text := Eval vm_compute in snd (cut tokens_h).
Lemma tokens_file : forall names, tokens_h_text names = tokens_front ++ write_token_enum_variants names ++ tokens_back.
Proof. intros names. unfold tokens_h_text. generalize (write_token_enum_variants names). intros A. vm_compute. reflexivity. Qed.
Definition tokens_front_tokens : list tok := Eval vm_compute in match scan Blank tokens_front with Some (l, _) => l | None => [] end.
Definition tokens_back_tokens : list tok := Eval vm_compute in match tokens tokens_back with Some l => l | None => [] end.
Lemma tokens_h_tokens : forall names, Forall plain_name names -> tokens (tokens_h_text names) = Some (tokens_front_tokens ++ variants_tokens names ++ tokens_back_tokens).
Proof.
  intros names F. rewrite tokens_file. apply scans_then; [vm_compute; reflexivity|]. apply scans_then; [apply variants_scans; exact F|]. vm_compute. reflexivity.
Qed.
Lemma variants_parse : forall names k, parse_enumerators (Z.of_nat k) (variants_tokens names ++ tokens_back_tokens) = Some (counted_from k (map enumerator names)).
Proof.
  induction names as [|s names IH]; intros k; [reflexivity|]. unfold variants_tokens in *. cbn [map concat Datatypes.app parse_enumerators]. unfold counted_from. cbn [List.length seq map combine].
  replace (Z.of_nat k + 1)%Z with (Z.of_nat (S k)) by lia. rewrite IH. reflexivity.
Qed.
Lemma tokens_h_enum : forall names, Forall plain_name names -> NoDup (enumerators names) -> (N.of_nat (List.length (enumerators names)) <= 2 ^ 32)%N ->
  enum_in (tokens_h_text names) "TokenType" "uint32_t" (counted (enumerators names)).
Proof.
  intros names F D L. eexists. eexists. split; [apply tokens_h_tokens; exact F|]. split; [apply behind_app; reflexivity|]. split; [|split; [|exists U32; split; [reflexivity|]]].
  - cbn [Datatypes.app parse_enumerators]. pose proof (variants_parse names 2) as V. change (1 + 1)%Z with (Z.of_nat 2). rewrite V. reflexivity.
  - unfold counted. replace (map fst (combine (enumerators names) (map Z.of_nat (seq 0 (List.length (enumerators names)))))) with (enumerators names); [exact D|]. generalize 0. generalize (enumerators names).
    induction l as [|a l IH]; intros n; [reflexivity|]. cbn. f_equal. apply IH.
  - intros z I. apply wrap_u32. apply in_map_iff in I. destruct I as ((s, z') & E & I). cbn [snd] in E. subst z'. unfold counted in I. apply in_combine_r in I. apply in_map_iff in I. destruct I as (k & <- & K). apply in_seq in K. lia.
Qed.

(** ** The function *)

Lemma line_token_case : forall s, plain_name s -> scans (line ("case TokenType::" ++ enumerator s ++ ":")) [Key Case; Word "TokenType"; Mark Scope; Word (enumerator s); Mark Colon].
Proof.
  intros s H. scan_pieces. unfold scans. apply (scan_app (chars "case TokenType::") _ _ [Key Case; Word "TokenType"] (InMark "::") [Mark Scope; Word (enumerator s); Mark Colon]); [reflexivity|].
  apply (scan_app _ _ _ [Mark Scope] _ [Word (enumerator s); Mark Colon] _ (scan_scope _ (enumerator_wordy s H) (enumerator_nonempty s))). reflexivity.
Qed.
Lemma line_return_quote : forall s, plain_name s -> scans (line ("return """ ++ s ++ """;")) [Key Return; Quoted s; Mark Semi].
Proof.
  intros s H. scan_pieces. unfold scans. apply (scan_app (chars "return """) _ _ [Key Return] (InQuote "") [Quoted s; Mark Semi]); [reflexivity|].
  apply (scan_app _ _ _ [] _ [Quoted s; Mark Semi] _ (scan_quote s "" (plain_wordy s H))). reflexivity.
Qed.
Definition name_tokens (e s : string) : list tok := [Key Case; Word "TokenType"; Mark Scope; Word e; Mark Colon; Key Return; Quoted s; Mark Semi].
Definition names_tokens (names : list string) : list tok :=
  [Key Switch; Mark LParen; Word "tk_type"; Mark RParen; Mark LBrace] ++ name_tokens tk_err "<ERR>" ++ name_tokens tk_eof "<EOF>" ++ concat (map (fun s => name_tokens (enumerator s) s) names) ++
  [Key Default; Mark Colon; Key Return; Key Nullptr; Mark Semi; Mark RBrace].
Lemma names_scans : forall names, Forall plain_name names -> scans (write_get_token_name_function names) (names_tokens names).
Proof.
  intros names F. unfold write_get_token_name_function, names_tokens. rewrite !app_assoc. rewrite <- (app_assoc (lines _)). rewrite <- (app_assoc (_ ++ name_tokens tk_eof _)). apply scans_app; [reflexivity|]. apply scans_app; [|reflexivity].
  apply scans_concat. intros s I. rewrite Forall_forall in F. specialize (F s I). unfold token_name_case. rewrite !lines_cons. change (lines []) with (@nil N). rewrite app_nil_r.
  exact (scans_app _ _ _ _ (line_token_case s F) (line_return_quote s F)).
Qed.
Definition names_front : text := Eval vm_compute in fst (cut tokens_cpp).
Definition names_back : text := Eval vm_compute in snd (cut tokens_cpp).
Lemma names_file : forall names, tokens_cpp_text names = names_front ++ write_get_token_name_function names ++ names_back.
Proof. intros names. unfold tokens_cpp_text. generalize (write_get_token_name_function names). intros A. vm_compute. reflexivity. Qed.
Definition names_front_tokens : list tok := Eval vm_compute in match scan Blank names_front with Some (l, _) => l | None => [] end.
Definition names_back_tokens : list tok := Eval vm_compute in match tokens names_back with Some l => l | None => [] end.
Lemma tokens_cpp_tokens : forall names, Forall plain_name names -> tokens (tokens_cpp_text names) = Some (names_front_tokens ++ names_tokens names ++ names_back_tokens).
Proof.
  intros names F. rewrite names_file. apply scans_then; [vm_compute; reflexivity|]. apply scans_then; [apply names_scans; exact F|]. vm_compute. reflexivity.
Qed.

Fixpoint name_items (l : list (string * string)) (b : items) : items :=
  match l with [] => b | (e, s) :: l => ICase (token_expr e) (token_expr e) (IStmt (SReturn (Some (EStr s))) (name_items l b)) end.
Definition name_table (names : list string) : list (string * string) := (tk_err, "<ERR>") :: (tk_eof, "<EOF>") :: map (fun s => (enumerator s, s)) names.
Definition name_body (names : list string) : stmt := SBlock (IStmt (SSwitch (EName ["tk_type"]) (name_items (name_table names) (IDefault (IStmt (SReturn (Some ENull)) INil)))) INil).
Lemma parses_names : forall l ts b r, match ts with Mark RBrace :: _ => False | _ => True end -> parses_items ts b r -> parses_items (concat (map (fun p => name_tokens (fst p) (snd p)) l) ++ ts) (name_items l b) r.
Proof.
  induction l as [|(e, s) l IH]; intros ts b r F H; [exact H|]. cbn [map concat fst snd name_items]. rewrite <- app_assoc. specialize (IH ts b r F H). remember (concat (map (fun p => name_tokens (fst p) (snd p)) l) ++ ts) as rest.
  refine (parses_label _ _ _ _ _ _ _ _); [apply (ev_const _ 5); intros n; reflexivity|exact I|]. eapply parses_cons; [exact I|apply (ev_const _ 5); intros n; reflexivity|]. exact IH.
Qed.
Lemma tokens_cpp_defines : forall names, Forall plain_name names -> defines (tokens_cpp_text names) (chars "const char *get_token_name(TokenType tk_type)") (name_body names).
Proof.
  intros names F. eexists. eexists. eexists. split; [apply tokens_cpp_tokens; exact F|]. split; [reflexivity|]. split; [apply behind_app; reflexivity|].
  assert (PB : parses_stmt (Mark LBrace :: names_tokens names ++ names_back_tokens) (name_body names) [Mark RBrace]).
  { apply parses_block. unfold names_tokens. rewrite <- !app_assoc. eapply parses_cons; [exact I| |apply parses_end].
    eapply parses_switch; [apply (ev_const _ 3); intros n; reflexivity|].
    pose proof (parses_names (name_table names) ([Key Default; Mark Colon; Key Return; Key Nullptr; Mark Semi; Mark RBrace] ++ names_back_tokens) (IDefault (IStmt (SReturn (Some ENull)) INil)) (Mark RBrace :: names_back_tokens)) as X.
    unfold name_table in X at 1. cbn [map concat fst snd] in X. rewrite map_map in X. cbn [fst snd] in X. rewrite <- !app_assoc in X. apply X; [exact I|]. apply parses_default; [exact I|].
    eapply parses_cons; [exact I|apply (ev_const _ 5); intros n; reflexivity|]. apply parses_end. }
  destruct PB as (n & H). exists n. intros fuel L. eexists. apply H. exact L.
Qed.

Section Names.
Variable names : list string.
Notation P := (token_program names).
Hypothesis distinct : NoDup (enumerators names).

Lemma name_table_fst : map fst (name_table names) = enumerators names.
Proof. unfold name_table, enumerators. cbn. rewrite map_map. reflexivity. Qed.
Lemma index_of : forall {A} (f : A -> bool) l, (exists a, In a l /\ f a = true) -> exists k, find_index f l = Some k.
Proof. intros A f. induction l as [|x l IH]; intros (a & I & F); [destruct I|]. cbn [find_index]. destruct (f x) eqn:E; [eexists; reflexivity|]. destruct I as [->|I]; [congruence|]. destruct IH as (k & ->); [exists a; split; assumption|]. eexists. reflexivity. Qed.
Lemma token_label : forall e, In e (enumerators names) -> exists k, find_index (String.eqb e) (enumerators names) = Some k /\ label_bounds P (token_expr e) (token_expr e) = Some (Between (Some "TokenType") (Z.of_nat k) (Z.of_nat k)).
Proof.
  intros e H. destruct (index_of (String.eqb e) (enumerators names)) as (k & K); [exists e; split; [exact H|apply String.eqb_refl]|]. exists k. split; [exact K|]. unfold label_bounds. rewrite !token_eval, K. cbn [option_map token_value]. rewrite String.eqb_refl, Z.eqb_refl. reflexivity.
Qed.
Definition index_label (e : string) : bounds := Between (Some "TokenType") (match find_index (String.eqb e) (enumerators names) with Some k => Z.of_nat k | None => 0%Z end) (match find_index (String.eqb e) (enumerators names) with Some k => Z.of_nat k | None => 0%Z end).
Lemma name_labels : forall l, incl (map fst l) (enumerators names) -> NoDup (map fst l) ->
  labels P (name_items l (IDefault (IStmt (SReturn (Some ENull)) INil))) = Some (map (fun p => index_label (fst p)) l, 1).
Proof.
  induction l as [|(e, s) l IH]; intros S D; [reflexivity|]. cbn [map fst] in *. inversion D as [|? ? NI D']. subst. cbn [name_items labels]. destruct (token_label e (S e (or_introl eq_refl))) as (k & K & ->). rewrite IH; [|intros x X; apply S; right; exact X|exact D'].
  replace (forallb (apart (Between (Some "TokenType") (Z.of_nat k) (Z.of_nat k))) (map (fun p => index_label (fst p)) l)) with true; [replace (index_label e) with (Between (Some "TokenType") (Z.of_nat k) (Z.of_nat k)) by (unfold index_label; rewrite K; reflexivity); reflexivity|]. symmetry. apply forallb_forall. intros x X. apply in_map_iff in X. destruct X as ((e', s') & <- & X).
  assert (I' : In e' (map fst l)) by (apply in_map_iff; exists (e', s'); split; [reflexivity|exact X]). destruct (token_label e' (S e' (or_intror I'))) as (k' & K' & _). unfold index_label. cbn [fst]. rewrite K'. cbn [apart]. rewrite String.eqb_refl. cbn [andb].
  apply negb_true_iff. apply Z.eqb_neq. intros Q. apply Nat2Z.inj in Q. subst k'. apply NI. apply find_index_Some in K. apply find_index_Some in K'. destruct K as (a & A1 & A2 & _). destruct K' as (a' & A1' & A2' & _). rewrite A1 in A1'. injection A1' as <-.
  apply String.eqb_eq in A2, A2'. subst. exact I'.
Qed.
Lemma name_checks : checks P (name_body names) = true.
Proof.
  unfold name_body. assert (L : labels P (name_items (name_table names) (IDefault (IStmt (SReturn (Some ENull)) INil))) = Some (map (fun p => index_label (fst p)) (name_table names), 1)).
  { apply name_labels; rewrite name_table_fst; [apply incl_refl|exact distinct]. }
  assert (N : forall l, no_decls (name_items l (IDefault (IStmt (SReturn (Some ENull)) INil))) = true) by (induction l as [|(e, s) l IH]; [reflexivity|exact IH]).
  assert (C : forall l, checks_items P (name_items l (IDefault (IStmt (SReturn (Some ENull)) INil))) = true) by (induction l as [|(e, s) l IH]; [reflexivity|exact IH]).
  cbn [checks checks_items names_ok labels]. rewrite L, N, C. reflexivity.
Qed.

Lemma name_case : forall l z, incl (map fst l) (enumerators names) ->
  match find (fun p => (match find_index (String.eqb (fst p)) (enumerators names) with Some k => Z.of_nat k =? z | None => false end)%Z) l with
  | Some (_, s) => exists b, at_case P (VEnum "TokenType" z) (name_items l (IDefault (IStmt (SReturn (Some ENull)) INil))) = Some (Some (IStmt (SReturn (Some (EStr s))) b))
  | None => at_case P (VEnum "TokenType" z) (name_items l (IDefault (IStmt (SReturn (Some ENull)) INil))) = Some None
  end.
Proof.
  induction l as [|(e, s) l IH]; intros z S; [reflexivity|]. cbn [map fst] in S. cbn [find fst name_items at_case]. destruct (token_label e (S e (or_introl eq_refl))) as (k & K & L). unfold in_label. rewrite L, K, String.eqb_refl, Z.eqb_sym.
  destruct (Z.of_nat k =? z)%Z eqn:E; rewrite Z.eqb_sym in E; rewrite E; [eexists; reflexivity|]. apply IH. intros x X. apply S. right. exact X.
Qed.
Lemma name_default : forall l, at_default (name_items l (IDefault (IStmt (SReturn (Some ENull)) INil))) = Some (IStmt (SReturn (Some ENull)) INil).
Proof. induction l as [|(e, s) l IH]; [reflexivity|exact IH]. Qed.
Lemma first_of : forall {A} (f : A -> bool) l k a, find_index f l = Some k -> nth_error l k = Some a -> find f l = Some a.
Proof. intros A f. induction l as [|x l IH]; intros k a H N; [discriminate|]. cbn [find_index find] in *. destruct (f x); [injection H as <-; cbn in N; congruence|]. destruct (find_index f l) as [j|] eqn:E; [|discriminate]. injection H as <-. exact (IH j a eq_refl N). Qed.
Lemma nodup_index : forall l k e, NoDup l -> nth_error l k = Some e -> find_index (String.eqb e) l = Some k.
Proof.
  induction l as [|x l IH]; intros k e D H; [destruct k; discriminate|]. inversion D as [|? ? NI D']. subst. destruct k as [|k]; cbn [nth_error find_index] in *.
  - injection H as <-. rewrite String.eqb_refl. reflexivity.
  - destruct (String.eqb_spec e x) as [->|_]; [exfalso; apply NI; apply nth_error_In with k; exact H|]. rewrite (IH k e D' H). reflexivity.
Qed.
Lemma name_find : forall z, find (fun p => (match find_index (String.eqb (fst p)) (enumerators names) with Some k => Z.of_nat k =? z | None => false end)%Z) (name_table names) =
  if (z <? 0)%Z then None else nth_error (name_table names) (Z.to_nat z).
Proof.
  intros z. destruct (find _ _) as [(e, s)|] eqn:F.
  - apply find_some in F. destruct F as (I & F). cbn [fst] in F. destruct (find_index (String.eqb e) (enumerators names)) as [k|] eqn:K; [|discriminate]. apply Z.eqb_eq in F. subst z. replace (Z.of_nat k <? 0)%Z with false by (symmetry; apply Z.ltb_ge; lia). rewrite Nat2Z.id.
    apply In_nth_error in I. destruct I as (j & J). assert (J' : nth_error (enumerators names) j = Some e) by (rewrite <- name_table_fst, nth_error_map, J; reflexivity). pose proof (nodup_index _ _ _ distinct J') as X. rewrite K in X. injection X as ->. symmetry. exact J.
  - destruct (Z.ltb_spec z 0); [reflexivity|]. destruct (nth_error (name_table names) (Z.to_nat z)) as [(e, s)|] eqn:N; [|reflexivity]. exfalso.
    pose proof (find_none _ _ F (e, s) (nth_error_In _ _ N)) as X. cbn [fst] in X. assert (J' : nth_error (enumerators names) (Z.to_nat z) = Some e) by (rewrite <- name_table_fst, nth_error_map, N; reflexivity). rewrite (nodup_index _ _ _ distinct J') in X. apply Z.eqb_neq in X. lia.
Qed.
Definition name_value (z : Z) : value := if (z <? 0)%Z then VNull else match nth_error (name_table names) (Z.to_nat z) with Some (_, s) => VStr s | None => VNull end.
Lemma does_name : forall ext z m, does P ext (mkStore [("tk_type", VEnum "TokenType" z)] m) (name_body names) (mkStore [("tk_type", VEnum "TokenType" z)] m) (RReturn (Some (name_value z))).
Proof.
  intros ext z m. pose proof (name_case (name_table names) z) as C. rewrite name_table_fst, name_find in C. specialize (C (incl_refl _)). unfold name_value, name_body.
  destruct (z <? 0)%Z; [|destruct (nth_error (name_table names) (Z.to_nat z)) as [(e, s)|]].
  - eapply does_eq; [apply does_block; apply runs_stop; [eapply does_switch; [reflexivity|unfold selected; rewrite C, name_default; reflexivity|]; apply runs_stop; [apply does_now; reflexivity|discriminate]|discriminate]|reflexivity|reflexivity].
  - destruct C as (b & C). eapply does_eq; [apply does_block; apply runs_stop; [eapply does_switch; [reflexivity|unfold selected; rewrite C; reflexivity|]; apply runs_stop; [apply does_now; reflexivity|discriminate]|discriminate]|reflexivity|reflexivity].
  - eapply does_eq; [apply does_block; apply runs_stop; [eapply does_switch; [reflexivity|unfold selected; rewrite C, name_default; reflexivity|]; apply runs_stop; [apply does_now; reflexivity|discriminate]|discriminate]|reflexivity|reflexivity].
Qed.
End Names.
