(** The grammar of grammar files, read by the parser which is generated from it; files which the two parsers read differently. *)
From Coq Require Import String Ascii List Arith NArith Bool Lia.
From Verif Require Import Base InputModel GrammarModel GrammarSpec LexerModel LexerSpec BootModel BootSpec BootCompleteProof BootExample PositionModel InputGenModel InputGenSpec InputGenLapex InputGenHirProof InputTextSpec InputTextFactsProof BothSpec BothProof.
Import ListNotations.
Local Open Scope string_scope.
Local Open Scope N_scope.
Local Open Scope list_scope.

(** ** Finding the regular expression of a rule *)

Fixpoint bodyb (q : N) (l : list N) : bool :=
  match l with
  | [] => true
  | c :: l' => if c =? 92 then match l' with [] => false | _ :: l'' => bodyb q l'' end else negb (c =? q) && negb (c =? 10) && bodyb q l'
  end.
Lemma bodyb_ok : forall q, q <> 92 -> forall l, body q l <-> bodyb q l = true.
Proof.
  intros q Q. assert (forall n l, (length l <= n)%nat -> (body q l <-> bodyb q l = true)) as A; [|intros l; apply (A (length l)); auto].
  induction n as [|n IH]; intros [|c l] L; cbn [length] in L; try lia; try (split; [reflexivity|intros _; constructor]). cbn [bodyb]. split.
  - intros H. inversion H as [|? ? A B C D|? ? D]; subst.
    + rewrite (proj2 (N.eqb_neq c 92)), (proj2 (N.eqb_neq c q)), (proj2 (N.eqb_neq c 10)) by auto. apply IH; [lia|auto].
    + cbn [N.eqb Pos.eqb length] in *. apply IH; [lia|auto].
  - destruct (N.eqb_spec c 92) as [->|E]; intros H.
    + destruct l as [|d l]; [discriminate|]. cbn [length] in L. apply body_escape. apply IH; [lia|auto].
    + apply andb_prop in H as [H H3]. apply andb_prop in H as [H1 H2]. apply negb_true_iff, N.eqb_neq in H1. apply negb_true_iff, N.eqb_neq in H2. apply body_char; auto. apply IH; [lia|auto].
Qed.

Fixpoint strip (pre l : list N) : option (list N) :=
  match pre, l with
  | [], _ => Some l
  | c :: pre, d :: l => if c =? d then strip pre l else None
  | _ :: _, [] => None
  end.
Lemma strip_app : forall pre l, strip pre (pre ++ l) = Some l.
Proof. induction pre as [|c pre IH]; intros l; [destruct l; reflexivity|]. cbn [strip app]. rewrite N.eqb_refl. auto. Qed.
Fixpoint skip_blank (l : list N) : list N := match l with c :: l' => if (c =? 32) || (c =? 9) then skip_blank l' else l | [] => [] end.
Lemma skip_blank_app : forall b c l, blank b -> c <> 32 -> c <> 9 -> skip_blank (b ++ c :: l) = c :: l.
Proof.
  intros b c l [_ B] N1 N2. induction b as [|d b IH]; cbn [app skip_blank].
  - rewrite (proj2 (N.eqb_neq c 32)), (proj2 (N.eqb_neq c 9)) by auto. reflexivity.
  - assert (In d [32; 9]) as X by (apply B; left; auto). destruct X as [<-|[<-|[]]]; cbn; apply IH; intros x Hx; apply B; right; auto.
Qed.
Fixpoint suffixes (l : list N) : list (list N) := l :: match l with [] => [] | _ :: l' => suffixes l' end.
Lemma suffixes_app : forall a l, In l (suffixes (a ++ l)).
Proof. induction a as [|c a IH]; intros l; [destruct l; left; reflexivity|]. right. apply IH. Qed.
Fixpoint closings (l : list N) : list (list N) :=
  (if match l with 47 :: 59 :: _ => true | _ => false end then [[]] else []) ++ match l with [] => [] | c :: l' => map (cons c) (closings l') end.
Lemma closings_app : forall bs b, In bs (closings (bs ++ 47 :: 59 :: b)).
Proof. induction bs as [|c bs IH]; intros b; [left; reflexivity|]. cbn [app closings]. apply in_or_app. right. apply in_map. apply IH. Qed.
Definition candidates (name : string) (text : list N) : list (list N) :=
  flat_map (fun s => match strip (bytes "token") s with
    | Some s => match strip (bytes name) (skip_blank s) with
      | Some s => match strip [61] (skip_blank s) with
        | Some s => match strip [47] (skip_blank s) with Some s => filter (bodyb 47) (closings s) | None => [] end
        | None => [] end
      | None => [] end
    | None => [] end) (suffixes text).
Lemma candidates_all : forall text name bs, is_name name -> written_regex text name bs -> body 47 bs -> In bs (candidates name text).
Proof.
  intros text name bs Hn (a & b1 & b2 & b3 & b & B1 & B2 & B3 & ->) Hb. unfold candidates. apply in_flat_map. eexists. split; [apply suffixes_app|]. rewrite strip_app.
  destruct (name_first _ Hn) as (d & r & E & K). assert (d <> 32 /\ d <> 9) as [D1 D2] by (unfold name_char in K; lia).
  rewrite E. cbn [app]. rewrite skip_blank_app by auto. change (d :: r ++ b2 ++ 61 :: b3 ++ 47 :: bs ++ 47 :: 59 :: b) with ((d :: r) ++ b2 ++ 61 :: b3 ++ 47 :: bs ++ 47 :: 59 :: b).
  change (bytes "=" ++ b3 ++ 47 :: bs ++ 47 :: bytes ";" ++ b) with (61 :: b3 ++ 47 :: bs ++ 47 :: 59 :: b).
  replace (strip (d :: r) (d :: r ++ b2 ++ 61 :: b3 ++ 47 :: bs ++ 47 :: 59 :: b)) with (Some (b2 ++ 61 :: b3 ++ 47 :: bs ++ 47 :: 59 :: b)) by (symmetry; apply (strip_app (d :: r))).
  rewrite skip_blank_app by (auto; discriminate). change (strip [61] (61 :: b3 ++ 47 :: bs ++ 47 :: 59 :: b)) with (strip [61] ([61] ++ b3 ++ 47 :: bs ++ 47 :: 59 :: b)). rewrite strip_app.
  rewrite skip_blank_app by (auto; discriminate). change (strip [47] (47 :: bs ++ 47 :: 59 :: b)) with (strip [47] ([47] ++ bs ++ 47 :: 59 :: b)). rewrite strip_app.
  apply filter_In. split; [apply closings_app|]. apply bodyb_ok; [discriminate|auto].
Qed.

(** ** Names and literals *)

Definition letterb (c : N) : bool := (97 <=? c) && (c <=? 122) || (65 <=? c) && (c <=? 90).
Definition wordb (c : N) : bool := letterb c || (48 <=? c) && (c <=? 57) || (c =? 95).
Definition identb (n : string) : bool :=
  match bytes n with
  | c :: cs => letterb c && forallb wordb cs && negb (existsb (fun k => String.eqb n (snd k)) keywords) && (N.of_nat (length (c :: cs)) <? 1000)
  | [] => false
  end.
Lemma letterb_ok : forall c, letterb c = true -> letter c.
Proof. intros c H. unfold letterb in H. unfold letter. apply orb_prop in H as [H|H]; apply andb_prop in H as [A B]; apply N.leb_le in A; apply N.leb_le in B; lia. Qed.
Lemma wordb_ok : forall c, wordb c = true -> word_char c.
Proof.
  intros c H. unfold wordb in H. unfold word_char. apply orb_prop in H as [H|H]; [apply orb_prop in H as [H|H]|].
  - left. apply letterb_ok. auto.
  - right. left. apply andb_prop in H as [A B]. apply N.leb_le in A. apply N.leb_le in B. unfold digit. lia.
  - right. right. apply N.eqb_eq. auto.
Qed.
Lemma identb_ok : forall n, identb n = true -> identifier n.
Proof.
  intros n H. unfold identb in H. remember (bytes n) as bs eqn:E. destruct bs as [|c cs]; [discriminate|]. apply andb_prop in H as [H H4]. apply andb_prop in H as [H H3]. apply andb_prop in H as [H1 H2].
  apply letterb_ok in H1. assert (Forall word_char cs) as F by (apply Forall_forall; intros d Hd; apply wordb_ok; rewrite forallb_forall in H2; auto). apply N.ltb_lt in H4.
  assert (forall d, In d (c :: cs) -> d < 128) as A. { intros d [<-|Hd]; [unfold letter in H1; lia|]. rewrite Forall_forall in F. specialize (F d Hd). unfold word_char, letter, digit in F. lia. }
  split; rewrite <- E.
  - apply lx_ident; auto. intros name word K X. apply negb_true_iff in H3. assert (existsb (fun k => String.eqb n (snd k)) keywords = true) as Y; [|rewrite Y in H3; discriminate].
    apply existsb_exists. exists (name, word). split; auto. cbn [snd]. apply String.eqb_eq. rewrite <- (bytes_name n), <- (bytes_name word). congruence.
  - rewrite PositionProof.ascii_len by auto. lia.
Qed.
Fixpoint namedb (p : prod_pattern) : bool :=
  match p with
  | QRule n => identb n
  | QEps => true
  | QOpt p | QStar p | QPlus p => namedb p
  | QSeq l | QAlt l => forallb namedb l
  end.
Lemma namedb_ok : forall p, namedb p = true -> named p.
Proof.
  induction p as [l IH|l IH|q IH|q IH|q IH|n|] using prod_pattern_ind'; intros H; cbn [namedb] in H; constructor; auto.
  - apply Forall_forall. intros x Hx. rewrite Forall_forall in IH. rewrite forallb_forall in H. auto.
  - apply Forall_forall. intros x Hx. rewrite Forall_forall in IH. rewrite forallb_forall in H. auto.
  - apply identb_ok. auto.
Qed.
Definition plainb (rs : rule_set) : bool :=
  identb (rs_entry rs) && forallb (fun t => identb (tr_name t)) (rs_tokens rs) && forallb (fun p => identb (pr_name p) && namedb (pr_pattern p)) (rs_prods rs).
Lemma plainb_ok : forall rs, plainb rs = true -> names_plain rs.
Proof.
  intros rs H. unfold plainb in H. apply andb_prop in H as [H H3]. apply andb_prop in H as [H1 H2]. rewrite forallb_forall in H2, H3. split; [apply identb_ok; auto|]. split; apply Forall_forall.
  - intros t Ht. apply identb_ok. auto.
  - intros p Hp. specialize (H3 p Hp). apply andb_prop in H3 as [A B]. split; [apply identb_ok|apply namedb_ok]; auto.
Qed.
Definition literalsb (rs : rule_set) : bool := forallb (fun t => match tr_pattern t with TLiteral cs => bodyb 34 cs | _ => true end) (rs_tokens rs).
Lemma literalsb_ok : forall rs, literalsb rs = true -> literals_plain rs.
Proof. intros rs H t cs Ht E. unfold literalsb in H. rewrite forallb_forall in H. specialize (H t Ht). rewrite E in H. apply bodyb_ok; [discriminate|auto]. Qed.
Lemma absent_ok : forall c text, existsb (N.eqb c) text = false -> ~ In c text.
Proof. intros c text H X. assert (existsb (N.eqb c) text = true) as Y; [|rewrite Y in H; discriminate]. apply existsb_exists. exists c. split; auto. apply N.eqb_refl. Qed.

(** ** Patterns with the same meaning for texts of Unicode scalar values *)

Definition vs (p q : pattern) : Prop := forall w, Forall scalar w -> (matches p w <-> matches q w).
Lemma vs_refl : forall p, vs p p. Proof. intros p w _. reflexivity. Qed.
Lemma vs_seq : forall l l', Forall2 vs l l' -> vs (PSeq l) (PSeq l').
Proof.
  intros l l' H. induction H as [|p q l l' E _ IH]; intros w V; [reflexivity|]. cbn [matches map lseq]. unfold lcat. split; intros (u & v & -> & X & Y); apply Forall_app in V; destruct V as [Vu Vv]; exists u, v; (split; [reflexivity|]);
    (split; [apply E; auto|]); apply (IH v Vv); auto.
Qed.
Lemma vs_alt : forall l l', Forall2 vs l l' -> vs (PAlt l) (PAlt l').
Proof. intros l l' H. induction H as [|p q l l' E _ IH]; intros w V; [reflexivity|]. cbn [matches map lunion]. rewrite (E w V). pose proof (IH w V) as X. cbn [matches] in X. rewrite X. reflexivity. Qed.
Lemma vs_rep : forall mn mx p q, vs p q -> vs (PRep mn mx p) (PRep mn mx q).
Proof.
  intros mn mx p q H. assert (forall k w, Forall scalar w -> (lpow (matches p) k w <-> lpow (matches q) k w)) as A.
  { induction k as [|k IH]; intros w V; [reflexivity|]. cbn [lpow]. unfold lcat. split; intros (u & v & -> & X & Y); apply Forall_app in V; destruct V as [Vu Vv]; exists u, v; (split; [reflexivity|]); (split; [apply H; auto|]); apply IH; auto. }
  intros w V. cbn [matches]. unfold lrep. split; intros (k & X & Y & Z); exists k; (split; [exact X|]); (split; [exact Y|]); apply A; auto.
Qed.
Lemma vs_one : forall p q, vs p q -> vs p (PSeq [q]).
Proof.
  intros p q H w V. rewrite (H w V). cbn [matches map lseq]. unfold lcat. split.
  - intros X. exists w, []. rewrite app_nil_r. auto.
  - intros (u & v & -> & X & ->). rewrite app_nil_r. auto.
Qed.
Lemma vs_set : forall (rs : list characters) (neg : bool) (rs' : list characters) (neg' : bool), (forall c, scalar c -> ((if neg then ~ Exists (fun s => in_characters s c) rs else Exists (fun s => in_characters s c) rs) <-> (if neg' then ~ Exists (fun s => in_characters s c) rs' else Exists (fun s => in_characters s c) rs'))) ->
  vs (PSet rs neg) (PSet rs' neg').
Proof. intros rs neg rs' neg' H w V. cbn [matches]. split; intros (c & -> & X); exists c; (split; [reflexivity|]); apply H; auto; inversion V; auto. Qed.
Lemma exists_cons : forall (P : characters -> Prop) x l, Exists P (x :: l) <-> P x \/ Exists P l.
Proof. intros P x l. apply Exists_cons. Qed.
Lemma exists_nil : forall (P : characters -> Prop), Exists P [] <-> False.
Proof. intros P. apply Exists_nil. Qed.

Lemma vs_sym : forall p q, vs p q -> vs q p.
Proof. intros p q H w V. symmetry. auto. Qed.
Lemma vs_char : forall c, vs (PSeq [PChar (Single c)]) (PChar (Single c)).
Proof. intros c. apply vs_sym, vs_one, vs_refl. Qed.

(** ** The regular expressions of lapex.lapex as regex-syntax might describe them; [dot] is the class of the dot. *)

Definition all_chars : list (N * N) := [(0, 55295); (57344, 1114111)].
Definition no_newline : list (N * N) := [(0, 9); (11, 55295); (57344, 1114111)].
Definition lapex_regexes (dot : list (N * N)) : list (list N * hir) :=
  [(bytes "(0|[1-9][0-9]*)", HCapture (HAlternation [HLiteral [48]; HConcat [HUnicode [(49, 57)]; HRepetition 0 None true (HUnicode [(48, 57)])]]));
   (bytes "[a-zA-Z][a-zA-Z0-9_]*", HConcat [HUnicode [(65, 90); (97, 122)]; HRepetition 0 None true (HUnicode [(48, 57); (65, 90); (95, 95); (97, 122)])]);
   (bytes """([^""\\\n]|\\.)*""", HConcat [HLiteral [34]; HRepetition 0 None true (HCapture (HAlternation [HUnicode [(0, 9); (11, 33); (35, 91); (93, 55295); (57344, 1114111)]; HConcat [HLiteral [92]; HUnicode dot]])); HLiteral [34]]);
   (bytes "\/([^\/\\\n]|\\.)*\/", HConcat [HLiteral [47]; HRepetition 0 None true (HCapture (HAlternation [HUnicode [(0, 9); (11, 46); (48, 91); (93, 55295); (57344, 1114111)]; HConcat [HLiteral [92]; HUnicode dot]])); HLiteral [47]]);
   (bytes "[ \t]+", HRepetition 1 None true (HUnicode [(9, 9); (32, 32)]));
   (bytes "[\n]", HLiteral [10])].
Definition bytes_eqb (a b : list N) : bool := if list_eq_dec N.eq_dec a b then true else false.
Definition lookup_regex (l : list (list N * hir)) (bs : list N) : option hir := option_map snd (find (fun e => bytes_eqb (fst e) bs) l).
Definition dot_all : list N -> option hir := lookup_regex (lapex_regexes all_chars).
Definition dot_line : list N -> option hir := lookup_regex (lapex_regexes no_newline).

(** The patterns of the tokens and the texts of their regular expressions. *)
Definition lapex_pairs (text : list N) (rs : rule_set) : list (pattern * list N) :=
  flat_map (fun t => match tr_pattern t with TPattern p => map (fun bs => (p, bs)) (candidates (tr_name t) text) | _ => [] end) (rs_tokens rs).
Lemma pairs_all : forall text rs t p bs, names_plain rs -> Forall (fun t => is_name (tr_name t)) (rs_tokens rs) -> In t (rs_tokens rs) -> tr_pattern t = TPattern p -> written_regex text (tr_name t) bs ->
  spells_token_pattern false (TPattern p) ([47] ++ bs ++ [47]) -> In (p, bs) (lapex_pairs text rs).
Proof.
  intros text rs t p bs _ Hn Ht E W Sp. unfold lapex_pairs. apply in_flat_map. exists t. split; auto. rewrite E. apply in_map. apply candidates_all; auto; [rewrite Forall_forall in Hn; auto|].
  inversion Sp as [|ps bs' R E1 E2]; subst. change (bytes "/") with [47] in E2. apply app_inv_tail in E2. subst. apply (proj1 (proj1 (proj2 (proj2 (regex_body false))) _ _ R)).
Qed.
Definition name_bytesb (n : string) : bool := match bytes n with [] => false | cs => forallb (fun c => letterb c || (c =? 95)) cs end.
Lemma name_bytesb_ok : forall n, name_bytesb n = true -> is_name n.
Proof.
  intros n H. split; [intros ->; discriminate|]. intros c Hc. unfold name_bytesb in H. destruct (bytes n) as [|d cs]; [destruct Hc|]. rewrite forallb_forall in H. specialize (H c Hc). unfold name_char.
  apply orb_prop in H as [H|H]; [apply letterb_ok in H; unfold letter in H; lia|apply N.eqb_eq in H; lia].
Qed.
Lemma lapex_names : Forall (fun t => is_name (tr_name t)) (rs_tokens lapex_rules).
Proof. apply Forall_forall. intros t Ht. apply name_bytesb_ok. revert t Ht. apply forallb_forall. vm_compute. reflexivity. Qed.
Definition lapex_pair_list : list (pattern * list N) := Eval vm_compute in lapex_pairs (bytes lapex_text) lapex_rules.
Lemma lapex_pairs_are : lapex_pairs (bytes lapex_text) lapex_rules = lapex_pair_list.
Proof. vm_compute. reflexivity. Qed.
Lemma lapex_plain : names_plain lapex_rules.
Proof. apply plainb_ok. vm_compute. reflexivity. Qed.
Lemma lapex_literals : literals_plain lapex_rules.
Proof. apply literalsb_ok. vm_compute. reflexivity. Qed.
Lemma lapex_short : N.of_nat (length (bytes lapex_text)) < 65535.
Proof. vm_compute. reflexivity. Qed.
Lemma lapex_no_nul : ~ In 0 (bytes lapex_text).
Proof. apply absent_ok. vm_compute. reflexivity. Qed.
Lemma lapex_no_return : ~ In 13 (bytes lapex_text).
Proof. apply absent_ok. vm_compute. reflexivity. Qed.
Lemma pair_in : forall t p bs, In t (rs_tokens lapex_rules) -> tr_pattern t = TPattern p -> written_regex (bytes lapex_text) (tr_name t) bs -> spells_token_pattern false (TPattern p) ([47] ++ bs ++ [47]) -> In (p, bs) lapex_pair_list.
Proof. intros t p bs A B C D. rewrite <- lapex_pairs_are. eapply pairs_all; eauto; [exact lapex_plain|exact lapex_names]. Qed.
Definition convertsb (regex : list N -> option hir) (bs : list N) : bool := match regex bs with Some h => match make_pattern_from_hir h with Ok _ => true | _ => false end | None => false end.
Lemma lapex_convert : forall regex, forallb (fun e => convertsb regex (snd e)) lapex_pair_list = true -> regexes_convert regex lapex_rules (bytes lapex_text).
Proof.
  intros regex H t p bs A B C D. pose proof (pair_in t p bs A B C D) as I. rewrite forallb_forall in H. specialize (H _ I). cbn [snd] in H. unfold convertsb in H. destruct (regex bs) as [h|]; [|discriminate].
  destruct (make_pattern_from_hir h) as [q| | |] eqn:E; try discriminate. exists h, q. auto.
Qed.
Lemma dot_all_converts : regexes_convert dot_all lapex_rules (bytes lapex_text).
Proof. apply lapex_convert. vm_compute. reflexivity. Qed.
Lemma dot_line_converts : regexes_convert dot_line lapex_rules (bytes lapex_text).
Proof. apply lapex_convert. vm_compute. reflexivity. Qed.

Lemma agree_by : forall h q p, make_pattern_from_hir h = Ok q -> vs q p -> forall w, Forall scalar w -> (hir_matches h w <-> matches p w).
Proof. intros h q p E H w V. rewrite <- (conversion_language h q E w). auto. Qed.
Ltac set_equal := apply vs_set; intros c Hc; cbv beta iota delta [fst snd map]; rewrite ?exists_cons, ?exists_nil; cbn [in_characters]; unfold scalar in Hc; lia.
Lemma dot_all_agrees : regexes_agree dot_all lapex_rules (bytes lapex_text).
Proof.
  intros t p bs h A B C D E. pose proof (pair_in t p bs A B C D) as I. clear A B C D. unfold lapex_pair_list in I.
  repeat (destruct I as [I|I]; [injection I as <- <-; vm_compute in E; injection E as <-; eapply agree_by; [vm_compute; reflexivity|]|]); [| | | | | |destruct I].
  - apply vs_one, vs_refl.
  - apply vs_seq. constructor; [set_equal|]. constructor; [|constructor]. apply vs_rep. set_equal.
  - apply vs_seq. constructor; [apply vs_char|]. constructor; [|constructor; [apply vs_char|constructor]]. apply vs_rep, vs_alt. constructor; [apply vs_one; set_equal|]. constructor; [|constructor]. apply vs_seq. constructor; [apply vs_char|]. constructor; [set_equal|constructor].
  - apply vs_seq. constructor; [apply vs_char|]. constructor; [|constructor; [apply vs_char|constructor]]. apply vs_rep, vs_alt. constructor; [apply vs_one; set_equal|]. constructor; [|constructor]. apply vs_seq. constructor; [apply vs_char|]. constructor; [set_equal|constructor].
  - apply vs_one, vs_rep. set_equal.
  - apply vs_seq. constructor; [|constructor]. intros w V. cbn [matches]. split; intros (c & -> & H); exists c; (split; [reflexivity|]).
    + constructor. exact H.
    + inversion H as [? ? X|? ? X]; subst; [exact X|inversion X].
Qed.

(** With a dot which does not match a newline, the token STRING does not match a backslash before a newline. *)
Definition broken_string : list N := [34; 92; 10; 34].
Lemma broken_boot : forall p, In (mkTokenRule "STRING" None (TPattern p)) (rs_tokens lapex_rules) -> matches p broken_string.
Proof.
  intros p H. assert (p = PSeq [PChar (Single 34); PRep 0 None (PAlt [PSeq [PSet [Single 34; Single 92; Single 10] true]; PSeq [PChar (Single 92); PSet [] true]]); PChar (Single 34)]) as ->.
  { cbn in H. repeat (destruct H as [H|H]; [first [discriminate H|injection H as <-; reflexivity]|]). destruct H. }
  cbn [matches map lseq]. exists [34], [92; 10; 34]. split; [reflexivity|]. split; [exists 34; auto; split; [reflexivity|reflexivity]|]. exists [92; 10], [34]. split; [reflexivity|]. split.
  - exists 1%nat. split; [lia|]. split; [exact I|]. exists [92; 10], []. split; [reflexivity|]. split; [|reflexivity]. right. left. exists [92], [10]. split; [reflexivity|]. split; [exists 92; split; reflexivity|]. exists [10], []. split; [reflexivity|]. split; [|reflexivity].
    exists 10. split; [reflexivity|]. intros X. inversion X.
  - exists [34], []. split; [reflexivity|]. split; [exists 34; split; reflexivity|reflexivity].
Qed.
Definition containsb (s : characters) (c : N) : bool := match s with Single d => c =? d | CRange a b => (a <=? c) && (c <=? b) end.
Fixpoint avoids (c : N) (p : pattern) : bool :=
  match p with
  | PSeq l | PAlt l => forallb (avoids c) l
  | PRep _ _ q => avoids c q
  | PSet cs neg => if neg then existsb (fun s => containsb s c) cs else negb (existsb (fun s => containsb s c) cs)
  | PChar s => negb (containsb s c)
  end.
Lemma containsb_ok : forall s c, containsb s c = true <-> in_characters s c.
Proof. intros [d|a b] c; cbn [containsb in_characters]; [apply N.eqb_eq|]. rewrite andb_true_iff, !N.leb_le. reflexivity. Qed.
Lemma avoids_ok : forall c p, avoids c p = true -> forall w, matches p w -> ~ In c w.
Proof.
  intros c. induction p as [l IH|l IH|mn mx q IH|cs neg|s] using pattern_ind'; intros H; cbn [avoids] in H; cbn [matches].
  - rewrite forallb_forall in H. rewrite Forall_forall in IH. induction l as [|p l IHl]; intros w M; cbn [map lseq] in M; [subst; auto|]. destruct M as (u & v & -> & A & B). intros X. apply in_app_or in X. destruct X as [X|X].
    + exact (IH p (or_introl eq_refl) (H p (or_introl eq_refl)) u A X).
    + apply (IHl (fun p I => IH p (or_intror I)) (fun p I => H p (or_intror I)) v B X).
  - rewrite forallb_forall in H. rewrite Forall_forall in IH. intros w M. induction l as [|p l IHl]; cbn [map lunion] in M; [destruct M|]. destruct M as [M|M].
    + exact (IH p (or_introl eq_refl) (H p (or_introl eq_refl)) w M).
    + apply IHl; auto; intros p' I; [apply IH|apply H]; right; auto.
  - intros w (k & _ & _ & M). revert w M. induction k as [|k IHk]; intros w M; cbn [lpow] in M; [subst; auto|]. destruct M as (u & v & -> & A & B). intros X. apply in_app_or in X. destruct X as [X|X]; [exact (IH H u A X)|exact (IHk v B X)].
  - intros w (d & -> & M) [->|[]]. assert (Exists (fun s => in_characters s c) cs <-> existsb (fun s => containsb s c) cs = true) as E.
    { rewrite existsb_exists, Exists_exists. split; intros (s & A & B); exists s; (split; [auto|]); apply containsb_ok; auto. }
    destruct neg; [apply M, E, H|]. apply E in M. rewrite M in H. discriminate.
  - intros w (d & -> & M) [->|[]]. apply containsb_ok in M. rewrite M in H. discriminate.
Qed.
Lemma broken_line : forall h, dot_line (bytes """([^""\\\n]|\\.)*""") = Some h -> ~ hir_matches h broken_string.
Proof.
  intros h E H. assert (exists q, make_pattern_from_hir h = Ok q /\ avoids 10 q = true) as (q & Eq & A) by (vm_compute in E; injection E as <-; eexists; split; vm_compute; reflexivity).
  apply (conversion_language h q Eq) in H. apply (avoids_ok 10 q A _ H). right. right. left. reflexivity.
Qed.
Lemma string_regex : forall t q bs, In t (rs_tokens lapex_rules) -> tr_name t = "STRING" -> tr_pattern t = TPattern q -> written_regex (bytes lapex_text) (tr_name t) bs ->
  spells_token_pattern false (TPattern q) ([47] ++ bs ++ [47]) -> bs = bytes """([^""\\\n]|\\.)*""".
Proof.
  intros t q bs Ht En Eq W Sp. assert (In bs (candidates "STRING" (bytes lapex_text))) as I.
  { rewrite <- En. apply candidates_all; auto; [pose proof lapex_names as L; rewrite Forall_forall in L; auto|]. inversion Sp as [|ps bs' R E1 E2]; subst. change (bytes "/") with [47] in E2. apply app_inv_tail in E2. subst. apply (proj1 (proj1 (proj2 (proj2 (regex_body false))) _ _ R)). }
  replace (candidates "STRING" (bytes lapex_text)) with [bytes """([^""\\\n]|\\.)*"""] in I by (vm_compute; reflexivity). destruct I as [<-|[]]. reflexivity.
Qed.
Lemma self_differs : exists out n, (forall fuel, (n <= fuel)%nat -> parse_lapex dot_line lapex_gen fuel (bytes lapex_text) = Ok out) /\
  exists p q, In (mkTokenRule "STRING" None (TPattern p)) (rs_tokens lapex_rules) /\ In (mkTokenRule "STRING" None (TPattern q)) (rs_tokens (unspanned out)) /\ matches p broken_string /\ ~ matches q broken_string.
Proof.
  destruct (reads_bootstrap_ok dot_line lapex_gen (bytes lapex_text) lapex_rules lapex_gen_built lapex_read lapex_short lapex_no_nul lapex_no_return lapex_plain lapex_literals dot_line_converts) as (out & n & (_ & R & _) & Hn).
  exists out, n. split; auto. destruct (find (fun t => String.eqb (tr_name t) "STRING") (rs_tokens lapex_rules)) as [u|] eqn:F; [|vm_compute in F; discriminate F].
  apply find_some in F as F'. destruct F' as [Iu Eu]. apply String.eqb_eq in Eu. destruct (InputGenMeaningProof.Forall2_right _ _ _ _ _ R u (proj1 (in_rev _ _) Iu)) as (t & It & E1 & E2 & E3).
  vm_compute in F. injection F as <-. cbn [tr_name tr_prec tr_pattern] in *. destruct t as [nt pt tt]. cbn [tr_name tr_prec tr_pattern] in *. subst nt pt. destruct tt as [cs|q]; [contradiction|]. destruct E3 as (bs & h & W & Sp & Er & M).
  eexists. exists q. split; [exact Iu|]. split; [exact It|]. split; [apply broken_boot; exact Iu|]. rewrite M. pose proof (string_regex _ _ bs Iu eq_refl eq_refl W Sp) as ->. exact (broken_line h Er).
Qed.

(** ** Files which only the bootstrap parser reads *)

Definition underscore_text : list N := bytes "entry _s;".
Definition keyword_text : list N := bytes "entry prod;".
Definition return_text : list N := bytes "entry s;" ++ [13; 10].
Definition nul_text : list N := bytes "token A = """ ++ [0] ++ bytes """; entry s;".
Definition backslash_text : list N := bytes "token A = ""\""; entry s;".
Definition newline_text : list N := bytes "token A = """ ++ [10] ++ bytes """; entry s;".
Definition bare (n : string) : rule_set := mkRuleSet n [] [].
Definition one_literal (cs : list N) : rule_set := mkRuleSet "s" [mkTokenRule "A" None (TLiteral cs)] [].
Lemma bare_literals : forall n, literals_plain (bare n).
Proof. intros n t cs []. Qed.
Lemma bare_names : names_plain (bare "s").
Proof. apply plainb_ok. vm_compute. reflexivity. Qed.
Lemma one_literal_names : forall cs, names_plain (one_literal cs).
Proof. intros cs. apply plainb_ok. vm_compute. reflexivity. Qed.
Lemma bare_convert : forall regex n text, regexes_convert regex (bare n) text /\ regexes_agree regex (bare n) text.
Proof. intros regex n text. split; intros t p bs; [intros []|intros h []]. Qed.
Lemma one_literal_convert : forall regex cs text, regexes_convert regex (one_literal cs) text /\ regexes_agree regex (one_literal cs) text.
Proof. intros regex cs text. split; intros t p bs; [intros [<-|[]] E; discriminate E|intros h [<-|[]] E; discriminate E]. Qed.
