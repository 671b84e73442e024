(** A file read by the bootstrap parser is read by the generated parser of grammar files as rules of the same meaning. *)
From Coq Require Import String Ascii List Arith NArith Bool Lia.
From Verif Require Import Base InputModel GrammarModel GrammarSpec LexerModel LexerSpec BootModel BootSpec BootCompleteProof BootSoundProof BootFactsProof BootExample PositionModel PositionSpec PositionProof
  InputGenModel InputGenSpec InputGenLapex InputGenProof InputGenMeaningProof InputGenHirProof InputGenFactsProof InputTextSpec InputTextLexProof InputTextDivideProof InputTextFileProof InputTextLayoutProof InputTextWriteProof InputTextFactsProof BothSpec.
Import ListNotations.
Local Open Scope string_scope.
Local Open Scope N_scope.
Local Open Scope list_scope.

(** ** Longest lexemes *)

Definition starts_with (P : N -> Prop) (rest : list N) : Prop := match rest with [] => False | c :: _ => P c end.
Definition is_blank (c : N) : Prop := c = 32 \/ c = 9.
Definition words : list string := ["KW_TOKEN"; "KW_ENTRY"; "KW_PROD"; "IDENT"; "DIGIT"].

Lemma mark_word : forall name c, In (name, c) marks -> ~ word_char c.
Proof. intros name c H. unfold word_char, letter, digit. repeat destruct H as [H|H]; try contradiction; injection H as <- <-; lia. Qed.
Lemma letter_word : forall name c w, lexeme name (c :: w) -> word_char c -> c <> 95 -> In name words.
Proof.
  intros name c w H Hc Hu. remember (c :: w) as v eqn:E. destruct H as [n word K|n d K| |d cs Hd Hcs|d cs Hd Hcs Hk|b Hb|b Hb|d cs Hd|]; try (injection E as <- E); try (cbn; tauto).
  - unfold keywords in K. cbn in K. destruct K as [K|[K|[K|[]]]]; injection K as <- _; cbn; tauto.
  - exfalso. exact (mark_word _ _ K Hc).
  - exfalso. unfold word_char, letter, digit in Hc. lia.
  - exfalso. unfold word_char, letter, digit in Hc. lia.
  - exfalso. inversion Hd as [|? ? X _]; subst. unfold word_char, letter, digit in Hc. lia.
  - exfalso. unfold word_char, letter, digit in Hc. lia.
Qed.
Lemma blank_white : forall name c w, lexeme name (c :: w) -> is_blank c -> name = "WHITESPACE".
Proof.
  intros name c w H Hc. unfold is_blank in Hc. remember (c :: w) as v eqn:E. destruct H as [n word K|n d K| |d cs Hd Hcs|d cs Hd Hcs Hk|b Hb|b Hb|d cs Hd|]; try (injection E as <- E); try reflexivity; exfalso; try lia.
  - destruct (keyword_letter _ _ K) as (c' & cs & E' & L' & _). rewrite E' in E. injection E as -> _. unfold letter in L'. lia.
  - apply mark_chars in K. lia.
  - unfold letter in Hd. lia.
Qed.

Lemma longest : forall name w rest, lexeme name w -> (In name words -> ~ starts_with word_char rest) -> (name = "WHITESPACE" -> ~ starts_with is_blank rest) ->
  forall name' w' rest', lexeme name' w' -> w ++ rest = w' ++ rest' -> (length w' <= length w)%nat.
Proof.
  intros name w rest H HW HB name' w' rest' H' E. destruct (le_lt_dec (length w') (length w)) as [L|L]; auto. exfalso.
  destruct (app_split _ _ _ _ _ E ltac:(lia)) as (y & -> & Ey). destruct y as [|c y]; [rewrite app_nil_r in L; lia|]. cbn [app] in Ey. subst rest. cbn [starts_with] in *.
  pose proof (lexeme_nonempty _ _ H) as Hw. destruct w as [|c0 w]; [contradiction|]. cbn [app] in *.
  assert (forall q b b', q = 34 \/ q = 47 -> body q b -> body q b' -> w = b ++ [q] -> w ++ c :: y = b' ++ [q] -> False) as Q.
  { intros q b b' Hq Hb Hb' E1 E2. subst w. rewrite <- app_assoc in E2. cbn [app] in E2. destruct (body_end q b' b (c :: y) ltac:(destruct Hq; subst; discriminate) Hb' Hb E2) as [_ X]. discriminate. }
  remember (c0 :: w ++ c :: y) as v eqn:E1. destruct H' as [n word K|n d K| |d cs Hc Hcs|d cs Hc Hcs Hk|b Hb|b Hb|d cs Hc|]; try (injection E1 as <- E1).
  - destruct (keyword_letter _ _ K) as (c' & cs & E' & L' & W). rewrite E' in E1. injection E1 as -> ->. apply Forall_app in W. destruct W as [_ W]. inversion W; subst. apply HW; auto.
    apply (letter_word _ _ _ H); [left; auto|]. unfold letter in L'. lia.
  - destruct w; discriminate.
  - destruct w; discriminate.
  - subst cs. apply Forall_app in Hcs. destruct Hcs as [_ X]. inversion X as [|? ? D]; subst. apply HW; [|right; left; auto]. apply (letter_word _ _ _ H); [right; left; unfold digit; lia|lia].
  - subst cs. apply Forall_app in Hcs. destruct Hcs as [_ X]. inversion X as [|? ? D]; subst. apply HW; auto. apply (letter_word _ _ _ H); [left; auto|]. unfold letter in Hc. lia.
  - destruct (quote_lexeme 34 _ _ (or_introl eq_refl) H) as (b' & Hb' & E2). exact (Q 34 b' b (or_introl eq_refl) Hb' Hb E2 (eq_sym E1)).
  - destruct (quote_lexeme 47 _ _ (or_intror eq_refl) H) as (b' & Hb' & E2). exact (Q 47 b' b (or_intror eq_refl) Hb' Hb E2 (eq_sym E1)).
  - subst cs. inversion Hc as [|? ? D X]; subst. apply Forall_app in X. destruct X as [_ X]. inversion X as [|? ? D']; subst. apply HB; [|exact D']. exact (blank_white _ _ _ H D).
  - destruct w; discriminate.
Qed.

Lemma divide : forall name w rest l, lexeme name w -> (In name words -> ~ starts_with word_char rest) -> (name = "WHITESPACE" -> ~ starts_with is_blank rest) -> division rest l -> division (w ++ rest) ((name, w) :: l).
Proof. intros name w rest l H A B D. apply dv_next; auto. intros name' text' rest' H' E. eapply longest; eauto. Qed.

Lemma mark_divides : forall name c rest l, In (name, c) marks -> division rest l -> division ([c] ++ rest) ((name, [c]) :: l).
Proof. intros name c rest l K D. apply divide; auto; [constructor; auto| |]; cbn in K; intros X; repeat (destruct K as [K|K]; [injection K as <- _; cbn in X; intuition discriminate|]); destruct K. Qed.
Lemma blank_divides : forall b rest l, blank b -> ~ starts_with is_blank rest -> division rest l -> division (b ++ rest) (("WHITESPACE", b) :: l).
Proof.
  intros b rest l [N H] S D. apply divide; auto; [|cbn; intuition discriminate]. destruct b as [|c b]; [congruence|]. apply lx_blank. apply Forall_forall. intros x Hx. specialize (H x Hx). cbn in H. destruct H as [H|[H|[]]]; auto.
Qed.
Lemma name_divides : forall n rest l, identifier n -> ~ starts_with word_char rest -> division rest l -> division (bytes n ++ rest) (("IDENT", bytes n) :: l).
Proof. intros n rest l [H _] S D. apply divide; auto; discriminate. Qed.
Lemma keyword_divides : forall name word rest l, In (name, word) keywords -> ~ starts_with word_char rest -> division rest l -> division (bytes word ++ rest) ((name, bytes word) :: l).
Proof. intros name word rest l K S D. apply divide; auto; [constructor; auto|]. intros ->. cbn in K. intuition discriminate. Qed.

Lemma white_divides : forall n ws rest l, (length ws <= n)%nat -> white ws -> ~ In 13 ws -> ~ starts_with is_blank rest -> division rest l -> exists l1, division (ws ++ rest) (l1 ++ l) /\ seen l1 = [].
Proof.
  induction n as [|n IH]; intros ws rest l L W C S D; [destruct ws; [exists []; split; auto|cbn in L; lia]|].
  destruct ws as [|c ws]; [exists []; split; auto|]. cbn [length] in L.
  assert (white ws) as W' by (intros x Hx; apply W; right; auto). assert (~ In 13 ws) as C' by (intros X; apply C; right; auto).
  destruct (N.eq_dec c 10) as [->|N10].
  - destruct (IH ws rest l ltac:(lia) W' C' S D) as (l1 & D1 & E). exists (("NEWLINE", [10]) :: l1). split; [|exact E]. apply (divide "NEWLINE" [10] (ws ++ rest)); [apply lx_newline|intros X; cbn in X; intuition discriminate|discriminate|exact D1].
  - assert (is_blank c) as Bc by (specialize (W c (or_introl eq_refl)); cbn in W; unfold is_blank; destruct W as [W|[W|[W|[W|[]]]]]; auto; try congruence; exfalso; apply C; left; auto).
    assert (exists b v, ws = b ++ v /\ Forall is_blank b /\ ~ starts_with is_blank (v ++ rest)) as (b & v & -> & Fb & Sv).
    { clear -S. induction ws as [|x ws (b & v & E & F & X)]; [exists [], []; auto|]. assert ({is_blank x} + {~ is_blank x}) as [Y|Y].
      { unfold is_blank. destruct (N.eq_dec x 32); [left; auto|]. destruct (N.eq_dec x 9); [left; auto|right; tauto]. }
      - exists (x :: b), v. split; [rewrite E; reflexivity|]. split; auto.
      - exists [], (x :: ws). split; auto. }
    rewrite app_length in L. destruct (IH v rest l ltac:(lia)) as (l1 & D1 & E); auto; [intros x Hx; apply W'; apply in_or_app; auto|intros X; apply C'; apply in_or_app; auto|].
    exists (("WHITESPACE", c :: b) :: l1). split; [|exact E]. rewrite app_comm_cons, <- app_assoc. apply divide; auto; [|cbn; intuition discriminate]. constructor. constructor; auto.
Qed.

(** ** Tokens for lexemes *)

Definition shows (l : list (string * list N)) (ts : list tok) : Prop := Forall2 (fun e t => In (fst e, fst t) kinds /\ snd e = td_text (snd t)) (seen l) ts.
Lemma seen_app : forall a b, seen (a ++ b) = seen a ++ seen b.
Proof. intros a b. apply filter_app. Qed.
Lemma shows_app : forall a b ts us, shows a ts -> shows b us -> shows (a ++ b) (ts ++ us).
Proof. intros a b ts us A B. unfold shows. rewrite seen_app. apply Forall2_app; auto. Qed.
Lemma shows_blank : forall b l ts, shows l ts -> shows (("WHITESPACE", b) :: l) ts.
Proof. intros b l ts H. exact H. Qed.
Lemma shows_one : forall name k w l ts, In (name, k) kinds -> shows l ts -> shows ((name, w) :: l) ((k, some_data w) :: ts).
Proof. intros name k w l ts K H. unfold shows. destruct (kinds_visible _ _ K). rewrite seen_token by auto. constructor; auto. Qed.
Lemma shows_nil : shows [] [].
Proof. constructor. Qed.

Definition ascii (bs : list N) : Prop := Forall (fun c => c < 128) bs.
Definition solid (bs : list N) : Prop := exists c r, bs = c :: r /\ ~ is_blank c.
Lemma solid_app : forall bs rest, solid bs -> solid (bs ++ rest) .
Proof. intros bs rest (c & r & -> & H). exists c, (r ++ rest). auto. Qed.
Lemma solid_starts : forall bs rest, solid bs -> ~ starts_with is_blank (bs ++ rest).
Proof. intros bs rest (c & r & -> & H). exact H. Qed.

Definition boot_choice (qs : list prod_pattern) : prod_pattern := match qs with [q] => q | _ => QAlt qs end.
Lemma kind_ident : In ("IDENT", IDENT) kinds. Proof. cbn. tauto. Qed.

Lemma name_ascii : forall n, is_name n -> ascii (bytes n).
Proof. intros n [_ H]. apply Forall_forall. intros c Hc. apply H in Hc. unfold name_char in Hc. lia. Qed.
Lemma blank_ascii : forall b, blank b -> ascii b.
Proof. intros b [_ H]. apply Forall_forall. intros c Hc. apply H in Hc. cbn in Hc. destruct Hc as [<-|[<-|[]]]; lia. Qed.
Lemma blank_stops : forall b rest, blank b -> ~ starts_with word_char (b ++ rest).
Proof. intros b rest [N H]. destruct b as [|c b]; [congruence|]. specialize (H c (or_introl eq_refl)). cbn in *. unfold word_char, letter, digit. lia. Qed.
Lemma name_solid : forall n, is_name n -> solid (bytes n).
Proof. intros n H. destruct (name_first _ H) as (d & r & E & K). exists d, r. split; auto. unfold name_char in K. unfold is_blank. lia. Qed.

Lemma named_seq : forall l, named (QSeq l) -> Forall named l.
Proof. intros l H. inversion H; auto. Qed.
Lemma named_alt : forall l, named (QAlt l) -> Forall named l.
Proof. intros l H. inversion H; auto. Qed.
Lemma bytes_name : forall n, name_of (bytes n) = n.
Proof. exact name_text. Qed.

Notation BItem := (item QSeq boot_choice).
Notation BUnary := (unary QSeq boot_choice).
Notation BUnits := (units QSeq boot_choice).
Notation BChoices := (choices QSeq boot_choice).
Notation BAlternatives := (alternatives QSeq boot_choice).

Definition divides (P : list tok -> Prop) (bs : list N) : Prop :=
  ascii bs /\ solid bs /\ forall rest l, ~ starts_with word_char rest -> division rest l -> exists l1 ts, division (bs ++ rest) (l1 ++ l) /\ shows l1 ts /\ P ts.

Lemma group_divides : forall p bs, divides (BAlternatives p) bs -> divides (BItem p) (bytes "(" ++ bs ++ bytes ")").
Proof.
  intros p bs (A & S & H). split; [constructor; [reflexivity|]; apply Forall_app; split; [exact A|repeat constructor]|]. split; [exists 40, (bs ++ [41]); split; [reflexivity|unfold is_blank; lia]|].
  intros rest l _ D. pose proof (mark_divides "RPAR" 41 rest l ltac:(cbn; tauto) D) as D1. destruct (H ([41] ++ rest) _ ltac:(cbn; unfold word_char, letter, digit; lia) D1) as (l1 & ts & D2 & Sh & P).
  pose proof (mark_divides "LPAR" 40 _ _ ltac:(cbn; tauto) D2) as D3. exists (("LPAR", [40]) :: l1 ++ [("RPAR", [41])]), ([(LPAR, some_data [40])] ++ ts ++ [(RPAR, some_data [41])]).
  split; [|split; [|constructor; auto]].
  - change (bytes "(") with [40]. change (bytes ")") with [41]. rewrite <- !app_assoc. cbn [app] in *. rewrite <- app_assoc. exact D3.
  - cbn [app]. apply shows_one; [cbn; tauto|]. apply shows_app; auto. apply shows_one; [cbn; tauto|apply shows_nil].
Qed.
Lemma sign_divides : forall p q name c k bs, In (name, c) marks -> In (name, k) kinds -> c < 128 -> (forall ts, BItem p ts -> BUnary q (ts ++ [(k, some_data [c])])) -> divides (BItem p) bs -> divides (BUnary q) (bs ++ [c]).
Proof.
  intros p q name c k bs M K C HP (A & S & H). split; [apply Forall_app; split; [exact A|repeat constructor; auto]|]. split; [apply solid_app; auto|].
  intros rest l _ D. pose proof (mark_divides name c rest l M D) as D1. destruct (H ([c] ++ rest) _ (mark_word _ _ M) D1) as (l1 & ts & D2 & Sh & P).
  exists (l1 ++ [(name, [c])]), (ts ++ [(k, some_data [c])]). split; [rewrite <- !app_assoc; exact D2|]. split; auto. apply shows_app; auto. apply shows_one; [auto|apply shows_nil].
Qed.

Lemma prods_divide :
  (forall p bs, prod_atom p bs -> named p -> divides (BItem p) bs) /\
  (forall p bs, prod_item p bs -> named p -> divides (BUnary p) bs) /\
  (forall l bs, prod_items l bs -> Forall named l -> divides (BUnits l) bs) /\
  (forall l bs, prod_choices l bs -> Forall named l -> divides (BChoices l) bs).
Proof.
  apply prod_min.
  - intros s H N. inversion N as [n I| | | | | |]; subst. split; [apply name_ascii; auto|]. split; [apply name_solid; auto|]. intros rest l S D.
    exists [("IDENT", bytes s)], [(IDENT, some_data (bytes s))]. split; [apply name_divides; auto|]. split; [apply shows_one; [apply kind_ident|apply shows_nil]|].
    pose proof (it_name QSeq boot_choice (some_data (bytes s))) as X. cbn [td_text some_data] in X. rewrite bytes_name in X. exact X.
  - intros p bs _ IH N. apply group_divides. destruct (IH ltac:(constructor; auto)) as (A & S & H). split; auto. split; auto. intros rest l S' D. destruct (H rest l S' D) as (l1 & ts & D1 & Sh & P).
    exists l1, ts. split; auto. split; auto. exact (al_choice QSeq boot_choice [p] ts P).
  - intros ps bs L _ IH N. apply group_divides. destruct (IH (named_alt _ N)) as (A & S & H). split; auto. split; auto. intros rest l S' D. destruct (H rest l S' D) as (l1 & ts & D1 & Sh & P).
    exists l1, ts. split; auto. split; auto. pose proof (al_choice QSeq boot_choice ps ts P) as X. destruct ps as [|a [|b ps]]; try (cbn in L; lia). exact X.
  - intros p bs _ IH N. destruct (IH N) as (A & S & H). split; auto. split; auto. intros rest l S' D. destruct (H rest l S' D) as (l1 & ts & D1 & Sh & P). exists l1, ts. split; auto. split; auto. constructor; auto.
  - intros p bs _ IH N. inversion N; subst. apply (sign_divides p _ "ASTERISK" 42 ASTERISK); auto; [cbn; tauto|cbn; tauto|reflexivity|intros ts X; apply un_star; auto].
  - intros p bs _ IH N. inversion N; subst. apply (sign_divides p _ "PLUS" 43 PLUS); auto; [cbn; tauto|cbn; tauto|reflexivity|intros ts X; apply un_plus; auto].
  - intros p bs _ IH N. inversion N; subst. apply (sign_divides p _ "QUESTION" 63 QUESTION); auto; [cbn; tauto|cbn; tauto|reflexivity|intros ts X; apply un_option; auto].
  - intros p bs _ IH N. inversion N as [|? ? N1 N2]; subst. destruct (IH N1) as (A & S & H). split; auto. split; auto. intros rest l S' D. destruct (H rest l S' D) as (l1 & ts & D1 & Sh & P). exists l1, ts. split; auto. split; auto. constructor; auto.
  - intros p bs sp ps bs' _ IH Hb _ IHs N. inversion N as [|? ? N1 N2]; subst. destruct (IH N1) as (A & S & H). destruct (IHs N2) as (A' & S' & H').
    split; [apply Forall_app; split; auto; apply Forall_app; split; auto; apply blank_ascii; auto|]. split; [apply solid_app; auto|]. intros rest l St D.
    destruct (H' rest l St D) as (l2 & ts2 & D2 & Sh2 & P2). pose proof (blank_divides sp _ _ Hb (solid_starts bs' rest S') D2) as D3.
    destruct (H (sp ++ bs' ++ rest) _ (blank_stops sp (bs' ++ rest) Hb) D3) as (l1 & ts1 & D1 & Sh1 & P1).
    exists (l1 ++ ("WHITESPACE", sp) :: l2), (ts1 ++ ts2). split; [rewrite <- !app_assoc; exact D1|]. split; [apply shows_app; auto; apply shows_blank; auto|]. constructor; auto.
  - intros ps bs _ IH N. inversion N as [|? ? N1 N2]; subst. destruct (IH (named_seq _ N1)) as (A & S & H). split; auto. split; auto. intros rest l S' D. destruct (H rest l S' D) as (l1 & ts & D1 & Sh & P). exists l1, ts. split; auto. split; auto. constructor; auto.
  - intros ps bs qs bs' _ IH _ IHs N. inversion N as [|? ? N1 N2]; subst. destruct (IH (named_seq _ N1)) as (A & S & H). destruct (IHs N2) as (A' & S' & H').
    split; [apply Forall_app; split; auto; apply Forall_app; split; auto; repeat constructor|]. split; [apply solid_app; auto|]. intros rest l St D.
    destruct (H' rest l St D) as (l2 & ts2 & D2 & Sh2 & P2).
    assert (blank [32]) as B by (split; [discriminate|intros c [<-|[]]; left; reflexivity]).
    pose proof (blank_divides [32] _ _ B (solid_starts bs' rest S') D2) as D3. pose proof (mark_divides "PIPE" 124 _ _ ltac:(cbn; tauto) D3) as D4.
    pose proof (blank_divides [32] ([124] ++ [32] ++ bs' ++ rest) _ B ltac:(cbn; unfold is_blank; lia) D4) as D5.
    destruct (H ([32] ++ [124] ++ [32] ++ bs' ++ rest) _ ltac:(cbn; unfold word_char, letter, digit; lia) D5) as (l1 & ts1 & D1 & Sh1 & P1).
    exists (l1 ++ ("WHITESPACE", [32]) :: ("PIPE", [124]) :: ("WHITESPACE", [32]) :: l2), (ts1 ++ [(PIPE, some_data [124])] ++ ts2).
    split; [rewrite <- !app_assoc; exact D1|]. split; [apply shows_app; auto; apply shows_blank; cbn [app]; apply shows_one; [cbn; tauto|apply shows_blank; auto]|]. constructor; auto.
Qed.

(** ** Literals and regular expressions *)

Lemma body_app : forall q a b, body q a -> body q b -> body q (a ++ b).
Proof. intros q a b Ha Hb. induction Ha; cbn [app]; auto; [apply body_char|apply body_escape]; auto. Qed.
Definition body_text (bs : list N) : Prop := body 47 bs /\ ascii bs.
Lemma body_text_app : forall a b, body_text a -> body_text b -> body_text (a ++ b).
Proof. intros a b [A A'] [B B']. split; [apply body_app; auto|apply Forall_app; auto]. Qed.
Lemma body_text_char : forall c, c < 128 -> c <> 47 -> c <> 92 -> c <> 10 -> body_text [c].
Proof. intros c A B C D. split; [constructor; auto; constructor|constructor; auto; constructor]. Qed.
Lemma body_text_escape : forall c, c < 128 -> body_text [92; c].
Proof. intros c A. split; [apply body_escape; constructor|constructor; [reflexivity|]; constructor; auto; constructor]. Qed.

Lemma hex_body : forall ds n, hex_number ds n -> body_text ds.
Proof.
  induction 1 as [|ds n d v H IH D]; [split; constructor|]. apply body_text_app; auto.
  assert (In d (bytes "0123456789abcdef" ++ bytes "0123456789ABCDEF")) as X by (apply in_or_app; destruct D as [D|D]; apply nth_error_In in D; auto).
  vm_compute in X. repeat (destruct X as [<-|X]; [apply body_text_char; (reflexivity || discriminate)|]). destruct X.
Qed.
Lemma char_body : forall c bs, spells_char c bs -> body_text bs.
Proof.
  intros c bs H. destruct H as [c L N| | | | | |ds c L Hd Hs].
  - apply body_text_char; auto; intros ->; apply N; vm_compute; tauto.
  - apply body_text_escape. reflexivity.
  - apply body_text_escape. reflexivity.
  - apply body_text_escape. reflexivity.
  - apply body_text_escape. reflexivity.
  - apply body_text_escape. reflexivity.
  - change (bytes "\u{") with ([92; 117] ++ [123]). rewrite <- app_assoc. apply body_text_app; [apply body_text_escape; reflexivity|]. apply body_text_app; [apply body_text_char; (reflexivity || discriminate)|].
    apply body_text_app; [eapply hex_body; eauto|apply body_text_char; (reflexivity || discriminate)].
Qed.
Lemma range_body : forall r bs, spells_range r bs -> body_text bs.
Proof. intros r bs H. destruct H as [c bs H|c1 c2 b1 b2 H1 H2]; [eapply char_body; eauto|]. apply body_text_app; [eapply char_body; eauto|]. apply body_text_app; [apply body_text_char; (reflexivity || discriminate)|eapply char_body; eauto]. Qed.
Lemma ranges_body : forall s r bs, spells_ranges s r bs -> body_text bs.
Proof. induction 1 as [r bs H _|r bs rs bs' H _ _ IH]; [eapply range_body; eauto|]. apply body_text_app; auto. eapply range_body; eauto. Qed.
Lemma regex_body : forall s,
  (forall p bs, regex_atom s p bs -> body_text bs) /\ (forall p bs, regex_item s p bs -> body_text bs) /\
  (forall l bs, regex_items s l bs -> body_text bs) /\ (forall l bs, regex_choices s l bs -> body_text bs).
Proof.
  intros s. assert (forall c, c < 128 -> c <> 47 -> c <> 92 -> c <> 10 -> body_text [c]) as K by apply body_text_char.
  apply regex_min.
  - intros p bs _ H. apply body_text_app; [apply (K 40); (reflexivity || discriminate)|]. apply body_text_app; auto. apply (K 41); (reflexivity || discriminate).
  - intros p bs _ _ H. apply body_text_app; [apply (K 40); (reflexivity || discriminate)|]. apply body_text_app; auto. apply (K 41); (reflexivity || discriminate).
  - intros r bs H _. apply body_text_app; [apply (K 91); (reflexivity || discriminate)|]. apply body_text_app; [eapply ranges_body; eauto|]. apply (K 93); (reflexivity || discriminate).
  - intros r bs H. change (bytes "[^") with ([91] ++ [94]). rewrite <- app_assoc. apply body_text_app; [apply (K 91); (reflexivity || discriminate)|]. apply body_text_app; [apply (K 94); (reflexivity || discriminate)|].
    apply body_text_app; [eapply ranges_body; eauto|]. apply (K 93); (reflexivity || discriminate).
  - apply (K 46); (reflexivity || discriminate).
  - intros c bs H _. eapply char_body; eauto.
  - auto.
  - intros p bs _ H. apply body_text_app; auto. apply (K 42); (reflexivity || discriminate).
  - intros p bs _ H. apply body_text_app; auto. apply (K 43); (reflexivity || discriminate).
  - intros p bs _ H. apply body_text_app; auto. apply (K 63); (reflexivity || discriminate).
  - auto.
  - intros p bs ps bs' _ H _ H'. apply body_text_app; auto.
  - auto.
  - intros p bs ps bs' _ H _ H'. apply body_text_app; auto. apply body_text_app; auto. apply (K 124); (reflexivity || discriminate).
Qed.

(** ** Rules *)

Notation JRule := (rule_tokens joined_sequence joined_choice).
Notation JFile := (file_tokens joined_sequence joined_choice).
Notation JAlternatives := (alternatives joined_sequence joined_choice).
Notation like := InputGenMeaningProof.alike.

Lemma like_boot : forall l l', l' <> [] -> Forall2 like l l' -> like (boot_choice l) (joined_choice l').
Proof.
  intros l l' N H. destruct H as [|p q l l' E H]; [congruence|]. destruct H as [|p' q' l l' E' H]; [exact E|]. apply (alike_alt (p :: p' :: l) (q :: q' :: l')); [discriminate|]. constructor; auto.
Qed.
Lemma patterns_boot :
  (forall p ts, BItem p ts -> exists q, item joined_sequence joined_choice q ts /\ like p q) /\
  (forall p ts, BUnary p ts -> exists q, unary joined_sequence joined_choice q ts /\ like p q) /\
  (forall ps ts, BUnits ps ts -> exists qs, units joined_sequence joined_choice qs ts /\ Forall2 like ps qs) /\
  (forall ps ts, BChoices ps ts -> exists qs, choices joined_sequence joined_choice qs ts /\ Forall2 like ps qs) /\
  (forall p ts, BAlternatives p ts -> exists q, JAlternatives q ts /\ like p q).
Proof.
  assert (forall p, like p p) as R by (intros p L w; reflexivity).
  apply syntax_mut.
  - intros d. eexists. split; [constructor|auto].
  - intros p ts a b _ (q & H & E). exists q. split; [apply it_group; auto|auto].
  - intros p ts _ (q & H & E). exists q. split; [apply un_once; auto|auto].
  - intros p ts d _ (q & H & E). exists (QOpt q). split; [apply un_option; auto|]. intros L. apply den_opt. auto.
  - intros p ts d _ (q & H & E). exists (QStar q). split; [apply un_star; auto|]. intros L. apply den_star. auto.
  - intros p ts d _ (q & H & E). exists (QPlus q). split; [apply un_plus; auto|]. intros L. apply den_plus. auto.
  - intros p ts _ (q & H & E). exists [q]. split; [apply us_one; auto|]. constructor; auto.
  - intros p ts ps ts' _ (q & H & E) _ (qs & H' & E'). exists (q :: qs). split; [apply us_more; auto|]. constructor; auto.
  - intros ps ts _ (qs & H & E). exists [joined_sequence qs]. split; [apply ch_one; auto|]. constructor; auto. apply alike_seq; auto. eapply units_nonempty; eauto.
  - intros ps ts d rs ts' _ (qs & H & E) _ (us & H' & E'). exists (joined_sequence qs :: us). split; [apply ch_more; auto|]. constructor; auto. apply alike_seq; auto. eapply units_nonempty; eauto.
  - intros d. exists QEps. split; [constructor|auto].
  - intros ps ts _ (qs & H & E). exists (joined_choice qs). split; [apply al_choice; auto|]. apply like_boot; auto. eapply choices_nonempty; eauto.
Qed.

Definition rule_alike (regex : list N -> option hir) (text : list N) (r r' : file_rule) : Prop :=
  match r, r' with
  | FProd p, FProd q => pr_name p = pr_name q /\ pr_tag p = pr_tag q /\ like (pr_pattern p) (pr_pattern q)
  | FToken t, FToken u => token_read regex text u t
  | FEntry n, FEntry m => n = m
  | _, _ => False
  end.

(** What is asked of the rules of a file which contains [text]. *)
Definition plain_rule (regex : list N -> option hir) (text : list N) (r : file_rule) : Prop :=
  match r with
  | FToken t => identifier (tr_name t) /\ (forall cs, tr_pattern t = TLiteral cs -> body 34 cs) /\
      forall p bs, tr_pattern t = TPattern p -> written_regex text (tr_name t) bs -> spells_token_pattern false (TPattern p) ([47] ++ bs ++ [47]) ->
      exists h q, regex bs = Some h /\ make_pattern_from_hir h = Ok q
  | FProd p => identifier (pr_name p) /\ named (pr_pattern p)
  | FEntry n => identifier n
  end.

Definition starts_word (bs : list N) : Prop := exists c r, bs = c :: r /\ letter c.
Lemma word_solid : forall bs, starts_word bs -> solid bs.
Proof. intros bs (c & r & -> & L). exists c, r. split; auto. unfold letter in L. unfold is_blank. lia. Qed.

(** A keyword, a name and what follows. *)
Lemma head_divides : forall word name k n b1 rest l, In (name, word) keywords -> In (name, k) kinds -> is_name n -> identifier n -> blank b1 -> ~ starts_with word_char rest -> division rest l ->
  exists l1, division (bytes word ++ b1 ++ bytes n ++ rest) (l1 ++ l) /\ shows l1 [(k, some_data (bytes word)); (IDENT, some_data (bytes n))].
Proof.
  intros word name k n b1 rest l K K' Hn Hi B S D. pose proof (name_divides n rest l Hi S D) as D1. pose proof (blank_divides b1 _ _ B (solid_starts (bytes n) rest (name_solid n Hn)) D1) as D2.
  pose proof (keyword_divides name word _ _ K (blank_stops b1 (bytes n ++ rest) B) D2) as D3. exists [(name, bytes word); ("WHITESPACE", b1); ("IDENT", bytes n)]. split; [exact D3|].
  apply shows_one; auto. apply shows_blank. apply shows_one; [apply kind_ident|apply shows_nil].
Qed.

Lemma rule_divides : forall regex text r bs a b, BootSpec.spells_rule false r bs -> plain_rule regex text r -> text = a ++ bs ++ b ->
  ascii bs /\ starts_word bs /\ forall rest l, division rest l -> exists l1 ts span r', division (bs ++ rest) (l1 ++ l) /\ shows l1 ts /\ JRule regex (span, r') ts /\ rule_alike regex text r r'.
Proof.
  intros regex text r bs a b H P T. destruct H as [n p b1 b2 b3 bs Hn B1 B2 B3 Hp|n ps b1 b2 b3 bs Hn B1 B2 B3 Hp|n b1 Hn B1].
  - destruct P as (Hi & PL & PR). cbn [tr_name tr_pattern] in *.
    assert (exists k name t, ascii bs /\ solid bs /\ lexeme name bs /\ In (name, k) kinds /\ ~ In name words /\ name <> "WHITESPACE" /\ token_text regex t (k, some_data bs) /\ token_read regex text (mkTokenRule n None t) (mkTokenRule n None p)) as
      (k & name & t & A & S & L & K & NW & NB & Tt & St).
    { destruct Hp as [cs Hne Hc|ps bs Hr].
      - exists STRING, "STRING", (TLiteral cs). split; [constructor; [reflexivity|]; apply Forall_app; split; [|repeat constructor]; apply Forall_forall; intros c X; apply (Hc c X)|].
        split; [exists 34, (cs ++ [34]); split; [reflexivity|unfold is_blank; lia]|]. split; [apply (lx_string cs); apply PL; reflexivity|]. split; [cbn; tauto|]. split; [cbn; intuition discriminate|]. split; [discriminate|].
        split; [apply tt_literal; reflexivity|]. repeat split.
      - destruct (proj1 (proj2 (proj2 (regex_body false))) _ _ Hr) as [Rb Ra]. change (bytes "/") with [47] in *.
        assert (written_regex text n bs) as Wr by (exists a, b1, b2, b3, b; rewrite T, <- !app_assoc; auto).
        destruct (PR (PSeq ps) bs eq_refl Wr (st_regex false ps bs Hr)) as (h & q & Eh & Eq).
        exists REGEX, "REGEX", (TPattern q). split; [constructor; [reflexivity|]; apply Forall_app; split; [exact Ra|repeat constructor]|].
        split; [exists 47, (bs ++ [47]); split; [reflexivity|unfold is_blank; lia]|]. split; [apply (lx_regex bs); auto|]. split; [cbn; tauto|]. split; [cbn; intuition discriminate|]. split; [discriminate|].
        split; [eapply tt_regex; [reflexivity|exact Eh|exact Eq]|]. split; [reflexivity|]. split; [reflexivity|]. cbn [tr_pattern tr_name]. exists bs, h. split; [exact Wr|]. split; [exact (st_regex false ps bs Hr)|]. split; [exact Eh|]. apply conversion_language. exact Eq. }
    split.
    { apply Forall_app. split; [repeat constructor|]. apply Forall_app. split; [apply blank_ascii; auto|]. apply Forall_app. split; [apply name_ascii; auto|]. apply Forall_app. split; [apply blank_ascii; auto|].
      apply Forall_app. split; [repeat constructor|]. apply Forall_app. split; [apply blank_ascii; auto|]. apply Forall_app. split; auto. repeat constructor. }
    split; [eexists; eexists; split; [reflexivity|left; split; discriminate]|].
    intros rest l D. pose proof (mark_divides "SEMI" 59 rest l ltac:(cbn; tauto) D) as D1. pose proof (divide name bs _ _ L ltac:(intros X; contradiction) ltac:(intros X; contradiction) D1) as D2.
    pose proof (blank_divides b3 _ _ B3 (solid_starts bs _ S) D2) as D3. pose proof (mark_divides "EQUALS" 61 _ _ ltac:(cbn; tauto) D3) as D4.
    pose proof (blank_divides b2 ([61] ++ b3 ++ bs ++ [59] ++ rest) _ B2 ltac:(cbn; unfold is_blank; lia) D4) as D5.
    destruct (head_divides "token" "KW_TOKEN" KW_TOKEN n b1 _ _ ltac:(cbn; tauto) ltac:(cbn; tauto) Hn Hi B1 (blank_stops b2 ([61] ++ b3 ++ bs ++ [59] ++ rest) B2) D5) as (lh & Dh & Sh).
    exists (lh ++ [("WHITESPACE", b2); ("EQUALS", [61]); ("WHITESPACE", b3); (name, bs); ("SEMI", [59])]), ([(KW_TOKEN, some_data (bytes "token")); (IDENT, some_data (bytes n))] ++ [] ++ [(EQUALS, some_data [61]); (k, some_data bs); (SEMI, some_data [59])]).
    exists (extent (some_data (bytes "token")) (some_data [59])), (FToken (mkTokenRule n None t)). split; [rewrite <- !app_assoc; rewrite <- ?app_assoc in Dh; exact Dh|].
    split; [apply shows_app; auto; cbn [app]; apply shows_blank; apply shows_one; [cbn; tauto|]; apply shows_blank; apply shows_one; auto; apply shows_one; [cbn; tauto|apply shows_nil]|].
    split; [|exact St]. pose proof (rt_token joined_sequence joined_choice regex (some_data (bytes "token")) (some_data (bytes n)) (some_data [61]) (some_data [59]) None [] t (k, some_data bs) pr_none Tt) as X.
    cbn [td_text some_data] in X. rewrite bytes_name in X. exact X.
  - destruct P as (Hi & PN). cbn [pr_name pr_pattern] in *. destruct (proj1 (proj2 (proj2 prods_divide)) _ _ Hp (named_seq _ PN)) as (A & S & H).
    split.
    { apply Forall_app. split; [repeat constructor|]. apply Forall_app. split; [apply blank_ascii; auto|]. apply Forall_app. split; [apply name_ascii; auto|]. apply Forall_app. split; [apply blank_ascii; auto|].
      apply Forall_app. split; [repeat constructor|]. apply Forall_app. split; [apply blank_ascii; auto|]. apply Forall_app. split; auto. repeat constructor. }
    split; [eexists; eexists; split; [reflexivity|left; split; discriminate]|].
    intros rest l D. pose proof (mark_divides "SEMI" 59 rest l ltac:(cbn; tauto) D) as D1. destruct (H ([59] ++ rest) _ ltac:(cbn; unfold word_char, letter, digit; lia) D1) as (l2 & ts2 & D2 & Sh2 & P2).
    pose proof (blank_divides b3 _ _ B3 (solid_starts bs _ S) D2) as D3. pose proof (mark_divides "EQUALS" 61 _ _ ltac:(cbn; tauto) D3) as D4.
    pose proof (blank_divides b2 ([61] ++ b3 ++ bs ++ [59] ++ rest) _ B2 ltac:(cbn; unfold is_blank; lia) D4) as D5.
    destruct (head_divides "prod" "KW_PROD" KW_PROD n b1 _ _ ltac:(cbn; tauto) ltac:(cbn; tauto) Hn Hi B1 (blank_stops b2 ([61] ++ b3 ++ bs ++ [59] ++ rest) B2) D5) as (lh & Dh & Sh).
    destruct (proj2 (proj2 (proj2 (proj2 patterns_boot))) (QSeq ps) ts2 (al_choice QSeq boot_choice [QSeq ps] ts2 (ch_one QSeq boot_choice ps ts2 P2))) as (q & Hq & Eq).
    exists (lh ++ [("WHITESPACE", b2); ("EQUALS", [61]); ("WHITESPACE", b3)] ++ l2 ++ [("SEMI", [59])]), ([(KW_PROD, some_data (bytes "prod")); (IDENT, some_data (bytes n))] ++ [] ++ [(EQUALS, some_data [61])] ++ ts2 ++ [(SEMI, some_data [59])]).
    exists (extent (some_data (bytes "prod")) (some_data [59])), (FProd (mkProdRule n None q)).
    split; [rewrite <- !app_assoc; rewrite <- ?app_assoc in Dh; cbn [app] in *; rewrite <- ?app_assoc; exact Dh|].
    split; [apply shows_app; auto; cbn [app]; apply shows_blank; apply shows_one; [cbn; tauto|]; apply shows_blank; apply shows_app; auto; apply shows_one; [cbn; tauto|apply shows_nil]|].
    split; [|split; [reflexivity|]; split; [reflexivity|exact Eq]].
    pose proof (rt_prod joined_sequence joined_choice regex (some_data (bytes "prod")) (some_data (bytes n)) (some_data [61]) (some_data [59]) None [] q ts2 tg_none Hq) as X.
    cbn [td_text some_data] in X. rewrite bytes_name in X. exact X.
  - cbn [plain_rule] in P. split.
    { apply Forall_app. split; [repeat constructor|]. apply Forall_app. split; [apply blank_ascii; auto|]. apply Forall_app. split; [apply name_ascii; auto|]. repeat constructor. }
    split; [eexists; eexists; split; [reflexivity|left; split; discriminate]|].
    intros rest l D. pose proof (mark_divides "SEMI" 59 rest l ltac:(cbn; tauto) D) as D1.
    destruct (head_divides "entry" "KW_ENTRY" KW_ENTRY n b1 ([59] ++ rest) _ ltac:(cbn; tauto) ltac:(cbn; tauto) Hn P B1 ltac:(cbn; unfold word_char, letter, digit; lia) D1) as (lh & Dh & Sh).
    exists (lh ++ [("SEMI", [59])]), ([(KW_ENTRY, some_data (bytes "entry")); (IDENT, some_data (bytes n))] ++ [(SEMI, some_data [59])]), (extent (some_data (bytes "entry")) (some_data [59])), (FEntry n).
    split; [rewrite <- !app_assoc; exact Dh|]. split; [apply shows_app; auto; apply shows_one; [cbn; tauto|apply shows_nil]|]. split; [|reflexivity].
    pose proof (rt_entry joined_sequence joined_choice regex (some_data (bytes "entry")) (some_data (bytes n)) (some_data [59])) as X. cbn [td_text some_data] in X. rewrite bytes_name in X. exact X.
Qed.

(** ** Files *)

Lemma rules_divide : forall regex text rules bs, BootSpec.spells_rules false rules bs -> forall a b, Forall (plain_rule regex text) rules -> text = a ++ bs ++ b -> ~ In 13 bs ->
  ascii bs /\ starts_word bs /\ forall rest l, division rest l ->
  exists l1 ts rules', division (bs ++ rest) (l1 ++ l) /\ shows l1 ts /\ JFile regex rules' ts /\ Forall2 (rule_alike regex text) rules (map snd rules').
Proof.
  intros regex text rules bs H. induction H as [r bs H|r bs ws rs bs' H W _ Hs IH]; intros a b F T C.
  - inversion F as [|? ? P _]; subst. destruct (rule_divides regex _ r bs a b H P eq_refl) as (A & S & X). split; auto. split; auto. intros rest l D. destruct (X rest l D) as (l1 & ts & span & r' & D1 & Sh & J & E).
    exists l1, ts, [(span, r')]. split; auto. split; auto. split; [constructor; auto|]. constructor; auto.
  - inversion F as [|? ? P F']; subst. destruct (rule_divides regex _ r bs a (ws ++ bs' ++ b) H P ltac:(rewrite <- !app_assoc; reflexivity)) as (A & S & X).
    destruct (IH (a ++ bs ++ ws) b F' ltac:(rewrite <- !app_assoc; reflexivity) ltac:(intros Y; apply C; apply in_or_app; right; apply in_or_app; auto)) as (A' & S' & X').
    split; [apply Forall_app; split; auto; apply Forall_app; split; auto; apply Forall_forall; intros c Hc; apply W in Hc; cbn in Hc; lia|].
    split; [destruct S as (c & q & -> & L); exists c; eexists; split; [reflexivity|auto]|]. intros rest l D. destruct (X' rest l D) as (l2 & ts2 & rules2 & D2 & Sh2 & J2 & E2).
    destruct (white_divides (length ws) ws (bs' ++ rest) _ (le_n _) W ltac:(intros Y; apply C; apply in_or_app; right; apply in_or_app; auto) (solid_starts bs' rest (word_solid _ S')) D2) as (lw & Dw & Sw).
    destruct (X _ _ Dw) as (l1 & ts & span & r' & D1 & Sh & J & E). exists (l1 ++ lw ++ l2), (ts ++ ts2), ((span, r') :: rules2). split; [rewrite <- !app_assoc; exact D1|].
    split; [apply shows_app; auto; unfold shows; rewrite seen_app, Sw; exact Sh2|]. split; [constructor; auto|]. constructor; auto.
Qed.

Lemma file_divides : forall regex text rules, spells_file false rules text -> Forall (plain_rule regex text) rules -> ~ In 13 text ->
  ascii text /\ exists l ts rules', division text l /\ shows l ts /\ JFile regex rules' ts /\ Forall2 (rule_alike regex text) rules (map snd rules').
Proof.
  intros regex text rules (w1 & bs & w2 & W1 & H & W2 & ->) F C.
  assert (forall ws, white ws -> ascii ws) as WA by (intros ws W; apply Forall_forall; intros c Hc; apply W in Hc; cbn in Hc; lia).
  destruct (rules_divide regex _ rules bs H w1 w2 F eq_refl ltac:(intros Y; apply C; apply in_or_app; right; apply in_or_app; auto)) as (A & S & X).
  split; [apply Forall_app; split; [exact (WA _ W1)|]; apply Forall_app; split; [exact A|exact (WA _ W2)]|].
  destruct (white_divides (length w2) w2 [] [] (le_n _) W2 ltac:(intros Y; apply C; apply in_or_app; right; apply in_or_app; auto) (fun x => x) dv_end) as (l2 & D2 & S2). rewrite !app_nil_r in D2.
  destruct (X w2 l2 D2) as (l1 & ts & rules' & D1 & Sh & J & E).
  destruct (white_divides (length w1) w1 (bs ++ w2) _ (le_n _) W1 ltac:(intros Y; apply C; apply in_or_app; auto) (solid_starts bs w2 (word_solid _ S)) D1) as (l0 & D0 & S0).
  exists (l0 ++ l1 ++ l2), ts, rules'. split; auto. split; auto. unfold shows. rewrite !seen_app, S0, S2, app_nil_r. exact Sh.
Qed.

Lemma places : forall l line col, Forall (fun e => lexeme (fst e) (snd e) /\ ascii (snd e)) l -> 1 <= col -> line + N.of_nat (length (concat (map snd l))) < 65536 -> col + N.of_nat (length (concat (map snd l))) < 65536 ->
  exists ts, placed line col l ts.
Proof.
  induction l as [|[name w] l IH]; intros line col F C L L'; [exists []; constructor|]. inversion F as [|? ? [Hl Ha] F']; subst. cbn [fst snd] in *. cbn [map concat snd] in L, L'. rewrite app_length in L, L'.
  assert (byte_len w = N.of_nat (length w)) as E by (apply ascii_len; apply Forall_forall; auto). assert (width w = N.of_nat (length w)) as W by (unfold width; rewrite E; apply N.mod_small; lia).
  destruct (lexeme_names _ _ Hl) as [->|[->|(t & K)]].
  - assert (w = [10]) as -> by (remember "NEWLINE" as nm eqn:En; destruct Hl as [n x K|n x K| | | | | | |]; try discriminate En; auto; subst; cbn in K; intuition discriminate). cbn [length] in *.
    destruct (IH (line + 1) 1 F' ltac:(lia) ltac:(lia) ltac:(lia)) as (ts & P). exists ts. constructor; auto; lia.
  - destruct (IH line (col + width w) F' ltac:(lia) ltac:(lia) ltac:(lia)) as (ts & P). exists ts. apply pl_blank; auto; lia.
  - destruct (IH line (col + width w) F' ltac:(lia) ltac:(lia) ltac:(lia)) as (ts & P). eexists. eapply pl_token; eauto; lia.
Qed.
Lemma division_concat : forall text l, division text l -> concat (map snd l) = text.
Proof. induction 1 as [|name text rest l H _ D IH]; [reflexivity|]. cbn [map concat snd]. rewrite IH. reflexivity. Qed.

Lemma shows_alike : forall l ts ts', Forall2 (fun e t => In (fst e, fst t) kinds /\ snd e = td_text (snd t)) l ts -> Forall2 (fun e t => In (fst e, fst t) kinds /\ snd e = td_text (snd t)) l ts' -> Forall2 InputTextLayoutProof.alike ts ts'.
Proof.
  intros l ts ts' H. revert ts'. induction H as [|e t l ts [K E] H IH]; intros ts' H'; inversion H' as [|? t' ? us [K' E'] H'']; subst; constructor; auto. split; [exact (kinds_fun _ _ _ K K')|congruence].
Qed.

(** ** The rule sets *)

Definition tokens_of (rules : list file_rule) : list token_rule := flat_map (fun r => match r with FToken t => [t] | _ => [] end) rules.
Definition prods_of (rules : list file_rule) : list prod_rule := flat_map (fun r => match r with FProd p => [p] | _ => [] end) rules.
Definition entries_of (rules : list file_rule) : list string := flat_map (fun r => match r with FEntry p => [p] | _ => [] end) rules.
Lemma tokens_filter : forall rules l, map FToken l = filter (fun r => match r with FToken _ => true | _ => false end) rules -> l = tokens_of rules.
Proof. induction rules as [|[t|t|t] rules IH]; intros [|x l] H; cbn in *; try discriminate; auto. injection H as -> H. f_equal. auto. Qed.
Lemma prods_filter : forall rules l, map FProd l = filter (fun r => match r with FProd _ => true | _ => false end) rules -> l = prods_of rules.
Proof. induction rules as [|[t|t|t] rules IH]; intros [|x l] H; cbn in *; try discriminate; auto. injection H as -> H. f_equal. auto. Qed.
Lemma entries_filter : forall rules l, map FEntry l = filter (fun r => match r with FEntry _ => true | _ => false end) rules -> l = entries_of rules.
Proof. induction rules as [|[t|t|t] rules IH]; intros [|x l] H; cbn in *; try discriminate; auto. injection H as -> H. f_equal. auto. Qed.

Lemma Forall2_rev : forall A B (R : A -> B -> Prop) l l', Forall2 R l l' -> Forall2 R (rev l) (rev l').
Proof. intros A B R l l' H. induction H; cbn [rev]; auto. apply Forall2_app; auto. Qed.

Lemma rules_alike : forall regex text rules rules', Forall2 (rule_alike regex text) rules rules' ->
  Forall2 (token_read regex text) (tokens_of rules') (tokens_of rules) /\
  Forall2 (fun p q => pr_name p = pr_name q /\ pr_tag p = pr_tag q /\ like (pr_pattern p) (pr_pattern q)) (prods_of rules) (prods_of rules') /\ entries_of rules' = entries_of rules.
Proof.
  intros regex text. induction 1 as [|r r' rules rules' H _ (A & B & C)]; [repeat split; constructor|]. destruct r as [t|p|n], r' as [t'|p'|n']; try contradiction; cbn [tokens_of prods_of entries_of flat_map app]; fold (tokens_of rules) (tokens_of rules') (prods_of rules) (prods_of rules') (entries_of rules) (entries_of rules');
    (split; [try constructor; auto|]; split; [try constructor; auto|]; try (cbn in H; congruence); auto).
Qed.

Lemma tokens_rev : forall l, tokens_of (rev l) = rev (tokens_of l).
Proof. induction l as [|[t|t|t] l IH]; [reflexivity| | |]; unfold tokens_of in *; cbn [rev]; rewrite flat_map_app, IH; cbn [flat_map app rev]; rewrite ?app_nil_r; reflexivity. Qed.
Lemma prods_rev : forall l, prods_of (rev l) = rev (prods_of l).
Proof. induction l as [|[t|t|t] l IH]; [reflexivity| | |]; unfold prods_of in *; cbn [rev]; rewrite flat_map_app, IH; cbn [flat_map app rev]; rewrite ?app_nil_r; reflexivity. Qed.
Lemma entries_rev : forall l, entries_of (rev l) = rev (entries_of l).
Proof. induction l as [|[t|t|t] l IH]; [reflexivity| | |]; unfold entries_of in *; cbn [rev]; rewrite flat_map_app, IH; cbn [flat_map app rev]; rewrite ?app_nil_r; reflexivity. Qed.
Lemma tokens_spanned : forall l : list (spanned file_rule), map snd (flat_map (fun r => match snd r with FToken t => [(fst r, t)] | _ => [] end) l) = tokens_of (map snd l).
Proof. induction l as [|[sp [t|t|t]] l IH]; cbn [flat_map snd fst map app tokens_of]; auto; try exact IH. f_equal. exact IH. Qed.
Lemma prods_spanned : forall l : list (spanned file_rule), map snd (flat_map (fun r => match snd r with FProd t => [(fst r, t)] | _ => [] end) l) = prods_of (map snd l).
Proof. induction l as [|[sp [t|t|t]] l IH]; cbn [flat_map snd fst map app prods_of]; auto; try exact IH. f_equal. exact IH. Qed.
Lemma entries_spanned : forall l : list (spanned file_rule), map snd (flat_map (fun r => match snd r with FEntry t => [(fst r, t)] | _ => [] end) l) = entries_of (map snd l).
Proof. induction l as [|[sp [t|t|t]] l IH]; cbn [flat_map snd fst map app entries_of]; auto; try exact IH. f_equal. exact IH. Qed.

Lemma result_alike : forall regex text rs rules rules', made_of rs rules -> Forall2 (rule_alike regex text) rules (map snd rules') -> exists out, consists_of out (rev rules') /\ reversed (token_read regex text) rs (unspanned out).
Proof.
  intros regex text rs rules rules' M H. destruct (rules_alike _ _ _ _ H) as (A & B & C). destruct M as [rules M1 M2 M3].
  apply tokens_filter in M1. apply prods_filter in M2. apply (entries_filter rules [rs_entry rs]) in M3. rewrite <- M1 in A. rewrite <- M2 in B. rewrite <- M3 in C.
  pose proof (tokens_spanned (rev rules')) as T1. pose proof (prods_spanned (rev rules')) as T2. pose proof (entries_spanned (rev rules')) as T3. rewrite map_rev in T1, T2, T3. rewrite tokens_rev in T1. rewrite prods_rev in T2. rewrite entries_rev, C in T3.
  match type of T3 with map snd ?x = _ => remember x as en eqn:Ee end. destruct en as [|e [|]]; cbn [map rev app] in T3; try discriminate T3.
  injection T3 as T3.
  exists (mkSpannedRules e (flat_map (fun r => match snd r with FToken t => [(fst r, t)] | _ => [] end) (rev rules')) (flat_map (fun r => match snd r with FProd t => [(fst r, t)] | _ => [] end) (rev rules'))).
  split. { apply sort_consists. unfold sort_rules. match goal with |- match ?x with _ => _ end = _ => replace x with [e] by exact Ee end. reflexivity. }
  unfold reversed, unspanned. cbn [sr_entry sr_tokens sr_prods rs_entry rs_tokens rs_prods]. rewrite T1, T2.
  split; [exact T3|]. split; [apply Forall2_rev; auto|]. split.
  { apply Forall2_rev. clear -B. induction B as [|p q l l' (X & Y & _) _ IH]; constructor; auto. }
  assert (forall n, GrammarSpec.is_token (mkRuleSet (snd e) (rev (tokens_of (map snd rules'))) (rev (prods_of (map snd rules')))) n <-> GrammarSpec.is_token rs n) as IT.
  { intros n. unfold GrammarSpec.is_token. cbn [rs_tokens]. split; intros (t & Ht & En).
    - apply in_rev in Ht. destruct (Forall2_left _ _ _ _ _ A t Ht) as (u & Hu & (Eu & _)). exists u. split; auto. congruence.
    - destruct (Forall2_right _ _ _ _ _ A t Ht) as (u & Hu & (Eu & _)). exists u. rewrite <- in_rev. split; auto. congruence. }
  intros p w. split; apply same_language; auto.
  - intros q Hq. cbn [rs_prods] in Hq. apply in_rev in Hq. destruct (Forall2_right _ _ _ _ _ B q Hq) as (u & Hu & X & _ & Y). exists u. split; auto. split; auto. intros L v. symmetry. apply Y.
  - intros n. symmetry. apply IT.
  - intros q Hq. destruct (Forall2_left _ _ _ _ _ B q Hq) as (u & Hu & X & _ & Y). exists u. cbn [rs_prods]. rewrite <- in_rev. auto.
Qed.

Theorem reads_bootstrap_ok : forall regex gn text rs, build_input_parser 3000 (bytes lapex_text) = Some gn -> parse_lapex_file text = Ok rs ->
  N.of_nat (length text) < 65535 -> ~ In 0 text -> ~ In 13 text -> names_plain rs -> literals_plain rs -> regexes_convert regex rs text ->
  exists out n, reversed (token_read regex text) rs (unspanned out) /\ forall fuel, (n <= fuel)%nat -> parse_lapex regex gn fuel text = Ok out.
Proof.
  intros regex gn text rs B P L Z C (N1 & N2 & N3) NL NR. pose proof (bootstrap_sound_thm text) as S. rewrite P in S. destruct S as (rules & Sp & M).
  assert (Forall (plain_rule regex text) rules) as F.
  { destruct M as [rules M1 M2 M3]. apply tokens_filter in M1. apply prods_filter in M2. apply (entries_filter rules [rs_entry rs]) in M3. apply Forall_forall. intros r Hr. destruct r as [t|p|n].
    - assert (In t (rs_tokens rs)) as Ht by (rewrite M1; apply in_flat_map; exists (FToken t); split; [auto|left; auto]). split; [rewrite Forall_forall in N2; auto|]. split; [intros cs; apply NL; auto|]. intros p bs E W Q. exact (NR t p bs Ht E W Q).
    - assert (In p (rs_prods rs)) as Ht by (rewrite M2; apply in_flat_map; exists (FProd p); split; [auto|left; auto]). rewrite Forall_forall in N3. exact (N3 _ Ht).
    - assert (In n [rs_entry rs]) as Ht by (rewrite M3; apply in_flat_map; exists (FEntry n); split; [auto|left; auto]). destruct Ht as [<-|[]]. exact N1. }
  destruct (file_divides regex text rules Sp F C) as (A & l & ts & rules' & D & Sh & J & E). pose proof (division_concat _ _ D) as EC.
  assert (exists ts', placed 1 1 l ts') as (ts' & Pl).
  { apply places; try (rewrite EC; lia); try lia. apply Forall_forall. intros e He. pose proof (division_lexemes _ _ D) as DL. rewrite Forall_forall in DL. split; auto. apply Forall_forall. intros c Hc. unfold ascii in A. rewrite Forall_forall in A. apply A.
    rewrite <- EC. apply in_concat. exists (snd e). split; auto. apply in_map. auto. }
  destruct (alike_file joined_sequence joined_choice regex rules' ts J ts' (shows_alike _ _ _ Sh (placed_seen _ _ _ _ Pl))) as (rules'' & J' & Em).
  rewrite <- Em in E. destruct (result_alike regex text rs rules rules'' M E) as (out & Co & Sa).
  assert (reads_file regex text out) as R by (exists text, l, ts', rules''; split; [apply un_all; auto|auto]).
  assert (Forall valid_char text) as V by (apply ascii_valid; exact A).
  destruct (built_reads_file regex gn text B V) as (n & Hn). exists out, n. split; auto. intros fuel Hf. specialize (Hn fuel Hf). destruct (parse_lapex regex gn fuel text) as [out'| | |]; try contradiction.
  - f_equal. eapply reads_file_unique; eauto.
  - destruct (Hn _ R).
Qed.

Theorem reads_alike_ok : forall regex gn text rs, build_input_parser 3000 (bytes lapex_text) = Some gn -> parse_lapex_file text = Ok rs ->
  N.of_nat (length text) < 65535 -> ~ In 0 text -> ~ In 13 text -> names_plain rs -> literals_plain rs -> regexes_convert regex rs text -> regexes_agree regex rs text ->
  exists out n, reversed same_token rs (unspanned out) /\ forall fuel, (n <= fuel)%nat -> parse_lapex regex gn fuel text = Ok out.
Proof.
  intros regex gn text rs B P L Z C N NL NC NA. destruct (reads_bootstrap_ok regex gn text rs B P L Z C N NL NC) as (out & n & (R1 & R2 & R3) & Hn). exists out, n. split; [|exact Hn]. split; auto. split; auto.
  assert (Forall (fun t => In t (rs_tokens rs)) (rev (rs_tokens rs))) as F by (apply Forall_forall; intros t Ht; apply in_rev; auto).
  revert R2 F. generalize (rev (rs_tokens rs)), (rs_tokens (unspanned out)). intros l l' R2. induction R2 as [|t u l l' (E1 & E2 & E3) _ IH]; intros F; constructor; inversion F as [|? ? I F']; subst; auto.
  split; auto. split; auto. destruct (tr_pattern t) as [cs|p], (tr_pattern u) as [ds|q] eqn:Eu; auto. destruct E3 as (bs & h & Wr & Sp & Er & M). intros w V. rewrite M. exact (NA u q bs h I Eu Wr Sp Er w V).
Qed.
