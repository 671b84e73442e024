(** Proofs about the conversion of regular expressions. *)
From Coq Require Import String List Arith NArith ZArith Bool Lia.
From Verif Require Import Base InputModel LexerSpec LexerModel CppLexerSpec CppLexerProof BootModel InputGenModel InputGenSpec.
Import ListNotations.
Local Open Scope nat_scope.
Local Open Scope list_scope.

(** ** UTF-8 *)

Lemma valid_scalar_ok : forall c, valid_scalar c = true <-> scalar c.
Proof.
  intros c. unfold valid_scalar, scalar. rewrite orb_true_iff, andb_true_iff, N.ltb_lt, !N.leb_le. reflexivity.
Qed.
Lemma continues_ok : forall b, continues b = true <-> (128 <= b < 192)%N.
Proof. intros b. unfold continues. rewrite andb_true_iff, N.leb_le, N.ltb_lt. reflexivity. Qed.

Lemma from_utf8_complete : forall cs bs, utf8_text cs bs -> from_utf8 bs = Some cs.
Proof.
  induction 1 as [|c bs cs bytes H _ IH]; [reflexivity|].
  destruct H as [c H|x y Hx Hy H|x y z Hx Hy Hz H1 H2|w x y z Hw Hx Hy Hz H]; cbn [app from_utf8].
  - destruct (N.ltb_spec c 128); [|lia]. rewrite IH. reflexivity.
  - destruct (N.ltb_spec (0xC0 + x) 128); [lia|]. destruct (N.leb_spec 192 (0xC0 + x)); [|lia]. destruct (N.ltb_spec (0xC0 + x) 224); [|lia]. cbn [andb].
    rewrite (proj2 (continues_ok _)) by lia. replace (0xC0 + x - 192)%N with x by lia. replace (0x80 + y - 128)%N with y by lia. destruct (N.leb_spec 128 (x * 64 + y)); [|lia]. rewrite IH. reflexivity.
  - destruct (N.ltb_spec (0xE0 + x) 128); [lia|]. destruct (N.ltb_spec (0xE0 + x) 224); [lia|]. rewrite andb_false_r. destruct (N.leb_spec 224 (0xE0 + x)); [|lia]. destruct (N.ltb_spec (0xE0 + x) 240); [|lia]. cbn [andb].
    rewrite !(proj2 (continues_ok _)) by lia. replace (0xE0 + x - 224)%N with x by lia. replace (0x80 + y - 128)%N with y by lia. replace (0x80 + z - 128)%N with z by lia.
    rewrite (proj2 (valid_scalar_ok _) H2). destruct (N.leb_spec 2048 ((x * 64 + y) * 64 + z)); [|lia]. rewrite IH. reflexivity.
  - destruct (N.ltb_spec (0xF0 + w) 128); [lia|]. destruct (N.ltb_spec (0xF0 + w) 224); [lia|]. destruct (N.ltb_spec (0xF0 + w) 240); [lia|]. rewrite !andb_false_r. destruct (N.leb_spec 240 (0xF0 + w)); [|lia]. destruct (N.ltb_spec (0xF0 + w) 248); [|lia]. cbn [andb].
    rewrite !(proj2 (continues_ok _)) by lia. replace (0xF0 + w - 240)%N with w by lia. replace (0x80 + x - 128)%N with x by lia. replace (0x80 + y - 128)%N with y by lia. replace (0x80 + z - 128)%N with z by lia.
    rewrite (proj2 (valid_scalar_ok _)) by (right; lia). destruct (N.leb_spec 65536 (((w * 64 + x) * 64 + y) * 64 + z)); [|lia]. rewrite IH. reflexivity.
Qed.

Lemma from_utf8_sound_n : forall n bs, length bs <= n -> forall cs, from_utf8 bs = Some cs -> utf8_text cs bs.
Proof.
  induction n as [|n IH]; intros [|b bs] L cs H; try (cbn [length] in L; lia); try (injection H as <-; constructor).
  cbn [length] in L. cbn [from_utf8] in H.
  assert (forall c hd rest, length rest <= n -> utf8 c hd -> forall cs, option_map (cons c) (from_utf8 rest) = Some cs -> utf8_text cs (hd ++ rest)) as A.
  { intros c hd rest Lr Hu cs' E. destruct (from_utf8 rest) as [cs''|] eqn:Ef; [|discriminate E]. injection E as <-. constructor; auto. }
  destruct (N.ltb_spec b 128) as [B|B]; [apply (A b [b]); auto; [lia|constructor; auto]|].
  destruct (N.leb_spec 192 b) as [B1|B1], (N.ltb_spec b 224) as [B2|B2]; cbn [andb] in H.
  1: { destruct bs as [|b1 bs]; [discriminate H|]. cbn [length] in L. destruct (continues b1) eqn:C1; [|discriminate H]. apply continues_ok in C1. destruct (N.leb_spec 128 ((b - 192) * 64 + (b1 - 128))) as [D|D]; [|discriminate H]. cbn [andb] in H.
    apply (A _ [b; b1]) in H; auto; [lia|]. replace b with (0xC0 + (b - 192))%N at 2 by lia. replace b1 with (0x80 + (b1 - 128))%N at 2 by lia. apply utf8_2; lia. }
  all: destruct (N.leb_spec 224 b) as [B3|B3]; try lia; try (destruct (N.ltb_spec b 240) as [B4|B4]); cbn [andb] in H.
  1: { destruct bs as [|b1 [|b2 bs]]; try discriminate H. cbn [length] in L. destruct (continues b1) eqn:C1; [|discriminate H]. destruct (continues b2) eqn:C2; [|discriminate H]. apply continues_ok in C1, C2. cbn [andb] in H.
    destruct (N.leb_spec 2048 (((b - 224) * 64 + (b1 - 128)) * 64 + (b2 - 128))) as [D|D]; [|discriminate H]. cbn [andb] in H. destruct (valid_scalar _) eqn:V in H; [|discriminate H]. apply valid_scalar_ok in V.
    apply (A _ [b; b1; b2]) in H; auto; [lia|]. replace b with (0xE0 + (b - 224))%N at 2 by lia. replace b1 with (0x80 + (b1 - 128))%N at 2 by lia. replace b2 with (0x80 + (b2 - 128))%N at 2 by lia. apply utf8_3; auto; lia. }
  1: { destruct (N.leb_spec 240 b) as [B5|B5]; [|lia]. destruct (N.ltb_spec b 248) as [B6|B6]; [|discriminate H]. cbn [andb] in H.
    destruct bs as [|b1 [|b2 [|b3 bs]]]; try discriminate H. cbn [length] in L. destruct (continues b1) eqn:C1; [|discriminate H]. destruct (continues b2) eqn:C2; [|discriminate H]. destruct (continues b3) eqn:C3; [|discriminate H]. apply continues_ok in C1, C2, C3. cbn [andb] in H.
    destruct (N.leb_spec 65536 ((((b - 240) * 64 + (b1 - 128)) * 64 + (b2 - 128)) * 64 + (b3 - 128))) as [D|D]; [|discriminate H]. cbn [andb] in H. destruct (valid_scalar _) eqn:V in H; [|discriminate H]. apply valid_scalar_ok in V. unfold scalar in V.
    apply (A _ [b; b1; b2; b3]) in H; auto; [lia|]. replace b with (0xF0 + (b - 240))%N at 2 by lia. replace b1 with (0x80 + (b1 - 128))%N at 2 by lia. replace b2 with (0x80 + (b2 - 128))%N at 2 by lia. replace b3 with (0x80 + (b3 - 128))%N at 2 by lia. apply utf8_4; lia. }
  all: destruct (N.leb_spec 240 b) as [B5|B5]; try lia; discriminate H.
Qed.
Lemma from_utf8_iff : forall bs cs, from_utf8 bs = Some cs <-> utf8_text cs bs.
Proof. intros bs cs. split; [apply (from_utf8_sound_n (length bs)); auto|apply from_utf8_complete]. Qed.

(** ** Conversion *)

Section HirInd.
Variable P : hir -> Prop.
Hypothesis H_empty : P HEmpty.
Hypothesis H_lit : forall bs, P (HLiteral bs).
Hypothesis H_uni : forall l, P (HUnicode l).
Hypothesis H_bytes : forall l, P (HBytes l).
Hypothesis H_look : P HLook.
Hypothesis H_rep : forall mn mx gr h, P h -> P (HRepetition mn mx gr h).
Hypothesis H_cap : forall h, P h -> P (HCapture h).
Hypothesis H_cat : forall l, Forall P l -> P (HConcat l).
Hypothesis H_alt : forall l, Forall P l -> P (HAlternation l).
Fixpoint hir_ind' (h : hir) : P h :=
  let all := fix all l : Forall P l := match l with [] => Forall_nil P | x :: l => Forall_cons x (hir_ind' x) (all l) end in
  match h with
  | HEmpty => H_empty | HLiteral bs => H_lit bs | HUnicode l => H_uni l | HBytes l => H_bytes l | HLook => H_look
  | HRepetition mn mx gr h => H_rep mn mx gr h (hir_ind' h) | HCapture h => H_cap h (hir_ind' h)
  | HConcat l => H_cat l (all l) | HAlternation l => H_alt l (all l)
  end.
End HirInd.

Lemma res_list_all : forall E A B (f : A -> res E B) l bs, res_list (map f l) = Ok bs -> Forall2 (fun a b => f a = Ok b) l bs.
Proof.
  intros E A B f. induction l as [|a l IH]; intros bs H; cbn [map res_list] in H; [injection H as <-; constructor|].
  destruct (f a) eqn:Ef; cbn [bind] in H; try discriminate H. destruct (res_list (map f l)) eqn:El; cbn [bind] in H; try discriminate H. injection H as <-. constructor; auto.
Qed.
Lemma res_list_first : forall E A B (f : A -> res E B) l, (forall a, In a l -> f a <> Panic /\ f a <> OutOfFuel) ->
  (exists bs, res_list (map f l) = Ok bs) \/ exists a e, In a l /\ f a = Err e /\ res_list (map f l) = Err e.
Proof.
  intros E A B f. induction l as [|a l IH]; intros H; [left; exists []; reflexivity|]. cbn [map res_list].
  destruct (H a (or_introl eq_refl)) as (N1 & N2). destruct (f a) as [b|e| |] eqn:Ef; try congruence.
  - cbn [bind]. destruct IH as [(bs & ->)|(x & e & Hi & Ex & ->)]; [intros x Hx; apply H; right; auto| |].
    + left. exists (b :: bs). reflexivity.
    + right. exists x, e. split; [right; auto|]. auto.
  - right. exists a, e. split; [left; auto|]. auto.
Qed.

Lemma lpow_ext : forall A (L M : lang A), (forall w, L w <-> M w) -> forall k w, lpow L k w <-> lpow M k w.
Proof. intros A L M H. induction k as [|k IH]; intros w; [reflexivity|]. cbn [lpow]. unfold lcat. split; intros (u & v & E & X & Y); exists u, v; (split; [exact E|]); split; try apply H; try apply IH; auto. Qed.
Lemma lseq_ext : forall A (Ls Ms : list (lang A)), Forall2 (fun L M => forall w, L w <-> M w) Ls Ms -> forall w, lseq Ls w <-> lseq Ms w.
Proof. induction 1 as [|L M Ls Ms H _ IH]; intros w; [reflexivity|]. cbn [lseq]. unfold lcat. split; intros (u & v & E & X & Y); exists u, v; (split; [exact E|]); split; try apply H; try apply IH; auto. Qed.
Lemma lunion_ext : forall A (Ls Ms : list (lang A)), Forall2 (fun L M => forall w, L w <-> M w) Ls Ms -> forall w, lunion Ls w <-> lunion Ms w.
Proof. induction 1 as [|L M Ls Ms H _ IH]; intros w; [reflexivity|]. cbn [lunion]. rewrite (H w), (IH w). reflexivity. Qed.

Lemma literal_language : forall cs w, matches (PSeq (map (fun c => PChar (Single c)) cs)) w <-> w = cs.
Proof.
  induction cs as [|c cs IH]; intros w; [reflexivity|]. cbn [matches map lseq]. unfold lcat. split.
  - intros (u & v & -> & (x & -> & Hx) & Hv). cbn [in_characters] in Hx. apply (proj1 (IH v)) in Hv. subst. reflexivity.
  - intros ->. exists [c], cs. split; [reflexivity|]. split; [exists c; split; reflexivity|]. apply (proj2 (IH cs)). reflexivity.
Qed.

Lemma utf8_text_unique : forall cs cs' bs, utf8_text cs bs -> utf8_text cs' bs -> cs = cs'.
Proof. intros cs cs' bs H H'. apply from_utf8_complete in H, H'. congruence. Qed.

Lemma conversion_language : forall h p, make_pattern_from_hir h = Ok p -> forall w, matches p w <-> hir_matches h w.
Proof.
  assert (forall l ps, Forall (fun h => forall p, make_pattern_from_hir h = Ok p -> forall w, matches p w <-> hir_matches h w) l ->
    res_list (map make_pattern_from_hir l) = Ok ps -> Forall2 (fun L M => forall w, L w <-> M w) (map matches ps) (map hir_matches l)) as A.
  { intros l ps HF E. apply res_list_all in E. induction E as [|h p l ps Ep E IH]; [constructor|]. inversion HF; subst. constructor; auto. }
  induction h as [|bs|l|l| |mn mx gr h IH|h IH|l IH|l IH] using hir_ind'; intros p H w; cbn [make_pattern_from_hir] in H; try discriminate H.
  - destruct (from_utf8 bs) as [cs|] eqn:E; [|discriminate H]. injection H as <-. apply from_utf8_iff in E. rewrite literal_language. cbn [hir_matches]. split; [intros ->; auto|]. intros X. exact (utf8_text_unique _ _ _ X E).
  - injection H as <-. cbn [matches hir_matches]. split.
    + intros (c & -> & X). apply Exists_exists in X. destruct X as (s & Hs & X). apply in_map_iff in Hs. destruct Hs as ([a b] & <- & Hi). exists c, a, b. cbn [in_characters fst snd] in X. auto.
    + intros (c & a & b & -> & Hi & X). exists c. split; auto. apply Exists_exists. exists (CRange a b). split; [apply in_map_iff; exists (a, b); auto|exact X].
  - destruct gr; [|discriminate H]. destruct (make_pattern_from_hir h) as [q| | |] eqn:E; cbn [bind] in H; try discriminate H. injection H as <-. cbn [matches hir_matches]. unfold lrep.
    split; intros (k & X & Y & Z); exists k; (split; [exact X|]); (split; [exact Y|]); revert Z; apply lpow_ext; intros u; [symmetry|]; apply IH; auto.
  - apply IH. auto.
  - destruct (res_list (map make_pattern_from_hir l)) as [ps| | |] eqn:E; cbn [bind] in H; try discriminate H. injection H as <-. cbn [matches hir_matches]. apply lseq_ext. apply A; auto.
  - destruct (res_list (map make_pattern_from_hir l)) as [ps| | |] eqn:E; cbn [bind] in H; try discriminate H. injection H as <-. cbn [matches hir_matches]. apply lunion_ext. apply A; auto.
Qed.

Lemma conversion_outcome : forall h, (exists p, make_pattern_from_hir h = Ok p) \/ exists e s, make_pattern_from_hir h = Err e /\ subhir s h /\ unsupported e s.
Proof.
  assert (forall l, Forall (fun h => (exists p, make_pattern_from_hir h = Ok p) \/ exists e s, make_pattern_from_hir h = Err e /\ subhir s h /\ unsupported e s) l ->
    (exists ps, res_list (map make_pattern_from_hir l) = Ok ps) \/ exists h e s, In h l /\ res_list (map make_pattern_from_hir l) = Err e /\ subhir s h /\ unsupported e s) as A.
  { intros l HF. rewrite Forall_forall in HF. destruct (res_list_first _ _ _ make_pattern_from_hir l) as [X|(h & e & Hi & Eh & El)]; auto.
    - intros h Hh. destruct (HF h Hh) as [(p & ->)|(e & s & -> & _)]; split; discriminate.
    - right. destruct (HF h Hi) as [(p & Ep)|(e' & s & Ee & Hs & Hu)]; [congruence|]. rewrite Eh in Ee. injection Ee as <-. exists h, e, s. auto. }
  induction h as [|bs|l|l| |mn mx gr h IH|h IH|l IH|l IH] using hir_ind'; cbn [make_pattern_from_hir].
  - right. exists EmptyRegex, HEmpty. split; [reflexivity|]. split; constructor.
  - destruct (from_utf8 bs) as [cs|] eqn:E; [left; eauto|]. right. exists Utf8Conversion, (HLiteral bs). split; [reflexivity|]. split; constructor. intros cs X. apply from_utf8_iff in X. congruence.
  - left. eauto.
  - right. exists ByteClass, (HBytes l). split; [reflexivity|]. split; constructor.
  - right. exists Lookaround, HLook. split; [reflexivity|]. split; constructor.
  - destruct gr.
    + destruct IH as [(p & ->)|(e & s & -> & Hs & Hu)]; [left; eexists; reflexivity|]. right. exists e, s. split; [reflexivity|]. split; [constructor|]; auto.
    + right. exists LazyRepetition, (HRepetition mn mx false h). split; [reflexivity|]. split; constructor.
  - destruct IH as [(p & ->)|(e & s & -> & Hs & Hu)]; [left; eauto|]. right. exists e, s. split; [reflexivity|]. split; [constructor|]; auto.
  - destruct (A l IH) as [(ps & ->)|(h & e & s & Hi & -> & Hs & Hu)]; [left; eexists; reflexivity|]. right. exists e, s. split; [reflexivity|]. split; auto. apply sh_concat with h; auto.
  - destruct (A l IH) as [(ps & ->)|(h & e & s & Hi & -> & Hs & Hu)]; [left; eexists; reflexivity|]. right. exists e, s. split; [reflexivity|]. split; auto. apply sh_alt with h; auto.
Qed.

Lemma conversion_sub : forall s h, subhir s h -> forall p, make_pattern_from_hir h = Ok p -> exists q, make_pattern_from_hir s = Ok q.
Proof.
  induction 1 as [|mn mx gr h H IH|h H IH|h l Hi H IH|h l Hi H IH]; intros p E; cbn [make_pattern_from_hir] in E; eauto.
  - destruct gr; [|discriminate E]. destruct (make_pattern_from_hir h) eqn:Eh; cbn [bind] in E; try discriminate E. eauto.
  - destruct (res_list (map make_pattern_from_hir l)) as [ps| | |] eqn:El; cbn [bind] in E; try discriminate E. apply res_list_all in El. clear E.
    induction El as [|x y l ps Ex El IHl]; [destruct Hi|]. destruct Hi as [->|Hi]; eauto.
  - destruct (res_list (map make_pattern_from_hir l)) as [ps| | |] eqn:El; cbn [bind] in E; try discriminate E. apply res_list_all in El. clear E.
    induction El as [|x y l ps Ex El IHl]; [destruct Hi|]. destruct Hi as [->|Hi]; eauto.
Qed.
Lemma conversion_succeeds : forall h, (exists p, make_pattern_from_hir h = Ok p) <-> forall e s, subhir s h -> ~ unsupported e s.
Proof.
  intros h. split.
  - intros (p & E) e s Hs Hu. destruct (conversion_sub _ _ Hs _ E) as (q & Eq). destruct Hu as [|bs N| | |]; cbn [make_pattern_from_hir] in Eq; try discriminate Eq.
    destruct (from_utf8 bs) as [cs|] eqn:Ec; [|discriminate Eq]. apply from_utf8_iff in Ec. exact (N _ Ec).
  - intros H. destruct (conversion_outcome h) as [X|(e & s & _ & Hs & Hu)]; auto. destruct (H _ _ Hs Hu).
Qed.
