(** Proofs about source positions. *)
From Coq Require Import List Arith NArith Bool Lia.
From Verif Require Import Base InputModel LexerModel LexerFactsProof PositionModel PositionSpec.
Import ListNotations.
Local Open Scope N_scope.
Local Open Scope list_scope.

(** ** Positions as a function *)

Definition step (q : source_pos) (c : N) : source_pos := if c =? newline then mkPos (sp_line q + 1) 1 else mkPos (sp_line q) (sp_col q + 1).
Definition pos_of (p : list N) : source_pos := fold_left step p (mkPos 1 1).

Lemma pos_of_snoc : forall p c, pos_of (p ++ [c]) = step (pos_of p) c.
Proof. intros p c. unfold pos_of. rewrite fold_left_app. reflexivity. Qed.

Lemma pos_of_at : forall p, at_pos p (pos_of p).
Proof.
  induction p as [|c p IH] using rev_ind.
  - split; [reflexivity|]. exists [], []. repeat split; auto.
  - rewrite pos_of_snoc. destruct IH as (H1 & a & b & E & H2 & H3 & H4). unfold step. destruct (N.eqb_spec c newline) as [->|Hc].
    + split; cbn [sp_line sp_col].
      * rewrite count_occ_app, Nat2N.inj_add, H1. cbn [count_occ]. destruct (N.eq_dec newline newline); [|contradiction]. lia.
      * exists (p ++ [newline]), []. rewrite app_nil_r. split; auto. split; [intros []|]. split; [right; eauto|reflexivity].
    + split; cbn [sp_line sp_col].
      * rewrite count_occ_app, Nat2N.inj_add, H1. cbn [count_occ]. destruct (N.eq_dec c newline); [contradiction|]. lia.
      * exists a, (b ++ [c]). split; [rewrite E, app_assoc; auto|]. split; [intros X; apply in_app_or in X; destruct X as [X|[X|[]]]; auto|]. split; [exact H3|].
        rewrite app_length, Nat2N.inj_add, H4. cbn [length]. lia.
Qed.

Lemma prefixes_compare : forall (p s p' s' : list N), p ++ s = p' ++ s' -> (exists u, p' = p ++ u) \/ (exists c u, p = p' ++ c :: u).
Proof.
  induction p as [|a p IH]; intros s p' s' E; [left; exists p'; auto|]. destruct p' as [|a' p']; [right; exists a, p; auto|]. injection E as <- E. destruct (IH _ _ _ E) as [[u ->]|(c & u & ->)]; [left; exists u; auto|right; exists c, u; auto].
Qed.

Lemma at_pos_fun : forall p q q', at_pos p q -> at_pos p q' -> q = q'.
Proof.
  intros p [l c] [l' c'] (H1 & a & b & E & H2 & H3 & H4) (H1' & a' & b' & E' & H2' & H3' & H4'). cbn [sp_line sp_col] in *. f_equal; [congruence|].
  assert (length b = length b') as X; [|congruence]. clear H1 H1' H4 H4'. subst p. 
  assert (forall a b a' b' : list N, a ++ b = a' ++ b' -> ~ In newline b -> (a' = [] \/ exists x, a' = x ++ [newline]) -> (length b <= length b')%nat) as X.
  { intros x y x' y' Exy Hy Hx. destruct (Nat.le_gt_cases (length y) (length y')) as [|Hlt]; auto. exfalso.
    assert (length x + length y = length x' + length y')%nat as L by (rewrite <- !app_length, Exy; auto).
    apply Hy. destruct (prefixes_compare _ _ _ _ Exy) as [[u ->]|(d & u & ->)]; [|rewrite !app_length in L; cbn [length] in L; lia].
    rewrite <- app_assoc in Exy. apply app_inv_head in Exy. subst y. apply in_or_app. left.
    destruct Hx as [Hx|[z Hx]]; [apply (f_equal (@length N)) in Hx; rewrite !app_length in *; cbn [length] in *; lia|].
    destruct u as [|d u _] using rev_ind; [rewrite app_length in L; cbn [length app] in *; lia|]. rewrite app_assoc in Hx. apply app_inj_tail in Hx. destruct Hx as [_ ->]. apply in_or_app. right. left. auto. }
  apply Nat.le_antisymm; [apply (X a b a' b')|apply (X a' b' a b)]; auto.
Qed.

Lemma at_pos_iff : forall p q, at_pos p q <-> q = pos_of p.
Proof. intros p q. split; [intros H; eapply at_pos_fun; eauto using pos_of_at|intros ->; apply pos_of_at]. Qed.

(** Positions increase along the text. *)
Definition before (q q' : source_pos) : Prop := sp_line q < sp_line q' \/ (sp_line q = sp_line q' /\ sp_col q < sp_col q').
Lemma fold_before : forall s c q, before q (fold_left step (c :: s) q).
Proof.
  induction s as [|d s IH]; intros c q; cbn [fold_left].
  - unfold step. destruct (c =? newline); unfold before; cbn; lia.
  - specialize (IH d (step q c)). cbn [fold_left] in IH. unfold before in *. assert (sp_line q < sp_line (step q c) \/ (sp_line q = sp_line (step q c) /\ sp_col q < sp_col (step q c))) as X; [unfold step; destruct (c =? newline); cbn; lia|]. lia.
Qed.
Lemma pos_of_inj : forall text p p', prefix p text -> prefix p' text -> pos_of p = pos_of p' -> p = p'.
Proof.
  intros text p p' [s E] [s' E'] H.
  assert (forall p s p' s' : list N, p ++ s = p' ++ s' -> (exists u, p' = p ++ u) \/ (exists u, p = p' ++ u)) as X.
  { clear. induction p as [|a p IH]; intros s p' s' E; [left; exists p'; auto|]. destruct p' as [|a' p']; [right; exists (a :: p); auto|]. injection E as <- E. destruct (IH _ _ _ E) as [[u ->]|[u ->]]; [left|right]; exists u; auto. }
  assert (forall a u, pos_of a = pos_of (a ++ u) -> u = []) as Y.
  { intros a [|c u] Hu; auto. exfalso. unfold pos_of in Hu. rewrite fold_left_app in Hu. pose proof (fold_before u c (fold_left step a (mkPos 1 1))) as B. rewrite <- Hu in B. unfold before in B. lia. }
  subst text. destruct (X _ _ _ _ E') as [[u ->]|[u ->]].
  - apply Y in H. subst. rewrite app_nil_r. auto.
  - symmetry in H. apply Y in H. subst. rewrite app_nil_r. auto.
Qed.

Lemma places_distinct : forall text p p' pos, prefix p text -> prefix p' text -> at_pos p pos -> at_pos p' pos -> p = p'.
Proof. intros text p p' pos H H' A A'. apply at_pos_iff in A, A'. apply (pos_of_inj text); congruence. Qed.

Lemma pos_at_sound : forall p, exists pos, at_pos p pos.
Proof. intros p. exists (pos_of p). apply pos_of_at. Qed.

(** ** Offsets *)

Lemma byte_len_app : forall a b, byte_len (a ++ b) = byte_len a + byte_len b.
Proof. induction a as [|c a IH]; intros b; cbn [byte_len fold_right app]; [reflexivity|]. fold (byte_len (a ++ b)). fold (byte_len a). rewrite IH. lia. Qed.

Definition posb (q q' : source_pos) : bool := (sp_line q =? sp_line q') && (sp_col q =? sp_col q').
Lemma posb_iff : forall q q', posb q q' = true <-> q = q'.
Proof.
  intros [l c] [l' c']. unfold posb. cbn. rewrite andb_true_iff, !N.eqb_eq. split; [intros [-> ->]; auto|intros [= -> ->]; auto].
Qed.

Lemma fit_prefix : forall p s, positions_fit (p ++ s) -> sp_line (pos_of p) < 65536 /\ sp_col (pos_of p) < 65536.
Proof. intros p s H. apply (H p s); auto. apply pos_of_at. Qed.

Lemma offset_loop_spec : forall pos s p, positions_fit (p ++ s) ->
  exists r, offset_loop pos s (byte_len p) (sp_line (pos_of p)) (sp_col (pos_of p)) = Ok r /\
  match r with
  | Some n => exists u v, s = u ++ v /\ pos = pos_of (p ++ u) /\ n = byte_len (p ++ u)
  | None => forall u v, s = u ++ v -> pos <> pos_of (p ++ u)
  end.
Proof.
  intros pos. induction s as [|c s IH]; intros p Hf; cbn [offset_loop]; fold (posb (pos_of p) pos).
  - eexists. split; [reflexivity|]. destruct (posb (pos_of p) pos) eqn:E.
    + apply posb_iff in E. exists [], []. rewrite (app_nil_r p). auto.
    + intros u v X. symmetry in X. apply app_eq_nil in X. destruct X as [-> ->]. rewrite app_nil_r. intros X. subst. rewrite (proj2 (posb_iff _ _) eq_refl) in E. discriminate.
  - destruct (posb (pos_of p) pos) eqn:E.
    + apply posb_iff in E. eexists. split; [reflexivity|]. exists [], (c :: s). rewrite (app_nil_r p). auto.
    + replace (p ++ c :: s) with ((p ++ [c]) ++ s) in Hf by (rewrite <- app_assoc; auto).
      destruct (IH _ Hf) as (r & Hr & HR). destruct (fit_prefix _ _ Hf) as [F1 F2]. rewrite pos_of_snoc in Hr, F1, F2. rewrite byte_len_app in Hr. cbn [byte_len fold_right] in Hr. rewrite N.add_0_r in Hr.
      exists r. split.
      * unfold step in *. destruct (c =? newline); cbn [sp_line sp_col] in *; unfold add_u16; (rewrite (proj2 (N.ltb_lt _ _)); [|lia]); cbn [bind]; exact Hr.
      * destruct r as [n|].
        -- destruct HR as (u & v & -> & X & Y). exists (c :: u), v. rewrite <- app_assoc in X, Y. auto.
        -- intros u v X. destruct u as [|c' u]; [rewrite app_nil_r; intros Y; subst; rewrite (proj2 (posb_iff _ _) eq_refl) in E; discriminate|].
           injection X as <- X. specialize (HR u v X). rewrite <- app_assoc in HR. exact HR.
Qed.

Lemma offset_exact : forall text, positions_fit text -> forall pos n, pos_offset pos text = Ok (Some n) <-> exists p, prefix p text /\ at_pos p pos /\ n = byte_len p.
Proof.
  intros text Hf pos n. destruct (offset_loop_spec pos text [] Hf) as (r & Hr & HR). unfold pos_offset. cbn [byte_len fold_right] in Hr. change (offset_loop pos text 0 1 1 = Ok r) in Hr. rewrite Hr. split.
  - intros [= ->]. destruct HR as (u & v & -> & A & B). exists u. split; [exists v; auto|]. split; auto. apply at_pos_iff. auto.
  - intros (p & [s ->] & A & ->). apply at_pos_iff in A. destruct r as [m|].
    + destruct HR as (u & v & E & B & ->). f_equal. f_equal. f_equal. cbn [app] in *. apply (pos_of_inj (p ++ s)); [exists v; auto|exists s; auto|congruence].
    + destruct (HR p s eq_refl). auto.
Qed.

Lemma offset_none : forall text, positions_fit text -> forall pos, pos_offset pos text = Ok None <-> forall p, prefix p text -> ~ at_pos p pos.
Proof.
  intros text Hf pos. destruct (offset_loop_spec pos text [] Hf) as (r & Hr & HR). unfold pos_offset. change (offset_loop pos text 0 1 1 = Ok r) in Hr. rewrite Hr. split.
  - intros [= ->] p [s E] A. apply at_pos_iff in A. apply (HR p s E A).
  - intros H. destruct r as [m|]; auto. destruct HR as (u & v & -> & A & B). destruct (H u); [exists v; auto|apply at_pos_iff; auto].
Qed.

(** ** Substrings *)

Lemma drop_bytes_app : forall p s, drop_bytes (p ++ s) (byte_len p) = Ok s.
Proof.
  induction p as [|c p IH]; intros s; cbn [byte_len fold_right app].
  - destruct s; reflexivity.
  - fold (byte_len p). cbn [drop_bytes]. assert (0 < len_utf8 c) as L by (unfold len_utf8; repeat destruct (_ <? _); lia).
    destruct (N.eqb_spec (len_utf8 c + byte_len p) 0); [lia|]. destruct (N.ltb_spec (len_utf8 c + byte_len p) (len_utf8 c)); [lia|]. replace (len_utf8 c + byte_len p - len_utf8 c) with (byte_len p) by lia. apply IH.
Qed.
Lemma take_bytes_app : forall p s, take_bytes (p ++ s) (byte_len p) = Ok p.
Proof.
  induction p as [|c p IH]; intros s; cbn [byte_len fold_right app].
  - destruct s; reflexivity.
  - fold (byte_len p). cbn [take_bytes]. assert (0 < len_utf8 c) as L by (unfold len_utf8; repeat destruct (_ <? _); lia).
    destruct (N.eqb_spec (len_utf8 c + byte_len p) 0); [lia|]. destruct (N.ltb_spec (len_utf8 c + byte_len p) (len_utf8 c)); [lia|]. replace (len_utf8 c + byte_len p - len_utf8 c) with (byte_len p) by lia. rewrite IH. reflexivity.
Qed.
Lemma byte_slice_app : forall p m s, byte_slice (p ++ m ++ s) (byte_len p) (byte_len (p ++ m)) = Ok m.
Proof.
  intros p m s. unfold byte_slice. rewrite byte_len_app. destruct (N.ltb_spec (byte_len p + byte_len m) (byte_len p)); [lia|]. rewrite drop_bytes_app. cbn [bind]. replace (byte_len p + byte_len m - byte_len p) with (byte_len m) by lia. apply take_bytes_app.
Qed.
Lemma byte_len_pos : forall c p, 0 < byte_len (c :: p).
Proof. intros c p. cbn [byte_len fold_right]. assert (0 < len_utf8 c) as L by (unfold len_utf8; repeat destruct (_ <? _); lia). lia. Qed.

Lemma substring_cases : forall text, positions_fit text -> forall span,
  match span_substring span text with
  | Ok (Some m) => exists p s, text = p ++ m ++ s /\ at_pos p (ss_start span) /\ at_pos (p ++ m) (ss_end span)
  | Ok None => (forall p, prefix p text -> ~ at_pos p (ss_start span)) \/ (forall p, prefix p text -> ~ at_pos p (ss_end span))
  | Panic => exists p m, m <> [] /\ prefix (p ++ m) text /\ at_pos (p ++ m) (ss_start span) /\ at_pos p (ss_end span)
  | _ => False
  end.
Proof.
  intros text Hf [a b]. unfold span_substring. cbn [ss_start ss_end].
  assert (forall pos, exists r, pos_offset pos text = Ok r) as X. { intros pos. destruct (offset_loop_spec pos text [] Hf) as (r & Hr & _). exists r. exact Hr. }
  destruct (X a) as [ra Ra], (X b) as [rb Rb]. rewrite Ra. cbn [bind]. destruct ra as [na|].
  - rewrite Rb. cbn [bind]. destruct rb as [nb|].
    + apply (offset_exact _ Hf) in Ra, Rb. destruct Ra as (p & [s Es] & A & ->), Rb as (p' & [s' Es'] & B & ->).
      assert (p ++ s = p' ++ s') as E by congruence. destruct (prefixes_compare _ _ _ _ E) as [[m ->]|(c & m & ->)].
      * rewrite <- app_assoc in E. apply app_inv_head in E. subst s text. rewrite byte_slice_app. cbn [bind]. exists p, s'. auto.
      * unfold byte_slice. rewrite byte_len_app. pose proof (byte_len_pos c m). destruct (N.ltb_spec (byte_len p') (byte_len p' + byte_len (c :: m))); [|lia]. cbn [bind]. exists p', (c :: m). split; [discriminate|]. split; [exists s; auto|]. auto.
    + right. apply (offset_none _ Hf). auto.
  - left. apply (offset_none _ Hf). auto.
Qed.

Lemma substring_exact : forall text, positions_fit text -> forall span m,
  span_substring span text = Ok (Some m) <-> exists p s, text = p ++ m ++ s /\ at_pos p (ss_start span) /\ at_pos (p ++ m) (ss_end span).
Proof.
  intros text Hf span m. pose proof (substring_cases text Hf span) as H. split; [intros E; rewrite E in H; exact H|].
  intros (p & s & -> & A & B). unfold span_substring.
  rewrite (proj2 (offset_exact _ Hf (ss_start span) (byte_len p))) by (exists p; split; [eexists; reflexivity|auto]). cbn [bind].
  rewrite (proj2 (offset_exact _ Hf (ss_end span) (byte_len (p ++ m)))) by (exists (p ++ m); split; [exists s; rewrite app_assoc; auto|auto]). cbn [bind].
  rewrite byte_slice_app. reflexivity.
Qed.

(** Long lines. *)
Lemma long_line : forall s p, sp_col (pos_of p) <= 65535 -> ~ In newline s -> 65535 < sp_col (pos_of p) + N.of_nat (length s) ->
  offset_loop (mkPos 0 0) s (byte_len p) (sp_line (pos_of p)) (sp_col (pos_of p)) = Panic.
Proof.
  induction s as [|c s IH]; intros p H1 H2 H3; [cbn in H3; lia|]. cbn [offset_loop]. fold (posb (pos_of p) (mkPos 0 0)).
  destruct (posb (pos_of p) (mkPos 0 0)) eqn:E.
  { apply posb_iff in E. exfalso. pose proof (pos_of_at p) as (L & _). rewrite E in L. cbn [sp_line] in L. lia. }
  destruct (N.eqb_spec c newline) as [->|Hc]; [destruct H2; left; auto|]. unfold add_u16. destruct (N.ltb_spec (sp_col (pos_of p) + 1) 65536) as [L|L]; cbn [bind]; auto.
  assert (pos_of (p ++ [c]) = mkPos (sp_line (pos_of p)) (sp_col (pos_of p) + 1)) as EP. { rewrite pos_of_snoc. unfold step. destruct (N.eqb_spec c newline); [contradiction|auto]. }
  specialize (IH (p ++ [c])). rewrite EP, byte_len_app in IH. cbn [sp_line sp_col byte_len fold_right] in IH. rewrite N.add_0_r in IH. apply IH; [lia|intros X; apply H2; right; auto|cbn [length] in H3; lia].
Qed.

Lemma long_text_panics : exists text, pos_offset (mkPos 0 0) text = Panic.
Proof. exists (repeat 97 (N.to_nat 65535)). apply (long_line _ []); [cbn; lia|intros X; apply repeat_spec in X; discriminate|]. rewrite repeat_length, N2Nat.id. cbn. lia. Qed.

(** ** Positions of tokens *)

Lemma ascii_len : forall s, (forall c, In c s -> c < 128) -> byte_len s = N.of_nat (length s).
Proof.
  induction s as [|c s IH]; intros H; [reflexivity|]. cbn [byte_len fold_right length]. fold (byte_len s). rewrite IH by (intros; apply H; right; auto).
  unfold len_utf8. destruct (N.ltb_spec c 128) as [|X]; [lia|]. specialize (H c (or_introl eq_refl)). lia.
Qed.
Lemma pos_of_line : forall s p, ~ In newline s -> pos_of (p ++ s) = mkPos (sp_line (pos_of p)) (sp_col (pos_of p) + N.of_nat (length s)).
Proof.
  induction s as [|c s IH] using rev_ind; intros p H.
  - rewrite app_nil_r. destruct (pos_of p) as [l k]. cbn [sp_line sp_col length]. f_equal. lia.
  - rewrite app_assoc, pos_of_snoc, IH by (intros X; apply H; apply in_or_app; auto). unfold step. destruct (N.eqb_spec c newline) as [->|X]; [destruct H; apply in_or_app; right; left; auto|].
    cbn [sp_line sp_col]. f_equal. rewrite app_length. cbn [length]. lia.
Qed.
Lemma pos_of_newline : forall p, pos_of (p ++ [newline]) = mkPos (sp_line (pos_of p) + 1) 1.
Proof. intros p. rewrite pos_of_snoc. reflexivity. Qed.
Lemma texts_cons : forall k s ts, texts ((k, s) :: ts) = s ++ texts ts.
Proof. reflexivity. Qed.

Lemma advance_width : forall p s rest, (forall c, In c s -> c < 128) -> ~ In newline s -> positions_fit (p ++ s ++ rest) ->
  add_u16 (sp_col (pos_of p)) (slice_width s) = Ok (sp_col (pos_of (p ++ s))) /\ sp_line (pos_of (p ++ s)) = sp_line (pos_of p).
Proof.
  intros p s rest H1 H2 Hf. rewrite pos_of_line by auto. cbn [sp_line sp_col]. split; auto. rewrite app_assoc in Hf. destruct (fit_prefix _ _ Hf) as [_ F]. rewrite pos_of_line in F by auto. cbn [sp_col] in F.
  unfold slice_width. rewrite ascii_len, N.mod_small by (auto; lia). unfold add_u16. rewrite (proj2 (N.ltb_lt _ _)) by lia. reflexivity.
Qed.

(** Skipping blanks reaches the place in front of the next visible token. *)
Lemma skip_blanks_spec : forall tokens p, Forall plain tokens -> positions_fit (p ++ texts tokens) ->
  exists bl tokens', tokens = bl ++ tokens' /\ visible bl = [] /\ (tokens' = [] \/ exists s (ts : list raw_token), tokens' = (KOther, s) :: ts) /\
    skip_blanks tokens (sp_line (pos_of p)) (sp_col (pos_of p)) = Ok (tokens', sp_line (pos_of (p ++ texts bl)), sp_col (pos_of (p ++ texts bl))).
Proof.
  induction tokens as [|[k s] tokens IH]; intros p Hp Hf.
  - exists [], []. cbn. rewrite app_nil_r. auto.
  - apply Forall_cons_iff in Hp. destruct Hp as [[A B] Hp]. cbn [fst snd] in A, B. rewrite texts_cons in Hf. destruct k; cbn [skip_blanks].
    + subst s. destruct (IH (p ++ [newline]) Hp) as (bl & ts & -> & V & C & D); [rewrite <- app_assoc; auto|]. exists ((KNewline, [newline]) :: bl), ts. split; auto. split; auto. split; auto.
      rewrite pos_of_newline in D. cbn [sp_line sp_col] in D. rewrite texts_cons, app_assoc. rewrite app_assoc in Hf. destruct (fit_prefix _ _ Hf) as [F _]. rewrite pos_of_newline in F. cbn [sp_line] in F.
      unfold add_u16. rewrite (proj2 (N.ltb_lt _ _)) by lia. cbn [bind]. exact D.
    + destruct (advance_width p s (texts tokens) A B Hf) as [X Y]. destruct (IH (p ++ s) Hp) as (bl & ts & -> & V & C & D); [rewrite <- app_assoc; auto|]. exists ((KWhitespace, s) :: bl), ts. split; auto. split; auto. split; auto.
      rewrite X. cbn [bind]. rewrite Y in D. rewrite texts_cons, app_assoc. exact D.
    + exists [], ((KOther, s) :: tokens). split; auto. split; auto. split; [right; eauto|]. cbn [texts map concat]. rewrite app_nil_r. reflexivity.
Qed.

Lemma texts_app : forall a b, texts (a ++ b) = texts a ++ texts b.
Proof. intros a b. unfold texts. rewrite map_app, concat_app. reflexivity. Qed.
Lemma visible_app : forall a b, visible (a ++ b) = visible a ++ visible b.
Proof. intros a b. unfold visible. apply filter_app. Qed.

Lemma visible_other : forall s ts, length (visible ((KOther, s) :: ts)) = S (length (visible ts)).
Proof. reflexivity. Qed.

(** Start and end of the span of a visible token. *)
Definition placed (tokens : list raw_token) (p : list N) (e : list N * source_span) : Prop :=
  exists a b, tokens = a ++ (KOther, fst e) :: b /\ ss_start (snd e) = pos_of (p ++ texts a) /\ ss_end (snd e) = pos_of (p ++ texts a ++ fst e).

Lemma spanned_spec : forall n tokens p, Forall plain tokens -> positions_fit (p ++ texts tokens) -> (n <= length (visible tokens))%nat ->
  exists l, spanned_tokens n tokens (sp_line (pos_of p)) (sp_col (pos_of p)) = Ok l /\ map fst l = firstn n (map snd (visible tokens)) /\ Forall (placed tokens p) l.
Proof.
  induction n as [|n IH]; intros tokens p Hp Hf Hn; [exists []; cbn; auto|]. cbn [spanned_tokens]. unfold next_spanned.
  destruct (skip_blanks_spec tokens p Hp Hf) as (bl & ts & -> & V & C & D). rewrite D. cbn [bind]. rewrite visible_app, V in *. cbn [app] in *.
  destruct C as [->|(s & ts' & ->)]; [cbn in Hn; lia|]. apply Forall_app in Hp. destruct Hp as [_ Hp]. apply Forall_cons_iff in Hp. destruct Hp as [[A B] Hp]. cbn [fst snd] in A, B.
  rewrite texts_app, texts_cons, app_assoc in Hf. destruct (advance_width _ _ _ A B Hf) as [X Y]. rewrite X. cbn [bind tl].
  replace ((p ++ texts bl) ++ s ++ texts ts') with (((p ++ texts bl) ++ s) ++ texts ts') in Hf by (rewrite <- app_assoc; auto).
  destruct (IH ts' _ Hp Hf) as (l & E & M & Q); [rewrite visible_other in Hn; lia|]. rewrite Y in E. rewrite E. cbn [bind]. eexists. split; [reflexivity|]. split; [cbn [map visible filter fst snd firstn]; f_equal; exact M|].
  constructor.
  - exists bl, ts'. cbn [fst snd ss_start ss_end]. split; auto. split; [destruct (pos_of (p ++ texts bl)); auto|]. rewrite app_assoc. rewrite <- Y. destruct (pos_of ((p ++ texts bl) ++ s)); auto.
  - revert Q. apply Forall_impl. intros [t sp] (a & b & -> & Q1 & Q2). exists (bl ++ (KOther, s) :: a), b. split; [rewrite <- app_assoc; auto|]. rewrite texts_app, texts_cons. cbn [fst snd] in *. rewrite Q1, Q2, <- !app_assoc. auto.
Qed.

Lemma token_spans : forall tokens, Forall plain tokens -> positions_fit (texts tokens) ->
  exists l, spanned_tokens (length (visible tokens)) tokens 1 1 = Ok l /\ map fst l = map snd (visible tokens) /\
    forall s span, In (s, span) l -> span_substring span (texts tokens) = Ok (Some s).
Proof.
  intros tokens Hp Hf. destruct (spanned_spec (length (visible tokens)) tokens [] Hp Hf (le_n _)) as (l & A & B & C). exists l. split; auto. split.
  - rewrite B. apply firstn_all2. rewrite map_length. auto.
  - intros s span H. rewrite Forall_forall in C. destruct (C _ H) as (a & b & -> & P & Q). cbn [fst snd app] in P, Q. apply (substring_exact _ Hf). exists (texts a), (texts b). split; [rewrite texts_app, texts_cons; auto|].
    split; apply at_pos_iff; auto.
Qed.

(** The span of a rule, from its first to its last token. *)
Lemma rule_spans : forall tokens, Forall plain tokens -> positions_fit (texts tokens) -> forall l, spanned_tokens (length (visible tokens)) tokens 1 1 = Ok l ->
  forall l1 s1 span1 l2 s2 span2 l3, l = l1 ++ (s1, span1) :: l2 ++ (s2, span2) :: l3 ->
  exists a mid b, tokens = a ++ (KOther, s1) :: mid ++ (KOther, s2) :: b /\ visible mid = map (fun e => (KOther, fst e)) l2 /\
    span_substring (between_span span1 span2) (texts tokens) = Ok (Some (s1 ++ texts mid ++ s2)).
Proof.
  assert (forall n tokens p l, Forall plain tokens -> positions_fit (p ++ texts tokens) -> (n <= length (visible tokens))%nat ->
    spanned_tokens n tokens (sp_line (pos_of p)) (sp_col (pos_of p)) = Ok l -> forall l1 s span l2, l = l1 ++ (s, span) :: l2 ->
    exists a b, tokens = a ++ (KOther, s) :: b /\ visible a = map (fun e => (KOther, fst e)) l1 /\ ss_start span = pos_of (p ++ texts a) /\ ss_end span = pos_of (p ++ texts a ++ s) /\
      spanned_tokens (length l2) b (sp_line (pos_of (p ++ texts a ++ s))) (sp_col (pos_of (p ++ texts a ++ s))) = Ok l2 /\ (length l2 <= length (visible b))%nat) as X.
  { induction n as [|n IH]; intros tokens p l Hp Hf Hn E l1 s span l2 El; [cbn in E; injection E as <-; destruct l1; discriminate|].
    cbn [spanned_tokens] in E. unfold next_spanned in E.
    destruct (skip_blanks_spec tokens p Hp Hf) as (bl & ts & -> & V & C & D). rewrite D in E. cbn [bind] in E. rewrite visible_app, V in *. cbn [app] in *.
    destruct C as [->|(s0 & ts' & ->)]; [cbn in Hn; lia|]. apply Forall_app in Hp. destruct Hp as [_ Hp]. apply Forall_cons_iff in Hp. destruct Hp as [[A B] Hp]. cbn [fst snd] in A, B.
    rewrite texts_app, texts_cons, app_assoc in Hf. destruct (advance_width _ _ _ A B Hf) as [X Y]. rewrite X in E. cbn [bind tl] in E.
    replace ((p ++ texts bl) ++ s0 ++ texts ts') with (((p ++ texts bl) ++ s0) ++ texts ts') in Hf by (rewrite <- app_assoc; auto).
    assert (n <= length (visible ts'))%nat as Hn' by (rewrite visible_other in Hn; lia).
    destruct (spanned_tokens n ts' _ _) as [l'|e| |] eqn:E'; try discriminate. cbn [bind] in E. injection E as <-. rewrite <- Y in E'.
    destruct l1 as [|e l1]; injection El as El0 El.
    - subst s0 span l'. exists bl, ts'. split; auto. split; [exact V|]. cbn [ss_start ss_end]. split; [destruct (pos_of (p ++ texts bl)); auto|]. rewrite app_assoc. split; [rewrite <- Y; destruct (pos_of ((p ++ texts bl) ++ s)); auto|].
      destruct (spanned_spec n ts' _ Hp Hf Hn') as (l'' & E'' & M & _). rewrite E' in E''. injection E'' as <-.
      assert (length l2 = n) as <-. { apply (f_equal (@length _)) in M. rewrite map_length, firstn_length, map_length in M. rewrite Nat.min_l in M by exact Hn'. exact M. } split; auto.
    - subst e l'. destruct (IH ts' _ _ Hp Hf Hn' E' l1 s span l2 eq_refl) as (a & b & -> & Va & S1 & S2 & S3 & S4). exists (bl ++ (KOther, s0) :: a), b. split; [rewrite <- app_assoc; auto|].
      split; [rewrite visible_app, V; cbn [app visible filter fst map]; f_equal; exact Va|]. rewrite texts_app, texts_cons. rewrite <- !app_assoc in *. auto. }
  intros tokens Hp Hf l E l1 s1 span1 l2 s2 span2 l3 El.
  destruct (X _ tokens [] l Hp Hf (le_n _) E l1 s1 span1 _ El) as (a & b & -> & Va & S1 & S2 & S3 & S4). cbn [app] in *. assert (Forall plain b) as Hb by (apply Forall_app in Hp; destruct Hp as [_ Hp]; apply Forall_cons_iff in Hp; tauto).
  assert (positions_fit ((texts a ++ s1) ++ texts b)) as Hf' by (rewrite texts_app, texts_cons in Hf; rewrite <- app_assoc; exact Hf).
  destruct (X _ b (texts a ++ s1) _ Hb Hf' S4 S3 l2 s2 span2 l3 eq_refl) as (mid & b' & -> & Vm & T1 & T2 & _ & _).
  exists a, mid, b'. split; auto. split; auto. apply (substring_exact _ Hf). exists (texts a), (texts b'). cbn [between_span ss_start ss_end]. split; [rewrite texts_app, texts_cons, texts_app, texts_cons, <- !app_assoc; auto|].
  split; apply at_pos_iff; auto. rewrite T2, <- !app_assoc. auto.
Qed.

Lemma short_fits : forall text, N.of_nat (length text) < 65535 -> positions_fit text.
Proof.
  intros text H p s pos E A. apply at_pos_iff in A. subst pos. assert (sp_line (pos_of p) <= 1 + N.of_nat (length p) /\ sp_col (pos_of p) <= 1 + N.of_nat (length p)) as X.
  { clear. induction p as [|c p IH] using rev_ind; [cbn; lia|]. rewrite pos_of_snoc, app_length. unfold step. cbn [length]. destruct (c =? newline); cbn [sp_line sp_col]; lia. }
  subst text. rewrite app_length in H. lia.
Qed.

(** entry a; newline, blank, b *)
Definition blanks_case : list raw_token := [(KOther, [101; 97]); (KWhitespace, [32; 9]); (KOther, [59]); (KNewline, [10]); (KWhitespace, [32]); (KOther, [98])].
