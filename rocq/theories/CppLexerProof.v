(** Proofs about the emitted C++ lexer. *)
From Coq Require Import String List Arith NArith ZArith Bool Lia ZifyN ZifyBool.
From Verif Require Import Base InputModel LexerModel LexerSpec LexerRunProof LexerFactsProof CppLexerModel CppLexerSpec.
Import ListNotations.
Local Open Scope N_scope.
Local Open Scope list_scope.

Ltac Zify.zify_post_hook ::= Z.to_euclidean_division_equations.

(** ** Bytes *)

Lemma byte_cases : forall f : N -> bool, forallb f (map N.of_nat (seq 0 256)) = true -> forall b, b < 256 -> f b = true.
Proof.
  intros f H b Hb. rewrite forallb_forall in H. apply H. replace b with (N.of_nat (N.to_nat b)) by apply N2Nat.id. apply in_map.
  apply in_seq. lia.
Qed.

Definition lead (s0 : N) : N * N :=
  if s0 <? 128 then (1, s0) else if s0 <? 192 then (0, 0) else if s0 <? 224 then (2, s0 - 192)
  else if s0 <? 240 then (3, s0 - 224) else if s0 <? 248 then (4, s0 - 240) else (0, 0).

Lemma lead_ok : forall s0, s0 < 256 -> at_index lengths (N.shiftr s0 3) = fst (lead s0) /\ N.land s0 (at_index masks (at_index lengths (N.shiftr s0 3))) = snd (lead s0).
Proof.
  intros s0 H. pose proof (byte_cases (fun s0 => (at_index lengths (N.shiftr s0 3) =? fst (lead s0)) &&
    (N.land s0 (at_index masks (at_index lengths (N.shiftr s0 3))) =? snd (lead s0)))) as X.
  specialize (X eq_refl s0 H). apply andb_prop in X. destruct X as [A B]. apply N.eqb_eq in A. apply N.eqb_eq in B. auto.
Qed.
Lemma lengths_in_range : forall s0, s0 < 256 -> N.shiftr s0 3 < 32 /\ at_index lengths (N.shiftr s0 3) < 5.
Proof.
  intros s0 H. pose proof (byte_cases (fun s0 => (N.shiftr s0 3 <? 32) && (at_index lengths (N.shiftr s0 3) <? 5)) eq_refl s0 H) as X.
  apply andb_prop in X. destruct X as [A B]. apply N.ltb_lt in A. apply N.ltb_lt in B. auto.
Qed.

Lemma tail_bits : forall s, s < 256 -> N.land s 0x3f = s mod 64 /\ N.shiftr (N.land s 0xc0) 2 = 16 * (s / 64) /\ N.shiftr (N.land s 0xc0) 4 = 4 * (s / 64) /\ N.shiftr s 6 = s / 64.
Proof.
  intros s H. pose proof (byte_cases (fun s => (N.land s 0x3f =? s mod 64) && (N.shiftr (N.land s 0xc0) 2 =? 16 * (s / 64)) && (N.shiftr (N.land s 0xc0) 4 =? 4 * (s / 64)) && (N.shiftr s 6 =? s / 64)) eq_refl s H) as X. cbv beta in X.
  repeat match type of X with _ && _ = true => apply andb_prop in X; let A := fresh in destruct X as [X A]; apply N.eqb_eq in A end. apply N.eqb_eq in X. auto.
Qed.

(** ** Words *)

Lemma lor_low : forall k a b, b < 2 ^ k -> N.lor (N.shiftl a k) b = a * 2 ^ k + b.
Proof.
  intros k a b H. rewrite <- N.shiftl_mul_pow2. assert (L : N.land (N.shiftl a k) b = 0).
  { apply N.bits_inj. intros i. rewrite N.land_spec, N.bits_0. destruct (N.ltb_spec i k) as [Hi|Hi].
    - rewrite N.shiftl_spec_low by exact Hi. reflexivity.
    - destruct (N.eq_dec b 0) as [->|Hb]; [rewrite N.bits_0; apply andb_false_r|].
      rewrite (N.bits_above_log2 b i); [apply andb_false_r|]. apply N.lt_le_trans with k; [|exact Hi]. apply N.log2_lt_pow2; [|exact H]. lia. }
  rewrite N.add_nocarry_lxor by exact L. symmetry. apply N.lxor_lor. exact L.
Qed.

Lemma word_value : forall v m1 m2 m3, m1 < 64 -> m2 < 64 -> m3 < 64 ->
  N.lor (N.lor (N.lor (N.shiftl v 18) (N.shiftl m1 12)) (N.shiftl m2 6)) (N.shiftl m3 0) = ((v * 64 + m1) * 64 + m2) * 64 + m3.
Proof.
  intros v m1 m2 m3 H1 H2 H3. rewrite N.shiftl_0_r. replace (N.shiftl v 18) with (N.shiftl (N.shiftl v 6) 12) by (rewrite N.shiftl_shiftl; reflexivity).
  rewrite <- N.shiftl_lor. rewrite (lor_low 6 v m1) by exact H1.
  replace (N.shiftl (v * 2 ^ 6 + m1) 12) with (N.shiftl (N.shiftl (v * 2 ^ 6 + m1) 6) 6) by (rewrite N.shiftl_shiftl; reflexivity).
  rewrite <- N.shiftl_lor. rewrite (lor_low 6 _ m2) by exact H2. rewrite (lor_low 6 _ m3) by exact H3. reflexivity.
Qed.

Definition flags (a b d : bool) (t1 t2 t3 : N) : N :=
  N.lxor (N.lor (N.lor (N.lor (N.lor (N.lor (N.shiftl (c_bool a) 6) (N.shiftl (c_bool b) 7)) (N.shiftl (c_bool d) 8)) (16 * t1)) (4 * t2)) t3) 0x2a.

Lemma below4 : forall t, t < 4 -> t = 0 \/ t = 1 \/ t = 2 \/ t = 3. Proof. intros t H. lia. Qed.

Ltac flag_cases t1 t2 t3 a b d H1 H2 H3 :=
  destruct (below4 t1 H1) as [->|[->|[->| ->]]]; destruct (below4 t2 H2) as [->|[->|[->| ->]]]; destruct (below4 t3 H3) as [->|[->|[->| ->]]];
  destruct a, b, d; vm_compute.

Lemma flags_4 : forall a b d t1 t2 t3, t1 < 4 -> t2 < 4 -> t3 < 4 ->
  (N.shiftr (flags a b d t1 t2 t3) 0 =? 0) = negb a && negb b && negb d && (t1 =? 2) && (t2 =? 2) && (t3 =? 2).
Proof. intros a b d t1 t2 t3 H1 H2 H3. flag_cases t1 t2 t3 a b d H1 H2 H3; reflexivity. Qed.
Lemma flags_3 : forall a b d t1 t2 t3, t1 < 4 -> t2 < 4 -> t3 < 4 ->
  (N.shiftr (flags a b d t1 t2 t3) 2 =? 0) = negb a && negb b && negb d && (t1 =? 2) && (t2 =? 2).
Proof. intros a b d t1 t2 t3 H1 H2 H3. flag_cases t1 t2 t3 a b d H1 H2 H3; reflexivity. Qed.
Lemma flags_2 : forall a b d t1 t2 t3, t1 < 4 -> t2 < 4 -> t3 < 4 ->
  (N.shiftr (flags a b d t1 t2 t3) 4 =? 0) = negb a && negb b && negb d && (t1 =? 2).
Proof. intros a b d t1 t2 t3 H1 H2 H3. flag_cases t1 t2 t3 a b d H1 H2 H3; reflexivity. Qed.
Lemma flags_1 : forall a b d t1 t2 t3, t1 < 4 -> t2 < 4 -> t3 < 4 ->
  (N.shiftr (flags a b d t1 t2 t3) 6 =? 0) = negb a && negb b && negb d.
Proof. intros a b d t1 t2 t3 H1 H2 H3. flag_cases t1 t2 t3 a b d H1 H2 H3; reflexivity. Qed.

(** ** One character *)

Definition dec (len s0 s1 s2 s3 : N) : N * N :=
  let c := (((snd (lead s0) * 64 + s1 mod 64) * 64 + s2 mod 64) * 64 + s3 mod 64) / 2 ^ at_index shiftc len in
  (c, N.shiftr (flags (c <? at_index mins len) (c / 2048 =? 0x1b) (0x10FFFF <? c) (s1 / 64) (s2 / 64) (s3 / 64)) (at_index shifte len)).

Lemma utf8_decode_dec : forall s0 rest, s0 < 256 -> Forall is_byte rest ->
  let len := fst (lead s0) in
  let n := N.to_nat (if 1 <? len then len - 1 else 0) in
  utf8_decode (s0 :: rest) = (dec len s0 (nth 0 (firstn n rest) 0) (nth 1 (firstn n rest) 0) (nth 2 (firstn n rest) 0), skipn n rest).
Proof.
  intros s0 rest H0 HR len n. assert (HT : forall i, nth i (firstn n rest) 0 < 256).
  { intros i. destruct (nth_in_or_default i (firstn n rest) 0) as [X| ->]; [|reflexivity].
    rewrite <- (firstn_skipn n rest) in HR. apply Forall_app in HR. destruct HR as [HR _]. rewrite Forall_forall in HR. exact (HR _ X). }
  destruct (lead_ok s0 H0) as [L M]. unfold utf8_decode, read_bytes. cbn [firstn skipn nth]. rewrite M. rewrite L. fold len. fold n.
  set (t := firstn n rest) in *. destruct (tail_bits _ (HT 0%nat)) as (A1 & B1 & _ & _). destruct (tail_bits _ (HT 1%nat)) as (A2 & _ & B2 & _).
  destruct (tail_bits _ (HT 2%nat)) as (A3 & _ & _ & B3). rewrite A1, A2, A3, B1, B2, B3.
  rewrite word_value; [|apply N.mod_lt; discriminate|apply N.mod_lt; discriminate|apply N.mod_lt; discriminate].
  rewrite N.shiftr_div_pow2. rewrite (N.shiftr_div_pow2 _ 11). reflexivity.
Qed.

Lemma lead_cases : forall s0, s0 < 256 ->
  (s0 < 128 /\ lead s0 = (1, s0)) \/ (lead s0 = (0, 0) /\ (128 <= s0 < 192 \/ 248 <= s0)) \/ (192 <= s0 < 224 /\ lead s0 = (2, s0 - 192)) \/
  (224 <= s0 < 240 /\ lead s0 = (3, s0 - 224)) \/ (240 <= s0 < 248 /\ lead s0 = (4, s0 - 240)).
Proof.
  intros s0 H. unfold lead. destruct (N.ltb_spec s0 128); [left; auto|]. destruct (N.ltb_spec s0 192); [right; left; split; [auto|lia]|].
  destruct (N.ltb_spec s0 224); [do 2 right; left; auto|]. destruct (N.ltb_spec s0 240); [do 3 right; left; auto|].
  destruct (N.ltb_spec s0 248); [do 4 right; auto|right; left; split; [auto|lia]].
Qed.

Lemma dec_1 : forall s0, s0 < 128 -> lead s0 = (1, s0) -> dec 1 s0 0 0 0 = (s0, 0).
Proof.
  intros s0 H L. unfold dec. rewrite L. cbn [snd]. change (at_index shiftc 1) with 18. change (at_index shifte 1) with 6. change (at_index mins 1) with 0.
  change (0 mod 64) with 0. change (0 / 64) with 0. assert (E : (((s0 * 64 + 0) * 64 + 0) * 64 + 0) / 2 ^ 18 = s0).
  { replace (((s0 * 64 + 0) * 64 + 0) * 64 + 0) with (s0 * 2 ^ 18) by (change (2 ^ 18) with 262144; lia). apply N.div_mul. discriminate. }
  rewrite E. f_equal. apply N.eqb_eq. rewrite flags_1 by reflexivity. change 1114111 with 0x10FFFF. lia.
Qed.

Lemma dec_0 : forall s0 s1 s2 s3, s1 < 256 -> s2 < 256 -> s3 < 256 -> lead s0 = (0, 0) -> snd (dec 0 s0 s1 s2 s3) <> 0.
Proof.
  intros s0 s1 s2 s3 H1 H2 H3 L. unfold dec. rewrite L. cbn [snd]. change (at_index shiftc 0) with 0. change (at_index shifte 0) with 0.
  change (at_index mins 0) with 4194304. rewrite N.pow_0_r. rewrite N.div_1_r. intros X. apply N.eqb_eq in X. rewrite flags_4 in X by lia. lia.
Qed.

Lemma dec_2 : forall s0 s1, 192 <= s0 < 224 -> s1 < 256 -> lead s0 = (2, s0 - 192) -> exists e,
  dec 2 s0 s1 0 0 = ((s0 - 192) * 64 + s1 mod 64, e) /\ (e = 0 <-> 128 <= (s0 - 192) * 64 + s1 mod 64 /\ s1 / 64 = 2).
Proof.
  intros s0 s1 H0 H1 L. unfold dec. rewrite L. cbn [snd]. change (at_index shiftc 2) with 12. change (at_index shifte 2) with 4. change (at_index mins 2) with 128.
  change (0 mod 64) with 0. change (0 / 64) with 0. set (m := s1 mod 64). assert (Hm : m < 64) by (apply N.mod_lt; discriminate). eexists. split.
  - f_equal. replace ((((s0 - 192) * 64 + m) * 64 + 0) * 64 + 0) with (((s0 - 192) * 64 + m) * 2 ^ 12) by (change (2 ^ 12) with 4096; lia). apply N.div_mul. discriminate.
  - replace ((((s0 - 192) * 64 + m) * 64 + 0) * 64 + 0) with (((s0 - 192) * 64 + m) * 2 ^ 12) by (change (2 ^ 12) with 4096; lia). rewrite N.div_mul by discriminate.
    set (c := (s0 - 192) * 64 + m). assert (c < 2048) by (unfold c; lia). rewrite <- N.eqb_eq. rewrite flags_2; [|lia|reflexivity|reflexivity]. lia.
Qed.

Lemma dec_3 : forall s0 s1 s2, 224 <= s0 < 240 -> s1 < 256 -> s2 < 256 -> lead s0 = (3, s0 - 224) -> exists e,
  dec 3 s0 s1 s2 0 = (((s0 - 224) * 64 + s1 mod 64) * 64 + s2 mod 64, e) /\
  (e = 0 <-> 2048 <= ((s0 - 224) * 64 + s1 mod 64) * 64 + s2 mod 64 /\ scalar (((s0 - 224) * 64 + s1 mod 64) * 64 + s2 mod 64) /\ s1 / 64 = 2 /\ s2 / 64 = 2).
Proof.
  intros s0 s1 s2 H0 H1 H2 L. unfold dec. rewrite L. cbn [snd]. change (at_index shiftc 3) with 6. change (at_index shifte 3) with 2. change (at_index mins 3) with 2048.
  change (0 mod 64) with 0. change (0 / 64) with 0. set (m := s1 mod 64). assert (Hm : m < 64) by (apply N.mod_lt; discriminate).
  set (m2 := s2 mod 64). assert (Hm2 : m2 < 64) by (apply N.mod_lt; discriminate). rewrite N.add_0_r.
  change (2 ^ 6) with 64. rewrite N.div_mul by discriminate. eexists. split; [reflexivity|].
  set (c := ((s0 - 224) * 64 + m) * 64 + m2). assert (c < 65536) by (unfold c; lia). rewrite <- N.eqb_eq. rewrite flags_3; [|lia|lia|reflexivity]. unfold scalar. lia.
Qed.

Lemma dec_4 : forall s0 s1 s2 s3, 240 <= s0 < 248 -> s1 < 256 -> s2 < 256 -> s3 < 256 -> lead s0 = (4, s0 - 240) -> exists e,
  dec 4 s0 s1 s2 s3 = ((((s0 - 240) * 64 + s1 mod 64) * 64 + s2 mod 64) * 64 + s3 mod 64, e) /\
  (e = 0 <-> 65536 <= (((s0 - 240) * 64 + s1 mod 64) * 64 + s2 mod 64) * 64 + s3 mod 64 <= 0x10FFFF /\ s1 / 64 = 2 /\ s2 / 64 = 2 /\ s3 / 64 = 2).
Proof.
  intros s0 s1 s2 s3 H0 H1 H2 H3 L. unfold dec. rewrite L. cbn [snd]. change (at_index shiftc 4) with 0. change (at_index shifte 4) with 0. change (at_index mins 4) with 65536.
  set (m := s1 mod 64). set (m2 := s2 mod 64). set (m3 := s3 mod 64). rewrite N.pow_0_r. rewrite N.div_1_r. eexists. split; [reflexivity|].
  set (c := (((s0 - 240) * 64 + m) * 64 + m2) * 64 + m3). rewrite <- N.eqb_eq. rewrite flags_4 by lia. lia.
Qed.

Lemma top_bits : forall s, s < 256 -> s / 64 = 2 -> 128 <= s < 192 /\ s = 0x80 + s mod 64 /\ s mod 64 < 64.
Proof. intros s H E. lia. Qed.

Lemma decode_sound : forall bytes c rest, Forall is_byte bytes -> utf8_decode bytes = (c, 0, rest) ->
  (bytes = [] /\ c = 0 /\ rest = []) \/ exists bs, utf8 c bs /\ bytes = bs ++ rest.
Proof.
  intros bytes c rest HB HD. destruct bytes as [|s0 bytes]; [left; vm_compute in HD; injection HD as <- <-; auto|]. right. inversion HB as [|? ? H0 HR]. subst. unfold is_byte in H0.
  rewrite (utf8_decode_dec s0 bytes H0 HR) in HD. destruct (lead_cases s0 H0) as [[R L]|[[L R]|[[R L]|[[R L]|[R L]]]]]; rewrite L in HD; cbn [fst] in HD.
  - change (N.to_nat (if 1 <? 1 then 1 - 1 else 0)) with 0%nat in HD. cbn [firstn nth skipn] in HD. rewrite (dec_1 s0 R L) in HD. injection HD as <- <-. exists [s0]. split; [constructor; exact R|reflexivity].
  - change (N.to_nat (if 1 <? 0 then 0 - 1 else 0)) with 0%nat in HD. cbn [firstn nth skipn] in HD. exfalso. apply (dec_0 s0 0 0 0 eq_refl eq_refl eq_refl L). destruct (dec 0 s0 0 0 0) as [c' e']. injection HD as -> -> ->. reflexivity.
  - change (N.to_nat (if 1 <? 2 then 2 - 1 else 0)) with 1%nat in HD. destruct bytes as [|s1 bytes].
    { exfalso. cbn [firstn nth skipn] in HD. destruct (dec_2 s0 0 R eq_refl L) as (e & E & X). rewrite E in HD. injection HD as _ -> _. destruct (proj1 X eq_refl) as [_ Y]. discriminate Y. }
    inversion HR as [|? ? H1 HR1]. subst. cbn [firstn nth skipn] in HD. destruct (dec_2 s0 s1 R H1 L) as (e & E & X). rewrite E in HD. injection HD as <- -> <-.
    destruct (proj1 X eq_refl) as [Y Z]. destruct (top_bits s1 H1 Z) as (T1 & T2 & T3). exists [s0; s1]. split; [|reflexivity].
    replace s0 with (0xC0 + (s0 - 192)) at 2 by lia. rewrite T2 at 2. constructor; [lia|exact T3|exact Y].
  - change (N.to_nat (if 1 <? 3 then 3 - 1 else 0)) with 2%nat in HD. destruct bytes as [|s1 bytes].
    { exfalso. cbn [firstn nth skipn] in HD. destruct (dec_3 s0 0 0 R eq_refl eq_refl L) as (e & E & X). rewrite E in HD. injection HD as _ -> _. destruct (proj1 X eq_refl) as (_ & _ & Y & _). discriminate Y. }
    inversion HR as [|? ? H1 HR1]. subst. destruct bytes as [|s2 bytes].
    { exfalso. cbn [firstn nth skipn] in HD. destruct (dec_3 s0 s1 0 R H1 eq_refl L) as (e & E & X). rewrite E in HD. injection HD as _ -> _. destruct (proj1 X eq_refl) as (_ & _ & _ & Y). discriminate Y. }
    inversion HR1 as [|? ? H2 HR2]. subst. cbn [firstn nth skipn] in HD. destruct (dec_3 s0 s1 s2 R H1 H2 L) as (e & E & X). rewrite E in HD. injection HD as <- -> <-.
    destruct (proj1 X eq_refl) as (Y & Y2 & Z & Z2). destruct (top_bits s1 H1 Z) as (T1 & T2 & T3). destruct (top_bits s2 H2 Z2) as (U1 & U2 & U3). exists [s0; s1; s2]. split; [|reflexivity].
    replace s0 with (0xE0 + (s0 - 224)) at 2 by lia. rewrite T2 at 2. rewrite U2 at 2. constructor; [lia|exact T3|exact U3|exact Y|exact Y2].
  - change (N.to_nat (if 1 <? 4 then 4 - 1 else 0)) with 3%nat in HD. destruct bytes as [|s1 bytes].
    { exfalso. cbn [firstn nth skipn] in HD. destruct (dec_4 s0 0 0 0 R eq_refl eq_refl eq_refl L) as (e & E & X). rewrite E in HD. injection HD as _ -> _. destruct (proj1 X eq_refl) as (_ & Y & _). discriminate Y. }
    inversion HR as [|? ? H1 HR1]. subst. destruct bytes as [|s2 bytes].
    { exfalso. cbn [firstn nth skipn] in HD. destruct (dec_4 s0 s1 0 0 R H1 eq_refl eq_refl L) as (e & E & X). rewrite E in HD. injection HD as _ -> _. destruct (proj1 X eq_refl) as (_ & _ & Y & _). discriminate Y. }
    inversion HR1 as [|? ? H2 HR2]. subst. destruct bytes as [|s3 bytes].
    { exfalso. cbn [firstn nth skipn] in HD. destruct (dec_4 s0 s1 s2 0 R H1 H2 eq_refl L) as (e & E & X). rewrite E in HD. injection HD as _ -> _. destruct (proj1 X eq_refl) as (_ & _ & _ & Y). discriminate Y. }
    inversion HR2 as [|? ? H3 HR3]. subst. cbn [firstn nth skipn] in HD. destruct (dec_4 s0 s1 s2 s3 R H1 H2 H3 L) as (e & E & X). rewrite E in HD. injection HD as <- -> <-.
    destruct (proj1 X eq_refl) as (Y & Z & Z2 & Z3). destruct (top_bits s1 H1 Z) as (T1 & T2 & T3). destruct (top_bits s2 H2 Z2) as (U1 & U2 & U3). destruct (top_bits s3 H3 Z3) as (V1 & V2 & V3). exists [s0; s1; s2; s3]. split; [|reflexivity].
    replace s0 with (0xF0 + (s0 - 240)) at 2 by lia. rewrite T2 at 2. rewrite U2 at 2. rewrite V2 at 2. constructor; [lia|exact T3|exact U3|exact V3|exact Y].
Qed.

Lemma add_mod : forall y, y < 64 -> (0x80 + y) mod 64 = y /\ (0x80 + y) / 64 = 2 /\ 0x80 + y < 256. Proof. intros y H. lia. Qed.

Lemma decode_complete : forall c bs rest, utf8 c bs -> Forall is_byte rest -> utf8_decode (bs ++ rest) = (c, 0, rest).
Proof.
  intros c bs rest HU HR. destruct HU as [c H|x y Hx Hy H|x y z Hx Hy Hz H1 H2|w x y z Hw Hx Hy Hz H].
  - cbn [app]. rewrite utf8_decode_dec; [|lia|exact HR]. destruct (lead_cases c ltac:(lia)) as [[R L]|[[L R]|[[R L]|[[R L]|[R L]]]]]; try lia. rewrite L. cbn [fst].
    change (N.to_nat (if 1 <? 1 then 1 - 1 else 0)) with 0%nat. cbn [firstn nth skipn]. rewrite (dec_1 c R L). reflexivity.
  - cbn [app]. destruct (add_mod y Hy) as (A & B & C). rewrite utf8_decode_dec; [|lia|constructor; [exact C|exact HR]].
    destruct (lead_cases (0xC0 + x) ltac:(lia)) as [[R L]|[[L R]|[[R L]|[[R L]|[R L]]]]]; try lia. rewrite L. cbn [fst].
    change (N.to_nat (if 1 <? 2 then 2 - 1 else 0)) with 1%nat. cbn [firstn nth skipn]. destruct (dec_2 _ _ R C L) as (e & E & X). rewrite E. rewrite A, B in X. rewrite A.
    replace (0xC0 + x - 192) with x in * by lia. rewrite (proj2 X (conj H eq_refl)). reflexivity.
  - cbn [app]. destruct (add_mod y Hy) as (A & B & C). destruct (add_mod z Hz) as (A2 & B2 & C2). rewrite utf8_decode_dec; [|lia|constructor; [exact C|constructor; [exact C2|exact HR]]].
    destruct (lead_cases (0xE0 + x) ltac:(lia)) as [[R L]|[[L R]|[[R L]|[[R L]|[R L]]]]]; try lia. rewrite L. cbn [fst].
    change (N.to_nat (if 1 <? 3 then 3 - 1 else 0)) with 2%nat. cbn [firstn nth skipn]. destruct (dec_3 _ _ _ R C C2 L) as (e & E & X). rewrite E. rewrite A, B, A2, B2 in X. rewrite A, A2.
    replace (0xE0 + x - 224) with x in * by lia. rewrite (proj2 X (conj H1 (conj H2 (conj eq_refl eq_refl)))). reflexivity.
  - cbn [app]. destruct (add_mod x Hx) as (A & B & C). destruct (add_mod y Hy) as (A2 & B2 & C2). destruct (add_mod z Hz) as (A3 & B3 & C3).
    rewrite utf8_decode_dec; [|lia|constructor; [exact C|constructor; [exact C2|constructor; [exact C3|exact HR]]]].
    destruct (lead_cases (0xF0 + w) ltac:(lia)) as [[R L]|[[L R]|[[R L]|[[R L]|[R L]]]]]; try lia. rewrite L. cbn [fst].
    change (N.to_nat (if 1 <? 4 then 4 - 1 else 0)) with 3%nat. cbn [firstn nth skipn]. destruct (dec_4 _ _ _ _ R C C2 C3 L) as (e & E & X). rewrite E. rewrite A, B, A2, B2, A3, B3 in X. rewrite A, A2, A3.
    replace (0xF0 + w - 240) with w in * by lia. rewrite (proj2 X (conj H (conj eq_refl (conj eq_refl eq_refl)))). reflexivity.
Qed.

(** ** The encoding *)

Lemma utf8_scalar : forall c bs, utf8 c bs -> scalar c.
Proof. intros c bs H. unfold scalar. destruct H; try lia. exact H3. Qed.
Lemma utf8_bytes : forall c bs, utf8 c bs -> Forall is_byte bs.
Proof. intros c bs H. unfold is_byte. destruct H; repeat constructor; lia. Qed.
Lemma utf8_exists : forall c, scalar c -> exists bs, utf8 c bs.
Proof.
  intros c H. destruct (N.ltb_spec c 128) as [A|A]; [exists [c]; constructor; exact A|]. destruct (N.ltb_spec c 2048) as [B|B].
  - assert (X : exists bs, utf8 (c / 64 * 64 + c mod 64) bs) by (eexists; apply utf8_2; lia). replace (c / 64 * 64 + c mod 64) with c in X by lia. exact X.
  - destruct (N.ltb_spec c 65536) as [D|D].
    + assert (X : exists bs, utf8 ((c / 4096 * 64 + c / 64 mod 64) * 64 + c mod 64) bs).
      { eexists. apply utf8_3; try lia. replace ((c / 4096 * 64 + c / 64 mod 64) * 64 + c mod 64) with c by lia. exact H. }
      replace ((c / 4096 * 64 + c / 64 mod 64) * 64 + c mod 64) with c in X by lia. exact X.
    + unfold scalar in H. assert (X : exists bs, utf8 (((c / 262144 * 64 + c / 4096 mod 64) * 64 + c / 64 mod 64) * 64 + c mod 64) bs).
      { eexists. apply utf8_4; lia. }
      replace (((c / 262144 * 64 + c / 4096 mod 64) * 64 + c / 64 mod 64) * 64 + c mod 64) with c in X by lia. exact X.
Qed.
Lemma utf8_len : forall c bs, utf8 c bs -> N.of_nat (length bs) = len_utf8 c.
Proof.
  intros c bs H. unfold len_utf8. destruct H; cbn [length].
  - destruct (N.ltb_spec c 128); lia.
  - destruct (N.ltb_spec (x * 64 + y) 128); [lia|]. destruct (N.ltb_spec (x * 64 + y) 2048); lia.
  - set (c := (x * 64 + y) * 64 + z) in *. assert (c < 65536) by (unfold c; lia). destruct (N.ltb_spec c 128); [lia|]. destruct (N.ltb_spec c 2048); [lia|]. destruct (N.ltb_spec c 65536); lia.
  - set (c := ((w * 64 + x) * 64 + y) * 64 + z) in *. destruct (N.ltb_spec c 128); [lia|]. destruct (N.ltb_spec c 2048); [lia|]. destruct (N.ltb_spec c 65536); lia.
Qed.

(** No overflow: the greatest words. *)
Lemma word_small : forall v m1 m2 m3, v < 128 -> m1 < 64 -> m2 < 64 -> m3 < 64 -> ((v * 64 + m1) * 64 + m2) * 64 + m3 < 2 ^ 25.
Proof. intros. change (2 ^ 25) with 33554432. lia. Qed.
Lemma flags_small : forall a b d t1 t2 t3, t1 < 4 -> t2 < 4 -> t3 < 4 -> flags a b d t1 t2 t3 < 512.
Proof. intros a b d t1 t2 t3 H1 H2 H3. flag_cases t1 t2 t3 a b d H1 H2 H3; reflexivity. Qed.

Lemma lead_small : forall s0, s0 < 256 -> snd (lead s0) < 128.
Proof. intros s0 H. destruct (lead_cases s0 H) as [[R L]|[[L R]|[[R L]|[[R L]|[R L]]]]]; rewrite L; cbn [snd]; lia. Qed.
Lemma decode_small : forall bytes c e rest, Forall is_byte bytes -> utf8_decode bytes = (c, e, rest) -> c < 2 ^ 25.
Proof.
  intros bytes c e rest HB HD. destruct bytes as [|s0 bytes]; [vm_compute in HD; injection HD as <- _ _; reflexivity|]. inversion HB as [|? ? H0 HR]. subst. unfold is_byte in H0.
  rewrite (utf8_decode_dec s0 bytes H0 HR) in HD. unfold dec in HD. injection HD as <- _ _.
  match goal with |- ((?v * 64 + ?m1) * 64 + ?m2) * 64 + ?m3 / _ < _ => idtac | |- (((?v * 64 + ?m1) * 64 + ?m2) * 64 + ?m3) / 2 ^ ?k < _ =>
    assert (X : ((v * 64 + m1) * 64 + m2) * 64 + m3 < 2 ^ 25) by (apply word_small; [apply lead_small; exact H0|apply N.mod_lt; discriminate..]);
    generalize dependent (((v * 64 + m1) * 64 + m2) * 64 + m3); generalize k end.
  intros k w Hw. apply N.le_lt_trans with w; [|exact Hw]. apply N.div_le_upper_bound; [apply N.pow_nonzero; discriminate|].
  assert (2 ^ k <> 0) by (apply N.pow_nonzero; discriminate). nia.
Qed.

Lemma utf8_unique : forall c bs bs', utf8 c bs -> utf8 c bs' -> bs = bs'.
Proof.
  intros c bs bs' H H'. pose proof (utf8_len _ _ H) as L. pose proof (utf8_len _ _ H') as L'. rewrite <- L in L'. apply Nat2N.inj in L'.
  destruct H as [c H|x y Hx Hy H|x y z Hx Hy Hz H1 H2|w x y z Hw Hx Hy Hz H]; inversion H'; subst; cbn [length] in L'; try discriminate; try reflexivity; repeat f_equal; lia.
Qed.

Lemma decode_error_iff : forall bytes, Forall is_byte bytes -> forall c e rest, utf8_decode bytes = (c, e, rest) -> (e <> 0 <-> malformed bytes).
Proof.
  intros bytes HB c e rest HD. split.
  - intros He. split; [intros ->; vm_compute in HD; injection HD as _ <- _; apply He; reflexivity|]. intros c' bs r HU ->. apply Forall_app in HB. destruct HB as [_ HB].
    rewrite (decode_complete c' bs r HU HB) in HD. injection HD as _ <- _. apply He. reflexivity.
  - intros [N1 N2] ->. destruct (decode_sound bytes c rest HB HD) as [(-> & _)|(bs & HU & E)]; [apply N1; reflexivity|exact (N2 c bs rest HU E)].
Qed.

(** ** Switches *)

Lemma alphabet_switch_index : forall al c k, alphabet_switch al k c = option_map (Nat.add k) (get_alphabet_index al c).
Proof.
  unfold get_alphabet_index. induction al as [|[a b] al IH]; intros c k; [reflexivity|]. cbn [alphabet_switch find_index fst snd].
  assert (E : (if a =? b then c =? a else (a <=? c) && (c <=? b)) = (a <=? c) && (c <=? b)) by (destruct (N.eqb_spec a b); lia). rewrite E.
  destruct ((a <=? c) && (c <=? b)); [cbn; rewrite Nat.add_0_r; reflexivity|]. rewrite IH. destruct (find_index _ al); cbn; [rewrite Nat.add_succ_r|]; reflexivity.
Qed.

Definition action_of (a : lex_action) : cpp_action :=
  match a with
  | ActEof => CppReturn tk_eof
  | ActMove t => CppMove t
  | ActToken r => CppAccept (tr_name r)
  | ActUnexpected => CppReturn tk_err
  end.

Lemma find_moves : forall k i l, find (fits k i) (flat_map (fun tv : nat * nat => let '(t, v) := tv in if Nat.eqb t 0 then [] else [(k, Some t, ActMove v)]) l) =
  option_map (fun tv => (k, Some (fst tv), ActMove (snd tv))) (find (fun tv => negb (Nat.eqb (fst tv) 0) && Nat.eqb (fst tv) i) l).
Proof.
  induction l as [|[t v] l IH]; [reflexivity|]. cbn [flat_map find fst]. destruct (Nat.eqb t 0) eqn:E; [exact IH|]. cbn [app find fits negb andb]. rewrite Nat.eqb_refl. cbn [andb].
  destruct (Nat.eqb t i); [reflexivity|exact IH].
Qed.

Lemma switch_select : forall d state i a, select_case (automaton_cases d) state i = Some a -> automaton_switch d state i = action_of a.
Proof.
  intros d state i a H. unfold automaton_switch. destruct (nth_error (dfa_nodes d) state) as [node|] eqn:En.
  - assert (E0 : select_case (automaton_cases d) state i = option_map snd (find (fits state i) (state_cases d state node))).
    { unfold select_case, automaton_cases. f_equal. exact (find_cases d (dfa_nodes d) 0 state i node En). }
    rewrite E0 in H. unfold state_cases in H. rewrite !find_app in H. rewrite find_moves in H. destruct (Nat.eqb state 0) eqn:E1.
    + cbn [find fits app andb] in H. rewrite Nat.eqb_refl in H. cbn [andb] in H. cbn [andb]. destruct i as [|i]; [cbn in H; injection H as <-; reflexivity|].
      cbn [Nat.eqb find] in H. cbn [Nat.eqb]. destruct (find _ (transitions_from d state)) as [[t v]|]; [cbn in H; injection H as <-; reflexivity|].
      destruct node as [r|?]; cbn in H; rewrite Nat.eqb_refl in H; cbn in H; injection H as <-; reflexivity.
    + cbn [find andb] in *. destruct (find _ (transitions_from d state)) as [[t v]|]; [cbn in H; injection H as <-; reflexivity|].
      destruct node as [r|?]; cbn in H; rewrite Nat.eqb_refl in H; cbn in H; injection H as <-; reflexivity.
  - exfalso. change (select_case (automaton_cases d) state i) with (option_map snd (find (fits state i) (automaton_cases d))) in H. destruct (find (fits state i) (automaton_cases d)) as [[[s t] x]|] eqn:Ef; [|discriminate]. apply find_some in Ef. destruct Ef as [Hin Hf].
    apply andb_prop in Hf. destruct Hf as [Hs _]. apply Nat.eqb_eq in Hs. subst s. apply nth_error_None in En. unfold automaton_cases in Hin.
    assert (G : forall nodes k0 c, In c (automaton_cases_from d k0 nodes) -> (fst (fst c) < k0 + length nodes)%nat).
    { clear. induction nodes as [|n nodes IH]; intros k0 c Hc; [destruct Hc|]. cbn [automaton_cases_from] in Hc. apply in_app_or in Hc. destruct Hc as [Hc|Hc].
      - apply state_cases_id in Hc. cbn [length]. lia.
      - apply IH in Hc. cbn [length]. lia. }
    apply G in Hin. cbn [fst] in Hin. lia.
Qed.

(** ** The loop *)

Lemma utf8_text_bytes : forall text bytes, utf8_text text bytes -> Forall is_byte bytes.
Proof. intros text bytes H. induction H as [|c bs text bytes HU _ IH]; [constructor|]. apply Forall_app. split; [exact (utf8_bytes c bs HU)|exact IH]. Qed.
Lemma utf8_nonempty : forall c bs, utf8 c bs -> (0 < length bs)%nat.
Proof. intros c bs H. destruct H; cbn; lia. Qed.
Lemma scalar_char : forall c, scalar c -> c <> no_char.
Proof. intros c H. unfold scalar in H. unfold no_char. lia. Qed.
Lemma small_char : forall c, c < 2 ^ 25 -> c <> no_char.
Proof. intros c H ->. revert H. vm_compute. discriminate. Qed.

(** The characters a C++ lexer has in front of it, before bytes [junk] which are empty or malformed. *)
Definition faces (junk : list N) (iter : list N) (ch : N) (bytes : list N) : Prop :=
  (ch = no_char /\ exists b, bytes = b ++ junk /\ utf8_text iter b) \/
  (exists text b, iter = ch :: text /\ scalar ch /\ bytes = b ++ junk /\ utf8_text text b) \/
  (iter = [] /\ junk = [] /\ ch = 0 /\ bytes = []).

(** A lexer which has seen a malformed byte. *)
Definition broken (cl : cpp_lexer) : Prop := cl_err cl <> 0 /\ cl_ch cl <> no_char.

Lemma loop_sim : forall al d junk, Forall is_byte junk -> junk = [] \/ malformed junk ->
  forall iter position state iter' position' r, lexer_loop al (automaton_cases d) iter position state = Ok (iter', position', r) ->
  forall fuel cl, (length (cl_in cl) + (if N.eqb (cl_ch cl) no_char then 0 else 1) < fuel)%nat -> cl_err cl = 0 -> faces junk iter (cl_ch cl) (cl_in cl) ->
  exists cl' tk w, cpp_loop al d fuel cl state = Ok (cl', tk) /\ iter = w ++ iter' /\ position' = position + byte_len w /\
  ((junk <> [] /\ iter' = [] /\ tk = tk_err /\ broken cl') \/
   ((junk = [] \/ iter' <> []) /\ tk = token_of r /\ cl_err cl' = 0 /\ faces junk iter' (cl_ch cl') (cl_in cl') /\ cl_position cl' = (cl_position cl + length w)%nat /\ cl_start cl' = cl_start cl /\
     cl_end cl' = match r with inl (Tk _) => cl_position cl' | _ => cl_end cl end)).
Proof.
  intros al d junk HJ HM. induction iter as [|c iter IH]; intros position state iter' position' r HL fuel cl Hf He HF; destruct fuel as [|fuel]; try lia.
  - cbn [lexer_loop] in HL. cbn [cpp_loop]. destruct (list_eq_dec N.eq_dec junk []) as [Ej|Ej].
    + (* at the end *)
      assert (X : (if cl_ch cl =? no_char then let '(c, e, rest) := utf8_decode (cl_in cl) in mkCpp rest c e (cl_position cl) (cl_start cl) (cl_end cl) else cl) = mkCpp [] 0 0 (cl_position cl) (cl_start cl) (cl_end cl)).
      { destruct HF as [(E & b & Eb & HT)|[(t & b & E & _)|(_ & _ & E & Eb)]]; [|discriminate|].
        - rewrite E, N.eqb_refl. inversion HT. subst b. rewrite Ej in Eb. cbn in Eb. rewrite Eb. reflexivity.
        - rewrite E. change (0 =? no_char) with false. destruct cl as [i ch e p s0 en]. cbn in *. subst. reflexivity. }
      rewrite X. cbn [cl_err cl_ch cl_in cl_position cl_start cl_end]. change (negb (0 =? 0)) with false. cbv iota. rewrite alphabet_switch_index.
      assert (FE : faces junk [] 0 []) by (right; right; auto).
      destruct (get_alphabet_index al 0) as [i|]; cbn [option_map].
      * rewrite Nat.add_0_l. destruct (select_case (automaton_cases d) state i) as [a|] eqn:Es; [|discriminate]. rewrite (switch_select _ _ _ _ Es). destruct a as [|t|r0|]; cbn [action_of]; cbn [bind] in HL.
        -- injection HL as <- <- <-. eexists _, _, []. split; [reflexivity|]. split; [reflexivity|]. split; [cbn; lia|]. right. split; [left; exact Ej|]. split; [reflexivity|]. split; [reflexivity|]. split; [exact FE|]. split; [cbn; lia|]. split; reflexivity.
        -- discriminate.
        -- injection HL as <- <- <-. eexists _, _, []. split; [reflexivity|]. split; [reflexivity|]. split; [cbn; lia|]. right. split; [left; exact Ej|]. split; [reflexivity|]. split; [reflexivity|]. split; [exact FE|]. split; [cbn; lia|]. split; reflexivity.
        -- destruct (get_alphabet_range al i); [|discriminate]. injection HL as <- <- <-. eexists _, _, []. split; [reflexivity|]. split; [reflexivity|]. split; [cbn; lia|]. right. split; [left; exact Ej|]. split; [reflexivity|]. split; [reflexivity|]. split; [exact FE|]. split; [cbn; lia|]. split; reflexivity.
      * injection HL as <- <- <-. eexists _, _, []. split; [reflexivity|]. split; [reflexivity|]. split; [cbn; lia|]. right. split; [left; exact Ej|]. split; [reflexivity|]. split; [reflexivity|]. split; [exact FE|]. split; [cbn; lia|]. split; reflexivity.
    + (* malformed bytes *)
      assert (HL' : iter' = [] /\ position' = position).
      { destruct (get_alphabet_index al 0) as [i|]; [|injection HL as <- <- <-; auto]. destruct (select_case (automaton_cases d) state i) as [[|t|r0|]|]; try discriminate; try (injection HL as <- <- <-; auto).
        destruct (get_alphabet_range al i); [|discriminate]. injection HL as <- <- <-; auto. }
      destruct HL' as [-> ->]. destruct HF as [(E & b & Eb & HT)|[(t & b & E & _)|(_ & X & _)]]; [|discriminate|exfalso; apply Ej; exact X]. inversion HT. subst b. cbn in Eb.
      rewrite E, N.eqb_refl, Eb. destruct (utf8_decode junk) as [[c e] rest] eqn:Ed. destruct HM as [HM|HM]; [exfalso; exact (Ej HM)|].
      pose proof (proj2 (decode_error_iff junk HJ c e rest Ed) HM) as He0. cbn [cl_err]. destruct (N.eqb_spec e 0) as [X|_]; [exfalso; exact (He0 X)|]. cbn [negb].
      eexists _, _, []. split; [reflexivity|]. split; [reflexivity|]. split; [cbn; lia|]. left. split; [exact Ej|]. split; [reflexivity|]. split; [reflexivity|]. split; [exact He0|]. cbn. apply small_char. exact (decode_small _ _ _ _ HJ Ed).
  - cbn [lexer_loop] in HL. cbn [cpp_loop].
    assert (X : exists b, (if cl_ch cl =? no_char then let '(c, e, rest) := utf8_decode (cl_in cl) in mkCpp rest c e (cl_position cl) (cl_start cl) (cl_end cl) else cl) = mkCpp (b ++ junk) c 0 (cl_position cl) (cl_start cl) (cl_end cl) /\
       scalar c /\ utf8_text iter b /\ (cl_ch cl = no_char -> length (b ++ junk) < length (cl_in cl))%nat /\ (length (b ++ junk) <= length (cl_in cl))%nat).
    { destruct HF as [(E & b & Eb & HT)|[(t & b & E & Hs & Eb & HT)|(X & _)]]; [| |discriminate].
      - rewrite E, N.eqb_refl. inversion HT as [|? bs ? bytes HU HT' A B]. subst. rewrite Eb. rewrite <- app_assoc. rewrite (decode_complete c bs (bytes ++ junk) HU).
        + exists bytes. split; [reflexivity|]. split; [exact (utf8_scalar c bs HU)|]. split; [exact HT'|]. rewrite !app_length. pose proof (utf8_nonempty c bs HU). split; lia.
        + apply Forall_app. split; [exact (utf8_text_bytes _ _ HT')|exact HJ].
      - injection E as E1 E2. subst t. pose proof (scalar_char _ Hs) as Nc. apply N.eqb_neq in Nc. rewrite Nc. exists b. split; [destruct cl as [i ch e p s0 en]; cbn in *; subst; reflexivity|].
        split; [rewrite E1; exact Hs|]. split; [exact HT|]. rewrite Eb. split; [intros Y; apply N.eqb_neq in Nc; contradiction|lia]. }
    destruct X as (b & X & Hs & HT & Hlt & Hle). rewrite X. cbn [cl_err cl_ch cl_in cl_position cl_start cl_end]. change (negb (0 =? 0)) with false. cbv iota. rewrite alphabet_switch_index.
    assert (FE : faces junk (c :: iter) c (b ++ junk)) by (right; left; exists iter, b; auto).
    destruct (get_alphabet_index al c) as [i|]; cbn [option_map].
    * rewrite Nat.add_0_l. destruct (select_case (automaton_cases d) state i) as [a|] eqn:Es; [|discriminate]. rewrite (switch_select _ _ _ _ Es). destruct a as [|t|r0|]; cbn [action_of].
      -- injection HL as <- <- <-. eexists _, _, []. split; [reflexivity|]. split; [reflexivity|]. split; [cbn; lia|]. right. split; [right; discriminate|]. split; [reflexivity|]. split; [reflexivity|]. split; [exact FE|]. split; [cbn; lia|]. split; reflexivity.
      -- destruct (IH _ _ _ _ _ HL fuel (mkCpp (b ++ junk) no_char 0 (S (cl_position cl)) (cl_start cl) (cl_end cl))) as (cl' & tk & w & R1 & R2 & R3 & R4).
         { cbn [cl_in cl_ch]. rewrite N.eqb_refl. destruct (N.eqb_spec (cl_ch cl) no_char) as [Y|Y]; [specialize (Hlt Y)|]; lia. }
         { reflexivity. }
         { left. split; [reflexivity|]. exists b. auto. }
         exists cl', tk, (c :: w). split; [exact R1|]. split; [rewrite R2; reflexivity|]. split; [rewrite R3; change (byte_len (c :: w)) with (len_utf8 c + byte_len w); lia|].
         destruct R4 as [R4|(S1 & S2 & S3 & S4 & S5 & S6 & S7)]; [left; exact R4|]. right. split; [exact S1|]. split; [exact S2|]. split; [exact S3|]. split; [exact S4|]. split; [rewrite S5; cbn; lia|]. split; [exact S6|exact S7].
      -- injection HL as <- <- <-. eexists _, _, []. split; [reflexivity|]. split; [reflexivity|]. split; [cbn; lia|]. right. split; [right; discriminate|]. split; [reflexivity|]. split; [reflexivity|]. split; [exact FE|]. split; [cbn; lia|]. split; reflexivity.
      -- destruct (get_alphabet_range al i); [|discriminate]. injection HL as <- <- <-. eexists _, _, []. split; [reflexivity|]. split; [reflexivity|]. split; [cbn; lia|]. right. split; [right; discriminate|]. split; [reflexivity|]. split; [reflexivity|]. split; [exact FE|]. split; [cbn; lia|]. split; reflexivity.
    * injection HL as <- <- <-. eexists _, _, []. split; [reflexivity|]. split; [reflexivity|]. split; [cbn; lia|]. right. split; [right; discriminate|]. split; [reflexivity|]. split; [reflexivity|]. split; [exact FE|]. split; [cbn; lia|]. split; reflexivity.
Qed.

Lemma broken_next : forall al d cl, broken cl -> exists cl', cpp_next al d cl = Ok (cl', tk_err) /\ broken cl'.
Proof.
  intros al d cl [H1 H2]. unfold cpp_next. cbn [cpp_loop cl_ch cl_err]. apply N.eqb_neq in H2. rewrite H2. cbn [cl_err]. destruct (N.eqb_spec (cl_err cl) 0) as [X|_]; [contradiction|].
  cbn [negb]. eexists. split; [reflexivity|]. split; [exact H1|]. cbn. apply N.eqb_neq. exact H2.
Qed.

Lemma loop_suffix : forall al cases iter position state iter' position' r, lexer_loop al cases iter position state = Ok (iter', position', r) -> exists w, iter = w ++ iter'.
Proof.
  intros al cases. induction iter as [|c iter IH]; intros position state iter' position' r H; cbn [lexer_loop] in H.
  - destruct (get_alphabet_index al 0) as [i|]; [|injection H as <- <- <-; exists []; reflexivity]. destruct (select_case cases state i) as [[|t|r0|]|]; try discriminate; try (injection H as <- <- <-; exists []; reflexivity).
    destruct (get_alphabet_range al i); [|discriminate]. injection H as <- <- <-; exists []; reflexivity.
  - destruct (get_alphabet_index al c) as [i|]; [|injection H as <- <- <-; exists []; reflexivity]. destruct (select_case cases state i) as [[|t|r0|]|]; try discriminate; try (injection H as <- <- <-; exists []; reflexivity).
    + destruct (IH _ _ _ _ _ H) as [w ->]. exists (c :: w). reflexivity.
    + destruct (get_alphabet_range al i); [|discriminate]. injection H as <- <- <-; exists []; reflexivity.
Qed.

Lemma run_broken : forall al d text junk, junk <> [] -> forall n lx cl rs, broken cl -> lx_iter lx = [] -> lexer_run al d n lx = Ok rs ->
  exists cs, cpp_run al d n cl = Ok cs /\ Forall2 (agree text junk) rs cs.
Proof.
  intros al d text junk HJ. induction n as [|n IH]; intros lx cl rs HB HI HR; cbn [lexer_run cpp_run] in *; [injection HR as <-; exists []; split; [reflexivity|constructor]|].
  apply bind_Ok in HR. destruct HR as ([lx' r] & H1 & H2). apply bind_Ok in H2. destruct H2 as (rs' & H2 & H3). injection H3 as <-. destruct (broken_next al d cl HB) as (cl' & E & HB'). rewrite E. cbn [bind].
  assert (HI' : lx_iter lx' = []).
  { unfold lexer_next in H1. apply bind_Ok in H1. destruct H1 as ([[i p] r'] & H1 & H4). injection H4 as <- <-. cbn. rewrite HI in H1. apply loop_suffix in H1. destruct H1 as [w H1]. symmetry in H1. apply app_eq_nil in H1. exact (proj2 H1). }
  destruct (IH lx' cl' rs' HB' HI' H2) as (cs & E2 & F). rewrite E2. cbn [bind]. eexists. split; [reflexivity|]. constructor; [|exact F]. split; cbn [fst snd]; [|reflexivity].
  intros [X|X]; contradiction.
Qed.

Lemma run_sim : forall al d text junk, Forall is_byte junk -> junk = [] \/ malformed junk ->
  forall n lx cl rs p, lexer_run al d n lx = Ok rs -> cl_err cl = 0 -> faces junk (lx_iter lx) (cl_ch cl) (cl_in cl) -> text = p ++ lx_iter lx -> lx_position lx = byte_len p -> cl_position cl = length p ->
  exists cs, cpp_run al d n cl = Ok cs /\ Forall2 (agree text junk) rs cs.
Proof.
  intros al d text junk HJ HM. induction n as [|n IH]; intros lx cl rs p HR He HF HT HP HC; cbn [lexer_run cpp_run] in *; [injection HR as <-; exists []; split; [reflexivity|constructor]|].
  apply bind_Ok in HR. destruct HR as ([lx' r] & H1 & H2). apply bind_Ok in H2. destruct H2 as (rs' & H2 & H3). injection H3 as <-.
  unfold lexer_next in H1. apply bind_Ok in H1. destruct H1 as ([[iter' pos'] r'] & H1 & H4). injection H4 as <- <-.
  destruct (loop_sim al d junk HJ HM _ _ _ _ _ _ H1 (S (S (length (cl_in cl)))) (mkCpp (cl_in cl) (cl_ch cl) (cl_err cl) (cl_position cl) (cl_position cl) (cl_end cl))) as (cl' & tk & w & R1 & R2 & R3 & R4).
  { cbn [cl_in cl_ch]. destruct (cl_ch cl =? no_char); lia. }
  { exact He. }
  { exact HF. }
  unfold cpp_next. rewrite R1. cbn [bind]. destruct R4 as [(A1 & A2 & A3 & A4)|(A1 & A2 & A3 & A4 & A5 & A6 & A7)].
  - destruct (run_broken al d text junk A1 n (mkLexer (lx_src lx) iter' (lx_position lx) pos') cl' rs' A4 A2 H2) as (cs & E & F). rewrite E. cbn [bind]. eexists. split; [reflexivity|]. constructor; [|exact F].
    split; cbn [fst snd lx_iter]; [|intros _; exact A3]. intros [X|X]; contradiction.
  - destruct (IH _ cl' rs' (p ++ w) H2 A3 A4) as (cs & E & F).
    + cbn [lx_iter]. rewrite HT, R2. apply app_assoc.
    + cbn [lx_position]. rewrite R3, HP. symmetry. apply byte_len_app.
    + rewrite A5, app_length. cbn [cl_position]. lia.
    + rewrite E. cbn [bind]. eexists. split; [reflexivity|]. constructor; [|exact F]. split; cbn [fst snd lx_iter].
      * intros _. split; [exact A2|]. exists p, w. split; [rewrite HT, R2; reflexivity|]. split; [unfold lexer_span; cbn; rewrite R3, HP, byte_len_app; reflexivity|].
        split; [rewrite A6; exact HC|]. intros t ->. rewrite A7, A5, app_length. cbn [cl_position]. lia.
      * intros [X Y]. destruct A1; contradiction.
Qed.

Lemma faces_start : forall text bytes junk, utf8_text text bytes -> faces junk text no_char (bytes ++ junk).
Proof. intros text bytes junk H. left. split; [reflexivity|]. exists bytes. auto. Qed.

Lemma utf8_text_chars : forall text bytes, utf8_text text bytes -> Forall valid_char text.
Proof.
  intros text bytes H. induction H as [|c bs text bytes HU _ IH]; constructor; [|exact IH]. apply utf8_scalar in HU. unfold valid_char, CHAR_MAX. unfold scalar in HU. lia.
Qed.

Lemma lexers_agree : forall fuel rules al d, valid_rules rules -> no_empty_sequence rules -> generate_lexer fuel rules = Ok (al, d) ->
  forall text bytes junk, utf8_text text bytes -> Forall is_byte junk -> junk = [] \/ malformed junk -> forall n,
  exists rs cs, lexer_run al d n (lexer_new text) = Ok rs /\ cpp_run al d n (cpp_new (bytes ++ junk)) = Ok cs /\ Forall2 (agree text junk) rs cs.
Proof.
  intros fuel rules al d HV HN HG text bytes junk HU HJ HM n. destruct (spans_ok fuel rules al d HV HN HG text n (utf8_text_chars _ _ HU)) as (rs & _ & HR & _).
  destruct (run_sim al d text junk HJ HM n (lexer_new text) (cpp_new (bytes ++ junk)) rs [] HR eq_refl (faces_start _ _ _ HU) eq_refl eq_refl eq_refl) as (cs & HC & F).
  exists rs, cs. auto.
Qed.

(** ** Token names *)

Lemma enumerator_inj : forall a b, enumerator a = enumerator b -> a = b.
Proof. unfold enumerator. cbn. intros a b H. injection H as ->. reflexivity. Qed.

Lemma enumerators_distinct : forall names, NoDup (enumerators names) <-> NoDup names /\ ~ In "ERR"%string names /\ ~ In "EOF"%string names.
Proof.
  intros names. unfold enumerators. assert (I : forall x, In (enumerator x) (map enumerator names) <-> In x names).
  { intros x. rewrite in_map_iff. split; [intros (y & E & H); apply enumerator_inj in E; subst; exact H|intros H; exists x; auto]. }
  split.
  - intros H. inversion H as [|? ? H1 H2]. subst. inversion H2 as [|? ? H3 H4]. subst. split; [exact (NoDup_map_inv _ _ H4)|]. split; intros X.
    + apply H1. right. apply I. exact X.
    + apply H3. apply I. exact X.
  - intros (H & H1 & H2). constructor; [intros [X|X]; [discriminate|apply I in X; exact (H1 X)]|]. constructor; [intros X; apply I in X; exact (H2 X)|].
    clear H1 H2 I. induction H as [|x l H _ IH]; [constructor|]. cbn [map]. constructor; [|exact IH]. rewrite in_map_iff. intros (y & E & Hy). apply enumerator_inj in E. subst. exact (H Hy).
Qed.

Lemma token_names_ok : forall names, NoDup (enumerators names) ->
  get_token_name names tk_err = Some "<ERR>"%string /\ get_token_name names tk_eof = Some "<EOF>"%string /\
  forall name, In name names -> get_token_name names (enumerator name) = Some name.
Proof.
  intros names H. apply enumerators_distinct in H. destruct H as (_ & H1 & H2). split; [reflexivity|]. split; [reflexivity|]. intros name Hn. unfold get_token_name.
  destruct (String.eqb_spec (enumerator name) tk_err) as [X|_]; [apply enumerator_inj in X; subst; contradiction|].
  destruct (String.eqb_spec (enumerator name) tk_eof) as [X|_]; [apply enumerator_inj in X; subst; contradiction|].
  destruct (find _ names) as [x|] eqn:E.
  - apply find_some in E. destruct E as [_ E]. apply String.eqb_eq in E. apply enumerator_inj in E. subst. reflexivity.
  - exfalso. pose proof (find_none _ _ E name Hn) as X. cbv beta in X. rewrite String.eqb_refl in X. discriminate.
Qed.

Lemma encodings_exist : forall c, (scalar c -> exists! bs, utf8 c bs) /\ forall bs, utf8 c bs -> scalar c /\ Forall is_byte bs /\ N.of_nat (length bs) = len_utf8 c.
Proof.
  intros c. split.
  - intros H. destruct (utf8_exists c H) as [bs HU]. exists bs. split; [exact HU|]. intros bs' HU'. exact (utf8_unique c bs bs' HU HU').
  - intros bs H. split; [exact (utf8_scalar _ _ H)|]. split; [exact (utf8_bytes _ _ H)|exact (utf8_len _ _ H)].
Qed.

(** Texts between quotes. *)
Definition quoted_rules : list token_rule :=
  [mkTokenRule "QUOTED" None (TPattern (PSeq [PChar (Single 34); PRep 0 None (PSet [Single 34] true); PChar (Single 34)]))].
