(** Proofs about the text of [utf8_decode]: the steps that the text has, and that running them is the function of CppLexerModel.v. *)
From Coq Require Import String List Arith NArith ZArith Bool Lia.
From Verif Require Import Base InputModel LexerModel CppLexerModel CppLexerSpec TemplateModel TemplateFiles CppTextModel CppTextSpec CppTextProof CppLexTextSpec CppLexTextProof CppLexerProof CppBitsSpec.
Import ListNotations.
Local Open Scope string_scope.
Local Open Scope list_scope.

(** ** Operators on small numbers *)

Definition tiny (n : N) : Prop := (n < 2 ^ 30)%N.
Definition wide (t : ity) : Prop := t = I32 \/ t = U32.
Lemma wrap_tiny : forall t n, wide t -> tiny n -> wrap t (Z.of_N n) = Z.of_N n.
Proof. unfold tiny. intros t n [->| ->] L; unfold wrap; [rewrite Z.mod_small; lia|rewrite Z.mod_small; lia]. Qed.
Lemma of_land : forall a b, Z.land (Z.of_N a) (Z.of_N b) = Z.of_N (N.land a b).
Proof. intros [|a] [|b]; reflexivity. Qed.
Lemma of_lor : forall a b, Z.lor (Z.of_N a) (Z.of_N b) = Z.of_N (N.lor a b).
Proof. intros [|a] [|b]; reflexivity. Qed.
Lemma of_lxor : forall a b, Z.lxor (Z.of_N a) (Z.of_N b) = Z.of_N (N.lxor a b).
Proof. intros [|a] [|b]; reflexivity. Qed.
Lemma of_shiftl : forall a b, Z.shiftl (Z.of_N a) (Z.of_N b) = Z.of_N (N.shiftl a b).
Proof. intros a b. rewrite Z.shiftl_mul_pow2 by lia. rewrite N.shiftl_mul_pow2. rewrite N2Z.inj_mul, N2Z.inj_pow. reflexivity. Qed.
Lemma of_shiftr : forall a b, Z.shiftr (Z.of_N a) (Z.of_N b) = Z.of_N (N.shiftr a b).
Proof. intros a b. rewrite Z.shiftr_div_pow2 by lia. rewrite N.shiftr_div_pow2. rewrite N2Z.inj_div, N2Z.inj_pow. reflexivity. Qed.
Lemma below_bits : forall k n, (n < 2 ^ k)%N <-> forall i, (k <= i)%N -> N.testbit n i = false.
Proof.
  intros k n. split.
  - intros L i K. destruct (N.eq_dec n 0) as [->|Z]; [apply N.bits_0|]. apply N.bits_above_log2. apply N.log2_lt_pow2 in L; lia.
  - intros H. destruct (N.eq_dec n 0) as [->|Z]; [apply N.neq_0_lt_0; apply N.pow_nonzero; lia|]. apply N.log2_lt_pow2; [lia|]. destruct (N.lt_ge_cases (N.log2 n) k) as [L|L]; [exact L|]. apply H in L. rewrite N.bit_log2 in L by exact Z. discriminate.
Qed.
Lemma lor_below : forall k a b, (a < 2 ^ k -> b < 2 ^ k -> N.lor a b < 2 ^ k)%N.
Proof. intros k a b A B. rewrite below_bits in *. intros i L. rewrite N.lor_spec, (A i L), (B i L). reflexivity. Qed.
Lemma lxor_below : forall k a b, (a < 2 ^ k -> b < 2 ^ k -> N.lxor a b < 2 ^ k)%N.
Proof. intros k a b A B. rewrite below_bits in *. intros i L. rewrite N.lxor_spec, (A i L), (B i L). reflexivity. Qed.
Lemma land_below : forall k a b, (a < 2 ^ k -> N.land a b < 2 ^ k)%N.
Proof. intros k a b A. rewrite below_bits in *. intros i L. rewrite N.land_spec, (A i L). reflexivity. Qed.
Lemma shiftr_below : forall k a b, (a < 2 ^ k -> N.shiftr a b < 2 ^ k)%N.
Proof. intros k a b A. rewrite below_bits in *. intros i L. rewrite N.shiftr_spec by lia. apply A. lia. Qed.
Lemma shiftl_below : forall k j a, (a < 2 ^ k -> N.shiftl a j < 2 ^ (k + j))%N.
Proof. intros k j a A. rewrite N.shiftl_mul_pow2, N.pow_add_r. apply N.mul_lt_mono_pos_r; [apply N.neq_0_lt_0; apply N.pow_nonzero; lia|exact A]. Qed.
Lemma below_tiny : forall k n, (k <= 30 -> n < 2 ^ k -> tiny n)%N.
Proof. intros k n K L. unfold tiny. eapply N.lt_le_trans; [exact L|]. apply N.pow_le_mono_r; lia. Qed.

Lemma computed_tiny : forall t n, wide t -> tiny n -> computed t (Z.of_N n) = Some (WInt t (Z.of_N n)).
Proof.
  intros t n W L. pose proof (wrap_tiny t n W L) as E. unfold computed, in_range. rewrite E, Z.eqb_refl. destruct (unsigned t); reflexivity.
Qed.
Lemma common_wide : forall s t, (s = U8 \/ wide s) -> (t = U8 \/ wide t) -> wide (common s t).
Proof. unfold wide. intros s t [->|[->| ->]] [->|[->| ->]]; cbn; auto. Qed.
Section Operators.
Variables (s t : ity) (a b : N).
Hypothesis hs : s = U8 \/ wide s.
Hypothesis ht : t = U8 \/ wide t.
Hypothesis ha : tiny a.
Hypothesis hb : tiny b.
Lemma op_and : arithmetic BAnd s (Z.of_N a) t (Z.of_N b) = Some (WInt (common s t) (Z.of_N (N.land a b))).
Proof. pose proof (common_wide s t hs ht) as W. unfold arithmetic. rewrite !wrap_tiny by assumption. rewrite of_land. apply computed_tiny; [exact W|apply land_below; exact ha]. Qed.
Lemma op_or : arithmetic BOr s (Z.of_N a) t (Z.of_N b) = Some (WInt (common s t) (Z.of_N (N.lor a b))).
Proof. pose proof (common_wide s t hs ht) as W. unfold arithmetic. rewrite !wrap_tiny by assumption. rewrite of_lor. apply computed_tiny; [exact W|apply lor_below; assumption]. Qed.
Lemma op_xor : arithmetic BXor s (Z.of_N a) t (Z.of_N b) = Some (WInt (common s t) (Z.of_N (N.lxor a b))).
Proof. pose proof (common_wide s t hs ht) as W. unfold arithmetic. rewrite !wrap_tiny by assumption. rewrite of_lxor. apply computed_tiny; [exact W|apply lxor_below; assumption]. Qed.
Lemma op_less : arithmetic BLess s (Z.of_N a) t (Z.of_N b) = Some (WInt Bool (Z.of_N (c_bool (a <? b)%N))).
Proof.
  pose proof (common_wide s t hs ht) as W. unfold arithmetic. rewrite !wrap_tiny by assumption. replace (Z.of_N a <? Z.of_N b)%Z with (a <? b)%N; [destruct (a <? b)%N; reflexivity|]. apply eq_true_iff_eq. rewrite N.ltb_lt, Z.ltb_lt. lia.
Qed.
Lemma op_greater : arithmetic BGreater s (Z.of_N a) t (Z.of_N b) = Some (WInt Bool (Z.of_N (c_bool (b <? a)%N))).
Proof.
  pose proof (common_wide s t hs ht) as W. unfold arithmetic. rewrite !wrap_tiny by assumption. replace (Z.of_N b <? Z.of_N a)%Z with (b <? a)%N; [destruct (b <? a)%N; reflexivity|]. apply eq_true_iff_eq. rewrite N.ltb_lt, Z.ltb_lt. lia.
Qed.
Lemma op_equal : arithmetic BEqual s (Z.of_N a) t (Z.of_N b) = Some (WInt Bool (Z.of_N (c_bool (a =? b)%N))).
Proof.
  pose proof (common_wide s t hs ht) as W. unfold arithmetic. rewrite !wrap_tiny by assumption. replace (Z.of_N a =? Z.of_N b)%Z with (a =? b)%N; [destruct (a =? b)%N; reflexivity|]. apply eq_true_iff_eq. rewrite N.eqb_eq, Z.eqb_eq. lia.
Qed.
End Operators.
Lemma op_left : forall s a t b, wide (promoted s) -> (b < 32)%N -> tiny (N.shiftl a b) -> arithmetic BLeft s (Z.of_N a) t (Z.of_N b) = Some (WInt (promoted s) (Z.of_N (N.shiftl a b))).
Proof.
  intros s a t b W B T. unfold arithmetic. replace ((Z.of_N b <? 0) || (width (promoted s) <=? Z.of_N b) || (Z.of_N a <? 0))%Z with false; [rewrite of_shiftl; apply computed_tiny; assumption|].
  symmetry. apply orb_false_iff. split; [apply orb_false_iff; split|]; [apply Z.ltb_ge; lia| |apply Z.ltb_ge; lia]. apply Z.leb_gt. destruct W as [-> | ->]; cbn [width]; lia.
Qed.
Lemma op_right : forall s a t b, wide (promoted s) -> (b < 32)%N -> tiny a -> arithmetic BRight s (Z.of_N a) t (Z.of_N b) = Some (WInt (promoted s) (Z.of_N (N.shiftr a b))).
Proof.
  intros s a t b W B T. unfold arithmetic. replace ((Z.of_N b <? 0) || (width (promoted s) <=? Z.of_N b) || (Z.of_N a <? 0))%Z with false; [rewrite of_shiftr; apply computed_tiny; [exact W|apply shiftr_below; exact T]|].
  symmetry. apply orb_false_iff. split; [apply orb_false_iff; split|]; [apply Z.ltb_ge; lia| |apply Z.ltb_ge; lia]. apply Z.leb_gt. destruct W as [-> | ->]; cbn [width]; lia.
Qed.
Lemma byte_back : forall n, (n < 256)%N -> wrap U8 (wrap I8 (Z.of_N n)) = Z.of_N n.
Proof.
  intros n L. unfold wrap. destruct (Z.lt_ge_cases (Z.of_N n) 128).
  - rewrite (Z.mod_small (Z.of_N n + 128)) by lia. rewrite Z.mod_small by lia. lia.
  - replace ((Z.of_N n + 128) mod 256)%Z with (Z.of_N n - 128)%Z by (apply Zmod_unique with 1%Z; lia). replace (Z.of_N n - 128 - 128)%Z with (Z.of_N n + (-1) * 256)%Z by lia. rewrite Z.mod_add by lia. apply Z.mod_small. lia.
Qed.

(** ** The text *)

Definition decode_tokens : list tok := Eval vm_compute in match tokens decode_head with Some l => l | None => [] end.
Definition decode_rest : list tok := Eval vm_compute in match behind (decode_tokens ++ [Mark LBrace]) front_tokens with Some l => l | None => [] end.
Definition decode_steps : list bstmt := Eval vm_compute in match parse_steps 60 decode_rest with Some (l, _) => l | None => [] end.
Definition decode_behind : list tok := Eval vm_compute in match parse_steps 60 decode_rest with Some (_, r) => r | None => [] end.
Lemma decode_parses : forall more, eventually (fun fuel => exists r', parse_steps fuel (decode_rest ++ more) = Some (decode_steps, r')).
Proof. intros more. exists 60. intros fuel L. replace fuel with (60 + (fuel - 60)) by lia. generalize (fuel - 60). intros n. eexists. cbn. reflexivity. Qed.
Lemma decode_text : forall debug al d, (forall node, In node (dfa_nodes d) -> writable_node debug node) -> has_steps (lexer_cpp_text debug al d) decode_head decode_steps.
Proof.
  intros debug al d W. eexists. exists decode_tokens. eexists. split; [apply lexer_tokens; exact W|]. split; [vm_compute; reflexivity|]. split; [apply behind_app with (r := decode_rest); vm_compute; reflexivity|]. apply decode_parses.
Qed.
Lemma steps_once : forall t h l l', has_steps t h l -> has_steps t h l' -> l = l'.
Proof.
  intros t h l l' (ts & hs & r & T & H & B & n & F) (ts' & hs' & r' & T' & H' & B' & n' & F'). rewrite T in T'. injection T' as <-. rewrite H in H'. injection H' as <-. rewrite B in B'. injection B' as <-.
  destruct (F (n + n')) as (x & E); [lia|]. destruct (F' (n + n')) as (x' & E'); [lia|]. rewrite E in E'. congruence.
Qed.

(** ** The accessors *)

Definition start_header : list tok := [Word "size_t"; Word "Lexer"; Mark Scope; Word "start"; Mark LParen; Mark RParen].
Definition end_header : list tok := [Word "size_t"; Word "Lexer"; Mark Scope; Word "end"; Mark LParen; Mark RParen].
Definition start_rest : list tok := Eval vm_compute in match behind start_header front_tokens with Some l => l | None => [] end.
Definition end_rest : list tok := Eval vm_compute in match behind end_header front_tokens with Some l => l | None => [] end.
Definition getter (m : string) : stmt := SBlock (IStmt (SReturn (Some (EArrow EThis m))) INil).
Lemma accessors_text : forall debug al d, (forall node, In node (dfa_nodes d) -> writable_node debug node) ->
  defines (lexer_cpp_text debug al d) (chars "size_t Lexer::start()") (getter "start_pos") /\ defines (lexer_cpp_text debug al d) (chars "size_t Lexer::end()") (getter "end_pos").
Proof.
  intros debug al d W. split.
  - eexists. exists start_header. eexists. split; [apply lexer_tokens; exact W|]. split; [reflexivity|]. split; [apply behind_app with (r := start_rest); vm_compute; reflexivity|].
    exists 20. intros fuel L. replace fuel with (20 + (fuel - 20)) by lia. generalize (fuel - 20). intros n. eexists. reflexivity.
  - eexists. exists end_header. eexists. split; [apply lexer_tokens; exact W|]. split; [reflexivity|]. split; [apply behind_app with (r := end_rest); vm_compute; reflexivity|].
    exists 20. intros fuel L. replace fuel with (20 + (fuel - 20)) by lia. generalize (fuel - 20). intros n. eexists. reflexivity.
Qed.

(** ** The run *)

Definition signed (n : N) : Z := wrap I8 (Z.of_N n).
Definition lengths_z : list Z := Eval vm_compute in map Z.of_N lengths.
Definition masks_z : list Z := Eval vm_compute in map Z.of_N masks.
Definition mins_z : list Z := Eval vm_compute in map Z.of_N mins.
Definition shiftc_z : list Z := Eval vm_compute in map Z.of_N shiftc.
Definition shifte_z : list Z := Eval vm_compute in map Z.of_N shifte.
Definition frame (s0 s1 s2 s3 : N) (front : memory) (rest : list N) (ch err : Z) : memory :=
  front ++ ("buf", OArray I8 [signed s0; signed s1; signed s2; signed s3]) :: ("shifte", OArray I32 shifte_z) :: ("shiftc", OArray I32 shiftc_z) :: ("mins", OArray U32 mins_z) ::
  ("masks", OArray I32 masks_z) :: ("lengths", OArray I8 lengths_z) :: decode_memory rest ch err.
Definition whole (s0 s1 s2 s3 : N) (len : Z) (rest : list N) (ch err : Z) : memory := frame s0 s1 s2 s3 [("len", OArray I32 [len]); ("s", OPointer U8 "buf" 0)]%Z rest ch err.

Local Arguments wrap : simpl never.
Local Arguments arithmetic : simpl never.
Local Arguments Z.of_N : simpl never.
Local Arguments N.land : simpl never.
Local Arguments N.lor : simpl never.
Local Arguments N.lxor : simpl never.
Local Arguments N.shiftl : simpl never.
Local Arguments N.shiftr : simpl never.

Section Run.
Variables (s0 s1 s2 s3 : N) (rest : list N).
Hypothesis b0 : (s0 < 256)%N.
Hypothesis b1 : (s1 < 256)%N.
Hypothesis b2 : (s2 < 256)%N.
Hypothesis b3 : (s3 < 256)%N.
Variables (len : Z) (mask min shc she : N).
Hypothesis hm : cell masks_z len = Some (Z.of_N mask).
Hypothesis hn : cell mins_z len = Some (Z.of_N min).
Hypothesis hc : cell shiftc_z len = Some (Z.of_N shc).
Hypothesis he : cell shifte_z len = Some (Z.of_N she).
Hypothesis sm : (mask < 128)%N.
Hypothesis sn : (min < 2 ^ 23)%N.
Hypothesis sc : (shc < 32)%N.
Hypothesis se : (she < 32)%N.
Notation mem := (whole s0 s1 s2 s3 len rest).
Lemma at_s : forall i si c e, nth_error [s0; s1; s2; s3] i = Some si -> value_of (mem c e) (BIndex (BVar "s") (BNum (Z.of_nat i))) = Some (WInt U8 (Z.of_N si)).
Proof.
  intros i si c e H. do 4 (destruct i as [|i]; [injection H as <-; cbn -[wrap in_range]; match goal with |- context[in_range I32 ?n] => change (in_range I32 n) with true end; cbn -[wrap]; try change (Pos.to_nat 1) with 1; try change (Pos.to_nat 2) with 2; try change (Pos.to_nat 3) with 3; cbn [nth_error]; unfold signed; rewrite byte_back by assumption; reflexivity|]). destruct i; discriminate.
Qed.
Lemma at_num : forall m n, tiny n -> value_of m (BNum (Z.of_N n)) = Some (WInt I32 (Z.of_N n)).
Proof. intros m n L. cbn -[in_range]. unfold in_range. rewrite wrap_tiny by (try exact L; left; reflexivity). rewrite Z.eqb_refl. reflexivity. Qed.
Lemma table : forall x t l k c e, find_name x (mem c e) = Some (OArray t l) -> (match l with [_] => False | _ => True end) -> sees t t = true -> wide t -> cell l len = Some (Z.of_N k) -> tiny k ->
  value_of (mem c e) (BIndex (BVar x) (BVar "len")) = Some (WInt t (Z.of_N k)).
Proof.
  intros x t l k c e F L S W C K. change (value_of (mem c e) (BIndex (BVar x) (BVar "len"))) with
    (match value_of (mem c e) (BVar x), value_of (mem c e) (BVar "len") with Some (WPointer t x k), Some (WInt _ j) => load (mem c e) t x (k + j)%Z | _, _ => None end).
  assert (V : value_of (mem c e) (BVar x) = Some (WPointer t x 0)) by (cbn [value_of]; rewrite F; destruct l as [|? [|]]; [reflexivity|destruct L|reflexivity]).
  rewrite V. change (value_of (mem c e) (BVar "len")) with (Some (WInt I32 len)). cbn beta iota. unfold load. rewrite F, S. change (0 + len)%Z with len. rewrite C. rewrite wrap_tiny by assumption. reflexivity.
Qed.
Lemma at_c : forall c e, tiny c -> value_of (mem (Z.of_N c) e) (BAt (BVar "c")) = Some (WInt U32 (Z.of_N c)).
Proof. intros c e L. cbn -[wrap]. rewrite wrap_tiny by (try exact L; right; reflexivity). reflexivity. Qed.
Lemma at_e : forall c e, tiny e -> value_of (mem c (Z.of_N e)) (BAt (BVar "e")) = Some (WInt I32 (Z.of_N e)).
Proof. intros c e L. cbn -[wrap]. rewrite wrap_tiny by (try exact L; left; reflexivity). reflexivity. Qed.
Lemma set_c : forall c e z, tiny z -> written (mem c e) (BAt (BVar "c")) (Z.of_N z) = Some (mem (Z.of_N z) e).
Proof. intros c e z L. cbn -[wrap]. rewrite wrap_tiny by (try exact L; right; reflexivity). reflexivity. Qed.
Lemma set_e : forall c e z, tiny z -> written (mem c e) (BAt (BVar "e")) (Z.of_N z) = Some (mem c (Z.of_N z)).
Proof. intros c e z L. cbn -[wrap]. rewrite wrap_tiny by (try exact L; left; reflexivity). reflexivity. Qed.
Lemma bin : forall m o a b s x t y r, value_of m a = Some (WInt s x) -> value_of m b = Some (WInt t y) -> arithmetic o s x t y = Some r -> value_of m (BBin o a b) = Some r.
Proof. intros m o a b s x t y r A B R. cbn [value_of]. rewrite A, B. exact R. Qed.
Lemma cast : forall m e s n t, value_of m e = Some (WInt s (Z.of_N n)) -> wide t -> tiny n -> value_of m (BCast t e) = Some (WInt t (Z.of_N n)).
Proof. intros m e s n t E W T. cbn [value_of]. rewrite E. rewrite wrap_tiny by assumption. reflexivity. Qed.
Lemma sets : forall m a e t z m' l m'', value_of m e = Some (WInt t z) -> written m a z = Some m' -> steps m' l = m'' -> steps m (BSet a e :: l) = m''.
Proof. intros m a e t z m' l m'' E W L. cbn [steps step]. rewrite E, W. exact L. Qed.
Lemma updates : forall m o a e s x t y u z m' l m'', value_of m a = Some (WInt s x) -> value_of m e = Some (WInt t y) -> arithmetic o s x t y = Some (WInt u z) -> written m a z = Some m' -> steps m' l = m'' -> steps m (BUpdate o a e :: l) = m''.
Proof. intros m o a e s x t y u z m' l m'' A E R W L. cbn [steps step]. rewrite A, E. cbn [binary]. rewrite R, W. exact L. Qed.

Definition late : list bstmt := Eval vm_compute in skipn 10 decode_steps.
Lemma u8 : U8 = U8 \/ wide U8. Proof. left. reflexivity. Qed.
Lemma i32 : I32 = U8 \/ wide I32. Proof. right. left. reflexivity. Qed.
Lemma u32 : U32 = U8 \/ wide U32. Proof. right. right. reflexivity. Qed.
Lemma bool_below : forall b, (c_bool b < 2 ^ 1)%N. Proof. intros [|]; reflexivity. Qed.
Ltac below := first [assumption|reflexivity|apply lor_below; below|apply lxor_below; below|apply land_below; below|apply shiftr_below; below|eapply N.lt_le_trans; [eassumption|discriminate]].
Lemma s_tiny : forall n, (n < 256)%N -> tiny n. Proof. intros n L. apply (below_tiny 8); [discriminate|exact L]. Qed.
Definition word : N := (N.shiftr (N.lor (N.lor (N.lor (N.shiftl (N.land s0 mask) 18) (N.shiftl (N.land s1 63) 12)) (N.shiftl (N.land s2 63) 6)) (N.shiftl (N.land s3 63) 0)) shc)%N.
Definition flags : N :=
  (N.shiftr (N.lxor (N.lor (N.lor (N.lor (N.lor (N.lor (N.shiftl (c_bool (word <? min)) 6) (N.shiftl (c_bool (N.shiftr word 11 =? 27)) 7)) (N.shiftl (c_bool (1114111 <? word)) 8))
    (N.shiftr (N.land s1 192) 2)) (N.shiftr (N.land s2 192) 4)) (N.shiftr s3 6)) 42) she)%N.
Lemma part : forall n k j, (N.land n k < 2 ^ 7 -> j <= 18 -> N.shiftl (N.land n k) j < 2 ^ 25)%N.
Proof. intros n k j L J. eapply N.lt_le_trans; [apply (shiftl_below 7); exact L|]. apply N.pow_le_mono_r; lia. Qed.
Lemma low6 : forall n, (N.land n 63 < 2 ^ 7)%N. Proof. intros n. rewrite N.land_comm. apply land_below. reflexivity. Qed.
Lemma p0 : (N.shiftl (N.land s0 mask) 18 < 2 ^ 25)%N. Proof. apply part; [rewrite N.land_comm; apply land_below; exact sm|lia]. Qed.
Lemma p1 : (N.shiftl (N.land s1 63) 12 < 2 ^ 25)%N. Proof. apply part; [apply low6|lia]. Qed.
Lemma p2 : (N.shiftl (N.land s2 63) 6 < 2 ^ 25)%N. Proof. apply part; [apply low6|lia]. Qed.
Lemma p3 : (N.shiftl (N.land s3 63) 0 < 2 ^ 25)%N. Proof. apply part; [apply low6|lia]. Qed.
Lemma t25 : forall n, (n < 2 ^ 25)%N -> tiny n. Proof. intros n. apply below_tiny. discriminate. Qed.
Lemma word_below : (word < 2 ^ 25)%N. Proof. apply shiftr_below. repeat apply lor_below; [exact p0|exact p1|exact p2|exact p3]. Qed.
Lemma bit_part : forall b j, (j <= 8 -> N.shiftl (c_bool b) j < 2 ^ 9)%N.
Proof. intros b j J. eapply N.lt_le_trans; [apply (shiftl_below 1); apply bool_below|]. apply N.pow_le_mono_r; lia. Qed.
Lemma t9 : forall n, (n < 2 ^ 9)%N -> tiny n. Proof. intros n. apply below_tiny. discriminate. Qed.
Lemma byte9 : forall n, (n < 256 -> n < 2 ^ 9)%N. Proof. intros n L. eapply N.lt_le_trans; [exact L|discriminate]. Qed.

Lemma left_s : forall i si j c e, nth_error [s0; s1; s2; s3] i = Some si -> (si < 256)%N -> (j <= 18)%N ->
  value_of (mem c e) (BBin BLeft (BCast U32 (BBin BAnd (BIndex (BVar "s") (BNum (Z.of_nat i))) (BNum 63))) (BNum (Z.of_N j))) = Some (WInt U32 (Z.of_N (N.shiftl (N.land si 63) j))).
Proof.
  intros i si j c e H L J. eapply bin; [eapply cast; [eapply bin; [apply at_s; exact H|apply (at_num _ 63); reflexivity|apply op_and; [exact u8|exact i32|apply s_tiny; exact L|reflexivity]]|right; reflexivity|apply land_below; apply s_tiny; exact L]|apply at_num; apply (below_tiny 5); [discriminate|lia]|].
  change U32 with (promoted U32) at 2. apply op_left; [right; reflexivity|lia|apply t25; apply part; [apply low6|exact J]].
Qed.
Lemma late_runs : forall c0 e0, steps (mem c0 e0) late = Some (mem (Z.of_N word) (Z.of_N flags)).
Proof.
  intros c0 e0. unfold late.
  eapply sets.
  { eapply bin; [eapply cast; [eapply bin; [apply (at_s 0); reflexivity|apply (table "masks" I32 masks_z mask); [reflexivity|exact I|reflexivity|left; reflexivity|exact hm|apply (below_tiny 7); [discriminate|exact sm]]|apply op_and; [exact u8|exact i32|apply s_tiny; exact b0|apply (below_tiny 7); [discriminate|exact sm]]]|right; reflexivity|apply land_below; apply s_tiny; exact b0]|apply (at_num _ 18); reflexivity|].
    apply (op_left U32); [right; reflexivity|reflexivity|apply t25; exact p0]. }
  { apply set_c. apply t25. exact p0. }
  eapply updates; [apply at_c; apply t25; exact p0|apply (left_s 1 s1 12); [reflexivity|exact b1|lia]|apply op_or; [exact u32|exact u32|apply t25; exact p0|apply t25; exact p1]|apply set_c; apply t25; apply lor_below; [exact p0|exact p1]|].
  assert (q1 := lor_below _ _ _ p0 p1). set (c1 := N.lor _ _) in q1 |- *.
  eapply updates; [apply at_c; apply t25; exact q1|apply (left_s 2 s2 6); [reflexivity|exact b2|lia]|apply op_or; [exact u32|exact u32|apply t25; exact q1|apply t25; exact p2]|apply set_c; apply t25; apply lor_below; [exact q1|exact p2]|].
  assert (q2 := lor_below _ _ _ q1 p2). set (c2 := N.lor _ _) in q2 |- *.
  eapply updates; [apply at_c; apply t25; exact q2|apply (left_s 3 s3 0); [reflexivity|exact b3|lia]|apply op_or; [exact u32|exact u32|apply t25; exact q2|apply t25; exact p3]|apply set_c; apply t25; apply lor_below; [exact q2|exact p3]|].
  assert (q3 := lor_below _ _ _ q2 p3). set (c3 := N.lor _ _) in q3 |- *.
  eapply updates; [apply at_c; apply t25; exact q3|apply (table "shiftc" I32 shiftc_z shc); [reflexivity|exact I|reflexivity|left; reflexivity|exact hc|apply (below_tiny 5); [discriminate|exact sc]]|apply (op_right U32); [right; reflexivity|exact sc|apply t25; exact q3]|apply set_c; apply t25; apply shiftr_below; exact q3|].
  change (N.shiftr c3 shc) with word. clearbody c1 c2 c3. assert (tw := t25 _ word_below).
  assert (r1 := bit_part (word <? min)%N 6 ltac:(lia)). assert (r2 := bit_part (N.shiftr word 11 =? 27)%N 7 ltac:(lia)). assert (r3 := bit_part (1114111 <? word)%N 8 ltac:(lia)).
  assert (g1 : forall n j, (n < 256 -> N.shiftr (N.land n 192) j < 2 ^ 9)%N) by (intros n j L; apply shiftr_below; apply land_below; apply byte9; exact L).
  assert (g3 : (N.shiftr s3 6 < 2 ^ 9)%N) by (apply shiftr_below; apply byte9; exact b3).
  eapply sets; [eapply bin; [eapply bin; [apply at_c; exact tw|apply (table "mins" U32 mins_z min); [reflexivity|exact I|reflexivity|right; reflexivity|exact hn|apply (below_tiny 23); [discriminate|exact sn]]|apply op_less; [exact u32|exact u32|exact tw|apply (below_tiny 23); [discriminate|exact sn]]]|apply (at_num _ 6); reflexivity|apply (op_left Bool); [left; reflexivity|reflexivity|apply t9; exact r1]]|apply set_e; apply t9; exact r1|].
  eapply updates; [apply at_e; apply t9; exact r1|eapply bin; [eapply bin; [eapply bin; [apply at_c; exact tw|apply (at_num _ 11); reflexivity|apply (op_right U32); [right; reflexivity|reflexivity|exact tw]]|apply (at_num _ 27); reflexivity|apply op_equal; [exact u32|exact i32|apply shiftr_below; exact tw|reflexivity]]|apply (at_num _ 7); reflexivity|apply (op_left Bool); [left; reflexivity|reflexivity|apply t9; exact r2]]|apply op_or; [exact i32|exact i32|apply t9; exact r1|apply t9; exact r2]|apply set_e; apply t9; apply lor_below; [exact r1|exact r2]|].
  assert (e2 := lor_below _ _ _ r1 r2).
  eapply updates; [apply at_e; apply t9; exact e2|eapply bin; [eapply bin; [apply at_c; exact tw|apply (at_num _ 1114111); reflexivity|apply op_greater; [exact u32|exact i32|exact tw|reflexivity]]|apply (at_num _ 8); reflexivity|apply (op_left Bool); [left; reflexivity|reflexivity|apply t9; exact r3]]|apply op_or; [exact i32|exact i32|apply t9; exact e2|apply t9; exact r3]|apply set_e; apply t9; apply lor_below; [exact e2|exact r3]|].
  assert (e3 := lor_below _ _ _ e2 r3). assert (g11 := g1 s1 2%N b1). assert (g12 := g1 s2 4%N b2).
  eapply updates; [apply at_e; apply t9; exact e3|eapply bin; [eapply bin; [apply (at_s 1); reflexivity|apply (at_num _ 192); reflexivity|apply op_and; [exact u8|exact i32|apply s_tiny; exact b1|reflexivity]]|apply (at_num _ 2); reflexivity|apply (op_right I32); [left; reflexivity|reflexivity|apply land_below; apply s_tiny; exact b1]]|apply op_or; [exact i32|exact i32|apply t9; exact e3|apply t9; exact g11]|apply set_e; apply t9; apply lor_below; [exact e3|exact g11]|].
  assert (e4 := lor_below _ _ _ e3 g11).
  eapply updates; [apply at_e; apply t9; exact e4|eapply bin; [eapply bin; [apply (at_s 2); reflexivity|apply (at_num _ 192); reflexivity|apply op_and; [exact u8|exact i32|apply s_tiny; exact b2|reflexivity]]|apply (at_num _ 4); reflexivity|apply (op_right I32); [left; reflexivity|reflexivity|apply land_below; apply s_tiny; exact b2]]|apply op_or; [exact i32|exact i32|apply t9; exact e4|apply t9; exact g12]|apply set_e; apply t9; apply lor_below; [exact e4|exact g12]|].
  assert (e5 := lor_below _ _ _ e4 g12).
  eapply updates; [apply at_e; apply t9; exact e5|eapply bin; [apply (at_s 3); reflexivity|apply (at_num _ 6); reflexivity|apply (op_right U8); [left; reflexivity|reflexivity|apply s_tiny; exact b3]]|apply op_or; [exact i32|exact i32|apply t9; exact e5|apply t9; exact g3]|apply set_e; apply t9; apply lor_below; [exact e5|exact g3]|].
  assert (e6 := lor_below _ _ _ e5 g3).
  eapply updates; [apply at_e; apply t9; exact e6|apply (at_num _ 42); reflexivity|apply op_xor; [exact i32|exact i32|apply t9; exact e6|reflexivity]|apply set_e; apply t9; apply lxor_below; [exact e6|reflexivity]|].
  assert (e7 : (N.lxor (N.lor (N.lor (N.lor (N.lor (N.lor (N.shiftl (c_bool (word <? min)) 6) (N.shiftl (c_bool (N.shiftr word 11 =? 27)) 7)) (N.shiftl (c_bool (1114111 <? word)) 8)) (N.shiftr (N.land s1 192) 2)) (N.shiftr (N.land s2 192) 4)) (N.shiftr s3 6)) 42 < 2 ^ 9)%N) by (apply lxor_below; [exact e6|reflexivity]).
  eapply updates; [apply at_e; apply t9; exact e7|apply (table "shifte" I32 shifte_z she); [reflexivity|exact I|reflexivity|left; reflexivity|exact he|apply (below_tiny 5); [discriminate|exact se]]|apply (op_right I32); [left; reflexivity|exact se|apply t9; exact e7]|apply set_e; apply t9; apply shiftr_below; exact e7|].
  reflexivity.
Qed.
End Run.

Lemma steps_app : forall a b m, steps m (a ++ b) = match steps m a with Some m => steps m b | None => None end.
Proof. induction a as [|s a IH]; intros b m; [reflexivity|]. cbn [app steps]. destruct (step m s); [apply IH|reflexivity]. Qed.
Lemma lookup : forall l i, (N.to_nat i < List.length l)%nat -> cell (map Z.of_N l) (Z.of_N i) = Some (Z.of_N (at_index l i)).
Proof.
  intros l i L. unfold cell, at_index. replace (Z.of_N i <? 0)%Z with false by (symmetry; apply Z.ltb_ge; lia). replace (Z.to_nat (Z.of_N i)) with (N.to_nat i) by lia. rewrite nth_error_map. rewrite (nth_error_nth' l 0%N L). reflexivity.
Qed.
Definition early : list bstmt := Eval vm_compute in firstn 8 decode_steps.
Definition length_step : bstmt := Eval vm_compute in nth 8 decode_steps (DArray I8 "" None []).
Definition tail_step : bstmt := Eval vm_compute in nth 9 decode_steps (DArray I8 "" None []).
Lemma split_steps : decode_steps = early ++ [length_step] ++ [tail_step] ++ late. Proof. reflexivity. Qed.
Definition first_byte (bytes : list N) : N := nth 0 (firstn 1 bytes) 0%N.
Lemma early_runs : forall bytes ch err, steps (decode_memory bytes ch err) early = Some (frame (first_byte bytes) 0 0 0 [("s", OPointer U8 "buf" 0%Z)] (skipn 1 bytes) ch err).
Proof. intros [|b bytes] ch err; reflexivity. Qed.
Lemma length_runs : forall s0 rest ch err, (s0 < 256)%N -> step (frame s0 0 0 0 [("s", OPointer U8 "buf" 0%Z)] rest ch err) length_step = Some (whole s0 0 0 0 (Z.of_N (at_index lengths (N.shiftr s0 3))) rest ch err).
Proof.
  intros s0 rest ch err B. destruct (lengths_in_range s0 B) as (K & L). unfold length_step. cbn [step].
  assert (V : value_of (frame s0 0 0 0 [("s", OPointer U8 "buf" 0%Z)] rest ch err) (BBin BRight (BIndex (BVar "s") (BNum 0)) (BNum 3)) = Some (WInt I32 (Z.of_N (N.shiftr s0 3)))).
  { eapply bin; [|apply (at_num _ 3); reflexivity|apply (op_right U8); [left; reflexivity|reflexivity|apply s_tiny; exact B]]. transitivity (Some (WInt U8 (wrap U8 (signed s0)))); [reflexivity|]. unfold signed. rewrite byte_back by exact B. reflexivity. }
  change (value_of (frame s0 0 0 0 [("s", OPointer U8 "buf" 0%Z)] rest ch err) (BIndex (BVar "lengths") (BBin BRight (BIndex (BVar "s") (BNum 0)) (BNum 3)))) with
    (match value_of (frame s0 0 0 0 [("s", OPointer U8 "buf" 0%Z)] rest ch err) (BBin BRight (BIndex (BVar "s") (BNum 0)) (BNum 3)) with Some (WInt _ j) => match cell lengths_z (0 + j) with Some z => Some (WInt I8 (wrap I8 z)) | None => None end | _ => None end)%Z.
  rewrite V. change (0 + Z.of_N (N.shiftr s0 3))%Z with (Z.of_N (N.shiftr s0 3)). change lengths_z with (map Z.of_N lengths). rewrite lookup by (cbn [List.length lengths]; lia).
  set (v := at_index lengths (N.shiftr s0 3)) in *. assert (E : wrap I32 (wrap I8 (Z.of_N v)) = Z.of_N v) by (unfold wrap; rewrite (Z.mod_small (Z.of_N v + 128)) by lia; rewrite Z.mod_small; lia).
  cbn beta iota. rewrite E. reflexivity.
Qed.
Definition tail_bytes (v : N) (rest : list N) : list N := firstn (N.to_nat (if 1 <? v then v - 1 else 0)%N) rest.
Lemma tail_runs : forall s0 v rest ch err, (v < 5)%N -> step (whole s0 0 0 0 (Z.of_N v) rest ch err) tail_step =
  Some (whole s0 (nth 0 (tail_bytes v rest) 0%N) (nth 1 (tail_bytes v rest) 0%N) (nth 2 (tail_bytes v rest) 0%N) (Z.of_N v) (skipn (N.to_nat (if 1 <? v then v - 1 else 0)%N) rest) ch err).
Proof.
  intros s0 v rest ch err L. assert (V : v = 0%N \/ v = 1%N \/ v = 2%N \/ v = 3%N \/ v = 4%N) by lia. destruct V as [->|[->|[->|[->| ->]]]]; [reflexivity|reflexivity|destruct rest as [|a rest]; reflexivity|destruct rest as [|a [|b rest]]; reflexivity|destruct rest as [|a [|b [|c rest]]]; reflexivity].
Qed.
Lemma byte_nth : forall l i, Forall is_byte l -> (nth i l 0 < 256)%N.
Proof. intros l i F. destruct (nth_in_or_default i l 0%N) as [H| ->]; [|reflexivity]. rewrite Forall_forall in F. exact (F _ H). Qed.
Lemma firstn_bytes : forall n l, Forall is_byte l -> Forall is_byte (firstn n l).
Proof. intros n l F. rewrite <- (firstn_skipn n l) in F. apply Forall_app in F. apply F. Qed.
Lemma decode_runs : forall bytes ch err c e rest, Forall is_byte bytes -> utf8_decode bytes = (c, e, rest) ->
  exists s0 s1 s2 s3 len, steps (decode_memory bytes ch err) decode_steps = Some (whole s0 s1 s2 s3 len rest (Z.of_N c) (Z.of_N e)).
Proof.
  intros bytes ch err c e rest F D. assert (F1 : Forall is_byte (skipn 1 bytes)) by (rewrite <- (firstn_skipn 1 bytes) in F; apply Forall_app in F; apply F).
  unfold utf8_decode, read_bytes in D. fold (first_byte bytes) in D. assert (B0 : (first_byte bytes < 256)%N) by (apply byte_nth; apply firstn_bytes; exact F). set (s0 := first_byte bytes) in *.
  destruct (lengths_in_range s0 B0) as (_ & L). set (v := at_index lengths (N.shiftr s0 3)) in *. cbn iota beta zeta in D. fold (tail_bytes v (skipn 1 bytes)) in D. set (tl := tail_bytes v (skipn 1 bytes)) in *.
  assert (T : forall i, (nth i tl 0 < 256)%N) by (intros i; apply byte_nth; apply firstn_bytes; exact F1).
  exists s0, (nth 0 tl 0%N), (nth 1 tl 0%N), (nth 2 tl 0%N), (Z.of_N v). rewrite split_steps, steps_app, early_runs. fold s0. rewrite steps_app. cbn [steps]. rewrite length_runs by exact B0. fold v. rewrite steps_app. cbn [steps]. rewrite tail_runs by exact L. fold tl.
  assert (VL : (N.to_nat v < 5)%nat) by lia.
  assert (Q : forall l, List.length l = 5%nat -> cell (map Z.of_N l) (Z.of_N v) = Some (Z.of_N (at_index l v))) by (intros l E; apply lookup; rewrite E; exact VL).
  assert (R : (at_index masks v < 128 /\ at_index mins v < 2 ^ 23 /\ at_index shiftc v < 32 /\ at_index shifte v < 32)%N).
  { clearbody v. assert (V : v = 0%N \/ v = 1%N \/ v = 2%N \/ v = 3%N \/ v = 4%N) by lia. destruct V as [->|[->|[->|[->| ->]]]]; repeat split. }
  destruct R as (R1 & R2 & R3 & R4).
  rewrite (late_runs s0 (nth 0 tl 0%N) (nth 1 tl 0%N) (nth 2 tl 0%N) _ B0 (T 0%nat) (T 1%nat) (T 2%nat) (Z.of_N v) (at_index masks v) (at_index mins v) (at_index shiftc v) (at_index shifte v) (Q masks eq_refl) (Q mins eq_refl) (Q shiftc eq_refl) (Q shifte eq_refl) R1 R2 R3 R4 ch err).
  injection D as <- <- <-. reflexivity.
Qed.
(** A call of it from the lexer. *)
Lemma decoder_calls : forall l lx c e rest, Forall is_byte (cl_in lx) -> utf8_decode (cl_in lx) = (c, e, rest) ->
  decoder decode_steps (mkStore l (members (lexer_object lx))) (EName ["utf8_decode"]) [EArrow EThis "in_chars"; EAddr (EArrow EThis "ch"); EAddr (EArrow EThis "err")] =
  Some (mkStore l (members (lexer_object (mkCpp rest c e (cl_position lx) (cl_start lx) (cl_end lx)))), RReturn None).
Proof.
  intros l lx c e rest F D. destruct (decode_runs _ (Z.of_N (cl_ch lx)) (Z.of_N (cl_err lx)) c e rest F D) as (s0 & s1 & s2 & s3 & len & R).
  unfold decoder, lexer_object. cbn [members find_name String.eqb Ascii.eqb Bool.eqb]. rewrite R. reflexivity.
Qed.
