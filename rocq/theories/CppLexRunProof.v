(** Proofs about running the text of emitted C++ lexers. *)
From Coq Require Import String Ascii List Arith NArith ZArith Bool Lia.
From Verif Require Import Base InputModel LexerSpec LexerModel NamesModel CppLexerModel CppLexerSpec CppLexerProof TemplateModel TemplateFiles CppTextModel CppTextSpec CppTextProof CppLexTextSpec CppLexTextProof.
From Verif Require CppBitsProof.
Import ListNotations.
Local Open Scope string_scope.
Local Open Scope list_scope.

Lemma wrap_u32 : forall z, (0 <= z < 4294967296)%Z -> wrap U32 z = z. Proof. intros z H. apply Z.mod_small. exact H. Qed.
Lemma wrap_u64 : forall z, (0 <= z < 18446744073709551616)%Z -> wrap U64 z = z. Proof. intros z H. apply Z.mod_small. exact H. Qed.

Section Running.
Variable names : list string.
Notation P := (token_program names).

(** ** Which case *)

Lemma alpha_case : forall al i c, (forall a b, In (a, b) al -> (a <= b < 2 ^ 32)%N) ->
  match alphabet_switch al i c with
  | Some k => exists b, at_case P (VInt U32 (Z.of_N c)) (alpha_items i al error_default) = Some (Some (IStmt (SAssign (EName ["i"]) (ENum (Z.of_nat k))) (IStmt SBreak b))) /\ i <= k < i + List.length al
  | None => at_case P (VInt U32 (Z.of_N c)) (alpha_items i al error_default) = Some None
  end.
Proof.
  induction al as [|(a, b) al IH]; intros i c R; [reflexivity|]. cbn [alphabet_switch alpha_items at_case fst snd List.length]. specialize (R a b (or_introl eq_refl)) as R0. rewrite in_number; [|lia|lia].
  replace ((Z.of_N a <=? Z.of_N c) && (Z.of_N c <=? Z.of_N b))%Z with (if (a =? b)%N then (c =? a)%N else (a <=? c)%N && (c <=? b)%N).
  2:{ apply eq_true_iff_eq. destruct (N.eqb_spec a b); rewrite ?andb_true_iff, ?N.eqb_eq, ?N.leb_le, ?Z.leb_le; lia. }
  destruct (if (a =? b)%N then (c =? a)%N else (a <=? c)%N && (c <=? b)%N); [eexists; split; [reflexivity|lia]|]. specialize (IH (S i) c (fun x y I => R x y (or_intror I))). destruct (alphabet_switch al (S i) c); [|exact IH].
  destruct IH as (b' & E & L). exists b'. split; [exact E|lia].
Qed.
Lemma alpha_default : forall al i, at_default (alpha_items i al error_default) = Some (IStmt (return_token "TK_ERR") INil).
Proof. induction al as [|x al IH]; intros i; [reflexivity|]. apply IH. Qed.

Definition node_default (node : astate token_rule) : items :=
  match node with
  | Accepting r => IStmt (SAssign (this "end_pos") (this "position")) (IStmt (return_token (enumerator (tr_name r))) INil)
  | Intermediate _ => IStmt (return_token "TK_ERR") INil
  end.
Lemma move_case : forall l node i, (forall t v, In (t, v) l -> (N.of_nat t < 2 ^ 32)%N) ->
  match find (fun tv => negb (Nat.eqb (fst tv) 0) && Nat.eqb (fst tv) i) l with
  | Some (_, v) => exists b, at_case P (VInt U32 (Z.of_nat i)) (move_items l (default_items node)) =
      Some (Some (IStmt (SAssign (this "ch") (ENeg (ENum 1))) (IStmt (SAssign (EName ["state"]) (ENum (Z.of_nat v))) (IStmt SBreak b))))
  | None => at_case P (VInt U32 (Z.of_nat i)) (move_items l (default_items node)) = Some None
  end.
Proof.
  induction l as [|(t, v) l IH]; intros node i F; [destruct node; reflexivity|]. specialize (IH node i (fun t v I => F t v (or_intror I))). specialize (F t v (or_introl eq_refl)).
  cbn [find move_items fst]. destruct (Nat.eqb t 0); [exact IH|]. cbn [negb andb at_case]. rewrite in_number; [|lia|lia].
  replace ((Z.of_nat t <=? Z.of_nat i) && (Z.of_nat i <=? Z.of_nat t))%Z with (Nat.eqb t i).
  2:{ apply eq_true_iff_eq. rewrite andb_true_iff, Nat.eqb_eq, !Z.leb_le. lia. }
  destruct (Nat.eqb t i); [eexists; reflexivity|exact IH].
Qed.
Lemma move_default : forall l node, at_default (move_items l (default_items node)) = Some (node_default node).
Proof. induction l as [|(t, v) l IH]; intros node; [destruct node; reflexivity|]. cbn [move_items]. destruct (Nat.eqb t 0); apply IH. Qed.

Lemma state_case_at : forall nodes d index q, (N.of_nat (index + List.length nodes) <= 2 ^ 32)%N ->
  match nth_error nodes q with
  | Some node => exists b, at_case P (VInt U32 (Z.of_nat (index + q))) (state_items d index nodes error_default) = Some (Some (IStmt (SSwitch (EName ["i"]) (inner_items d (index + q) node)) (IStmt SBreak b)))
  | None => at_case P (VInt U32 (Z.of_nat (index + q))) (state_items d index nodes error_default) = Some None
  end.
Proof.
  induction nodes as [|node nodes IH]; intros d index q L; [destruct q; reflexivity|]. cbn [List.length] in L. destruct q as [|q].
  - cbn [nth_error state_items at_case]. rewrite Nat.add_0_r, in_number; [|lia|lia]. rewrite !Z.leb_refl. eexists. reflexivity.
  - cbn [nth_error state_items at_case]. rewrite in_number; [|lia|lia]. replace ((Z.of_nat index <=? Z.of_nat (index + S q)) && (Z.of_nat (index + S q) <=? Z.of_nat index))%Z with false.
    2:{ symmetry. apply andb_false_iff. right. apply Z.leb_gt. lia. }
    rewrite Nat.add_succ_r. apply (IH d (S index) q). lia.
Qed.
Lemma state_default_at : forall nodes d index, at_default (state_items d index nodes error_default) = Some (IStmt (return_token "TK_ERR") INil).
Proof. induction nodes as [|node nodes IH]; intros d index; [reflexivity|]. apply IH. Qed.

(** ** One turn *)

Definition frame (q : nat) (lx : cpp_lexer) : store := mkStore [("state", VInt U32 (Z.of_nat q))] (members (lexer_object lx)).
Definition inner (v : value) (q : nat) (lx : cpp_lexer) : store := mkStore [("i", v); ("state", VInt U32 (Z.of_nat q))] (members (lexer_object lx)).
Notation does := (does P (decoder CppBitsProof.decode_steps)).
Notation runs := (runs P (decoder CppBitsProof.decode_steps)).

Lemma assign_i : forall k v q lx, (Z.of_nat k < 4294967296)%Z -> type_of v = Some "uint32_t" -> does (inner v q lx) (SAssign (EName ["i"]) (ENum (Z.of_nat k))) (inner (VInt U32 (Z.of_nat k)) q lx) RNext.
Proof.
  intros k v q lx L T. apply does_now. intros n. cbn [exec eval]. destruct (literal_int (Z.of_nat k)) as (t & ->). unfold assign. cbn [eval inner locals find_name String.eqb Ascii.eqb Bool.eqb]. rewrite T.
  cbn. change (Z.of_nat k mod 4294967296)%Z with (wrap U32 (Z.of_nat k)). rewrite wrap_u32 by lia. reflexivity.
Qed.
Lemma assign_state : forall k v q lx, (Z.of_nat k < 4294967296)%Z -> does (inner v q lx) (SAssign (EName ["state"]) (ENum (Z.of_nat k))) (inner v k lx) RNext.
Proof.
  intros k v q lx L. apply does_now. intros n. cbn [exec eval]. destruct (literal_int (Z.of_nat k)) as (t & ->). cbn. change (Z.of_nat k mod 4294967296)%Z with (wrap U32 (Z.of_nat k)). rewrite wrap_u32 by lia. reflexivity.
Qed.
Lemma assign_ch : forall v q lx, does (inner v q lx) (SAssign (this "ch") (ENeg (ENum 1))) (inner v q (mkCpp (cl_in lx) no_char (cl_err lx) (cl_position lx) (cl_start lx) (cl_end lx))) RNext.
Proof. intros v q lx. apply does_now. intros n. reflexivity. Qed.
Lemma assign_end : forall v q lx, (Z.of_nat (cl_position lx) < 18446744073709551616)%Z ->
  does (inner v q lx) (SAssign (this "end_pos") (this "position")) (inner v q (mkCpp (cl_in lx) (cl_ch lx) (cl_err lx) (cl_position lx) (cl_start lx) (cl_position lx))) RNext.
Proof.
  intros v q lx L. apply does_now. intros n. cbn. change (Z.of_nat (cl_position lx) mod 18446744073709551616)%Z with (wrap U64 (Z.of_nat (cl_position lx))). rewrite wrap_u64 by lia. reflexivity.
Qed.
Lemma add_position : forall v q lx, (Z.of_nat (S (cl_position lx)) < 18446744073709551616)%Z ->
  does (inner v q lx) (SAdd (this "position") (ENum 1)) (inner v q (mkCpp (cl_in lx) (cl_ch lx) (cl_err lx) (S (cl_position lx)) (cl_start lx) (cl_end lx))) RNext.
Proof.
  intros v q lx L. apply does_now. intros n. cbn -[Z.add Z.modulo Z.of_nat].
  change ((Z.of_nat (cl_position lx) + 1) mod 18446744073709551616)%Z with (wrap U64 (Z.of_nat (cl_position lx) + 1)). rewrite (wrap_u64 (Z.of_nat (cl_position lx) + 1)) by lia.
  change ((Z.of_nat (cl_position lx) + 1) mod 18446744073709551616)%Z with (wrap U64 (Z.of_nat (cl_position lx) + 1)). rewrite (wrap_u64 (Z.of_nat (cl_position lx) + 1)) by lia.
  replace (Z.of_nat (cl_position lx) + 1)%Z with (Z.of_nat (S (cl_position lx))) by lia. reflexivity.
Qed.
Definition is_value (s : string) (v : value) : Prop := exists k, find_index (String.eqb s) (enumerators names) = Some k /\ v = token_value k.
Lemma returns : forall st s v, is_value s v -> does st (return_token s) st (RReturn (Some v)).
Proof. intros st s v (k & F & ->). apply does_now. intros n. cbn [exec return_token]. rewrite token_eval, F. reflexivity. Qed.
Lemma err_value : is_value tk_err (token_value 0). Proof. exists 0. split; reflexivity. Qed.
Lemma eof_value : is_value tk_eof (token_value 1). Proof. exists 1. split; reflexivity. Qed.

Lemma does_alphabet : forall al q lx, ranges_fit al -> (cl_ch lx < 2 ^ 32)%N ->
  match alphabet_switch al 0 (cl_ch lx) with
  | Some k => does (inner (VNone "uint32_t") q lx) (alphabet_stmt al) (inner (VInt U32 (Z.of_nat k)) q lx) RNext /\ (Z.of_nat k < 4294967296)%Z
  | None => does (inner (VNone "uint32_t") q lx) (alphabet_stmt al) (inner (VNone "uint32_t") q lx) (RReturn (Some (token_value 0)))
  end.
Proof.
  intros al q lx (R & _ & L) C. pose proof (alpha_case al 0 (cl_ch lx) R) as A. unfold alphabet_stmt. destruct (alphabet_switch al 0 (cl_ch lx)) as [k|].
  - destruct A as (b & A & K). assert (KK : (Z.of_nat k < 4294967296)%Z) by lia. split; [|exact KK]. eapply does_eq.
    + eapply does_switch; [reflexivity|unfold selected; rewrite A; reflexivity|]. eapply runs_cons; [apply assign_i; [exact KK|reflexivity]|]. apply runs_stop; [apply does_now; reflexivity|discriminate].
    + reflexivity.
    + reflexivity.
  - eapply does_eq.
    + eapply does_switch; [reflexivity|unfold selected; rewrite A, alpha_default; reflexivity|]. apply runs_stop; [apply returns; exact err_value|discriminate].
    + reflexivity.
    + reflexivity.
Qed.

Lemma does_inner : forall d q node i lx, automaton_fits d -> nth_error (dfa_nodes d) q = Some node -> (Z.of_nat i < 4294967296)%Z -> (Z.of_nat (cl_position lx) < 18446744073709551616)%Z ->
  match automaton_switch d q i with
  | CppMove v => does (inner (VInt U32 (Z.of_nat i)) q lx) (SSwitch (EName ["i"]) (inner_items d q node)) (inner (VInt U32 (Z.of_nat i)) v (mkCpp (cl_in lx) no_char (cl_err lx) (cl_position lx) (cl_start lx) (cl_end lx))) RNext
                /\ v < List.length (dfa_nodes d)
  | CppAccept name => forall w, is_value (enumerator name) w -> does (inner (VInt U32 (Z.of_nat i)) q lx) (SSwitch (EName ["i"]) (inner_items d q node))
        (inner (VInt U32 (Z.of_nat i)) q (mkCpp (cl_in lx) (cl_ch lx) (cl_err lx) (cl_position lx) (cl_start lx) (cl_position lx))) (RReturn (Some w))
  | CppReturn tk => forall w, is_value tk w -> does (inner (VInt U32 (Z.of_nat i)) q lx) (SSwitch (EName ["i"]) (inner_items d q node)) (inner (VInt U32 (Z.of_nat i)) q lx) (RReturn (Some w))
  end.
Proof.
  intros d q node i lx (L & F) N HI PP. assert (Q : q < List.length (dfa_nodes d)) by (apply nth_error_Some; congruence). destruct (F q Q) as (D & T). unfold automaton_switch. rewrite N.
  pose proof (move_case (transitions_from d q) node i (fun t v I => proj1 (T t v I))) as M. pose proof (move_default (transitions_from d q) node) as MD. unfold inner_items. cbv zeta.
  destruct (Nat.eqb q 0 && Nat.eqb i 0) eqn:Z0.
  - apply andb_true_iff in Z0. destruct Z0 as (-> & Ei). apply Nat.eqb_eq in Ei. subst i. intros w W. eapply does_eq.
    + eapply does_switch; [reflexivity|unfold selected; cbn [at_case]; rewrite in_number by lia; reflexivity|]. apply runs_stop; [apply returns; exact W|discriminate].
    + reflexivity.
    + reflexivity.
  - set (body := if Nat.eqb q 0 then _ else _). assert (B : at_case P (VInt U32 (Z.of_nat i)) body = at_case P (VInt U32 (Z.of_nat i)) (move_items (transitions_from d q) (default_items node)) /\ at_default body = Some (node_default node)).
    { unfold body. destruct (Nat.eqb q 0); [|split; [reflexivity|exact MD]]. cbn [andb] in Z0. apply Nat.eqb_neq in Z0. cbn [at_case at_default]. rewrite in_number by lia.
      replace ((0 <=? Z.of_nat i) && (Z.of_nat i <=? 0))%Z with false; [split; [reflexivity|exact MD]|]. symmetry. apply andb_false_iff. right. apply Z.leb_gt. lia. }
    destruct B as (B1 & B2). destruct (find (fun tv => negb (Nat.eqb (fst tv) 0) && Nat.eqb (fst tv) i) (transitions_from d q)) as [(t, v)|] eqn:E.
    + destruct M as (b & M). apply find_some in E. destruct E as (E & _). destruct (T t v E) as (_ & V). split; [|exact V]. eapply does_eq.
      * eapply does_switch; [reflexivity|unfold selected; rewrite B1, M; reflexivity|]. eapply runs_cons; [apply assign_ch|]. eapply runs_cons; [apply assign_state; lia|]. apply runs_stop; [apply does_now; reflexivity|discriminate].
      * reflexivity.
      * reflexivity.
    + destruct node as [r|k].
      * intros w W. eapply does_eq.
        -- eapply does_switch; [reflexivity|unfold selected; rewrite B1, M, B2; reflexivity|]. cbn [node_default]. eapply runs_cons; [apply assign_end; exact PP|]. apply runs_stop; [apply returns; exact W|discriminate].
        -- reflexivity.
        -- reflexivity.
      * intros w W. eapply does_eq.
        -- eapply does_switch; [reflexivity|unfold selected; rewrite B1, M, B2; reflexivity|]. cbn [node_default]. apply runs_stop; [apply returns; exact W|discriminate].
        -- reflexivity.
        -- reflexivity.
Qed.
Lemma does_automaton : forall d q i lx, automaton_fits d -> (Z.of_nat i < 4294967296)%Z -> (Z.of_nat (cl_position lx) < 18446744073709551616)%Z ->
  match automaton_switch d q i with
  | CppMove v => does (inner (VInt U32 (Z.of_nat i)) q lx) (automaton_stmt d) (inner (VInt U32 (Z.of_nat i)) v (mkCpp (cl_in lx) no_char (cl_err lx) (cl_position lx) (cl_start lx) (cl_end lx))) RNext
  | CppAccept name => forall w, is_value (enumerator name) w -> does (inner (VInt U32 (Z.of_nat i)) q lx) (automaton_stmt d)
        (inner (VInt U32 (Z.of_nat i)) q (mkCpp (cl_in lx) (cl_ch lx) (cl_err lx) (cl_position lx) (cl_start lx) (cl_position lx))) (RReturn (Some w))
  | CppReturn tk => forall w, is_value tk w -> does (inner (VInt U32 (Z.of_nat i)) q lx) (automaton_stmt d) (inner (VInt U32 (Z.of_nat i)) q lx) (RReturn (Some w))
  end.
Proof.
  intros d q i lx F HI PP. pose proof F as F0. destruct F as (L & F). pose proof (state_case_at (dfa_nodes d) d 0 q L) as S0. cbn [Nat.add] in S0. unfold automaton_stmt.
  destruct (nth_error (dfa_nodes d) q) as [node|] eqn:N.
  - destruct S0 as (b & S0). pose proof (does_inner d q node i lx F0 N HI PP) as H.
    destruct (automaton_switch d q i) as [v|name|tk].
    + destruct H as (H & _). eapply does_eq.
      * eapply does_switch; [reflexivity|unfold selected; rewrite S0; reflexivity|]. eapply runs_cons; [exact H|]. apply runs_stop; [apply does_now; reflexivity|discriminate].
      * reflexivity.
      * reflexivity.
    + intros w W. eapply does_eq.
      * eapply does_switch; [reflexivity|unfold selected; rewrite S0; reflexivity|]. apply runs_stop; [exact (H w W)|discriminate].
      * reflexivity.
      * reflexivity.
    + intros w W. eapply does_eq.
      * eapply does_switch; [reflexivity|unfold selected; rewrite S0; reflexivity|]. apply runs_stop; [exact (H w W)|discriminate].
      * reflexivity.
      * reflexivity.
  - unfold automaton_switch. rewrite N. intros w (k & K & ->). injection K as <-. eapply does_eq.
    + eapply does_switch; [reflexivity|unfold selected; rewrite S0, state_default_at; reflexivity|]. apply runs_stop; [apply returns; exact err_value|discriminate].
    + reflexivity.
    + reflexivity.
Qed.

Definition decoded (lx : cpp_lexer) : cpp_lexer :=
  if (cl_ch lx =? no_char)%N then let '(c, e, rest) := utf8_decode (cl_in lx) in mkCpp rest c e (cl_position lx) (cl_start lx) (cl_end lx) else lx.
Lemma does_decode : forall q lx, Forall is_byte (cl_in lx) -> (cl_ch lx < 2 ^ 32)%N ->
  does (frame q lx) (SIf (EEq (this "ch") (ENeg (ENum 1))) (SBlock (IStmt (SExpr (ECall (EName ["utf8_decode"]) [this "in_chars"; EAddr (this "ch"); EAddr (this "err")])) INil)) None) (frame q (decoded lx)) RNext.
Proof.
  intros q lx B C. assert (E : eval P (frame q lx) (EEq (this "ch") (ENeg (ENum 1))) = Some (VInt Bool (if (cl_ch lx =? no_char)%N then 1 else 0)%Z)).
  { cbn -[Z.eqb Z.modulo Z.of_N N.eqb]. change (Z.of_N (cl_ch lx) mod 4294967296)%Z with (wrap U32 (Z.of_N (cl_ch lx))). rewrite wrap_u32 by lia. 
    replace (Z.of_N (cl_ch lx) =? _)%Z with (cl_ch lx =? no_char)%N; [destruct (cl_ch lx =? no_char)%N; reflexivity|].
    apply eq_true_iff_eq. rewrite N.eqb_eq, Z.eqb_eq. change ((2147483647 mod 4294967296 - 2147483648) mod 4294967296)%Z with (Z.of_N no_char). lia. }
  unfold decoded. destruct (cl_ch lx =? no_char)%N.
  - eapply does_if; [exact E|reflexivity|]. destruct (utf8_decode (cl_in lx)) as ((c, e), rest) eqn:D. eapply does_eq.
    + apply does_block. eapply runs_cons; [|apply runs_nil]. apply does_soon. intros n. cbn [exec exec_call find_name functions P token_program]. unfold this, frame. rewrite (CppBitsProof.decoder_calls _ lx c e rest B D). reflexivity.
    + reflexivity.
    + reflexivity.
  - eapply does_skip; [exact E|reflexivity].
Qed.
Lemma does_error : forall q lx, 
  if (cl_err lx =? 0)%N then does (frame q lx) (SIf (this "err") (SBlock (IStmt (return_token "TK_ERR") INil)) None) (frame q lx) RNext
  else does (frame q lx) (SIf (this "err") (SBlock (IStmt (return_token "TK_ERR") INil)) None) (frame q lx) (RReturn (Some (token_value 0))).
Proof.
  intros q lx. destruct (cl_err lx =? 0)%N eqn:E.
  - eapply does_skip; [reflexivity|]. apply N.eqb_eq in E. rewrite E. reflexivity.
  - eapply does_if; [reflexivity| |].
    + cbn [truth]. replace (Z.of_N (cl_err lx) =? 0)%Z with false; [reflexivity|]. symmetry. apply Z.eqb_neq. apply N.eqb_neq in E. lia.
    + eapply does_eq; [apply does_block; apply runs_stop; [apply returns; exact err_value|discriminate]|reflexivity|reflexivity].
Qed.

Lemma decoded_fits : forall lx, Forall is_byte (cl_in lx) -> (cl_ch lx < 2 ^ 32)%N -> (cl_ch (decoded lx) < 2 ^ 32)%N.
Proof.
  intros lx B C. unfold decoded. destruct (cl_ch lx =? no_char)%N; [|exact C]. destruct (utf8_decode (cl_in lx)) as ((c, e), rest) eqn:D. cbn [cl_ch]. pose proof (decode_small _ _ _ _ B D) as S0. change (2 ^ 25)%N with 33554432%N in S0. change (2 ^ 32)%N with 4294967296%N. lia.
Qed.
Lemma rest_of_bytes : forall bytes, exists pre, bytes = pre ++ snd (utf8_decode bytes) /\ (bytes <> [] -> pre <> []).
Proof.
  intros bytes. unfold utf8_decode, read_bytes. cbn [snd]. match goal with |- context [skipn ?k (skipn 1 bytes)] => generalize k end. intros k. destruct bytes as [|b bytes]; [exists []; split; [destruct k; reflexivity|congruence]|].
  cbn [skipn]. exists (b :: firstn k bytes). split; [cbn; rewrite firstn_skipn; reflexivity|discriminate].
Qed.

(** ** The loop *)

Lemma does_loop : forall al d, ranges_fit al -> automaton_fits d -> forall fuel lx q lx' tk w, Forall is_byte (cl_in lx) -> (cl_ch lx < 2 ^ 32)%N -> (Z.of_nat (cl_position lx + fuel) < 18446744073709551616)%Z ->
  cpp_loop al d fuel lx q = Ok (lx', tk) -> is_value tk w ->
  exists q', does (frame q lx) (SWhile (ENum 1) (SBlock (turn al d))) (frame q' lx') (RReturn (Some w)).
Proof.
  intros al d RF AF. induction fuel as [|fuel IH]; intros lx q lx' tk w B C L H W; [discriminate|]. cbn [cpp_loop] in H. fold (decoded lx) in H. cbv zeta in H. 
  pose proof (does_decode q lx B C) as SD. pose proof (decoded_fits lx B C) as C1.
  assert (B1 : Forall is_byte (cl_in (decoded lx))).
  { unfold decoded. destruct (cl_ch lx =? no_char)%N; [|exact B]. destruct (rest_of_bytes (cl_in lx)) as (pre & E & _). destruct (utf8_decode (cl_in lx)) as ((c, e), rest). cbn [cl_in snd] in *. rewrite E in B. apply Forall_app in B. exact (proj2 B). }
  assert (P1 : cl_position (decoded lx) = cl_position lx).
  { unfold decoded. destruct (cl_ch lx =? no_char)%N; [|reflexivity]. destruct (utf8_decode (cl_in lx)) as ((c, e), rest). reflexivity. }
  generalize dependent (decoded lx). intros l1 H SD C1 B1 P1. pose proof (does_error q l1) as SE. destruct (cl_err l1 =? 0)%N eqn:E0; cbn [negb] in H.
  2:{ injection H as <- <-. destruct W as (k & K & ->). injection K as <-. exists q. eapply does_leave; [reflexivity|reflexivity| |discriminate|discriminate]. eapply does_eq.
      - apply does_block. unfold turn. eapply runs_cons; [exact SD|]. apply runs_stop; [exact SE|discriminate].
      - reflexivity.
      - reflexivity. }
  assert (DI : does (frame q l1) (SDecl ["uint32_t"] "i") (inner (VNone "uint32_t") q l1) RNext) by (apply does_now; reflexivity).
  pose proof (does_alphabet al q l1 RF C1) as SA. destruct (alphabet_switch al 0 (cl_ch l1)) as [i|].
  2:{ injection H as <- <-. destruct W as (k & K & ->). injection K as <-. exists q. eapply does_leave; [reflexivity|reflexivity| |discriminate|discriminate]. eapply does_eq.
      - apply does_block. unfold turn. eapply runs_cons; [exact SD|]. eapply runs_cons; [exact SE|]. eapply runs_cons; [exact DI|]. apply runs_stop; [exact SA|discriminate].
      - reflexivity.
      - reflexivity. }
  destruct SA as (SA & LI). assert (PP : (Z.of_nat (cl_position l1) < 18446744073709551616)%Z) by lia. pose proof (does_automaton d q i l1 AF LI PP) as SM. destruct (automaton_switch d q i) as [v|name|tk'].
  - set (l2 := mkCpp (cl_in l1) no_char (cl_err l1) (S (cl_position l1)) (cl_start l1) (cl_end l1)) in *. destruct (IH l2 v lx' tk w) as (q' & D); [exact B1|reflexivity|cbn [l2 cl_position]; lia|exact H|exact W|].
    exists q'. eapply does_turn; [reflexivity|reflexivity| |exact D]. eapply does_eq.
    + apply does_block. unfold turn. eapply runs_cons; [exact SD|]. eapply runs_cons; [exact SE|]. eapply runs_cons; [exact DI|]. eapply runs_cons; [exact SA|]. eapply runs_cons; [exact SM|].
      eapply runs_cons; [|apply runs_nil]. apply add_position. cbn [cl_position]. lia.
    + reflexivity.
    + reflexivity.
  - injection H as <- <-. exists q. eapply does_leave; [reflexivity|reflexivity| |discriminate|discriminate]. eapply does_eq.
    + apply does_block. unfold turn. eapply runs_cons; [exact SD|]. eapply runs_cons; [exact SE|]. eapply runs_cons; [exact DI|]. eapply runs_cons; [exact SA|]. apply runs_stop; [exact (SM w W)|discriminate].
    + reflexivity.
    + reflexivity.
  - injection H as <- <-. exists q. eapply does_leave; [reflexivity|reflexivity| |discriminate|discriminate]. eapply does_eq.
    + apply does_block. unfold turn. eapply runs_cons; [exact SD|]. eapply runs_cons; [exact SE|]. eapply runs_cons; [exact DI|]. eapply runs_cons; [exact SA|]. apply runs_stop; [exact (SM w W)|discriminate].
    + reflexivity.
    + reflexivity.
Qed.

Lemma does_next : forall al d lx lx' tk k, ranges_fit al -> automaton_fits d -> lexer_fits lx -> cpp_next al d lx = Ok (lx', tk) -> find_index (String.eqb tk) (enumerators names) = Some k ->
  does (lexer_object lx) (next_body al d) (lexer_object lx') (RReturn (Some (token_value k))).
Proof.
  intros al d lx lx' tk k RF AF (B & C & L) H K. unfold cpp_next in H.
  assert (LL : (Z.of_nat (cl_position lx + S (S (List.length (cl_in lx)))) < 18446744073709551616)%Z) by (unfold room in L; lia).
  assert (PP : (Z.of_nat (cl_position lx) < 18446744073709551616)%Z) by lia.
  destruct (does_loop al d RF AF (S (S (List.length (cl_in lx)))) (mkCpp (cl_in lx) (cl_ch lx) (cl_err lx) (cl_position lx) (cl_position lx) (cl_end lx)) 0 lx' tk (token_value k) B C LL H (ex_intro _ k (conj K eq_refl))) as (q' & D). unfold next_body. eapply does_eq.
  - apply does_block. eapply runs_cons; [|eapply runs_cons; [|apply runs_stop; [exact D|discriminate]]].
    + apply does_soon. intros n. reflexivity.
    + apply does_soon. intros n. cbn. change (Z.of_nat (cl_position lx) mod 18446744073709551616)%Z with (wrap U64 (Z.of_nat (cl_position lx))). rewrite wrap_u64 by lia. reflexivity.
  - reflexivity.
  - reflexivity.
Qed.
End Running.

(** ** Room is kept *)

Lemma loop_room : forall al d, alphabet_switch al 0 0 = Some 0 -> forall fuel lx q lx' tk, Forall is_byte (cl_in lx) -> (cl_ch lx < 2 ^ 32)%N -> cpp_loop al d fuel lx q = Ok (lx', tk) ->
  Forall is_byte (cl_in lx') /\ (cl_ch lx' < 2 ^ 32)%N /\ room lx' <= room lx.
Proof.
  intros al d Z0. induction fuel as [|fuel IH]; intros lx q lx' tk B C H; [discriminate|]. cbn [cpp_loop] in H. fold (decoded lx) in H. cbv zeta in H. pose proof (decoded_fits lx B C) as C1.
  assert (B1 : Forall is_byte (cl_in (decoded lx)) /\ room (decoded lx) <= room lx /\ cl_ch (decoded lx) <> no_char).
  { unfold decoded, room. destruct (cl_ch lx =? no_char)%N eqn:E; [|rewrite E; split; [exact B|split; [lia|apply N.eqb_neq; exact E]]]. destruct (rest_of_bytes (cl_in lx)) as (pre & Q & NE).
    destruct (utf8_decode (cl_in lx)) as ((c, e), rest) eqn:D. cbn [cl_in snd cl_ch cl_position] in *. pose proof B as B0. rewrite Q in B. apply Forall_app in B. split; [exact (proj2 B)|]. cbn [orb]. split; [|pose proof (decode_small _ _ _ _ B0 D) as SM; change (2 ^ 25)%N with 33554432%N in SM; unfold no_char; intros ->; lia]. destruct (cl_in lx) as [|b0 bs] eqn:EI.
    - vm_compute in D. injection D as <- _ <-. cbn. lia.
    - assert (pre <> []) by (apply NE; discriminate). destruct pre; [congruence|]. rewrite Q. cbn [Datatypes.app List.length]. rewrite app_length. destruct ((c =? no_char) || (c =? 0))%N; lia. }
  destruct B1 as (B1 & R1 & N1). generalize dependent (decoded lx). intros l1 H C1 B1 R1 N1. destruct (negb (cl_err l1 =? 0)%N); [injection H as <- <-; repeat split; assumption|].
  destruct (alphabet_switch al 0 (cl_ch l1)) as [i|] eqn:EA; [|injection H as <- <-; repeat split; assumption]. destruct (automaton_switch d q i) as [v|name|tk'] eqn:EM; [|injection H as <- <-; repeat split; assumption..].
  destruct (IH (mkCpp (cl_in l1) no_char (cl_err l1) (S (cl_position l1)) (cl_start l1) (cl_end l1)) v lx' tk B1 eq_refl H) as (A1 & A2 & A3). split; [exact A1|]. split; [exact A2|]. etransitivity; [exact A3|]. etransitivity; [|exact R1]. unfold room. cbn [cl_ch cl_position cl_in]. rewrite N.eqb_refl. cbn [orb].
  destruct (N.eqb_spec (cl_ch l1) 0) as [X|X].
  - rewrite X, Z0 in EA. injection EA as <-. exfalso. unfold automaton_switch in EM. destruct (nth_error (dfa_nodes d) q); [|discriminate]. destruct (Nat.eqb q 0 && Nat.eqb 0 0); [discriminate|].
    destruct (find _ _) as [(t, u)|] eqn:F; [|destruct a; discriminate]. apply find_some in F. destruct F as (_ & F). cbn [fst] in F. destruct t; discriminate.
  - destruct (N.eqb_spec (cl_ch l1) no_char) as [Y|Y]; cbn [orb]; [congruence|lia].
Qed.
Lemma fits_kept : forall al d lx lx' tk, alphabet_switch al 0 0 = Some 0 -> lexer_fits lx -> cpp_next al d lx = Ok (lx', tk) -> lexer_fits lx'.
Proof.
  intros al d lx lx' tk Z0 (B & C & L) H. unfold cpp_next in H. destruct (loop_room al d Z0 _ (mkCpp (cl_in lx) (cl_ch lx) (cl_err lx) (cl_position lx) (cl_position lx) (cl_end lx)) _ _ _ B C H) as (B' & C' & L'). split; [exact B'|]. split; [exact C'|]. unfold room in L' at 2. cbn [cl_position cl_in cl_ch] in L'. fold (room lx) in L'. lia.
Qed.
