(** Concrete Rust parsers used as witnesses beside the theorems about their code. *)
From Coq Require Import String Ascii List Arith NArith Bool.
From Verif Require Import Base InputModel LexerSpec LexerModel LexerExample GrammarModel GrammarSpec LLModel LLSpec LLExample LRModel LRSpec LRExample LRTermSpec GLRSpec NamesModel NamesSpec NamesVisitProof RunModel RunSpec RunProof RunExample CppLRExample
  TemplateModel TemplateFiles RustTokenSpec RustQuoteModel RustSpec RustLexTextModel RustLexTextSpec RustLexTextExample RustLRTextModel RustPullModel RustLRTextSpec RustLREndSpec RustLRGenProof.
Import ListNotations.
Local Open Scope string_scope.
Local Open Scope list_scope.

Fixpoint distinct (l : list string) : bool := match l with [] => true | s :: l => negb (existsb (String.eqb s) l) && distinct l end.
Lemma distinct_ok : forall l, distinct l = true -> NoDup l.
Proof.
  induction l as [|s l IH]; intros H; [constructor|]. cbn in H. apply andb_true_iff in H. destruct H as (A & B). constructor; [|exact (IH B)]. intros I. apply negb_true_iff in A.
  assert (E : existsb (String.eqb s) l = true) by (apply existsb_exists; exists s; split; [exact I|apply String.eqb_refl]). congruence.
Qed.
Definition distinct_res (r : res name_err (list string)) : bool := match r with Ok l => distinct l | _ => false end.
Lemma distinct_res_ok : forall r, distinct_res r = true -> exists vs, r = Ok vs /\ NoDup vs.
Proof. intros [l|e| |] H; try discriminate. exists l. split; [reflexivity|exact (distinct_ok l H)]. Qed.
Definition usableb (g : grammar) : bool :=
  forallb (fun e => spelledb (snd e)) (g_tokens g) && forallb (fun e => spelledb (snd e)) (g_prods g) && forallb (fun r => match pr_tag (r_prod r) with Some t => spelledb t | None => true end) (g_rules g) &&
  distinct_res (rust_token_variants (map snd (g_tokens g))) && distinct_res (rust_non_terminal_variants g).
Lemma usableb_ok : forall g, usableb g = true -> usable_names g.
Proof.
  intros g H. unfold usableb in H. apply andb_true_iff in H. destruct H as (H & E). apply andb_true_iff in H. destruct H as (H & D). apply andb_true_iff in H. destruct H as (H & C). apply andb_true_iff in H. destruct H as (A & B).
  rewrite forallb_forall in A, B, C. split.
  - intros s n I. exact (spelledb_ok _ (A _ I)).
  - intros s n I. exact (spelledb_ok _ (B _ I)).
  - intros r t I T. specialize (C _ I). rewrite T in C. exact (spelledb_ok _ C).
  - exact (distinct_res_ok _ D).
  - exact (distinct_res_ok _ E).
Qed.

(** ** The grammar of sums *)
Lemma sum_names : usable_names ll_g. Proof. apply usableb_ok. vm_compute. reflexivity. Qed.
Lemma sum_fits : fits ll_g lr1_p. Proof. exact (generated_fits KindLR1 100 ll_g false lr1_tb lr1_p ll_g_wf lr1_tb_ok lr1_p_ok). Qed.

(** What is in the file: the enums and the trait of the visitor. *)
Definition sum_items : option (list string * list string * list string) :=
  match parser_rs ll_g lr1_p with
  | Ok file => match enum_of "ReducedRule" file, enum_of "NonTerminalType" file, trait_of "Visitor" file with Some a, Some b, Some c => Some (a, b, map fst c) | _, _, _ => None end
  | _ => None
  end.
(** A visitor that keeps a list of its calls, and a token function whose data are the place of the lexeme. *)
Definition listing (v : value) (m : string) (args : list value) : value := match v with VVec l => VVec (l ++ [VTuple (VCon [m] [] :: args)]) | _ => v end.
Definition place (self : value) : value := match self with VCon _ [_; _; (_, a); (_, b)] => VTuple [a; b] | _ => VUnit end.
Definition sum_run (LF : lexer_functions) (PF : parser_functions) (text : list N) : option (list value * outcome) :=
  run_function (parser_outer 20 listing (calling_next LF place) PF) 20 (f_parse PF) [parser_value (lexer_value (lexer_new text)) (VVec [])].
Definition shift_of (token : string) (a b : N) : value := VTuple [VCon ["shift"] []; variant token; VTuple [usize_value a; usize_value b]].
Definition reduce_of (m : string) : value := VTuple [VCon [m] []].
Definition sum_calls : list value :=
  [shift_of "TkNum" 0 1; reduce_of "reduce_term_1"; shift_of "TkAdd" 1 2; shift_of "TkNum" 2 4; reduce_of "reduce_term_1"; reduce_of "reduce_anon4_1"; reduce_of "reduce_anon4_2"; reduce_of "reduce_expr"].
(** The functions in the files run on ["1+20"], on ["1+"] and on ["1+x"]. *)
Lemma sum_code : forall lfile pfile LF PF, lexer_rs sum_al sum_dfa = Ok lfile -> functions_in lfile LF -> parser_rs ll_g lr1_p = Ok pfile -> parser_functions_in pfile PF ->
  sum_run LF PF sum_text = Some ([parser_value (lexer_value (mkLexer sum_text [] 4 4)) (VVec sum_calls)], Val (VOk VUnit)) /\
  (exists self, sum_run LF PF short_text = Some ([self], Val (VErr (parser_error_value ll_g (UnexpectedTok None [Some 0%N; Some 2%N]))))) /\
  exists self, sum_run LF PF alien_text = Some ([self], Panics).
Proof.
  intros lfile pfile LF PF LW LI PW PI.
  pose proof (RustLexTextProof.lexer_written sum_al sum_dfa (nodes_named sum_rules ll_g 100 sum_al sum_dfa sum_small sum_built sum_usable sum_lexer sum_names)) as LW'. assert (lfile = RustLexTextProof.lexer_tokens sum_al sum_dfa) as -> by congruence.
  pose proof (RustLRTextProof.parser_written _ _ sum_built sum_names lr1_p sum_fits) as PW'. assert (pfile = RustLRTextProof.parser_trees ll_g lr1_p) as -> by congruence.
  rewrite (RustLexRunProof.functions_unique _ _ _ LI (RustLexRunProof.the_functions_in sum_al sum_dfa)), (parser_functions_unique _ _ _ PI (RustLRParseProof.the_parser_in ll_g lr1_p)).
  split; [vm_compute; reflexivity|]. split; eexists; vm_compute; reflexivity.
Qed.

(** ** Productions whose names differ by case *)
Definition case_items : option (list string) := match parser_rs case_g case_p with Ok file => enum_of "NonTerminalType" file | _ => None end.
Lemma case_twice : case_items = Some ["NtS"; "NtS"]. Proof. vm_compute. reflexivity. Qed.
