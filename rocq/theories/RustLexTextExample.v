(** Concrete Rust lexers used as witnesses beside the theorems about their code. *)
From Coq Require Import String Ascii List Arith NArith Bool.
From Verif Require Import Base InputModel LexerModel LexerSpec LexerExample TemplateModel TemplateFiles NamesModel NamesSpec NamesProof NamesVisitProof RustTokenSpec RustQuoteModel RustSpec RustLexTextModel RustLexTextSpec RustLexTextProof RustLexGenProof CppLexTextExample.
Import ListNotations.
Local Open Scope string_scope.
Local Open Scope list_scope.

Definition spelledb (s : string) : bool := forallb name_char (chars s).
Lemma spelledb_ok : forall s, spelledb s = true -> spelled s.
Proof. intros s H c I. unfold spelledb in H. rewrite forallb_forall in H. exact (H c I). Qed.
Definition whole (s : string) : bool := match get_token_enum_name s with Ok _ => true | _ => false end.
Lemma whole_ok : forall s, spelledb s = true -> whole s = true -> ~ empty_segment s.
Proof. intros s A B E. apply (enum_cases s (spelledb_ok s A)) in E. unfold whole in B. rewrite E in B. discriminate. Qed.
Lemma one_named : forall node, In node (dfa_nodes one_dfa) -> named_node node.
Proof. intros node [<-|[<-|[]]]; [exact I|]. split; [exact (spelledb_ok "A" eq_refl)|eexists; reflexivity]. Qed.

(** The arms of the [match] expressions in the code of a lexer, written as the patterns and what is behind them. *)
Fixpoint arm_list (l : arms) : list (pat * expr) := match l with ANil => [] | ACons p e l => (p, e) :: arm_list l end.
Definition parsed_body (file : list tree) (f : string) : option block :=
  match impl_of "Lexer" file with Some g => match function_of f g with Some (_, b) => p_block (rust_parsers 40) b | None => None end | None => None end.
Definition one_arms (al : alphabet) (d : dfa token_rule) : option (list (pat * expr) * list (pat * expr) * list pat) :=
  match lexer_rs al d with
  | Ok file =>
    match parsed_body file "get_alphabet_index", parsed_body file "get_alphabet_range", parsed_body file "next" with
    | Some (BTail (EMatch _ a)), Some (BTail (EMatch _ b)), Some (BLet _ _ _ (BStmt _ (BTail (ELoop (BLet _ _ _ (BLet _ _ _ (BTail (EMatch _ c)))))))) => Some (arm_list a, arm_list b, map fst (arm_list c))
    | _, _, _ => None
    end
  | _ => None
  end.
Definition some_int (n : N) : expr := ECall (EPath ["Some"]) (XCons (EInt n "usize") XNil).
Definition some_range (a b : N) : expr := ECall (EPath ["Some"]) (XCons (ERange true (EInt a "u32") (EInt b "u32")) XNil).
Definition one_index : list (pat * expr) := [(PLit 0 "u32", some_int 0); (PBetween 1 96 "u32", some_int 1); (PLit 97 "u32", some_int 2); (PBetween 98 1114110 "u32", some_int 3); (PLit 1114111 "u32", some_int 4); (PWild, EPath ["None"])].
Definition one_range : list (pat * expr) := [(PLit 0 "usize", some_range 0 0); (PLit 1 "usize", some_range 1 96); (PLit 2 "usize", some_range 97 97); (PLit 3 "usize", some_range 98 1114110); (PLit 4 "usize", some_range 1114111 1114111); (PWild, EPath ["None"])].
Definition one_automaton : list pat :=
  [PTuple [PLit 0 "usize"; PLit 0 ""]; PTuple [PLit 0 "usize"; PLit 2 "usize"]; PTuple [PLit 0 "usize"; PBind "transition"]; PTuple [PLit 1 "usize"; PWild]; PTuple [PWild; PWild]].
(** A call of [next], computed from the tokens of the file. *)
Definition the_function (file : list tree) (f : string) (ps : list (string * bool)) : function := match parsed_body file f with Some b => mkFunction ps b | None => mkFunction ps BNil end.
Definition one_call (al : alphabet) (d : dfa token_rule) (self : value) : option (list value * outcome) :=
  match lexer_rs al d with
  | Ok file =>
    let F := mkFunctions (the_function file "new" [("src", false)]) (the_function file "get_alphabet_index" [("c", false)]) (the_function file "get_alphabet_range" [("c", false)])
      (the_function file "next" [("self", true)]) (the_function file "span" [("self", false)]) (the_function file "slice" [("self", false)]) in
    run_function (lexer_outer 10 F) 10 (f_next F) [self]
  | _ => None
  end.
(** A rule with a name that begins with an underscore, accepted by an automaton. *)
Definition under_rule : token_rule := mkTokenRule "_A" None (TLiteral [97%N]).
Definition under_dfa : dfa token_rule := mkDfa [Intermediate 0; Accepting under_rule] [] 0.
Lemma ex_spelled : forall r, In r ex_rules -> spelled (tr_name r) /\ ~ empty_segment (tr_name r).
Proof.
  assert (X : forallb (fun r => spelledb (tr_name r) && whole (tr_name r)) ex_rules = true) by (vm_compute; reflexivity). rewrite forallb_forall in X. intros r R. specialize (X r R). apply andb_true_iff in X. destruct X as [A B]. split; [exact (spelledb_ok _ A)|exact (whole_ok _ A B)].
Qed.
Definition ex_variants : list string := ["TkIf"; "TkId"; "TkNum"; "TkWs"].
