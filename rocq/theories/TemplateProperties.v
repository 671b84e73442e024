(** Property theorems C31 about templates and output targets. *)
From Coq Require Import String List Arith NArith Bool Lia.
From Verif Require Import Base TemplateModel TemplateFiles TemplateSpec TemplateProof.
Import ListNotations.
Local Open Scope nat_scope.
Local Open Scope list_scope.

(** C31.  Every template has exactly one division into text and keys, and writing it gives, with enough fuel, exactly the one expansion of the pieces: text unchanged
    and in order, the substitution of the trimmed key for each placeholder, up to the first failing or missing substitution. *)
Theorem template_written : forall calls t, exists l last out x, pieces t l last /\ (forall l' last', pieces t l' last' -> l' = l /\ last' = last) /\
  (forall fuel, length t < fuel -> template_write fuel (supplied calls) t = (out, x)) /\ expands (supplied calls) l last out x /\ (forall out' x', expands (supplied calls) l last out' x' -> out' = out /\ x' = x).
Proof. exact write_outcome. Qed.
Example template_written_case : template_write 50 (supplied [(chars "k", (chars "XY", true)); (chars "n", (chars "Z", true))]) (chars "a/*{ k }*/b/*{n}*/ /*{c") = (chars "aXYbZ /*{c", Done) /\
  template_write 50 (supplied [(chars "k", (chars "XY", true))]) (chars "a/*{k}*/b/*{n}*/c") = (chars "aXYb", Panicked).
Proof. split; vm_compute; reflexivity. Qed.
Print Assumptions template_written.

(** C31.  The last substitution supplied for a key counts. *)
Theorem substitution_last : forall calls key w, In (key, w) (supplied calls) <-> exists a b, calls = a ++ (key, w) :: b /\ ~ In key (map fst b).
Proof. exact supplied_last. Qed.
Example substitution_last_case : supplied [(chars "k", (chars "X", true)); (chars "j", (chars "Z", true)); (chars "k", (chars "Y", true))] = [(chars "j", (chars "Z", true)); (chars "k", (chars "Y", true))].
Proof. vm_compute. reflexivity. Qed.
Print Assumptions substitution_last.

(** C31.  Keys are trimmed. *)
Theorem keys_trimmed : forall k key, trimmed k key <-> key = trim k.
Proof. exact trim_iff. Qed.
Example keys_trimmed_case : trim (chars "  a b ") = chars "a b" /\ trim [8239; 65; 160]%N = [65]%N.
Proof. split; vm_compute; reflexivity. Qed.
Print Assumptions keys_trimmed.

(** C31.  If no substitution fails, writing panics exactly if some placeholder has none. *)
Theorem template_panics : forall calls t, (forall key w ok, In (key, (w, ok)) calls -> ok = true) -> forall l last, pieces t l last -> forall fuel, length t < fuel ->
  (snd (template_write fuel (supplied calls) t) = Panicked <-> exists p k key, In (p, k) l /\ trimmed k key /\ ~ In key (map fst calls)) /\
  (snd (template_write fuel (supplied calls) t) <> Panicked -> snd (template_write fuel (supplied calls) t) = Done).
Proof. exact write_panics. Qed.
Example template_panics_case : snd (template_write 50 (supplied [(chars "k", (chars "XY", true))]) (chars "/*{k}*/")) = Done /\ snd (template_write 50 (supplied [(chars "k", (chars "XY", true))]) (chars "/*{j}*/")) = Panicked.
Proof. split; vm_compute; reflexivity. Qed.
Print Assumptions template_panics.

(** C31.  Round trip: a template put together from text without [/*{] and keys without newlines and [}*/] is expanded as intended. *)
Theorem template_round_trip : forall calls value l last, (forall p k, In (p, k) l -> ~ occurs opening p /\ ~ In 10%N k /\ ~ occurs closing k) -> ~ occurs opening last ->
  (forall p k, In (p, k) l -> exists key, trimmed k key /\ In (key, (value k, true)) (supplied calls)) ->
  forall fuel, length (template_of l last) < fuel -> template_write fuel (supplied calls) (template_of l last) = (concat (map (fun pk => fst pk ++ value (snd pk)) l) ++ last, Done).
Proof. exact write_template_of. Qed.
Example template_round_trip_case : let l := [(chars "int ", chars "name"); (chars " = /", chars "val}")] in let last := chars ";" in
  (forall p k, In (p, k) l -> ~ occurs opening p /\ ~ In 10%N k /\ ~ occurs closing k) /\ ~ occurs opening last /\ template_of l last = chars "int /*{name}*/ = //*{val}}*/;" /\
  template_write 50 (supplied [(chars "name", (chars "x", true)); (chars "val}", (chars "0", true))]) (template_of l last) = (chars "int x = /0;", Done).
Proof.
  assert (X : forall p t, occursb p t = false -> ~ occurs p t).
  { intros p. induction t as [|c t IH]; cbn; intros H (a & b & E); destruct (strip p _) as [r|] eqn:F; try discriminate; pose proof (proj1 (strip_none _ _) F) as N.
    - destruct a as [|y a]; [exact (N b E)|discriminate].
    - destruct a as [|y a]; [exact (N b E)|]. cbn in E. injection E as <- E. apply (IH H). exists a, b. exact E. }
  cbv zeta. split.
  - intros p k [E|[E|[]]]; injection E as <- <-; (split; [apply X; vm_compute; reflexivity|]; split; [intros H; vm_compute in H; repeat destruct H as [H|H]; try discriminate; destruct H|apply X; vm_compute; reflexivity]).
  - split; [apply X; vm_compute; reflexivity|]. split; vm_compute; reflexivity.
Qed.
Print Assumptions template_round_trip.

(** C31.  Whatever the code generators write for the keys, no template of lapex-cpp-codegen lacks a substitution, ... *)
Theorem cpp_templates_filled : forall name t keys, In (name, t, keys) cpp_templates -> forall calls, map fst calls = map chars keys -> (forall key w ok, In (key, (w, ok)) calls -> ok = true) ->
  forall fuel, length t < fuel -> snd (template_write fuel (supplied calls) t) = Done.
Proof. exact templates_filled. Qed.
Example cpp_templates_filled_case : In ("tokens.h", tokens_h, ["token_enum_variants"])%string cpp_templates /\
  exists out, template_write 300 (supplied [(chars "token_enum_variants", (chars "TK_A,", true))]) tokens_h = (out, Done) /\ occurs (chars "TK_EOF = 1,
        TK_A,
    };") out.
Proof. split; [do 2 right; left; reflexivity|]. eexists. split; [vm_compute; reflexivity|]. apply occursb_ok. vm_compute. reflexivity. Qed.
Print Assumptions cpp_templates_filled.
(** C31.  ... and every substitution is used, except in parser_impl.h of the LL parser. *)
Theorem cpp_templates_used : forall name t keys, In (name, t, keys) cpp_templates -> name <> "LL parser_impl.h"%string -> forall key, In key keys -> forall l last, pieces t l last ->
  exists p k, In (p, k) l /\ trimmed k (chars key).
Proof. exact templates_used. Qed.
Example cpp_templates_used_case : In ("LR parser.cpp", lr_parser_cpp, ["action_table"; "goto_table"; "stack_reduce_table"])%string cpp_templates /\ exists l last, pieces lr_parser_cpp l last.
Proof. split; [do 9 right; left; reflexivity|apply pieces_exist]. Qed.
Print Assumptions cpp_templates_used.
(** C31.  The entry non-terminal of the emitted LL parser is never filled in: the output has the key in braces. *)
Theorem cpp_ll_entry_filled_refuted : exists name t keys, In (name, t, keys) cpp_templates /\ In "grammar_entry_non_terminal"%string keys /\
  forall calls, map fst calls = map chars keys -> (forall key w ok, In (key, (w, ok)) calls -> ok = true) ->
  forall fuel, length t < fuel -> occurs (chars "{grammar_entry_non_terminal}") (fst (template_write fuel (supplied calls) t)).
Proof. eexists. exists ll_parser_impl_h. eexists. split; [do 6 right; left; reflexivity|]. split; [do 2 right; left; reflexivity|]. exact ll_entry_left. Qed.
Print Assumptions cpp_ll_entry_filled_refuted.

(** C31.  Generated code is appended to the target of its name, or else becomes a file of that name; the targets stay the same. *)
Theorem generated_code_targets : forall calls w, msorted (cw_targets w) ->
  msorted (cw_targets (generate_all calls w)) /\
  (forall key, In key (map fst (cw_targets (generate_all calls w))) <-> In key (map fst (cw_targets w))) /\
  (forall key b, In (key, b) (cw_targets w) -> In (key, b ++ concat (map snd (filter (fun c => if cmp_dec (fst c) key then true else false) calls))) (cw_targets (generate_all calls w))) /\
  cw_files (generate_all calls w) = cw_files w ++ filter (fun c => negb (map_mem (fst c) (cw_targets w))) calls.
Proof. exact generate_all_spec. Qed.
Example generated_code_targets_case : generate_all [(chars "tokens", chars "T"); (chars "lexer", chars "L"); (chars "tokens", chars "U")] (add_target (chars "tokens") [] (mkWriter [] [])) =
  mkWriter [(chars "tokens", chars "TU")] [(chars "lexer", chars "L")] /\ msorted (cw_targets (add_target (chars "tokens") [] (mkWriter [] []))).
Proof. split; [vm_compute; reflexivity|]. apply map_insert_sorted. apply msorted_nil. Qed.
Print Assumptions generated_code_targets.
