(** Specification vocabulary for the lexer: languages, regular-expression matching, paths in labelled
    graphs, lexical analysis.  Nothing here refers to the model's algorithms. *)
From Coq Require Import String List Arith NArith Bool.
From Verif Require Import Base InputModel.
Import ListNotations.
Open Scope N_scope.

(** Languages over any alphabet. *)
Definition lang (A : Type) := list A -> Prop.

Definition lcat {A} (L M : lang A) : lang A :=
  fun w => exists w1 w2, w = w1 ++ w2 /\ L w1 /\ M w2.

(** Concatenation of a list of languages. *)
Fixpoint lseq {A} (Ls : list (lang A)) : lang A :=
  match Ls with
  | [] => fun w => w = []
  | L :: Ls' => lcat L (lseq Ls')
  end.

(** [k]-fold concatenation. *)
Fixpoint lpow {A} (L : lang A) (k : nat) : lang A :=
  match k with
  | O => fun w => w = []
  | S k' => lcat L (lpow L k')
  end.

Fixpoint lunion {A} (Ls : list (lang A)) : lang A :=
  match Ls with
  | [] => fun _ => False
  | L :: Ls' => fun w => L w \/ lunion Ls' w
  end.

(** Bounded repetition. *)
Definition lrep {A} (mn : N) (mx : option N) (L : lang A) : lang A :=
  fun w => exists k : nat, mn <= N.of_nat k /\
    match mx with None => True | Some m => N.of_nat k <= m end /\ lpow L k w.

(** Characters denoted by a [characters]. *)
Definition in_characters (c : characters) (x : N) : Prop :=
  match c with
  | Single y => x = y
  | CRange a b => a <= x <= b
  end.

(** Regular-expression semantics of patterns. *)
Fixpoint matches (p : pattern) : lang N :=
  match p with
  | PSeq l => lseq (map matches l)
  | PAlt l => lunion (map matches l)
  | PRep mn mx q => lrep mn mx (matches q)
  | PSet cs neg => fun w => exists c, w = [c] /\
      (if neg then ~ Exists (fun s => in_characters s c) cs else Exists (fun s => in_characters s c) cs)
  | PChar s => fun w => exists c, w = [c] /\ in_characters s c
  end.

Definition rule_matches (r : token_rule) (w : list N) : Prop := matches (rule_pattern r) w.

(** The empty sequence is a regular expression for the empty text, but the generator gives it no
    transition at all; [norm] replaces it by the empty alternative, which matches nothing. *)
Fixpoint norm (p : pattern) : pattern :=
  match p with
  | PSeq [] => PAlt []
  | PSeq l => PSeq (map norm l)
  | PAlt l => PAlt (map norm l)
  | PRep mn mx q => PRep mn mx (norm q)
  | PSet cs b => PSet cs b
  | PChar c => PChar c
  end.

(** [q] occurs in [p]. *)
Inductive subpattern (q : pattern) : pattern -> Prop :=
| sub_refl : subpattern q q
| sub_seq : forall p l, In p l -> subpattern q p -> subpattern q (PSeq l)
| sub_alt : forall p l, In p l -> subpattern q p -> subpattern q (PAlt l)
| sub_rep : forall mn mx p, subpattern q p -> subpattern q (PRep mn mx p).

(** Every part of the rule can match something, and there is no empty sequence. *)
Definition proper_pattern (p : pattern) : Prop :=
  forall q, subpattern q p -> q <> PSeq [] /\ exists w, Forall valid_char w /\ matches q w.
Definition proper_rules (rules : list token_rule) : Prop :=
  forall r, In r rules -> proper_pattern (rule_pattern r).

(** Repetitions the generator can process. *)
Definition bad_repetition (p : pattern) : Prop :=
  exists mn m q, subpattern (PRep mn (Some m) q) p /\ m <= mn.

(** Characters written in a pattern. *)
Inductive mentions (c : N) : pattern -> Prop :=
| men_seq : forall p l, In p l -> mentions c p -> mentions c (PSeq l)
| men_alt : forall p l, In p l -> mentions c p -> mentions c (PAlt l)
| men_rep : forall mn mx p, mentions c p -> mentions c (PRep mn mx p)
| men_set_s : forall cs b, In (Single c) cs -> mentions c (PSet cs b)
| men_set_l : forall cs b c2, In (CRange c c2) cs -> mentions c (PSet cs b)
| men_set_r : forall cs b c1, In (CRange c1 c) cs -> mentions c (PSet cs b)
| men_char_s : mentions c (PChar (Single c))
| men_char_l : forall c2, mentions c (PChar (CRange c c2))
| men_char_r : forall c1, mentions c (PChar (CRange c1 c)).

(** All characters written in the rules are code points. *)
Definition valid_rules (rules : list token_rule) : Prop :=
  forall r c, In r rules -> mentions c (rule_pattern r) -> valid_char c.

(** Paths in a graph given by its labelled edges; [None] labels are silent. *)
Inductive path (E : list (nat * option nat * nat)) : nat -> list nat -> nat -> Prop :=
| path_nil : forall u, path E u [] u
| path_eps : forall u v w x, In (u, None, v) E -> path E v w x -> path E u w x
| path_step : forall u t v w x, In (u, Some t, v) E -> path E v w x -> path E u (t :: w) x.

(** Runs of a deterministic automaton: the state after reading a word from a state. *)
Inductive run (E : list (nat * nat * nat)) : nat -> list nat -> nat -> Prop :=
| run_nil : forall u, run E u [] u
| run_step : forall u t v w x, In (u, t, v) E -> run E v w x -> run E u (t :: w) x.

Definition deterministic (E : list (nat * nat * nat)) : Prop :=
  forall u t v v', In (u, t, v) E -> In (u, t, v') E -> v = v'.

(** ** What a user expects of token selection *)

(** [filtered P l s]: [s] lists, in order, the elements of [l] satisfying [P]. *)
Inductive filtered {A} (P : A -> Prop) : list A -> list A -> Prop :=
| filtered_nil : filtered P [] []
| filtered_keep : forall a l s, P a -> filtered P l s -> filtered P (a :: l) (a :: s)
| filtered_drop : forall a l s, ~ P a -> filtered P l s -> filtered P (a :: l) s.

(** No rule contains an empty sequence (such as the empty literal). *)
Definition no_empty_sequence (rules : list token_rule) : Prop :=
  forall r q, In r rules -> subpattern q (rule_pattern r) -> q <> PSeq [].

(** Precedence of a pattern: roughly the length of its shortest match. *)
Inductive pattern_prec : pattern -> N -> Prop :=
| pp_seq : forall l ns, Forall2 pattern_prec l ns -> pattern_prec (PSeq l) (fold_right N.add 0 ns)
| pp_alt : forall l ns m, Forall2 pattern_prec l ns -> In m ns -> (forall n, In n ns -> m <= n) ->
    pattern_prec (PAlt l) m
| pp_rep : forall mn mx p n, pattern_prec p n -> pattern_prec (PRep mn mx p) (mn * n)
| pp_set : forall cs b, pattern_prec (PSet cs b) 1
| pp_char : forall c, pattern_prec (PChar c) 1.

(** Precedence of a rule: the explicit one, else twice the length of a literal, else the pattern's. *)
Definition has_precedence (r : token_rule) (n : N) : Prop :=
  match tr_prec r, tr_pattern r with
  | Some k, _ => n = k
  | None, TLiteral cs => n = 2 * N.of_nat (length cs)
  | None, TPattern p => pattern_prec p n
  end.

(** [tied] are the rules of precedence [h] matching [w]; there are several of them, and no rule
    matching [w] has a higher precedence. *)
Definition tie (rules : list token_rule) (w : list N) (h : N) (tied : list token_rule) : Prop :=
  filtered (fun r => rule_matches r w /\ has_precedence r h) rules tied /\
  (2 <= length tied)%nat /\
  forall r, In r rules -> rule_matches r w -> exists n, has_precedence r n /\ n <= h.

(** [r] has the strictly highest precedence among the rules matching [w]. *)
Definition best_rule (rules : list token_rule) (w : list N) (r : token_rule) : Prop :=
  exists before after, rules = before ++ r :: after /\ rule_matches r w /\
  forall r', In r' (before ++ after) -> rule_matches r' w ->
    exists n n', has_precedence r n /\ has_precedence r' n' /\ n' < n.

(** [r] has the strictly highest precedence in the list [sel]. *)
Definition best_of (sel : list token_rule) (r : token_rule) : Prop :=
  exists before after, sel = before ++ r :: after /\
  forall r', In r' (before ++ after) -> exists n n', has_precedence r n /\ has_precedence r' n' /\ n' < n.

(** Labels of the accepting ones among the states [c], in the order of [c]; [label x = Some a] says that
    [x] is accepting with label [a]. *)
Definition labels_along {A} (label : nat -> option A) (c : list nat) (ls : list A) : Prop :=
  exists c', filtered (fun x => label x <> None) c c' /\ Forall2 (fun x a => label x = Some a) c' ls.

(** [w] can be extended to a match of some rule. *)
Definition viable (rules : list token_rule) (w : list N) : Prop :=
  exists r w', In r rules /\ Forall valid_char w' /\ rule_matches r (w ++ w').

Definition matched (rules : list token_rule) (w : list N) : Prop :=
  exists r, In r rules /\ rule_matches r w.

(** The remaining input is exhausted or continues with NUL. *)
Definition at_end (rest : list N) : Prop := match rest with [] => True | c :: _ => c = 0 end.

(** The next character of the remaining input, NUL at its end. *)
Definition head_char (rest : list N) : N := match rest with [] => 0 | c :: _ => c end.
