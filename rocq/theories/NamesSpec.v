(** Specification vocabulary for names. *)
From Coq Require Import String Ascii List Arith NArith Bool.
From Verif Require Import InputModel GrammarModel NamesModel.
Import ListNotations.
Local Open Scope string_scope.

(** [_name_] has two underscores in a row: there is an empty segment. *)
Definition empty_segment (name : string) : Prop := exists p s, "_" ++ name ++ "_" = p ++ "__" ++ s.

Fixpoint all_chars (P : ascii -> Prop) (s : string) : Prop :=
  match s with EmptyString => True | String c s' => P c /\ all_chars P s' end.
Definition ascii_name (name : string) : Prop := all_chars (fun c => (N_of_ascii c < 128)%N) name.

Definition letter (c : ascii) : bool := is_upper c || is_lower c.
Definition starts_with_letter (s : string) : bool := match s with EmptyString => false | String c _ => letter c end.

(** What enumerators keep of a name: case does not matter, and neither does an underscore which is not in front of a letter. *)
Fixpoint kept (s : string) : string :=
  match s with
  | EmptyString => EmptyString
  | String c s' => if Ascii.eqb c "_" && negb (starts_with_letter s') then kept s' else String (ascii_lower c) (kept s')
  end.

Definition digit (c : ascii) : Prop := (48 <= N_of_ascii c <= 57)%N.

(** A name which ends in an underscore and digits. *)
Definition numbered (s : string) : Prop := exists p d, s = p ++ "_" ++ d /\ d <> "" /\ all_chars digit d.

(** The rules of a non-terminal, with their indices in the grammar. *)
Definition rules_of (g : grammar) (i : N) : list (nat * rule) :=
  filter (fun e => match r_lhs (snd e) with Some j => N.eqb j i | None => false end) (combine (seq 0 (length (g_rules g))) (g_rules g)).

(** [named g i n]: the non-terminal [i] is called [n]; one without a name in the grammar file is called anon and its number. *)
Definition named (g : grammar) (i : N) (n : string) : Prop :=
  In (NonTerminal i, n) (g_prods g) \/ (~ In (NonTerminal i) (map fst (g_prods g)) /\ n = "anon" ++ decimal i).

(** The labels which tell the rules of a non-terminal apart: the tag, or else the position. *)
Definition labels (tags : bool) (g : grammar) (i : N) : list string :=
  map (fun pe => match pr_tag (r_prod (snd (snd pe))) with
                 | Some t => if tags then t else decimal (N.of_nat (fst pe))
                 | None => decimal (N.of_nat (fst pe))
                 end) (combine (seq 1 (length (rules_of g i))) (rules_of g i)).

Definition no_underscore (s : string) : Prop := all_chars (fun c => c <> "_"%char) s.

(** [reduces tags g k m]: [m] is the method for the [k]-th rule of the grammar. *)
Definition reduces (tags : bool) (g : grammar) (k : nat) (m : string) : Prop :=
  exists i n, named g i n /\
  ((exists r, rules_of g i = [(k, r)] /\ m = ("reduce_" ++ n)) \/
   ((1 < length (rules_of g i))%nat /\ exists l, In (k, l) (combine (map fst (rules_of g i)) (labels tags g i)) /\ m = ("reduce_" ++ n ++ "_" ++ l))).
