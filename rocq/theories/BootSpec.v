(** The concrete syntax of grammar files as the bootstrap parser should read it: which bytes spell which rules. *)
From Coq Require Import String Ascii List Arith NArith Bool.
From Verif Require Import Base InputModel BootModel.
Import ListNotations.
Local Open Scope nat_scope.
Local Open Scope list_scope.

(** ** Characters *)

(** A Unicode scalar value: what a Rust [char] can be. *)
Definition scalar (c : N) : Prop := (c < 0xD800 \/ 0xDFFF < c <= 0x10FFFF)%N.

Definition hex_is (d : N) (v : nat) : Prop :=
  nth_error (bytes "0123456789abcdef") v = Some d \/ nth_error (bytes "0123456789ABCDEF") v = Some d.
Inductive hex_number : list N -> N -> Prop :=
| hn_nil : hex_number [] 0
| hn_snoc ds n d v : hex_number ds n -> hex_is d v -> hex_number (ds ++ [d]) (16 * n + N.of_nat v).

(** The characters which have to be written with a backslash. *)
Definition reserved : list N := bytes "]/\)|+*?" ++ [9; 13; 10]%N.

Inductive spells_char : char -> list N -> Prop :=
| sc_plain c : (c < 128)%N -> ~ In c reserved -> spells_char c [c]
| sc_newline : spells_char 10%N (bytes "\n")
| sc_return : spells_char 13%N (bytes "\r")
| sc_tab : spells_char 9%N (bytes "\t")
| sc_backslash : spells_char (code "\") (bytes "\\")
| sc_slash : spells_char (code "/") (bytes "\/")
| sc_unicode ds c : 4 <= length ds <= 6 -> hex_number ds c -> scalar c -> spells_char c (bytes "\u{" ++ ds ++ bytes "}").

(** The text begins with one of the given characters. *)
Definition begins (s : string) (bs : list N) : Prop := exists c r, bs = c :: r /\ In c (bytes s).

(** ** Regular expressions.  A strict spelling does not use characters with a meaning of their own, [( [ .] outside of
    brackets and [-], [^] within, to stand for themselves; in a spelling which is not strict they may. *)

Inductive spells_range : characters -> list N -> Prop :=
| sr_single c bs : spells_char c bs -> spells_range (Single c) bs
| sr_range c1 c2 b1 b2 : spells_char c1 b1 -> spells_char c2 b2 -> spells_range (CRange c1 c2) (b1 ++ bytes "-" ++ b2).

Inductive spells_ranges (strict : bool) : list characters -> list N -> Prop :=
| ss_one r bs : spells_range r bs -> (strict = true -> ~ begins "-" bs) -> spells_ranges strict [r] bs
| ss_more r bs rs bs' : spells_range r bs -> (strict = true -> ~ begins "-" bs) -> spells_ranges strict rs bs' -> spells_ranges strict (r :: rs) (bs ++ bs').

Inductive regex_atom (strict : bool) : pattern -> list N -> Prop :=
| ra_group p bs : regex_choices strict [p] bs -> regex_atom strict p (bytes "(" ++ bs ++ bytes ")")
| ra_choice ps bs : 2 <= length ps -> regex_choices strict ps bs -> regex_atom strict (PAlt ps) (bytes "(" ++ bs ++ bytes ")")
| ra_set rs bs : spells_ranges strict rs bs -> (strict = true -> ~ begins "^" bs) -> regex_atom strict (PSet rs false) (bytes "[" ++ bs ++ bytes "]")
| ra_complement rs bs : spells_ranges strict rs bs -> regex_atom strict (PSet rs true) (bytes "[^" ++ bs ++ bytes "]")
| ra_any : regex_atom strict (PSet [] true) (bytes ".")
| ra_char c bs : spells_char c bs -> (strict = true -> ~ begins "([." bs) -> regex_atom strict (PChar (Single c)) bs
with regex_item (strict : bool) : pattern -> list N -> Prop :=
| ri_once p bs : regex_atom strict p bs -> regex_item strict p bs
| ri_star p bs : regex_atom strict p bs -> regex_item strict (PRep 0 None p) (bs ++ bytes "*")
| ri_plus p bs : regex_atom strict p bs -> regex_item strict (PRep 1 None p) (bs ++ bytes "+")
| ri_option p bs : regex_atom strict p bs -> regex_item strict (PRep 0 (Some 1%N) p) (bs ++ bytes "?")
with regex_items (strict : bool) : list pattern -> list N -> Prop :=
| rs_one p bs : regex_item strict p bs -> regex_items strict [p] bs
| rs_more p bs ps bs' : regex_item strict p bs -> regex_items strict ps bs' -> regex_items strict (p :: ps) (bs ++ bs')
with regex_choices (strict : bool) : list pattern -> list N -> Prop :=
| rc_one ps bs : regex_items strict ps bs -> regex_choices strict [PSeq ps] bs
| rc_more ps bs qs bs' : regex_items strict ps bs -> regex_choices strict qs bs' -> regex_choices strict (PSeq ps :: qs) (bs ++ bytes "|" ++ bs').

(** ** Production patterns *)

Definition blank (bs : list N) : Prop := bs <> [] /\ forall c, In c bs -> In c [32; 9]%N.
Definition white (bs : list N) : Prop := forall c, In c bs -> In c [32; 9; 13; 10]%N.

Definition name_char (c : N) : Prop := (97 <= c <= 122 \/ 65 <= c <= 90 \/ c = 95)%N.
Definition is_name (s : string) : Prop := s <> EmptyString /\ forall c, In c (bytes s) -> name_char c.

Inductive prod_atom : prod_pattern -> list N -> Prop :=
| pa_name s : is_name s -> prod_atom (QRule s) (bytes s)
| pa_group p bs : prod_choices [p] bs -> prod_atom p (bytes "(" ++ bs ++ bytes ")")
| pa_choice ps bs : 2 <= length ps -> prod_choices ps bs -> prod_atom (QAlt ps) (bytes "(" ++ bs ++ bytes ")")
with prod_item : prod_pattern -> list N -> Prop :=
| pi_once p bs : prod_atom p bs -> prod_item p bs
| pi_star p bs : prod_atom p bs -> prod_item (QStar p) (bs ++ bytes "*")
| pi_plus p bs : prod_atom p bs -> prod_item (QPlus p) (bs ++ bytes "+")
| pi_option p bs : prod_atom p bs -> prod_item (QOpt p) (bs ++ bytes "?")
with prod_items : list prod_pattern -> list N -> Prop :=
| ps_one p bs : prod_item p bs -> prod_items [p] bs
| ps_more p bs sp ps bs' : prod_item p bs -> blank sp -> prod_items ps bs' -> prod_items (p :: ps) (bs ++ sp ++ bs')
with prod_choices : list prod_pattern -> list N -> Prop :=
| pc_one ps bs : prod_items ps bs -> prod_choices [QSeq ps] bs
| pc_more ps bs qs bs' : prod_items ps bs -> prod_choices qs bs' -> prod_choices (QSeq ps :: qs) (bs ++ bytes " | " ++ bs').

(** ** Rules and files *)

Inductive spells_token_pattern (strict : bool) : token_pattern -> list N -> Prop :=
| st_literal cs : cs <> [] -> (forall c, In c cs -> (c < 128 /\ c <> 34)%N) -> spells_token_pattern strict (TLiteral cs) ([34%N] ++ cs ++ [34%N])
| st_regex ps bs : regex_items strict ps bs -> spells_token_pattern strict (TPattern (PSeq ps)) (bytes "/" ++ bs ++ bytes "/").

Inductive spells_rule (strict : bool) : file_rule -> list N -> Prop :=
| sf_token n p b1 b2 b3 bs : is_name n -> blank b1 -> blank b2 -> blank b3 -> spells_token_pattern strict p bs ->
    spells_rule strict (FToken (mkTokenRule n None p)) (bytes "token" ++ b1 ++ bytes n ++ b2 ++ bytes "=" ++ b3 ++ bs ++ bytes ";")
| sf_prod n ps b1 b2 b3 bs : is_name n -> blank b1 -> blank b2 -> blank b3 -> prod_items ps bs ->
    spells_rule strict (FProd (mkProdRule n None (QSeq ps))) (bytes "prod" ++ b1 ++ bytes n ++ b2 ++ bytes "=" ++ b3 ++ bs ++ bytes ";")
| sf_entry n b1 : is_name n -> blank b1 -> spells_rule strict (FEntry n) (bytes "entry" ++ b1 ++ bytes n ++ bytes ";").

Inductive spells_rules (strict : bool) : list file_rule -> list N -> Prop :=
| sl_one r bs : spells_rule strict r bs -> spells_rules strict [r] bs
| sl_more r bs ws rs bs' : spells_rule strict r bs -> white ws -> ws <> [] -> spells_rules strict rs bs' -> spells_rules strict (r :: rs) (bs ++ ws ++ bs').

Definition spells_file (strict : bool) (rules : list file_rule) (text : list N) : Prop :=
  exists w1 bs w2, white w1 /\ spells_rules strict rules bs /\ white w2 /\ text = w1 ++ bs ++ w2.

(** The rules of a rule set, in any order between tokens, productions and the entry. *)
Inductive made_of (rs : rule_set) : list file_rule -> Prop :=
| mo rules : map FToken (rs_tokens rs) = filter (fun r => match r with FToken _ => true | _ => false end) rules ->
    map FProd (rs_prods rs) = filter (fun r => match r with FProd _ => true | _ => false end) rules ->
    [FEntry (rs_entry rs)] = filter (fun r => match r with FEntry _ => true | _ => false end) rules -> made_of rs rules.

Definition entry_count (rules : list file_rule) : nat := length (filter (fun r => match r with FEntry _ => true | _ => false end) rules).

(** ** Rule sets which can be written *)

Definition writable_chars (cs : characters) : Prop :=
  match cs with Single c => scalar c | CRange c1 c2 => scalar c1 /\ scalar c2 end.

(** [Forall] as a function. *)
Definition Each {A} (P : A -> Prop) : list A -> Prop := fix go l := match l with [] => True | x :: l' => P x /\ go l' end.

(** A pattern which can stand before a repetition sign: a nonempty sequence (in parentheses), a choice of at least two such
    sequences, a character set (empty only as the complement), a character. *)
Fixpoint writable_atom (p : pattern) : Prop :=
  match p with
  | PSeq l => l <> [] /\ Each (fun q => match q with
      | PRep mn mx r => ((mn, mx) = (0, None) \/ (mn, mx) = (1, None) \/ (mn, mx) = (0, Some 1))%N /\ writable_atom r
      | _ => writable_atom q end) l
  | PAlt l => 2 <= length l /\ Each (fun q => match q with PSeq _ => writable_atom q | _ => False end) l
  | PSet l negated => Forall writable_chars l /\ (l = [] -> negated = true)
  | PChar (Single c) => scalar c
  | PChar (CRange _ _) => False
  | PRep _ _ _ => False
  end.

Definition writable_pattern (p : token_pattern) : Prop :=
  match p with
  | TLiteral cs => cs <> [] /\ forall c, In c cs -> (c < 128 /\ c <> 34)%N
  | TPattern (PSeq l) => writable_atom (PSeq l)
  | TPattern _ => False
  end.

Fixpoint writable_prod (p : prod_pattern) : Prop :=
  match p with
  | QRule s => is_name s
  | QSeq l => l <> [] /\ Each (fun q => match q with
      | QPlus r | QStar r | QOpt r => writable_prod r
      | _ => writable_prod q end) l
  | QAlt l => 2 <= length l /\ Each (fun q => match q with QSeq _ => writable_prod q | _ => False end) l
  | QPlus _ | QStar _ | QOpt _ | QEps => False
  end.

Definition writable (rs : rule_set) : Prop :=
  is_name (rs_entry rs) /\
  Forall (fun t => is_name (tr_name t) /\ tr_prec t = None /\ writable_pattern (tr_pattern t)) (rs_tokens rs) /\
  Forall (fun t => is_name (pr_name t) /\ pr_tag t = None /\ match pr_pattern t with QSeq _ => writable_prod (pr_pattern t) | _ => False end) (rs_prods rs).
