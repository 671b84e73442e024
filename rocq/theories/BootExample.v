(** Texts used by the examples and refutations for the bootstrap parser. *)
From Coq Require Import String Ascii List Arith NArith Bool Lia.
From Verif Require Import Base InputModel BootModel BootSpec BootSoundProof BootCompleteProof BootFactsProof.
Import ListNotations.
Local Open Scope nat_scope.
Local Open Scope string_scope.
Local Open Scope list_scope.

(** The text of lapex-input-gen/src/lapex.lapex, the grammar of grammar files, which the build script of lapex-input-gen
    reads with the bootstrap parser. *)
Definition lapex_text : string := "token KW_TOKEN = ""token"";
token KW_ENTRY = ""entry"";
token KW_PROD = ""prod"";
token EQUALS = ""="";
token SEMI = "";"";
token LPAR = ""("";
token RPAR = "")"";
token LBRACK = ""["";
token RBRACK = ""]"";
token DIGIT = /(0|[1-9][0-9]*)/;
token QUESTION = ""?"";
token NOTHING = ""!"";
token ASTERISK = ""*"";
token PLUS = ""+"";
token PIPE = ""|"";
token IDENT = /[a-zA-Z][a-zA-Z0-9_]*/;
token STRING = /""([^""\\\n]|\\.)*""/;
token REGEX = /\/([^\/\\\n]|\\.)*\//;
token WHITESPACE = /[ \t]+/;
token NEWLINE = /[\n]/;

entry rules;
prod rules = rule;
prod rules = rule rules;
prod rule = entry_rule;
prod rule = prod_rule;
prod rule = token_rule;
prod entry_rule = KW_ENTRY IDENT SEMI;
prod prod_rule = KW_PROD IDENT (tag)? EQUALS pattern SEMI;
prod token_rule = KW_TOKEN IDENT (precedence)? EQUALS string_or_regex SEMI;
prod precedence = LBRACK DIGIT RBRACK;
prod tag = LBRACK IDENT RBRACK;
prod string_or_regex = REGEX;
prod string_or_regex = STRING;
prod pattern = alternative;
prod pattern = NOTHING;
prod alternative = concatenation PIPE alternative;
prod alternative = concatenation;
prod concatenation = unary concatenation;
prod concatenation = unary;
prod unary = option;
prod unary = repetition_one;
prod unary = repetition_zero;
prod unary = item;
prod option = item QUESTION;
prod repetition_zero = item ASTERISK;
prod repetition_one = item PLUS;
prod item = IDENT;
prod item = LPAR pattern RPAR;".

Definition lapex_rules : rule_set := Eval vm_compute in match parse_lapex_file (bytes lapex_text) with Ok r => r | _ => mkRuleSet "" [] [] end.

Lemma lapex_read : parse_lapex_file (bytes lapex_text) = Ok lapex_rules.
Proof. vm_compute. reflexivity. Qed.

(** ** A small file, token by token *)

Definition small_text : string := " token A = /(a|[^b-d]+)/;
prod s =	(A | A  s)*;

entry s;
".

Definition small_rules : list file_rule :=
  [FToken (mkTokenRule "A" None (TPattern (PSeq [PAlt [PSeq [PChar (Single 97)]; PSeq [PRep 1 None (PSet [CRange 98 100] true)]]])));
   FProd (mkProdRule "s" None (QSeq [QStar (QAlt [QSeq [QRule "A"]; QSeq [QRule "A"; QRule "s"]])]));
   FEntry "s"]%N.

Definition small_set : rule_set :=
  (mkRuleSet "s" [mkTokenRule "A" None (TPattern (PSeq [PAlt [PSeq [PChar (Single 97)]; PSeq [PRep 1 None (PSet [CRange 98 100] true)]]]))]
    [mkProdRule "s" None (QSeq [QStar (QAlt [QSeq [QRule "A"]; QSeq [QRule "A"; QRule "s"]])])])%N.

Lemma letter : forall s c, In c (bytes "abcdefghijklmnopqrstuvwxyzA") -> spells_char c [c] /\ (s = true -> ~ begins "([." [c]).
Proof.
  intros s c H. split; [|intros _; apply not_begins_cons; intros X; cbn in H, X; lia]. constructor; [cbn in H; lia|]. unfold reserved. intros X. cbn in H, X. lia.
Qed.
Lemma letter_atom : forall s c, In c (bytes "abcdefghijklmnopqrstuvwxyzA") -> regex_atom s (PChar (Single c)) [c].
Proof. intros s c H. destruct (letter s c H). apply ra_char; auto. Qed.
Lemma one_name : forall c, name_char (N_of_ascii c) -> is_name (String c EmptyString).
Proof. intros c H. split; [discriminate|]. intros x [<-|[]]. auto. Qed.
Lemma name_A : is_name "A". Proof. apply one_name. unfold name_char. cbn. lia. Qed.
Lemma name_s : is_name "s". Proof. apply one_name. unfold name_char. cbn. lia. Qed.
Lemma name_a : is_name "a". Proof. apply one_name. unfold name_char. cbn. lia. Qed.
Lemma blank_tab : blank [9%N].
Proof. split; [discriminate|]. intros c [<-|[]]. cbn. auto. Qed.
Lemma blank_two : blank [32; 32]%N.
Proof. split; [discriminate|]. intros c H. cbn in H |- *. tauto. Qed.

Lemma small_spelled : spells_file true small_rules (bytes small_text).
Proof.
  assert (regex_items true [PAlt [PSeq [PChar (Single 97)]; PSeq [PRep 1 None (PSet [CRange 98 100] true)]]]%N (bytes "(" ++ ([97%N] ++ bytes "|" ++ (bytes "[^" ++ ([98%N] ++ bytes "-" ++ [100%N]) ++ bytes "]") ++ bytes "+") ++ bytes ")")) as R.
  { apply rs_one, ri_once, ra_choice; [cbn; lia|]. apply rc_more; [apply rs_one, ri_once, letter_atom; cbn; auto|]. apply rc_one, rs_one, ri_plus, ra_complement, ss_one.
    - apply sr_range; apply (letter true); cbn; tauto.
    - intros _. apply not_begins_cons. cbn. lia. }
  assert (prod_items [QStar (QAlt [QSeq [QRule "A"]; QSeq [QRule "A"; QRule "s"]])] ((bytes "(" ++ (bytes "A" ++ bytes " | " ++ (bytes "A" ++ [32; 32]%N ++ bytes "s")) ++ bytes ")") ++ bytes "*")) as P.
  { apply ps_one, pi_star, pa_choice; [cbn; lia|]. apply pc_more; [apply ps_one, pi_once, pa_name, name_A|]. apply pc_one, ps_more; [apply pi_once, pa_name, name_A|apply blank_two|apply ps_one, pi_once, pa_name, name_s]. }
  eassert (spells_rules true small_rules (_ ++ [10%N] ++ _ ++ [10; 10]%N ++ _)) as X.
  { apply sl_more; [apply (sf_token true "A" _ [32%N] [32%N] [32%N] _ name_A blank_space blank_space blank_space (st_regex _ _ _ R))|intros c Hc; cbn in *; tauto|discriminate|].
    apply sl_more; [apply (sf_prod true "s" _ [32%N] [32%N] [9%N] _ name_s blank_space blank_space blank_tab P)|intros c Hc; cbn in *; tauto|discriminate|].
    apply sl_one. apply (sf_entry true "s" [32%N] name_s blank_space). }
  eexists [32%N], _, [10%N]. split; [intros c Hc; cbn in *; tauto|]. split; [exact X|]. split; [intros c Hc; cbn in *; tauto|]. vm_compute. reflexivity.
Qed.

Lemma small_made : made_of small_set small_rules.
Proof. constructor; reflexivity. Qed.

Lemma small_writable : writable small_set.
Proof. apply bootstrap_image_thm. exists (bytes small_text). apply (bootstrap_reads_thm _ _ small_spelled), small_made. Qed.

(** ** A parenthesis which is not closed *)

Definition open_text : string := "token A = /(a/; entry s;".
Definition open_set : rule_set := (mkRuleSet "s" [mkTokenRule "A" None (TPattern (PSeq [PChar (Single 40); PChar (Single 97)]))] [])%N.

Lemma open_read : parse_lapex_file (bytes open_text) = Ok open_set.
Proof. vm_compute. reflexivity. Qed.

Lemma paren_escaped : forall bs, regex_item true (PChar (Single 40%N)) bs -> In 92%N bs.
Proof.
  intros bs H. inversion H as [p b Ha| | |]; subst. inversion Ha as [p b Hc| | | | |c b Hc Hb]; subst; [inversion Hc|].
  inversion Hc; subst; try (left; reflexivity). exfalso. apply Hb; auto. exists 40%N, []. cbn. auto.
Qed.

Lemma open_not_strict : forall rules, ~ spells_file true rules (bytes open_text).
Proof.
  intros rules H. pose proof (file_ok _ _ H) as E. assert (rules = [FToken (mkTokenRule "A" None (TPattern (PSeq [PChar (Single 40); PChar (Single 97)]%N))); FEntry "s"]) as -> by (vm_compute in E; congruence).
  assert (~ In 92%N (bytes open_text)) as X by (intros Y; vm_compute in Y; intuition discriminate). apply X. clear X E.
  destruct H as (w1 & bs & w2 & _ & Hs & _ & ->). apply in_or_app; right. apply in_or_app; left.
  inversion Hs as [|r b ws rs b' Hr]; subst. apply in_or_app; left. inversion Hr as [n p b1 b2 b3 bp Hn _ _ _ Hp| |]; subst. do 6 (apply in_or_app; right). apply in_or_app; left.
  inversion Hp as [|ps b'' Hi]; subst. apply in_or_app; right. apply in_or_app; left. inversion Hi as [|p bq ps' bq' Hq]; subst. apply in_or_app; left. apply paren_escaped; auto.
Qed.

(** ** A choice one branch of which begins with a parenthesis which is not closed *)

Definition choice_text : string := "token A = /(a|(b)/; entry s;".
Definition choice_rules : list file_rule := [FToken (mkTokenRule "A" None (TPattern (PSeq [PAlt [PSeq [PChar (Single 97)]; PSeq [PChar (Single 40); PChar (Single 98)]]]))); FEntry "s"]%N.

Lemma choice_spelled : spells_file false choice_rules (bytes choice_text).
Proof.
  assert (regex_items false [PAlt [PSeq [PChar (Single 97)]; PSeq [PChar (Single 40); PChar (Single 98)]]]%N (bytes "(" ++ ([97%N] ++ bytes "|" ++ [40%N] ++ [98%N]) ++ bytes ")")) as R.
  { apply rs_one, ri_once, ra_choice; [cbn; lia|]. apply rc_more; [apply rs_one, ri_once, letter_atom; cbn; auto|]. apply rc_one, rs_more; [apply ri_once, ra_char; [|discriminate]|apply rs_one, ri_once, letter_atom; cbn; auto].
    constructor; [lia|]. intros X. cbn in X. lia. }
  eassert (spells_rules false choice_rules (_ ++ [32%N] ++ _)) as X.
  { apply sl_more; [apply (sf_token false "A" _ [32%N] [32%N] [32%N] _ name_A blank_space blank_space blank_space (st_regex _ _ _ R))|intros c Hc; cbn in *; tauto|discriminate|].
    apply sl_one. apply (sf_entry false "s" [32%N] name_s blank_space). }
  eexists [], _, []. split; [intros c []|]. split; [exact X|]. split; [intros c []|]. vm_compute. reflexivity.
Qed.

(** ** A text without a rule *)

Lemma no_rule : forall w bs rest r, bytes "tokens A;" = w ++ bs ++ rest -> white w -> ~ spells_rule false r bs.
Proof.
  intros w bs rest r E Hw H.
  assert (w = []) as ->.
  { destruct w as [|c w]; auto. cbn in E. injection E as <- _. specialize (Hw _ (or_introl eq_refl)). cbn in Hw. intuition discriminate. }
  cbn [app] in E. destruct H as [n p b1 b2 b3 bs Hn H1 _ _ _|n ps b1 b2 b3 bs Hn H1 _ _ _|n b1 Hn H1]; rewrite <- ?app_assoc in E; try (cbn in E; discriminate).
  destruct b1 as [|c b1]; [destruct H1; congruence|]. cbn in E. injection E as <- _. destruct H1 as [_ H1]. specialize (H1 _ (or_introl eq_refl)). cbn in H1. intuition discriminate.
Qed.
