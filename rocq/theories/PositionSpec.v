(** Specification of source positions. *)
From Coq Require Import List Arith NArith.
From Verif Require Import Base InputModel LexerModel PositionModel.
Import ListNotations.
Local Open Scope N_scope.
Local Open Scope list_scope.

(** Line and column of the place behind the text [p]: the last line of [p] is [b]. *)
Definition at_pos (p : list N) (pos : source_pos) : Prop :=
  sp_line pos = 1 + N.of_nat (count_occ N.eq_dec p newline) /\
  exists a b, p = a ++ b /\ ~ In newline b /\ (a = [] \/ exists a', a = a' ++ [newline]) /\ sp_col pos = 1 + N.of_nat (length b).

(** Every place in the text has a line and a column which fit into [u16]. *)
Definition positions_fit (text : list N) : Prop := forall p s pos, text = p ++ s -> at_pos p pos -> sp_line pos < 65536 /\ sp_col pos < 65536.

Definition prefix (p text : list N) : Prop := exists s, text = p ++ s.

(** What the lexer of the grammar language guarantees for ASCII texts: newline tokens are a newline, other
    tokens do not contain one. *)
Definition plain (t : raw_token) : Prop := (forall c, In c (snd t) -> c < 128) /\ match fst t with KNewline => snd t = [newline] | _ => ~ In newline (snd t) end.
Definition texts (tokens : list raw_token) : list N := concat (map snd tokens).
Definition visible (tokens : list raw_token) : list raw_token := filter (fun t => match fst t with KOther => true | _ => false end) tokens.
