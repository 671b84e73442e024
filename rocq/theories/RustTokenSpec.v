(** Tokens of Rust: token trees, and the part of the lexical structure that occurs in the quoted code. *)
From Coq Require Import String Ascii List Arith NArith Bool.
From Verif Require Import Base TemplateModel.
Import ListNotations.
Local Open Scope string_scope.
Local Open Scope list_scope.

Inductive delim : Type := Paren | Brace | Bracket.
(** Keywords are identifiers; [::], [=>], [->], [..], [..=] and [+=] are one token each. *)
Inductive tree : Type :=
| TId (s : string)
| TPunct (s : string)
| TInt (n : N) (suffix : string)
| TStr (s : string)
| TLife (s : string)
| TGroup (d : delim) (l : list tree).

(** ** Scanning *)

Inductive flat : Type := FTok (t : tree) | FOpen (d : delim) | FClose (d : delim).
Inductive scanning : Type :=
| Between
| AWord (s : string)
| ANumber (n : N)
| AString (s : string)
| APunct (s : string)
| ALife (s : string).
Definition is_digit (c : N) : bool := ((48 <=? c) && (c <=? 57))%N.
Definition is_letter (c : N) : bool := (((65 <=? c) && (c <=? 90)) || ((97 <=? c) && (c <=? 122)) || (c =? 95))%N.
Definition add_char (s : string) (c : N) : string := String.append s (String (ascii_of_N c) EmptyString).
(** A character in front of which no token is open. *)
Definition open_token (c : N) : option (list flat * scanning) :=
  if ((c =? 32) || (c =? 10))%N then Some ([], Between)
  else if is_letter c then Some ([], AWord (add_char "" c))
  else if is_digit c then Some ([], ANumber (c - 48)%N)
  else if (c =? 34)%N then Some ([], AString "")
  else if (c =? 39)%N then Some ([], ALife "")
  else if (c =? 40)%N then Some ([FOpen Paren], Between)
  else if (c =? 41)%N then Some ([FClose Paren], Between)
  else if (c =? 123)%N then Some ([FOpen Brace], Between)
  else if (c =? 125)%N then Some ([FClose Brace], Between)
  else if (c =? 91)%N then Some ([FOpen Bracket], Between)
  else if (c =? 93)%N then Some ([FClose Bracket], Between)
  else if existsb (N.eqb c) [33; 35; 38; 42; 43; 44; 45; 46; 58; 59; 60; 61; 62; 63; 124]%N then Some ([], APunct (add_char "" c))
  else None.
(** The token that is open at the end. *)
Definition close_token (m : scanning) : option (list flat) :=
  match m with
  | Between => Some []
  | AWord s => Some [FTok (TId s)]
  | ANumber n => Some [FTok (TInt n "")]
  | AString _ => None
  | APunct s => Some [FTok (TPunct s)]
  | ALife s => Some [FTok (TLife s)]
  end.
Definition next_token_char (m : scanning) (c : N) : option (list flat * scanning) :=
  let fresh := match close_token m, open_token c with Some l, Some (l', m') => Some (l ++ l', m') | _, _ => None end in
  match m with
  | Between => open_token c
  | AWord s => if is_letter c || is_digit c then Some ([], AWord (add_char s c)) else fresh
  | ANumber n => if is_digit c then Some ([], ANumber (10 * n + (c - 48))%N) else if is_letter c then None else fresh
  | AString s => if (c =? 34)%N then Some ([FTok (TStr s)], Between) else if (c =? 92)%N then None else Some ([], AString (add_char s c))
  | APunct s => if existsb (String.eqb (add_char s c)) ["::"; "=>"; "->"; ".."; "..="; "+="] then Some ([], APunct (add_char s c)) else fresh
  | ALife s => if is_letter c || is_digit c then Some ([], ALife (add_char s c)) else fresh
  end.
Fixpoint scan_tokens (m : scanning) (t : text) : option (list flat) :=
  match t with
  | [] => close_token m
  | c :: t =>
    match next_token_char m c with
    | Some (l, m) => match scan_tokens m t with Some l' => Some (l ++ l') | None => None end
    | None => None
    end
  end.
Definition same_delim (a b : delim) : bool := match a, b with Paren, Paren | Brace, Brace | Bracket, Bracket => true | _, _ => false end.
(** Groups: [acc] is the current one, reversed, [outer] those around it. *)
Fixpoint group_tokens (l : list flat) (acc : list tree) (outer : list (delim * list tree)) : option (list tree) :=
  match l with
  | [] => match outer with [] => Some (rev acc) | _ => None end
  | FTok t :: l => group_tokens l (t :: acc) outer
  | FOpen d :: l => group_tokens l [] ((d, acc) :: outer)
  | FClose d :: l =>
    match outer with
    | (d', acc') :: outer => if same_delim d d' then group_tokens l (TGroup d (rev acc) :: acc') outer else None
    | [] => None
    end
  end.
(** The token trees of a text. *)
Definition trees (t : text) : option (list tree) := match scan_tokens Between t with Some l => group_tokens l [] [] | None => None end.
