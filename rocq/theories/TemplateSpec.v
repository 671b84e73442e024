(** Specification vocabulary for templates. *)
From Coq Require Import List Arith NArith Bool.
From Verif Require Import Base TemplateModel.
Import ListNotations.

(** The text starts with a placeholder around [k], with [r] behind it. *)
Definition placeholder (t k r : text) : Prop := t = opening ++ k ++ closing ++ r /\ ~ In 10%N k.

(** [pieces t l last]: the template is [l], text and key in turns, and [last]: text has no placeholder which starts in it, and keys are as short as possible. *)
Inductive pieces : text -> list (text * text) -> text -> Prop :=
| pieces_end : forall t, (forall p s k r, t = p ++ s -> ~ placeholder s k r) -> pieces t [] t
| pieces_key : forall p k r l last,
    ~ In 10%N k ->
    (forall p' s k' r', p ++ opening ++ k ++ closing ++ r = p' ++ s -> placeholder s k' r' -> length p <= length p') ->
    (forall k' r', placeholder (opening ++ k ++ closing ++ r) k' r' -> length k <= length k') ->
    pieces r l last ->
    pieces (p ++ opening ++ k ++ closing ++ r) ((p, k) :: l) last.

(** The characters which Unicode lists as White_Space. *)
Definition white_space : list N :=
  [0x9; 0xa; 0xb; 0xc; 0xd; 0x20; 0x85; 0xa0; 0x1680; 0x2000; 0x2001; 0x2002; 0x2003; 0x2004; 0x2005; 0x2006; 0x2007; 0x2008; 0x2009; 0x200a;
   0x2028; 0x2029; 0x202f; 0x205f; 0x3000]%N.

(** White space in front and behind taken away. *)
Definition trimmed (k key : text) : Prop :=
  exists a b, k = a ++ key ++ b /\ Forall (fun c => In c white_space) (a ++ b) /\
  (forall c m, key = c :: m -> ~ In c white_space) /\ (forall c m, key = m ++ [c] -> ~ In c white_space).

(** [expands subs l last out x]: what comes out of the pieces. *)
Inductive expands (subs : substitutions) : list (text * text) -> text -> text -> outcome -> Prop :=
| expands_end : forall last, expands subs [] last last Done
| expands_key : forall p k l last key w out x, trimmed k key -> In (key, (w, true)) subs -> expands subs l last out x -> expands subs ((p, k) :: l) last (p ++ w ++ out) x
| expands_failed : forall p k l last key w, trimmed k key -> In (key, (w, false)) subs -> expands subs ((p, k) :: l) last (p ++ w) Failed
| expands_missing : forall p k l last key, trimmed k key -> ~ In key (map fst subs) -> expands subs ((p, k) :: l) last p Panicked.

(** The template written by hand from pieces. *)
Definition template_of (l : list (text * text)) (last : text) : text := concat (map (fun pk => fst pk ++ opening ++ snd pk ++ closing) l) ++ last.
Definition occurs (p t : text) : Prop := exists a b, t = a ++ p ++ b.

(** Any sequence of calls of [substitute]. *)
Definition supplied (calls : list (text * written)) : substitutions := fold_left (fun subs c => substitute (fst c) (snd c) subs) calls [].

(** Any sequence of calls of [generate_code]. *)
Definition generate_all (calls : list (text * text)) (w : code_writer) : code_writer := fold_left (fun w c => generate_code (fst c) (snd c) w) calls w.
