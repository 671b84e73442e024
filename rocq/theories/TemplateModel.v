(** Model of lapex-codegen: templates (templating.rs) and output targets (lib.rs).  A text is the list of its code points.
    The writers are buffers in memory, so that writing to them does not fail by itself. *)
From Coq Require Import List Arith NArith Bool.
From Verif Require Import Base.
Import ListNotations.
Local Open Scope nat_scope.
Local Open Scope list_scope.

(** templating.rs 10: a text is the list of its code points. *)
Definition text := list N.

(** templating.rs 80-81: the regular expression is [/*{], captured [.*?], [}*/]; these are the two fixed parts. *)
Definition opening : text := [47; 42; 123]%N.
(** templating.rs 80-81: the closing part. *)
Definition closing : text := [125; 42; 47]%N.

(** templating.rs 62 and 81; regex: a fixed part of an expression; the remaining text. *)
Fixpoint strip (p t : text) : option text :=
  match p, t with
  | [], _ => Some t
  | c :: p', d :: t' => if N.eqb c d then strip p' t' else None
  | _ :: _, [] => None
  end.

(** templating.rs 62 and 81; regex: [.*?] captured, followed by the closing part.  A lazy repetition prefers not to repeat; a dot does not match a newline. *)
Fixpoint lazy_dots (t : text) : option (text * text) :=
  match strip closing t with
  | Some r => Some ([], r)
  | None =>
    match t with
    | [] => None
    | c :: t' => if N.eqb c 10 then None else match lazy_dots t' with Some (k, r) => Some (c :: k, r) | None => None end
    end
  end.

(** templating.rs 62 and 81; regex: match at the start of the text: the captured group and the text behind the match. *)
Definition match_at (t : text) : option (text * text) :=
  match strip opening t with Some r => lazy_dots r | None => None end.

(** templating.rs 62 and 81; regex: leftmost match: the text in front of it, the captured group, the text behind. *)
Fixpoint find_match (t : text) : option (text * text * text) :=
  match match_at t with
  | Some (k, r) => Some ([], k, r)
  | None =>
    match t with
    | [] => None
    | c :: t' => match find_match t' with Some (p, k, r) => Some (c :: p, k, r) | None => None end
    end
  end.

(** templating.rs 86, [char::is_whitespace]: the property White_Space of Unicode. *)
Definition whitespace (c : N) : bool :=
  ((9 <=? c) && (c <=? 13) || (c =? 32) || (c =? 133) || (c =? 160) || (c =? 5760) || (8192 <=? c) && (c <=? 8202)
   || (c =? 8232) || (c =? 8233) || (c =? 8239) || (c =? 8287) || (c =? 12288))%N.
(** templating.rs 86, [str::trim_start], [str::trim]. *)
Fixpoint trim_start (t : text) : text := match t with [] => [] | c :: t' => if whitespace c then trim_start t' else t end.
(** templating.rs 86, [str::trim]. *)
Definition trim (t : text) : text := rev (trim_start (rev (trim_start t))).

(** templating.rs 29: what a writing function does: the text it writes, and whether it returns Ok. *)
Definition written := (text * bool)%type.
(** templating.rs 26-30, [TemplateWriter], without the template; 33-38, [substitute] (HashMap::insert). *)
Definition substitutions := list (text * written).
(** templating.rs 33-38, [substitute]. *)
Definition substitute (key : text) (w : written) (subs : substitutions) : substitutions := map_insert key w subs.

(** templating.rs 40-92: the end of a call: Ok, Err, or a panic. *)
Inductive outcome : Type := Done | Failed | Panicked | NoFuel.

(** templating.rs 53-76, [replace_all_streaming] with the closure of 85-88 and 40-50, [insert_substitution].  The fuel bounds
    the number of matches. *)
Fixpoint replace_all_streaming (fuel : nat) (subs : substitutions) (haystack : text) : text * outcome :=
  match fuel with
  | O => ([], NoFuel)
  | S fuel' =>
    match find_match haystack with
    | None => (haystack, Done)
    | Some (p, k, r) =>
      match map_get (trim k) subs with
      | None => (p, Panicked)
      | Some (w, false) => (p ++ w, Failed)
      | Some (w, true) => let '(o, x) := replace_all_streaming fuel' subs r in (p ++ w ++ o, x)
      end
    end
  end.

(** templating.rs 79-92, [write]: what is written and how it ends. *)
Definition template_write (fuel : nat) (subs : substitutions) (template : text) : text * outcome := replace_all_streaming fuel subs template.

(** ** Targets *)

(** lib.rs 9-13, [GeneratedCodeWriter]: the buffers of the targets; the files made by the default writer function, in order. *)
Record code_writer : Type := mkWriter { cw_targets : list (text * text); cw_files : list (text * text) }.
(** lib.rs 34-39, [add_target], with a buffer that may have contents. *)
Definition add_target (key buffer : text) (w : code_writer) : code_writer := mkWriter (map_insert key buffer (cw_targets w)) (cw_files w).
(** lib.rs 41-51, [generate_code]; the default writer function succeeds. *)
Definition generate_code (key : text) (gen : text) (w : code_writer) : code_writer :=
  match map_get key (cw_targets w) with
  | Some buffer => mkWriter (map_insert key (buffer ++ gen) (cw_targets w)) (cw_files w)
  | None => mkWriter (cw_targets w) (cw_files w ++ [(key, gen)])
  end.
