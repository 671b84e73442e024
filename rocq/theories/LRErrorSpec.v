(** Specification for the errors of LR parsers. *)
From Coq Require Import List NArith.
From Verif Require Import Base LRModel.
Import ListNotations.

(** The tokens a run has read. *)
Definition shifts (ev : list lr_event) : list N := flat_map (fun e => match e with EShift (Some t) => [t] | _ => [] end) ev.
