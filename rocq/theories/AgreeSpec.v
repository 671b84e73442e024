(** Specification for the comparison of generated parsers: what a visitor is told during a part of a run, and programs which settle. *)
From Coq Require Import String List Arith NArith.
From Verif Require Import Base InputModel LRModel CppLRModel CppRunModel CppRunSpec.
Import ListNotations.
Local Open Scope nat_scope.
Local Open Scope list_scope.

(** The calls of the visitor for [ev], when the shifted tokens are at the first of the places [ps]. *)
Definition told_first (names : list string) (ev : list lr_event) (ps : list (nat * nat)) (calls : list cpp_call) : Prop :=
  exists ps1 ps2, ps = ps1 ++ ps2 /\ told names ev ps1 calls.

(** With enough fuel the program has an outcome of the given kind, always the same. *)
Definition comes_to {A} (run : nat -> A) (outcome : A -> Prop) : Prop := exists n, forall fuel, n <= fuel -> outcome (run fuel).

(** A parser ends with success after the calls [ev]. *)
Definition succeeds {E L} (ev : list lr_event) (r : list lr_event * res E L) : Prop := exists lx, r = (ev, Ok lx).
(** A parser ends, but without success. *)
Definition fails {A E L} (r : list A * res E L) : Prop := match snd r with Ok _ | OutOfFuel => False | _ => True end.
(** A C++ parser returns after the calls [calls]. *)
Definition returns {L} (calls : list cpp_call) (r : list cpp_call * res cpp_error L) : Prop := exists lx, r = (calls, Ok lx).
(** A C++ parser throws an exception. *)
Definition throws {L} (r : list cpp_call * res cpp_error L) : Prop := exists calls text, r = (calls, Err (Throw text)).
