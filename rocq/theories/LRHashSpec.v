(** What iterations of a hash set and the places of rules in memory guarantee. *)
From Coq Require Import List NArith Permutation.
From Verif Require Import LRModel LRHashModel.

(** Every iteration of a hash set gives each of its elements once, in any order. *)
Definition iterates (order : hash_order) : Prop := forall time l, Permutation (order time l) l.

(** The rules of a grammar are the elements of one vector: their addresses rise with their positions.  The entry rule is elsewhere. *)
Definition in_a_vector (L : layout) : Prop := forall i j, i < j -> (addr L (Some i) < addr L (Some j))%N.
