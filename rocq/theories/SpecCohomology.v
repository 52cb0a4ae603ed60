(** SpecCohomology.v -- orientation, sorting and lifting notions used to state the
    properties of CohomologyUtils; independent of the model. *)
From Coq Require Import List ZArith Permutation Sorted.
Import ListNotations.

(** Number of pairs of positions a < b with l_a > l_b. *)
Fixpoint inversions (l : list Z) : nat :=
  match l with
  | [] => 0
  | x :: r => length (filter (fun y => Z.ltb y x) r) + inversions r
  end.

(** (-1)^k *)
Definition sign_of (k : nat) : Z := if Nat.even k then 1%Z else (-1)%Z.

(** Orientation of a tuple of distinct vertices relative to increasing order. *)
Definition orientation (l : list Z) : Z := sign_of (inversions l).

(** Contract of numpy.argsort: a permutation of the positions that sorts, with ties
    broken arbitrarily.  [le] is the order of the values. *)
Definition is_argsort {A} (le : A -> A -> Prop) (d : A) (l : list A) (p : list nat) : Prop :=
  Permutation p (seq 0 (length l)) /\
  StronglySorted le (map (fun i => nth i l d) p).
