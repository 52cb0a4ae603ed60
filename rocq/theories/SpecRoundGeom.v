(** SpecRoundGeom.v -- distances computed in double precision: what the statements speak of. *)
From Coq Require Import Reals List.
From Flocq Require Import Core.
From Verif Require Import RealSum EMModel SpecEM SpecLLL SpecRound.
Import ListNotations.
Local Open Scope R_scope.

(** Points of R^d with double coordinates. *)
Definition doubles (d : nat) (X : list (list R)) : Prop := Forall (fun x => length x = d /\ Forall double x) X.

(** What is used of np.sum(_, 1): row [i] is added up in some order, which may depend on the array. *)
Definition rows_added (sums : list (list R) -> nat -> R) : Prop :=
  forall A i row, nth_error A i = Some row -> added_up row (sums A i).
(** What is used of the product X.dot(Y.T): every entry satisfies the usual error bound for inner
    products.  The order of summation may depend on the arrays and on the entry. *)
Definition product_sound (prod : list (list R) -> list (list R) -> nat -> nat -> R) : Prop :=
  forall X Y i j x y, nth_error X i = Some x -> nth_error Y j = Some y ->
  length x = length y -> Forall double x -> Forall double y -> (Z.of_nat (length x) <= 2 ^ 50)%Z ->
  double (prod X Y i j) /\
  Rabs (prod X Y i j - total (products x y)) <=
    INR (length x) * bpow radix2 (-52) * total (map Rabs (products x y)) + INR (length x) * bpow radix2 (-1074).

(** The error of a squared distance: relative to the squared norms of the two points, not to their
    distance. *)
Definition csm_error (d : nat) (x y : list R) : R :=
  bpow radix2 (-51) * (INR d + 4) * (inner d x x + inner d y y) + INR d * bpow radix2 (-1071).
(** [v] is the distance [e] computed with this error. *)
Definition nearly_distance (d : nat) (x y : list R) (e v : R) : Prop :=
  double v /\ 0 <= v /\ Rabs (v ^ 2 - e ^ 2) <= csm_error d x y /\
  Rabs (v - e) <= sqrt (csm_error d x y) /\ Rabs (v - e) * e <= csm_error d x y.

(** What is used of the arc cosine of the C library. *)
Definition libm_acos (a : R -> R) : Prop :=
  forall v, double v -> 0 <= v <= 1 -> double (a v) /\ 0 <= a v /\ Rabs (a v - acos v) <= bpow radix2 (-52).
(** The error of the inner product of two points, and of the arc between them. *)
Definition inner_error (d : nat) (x y : list R) : R :=
  INR d * bpow radix2 (-53) * (inner d x x + inner d y y) + INR d * bpow radix2 (-1074).
Definition arc_error (d : nat) (x y : list R) : R := 2 * sqrt (inner_error d x y) + bpow radix2 (-52).
