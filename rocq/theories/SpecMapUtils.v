(** SpecMapUtils.v -- specification vocabulary for the map utilities: Euclidean vectors,
    spheres, linear isometries, roots of unity. *)
From Coq Require Import List ZArith Reals.
From Verif Require Import Base RealSum SpecEM SpecLLL ComplexBase.
Import ListNotations.
Local Open Scope R_scope.

(** Vectors of length [d] and norm one. *)
Definition unit_vector (d : nat) (v : list R) : Prop := length v = d /\ inner d v v = 1.
(** [w] is the unit vector in the direction of [v], i.e. v = t w for some t > 0. *)
Definition direction (d : nat) (v w : list R) : Prop :=
  unit_vector d w /\ exists t, 0 < t /\ v = map (Rmult t) w.
Definition negated (v : list R) : list R := map Ropp v.
(** The standard vector with a one at position [i]. *)
Definition standard (d i : nat) (v : list R) : Prop :=
  length v = d /\ forall j, (j < d)%nat -> nth j v 0 = if (j =? i)%nat then 1 else 0.
Definition last_standard (d : nat) (v : list R) : Prop := standard d (d - 1) v.
(** The direction [bh] that rotmat aims at: that of its second argument or, when that is empty
    (not given), the last axis. *)
Definition target (d : nat) (b bh : list R) : Prop :=
  (b = [] /\ last_standard d bh) \/ (b <> [] /\ direction d b bh).
(** The matrix [M] (rows) applied to the vector [x]. *)
Definition apply (d : nat) (M : list (list R)) (x : list R) : list R :=
  map (fun i => sumn d (fun j => at2 0 M i j * nth j x 0)) (seq 0 d).
(** Linear isometries of R^d. *)
Definition isometry (d : nat) (M : list (list R)) : Prop :=
  matrix d d M /\
  forall x y, length x = d -> length y = d -> inner d (apply d M x) (apply d M y) = inner d x y.
Definition identity_matrix (d : nat) (M : list (list R)) : Prop :=
  matrix d d M /\ forall x, length x = d -> apply d M x = x.
(** Squared distance of two vectors. *)
Definition dist2 (d : nat) (x y : list R) : R := sumn d (fun i => (nth i x 0 - nth i y 0) ^ 2).

(** The sphere of C^2 and multiplication by a scalar. *)
Definition sphere3 (z : list C) : Prop := exists z1 z2, z = [z1; z2] /\ cabs2 z1 + cabs2 z2 = 1.
Definition scaled (lam : C) (z : list C) : list C := map (cmul lam) z.
Definition sphere2 (x : list R) : Prop := exists a b c, x = [a; b; c] /\ a * a + b * b + c * c = 1.
(** The [q]-th roots of unity. *)
Definition root_of_unity (q : Z) (w : C) : Prop := exists j : Z, w = cis (2 * PI * IZR j / IZR q).

(** The eigenvectors [U] (rows of numbers; column [i] is the [i]-th eigenvector) and eigenvalues,
    in increasing order, of the symmetric matrix [G]: the documented answer of eigh. *)
Definition eigh_answer (d : nat) (G U : list (list R)) (lam : nat -> R) : Prop :=
  matrix d d U /\
  (forall i j, (i < d)%nat -> (j < d)%nat ->
     sumn d (fun k => at2 0 U k i * at2 0 U k j) = if (i =? j)%nat then 1 else 0) /\
  (forall k l, (k < d)%nat -> (l < d)%nat ->
     sumn d (fun i => at2 0 U k i * at2 0 U l i) = if (k =? l)%nat then 1 else 0) /\
  (forall i k, (i < d)%nat -> (k < d)%nat ->
     sumn d (fun l => at2 0 G k l * at2 0 U l i) = lam i * at2 0 U k i) /\
  (forall i j, (i <= j < d)%nat -> lam i <= lam j).
(** The sum over the points of the squared component along [u]. *)
Definition spread (d : nat) (pX : list (list R)) (u : list R) : R :=
  fold_right Rplus 0 (map (fun x => inner d u x ^ 2) pX).
(** The d x d matrix of the sums over the points of the products of coordinates. *)
Definition second_moments (d : nat) (pX G : list (list R)) : Prop :=
  matrix d d G /\ forall i j, (i < d)%nat -> (j < d)%nat ->
    at2 0 G i j = sumn (length pX) (fun r => at2 0 pX r i * at2 0 pX r j).
