(** SpecRips.v -- the Rips complex of a distance matrix, and cochains on it, in terms
    independent of the model's loops. *)
From Coq Require Import List Arith.
From Verif Require Import Base SpecSimplex CombinatorialModel.
Import ListNotations.

(** [dm] is a square matrix. *)
Definition square {D} (dm : list (list D)) : Prop :=
  Forall (fun row => length row = length dm) dm.

(** The distance of [i] and [j] is below the threshold [t]. *)
Definition close {D} (ltD : D -> D -> bool) (dm : list (list D)) (t : D) (i j : nat) : Prop :=
  exists row x, nth_error dm i = Some row /\ nth_error row j = Some x /\ ltD x t = true.

(** [s] is a [d]-simplex of the Rips complex at scale [t]: an increasing tuple of
    points, all pairwise distances (read above the diagonal) below [t]. *)
Definition rips {D} (ltD : D -> D -> bool) (dm : list (list D)) (t : D) (d : nat) (s : list nat) : Prop :=
  simplex (length dm) d s /\ ForallOrdPairs (close ltD dm t) s.

(** [x] is the value of the cochain [v] (a vector indexed by simplex numbers of the
    public numbering function) at the simplex [s]. *)
Definition value_at {A} (table : list (list nat)) (v : list A) (s : list nat) (x : A) : Prop :=
  exists k, combinatorial_number_system_forward s table = Ok k /\ nth_error v k = Some x.

(** Integer cocycle conditions. *)
Definition one_cocycle {D} (ltD : D -> D -> bool) (dm : list (list D)) (t : D)
    (table : list (list nat)) (c : list Z) : Prop :=
  forall i j k a b e, rips ltD dm t 2 [i; j; k] ->
    value_at table c [i; j] a -> value_at table c [j; k] b -> value_at table c [i; k] e ->
    (a + b - e = 0)%Z.

Definition two_cocycle {D} (ltD : D -> D -> bool) (dm : list (list D)) (t : D)
    (table : list (list nat)) (c : list Z) : Prop :=
  forall i j k l a b e f, rips ltD dm t 3 [i; j; k; l] ->
    value_at table c [i; j; k] a -> value_at table c [i; j; l] b ->
    value_at table c [i; k; l] e -> value_at table c [j; k; l] f ->
    (a - b + e - f = 0)%Z.

(** [d] is the length of a side of the triangle [i, j, k]. *)
Definition side_length {D} (dm : list (list D)) (i j k : nat) (d : D) : Prop :=
  exists u v row, In (u, v) [(i, j); (j, k); (i, k)] /\ nth_error dm u = Some row /\ nth_error row v = Some d.

(** The cocycle condition fails on the triangle [i, j, k]. *)
Definition failing {D} (ltD : D -> D -> bool) (dm : list (list D)) (t : D)
    (table : list (list nat)) (c : list Z) (i j k : nat) : Prop :=
  rips ltD dm t 2 [i; j; k] /\
  exists a b e, value_at table c [i; j] a /\ value_at table c [j; k] b /\ value_at table c [i; k] e /\ (a + b - e <> 0)%Z.

(** [ltD] is a strict order in which being incomparable is transitive, such as < on numbers. *)
Definition weak_order {D} (ltD : D -> D -> bool) : Prop :=
  (forall x y, ltD x y = true -> ltD y x = false) /\
  (forall x y z, ltD x y = false -> ltD y z = false -> ltD x z = false).
