(** SpecGeometry.v -- specification vocabulary for distances and furthest point sampling. *)
From Coq Require Import List ZArith Reals.
From Verif Require Import Base RealSum SpecEM SpecLLL GeometryModel.
Import ListNotations.
Local Open Scope R_scope.

(** Euclidean distance of two points of R^d. *)
Definition euclid (d : nat) (x y : list R) : R := sqrt (sumn d (fun i => (nth i x 0 - nth i y 0) ^ 2)).

(** A distance function on the points below [N]: a metric, possibly zero between distinct points. *)
Definition pseudometric (N : nat) (d : nat -> nat -> R) : Prop :=
  (forall i, (i < N)%nat -> d i i = 0) /\
  (forall i j, (i < N)%nat -> (j < N)%nat -> 0 <= d i j /\ d i j = d j i) /\
  (forall i j k, (i < N)%nat -> (j < N)%nat -> (k < N)%nat -> d i k <= d i j + d j k).

(** Entry [i] of the greedy permutation and of the insertion radii, where [d k j] is the distance
    from [k] to [j] and [le] the order of distances: the radius is the distance of the new
    landmark to the nearest earlier one, no point is further from the earlier landmarks, and the
    new landmark is the first such point. *)
Definition greedy_entry {A} (le : A -> A -> Prop) (N : nat) (d : nat -> nat -> A)
    (perm : list nat) (i p : nat) (lam : A) : Prop :=
  (p < N)%nat /\
  (forall k, (k < i)%nat -> le lam (d (nth k perm 0%nat) p)) /\
  (exists k, (k < i)%nat /\ lam = d (nth k perm 0%nat) p) /\
  (forall j, (j < N)%nat -> exists k, (k < i)%nat /\ le (d (nth k perm 0%nat) j) lam) /\
  (forall j, (j < p)%nat -> exists k, (k < i)%nat /\ le (d (nth k perm 0%nat) j) lam /\ d (nth k perm 0%nat) j <> lam).

(** The greedy permutation of [M] points: it starts with point 0. *)
Definition greedy_permutation {A} (le : A -> A -> Prop) (N M : nat) (d : nat -> nat -> A)
    (perm : list nat) (lam : nat -> A) : Prop :=
  length perm = M /\ nth_error perm 0 = Some 0%nat /\
  forall i, (1 <= i < M)%nat -> exists p, nth_error perm i = Some p /\ greedy_entry le N d perm i p (lam i).

(** Walks and their lengths, where [link i j w] says that one can step from i to j at cost w;
    geodesic distances, None when there is no walk. *)
Inductive walk (link : nat -> nat -> R -> Prop) : nat -> nat -> R -> Prop :=
| walk_here : forall i, walk link i i 0
| walk_on : forall i j k w r, link i j w -> walk link j k r -> walk link i k (w + r).
Definition geodesic (link : nat -> nat -> R -> Prop) (i j : nat) (d : ext) : Prop :=
  match d with
  | Some r => walk link i j r /\ forall r', walk link i j r' -> r <= r'
  | None => forall r', ~ walk link i j r'
  end.
(** Undirected weighted graphs, given by a list of (vertex, vertex, length). *)
Definition linked (g : list (nat * nat * R)) (i j : nat) (w : R) : Prop := In (i, j, w) g \/ In (j, i, w) g.
(** What scipy's shortest_path promises of graphs on the vertices below [n] whose steps are [link]
    (with lengths >= 0): rows of geodesic distances. *)
Definition shortest_row (n : nat) (link : nat -> nat -> R -> Prop) (i : nat) (row : list ext) : Prop :=
  length row = n /\ forall j, (j < n)%nat -> geodesic link i j (nth j row None).
Definition shortest_path_contract (n : nat) (link : nat -> nat -> R -> Prop)
    (shortest_path : nat -> list (nat * nat * R) -> nat -> list ext) : Prop :=
  forall g, (forall i j w, linked g i j w <-> link i j w) ->
    forall i, (i < n)%nat -> shortest_row n link i (shortest_path n g i).
(** A step of the nearest neighbour graph: one of the two points is among the neighbours of the
    other, at distance [w]. *)
Definition neighbour_step (distances : list (list R)) (indices : list (list nat)) (i j : nat) (w : R) : Prop :=
  exists c, (entry indices i c j /\ entry distances i c w) \/ (entry indices j c i /\ entry distances j c w).
(** KDTree(X).query(X, k): for each point the indices of k points and their distances. *)
Definition neighbours (n k : nat) (distances : list (list R)) (indices : list (list nat)) : Prop :=
  matrix n k distances /\ matrix n k indices /\
  Forall (Forall (fun j => (j < n)%nat)) indices /\ Forall (Forall (fun x => 0 <= x)) distances.

Definition ext_le (a b : ext) : Prop :=
  match a, b with Some x, Some y => x <= y | _, None => True | None, Some _ => False end.
