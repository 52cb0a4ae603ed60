(** SpecEM.v -- notions used to state the properties of EMCoords and PartUnity. *)
From Coq Require Import List ZArith Reals Permutation.
From Verif Require Import RealSum CohomologyModel EMModel.
Import ListNotations.

Definition matrix {A} (n m : nat) (M : list (list A)) : Prop :=
  length M = n /\ Forall (fun row => length row = m) M.

(** [x] is the entry of [M] in row [i] and column [j]. *)
Definition entry {A} (M : list (list A)) (i j : nat) (x : A) : Prop :=
  exists row, nth_error M i = Some row /\ nth_error row j = Some x.

Definition persistence (bd : R * R) : R := (snd bd - fst bd)%R.

(** [c'] is [c] with every vertex, a data index, replaced by its landmark position. *)
Definition renamed (idx_land : list Z) (c c' : cocycle) : Prop :=
  c_dim c' = c_dim c /\
  Forall2 (fun row row' =>
      snd row' = snd row /\
      Forall2 (fun v v' => (0 <= v')%Z /\ nth_error idx_land (Z.to_nat v') = Some v)
        (fst row) (fst row'))
    (c_rows c) (c_rows c').

(** What the code expects of ripser on [N] points with the given [maxdim]: distinct
    landmark indices, landmark-to-data distances, a diagram and cocycles per dimension,
    one cocycle per class of positive dimension, written with data indices of landmarks. *)
Definition ripser_contract (N maxdim : nat) (r : ripser_answer) : Prop :=
  r_idx_perm r <> [] /\ NoDup (r_idx_perm r) /\
  Forall (fun v => (0 <= v < Z.of_nat N)%Z) (r_idx_perm r) /\
  matrix (length (r_idx_perm r)) N (r_dperm2all r) /\
  maxdim < length (r_dgms r) /\ length (r_cocycles r) = length (r_dgms r) /\
  (forall i dgm cs, 1 <= i -> nth_error (r_dgms r) i = Some dgm ->
     nth_error (r_cocycles r) i = Some cs -> length cs = length dgm) /\
  (forall cs c row v, In cs (r_cocycles r) -> In c cs -> In row (c_rows c) ->
     In v (fst row) -> In v (r_idx_perm r)).

(** [r] is the greatest distance from a data point (column) to its nearest landmark (row). *)
Definition covering_radius (dist : list (list R)) (m : nat) (r : R) : Prop :=
  (forall j, j < m -> exists i x, entry dist i j x /\ (x <= r)%R) /\
  (exists j, j < m /\ forall i x, entry dist i j x -> (r <= x)%R).

(** Data point [b] lies in the open ball of radius [r] around landmark [i]. *)
Definition in_ball (dist : list (list R)) (r : R) (i b : nat) : Prop :=
  exists d, entry dist i b d /\ (d < r)%R.

(** The partition of unity (docs/theory.rst): the bump function of the distance inside the ball,
    0 outside, divided by the sum over all landmarks; [None] (NaN) where the sum is 0. *)
Definition bump_at (dist : list (list R)) (r : R) (f : R -> R -> R) (i b : nat) : R :=
  match nth_error dist i with
  | Some row => match nth_error row b with Some d => if Rlt_dec d r then f d r else 0%R | None => 0%R end
  | None => 0%R
  end.
Definition unity_weight (dist : list (list R)) (r : R) (f : R -> R -> R) (i b : nat) : option R :=
  let s := sumn (length dist) (fun j => bump_at dist r f j b) in
  if Req_EM_T s 0 then None else Some (bump_at dist r f i b / s)%R.

Definition total (w : list R) : R := fold_right Rplus 0%R w.

(** docs/theory.rst:65-73: the documented thickening parameter. *)
Definition documented_alpha (cover birth death perc : R) (standard_range : bool) : R :=
  ((1 - perc) * Rmax cover (if standard_range then 2 * birth else birth) + perc * death)%R.

(** A documented input: a point cloud with [N] points, or distances from [N] points to
    [d >= N] points; [n_data] is the number of data points it describes. *)
Definition documented_input (X : list (list R)) (distance_matrix : bool) (N d : nat) : Prop :=
  matrix N d X /\ 1 <= N /\ (distance_matrix = true -> N <= d).
Definition n_data (distance_matrix : bool) (N d : nat) : nat := if distance_matrix then d else N.
(** What ripser is to be given: the points, or the distances between the first [N] points. *)
Definition given_to_ripser (X : list (list R)) (distance_matrix : bool) : list (list R) :=
  if distance_matrix then map (firstn (length X)) X else X.
(** [dist] holds the distances from the landmarks to the data points: as ripser found them, or,
    for a matrix with more columns than rows, the rows of the matrix. *)
Definition landmark_distances (X : list (list R)) (distance_matrix : bool) (N d : nat) (r : ripser_answer)
    (dist : list (list R)) : Prop :=
  (distance_matrix = false \/ N = d -> dist = r_dperm2all r) /\
  (distance_matrix = true -> N <> d -> Forall2 (fun v row => nth_error X (Z.to_nat v) = Some row) (r_idx_perm r) dist).

(** Python's indexing of a list: negative indices count from the end. *)
Definition py_index {A} (l : list A) (k : Z) (x : A) : Prop :=
  exists p, (Z.of_nat p = k \/ Z.of_nat p = k + Z.of_nat (length l))%Z /\ nth_error l p = Some x.

(** Class [k] of dimension [d]: birth, death and sparse cocycle. *)
Definition em_class (e : em) (d : nat) (k : pyval) (birth death : R) (c : cocycle) : Prop :=
  exists z dgm cs, k = PyInt z /\ nth_error (em_dgms e) d = Some dgm /\ nth_error (em_cocycles e) d = Some cs /\
    py_index dgm z (birth, death) /\ py_index cs z c.

(** [c'] is [c] with the values above (p - 1) / 2 reduced by [p]. *)
Definition integer_lift (p : Z) (c c' : cocycle) : Prop :=
  c_dim c' = c_dim c /\
  Forall2 (fun row row' => fst row' = fst row /\
     ((2 * snd row <= p - 1)%Z /\ snd row' = snd row \/ (2 * snd row > p - 1)%Z /\ snd row' = (snd row - p)%Z))
    (c_rows c) (c_rows c').
