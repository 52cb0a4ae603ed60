(** SpecToroidal.v -- notions used to state the properties of ToroidalCoords and
    CircularCoords. *)
From Coq Require Import List ZArith Reals.
From Verif Require Import Base RealSum SpecEM SpecCircle SpecRips SpecRepair SpecCohomology ToroidalModel.
Import ListNotations.
Local Open Scope R_scope.

(** A sparse 1-cocycle on landmarks [0 .. n-1]. *)
Definition edge_cocycle (n : nat) (c : cocycle) : Prop :=
  c_dim c = 1%nat /\
  Forall (fun row => length (fst row) = 2%nat /\ NoDup (fst row) /\
                     Forall (fun u => (0 <= u < Z.of_nat n)%Z) (fst row)) (c_rows c).

(** [x] is an object with [n] landmarks and [N] data points whose parts fit together:
    what the constructor produces (see C33_constructor). *)
Record consistent (x : tor) (n N : nat) : Prop := {
  co_landmarks : em_n_landmarks (t_em x) = n;
  co_pos : (1 <= n <= 2345)%nat;
  co_ll : matrix n n (em_dist_land_land (t_em x));
  co_ld : matrix n N (em_dist_land_data (t_em x));
  co_nonneg : forall i b d, entry (em_dist_land_data (t_em x)) i b d -> 0 <= d;
  co_table : exists n', (n <= n')%nat /\ t_table x = combinatorial_number_system_table n' 2;
  co_prime : (2 <= em_prime (t_em x))%Z;
  co_classes : exists dgm cs, nth_error (em_dgms (t_em x)) 1 = Some dgm /\
    nth_error (em_cocycles (t_em x)) 1 = Some cs /\ length cs = length dgm /\
    Forall (edge_cocycle n) cs
}.

(** Distances come from a metric: symmetric between landmarks, triangle inequality through
    data points. *)
Definition metric (x : tor) : Prop :=
  let ll := em_dist_land_land (t_em x) in let ld := em_dist_land_data (t_em x) in
  (forall i j d, entry ll i j d -> entry ll j i d) /\
  (forall i j b d d1 d2, entry ll i j d -> entry ld i b d1 -> entry ld j b d2 -> d <= d1 + d2).

(** What is assumed of numpy and scipy: argsort sorts, lsqr returns a vector of the right size. *)
Definition sound_numpy (x : externals) : Prop :=
  (forall l, is_argsort Z.le 0%Z l (x_argsort x l)) /\
  (forall A b, length (x_lsqr x A b) = s_cols A).

(** A bump function: positive inside the ball. *)
Definition bump (f : R -> R -> R) (r : R) : Prop := forall d, 0 <= d < r -> 0 < f d r.

(** The value of a sparse 1-cocycle on the oriented edge from [i] to [j], [i <> j]: the last row
    that names the edge counts, with a sign if it names it in the opposite direction. *)
Definition sparse_edge (c : cocycle) (i j : nat) : Z :=
  fold_left (fun v row =>
      if list_eq_dec Z.eq_dec (fst row) [Z.of_nat i; Z.of_nat j] then snd row
      else if list_eq_dec Z.eq_dec (fst row) [Z.of_nat j; Z.of_nat i] then (- snd row)%Z else v)
    (c_rows c) 0%Z.

(** The coboundary of the function [eta] of oriented edges on the triangles of the Rips complex at
    scale [t] has values in [P] (0, or the multiples of a prime). *)
Definition cocycle_on (ll : list (list R)) (t : R) (P : Z -> Prop) (eta : nat -> nat -> Z) : Prop :=
  forall i j k, rips Rltb ll t 2 [i; j; k] -> P (eta i j + eta j k - eta i k)%Z.

(** [eta] is an integer cocycle on the Rips complex at scale [t], congruent to the sparse cocycle
    [c] mod the prime. *)
Definition lifts_class (x : tor) (n : nat) (t : R) (c : cocycle) (eta : nat -> nat -> Z) : Prop :=
  (forall i j, eta i j = - eta j i)%Z /\
  (forall i j, (i < j < n)%nat -> (em_prime (t_em x) | eta i j - sparse_edge c i j)%Z) /\
  cocycle_on (em_dist_land_land (t_em x)) t (fun v => v = 0%Z) eta.

(** Class [k] of the object: birth, death and sparse cocycle. *)
Definition class_of (x : tor) (k : pyval) (birth death : R) (c : cocycle) : Prop :=
  em_class (t_em x) 1 k birth death c.

(** The sparse cocycle is a cocycle mod the prime up to the death of the class (what ripser
    promises). *)
Definition cocycle_until (x : tor) (death : R) (c : cocycle) : Prop :=
  cocycle_on (em_dist_land_land (t_em x)) death (fun v => (em_prime (t_em x) | v)%Z) (sparse_edge c).

(** Weight of landmark [t] at data point [b] in the partition of unity (0 for NaN). *)
Definition weight_at (x : tor) (r : R) (f : R -> R -> R) (t b : nat) : R :=
  match unity_weight (em_dist_land_data (t_em x)) r f t b with Some w => w | None => 0 end.

(** The objects [x] can turn into by any sequence of calls of get_coordinates, with any
    arguments and whether or not they raise. *)
Inductive history (x : tor) : tor -> Prop :=
| h_start : history x x
| h_call : forall y ext perc idxs f standard_range check, history x y ->
    history x (fst (get_coordinates ext y perc idxs f standard_range check)).

(** All stored values of the 1-cocycles are field elements 0 .. p-1, as documented and as
    computed by ripser. *)
Definition field_valued (x : tor) : Prop :=
  forall cs c row, nth_error (em_cocycles (t_em x)) 1 = Some cs -> In c cs -> In row (c_rows c) ->
  (0 <= snd row < em_prime (t_em x))%Z.

(** ** What the coordinates of a class are *)

(** The Eilenberg-MacLane formula: over the ball of landmark [j], the lift at data point [b] of
    the circle-valued map given by [integral] and the integer cocycle [eta] (docs/theory.rst). *)
Definition lift (x : tor) (r : R) (f : R -> R -> R) (integral : nat -> R) (eta : nat -> nat -> Z)
    (j b : nat) : R :=
  sumn (em_n_landmarks (t_em x)) (fun t => weight_at x r f t b * (integral t + IZR (eta j t))).

(** [row] is the circle-valued map with these lifts: its value at a covered point is an angle in
    [0, 2 pi), and the lift over every ball containing the point gives this angle; it is NaN at
    uncovered points. *)
Definition classified_by (x : tor) (N : nat) (r : R) (f : R -> R -> R) (row : list (option R))
    (integral : nat -> R) (eta : nat -> nat -> Z) : Prop :=
  let covered j b := in_ball (em_dist_land_data (t_em x)) r j b in
  length row = N /\
  forall b, (b < N)%nat ->
    (forall j, covered j b -> exists v, nth_error row b = Some (Some v) /\ on_circle v /\
       same_angle v (2 * PI * lift x r f integral eta j b)) /\
    ((forall j, ~ covered j b) -> nth_error row b = Some None).

(** Entries in [0, 2 pi), NaN exactly at uncovered points. *)
Definition range_and_nan (x : tor) (N : nat) (r : R) (row : list (option R)) : Prop :=
  length row = N /\
  forall b, (b < N)%nat ->
    ((exists j, in_ball (em_dist_land_data (t_em x)) r j b) ->
       exists v, nth_error row b = Some (Some v) /\ on_circle v) /\
    ((forall j, ~ in_ball (em_dist_land_data (t_em x)) r j b) -> nth_error row b = Some None).

(** What is assumed of scipy's integer programming solver. *)
Definition sound_solver (x : externals) : Prop :=
  exists eps tol, 0 <= eps /\ 0 <= tol /\ 3 * eps + tol < 1 /\ sound_milp eps tol (x_milp x).

(** What is assumed of numpy's Cholesky factorisation: the factor of a symmetric matrix [G] is
    lower triangular with positive diagonal, and its rows have the inner products given by [G]. *)
Definition symmetric (k : nat) (G : list (list R)) : Prop :=
  forall i j, (i < k)%nat -> (j < k)%nat -> at2 0 G i j = at2 0 G j i.
Definition sound_cholesky (x : externals) : Prop :=
  forall k G L, matrix k k G -> x_cholesky x G = Ok L ->
  matrix k k L /\
  (symmetric k G ->
    (forall i j, (i < j < k)%nat -> at2 0 L i j = 0) /\ (forall i, (i < k)%nat -> 0 < at2 0 L i i) /\
    forall i j, (i < k)%nat -> (j < k)%nat -> at2 0 G i j = sumn k (fun h => at2 0 L i h * at2 0 L j h)).

(** In exact arithmetic it succeeds for positive definite symmetric matrices, and raises for the
    other symmetric ones. *)
Definition positive_definite (k : nat) (G : list (list R)) : Prop :=
  forall c : nat -> R, (exists h, (h < k)%nat /\ c h <> 0) ->
  0 < sumn k (fun i => sumn k (fun j => c i * c j * at2 0 G i j)).
Definition exact_cholesky (x : externals) : Prop :=
  forall k G, matrix k k G -> symmetric k G ->
  (positive_definite k G -> exists L, x_cholesky x G = Ok L) /\
  (~ positive_definite k G -> x_cholesky x G = Raise LinAlgError).

(** ripser's promise for the selected classes. *)
Definition cocycles_until_death (x : tor) (idxs : list pyval) : Prop :=
  forall k birth death c, In k idxs -> class_of x k birth death c -> cocycle_until x death c.
