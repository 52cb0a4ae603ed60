(** SpecClassMap.v -- notions used to state the properties of ProjectiveCoords, LensCoords and
    ComplexProjectiveCoords. *)
From Coq Require Import List ZArith Reals Permutation.
From Verif Require Import Base RealSum SpecEM CohomologyModel EMModel ComplexBase PPCAModel SpecPPCA ClassMapModel.
Import ListNotations.
Local Open Scope R_scope.

(** A sparse [d]-cocycle on landmarks [0 .. n-1]: each row is a simplex, no simplex occurs twice
    (in any orientation). *)
Definition simplex_cocycle (n d : nat) (c : cocycle) : Prop :=
  c_dim c = d /\
  Forall (fun row => length (fst row) = S d /\ NoDup (fst row) /\
                     Forall (fun u => (0 <= u < Z.of_nat n)%Z) (fst row)) (c_rows c) /\
  ForallOrdPairs (fun row row' => ~ Permutation (fst row) (fst row')) (c_rows c).

(** The parts of an object with [n] landmarks and [N] data points fit together; its classes of
    dimension [d] are given by sparse cocycles. *)
Record em_consistent (e : em) (n N d : nat) : Prop := {
  ec_landmarks : em_n_landmarks e = n;
  ec_pos : (1 <= n)%nat;
  ec_ll : matrix n n (em_dist_land_land e);
  ec_ld : matrix n N (em_dist_land_data e);
  ec_nonneg : forall i b x, entry (em_dist_land_data e) i b x -> 0 <= x;
  ec_prime : (2 <= em_prime e)%Z;
  ec_classes : exists dgm cs, nth_error (em_dgms e) d = Some dgm /\
    nth_error (em_cocycles e) d = Some cs /\ length cs = length dgm /\ Forall (simplex_cocycle n d) cs
}.

(** Distances come from a metric: symmetric between landmarks, triangle inequality through data
    points. *)
Definition em_metric (e : em) : Prop :=
  let ll := em_dist_land_land e in let ld := em_dist_land_data e in
  (forall i j x, entry ll i j x -> entry ll j i x) /\
  (forall i j b x d1 d2, entry ll i j x -> entry ld i b d1 -> entry ld j b d2 -> x <= d1 + d2).

(** [eta i j] is the value of the sparse 1-cocycle [c] on the oriented edge from [i] to [j]. *)
Definition edge_values (c : cocycle) (n : nat) (eta : nat -> nat -> Z) : Prop :=
  (forall i j, eta j i = - eta i j)%Z /\
  (forall i j v, (i < n)%nat -> (j < n)%nat -> In ([Z.of_nat i; Z.of_nat j], v) (c_rows c) -> eta i j = v) /\
  (forall i j, (i < n)%nat -> (j < n)%nat -> (forall v, ~ In ([Z.of_nat i; Z.of_nat j], v) (c_rows c)) ->
     (forall v, ~ In ([Z.of_nat j; Z.of_nat i], v) (c_rows c)) -> eta i j = 0%Z).

(** [c] is a cocycle mod [p] on the landmarks at distances below [t]. *)
Definition edge_cocycle_mod (p : Z) (c : cocycle) (ll : list (list R)) (n : nat) (t : R) : Prop :=
  forall eta i j k x y z, edge_values c n eta -> (i < j < k)%nat -> (k < n)%nat ->
    entry ll i j x -> entry ll j k y -> entry ll i k z -> x < t -> y < t -> z < t ->
    (p | eta i j + eta j k - eta i k)%Z.

(** A choice of a landmark for each data point: one whose ball contains it, if there is one. *)
Definition covering_choice (e : em) (r : R) (n N : nat) (ball : nat -> nat) : Prop :=
  forall b, (b < N)%nat -> (ball b < n)%nat /\
    ((exists i, in_ball (em_dist_land_data e) r i b) -> in_ball (em_dist_land_data e) r (ball b) b).

(** The class map of the classifying map: over the ball of landmark [j] the point [b] is sent to
    the vector with components sqrt(weight of t) * root^(eta j t); NaN where no ball contains it. *)
Definition root_class_map (e : em) (r : R) (f : R -> R -> R) (n N : nat) (root : C)
    (eta : nat -> nat -> Z) (ball : nat -> nat) : list (list (option C)) :=
  mk2 N n (fun b t => match unity_weight (em_dist_land_data e) r f t b with
                      | Some w => Some (cscale (sqrt w) (cpowZ root (eta (ball b) t)))
                      | None => None
                      end).

(** The object after get_cover_radius. *)
Definition with_radius (e : em) (r t : R) : em :=
  mkEM (em_prime e) (em_dgms e) (em_idx_land e) (em_n_landmarks e) (em_dist_land_data e) (em_coverage e)
    (em_dist_land_land e) (em_cocycles e) (Some t) (Some r).
Definition start_of (birth : R) (standard_range : bool) : R := if standard_range then 2 * birth else birth.
(** What ppca returns, for points multiplied by scalars. *)
Definition scaled_answer (lams : list C) (r : res (list (option R) * list (list (option C)))) : res (list (option R) * list (list (option C))) :=
  match r with Ok (var, X) => Ok (var, scale_rows lams X) | Raise err => Raise err end.
(** The object and the answer after ppca. *)
Definition stored (self : proj) (e : em) (r : res (list (option R) * list (list (option C)))) : proj * res (list (list (option C))) :=
  match r with Ok (var, X) => (mkProj e (Some var), Ok X) | Raise err => (mkProj e (p_variance self), Raise err) end.
