(** SpecComplexProj.v -- notions used to state the properties of ComplexProjectiveCoords. *)
From Coq Require Import List ZArith Reals Permutation.
From Verif Require Import Base RealSum SpecEM SpecRips CohomologyModel EMModel ToroidalModel ComplexBase PPCAModel SpecPPCA
  ClassMapModel SpecClassMap ComplexProjModel.
Import ListNotations.
Local Open Scope R_scope.

(** [a i j k] is the value of the sparse 2-cocycle [c] on the oriented triangle i, j, k. *)
Definition triangle_values (c : cocycle) (n : nat) (a : nat -> nat -> nat -> Z) : Prop :=
  (forall i j k, a j i k = - a i j k)%Z /\ (forall i j k, a i k j = - a i j k)%Z /\
  (forall i j k v, In ([Z.of_nat i; Z.of_nat j; Z.of_nat k], v) (c_rows c) -> a i j k = v) /\
  (forall i j k, (i < n)%nat -> (j < n)%nat -> (k < n)%nat ->
     (forall vs v, In (vs, v) (c_rows c) -> ~ Permutation [Z.of_nat i; Z.of_nat j; Z.of_nat k] vs) -> a i j k = 0%Z).

(** [a] is an integer cocycle on the landmarks at distances below [t]. *)
Definition tetrahedra_cocycle (ll : list (list R)) (n : nat) (t : R) (a : nat -> nat -> nat -> Z) : Prop :=
  forall i j k l, (i < j < k)%nat -> (k < l < n)%nat ->
    (forall u v x, In u [i; j; k; l] -> In v [i; j; k; l] -> (u < v)%nat -> entry ll u v x -> x < t) ->
    (a j k l - a i k l + a i j l - a i j k = 0)%Z.

(** Sum of [F i j k] over the triangles i < j < k with all distances below [t]. *)
Definition triangle_sum (ll : list (list R)) (t : R) (F : nat -> nat -> nat -> R) : R :=
  sumn (length ll) (fun k => sumn k (fun j => sumn j (fun i =>
    if Rlt_dec (at2 t ll i j) t then if Rlt_dec (at2 t ll i k) t then if Rlt_dec (at2 t ll j k) t then F i j k else 0 else 0 else 0))).

(** [nu] is an antisymmetric function of two landmarks whose coboundary is closest to [a]: the
    integral of the exact part of [a]; what is left is the harmonic representative. *)
Definition best_integral (ll : list (list R)) (t : R) (a : nat -> nat -> nat -> Z) (nu : nat -> nat -> R) : Prop :=
  (forall i j, nu j i = - nu i j) /\
  forall nu' : nat -> nat -> R,
    triangle_sum ll t (fun i j k => (IZR (a i j k) - (nu i j + nu j k - nu i k)) ^ 2) <=
    triangle_sum ll t (fun i j k => (IZR (a i j k) - (nu' i j + nu' j k - nu' i k)) ^ 2).

(** The weight of landmark [t] at data point [b], 0 for NaN. *)
Definition weight0 (e : em) (r : R) (f : R -> R -> R) (t b : nat) : R :=
  match unity_weight (em_dist_land_data e) r f t b with Some w => w | None => 0 end.

(** The classifying map of the 2-cocycle [a] with the integral [nu] of its exact part: over the
    ball of landmark [j] the point [b] is sent to the vector with components sqrt(weight of i) *
    exp(2 pi i phase), where the phase is the mean of a(i,j,t) + nu(i,t) - nu(j,t) over t; NaN
    where no ball contains the point. *)
Definition mean_phase (e : em) (r : R) (f : R -> R -> R) (n : nat) (a : nat -> nat -> nat -> Z) (nu : nat -> nat -> R)
    (j b i : nat) : R :=
  sumn n (fun t => weight0 e r f t b * (IZR (a i j t) + nu i t - nu j t)).
Definition phase_class_map (e : em) (r : R) (f : R -> R -> R) (n N : nat) (a : nat -> nat -> nat -> Z)
    (nu : nat -> nat -> R) (ball : nat -> nat) : list (list (option C)) :=
  mk2 N n (fun b i => match unity_weight (em_dist_land_data e) r f i b with
                      | Some w => Some (cscale (sqrt w) (cis (2 * PI * mean_phase e r f n a nu (ball b) b i)))
                      | None => None
                      end).

(** Square roots of the weights only: what is left if all phases are zero. *)
Definition weights_class_map (e : em) (r : R) (f : R -> R -> R) (n N : nat) : list (list (option C)) :=
  mk2 N n (fun b i => match unity_weight (em_dist_land_data e) r f i b with
                      | Some w => Some (sqrt w, 0)
                      | None => None
                      end).

(** The object and the answer after ppca; [e] is the state of the object without [_variance]. *)
Definition cstored (self : cproj) (e : em) (r : res (list (option R) * list (list (option C)))) : cproj * res (list (list (option C))) :=
  match r with
  | Ok (var, X) => (mkCProj e (cp_table self) (Some var), Ok X)
  | Raise err => (mkCProj e (cp_table self) (cp_variance self), Raise err)
  end.

(** The stored cocycle of class [k] of dimension [d] is replaced by its integer lift. *)
Definition class_lifted (p : Z) (d : nat) (k : pyval) (cocycles cocycles' : list (list cocycle)) : Prop :=
  exists z cs cs' pos c, k = PyInt z /\ nth_error cocycles d = Some cs /\ nth_error cocycles' d = Some cs' /\
    (forall d', d' <> d -> nth_error cocycles' d' = nth_error cocycles d') /\
    (Z.of_nat pos = z \/ Z.of_nat pos = z + Z.of_nat (length cs))%Z /\
    nth_error cs pos = Some c /\ (exists l, nth_error cs' pos = Some l /\ integer_lift p c l) /\
    forall q, q <> pos -> nth_error cs' q = nth_error cs q.

(** The attributes of EMCoords after get_cover_radius and the lift. *)
Definition with_radius_lifted (e : em) (r t : R) (cocycles : list (list cocycle)) : em :=
  mkEM (em_prime e) (em_dgms e) (em_idx_land e) (em_n_landmarks e) (em_dist_land_data e) (em_coverage e)
    (em_dist_land_land e) cocycles (Some t) (Some r).
