(** SpecRoundCProj.v -- ComplexProjectiveCoords in double precision: what the statements speak of. *)
From Coq Require Import Reals List ZArith.
From Flocq Require Import Core.
From Verif Require Import Base RealSum EMModel SpecEM CohomologyModel ToroidalModel ComplexBase PPCAModel SpecPPCA ClassMapModel SpecClassMap ComplexProjModel SpecComplexProj SpecRound RoundPPCAModel SpecRoundPPCA.
Import ListNotations.
Local Open Scope R_scope.

(** The exponential function on the imaginary axis, as computed: accurate up to [eps]. *)
Definition nearly_cis (eps : R) (cexp : R -> C) : Prop := forall y, double y -> within eps (cexp y) (cis y).

(** The error of the angles with [n] landmarks, if the values of the integer cocycle are at most [K]
    and those of the integral at most [B]. *)
Definition phase_error (n : nat) (K B : R) : R := bpow radix2 (-47) * (INR n + 3) * (K + 3 * B + 1).

(** The class map whose phases are all 0, from computed weights [W]. *)
Definition root_weights (W : list (list (option R))) (n N : nat) : list (list (option C)) :=
  mk2 N n (fun b i => option_map (fun w => (dbl (sqrt w), 0)) (at2 None W i b)).

(** The cocycle [a] minus the coboundary of [nu] is harmonic up to [eps]: its inner product with the
    coboundary of [y] is at most [eps] times the sum of the values of [y] on pairs. *)
Definition nearly_harmonic2 (ll : list (list R)) (t : R) (a : nat -> nat -> nat -> Z) (nu : nat -> nat -> R) (eps : R) : Prop :=
  forall y : nat -> nat -> R,
  Rabs (triangle_sum ll t (fun i j k => (IZR (a i j k) - (nu i j + nu j k - nu i k)) * (y i j + y j k - y i k))) <=
  eps * sumn (length ll) (fun j => sumn j (fun i => Rabs (y i j))).
(** The error for [n] landmarks, a cocycle with values at most [K] and an integral with values at
    most [B], if the normal equations hold up to [tol] ([nearly_least_squares]). *)
Definition harmonic_error2 (n : nat) (tol K B : R) : R :=
  tol * (1 + INR n ^ 3) ^ 2 * (INR n ^ 3 * K + INR n ^ 2 * B + 1) + bpow radix2 (-52) * INR n * K.

(** What get_coordinates does in double precision, with the cover of radius [r] and the complex at
    scale [t].  There are an integral [nu], a choice [ball] of a landmark for each data point, a
    partition of unity [W] and a class map [M] such that [nu] is nearly the integral of the exact part
    of [a] if the solver is accurate; the stored class is replaced by its integer lift; the answer is
    the PPCA of [M]; for arrays of at most 10^6 bytes [M] consists of the roots of the weights, for
    others it is near the exact class map; its rows are nearly unit vectors or NaN; and the exact
    class maps for two choices of landmarks differ by unit complex numbers. *)
Definition complex_projective_answer (A : arith C) (eigh : list (list (option C)) -> option (list (list (option C))))
    (lsqr : sparse -> list R -> list R) (self : cproj) (k : pyval) (n N : nat) (r t : R) (f : R -> R -> R) (a : nat -> nat -> nat -> Z)
    (eps : R) (proj_dim : Z) (m : mode) (answer : cproj * res (list (list (option C)))) : Prop :=
  let e := cp_em self in let ll := em_dist_land_land e in let ld := em_dist_land_data e in
  exists nu ball store W M,
    (forall i j, nu j i = - nu i j) /\
    (forall tol K B, 0 <= tol -> nearly_least_squares tol lsqr ->
       (forall i j l, (i < n)%nat -> (j < n)%nat -> (l < n)%nat -> Rabs (IZR (a i j l)) <= K) ->
       (forall i j, (i < n)%nat -> (j < n)%nat -> Rabs (nu i j) <= B) -> nearly_harmonic2 ll t a nu (harmonic_error2 n tol K B)) /\
    covering_choice e r n N ball /\ class_lifted (em_prime e) 2 k (em_cocycles e) store /\ nearly_weights e r f n N W /\
    answer = cstored self (with_radius_lifted e r t store) (ppca_d A eigh M n proj_dim m) /\
    ((8 * (Z.of_nat N * Z.of_nat n) <= 1000000)%Z ->
       M = root_weights W n N /\ nearly_map ((INR n + 2) * bpow radix2 (-52)) M (weights_class_map e r f n N)) /\
    ((1000000 < 8 * (Z.of_nat N * Z.of_nat n))%Z -> forall K B,
       (forall i j l, (i < n)%nat -> (j < n)%nat -> (l < n)%nat -> Rabs (IZR (a i j l)) <= K) ->
       (forall i j, (i < n)%nat -> (j < n)%nat -> Rabs (nu i j) <= B) ->
       nearly_map (eps + phase_error n K B + (INR n + 4) * bpow radix2 (-52)) M (phase_class_map e r f n N a nu ball)) /\
    (forall b, (b < N)%nat -> ((exists i, in_ball ld r i b) -> nearly_unit_c (4 * eps + (INR n + 5) * bpow radix2 (-52)) (nth b M [])) /\
                              ((forall i, ~ in_ball ld r i b) -> not_finite (nth b M []))) /\
    (tetrahedra_cocycle ll n t a -> forall ball', covering_choice e r n N ball' ->
       exists lams, length lams = N /\ Forall (fun l => cabs2 l = 1) lams /\
         phase_class_map e r f n N a nu ball' = scale_rows lams (phase_class_map e r f n N a nu ball)).
