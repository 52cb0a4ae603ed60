(** SpecRound.v -- floating point numbers: what the statements about rounding speak of.
    Overflow is not modelled: the formats have no largest number. *)
From Coq Require Import Reals List Permutation.
From Flocq Require Import Core.
From Verif Require Import Base RealBase RealSum EMModel SpecEM SpecCircle CohomologyModel DeltaModel LLLModel ToroidalModel SpecToroidal SpecLLL SpecHarmonic.
Import ListNotations.
Local Open Scope R_scope.

(** Rounding to the nearest double (IEEE binary64, ties to even, gradual underflow) and to the
    nearest single. *)
Definition dbl (x : R) : R := round radix2 (FLT_exp (-1074) 53) ZnearestE x.
Definition sgl (x : R) : R := round radix2 (FLT_exp (-149) 24) ZnearestE x.
Definition double (x : R) : Prop := dbl x = x.
Definition single (x : R) : Prop := sgl x = x.

(** [s] is a possible result of adding up the numbers of [l] in double precision, in some order
    and with some bracketing. *)
Inductive added_up : list R -> R -> Prop :=
| au_nil : added_up [] 0
| au_one x : added_up [x] x
| au_two l1 l2 a b : added_up l1 a -> added_up l2 b -> added_up (l1 ++ l2) (dbl (a + b))
| au_perm l l' a : Permutation l l' -> added_up l a -> added_up l' a.

(** What is used of the exponential function of the C library. *)
Definition libm_exp (e : R -> R) : Prop :=
  (forall x, 0 <= e x) /\ (forall x, double (e x)) /\
  (forall x, -670 <= x -> 0 < e x) /\ (forall x, x <= -750 -> e x = 0).

(** What ripser promises when it rounds the distances with [rnd] (it works in single precision):
    the class is a cocycle mod the prime on the triangles whose rounded sides are below its death. *)
Definition cocycle_until_rounded (rnd : R -> R) (x : tor) (death : R) (c : cocycle) : Prop :=
  cocycle_on (map (map rnd) (em_dist_land_land (t_em x))) death (fun v => (em_prime (t_em x) | v)%Z) (sparse_edge c).

(** What is used of inner products computed in double precision: the usual error bound, which holds
    for every order of summation, with or without fused multiply-add. *)
Definition products (a w : list R) : list R := map (fun p => fst p * snd p) (combine a w).
Definition dot_sound (dot_ : list R -> list R -> R) : Prop :=
  forall a w, length a = length w -> Forall double a -> Forall double w -> (Z.of_nat (length a) <= 2 ^ 50)%Z ->
  double (dot_ a w) /\
  Rabs (dot_ a w - total (products a w)) <=
    INR (length a) * bpow radix2 (-52) * total (map Rabs (products a w)) + INR (length a) * bpow radix2 (-1074).

(** The balls that meet at a data point have centres joined by an edge at scale [t].  In exact
    arithmetic this follows from the triangle inequality for [t = 2 r]. *)
Definition overlaps_joined (x : tor) (r t : R) : Prop :=
  forall i j b, (i < j)%nat -> in_ball (em_dist_land_data (t_em x)) r i b -> in_ball (em_dist_land_data (t_em x)) r j b ->
  exists d, entry (em_dist_land_land (t_em x)) i j d /\ d < t.

(** [row] is the circle-valued map with these lifts, up to an error [eps] (compare
    [classified_by]): its value at a covered point is a double between 0 and the double nearest
    to 2 pi, and the lift over every ball containing the point gives this angle up to whole turns
    and [eps]; it is NaN at uncovered points. *)
Definition nearly_classified_by (x : tor) (N : nat) (r : R) (f : R -> R -> R) (eps : R) (row : list (option R))
    (integral : nat -> R) (eta : nat -> nat -> Z) : Prop :=
  let covered j b := in_ball (em_dist_land_data (t_em x)) r j b in
  length row = N /\
  forall b, (b < N)%nat ->
    (forall j, covered j b -> exists v, nth_error row b = Some (Some v) /\ double v /\ 0 <= v <= dbl (2 * dbl PI) /\
       exists m : Z, Rabs (v - 2 * PI * (lift x r f integral eta j b + IZR m)) <= eps) /\
    ((forall j, ~ covered j b) -> nth_error row b = Some None).

(** The error of one coordinate computed with [n] landmarks, if the values of the integer cocycle
    are at most [K] and those of the integral at most [B]; and of a combination of [k] coordinates
    with integer coefficients whose absolute values add up to [S], if each has an error of at most
    [eps]. *)
Definition row_error (n : nat) (K B : R) : R := bpow radix2 (-46) * (INR n + 6) * (K + 2 * B + 1).
Definition combine_error (k : nat) (S eps : R) : R := S * eps + bpow radix2 (-46) * (INR k + 1) * (S + 1).

(** What is assumed of scipy's lsqr in double precision: the normal equations hold up to [tol],
    relative to the size of the matrix, of the right hand side and of the result. *)
Definition size (A : sparse) : R := total (map (fun e => Rabs (IZR (snd e))) (s_entries A)).
Definition nearly_least_squares (tol : R) (lsqr : sparse -> list R -> list R) : Prop :=
  forall A b y u v, length b = s_rows A -> length y = s_cols A ->
  matvec (K := Rring) A (lsqr A b) = Ok u -> matvec (K := Rring) A y = Ok v ->
  Rabs (inner (length b) v (vsub b u)) <=
    tol * (1 + size A) ^ 2 * (total (map Rabs b) + total (map Rabs (lsqr A b)) + 1) * total (map Rabs y).
(** The cocycle [eta] minus the coboundary of [integral] is harmonic up to [eps]: its inner product
    with the coboundary of [y] is at most [eps] times the sum of the values of [y]. *)
Definition nearly_harmonic (dm : list (list R)) (t : R) (eta : nat -> nat -> Z) (integral : nat -> R) (eps : R) : Prop :=
  forall y : nat -> R,
  Rabs (edge_sum dm t (fun i j => (IZR (eta i j) - (integral i - integral j)) * (y i - y j))) <=
  eps * sumn (length dm) (fun i => Rabs (y i)).

(** The error for [n] landmarks, a cocycle with values at most [K] and an integral with values at
    most [B]. *)
Definition harmonic_error (n : nat) (tol K B : R) : R :=
  tol * (1 + INR n ^ 2) ^ 2 * (2 * INR n ^ 2 * K + INR n * B + 1) + bpow radix2 (-51) * INR n * K.

(** The error of an inner product of two harmonic representatives. *)
Definition gram_error (n : nat) (K B : R) : R := bpow radix2 (-47) * INR n ^ 4 * (K + 2 * B + 1) ^ 2.

(** What C32 says in exact arithmetic, with rounding errors: every selected class is represented by
    an integer cocycle congruent to it mod the prime, the classes are recombined by an integer
    matrix with integer inverse (the stored change of basis), and each returned row is the map
    with the lifts given by the recombined cocycle, up to rounding; the differences of the lifts
    are the integers of that cocycle. *)
Definition rounded_representation (lsqr : sparse -> list R -> list R) (x x' : tor) (n N : nat) (idxs : list pyval) (f : R -> R -> R)
    (rows : list (list (option R))) (r t : R) : Prop :=
  let k := length idxs in
  exists U (integrals : nat -> nat -> R) (etas : nat -> nat -> nat -> Z),
    unimodular k U /\ (k = 1%nat -> U = [[1%Z]]) /\
    ((1 < k)%nat -> t_change_basis x' = Some (map (map IZR) U)) /\
    (forall h idx, nth_error idxs h = Some idx -> exists birth death c,
       class_of x idx birth death c /\ birth < death /\ t <= death /\ lifts_class x n t c (etas h)) /\
    (forall tol K B, 0 <= tol -> nearly_least_squares tol lsqr ->
       0 <= K -> (forall h a b, (h < k)%nat -> (a < b < n)%nat -> Rabs (IZR (etas h a b)) <= K) ->
       (forall h s, (h < k)%nat -> (s < n)%nat -> Rabs (integrals h s) <= B) ->
       forall h, (h < k)%nat -> nearly_harmonic (em_dist_land_land (t_em x)) t (etas h) (integrals h) (harmonic_error n tol K B)) /\
    (* the inner products of the harmonic representatives before the recombination *)
    ((1 < k)%nat -> exists G, t_original_gram x' = Some G /\ matrix k k G /\
       forall K B, 0 <= K -> (forall h a b, (h < k)%nat -> (a < b < n)%nat -> Rabs (IZR (etas h a b)) <= K) ->
       (forall h s, (h < k)%nat -> (s < n)%nat -> Rabs (integrals h s) <= B) ->
       forall h l, (h < k)%nat -> (l < k)%nat ->
       Rabs (at2 0 G h l - edge_sum (em_dist_land_land (t_em x)) t (fun i j =>
         (IZR (etas h i j) - (integrals h i - integrals h j)) * (IZR (etas l i j) - (integrals l i - integrals l j)))) <= gram_error n K B) /\
    length rows = k /\
    (forall i row, nth_error rows i = Some row ->
       let integral := fun s => sumn k (fun h => IZR (at2 0%Z U i h) * integrals h s) in
       let eta := fun a b => sumnZ k (fun h => (at2 0%Z U i h * etas h a b)%Z) in
       let S := sumn k (fun h => Rabs (IZR (at2 0%Z U i h))) in
       (forall K B, 0 <= K -> (forall h a b, (h < k)%nat -> (a < b < n)%nat -> Rabs (IZR (etas h a b)) <= K) ->
          (forall h s, (h < k)%nat -> (s < n)%nat -> Rabs (integrals h s) <= B) ->
          nearly_classified_by x N r f (combine_error k S (row_error n K B)) row integral eta) /\
       (forall b j l, in_ball (em_dist_land_data (t_em x)) r j b -> in_ball (em_dist_land_data (t_em x)) r l b ->
          lift x r f integral eta j b - lift x r f integral eta l b = IZR (eta j l))).
