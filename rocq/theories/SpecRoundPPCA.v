(** SpecRoundPPCA.v -- PPCA and the projective class map in double precision: what the statements
    speak of. *)
From Coq Require Import Reals List ZArith.
From Flocq Require Import Core.
From Verif Require Import Base RealBase RealSum SpecEM CohomologyModel EMModel ComplexBase PPCAModel ClassMapModel SpecClassMap SpecRound RoundModel RoundPPCAModel.
Import ListNotations.
Local Open Scope R_scope.

(** Change the sign of the points marked [true]. *)
Definition flip {K : Type} (neg : K -> K) (s : list bool) (v : list K) : list K :=
  map (fun p : bool * K => if fst p then neg (snd p) else snd p) (combine s v).
Definition flip_rows {K : Type} (neg : K -> K) (s : list bool) (X : list (list (option K))) : list (list (option K)) :=
  map (fun p : bool * list (option K) => if fst p then map (option_map neg) (snd p) else snd p) (combine s X).
Definition flipped_answer {K : Type} (neg : K -> K) (s : list bool) (r : res (list (option R) * list (list (option K))))
  : res (list (option R) * list (list (option K))) :=
  match r with Ok (var, X) => Ok (var, flip_rows neg s X) | Raise err => Raise err end.

(** Rounding to nearest does not depend on signs: a product depends on the products of the
    entries only, and changes sign with one of the factors; norms, absolute values, quotients. *)
Definition sign_symmetric {K : Type} (neg : K -> K) (A : arith K) : Prop :=
  (forall p s u v, length u = length s -> length v = length s -> a_dot A p (flip neg s u) (flip neg s v) = a_dot A p u v) /\
  (forall p u v, a_dot A p u (map neg v) = neg (a_dot A p u v)) /\
  (forall p v, a_norm A p (map neg v) = a_norm A p v) /\
  (forall z s, a_div A (neg z) s = neg (a_div A z s)) /\
  (forall z, a_abs A (neg z) = a_abs A z) /\ (forall z, a_conj A (neg z) = neg (a_conj A z)).

(** A point of finite coordinates whose squared norm is 1 up to [eps]. *)
Definition nearly_unit (eps : R) (x : list (option R)) : Prop :=
  exists v, x = map Some v /\ Rabs (total (map (fun z => z * z) v) - 1) <= eps.
Definition nearly_unit_c (eps : R) (x : list (option C)) : Prop :=
  exists v, x = map Some v /\ Rabs (total (map cabs2 v) - 1) <= eps.
Definition not_finite {K : Type} (x : list (option K)) : Prop := Forall (fun z => z = None) x.

(** The class map over the ball of landmark [ball b], from computed weights [W]: component [t] of
    point [b] is the rounded square root of the weight of [t], with the sign of the cocycle. *)
Definition signed_roots (W : list (list (option R))) (n N : nat) (eta : nat -> nat -> Z) (ball : nat -> nat) : list (list (option R)) :=
  mk2 N n (fun b t => match at2 None W t b with
                      | Some w => Some (if Z.even (eta (ball b) t) then dbl (sqrt w) else - dbl (sqrt w))
                      | None => None
                      end).
(** The balls that meet at a data point have centres joined by an edge at scale [t] (compare
    [overlaps_joined]). *)
Definition em_overlaps_joined (e : em) (r t : R) : Prop :=
  forall i j b, in_ball (em_dist_land_data e) r i b -> in_ball (em_dist_land_data e) r j b ->
  exists d, entry (em_dist_land_land e) i j d /\ d < t.
(** The object and the answer after ppca. *)
Definition stored_d {K : Type} (self : proj) (e : em) (r : res (list (option R) * list (list (option K)))) : proj * res (list (list (option K))) :=
  match r with Ok (var, X) => (mkProj e (Some var), Ok X) | Raise err => (mkProj e (p_variance self), Raise err) end.
(** [W] is the partition of unity over the balls, with weights rounded: those of a covered point
    are doubles between 0 and 1, 0 outside the balls, close to the exact ones; NaN at the others. *)
Definition nearly_weights (e : em) (r : R) (f : R -> R -> R) (n N : nat) (W : list (list (option R))) : Prop :=
  let ld := em_dist_land_data e in
  matrix n N W /\ forall b t, (b < N)%nat -> (t < n)%nat ->
    ((exists i, in_ball ld r i b) -> exists w y, at2 None W t b = Some w /\ unity_weight ld r f t b = Some y /\
       double w /\ 0 <= w <= 1 /\ Rabs (w - y) <= (INR n + 1) * bpow radix2 (-52) * y + bpow radix2 (-1075) /\ (~ in_ball ld r t b -> w = 0)) /\
    ((forall i, ~ in_ball ld r i b) -> at2 None W t b = None).
(** [x] was computed by dividing a vector that is zero to working precision (its squares underflow),
    or, for complex numbers, one close to overflow, by its norm. *)
Definition from_tiny (x : list (option R)) : Prop :=
  exists y s, total (map (fun a => a * a) y) < bpow radix2 (-900) /\ x = map (fun a => Some (dbl (a / s))) y.
Definition from_extreme (x : list (option C)) : Prop :=
  exists y s, (total (map cabs2 y) < bpow radix2 (-900) \/ bpow radix2 1000 < total (map cabs2 y)) /\
    x = map (fun z => Some (dbl (fst z * dbl (1 / s)), dbl (snd z * dbl (1 / s)))) y.
(** Exact arithmetic: nothing is rounded. *)
Definition exact_real : arith R :=
  real_arith (fun x => x) (fun _ u v => total (map (fun p => fst p * snd p) (combine u v))) (fun _ => total) acos (fun l => total l / INR (length l)).
Definition exact_complex : arith C :=
  complex_arith (fun x => x) (fun _ u v => fold_right cadd c0 (map (fun p => cmul (fst p) (snd p)) (combine u v))) (fun _ => total) cabs acos
    (fun l => total l / INR (length l)).
(** A real array as a complex one, and the routine eigh for real arrays as one for complex arrays with real entries. *)
Definition as_complex (X : list (list (option R))) : list (list (option C)) := map (map (option_map (fun x => (x, 0)))) X.
Definition as_real (X : list (list (option C))) : list (list (option R)) := map (map (option_map fst)) X.
Definition eigh_of_real (eigh : list (list (option R)) -> option (list (list (option R)))) : eigh_fn :=
  fun G => option_map as_complex (eigh (as_real G)).
Definition answer_as_complex (r : res (list (option R) * list (list (option R)))) : res (list (option R) * list (list (option C))) :=
  match r with Ok (var, X) => Ok (var, as_complex X) | Raise err => Raise err end.
(** The class map [M] has the shape of [M'], NaN at the same places, and real and imaginary parts that
    differ by at most [delta]. *)
Definition within (delta : R) (z w : C) : Prop := Rabs (fst z - fst w) <= delta /\ Rabs (snd z - snd w) <= delta.
Definition nearly_map (delta : R) (M M' : list (list (option C))) : Prop :=
  Forall2 (Forall2 (fun x y => match x, y with Some z, Some w => within delta z w | None, None => True | _, _ => False end)) M M'.
(** [power] and [inverse_power] are the powers of [root] and of its inverse up to [eps], for the
    exponents that occur in [c]. *)
Definition nearly_powers (eps : R) (root : C) (power inverse_power : Z -> C) (c : cocycle) : Prop :=
  forall row, In row (c_rows c) -> within eps (power (snd row)) (cpowZ root (snd row)) /\ within eps (inverse_power (snd row)) (cpowZ root (- snd row)).
(** The class map over the ball of landmark [ball b], from computed weights [W] and computed
    transition constants [g]: component [t] of point [b] is the rounded square root of the weight
    of [t], times [g], rounded. *)
Definition rounded_roots (W : list (list (option R))) (n N : nat) (g : nat -> nat -> C) (ball : nat -> nat) : list (list (option C)) :=
  mk2 N n (fun b t => match at2 None W t b with
                      | Some w => Some (dbl (dbl (sqrt w) * fst (g (ball b) t)), dbl (dbl (sqrt w) * snd (g (ball b) t)))
                      | None => None
                      end).
