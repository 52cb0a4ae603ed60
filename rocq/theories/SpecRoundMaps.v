(** SpecRoundMaps.v -- what is used of the C library in the map utilities. *)
From Coq Require Import Reals ZArith.
From Flocq Require Import Core.
From Verif Require Import Base ComplexBase SpecRound.
Local Open Scope R_scope.

(** [A] is an argument of the complex number [z] (any number, if [z] is zero). *)
Definition is_angle (z : C) (A : R) : Prop := fst z = cabs z * cos A /\ snd z = cabs z * sin A.
(** np.angle and the trigonometric functions: errors of at most 2^-50. *)
Definition angle_sound (angle_ : C -> R) : Prop :=
  forall z, double (angle_ z) /\ Rabs (angle_ z) <= 4 /\ exists A, is_angle z A /\ Rabs (angle_ z - A) <= bpow radix2 (-50).
Definition trig_sound (f_ f : R -> R) : Prop :=
  forall x, double x -> double (f_ x) /\ Rabs (f_ x) <= 1 /\ Rabs (f_ x - f x) <= bpow radix2 (-50).

(** [x], [y], [z] are, up to 2^-24, the coordinates in the solid ball of a point whose coordinates
    have the arguments [A1 - 2 pi n / q] (between 0 and 2 pi / q, up to rounding) and
    [A2 - 2 pi n / q]; [r] is the absolute value of the second one.  The errors of [x] and [y] are
    much smaller. *)
Definition drawn_at (q n : Z) (r A1 A2 x y z : R) : Prop :=
  let t := 2 * PI * IZR n / IZR q in
  - bpow radix2 (-45) <= A1 - t <= 2 * PI / IZR q + bpow radix2 (-45) /\
  Rabs (x - r * cos (A2 - t)) <= bpow radix2 (-44) /\
  Rabs (y - r * sin (A2 - t)) <= bpow radix2 (-44) /\
  Rabs (z - IZR q / PI * (A1 - t - PI / IZR q) * sqrt (1 - r ^ 2)) <= bpow radix2 (-24).
