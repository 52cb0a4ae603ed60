(** SpecExamples.v -- specification vocabulary for the example data sets. *)
From Coq Require Import List ZArith Reals.
From Verif Require Import Base RealSum SpecEM SpecLLL SpecMapUtils SpecGeometry ExamplesModel.
Import ListNotations.
Local Open Scope R_scope.

(** What numpy promises of its generator: as many numbers as asked for, uniform ones in [0,1). *)
Definition rng_ok (g : rng) : Prop :=
  forall st n, length (fst (np_random g st n)) = n /\
    Forall (fun u => 0 <= u < 1) (fst (np_random g st n)) /\
    length (fst (np_randn g st n)) = n.
(** Seeds numpy accepts. *)
Definition valid_seed (s : Z) : Prop := (0 <= s < 2 ^ 32)%Z.
(** The seed in effect: the one given, the number of samples otherwise. *)
Definition effective_seed (seed : option Z) (n : Z) (s : Z) : Prop :=
  match seed with Some s' => s = s' | None => s = n end.

(** The torus of radii R0 and r, as the zero set of its polynomial. *)
Definition on_torus (R0 r : R) (v : list R) : Prop :=
  exists x y z, v = [x; y; z] /\ (x ^ 2 + y ^ 2 + z ^ 2 + R0 ^ 2 - r ^ 2) ^ 2 = 4 * R0 ^ 2 * (x ^ 2 + y ^ 2).
(** The Klein bottle in R^4: at signed distance [a] from the axis plane the point (z, w) lies on a
    line that turns by half the angle of (x, y) = a (cos phi, sin phi). *)
Definition on_klein (R0 r : R) (v : list R) : Prop :=
  exists x y z w a, v = [x; y; z; w] /\ a ^ 2 = x ^ 2 + y ^ 2 /\ (a - R0) ^ 2 + (z ^ 2 + w ^ 2) = r ^ 2 /\
    a * (z ^ 2 - w ^ 2) = (z ^ 2 + w ^ 2) * x /\ a * (2 * z * w) = (z ^ 2 + w ^ 2) * y.

(** The core of the trefoil tube. *)
Definition trefoil_core (width u : R) : list R :=
  [width * cos u * (3 / 2 + sin (3 / 2 * u) / 2);
   width * sin u * (3 / 2 + sin (3 / 2 * u) / 2);
   4 * cos (3 / 2 * u)].

(** The circle of radius [a] around (cx, cy). *)
Definition on_circle (a cx cy : R) (v : list R) : Prop :=
  exists x y, v = [x; y] /\ (x - cx) ^ 2 + (y - cy) ^ 2 = a ^ 2.

(** The disk with boundary points glued under rotations by 2 pi / q.  [moore_path q x y d]: [d] is the
    length of the segment from x to y, or of a path that goes from x straight to the boundary point b
    and on from one of the points identified with b straight to y. *)
Definition rotated (theta : R) (v : list R) : list R :=
  [cos theta * nth 0 v 0 - sin theta * nth 1 v 0; sin theta * nth 0 v 0 + cos theta * nth 1 v 0].
Definition moore_path (q : Z) (x y : list R) (d : R) : Prop :=
  d = euclid 2 x y \/
  exists b i, direction 2 x b /\ (0 <= i < q)%Z /\
    d = euclid 2 x b + euclid 2 (rotated (IZR i * (2 * PI / IZR q)) b) y.
Definition moore_distance (q : Z) (x y : list R) (d : R) : Prop :=
  moore_path q x y d /\ forall d', moore_path q x y d' -> d <= d'.
