(** SpecPlot.v -- specification vocabulary for the plotting utilities. *)
From Coq Require Import List ZArith Reals.
From Verif Require Import Base RealSum SpecEM SpecLLL SpecMapUtils SpecExamples PlotModel.
Import ListNotations.
Local Open Scope R_scope.

(** The least side of a square grid with room for [n] cells. *)
Definition least_side (n g : nat) : Prop := (n <= g * g)%nat /\ forall h, (n <= h * h)%nat -> (g <= h)%nat.
(** The least and the greatest number of a list. *)
Definition extremes (l : list R) (lo hi : R) : Prop :=
  In lo l /\ In hi l /\ Forall (fun y => lo <= y <= hi) l.
(** [patch] is the d x d picture whose rows follow each other in [v]. *)
Definition picture (d : nat) (v : list R) (patch : list (list R)) : Prop :=
  matrix d d patch /\ forall i j, (i < d)%nat -> (j < d)%nat -> at2 0 patch i j = nth (i * d + j) v 0.

(** Intervals, given by their ends in either order. *)
Definition between (a : R * R) (t : R) : Prop := fst a <= t <= snd a \/ snd a <= t <= fst a.
Definition extent (a : R * R) : R := Rabs (snd a - fst a).
Definition same_middle (a b : R * R) : Prop := fst a + snd a = fst b + snd b.

(** [k] is an integer nearest to [t]. *)
Definition nearest (t : R) (k : Z) : Prop := Rabs (t - IZR k) <= 1 / 2.

(** A closed polygon inscribed in the circle of radius one around (cx, 0). *)
Definition closed_polygon (cx : R) (pts : list (list R)) : Prop :=
  Forall (on_circle 1 cx 0) pts /\ exists p, hd_error pts = Some p /\ last pts [] = p.

(** What plot_rp3_stereo leaves on the axes when the sphere is asked for: a wireframe of the unit
    sphere after everything else (see C84). *)
Definition only_sphere (draw_sphere : bool) (rest : list request) : Prop :=
  if draw_sphere then exists grid, rest = [Wireframe grid] /\ Forall (Forall (fun p => unit_vector 3 p)) grid else rest = [].
