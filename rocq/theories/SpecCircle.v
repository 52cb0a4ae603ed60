(** SpecCircle.v -- the circle as angles mod 2 pi, and integer matrices. *)
From Coq Require Import List ZArith Reals.
From Verif Require Import Base RealSum SpecEM.
Import ListNotations.
Local Open Scope R_scope.

(** [x] and [y] are the same point of the circle. *)
Definition same_angle (x y : R) : Prop := exists k : Z, x - y = IZR k * (2 * PI).

Definition on_circle (x : R) : Prop := 0 <= x < 2 * PI.

Definition zmat_mul (l k : nat) (M N : list (list Z)) (n : nat) : list (list Z) :=
  mk2 l n (fun i j => sumnZ k (fun h => (at2 0%Z M i h * at2 0%Z N h j)%Z)).
Definition zmat_id (n : nat) : list (list Z) := mk2 n n (fun i j => if (i =? j)%nat then 1%Z else 0%Z).
