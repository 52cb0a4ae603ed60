(** SpecTermination.v -- notions used to say when ToroidalCoords.get_coordinates returns for
    several classes. *)
From Coq Require Import List ZArith Reals.
From Verif Require Import Base RealBase RealSum SpecEM SpecRips SpecHarmonic SpecToroidal ToroidalModel.
Import ListNotations.
Local Open Scope R_scope.

(** The same outside world, in which the loop of the lattice reduction may make [turns] turns
    before it is given up. *)
Definition with_turns (x : externals) (turns : nat) : externals :=
  mkExt (x_argsort x) (x_milp x) (x_lsqr x) (x_cholesky x) (x_junk x) turns.

(** The indices [idxs] select classes with integer lifts [lifts]; [birth] is their latest birth,
    [death] their earliest death. *)
Definition selected (x : tor) (idxs : list pyval) (lifts : list cocycle) (birth death : R) : Prop :=
  Forall2 (fun k l => exists b d c, class_of x k b d c /\ integer_lift (em_prime (t_em x)) c l /\ b <= birth /\ death <= d) idxs lifts /\
  (exists k d c, In k idxs /\ class_of x k birth d c) /\ (exists k b c, In k idxs /\ class_of x k b death c).

(** Linear independence in the real cohomology of the Rips complex at scale [t]: no real
    combination of the cochains, except the trivial one, is the coboundary of a function of the
    landmarks. *)
Definition independent_cochains (dm : list (list R)) (t : R) (cochains : list cocycle) : Prop :=
  forall (a : nat -> R) (y : nat -> R),
  (forall i j, (i < j < length dm)%nat -> close Rltb dm t i j ->
     sumn (length cochains) (fun h => a h * IZR (match nth_error cochains h with Some c => sparse_edge c i j | None => 0%Z end)) = y i - y j) ->
  forall h, (h < length cochains)%nat -> a h = 0.
