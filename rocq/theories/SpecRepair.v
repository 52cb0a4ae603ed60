(** SpecRepair.v -- reduction mod p, and what is assumed of the integer program solver. *)
From Coq Require Import List ZArith Reals.
From Verif Require Import Base SpecSimplex CombinatorialModel SpecRips DeltaModel RealBase RepairModel.

(** [c] is a cocycle mod [p] on the Rips complex. *)
Definition one_cocycle_mod {D} (ltD : D -> D -> bool) (dm : list (list D)) (t : D)
    (table : list (list nat)) (p : Z) (c : list Z) : Prop :=
  forall i j k a b e, rips ltD dm t 2 [i; j; k] ->
    value_at table c [i; j] a -> value_at table c [j; k] b -> value_at table c [i; k] e ->
    (p | a + b - e)%Z.

Definition two_cocycle_mod {D} (ltD : D -> D -> bool) (dm : list (list D)) (t : D)
    (table : list (list nat)) (p : Z) (c : list Z) : Prop :=
  forall i j k l a b e f, rips ltD dm t 3 [i; j; k; l] ->
    value_at table c [i; j; k] a -> value_at table c [i; j; l] b ->
    value_at table c [i; k; l] e -> value_at table c [j; k; l] f ->
    (p | a - b + e - f)%Z.

(** Equal mod [p] at every simplex. *)
Definition congruent_mod (p : Z) (c c' : list Z) : Prop :=
  Forall2 (fun x y => (p | x - y)%Z) c c'.

(** [x] is, up to integrality tolerance [eps] and feasibility tolerance [tol], an integer
    solution of [M x = y]. *)
Definition near_solution (eps tol : R) (M : sparse) (y : list Z) (x : list R) : Prop :=
  length x = s_cols M /\
  Forall (fun v => exists k, (Rabs (v - IZR k) <= eps)%R) x /\
  exists w, matvec (K := Rring) M x = Ok w /\
    Forall2 (fun a b => (Rabs (a - IZR b) <= tol)%R) w y.

(** Answers of the solver are near solutions. *)
Definition sound_milp (eps tol : R) (milp : milp_solver) : Prop :=
  forall M y x, milp M y = Some x -> near_solution eps tol M y x.

(** The solver fails only if there is no integer solution. *)
Definition complete_milp (milp : milp_solver) : Prop :=
  forall M y (k : list Z), milp M y = None -> length k = s_cols M -> matvec (K := Zring) M k <> Ok y.
