(** SpecHarmonic.v -- sums over the edges of a Rips complex, least squares, connectedness. *)
From Coq Require Import List ZArith Reals Relations.
From Verif Require Import Base RealBase RealSum CombinatorialModel DeltaModel SpecLLL LLLModel SpecRips EMModel ToroidalModel.
Import ListNotations.
Local Open Scope R_scope.

(** Sum of [F i j] over the edges i < j of the Rips complex at scale [t]. *)
Definition edge_sum (dm : list (list R)) (t : R) (F : nat -> nat -> R) : R :=
  sumn (length dm) (fun j => sumn j (fun i => if Rlt_dec (at2 t dm i j) t then F i j else 0)).

(** The value of a cochain at the edge i < j. *)
Definition edge_value (table : list (list nat)) (h : list R) (i j : nat) : R :=
  match combinatorial_number_system_forward [i; j] table with Ok k => nth k h 0 | Raise _ => 0 end.

(** What is assumed of scipy's lsqr: a least squares solution. *)
Definition least_squares (lsqr : sparse -> list R -> list R) : Prop :=
  forall A b, length b = s_rows A ->
  length (lsqr A b) = s_cols A /\
  forall y u v, length y = s_cols A ->
    matvec (K := Rring) A (lsqr A b) = Ok u -> matvec (K := Rring) A y = Ok v ->
    inner (length b) (vsub b u) (vsub b u) <= inner (length b) (vsub b v) (vsub b v).

(** Vertices in the same connected component of the Rips complex at scale [t]. *)
Definition connected (dm : list (list R)) (t : R) : nat -> nat -> Prop :=
  clos_refl_sym_trans nat (fun i j => (i < j)%nat /\ close Rltb dm t i j).

(** Two objects with the same prime and points (landmarks, data), but possibly different
    diagrams and cocycles. *)
Definition same_points (x y : tor) : Prop :=
  em_prime (t_em y) = em_prime (t_em x) /\ em_n_landmarks (t_em y) = em_n_landmarks (t_em x) /\
  em_dist_land_land (t_em y) = em_dist_land_land (t_em x) /\
  em_dist_land_data (t_em y) = em_dist_land_data (t_em x) /\ t_table y = t_table x.
