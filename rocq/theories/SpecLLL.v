(** SpecLLL.v -- specification vocabulary for the lattice reduction. *)
From Coq Require Import List ZArith Reals.
From Verif Require Import Base RealSum SpecEM SpecCircle LLLModel.
Import ListNotations.
Local Open Scope R_scope.

(** The states the while loop of _lll goes through on input [B]. *)
Inductive lll_reaches (delta : R) (B : list (list R)) : lll_state -> Prop :=
| reach_init : lll_reaches delta B (lll_init B)
| reach_turn : forall st, lll_reaches delta B st -> (l_k st < length (l_B st))%nat ->
    lll_reaches delta B (lll_turn delta st).

(** Euclidean inner product of column [i] of [B] and column [j] of [C] (columns of length [n]). *)
Definition inner (n : nat) (u v : list R) : R := sumn n (fun r => nth r u 0 * nth r v 0).

(** [v] is an integer combination of the columns of [B]. *)
Definition in_lattice (n : nat) (B : list (list R)) (v : list R) : Prop :=
  length v = n /\
  exists c : nat -> Z, forall r, (r < n)%nat ->
    nth r v 0 = sumn n (fun h => IZR (c h) * at2 0 B h r).

(** [B'] is obtained from [B] by the integer matrix [U] (row [i] of [U] gives column [i] of [B']). *)
Definition recombined (n : nat) (U : list (list Z)) (B B' : list (list R)) : Prop :=
  forall i r, (i < n)%nat -> (r < n)%nat ->
    at2 0 B' i r = sumn n (fun h => IZR (at2 0%Z U i h) * at2 0 B h r).
Definition unimodular (n : nat) (U : list (list Z)) : Prop :=
  matrix n n U /\ exists V, matrix n n V /\
    zmat_mul n n U V n = zmat_id n /\ zmat_mul n n V U n = zmat_id n.

(** Linear independence of the columns. *)
Definition independent (n : nat) (B : list (list R)) : Prop :=
  forall c : nat -> R, (forall r, (r < n)%nat -> sumn n (fun h => c h * at2 0 B h r) = 0) ->
  forall h, (h < n)%nat -> c h = 0.

(** Pairwise orthogonal columns. *)
Definition orthogonal (n : nat) (Q : list (list R)) : Prop :=
  forall i j, (i < n)%nat -> (j < n)%nat -> i <> j -> inner n (nth i Q []) (nth j Q []) = 0.

(** [Q] is the Gram-Schmidt orthogonalisation of [B], with coefficients [m]:
    b_i = q_i + sum_{j<i} m i j q_j and the q_i are orthogonal. *)
Definition orthogonalisation (n : nat) (B Q : list (list R)) (m : nat -> nat -> R) : Prop :=
  matrix n n Q /\ orthogonal n Q /\
  forall i r, (i < n)%nat -> (r < n)%nat ->
    at2 0 B i r = at2 0 Q i r + sumn i (fun j => m i j * at2 0 Q j r).
