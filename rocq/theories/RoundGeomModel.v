(** RoundGeomModel.v -- dreimac/utils.py: GeometryUtils.get_csm, get_csm_projarc and
    get_greedy_perm_pc in double precision.  Overflow is not modelled. *)
From Coq Require Import Reals List.
From Verif Require Import Base RealBase GeometryModel SpecRound.
Import ListNotations.
Local Open Scope R_scope.

Section Numpy.
(** [sums A i] is np.sum(A, 1)[i] and [prod X Y i j] is X.dot(Y.T)[i, j]: the orders in which
    numpy adds up are not known. *)
Variable sums : list (list R) -> nat -> R.
Variable prod : list (list R) -> list (list R) -> nat -> nat -> R.

(** utils.py:48-50, one entry.  [X**2] is computed entrywise as a product, and np.sqrt rounds
    correctly. *)
Definition squares_d (X : list (list R)) : list (list R) := map (map (fun v => dbl (v * v))) X.
Definition csm_entry_d (X Y : list (list R)) (i j : nat) : R :=
  let c := dbl (dbl (sums (squares_d X) i + sums (squares_d Y) j) - dbl (2 * prod X Y i j)) in
  dbl (sqrt (if Rltb c 0 then 0 else c)).
(** utils.py:29-50 [get_csm]; [dx] and [dy] are the numbers of columns. *)
Definition get_csm_d (dx : nat) (X : list (list R)) (dy : nat) (Y : list (list R)) : res (list (list R)) :=
  guard (dx =? dy)%nat else ValueError ;;
  Ok (map (fun i => map (csm_entry_d X Y i) (seq 0 (length Y))) (seq 0 (length X))).
(** utils.py:77-79 [get_ssm]. *)
Definition get_ssm_d (d : nat) (X : list (list R)) : res (list (list R)) := get_csm_d d X d X.

(** utils.py:82-124 [get_greedy_perm_pc] with the default cross-similarity.  Comparisons and
    minima of doubles are exact. *)
Definition get_greedy_perm_pc_d (d : nat) (X : list (list R)) (M : Z) : res (list (list R) * list nat * list R * list (list R)) :=
  get_greedy_perm_pc X M (fun A B => get_csm_d d A d B).

(** utils.py:71-75 [get_csm_projarc]; [acos_] is np.arccos. *)
Definition projarc_entry_d (acos_ : R -> R) (X Y : list (list R)) (i j : nat) : R :=
  let D := Rabs (prod X Y i j) in
  let D := if Rltb D (-1) then -1 else D in
  let D := if Rltb 1 D then 1 else D in
  acos_ (Rabs D).
Definition get_csm_projarc_d (acos_ : R -> R) (dx : nat) (X : list (list R)) (dy : nat) (Y : list (list R)) : res (list (list R)) :=
  guard (dx =? dy)%nat else ValueError ;;
  Ok (map (fun i => map (projarc_entry_d acos_ X Y i) (seq 0 (length Y))) (seq 0 (length X))).
End Numpy.
