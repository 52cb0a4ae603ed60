(** ClassMapModel.v -- model of dreimac/projectivecoords.py (class ProjectiveCoords),
    dreimac/lenscoords.py (class LensCoords) and dreimac/complexprojectivecoords.py
    (class ComplexProjectiveCoords and the functions it uses).  Floats are reals; a NaN is
    [None]; a real array is a complex one with zero imaginary parts. *)
From Coq Require Import String.
From Verif Require Export Base CombinatorialModel CohomologyModel DeltaModel RealBase RepairModel EMModel
  CircleModel ToroidalModel ComplexBase PPCAModel.
Local Open Scope list_scope.
Local Open Scope R_scope.

(** Complex powers with integer exponents, and [1 / z]. *)
Definition cinv (z : C) : C := cscale (/ cabs2 z) (conj z).
Fixpoint cpow (z : C) (n : nat) : C := match n with 0%nat => c1 | S n => cmul z (cpow z n) end.
Definition cpowZ (z : C) (v : Z) : C :=
  if (v <? 0)%Z then cpow (cinv z) (Z.to_nat (- v)) else cpow z (Z.to_nat v).

(** [a[i, j] = x] with integers [i], [j]. *)
Definition set2 {A} (m : list (list A)) (i j : Z) (x : A) : res (list (list A)) :=
  row <- np_get m i ;; row' <- np_set row j x ;; np_set m i row'.

(** Columns 0, 1 and 2 of a sparse 1-cocycle (simplification: a row that is not two vertices
    and a value raises; 1-cocycles have none). *)
Definition edge_row (row : list Z * Z) : res (Z * Z * Z) :=
  match fst row with [u; v] => Ok (u, v, snd row) | _ => Raise IndexError end.

(** projectivecoords.py:89-93 and lenscoords.py:94-98: the matrix of transition constants.
    [power] gives [root_of_unity ** k], [inverse_power] gives [(1 / root_of_unity) ** k].  The two
    fancy assignments write in the order of the rows. *)
Definition cocycle_matrix (power : Z -> res C) (inverse_power : Z -> C) (n_landmarks : nat) (c : cocycle)
  : res (list (list C)) :=
  rows <- map_res edge_row (c_rows c) ;;
  values <- map_res (fun r => power (snd r)) rows ;;
  let m := mk2 n_landmarks n_landmarks (fun _ _ => c1) in
  m <- for_in (combine rows values) (fun rv m => let '(u, v, _, x) := rv in set2 m u v x) m ;;
  for_in rows (fun r m => let '(u, v, k) := r in set2 m v u (inverse_power k)) m.

(** np.sqrt *)
Definition sqrt_nan (w : option R) : option R :=
  match w with Some x => if Rltb x 0 then None else Some (sqrt x) | None => None end.

(** projectivecoords.py:95 and lenscoords.py:100:
    [np.sqrt(varphi.T) * cocycle_matrix[ball_indx[:], :]] (simplification: operands of
    different shapes raise; broadcasting of a single landmark is not modelled). *)
Definition class_map_of (varphi : list (list (option R))) (ball_indx : list nat) (cm : list (list C))
  : res (list (list (option C))) :=
  map_res (fun b =>
    ball <- get IndexError ball_indx b ;;
    row <- get IndexError cm ball ;;
    guard (length row =? length varphi)%nat else ValueError ;;
    Ok (map (fun p => option_map (fun s => cscale s (snd p)) (sqrt_nan (nth b (fst p) None))) (combine varphi row)))
  (range 0 (length ball_indx)).

(** Attributes of a ProjectiveCoords or LensCoords object: those of EMCoords and [_variance]. *)
Record proj := mkProj { p_em : em; p_variance : option (list (option R)) }.

(** projectivecoords.py:77-104 and lenscoords.py:82-105, after the radius is known. *)
Definition root_coordinates (eigh : eigh_fn) (power : Z -> res C) (inverse_power : Z -> C) (e : em) (c : cocycle)
    (r_cover : R) (partunity_fn : R -> R -> R) (proj_dim : Z) (m : mode)
  : res (list (option R) * list (list (option C))) :=
  let (varphi, ball_indx) := get_covering_partition e r_cover partunity_fn in
  cm <- cocycle_matrix power inverse_power (em_n_landmarks e) c ;;
  class_map <- class_map_of varphi ball_indx cm ;;
  ppca eigh class_map (length varphi) proj_dim m.

(** The two methods [get_coordinates] up to the powers and the dimension handed to ppca: the
    object after the call, also after an exception, and the result. *)
Definition root_get_coordinates (eigh : eigh_fn) (power : Z -> res C) (inverse_power : Z -> C) (self : proj)
    (perc : R) (cocycle_idx : pyval) (proj_dim : Z) (partunity_fn : R -> R -> R) (standard_range : bool) (m : mode)
  : proj * res (list (list (option C))) :=
  match get_representative_cocycle (p_em self) cocycle_idx 1 with
  | Raise err => (self, Raise err)
  | Ok (cohomdeath_rips, cohombirth_rips, c) =>
      let (e, radius) := get_cover_radius (p_em self) perc cohomdeath_rips cohombirth_rips standard_range in
      match (rt <- radius ;; root_coordinates eigh power inverse_power e c (fst rt) partunity_fn proj_dim m) with
      | Raise err => (mkProj e (p_variance self), Raise err)
      | Ok (variance, X) => (mkProj e (Some variance), Ok X)
      end
  end.

(** projectivecoords.py:27-37 [__init__]: prime is 2. *)
Definition projective_init (argsort : list R -> list nat)
    (ripser : list (list R) -> bool -> Z -> Z -> Z -> res ripser_answer)
    (X : list (list R)) (n_landmarks : Z) (distance_matrix : bool) (maxdim : Z) : res proj :=
  e <- em_init argsort ripser X n_landmarks distance_matrix 2 maxdim ;; Ok (mkProj e None).

(** projectivecoords.py:89-92: [(-1) ** k] on an integer array raises for a negative exponent;
    [(1 / -1) ** k] is a power of a float. *)
Definition minus_one : C := (-1, 0).
Definition sign_power (k : Z) : res C := if (k <? 0)%Z then Raise ValueError else Ok (cpowZ minus_one k).
Definition sign_inverse_power (k : Z) : C := cpowZ minus_one k.

(** projectivecoords.py:39-104 [get_coordinates]. *)
Definition projective_get_coordinates (eigh : eigh_fn) (self : proj) (perc : R) (cocycle_idx : pyval) (proj_dim : Z)
    (partunity_fn : R -> R -> R) (standard_range : bool) (m : mode) : proj * res (list (list (option C))) :=
  root_get_coordinates eigh sign_power sign_inverse_power self perc cocycle_idx proj_dim partunity_fn standard_range m.

(** lenscoords.py:29-40 [__init__]. *)
Definition lens_init (argsort : list R -> list nat)
    (ripser : list (list R) -> bool -> Z -> Z -> Z -> res ripser_answer)
    (X : list (list R)) (n_landmarks : Z) (distance_matrix : bool) (prime maxdim : Z) : res proj :=
  e <- em_init argsort ripser X n_landmarks distance_matrix prime maxdim ;; Ok (mkProj e None).

(** lenscoords.py:94: [np.exp(2 * np.pi * 1j / self._prime)]. *)
Definition lens_root (prime : Z) : C := cis (2 * PI / IZR prime).

(** lenscoords.py:42-105 [get_coordinates]: ppca is asked for [complex_dim - 1]. *)
Definition lens_get_coordinates (eigh : eigh_fn) (self : proj) (perc : R) (cocycle_idx : pyval) (complex_dim : Z)
    (partunity_fn : R -> R -> R) (standard_range : bool) (m : mode) : proj * res (list (list (option C))) :=
  let root_of_unity := lens_root (em_prime (p_em self)) in
  root_get_coordinates eigh (fun k => Ok (cpowZ root_of_unity k)) (fun k => cpowZ (cinv root_of_unity) k)
    self perc cocycle_idx (complex_dim - 1) partunity_fn standard_range m.
