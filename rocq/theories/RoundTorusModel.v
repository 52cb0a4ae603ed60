(** RoundTorusModel.v -- ToroidalCoords.get_coordinates in double precision: every operation on
    floats is rounded.  The exact model is ToroidalModel.v; the parts that only compare floats or
    compute with integers (the complex, the lift, the repair) are shared with it.  Overflow is not
    modelled.  [sum_] adds up a list, [dot_] is the inner product of numpy. *)
From Coq Require Import Reals List ZArith.
From Verif Require Import Base RealBase DeltaModel RepairModel EMModel CircleModel LLLModel CohomologyModel CombinatorialModel ToroidalModel SpecRound RoundModel.
Import ListNotations.
Local Open Scope R_scope.

Section Doubles.
Variables (sum_ : list R -> R) (dot_ : list R -> list R -> R).

(** [M @ v] for a scipy csr matrix with integer entries and a vector of doubles. *)
Definition matvec_d (M : sparse) (v : list R) : res (list R) :=
  if (length v =? s_cols M)%nat then
    Ok (mk1 (s_rows M) (fun r => sum_ (map (fun e => dbl (IZR (snd e) * nth (snd (fst e)) v 0))
          (filter (fun e => (fst (fst e) =? r)%nat) (s_entries M)))))
  else Raise ValueError.

(** toroidalcoords.py:223-228 [_integrate_harmonic_representative]; integers are converted to
    doubles.  [sqrt_inner_product @ boundary_matrix] is an integer matrix. *)
Definition integrate_harmonic_representative_d (lsqr : sparse -> list R -> list R)
    (cocycle : list Z) (boundary_matrix sqrt_inner_product : sparse) : res (list R * list R) :=
  let cocycle := map (fun z => dbl (IZR z)) cocycle in
  A <- spmm sqrt_inner_product boundary_matrix ;;
  b <- matvec_d sqrt_inner_product cocycle ;;
  let integral := lsqr A b in
  d <- matvec_d boundary_matrix integral ;;
  Ok (vsub_d dbl cocycle d, integral).

(** The inner product with a column that may contain NaN. *)
Fixpoint numbers (l : list (option R)) : option (list R) :=
  match l with
  | [] => Some []
  | None :: _ => None
  | Some y :: l' => option_map (cons y) (numbers l')
  end.
Definition dot_nan_d (u : list R) (v : list (option R)) : option R := option_map (dot_ u) (numbers v).

(** toroidalcoords.py:277-308 [_sparse_integrate]. *)
Definition sparse_integrate_d (harm_rep integral : list R) (part_unity : list (list (option R)))
    (membership_function : list nat) (dist_mat : list (list R)) (threshold : R)
    (lookup_table : list (list nat)) : res (list (option R)) :=
  let n_points := length integral in
  theta_matrix <- cocycle_to_matrix harm_rep dist_mat threshold lookup_table n_points ;;
  class_map <- map_res (get IndexError integral) membership_function ;;
  map_res (fun i =>
      m <- get IndexError membership_function i ;;
      v <- get IndexError class_map i ;;
      row <- get IndexError theta_matrix m ;;
      guard (length row =? length part_unity)%nat else ValueError ;;
      Ok (option_map (fun d => angle_d (dbl (v + d))) (dot_nan_d row (map (fun r => nth i r None) part_unity))))
    (range 0 (length class_map)).

(** toroidalcoords.py:366-372 [_gram_matrix]. *)
Definition gram_matrix_d (vectors : list (list R)) (inner_product : sparse) : res (list (list R)) :=
  map_res (fun v => map_res (fun w =>
      vW <- matvec_d (transpose inner_product) v ;; Ok (dot_ vW w)) vectors) vectors.

(** [B @ B.T] for a square matrix given by its columns, as rows. *)
Definition times_transpose_d (B : list (list R)) : list (list R) :=
  mk2 (length B) (length B) (fun r s => dot_ (map (fun c => nth r c 0) B) (map (fun c => nth s c 0) B)).

(** utils.py:1308-1349 [linear_combination] of the rows [maps] with the integer matrix [M]. *)
Definition linear_combination_d (maps : list (list (option R))) (M : list (list Z)) : res (list (list (option R))) :=
  guard negb (length maps =? 0)%nat else AssertionError ;;
  guard (length maps =? length (hd [] M))%nat else AssertionError ;;
  Ok (map (fun row => map (fun b => option_map (fun y => np_mod_d y two_pi_d)
         (dot_nan_d (map IZR row) (map (fun cm => nth b cm None) maps))) (seq 0 (length (hd [] maps)))) M).

(** toroidalcoords.py:356-363 [_reduce_circular_coordinates]: the new coordinates, the change
    matrix and the columns of [decorrelated_vectors]. *)
Definition reduce_circular_coordinates_d (fuel : nat) (cholesky : list (list R) -> res (list (list R)))
    (circ_coords : list (list (option R))) (gram : list (list R))
  : res (list (list (option R)) * list (list Z) * list (list R)) :=
  lattice_red_input <- cholesky gram ;;
  r <- lll_d dbl dot_ fuel lattice_red_input ;;
  rows <- linear_combination_d circ_coords (snd r) ;;
  Ok (rows, snd r, fst r).

(** toroidalcoords.py:108-220: everything after get_cover_radius. *)
Definition coordinates_d (x : externals) (e : em) (table : list (list nat))
    (integer_cocycles : list cocycle) (r_cover rips_threshold : R) (partunity_fn : R -> R -> R)
    (check_cocycle_condition : bool) : res (list (list (option R)) * option grams) :=
  let (varphi, ball_indx) := get_covering_partition_d sum_ (em_dist_land_data e) r_cover partunity_fn in
  let dist_land_land := em_dist_land_land e in
  delta0 <- make_delta0 Rltb (x_junk x) dist_land_land rips_threshold table ;;
  vectors <- map_res (fun c => sparse_cocycle_to_vector (x_argsort x) c table (em_n_landmarks e))
               integer_cocycles ;;
  vectors <- (if check_cocycle_condition then
                repair_all Rltb (x_junk x) (em_prime e) (x_milp x) dist_land_land rips_threshold table vectors
              else Ok vectors) ;;
  ip <- make_inner_product Rltb (x_junk x) dist_land_land rips_threshold table ;;
  harm_reps_and_integrals <- map_res (fun cocycle =>
      integrate_harmonic_representative_d (x_lsqr x) cocycle delta0 (snd ip)) vectors ;;
  circ_coords <- map_res (fun hi =>
      sparse_integrate_d (fst hi) (snd hi) varphi ball_indx dist_land_land rips_threshold table)
    harm_reps_and_integrals ;;
  if (1 <? length integer_cocycles)%nat then
    gram_mat <- gram_matrix_d (map fst harm_reps_and_integrals) (fst ip) ;;
    r <- reduce_circular_coordinates_d (x_fuel x) (x_cholesky x) circ_coords gram_mat ;;
    Ok (fst (fst r), Some (gram_mat, times_transpose_d (snd r), map (map IZR) (snd (fst r))))
  else Ok (circ_coords, None).

(** emcoords.py:141-152 [get_cover_radius] with the test of the range and the stored attributes. *)
Definition cover_radius_d (e : em) (perc cohomdeath_rips cohombirth_rips : R) (standard_range : bool) : em * res (R * R) :=
  let start := if standard_range then dbl (2 * cohomdeath_rips) else cohomdeath_rips in
  if Rltb cohombirth_rips start then (e, Raise ClassTooShort)
  else
    let rt := get_cover_radius_d perc cohomdeath_rips cohombirth_rips standard_range in
    (mkEM (em_prime e) (em_dgms e) (em_idx_land e) (em_n_landmarks e) (em_dist_land_data e)
       (em_coverage e) (em_dist_land_land e) (em_cocycles e) (Some (snd rt)) (Some (fst rt)), Ok rt).

(** toroidalcoords.py:44-220 [get_coordinates]. *)
Definition get_coordinates_d (x : externals) (self : tor) (perc : R) (cocycle_idxs : list pyval)
    (partunity_fn : R -> R -> R) (standard_range check_cocycle_condition : bool)
  : tor * res (list (list (option R))) :=
  let e := t_em self in
  match map_res (fun k => get_representative_cocycle e k 1) cocycle_idxs with
  | Raise err => (self, Raise err)
  | Ok reps =>
    match np_max (map (fun r => fst (fst r)) reps), np_min (map (fun r => snd (fst r)) reps) with
    | Ok cohomdeath_rips, Ok cohombirth_rips =>
      if Rleb cohombirth_rips cohomdeath_rips then (self, Raise SupportsDisjoint)
      else
        match for_in cocycle_idxs (lift_stored 1) e with
        | Raise err => (self, Raise err)
        | Ok e1 =>
          let (e2, radius) := cover_radius_d e1 perc cohomdeath_rips cohombirth_rips standard_range in
          let self2 := set_em self e2 in
          match (rt <- radius ;;
                 lifted <- map_res (fun k => get_representative_cocycle e2 k 1) cocycle_idxs ;;
                 coordinates_d x e2 (t_table self) (map snd lifted) (fst rt) (snd rt) partunity_fn
                   check_cocycle_condition) with
          | Raise err => (self2, Raise err)
          | Ok (circ_coords, None) => (self2, Ok circ_coords)
          | Ok (circ_coords, Some (g0, g1, change_basis)) =>
              (mkTor e2 (t_table self) (Some g0) (Some g1) (Some change_basis), Ok circ_coords)
          end
        end
    | Raise err, _ => (self, Raise err)
    | _, Raise err => (self, Raise err)
    end
  end.

(** circularcoords.py:40-82 [CircularCoords.get_coordinates]. *)
Definition circular_get_coordinates_d (x : externals) (self : tor) (perc : R) (cocycle_idx : pyval)
    (partunity_fn : R -> R -> R) (standard_range check_cocycle_condition : bool)
  : tor * res (list (option R)) :=
  let (self', r) := get_coordinates_d x self perc [cocycle_idx] partunity_fn standard_range
                      check_cocycle_condition in
  (self', rows <- r ;; get IndexError rows 0).
End Doubles.
