(** ToroidalModel.v -- model of dreimac/toroidalcoords.py (class ToroidalCoords, lines 15-220,
    _integrate_harmonic_representative, _sparse_integrate, _reduce_circular_coordinates,
    _gram_matrix) and of dreimac/circularcoords.py (class CircularCoords).
    Floats are reals; a NaN is [None]. *)
From Verif Require Export Base CombinatorialModel CohomologyModel DeltaModel RealBase RepairModel
  EMModel CircleModel LLLModel.
Local Open Scope R_scope.

(** Attributes of a ToroidalCoords object: those of EMCoords, [_cns_lookup_table]
    (toroidalcoords.py:39-42) and the three attributes set in lines 216-218. *)
Record tor := mkTor {
  t_em : em;
  t_table : list (list nat);
  t_original_gram : option (list (list R));
  t_gram : option (list (list R));
  t_change_basis : option (list (list R))
}.
Definition set_em (self : tor) (e : em) : tor :=
  mkTor e (t_table self) (t_original_gram self) (t_gram self) (t_change_basis self).

(** What the code takes from numpy and scipy: argsort of integers, scipy.optimize.milp,
    scipy.sparse.linalg.lsqr (first component of its answer), numpy.linalg.cholesky,
    the content of np.empty; and the bound on the turns of the loop of _lll. *)
Record externals := mkExt {
  x_argsort : list Z -> list nat;
  x_milp : milp_solver;
  x_lsqr : sparse -> list R -> list R;
  x_cholesky : list (list R) -> res (list (list R));
  x_junk : nat -> Z;
  x_fuel : nat
}.

(** toroidalcoords.py:35-42 [__init__]. *)
Definition toroidal_init (argsort : list R -> list nat)
    (ripser : list (list R) -> bool -> Z -> Z -> Z -> res ripser_answer)
    (X : list (list R)) (n_landmarks : Z) (distance_matrix : bool) (prime maxdim : Z) : res tor :=
  e <- em_init argsort ripser X n_landmarks distance_matrix prime maxdim ;;
  Ok (mkTor e (combinatorial_number_system_table (Z.to_nat n_landmarks) 2) None None None).

(** [A @ B] of scipy sparse arrays. *)
Definition spmm (A B : sparse) : res sparse :=
  if (s_cols A =? s_rows B)%nat then
    Ok (mkSparse (s_rows A) (s_cols B)
         (flat_map (fun a => map (fun b => (fst (fst a), snd (fst b), (snd a * snd b)%Z))
                      (filter (fun b => (fst (fst b) =? snd (fst a))%nat) (s_entries B)))
            (s_entries A)))
  else Raise ValueError.

(** toroidalcoords.py:223-228 [_integrate_harmonic_representative]. *)
Definition integrate_harmonic_representative (lsqr : sparse -> list R -> list R)
    (cocycle : list Z) (boundary_matrix sqrt_inner_product : sparse)
  : res (list R * list R) :=
  let cocycle := map IZR cocycle in
  A <- spmm sqrt_inner_product boundary_matrix ;;
  b <- matvec (K := Rring) sqrt_inner_product cocycle ;;
  let integral := lsqr A b in
  d <- matvec (K := Rring) boundary_matrix integral ;;
  Ok (vsub cocycle d, integral).

(** toroidalcoords.py:289-301 [_cocycle_to_matrix] (jitted), on a zero matrix; written entry
    by entry (every entry above the diagonal is written at most once). *)
Definition cocycle_to_matrix (harm_rep : list R) (dist_mat : list (list R)) (threshold : R)
    (lookup_table : list (list nat)) (n_points : nat) : res (list (list R)) :=
  map_res (fun i =>
    map_res (fun j =>
      if (i <? j)%nat then
        c <- below Rltb dist_mat threshold i j ;;
        if c then
          index <- combinatorial_number_system_d1_forward i j lookup_table ;;
          get MemoryUnsafe harm_rep index
        else Ok 0
      else Ok 0) (range 0 n_points)) (range 0 n_points).

(** toroidalcoords.py:277-308 [_sparse_integrate]. *)
Definition sparse_integrate (harm_rep integral : list R) (part_unity : list (list (option R)))
    (membership_function : list nat) (dist_mat : list (list R)) (threshold : R)
    (lookup_table : list (list nat)) : res (list (option R)) :=
  let n_points := length integral in
  theta_matrix <- cocycle_to_matrix harm_rep dist_mat threshold lookup_table n_points ;;
  class_map <- map_res (get IndexError integral) membership_function ;;
  map_res (fun i =>
      m <- get IndexError membership_function i ;;
      v <- get IndexError class_map i ;;
      row <- get IndexError theta_matrix m ;;
      guard (length row =? length part_unity)%nat else ValueError ;;
      let d := dot_nan row (map (fun r => nth i r None) part_unity) in
      Ok (mod_nan (option_map (fun y => 2 * PI * y) (add_nan (Some v) d))))
    (range 0 (length class_map)).

(** toroidalcoords.py:366-372 [_gram_matrix]; [v.T @ inner_product] is the product of the
    transposed matrix with [v]. *)
Definition transpose (M : sparse) : sparse :=
  mkSparse (s_cols M) (s_rows M) (map (fun e => (snd (fst e), fst (fst e), snd e)) (s_entries M)).
Definition gram_matrix (vectors : list (list R)) (inner_product : sparse) : res (list (list R)) :=
  map_res (fun v => map_res (fun w =>
      vW <- matvec (K := Rring) (transpose inner_product) v ;; Ok (vdot vW w)) vectors) vectors.

(** [B @ B.T] for a square matrix given by its columns, as rows. *)
Definition times_transpose (B : list (list R)) : list (list R) :=
  mk2 (length B) (length B) (fun r s => np_sum (map (fun c => nth r c 0 * nth s c 0) B)).

(** toroidalcoords.py:356-363 [_reduce_circular_coordinates].  The rows of the Cholesky
    factor are the columns of its transpose; the columns of the change matrix are the
    rows of its transpose.  Third component: the columns of [decorrelated_vectors]. *)
Definition reduce_circular_coordinates (fuel : nat) (cholesky : list (list R) -> res (list (list R)))
    (circ_coords : list (list (option R))) (gram : list (list R))
  : res (list (list (option R)) * list (list R) * list (list R)) :=
  lattice_red_input <- cholesky gram ;;
  r <- lll fuel lattice_red_input ;;
  new_circ_coords <- linear_combination circ_coords (Coeffs2 (snd r)) ;;
  match new_circ_coords with
  | Maps2 rows => Ok (rows, snd r, fst r)
  | Maps1 row => Ok ([row], snd r, fst r)
  end.

(** toroidalcoords.py:98-101: the lift overwrites the stored cocycle, which is the array
    that get_representative_cocycle returned. *)
Definition lift_stored (homological_dimension : Z) (cohomology_class : pyval) (e : em) : res em :=
  match cohomology_class with
  | PyOther => Raise AssertionError
  | PyInt k =>
      cs <- np_get (em_cocycles e) homological_dimension ;;
      c <- np_get cs k ;;
      cs' <- np_set cs k (lift_to_integer_cocycle (em_prime e) c) ;;
      store <- np_set (em_cocycles e) homological_dimension cs' ;;
      Ok (mkEM (em_prime e) (em_dgms e) (em_idx_land e) (em_n_landmarks e) (em_dist_land_data e)
            (em_coverage e) (em_dist_land_land e) store (em_rips_threshold e) (em_r_cover e))
  end.

(** The attributes set in toroidalcoords.py:216-218. *)
Definition grams := (list (list R) * list (list R) * list (list R))%type.

(** toroidalcoords.py:108-220: everything after get_cover_radius; nothing is mutated before
    the end, where the three matrices are stored if there is more than one class. *)
Definition coordinates (x : externals) (e : em) (table : list (list nat))
    (integer_cocycles : list cocycle) (r_cover rips_threshold : R) (partunity_fn : R -> R -> R)
    (check_cocycle_condition : bool) : res (list (list (option R)) * option grams) :=
  let (varphi, ball_indx) := get_covering_partition e r_cover partunity_fn in
  let dist_land_land := em_dist_land_land e in
  delta0 <- make_delta0 Rltb (x_junk x) dist_land_land rips_threshold table ;;
  vectors <- map_res (fun c => sparse_cocycle_to_vector (x_argsort x) c table (em_n_landmarks e))
               integer_cocycles ;;
  vectors <- (if check_cocycle_condition then
                repair_all Rltb (x_junk x) (em_prime e) (x_milp x) dist_land_land rips_threshold table vectors
              else Ok vectors) ;;
  ip <- make_inner_product Rltb (x_junk x) dist_land_land rips_threshold table ;;
  harm_reps_and_integrals <- map_res (fun cocycle =>
      integrate_harmonic_representative (x_lsqr x) cocycle delta0 (snd ip)) vectors ;;
  circ_coords <- map_res (fun hi =>
      sparse_integrate (fst hi) (snd hi) varphi ball_indx dist_land_land rips_threshold table)
    harm_reps_and_integrals ;;
  if (1 <? length integer_cocycles)%nat then
    gram_mat <- gram_matrix (map fst harm_reps_and_integrals) (fst ip) ;;
    r <- reduce_circular_coordinates (x_fuel x) (x_cholesky x) circ_coords gram_mat ;;
    Ok (fst (fst r), Some (gram_mat, times_transpose (snd r), snd (fst r)))
  else Ok (circ_coords, None).

(** toroidalcoords.py:44-220 [get_coordinates]: the object after the call (also after an
    exception) and the result.  Without indices the unpacking of [zip()] in line 81 is a
    ValueError, which [np_max] of no values also is. *)
Definition get_coordinates (x : externals) (self : tor) (perc : R) (cocycle_idxs : list pyval)
    (partunity_fn : R -> R -> R) (standard_range check_cocycle_condition : bool)
  : tor * res (list (list (option R))) :=
  let e := t_em self in
  match map_res (fun k => get_representative_cocycle e k 1) cocycle_idxs with
  | Raise err => (self, Raise err)
  | Ok reps =>
    match np_max (map (fun r => fst (fst r)) reps), np_min (map (fun r => snd (fst r)) reps) with
    | Ok cohomdeath_rips, Ok cohombirth_rips =>
      if Rleb cohombirth_rips cohomdeath_rips then (self, Raise SupportsDisjoint)
      else
        match for_in cocycle_idxs (lift_stored 1) e with
        | Raise err => (self, Raise err)
        | Ok e1 =>
          let (e2, radius) := get_cover_radius e1 perc cohomdeath_rips cohombirth_rips standard_range in
          let self2 := set_em self e2 in
          match (rt <- radius ;;
                 lifted <- map_res (fun k => get_representative_cocycle e2 k 1) cocycle_idxs ;;
                 coordinates x e2 (t_table self) (map snd lifted) (fst rt) (snd rt) partunity_fn
                   check_cocycle_condition) with
          | Raise err => (self2, Raise err)
          | Ok (circ_coords, None) => (self2, Ok circ_coords)
          | Ok (circ_coords, Some (g0, g1, change_basis)) =>
              (mkTor e2 (t_table self) (Some g0) (Some g1) (Some change_basis), Ok circ_coords)
          end
        end
    | Raise err, _ => (self, Raise err)
    | _, Raise err => (self, Raise err)
    end
  end.

(** circularcoords.py:27-38, 40-82: class CircularCoords. *)
Definition circular_init := toroidal_init.
Definition circular_get_coordinates (x : externals) (self : tor) (perc : R) (cocycle_idx : pyval)
    (partunity_fn : R -> R -> R) (standard_range check_cocycle_condition : bool)
  : tor * res (list (option R)) :=
  let (self', r) := get_coordinates x self perc [cocycle_idx] partunity_fn standard_range
                      check_cocycle_condition in
  (self', rows <- r ;; get IndexError rows 0).
