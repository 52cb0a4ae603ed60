(** RoundCProjModel.v -- ComplexProjectiveCoords.get_coordinates in double precision: every
    operation on floats is rounded.  The exact model is ComplexProjModel.v; the parts that only
    compare floats, move them around or compute with integers (the complex, the lift, the repair,
    the tensors) are shared with it.  Overflow is not modelled. *)
From Coq Require Import Reals List ZArith String.
From Verif Require Import Base RealBase DeltaModel RepairModel EMModel CircleModel CohomologyModel CombinatorialModel ToroidalModel
  ComplexBase PPCAModel ComplexProjModel SpecRound RoundModel RoundTorusModel RoundPPCAModel.
Import ListNotations.
Local Open Scope list_scope.
Local Open Scope R_scope.

Section Doubles.
Variables (sum_ : list R -> R) (cexp : R -> C).

(** complexprojectivecoords.py:297-300: the entry [class_map[b, i]] after the loops, which start
    from 0 and add in this order (the function is compiled without fastmath). *)
Definition add_nan_d (x y : option R) : option R :=
  match x, y with Some a, Some b => Some (dbl (a + b)) | _, _ => None end.
Definition phase_d (nu : nat -> nat -> R) (eta : nat -> nat -> nat -> R) (varphi : list (list (option R)))
    (n_landmarks ball b i : nat) : option R :=
  fold_left (fun x t => add_nan_d x (option_map (fun w => dbl (w * eta i ball t)) (at2 None varphi t b)))
    (range 0 n_landmarks) (add_nan_d (Some 0) (Some (nu i ball))).
(** complexprojectivecoords.py:301: [np.exp(2 * np.pi * 1j * x) * np.sqrt(w)].  The imaginary unit
    times a double is exact; [cexp y] is the exponential of [y] times the imaginary unit; the square
    root becomes s + 0i, and the products with 0 are exact. *)
Definition exp_times_d (phase w : option R) : option C :=
  match phase, sqrt_d w with
  | Some x, Some s => let z := cexp (dbl (two_pi_d * x)) in Some (dbl (fst z * s), dbl (snd z * s))
  | _, _ => None
  end.
(** complexprojectivecoords.py:266-311 [_sparse_integrate]; see ComplexProjModel for the frozen
    array. *)
Definition sparse_integrate2_d (harm_rep integral : list R) (part_unity : list (list (option R)))
    (membership_function : list nat) (dist_mat : list (list R)) (threshold : R)
    (lookup_table : list (list nat)) : res (list (list (option C))) :=
  nu <- one_cocycle_to_tensor integral dist_mat threshold lookup_table ;;
  eta <- two_cocycle_to_tensor harm_rep dist_mat threshold lookup_table ;;
  let n_landmarks := length dist_mat in
  let n_data := length (hd [] part_unity) in
  map_res (fun b =>
      ball <- get MemoryUnsafe membership_function b ;;
      Ok (map (fun i =>
            let filled := phase_d nu eta part_unity n_landmarks ball b i in
            let class_map0 := if numba_freezes n_data (length part_unity) then Some 0 else filled in
            exp_times_d class_map0 (at2 None part_unity i b)) (range 0 n_landmarks)))
    (range 0 n_data).

(** complexprojectivecoords.py:112-182: everything after the lift.  Integers are converted to
    doubles (lines 157-158). *)
Definition complex_coordinates_d (A : arith C) (x : externals) (eigh : list (list (option C)) -> option (list (list (option C))))
    (globals : list string) (e : em) (table : list (list nat)) (delta1 : sparse) (integer_cocycle : cocycle) (cocycle_idx : pyval)
    (rips_threshold : R) (varphi : list (list (option R))) (ball_indx : list nat) (proj_dim : Z)
    (check_cocycle_condition : bool) (m : mode) : res (list (option R) * list (list (option C))) :=
  vector <- sparse_cocycle_to_vector (x_argsort x) integer_cocycle table (em_n_landmarks e) ;;
  vector <- (if check_cocycle_condition then
               repair_two Rltb globals (x_junk x) (em_prime e) (x_milp x) (em_dist_land_land e) rips_threshold
                 table (idx_of cocycle_idx) vector
             else Ok vector) ;;
  let vector := map (fun z => dbl (IZR z)) vector in
  let integral := x_lsqr x delta1 vector in
  d <- matvec_d sum_ delta1 integral ;;
  let harmonic_representative := vsub_d dbl vector d in
  class_map <- sparse_integrate2_d harmonic_representative integral varphi ball_indx (em_dist_land_land e)
                 rips_threshold table ;;
  ppca_d A eigh class_map (length varphi) proj_dim m.

(** complexprojectivecoords.py:45-182 [get_coordinates]. *)
Definition complexprojective_get_coordinates_d (A : arith C) (x : externals) (eigh : list (list (option C)) -> option (list (list (option C))))
    (globals : list string) (self : cproj) (perc : R) (cocycle_idx : pyval) (proj_dim : Z) (partunity_fn : R -> R -> R)
    (standard_range check_cocycle_condition : bool) (m : mode) : cproj * res (list (list (option C))) :=
  match get_representative_cocycle (cp_em self) cocycle_idx 2 with
  | Raise err => (self, Raise err)
  | Ok (cohomdeath_rips, cohombirth_rips, c) =>
      let (e1, radius) := cover_radius_d (cp_em self) perc cohomdeath_rips cohombirth_rips standard_range in
      let set e v := mkCProj e (cp_table self) v in
      match radius with
      | Raise err => (set e1 (cp_variance self), Raise err)
      | Ok (r_cover, rips_threshold) =>
          let (varphi, ball_indx) := get_covering_partition_d sum_ (em_dist_land_data e1) r_cover partunity_fn in
          match make_delta1 Rltb (x_junk x) (em_dist_land_land e1) rips_threshold (cp_table self) with
          | Raise err => (set e1 (cp_variance self), Raise err)
          | Ok delta1 =>
              match lift_stored 2 cocycle_idx e1 with
              | Raise err => (set e1 (cp_variance self), Raise err)
              | Ok e2 =>
                  match complex_coordinates_d A x eigh globals e2 (cp_table self) delta1
                          (lift_to_integer_cocycle (em_prime e2) c) cocycle_idx rips_threshold varphi ball_indx
                          proj_dim check_cocycle_condition m with
                  | Raise err => (set e2 (cp_variance self), Raise err)
                  | Ok (variance, X) => (set e2 (Some variance), Ok X)
                  end
              end
          end
      end
  end.
End Doubles.
