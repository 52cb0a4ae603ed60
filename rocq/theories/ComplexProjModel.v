(** ComplexProjModel.v -- model of dreimac/complexprojectivecoords.py, class
    ComplexProjectiveCoords and the functions it uses (_is_two_cocycle is in DeltaModel, the
    repair in RepairModel).  Floats are reals; a NaN is [None].  Two- and three-dimensional work
    arrays that are only indexed by loop variables are functions (simplification). *)
From Coq Require Import String.
From Verif Require Export Base CombinatorialModel CohomologyModel DeltaModel RealBase RepairModel EMModel
  CircleModel ToroidalModel ComplexBase PPCAModel ClassMapModel.
Local Open Scope list_scope.
Local Open Scope R_scope.

(** [res[i, j] = x] and [res[i, j, k] = x]. *)
Definition upd2 (m : nat -> nat -> R) (i j : nat) (x : R) : nat -> nat -> R :=
  fun a b => if ((a =? i) && (b =? j))%nat%bool then x else m a b.
Definition upd3 (m : nat -> nat -> nat -> R) (i j k : nat) (x : R) : nat -> nat -> nat -> R :=
  fun a b c => if ((a =? i) && (b =? j) && (c =? k))%nat%bool then x else m a b c.

(** complexprojectivecoords.py:186-229 [_two_cocycle_to_tensor]. *)
Definition two_cocycle_to_tensor (cocycle : list R) (dist_mat : list (list R)) (threshold : R)
    (lookup_table : list (list nat)) : res (nat -> nat -> nat -> R) :=
  for_triangles Rltb dist_mat threshold (fun i j k res =>
      flat_index <- combinatorial_number_system_d2_forward i j k lookup_table ;;
      val <- get MemoryUnsafe cocycle flat_index ;;
      let res := upd3 res i j k val in
      let res := upd3 res i k j (- val) in
      let res := upd3 res j i k (- val) in
      let res := upd3 res k j i (- val) in
      let res := upd3 res k i j val in
      let res := upd3 res j k i val in
      Ok res)
    (fun _ _ _ => 0).

(** complexprojectivecoords.py:232-263 [_one_cocycle_to_tensor]. *)
Definition one_cocycle_to_tensor (cocycle : list R) (dist_mat : list (list R)) (threshold : R)
    (lookup_table : list (list nat)) : res (nat -> nat -> R) :=
  let n_points := length dist_mat in
  for_in (range 0 n_points) (fun i =>
    for_in (range (i + 1) n_points) (fun j res =>
      c <- below Rltb dist_mat threshold i j ;;
      if c then
        flat_index <- combinatorial_number_system_d1_forward i j lookup_table ;;
        val <- get MemoryUnsafe cocycle flat_index ;;
        let res := upd2 res i j val in
        let res := upd2 res j i (- val) in
        Ok res
      else Ok res))
    (fun _ _ => 0).

(** An array captured by a jitted closure is a constant of the compiled function: numba copies
    it at compile time if it has at most 10^6 bytes, and uses its address otherwise
    (numba/core/base.py, make_constant_array).  The captured array has 8-byte entries. *)
Definition numba_freezes (n_data n_landmarks : nat) : bool :=
  (8 * (Z.of_nat n_data * Z.of_nat n_landmarks) <=? 1000000)%Z.

(** complexprojectivecoords.py:266-311 [_sparse_integrate].  The argument [class_map] of
    [_assemble] is filled with the phases; the returned value is computed from the captured
    [class_map0], which is the same array, or its copy from before the loops. *)
Definition phase (nu : nat -> nat -> R) (eta : nat -> nat -> nat -> R) (varphi : list (list (option R)))
    (n_landmarks ball b i : nat) : option R :=
  fold_left (fun x t => add_nan x (option_map (fun w => w * eta i ball t) (at2 None varphi t b)))
    (range 0 n_landmarks) (Some (nu i ball)).
Definition exp_times (phase w : option R) : option C :=
  match phase, sqrt_nan w with Some x, Some s => Some (cscale s (cis (2 * PI * x))) | _, _ => None end.
Definition sparse_integrate2 (harm_rep integral : list R) (part_unity : list (list (option R)))
    (membership_function : list nat) (dist_mat : list (list R)) (threshold : R)
    (lookup_table : list (list nat)) : res (list (list (option C))) :=
  nu <- one_cocycle_to_tensor integral dist_mat threshold lookup_table ;;
  eta <- two_cocycle_to_tensor harm_rep dist_mat threshold lookup_table ;;
  let n_landmarks := length dist_mat in
  let n_data := length (hd [] part_unity) in
  map_res (fun b =>
      ball <- get MemoryUnsafe membership_function b ;;
      Ok (map (fun i =>
            let filled := phase nu eta part_unity n_landmarks ball b i in
            let class_map0 := if numba_freezes n_data (length part_unity) then Some 0 else filled in
            exp_times class_map0 (at2 None part_unity i b)) (range 0 n_landmarks)))
    (range 0 n_data).

(** Attributes of the object: those of EMCoords, [_cns_lookup_table], [_variance]. *)
Record cproj := mkCProj {
  cp_em : em;
  cp_table : list (list nat);
  cp_variance : option (list (option R))
}.

(** complexprojectivecoords.py:36-43 [__init__]. *)
Definition complexprojective_init (argsort : list R -> list nat)
    (ripser : list (list R) -> bool -> Z -> Z -> Z -> res ripser_answer)
    (X : list (list R)) (n_landmarks : Z) (distance_matrix : bool) (prime maxdim : Z) : res cproj :=
  e <- em_init argsort ripser X n_landmarks distance_matrix prime maxdim ;;
  Ok (mkCProj e (combinatorial_number_system_table (Z.to_nat n_landmarks) 3) None).

(** The argument [cocycle_idx] in the message of line 146. *)
Definition idx_of (k : pyval) : Z := match k with PyInt k => k | PyOther => 0%Z end.

(** complexprojectivecoords.py:112-182: everything after the lift. *)
Definition complex_coordinates (x : externals) (eigh : eigh_fn) (globals : list string) (e : em)
    (table : list (list nat)) (delta1 : sparse) (integer_cocycle : cocycle) (cocycle_idx : pyval)
    (rips_threshold : R) (varphi : list (list (option R))) (ball_indx : list nat) (proj_dim : Z)
    (check_cocycle_condition : bool) (m : mode) : res (list (option R) * list (list (option C))) :=
  vector <- sparse_cocycle_to_vector (x_argsort x) integer_cocycle table (em_n_landmarks e) ;;
  vector <- (if check_cocycle_condition then
               repair_two Rltb globals (x_junk x) (em_prime e) (x_milp x) (em_dist_land_land e) rips_threshold
                 table (idx_of cocycle_idx) vector
             else Ok vector) ;;
  let vector := map IZR vector in
  let integral := x_lsqr x delta1 vector in
  d <- matvec (K := Rring) delta1 integral ;;
  let harmonic_representative := vsub vector d in
  class_map <- sparse_integrate2 harmonic_representative integral varphi ball_indx (em_dist_land_land e)
                 rips_threshold table ;;
  ppca eigh class_map (length varphi) proj_dim m.

(** complexprojectivecoords.py:45-182 [get_coordinates]: the object after the call, also after
    an exception, and the result.  The lift (lines 107-109) overwrites the stored cocycle. *)
Definition complexprojective_get_coordinates (x : externals) (eigh : eigh_fn) (globals : list string) (self : cproj)
    (perc : R) (cocycle_idx : pyval) (proj_dim : Z) (partunity_fn : R -> R -> R)
    (standard_range check_cocycle_condition : bool) (m : mode) : cproj * res (list (list (option C))) :=
  match get_representative_cocycle (cp_em self) cocycle_idx 2 with
  | Raise err => (self, Raise err)
  | Ok (cohomdeath_rips, cohombirth_rips, c) =>
      let (e1, radius) := get_cover_radius (cp_em self) perc cohomdeath_rips cohombirth_rips standard_range in
      let set e v := mkCProj e (cp_table self) v in
      match radius with
      | Raise err => (set e1 (cp_variance self), Raise err)
      | Ok (r_cover, rips_threshold) =>
          let (varphi, ball_indx) := get_covering_partition e1 r_cover partunity_fn in
          match make_delta1 Rltb (x_junk x) (em_dist_land_land e1) rips_threshold (cp_table self) with
          | Raise err => (set e1 (cp_variance self), Raise err)
          | Ok delta1 =>
              match lift_stored 2 cocycle_idx e1 with
              | Raise err => (set e1 (cp_variance self), Raise err)
              | Ok e2 =>
                  match complex_coordinates x eigh globals e2 (cp_table self) delta1
                          (lift_to_integer_cocycle (em_prime e2) c) cocycle_idx rips_threshold varphi ball_indx
                          proj_dim check_cocycle_condition m with
                  | Raise err => (set e2 (cp_variance self), Raise err)
                  | Ok (variance, X) => (set e2 (Some variance), Ok X)
                  end
              end
          end
      end
  end.
