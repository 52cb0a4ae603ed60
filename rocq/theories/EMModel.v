(** EMModel.v -- model of dreimac/emcoords.py (class EMCoords) and of class PartUnity
    in dreimac/utils.py (lines 632-700).  Floats are reals; a NaN is [None]. *)
From Verif Require Export Base CombinatorialModel CohomologyModel DeltaModel RealBase.

(** The dictionary returned by ripser (external).  Simplification: births and deaths are
    reals; the infinite deaths of dimension 0 are not read by the code modelled here. *)
Record ripser_answer := mkAnswer {
  r_dgms : list (list (R * R));            (* res["dgms"]: (birth, death) rows *)
  r_idx_perm : list Z;                     (* res["idx_perm"] *)
  r_dperm2all : list (list R);             (* res["dperm2all"] *)
  r_cocycles : list (list cocycle)         (* res["cocycles"] *)
}.

(** Attributes of an EMCoords object (emcoords.py:41-89, 149-150).  [_rips_threshold]
    and [_r_cover] do not exist before the first call of get_cover_radius. *)
Record em := mkEM {
  em_prime : Z;
  em_dgms : list (list (R * R));
  em_idx_land : list Z;
  em_n_landmarks : nat;
  em_dist_land_data : list (list R);
  em_coverage : R;
  em_dist_land_land : list (list R);
  em_cocycles : list (list cocycle);
  em_rips_threshold : option R;
  em_r_cover : option R
}.

(** X.shape[1] of a matrix given by its rows. *)
Definition shape1 (X : list (list R)) : nat := length (hd [] X).

(** emcoords.py:46-51: the matrix handed to ripser. *)
Definition ripser_metric_input (X : list (list R)) (distance_matrix : bool) : list (list R) :=
  if negb distance_matrix then X
  else if length X =? shape1 X then X
  else map (firstn (length X)) X.

(** numpy.min / numpy.max of a one-dimensional array; empty arrays raise. *)
Definition np_min (l : list R) : res R :=
  match l with [] => Raise ValueError | x :: r => Ok (fold_left Rmin r x) end.
Definition np_max (l : list R) : res R :=
  match l with [] => Raise ValueError | x :: r => Ok (fold_left Rmax r x) end.

(** emcoords.py:70-75: landmark-to-data distances. *)
Definition dist_land_data_of (X : list (list R)) (distance_matrix : bool) (r : ripser_answer)
  : res (list (list R)) :=
  if negb distance_matrix then Ok (r_dperm2all r)
  else if length X =? shape1 X then Ok (r_dperm2all r)
  else map_res (np_get X) (r_idx_perm r).

(** emcoords.py:76: [np.max(np.min(dist, 1))]. *)
Definition coverage_of (dist : list (list R)) : res R :=
  mins <- map_res np_min dist ;; np_max mins.

(** emcoords.py:77: [dist[:, idx_land]]. *)
Definition dist_land_land_of (dist : list (list R)) (idx_land : list Z) : res (list (list R)) :=
  map_res (fun row => map_res (np_get row) idx_land) dist.

(** emcoords.py:81-85: one iteration of the sorting loop (dgm_lifetime is dead code). *)
Definition sort_step (argsort : list R -> list nat) (i : nat)
    (st : list (list (R * R)) * list (list cocycle))
  : res (list (list (R * R)) * list (list cocycle)) :=
  dgm <- get IndexError (fst st) i ;;
  let idxs := argsort (map (fun bd => (fst bd - snd bd)%R) dgm) in
  dgm' <- map_res (get IndexError dgm) idxs ;;
  dgms' <- set_at IndexError (fst st) i dgm' ;;
  cs <- get IndexError (snd st) i ;;
  cs' <- map_res (get IndexError cs) idxs ;;
  cocycles' <- set_at IndexError (snd st) i cs' ;;
  Ok (dgms', cocycles').

(** emcoords.py:13-85 [__init__].  [ripser] takes the matrix, distance_matrix, coeff,
    maxdim and n_perm.  Timing and printing are not modelled. *)
Definition em_init (argsort : list R -> list nat)
    (ripser : list (list R) -> bool -> Z -> Z -> Z -> res ripser_answer)
    (X : list (list R)) (n_landmarks : Z) (distance_matrix : bool) (prime maxdim : Z) : res em :=
  guard (1 <=? maxdim)%Z else AssertionError ;;
  r <- ripser (ripser_metric_input X distance_matrix) distance_matrix prime maxdim n_landmarks ;;
  let idx_land := r_idx_perm r in
  dist <- dist_land_data_of X distance_matrix r ;;
  coverage <- coverage_of dist ;;
  dist_ll <- dist_land_land_of dist idx_land ;;
  st <- for_in (range 1 (Z.to_nat maxdim + 1)) (sort_step argsort) (r_dgms r, r_cocycles r) ;;
  cocycles <- reindex_cocycles (snd st) idx_land (length X) ;;
  Ok (mkEM prime (fst st) idx_land (length idx_land) dist coverage dist_ll cocycles None None).

(** Python values that callers pass as a class index. *)
Inductive pyval := PyInt (z : Z) | PyOther.

(** emcoords.py:88-118 [get_representative_cocycle]; the object is only read. *)
Definition get_representative_cocycle (e : em) (cohomology_class : pyval)
    (homological_dimension : Z) : res (R * R * cocycle) :=
  match cohomology_class with
  | PyOther => Raise AssertionError
  | PyInt k =>
      dgm <- np_get (em_dgms e) homological_dimension ;;
      cocycles <- np_get (em_cocycles e) homological_dimension ;;
      bd <- np_get dgm k ;;
      c <- np_get cocycles k ;;
      Ok (fst bd, snd bd, c)
  end.

(** emcoords.py:120-152 [get_cover_radius]; returns the new object and the result. *)
Definition get_cover_radius (e : em) (perc cohomdeath_rips cohombirth_rips : R)
    (standard_range : bool) : em * res (R * R) :=
  let start := if standard_range then (2 * cohomdeath_rips)%R else cohomdeath_rips in
  let end_ := cohombirth_rips in
  if Rltb end_ start then (e, Raise ClassTooShort)
  else
    let rips_threshold := ((1 - perc) * start + perc * end_)%R in
    let r_cover := (rips_threshold / 2)%R in
    (mkEM (em_prime e) (em_dgms e) (em_idx_land e) (em_n_landmarks e) (em_dist_land_data e)
       (em_coverage e) (em_dist_land_land e) (em_cocycles e) (Some rips_threshold) (Some r_cover),
     Ok (r_cover, rips_threshold)).

(** Column sum of a matrix of reals with [m] columns: [np.sum(phi, 0)]. *)
Definition np_sum (l : list R) : R := fold_right Rplus 0%R l.
Definition column (m : list (list R)) (b : nat) : list R := map (fun row => nth b row 0%R) m.
Definition bcolumn (m : list (list bool)) (b : nat) : list bool := map (fun row => nth b row false) m.

(** np.argmax of a boolean vector: first True, 0 if there is none. *)
Fixpoint first_true (l : list bool) : option nat :=
  match l with
  | [] => None
  | true :: _ => Some 0
  | false :: r => option_map S (first_true r)
  end.
Definition argmax_bool (l : list bool) : nat :=
  match first_true l with Some i => i | None => 0 end.

(** emcoords.py:154-186 [get_covering_partition].  The bump function is applied entry by
    entry ([phi[U] = f(d[U], r)]; simplification: a user supplied function acting on the
    whole vector at once is not modelled).  The warning is not modelled; division by
    the NaN put in place of a zero denominator gives NaN ([None]). *)
Definition get_covering_partition (e : em) (r_cover : R) (partunity_fn : R -> R -> R)
  : list (list (option R)) * list nat :=
  let dist := em_dist_land_data e in
  let n := length dist in
  let m := shape1 dist in
  let U := map (map (fun d => Rltb d r_cover)) dist in
  let phi := map (map (fun d => if Rltb d r_cover then partunity_fn d r_cover else 0%R)) dist in
  let denom := map (fun b => np_sum (column phi b)) (seq 0 m) in
  let varphi := map (fun row => map (fun pd =>
                  if Reqb (snd pd) 0 then None else Some (fst pd / snd pd)%R) (combine row denom)) phi in
  let ball_indx := map (fun b => argmax_bool (bcolumn U b)) (seq 0 m) in
  (varphi, ball_indx).

(** utils.py:639-658, 660-679, 681-700: PartUnity.linear, quadratic, exp. *)
Definition pu_linear (d r : R) : R := (r - d)%R.
Definition pu_quadratic (d r : R) : R := ((r - d) ^ 2)%R.
Definition pu_exp (d r : R) : R := exp (r ^ 2 / (d ^ 2 - r ^ 2))%R.
