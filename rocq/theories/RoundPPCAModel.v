(** RoundPPCAModel.v -- dreimac/utils.py:703-797 (EquivariantPCA.ppca) and
    dreimac/projectivecoords.py:39-104 (ProjectiveCoords.get_coordinates) in double precision.  The
    exact models are PPCAModel.v and ClassMapModel.v.  Overflow is not modelled: [None] is an entry
    that is not a finite number, which spreads like NaN. *)
From Coq Require Import Reals List ZArith.
From Verif Require Import Base RealBase CohomologyModel EMModel ComplexBase PPCAModel ClassMapModel SpecRound RoundModel RoundTorusModel.
Import ListNotations.
Local Open Scope list_scope.
Local Open Scope R_scope.

(** Where an entry is computed: the shape of the array and the position in it.  The order in which
    numpy adds up may depend on it. *)
Definition place := list nat.

(** The operations of numpy on entries: R for ProjectiveCoords, C for the complex classes. *)
Record arith (K : Type) := mkArith {
  a_zero : K;
  a_one : K;
  a_conj : K -> K;
  a_abs : K -> R;
  (** one entry of a matrix product, from a row and a column *)
  a_dot : place -> list K -> list K -> K;
  (** one entry of np.linalg.norm(_, axis=0) *)
  a_norm : place -> list K -> R;
  (** an entry divided by a number that is not 0 *)
  a_div : K -> R -> K;
  (** [(np.pi / 2 - np.arccos(x)) ** 2] for [x] at most 1 *)
  a_angle : R -> R;
  a_mean : list R -> R
}.
Arguments a_zero {K}. Arguments a_one {K}. Arguments a_conj {K}. Arguments a_abs {K}. Arguments a_dot {K}.
Arguments a_norm {K}. Arguments a_div {K}. Arguments a_angle {K}. Arguments a_mean {K}.

(** The entries, if all are finite. *)
Fixpoint finite {K} (l : list (option K)) : option (list K) :=
  match l with
  | [] => Some []
  | None :: _ => None
  | Some y :: l' => option_map (cons y) (finite l')
  end.

Section PPCA.
Context {K : Type} (A : arith K).
(** np.linalg.eigh: the matrix of eigenvectors, by columns; [None]: it raised. *)
Variable eigh : list (list (option K)) -> option (list (list (option K))).

Definition dot_d (p : place) (u v : list (option K)) : option K :=
  match finite u, finite v with Some u, Some v => Some (a_dot A p u v) | _, _ => None end.
Definition conj_d (u : list (option K)) : list (option K) := map (option_map (a_conj A)) u.
(** Row [i] of the matrix with columns [X]. *)
Definition row_d (X : list (list (option K))) (i : nat) : list (option K) := map (fun x => nth i x None) X.

(** utils.py:746, 779: [X.dot(np.conjugate(X).T)] for X with [d] rows. *)
Definition gram_d (d : nat) (X : list (list (option K))) : list (list (option K)) :=
  mk2 d d (fun i j => dot_d [0%nat; d; length X; i; j] (row_d X i) (conj_d (row_d X j))).
(** np.eye(d), by columns. *)
Definition eye_d (d : nat) : list (list (option K)) := mk2 d d (fun i j => Some (if (i =? j)%nat then a_one A else a_zero A)).
(** utils.py:745-749 and 778-783. *)
Definition eigenvectors_d (d : nat) (X : list (list (option K))) : list (list (option K)) :=
  match eigh (gram_d d X) with Some U => rev U | None => eye_d d end.
(** utils.py:750, 788: [np.conjugate(U).T.dot(X)], column [b] of [N]. *)
Definition rotate_d (N : nat) (U : list (list (option K))) (b : nat) (x : list (option K)) : list (option K) :=
  map (fun iu => dot_d [1%nat; length U; N; fst iu; b] (conj_d (snd iu)) x) (combine (seq 0 (length U)) U).
(** utils.py:752, 792: one column of [Y / np.linalg.norm(Y, axis=0)[None, :]]. *)
Definition normalize_d (N b : nat) (y : list (option K)) : list (option K) :=
  match finite y with
  | Some v => let s := a_norm A [length v; N; b] v in
              if Reqb s 0 then map (fun _ => None) v else map (fun z => Some (a_div A z s)) v
  | None => map (fun _ => None) y
  end.
Definition reduce_columns (k : Z) (U : list (list (option K))) (X : list (list (option K))) : list (list (option K)) :=
  map (fun bx => normalize_d (length X) (fst bx) (slice_to k (rotate_d (length X) U (fst bx) (snd bx))))
    (combine (seq 0 (length X)) X).
(** utils.py:744-753 [_one_step_linear_reduction]. *)
Definition one_step_d (dims_to_keep : Z) (st : nat * list (list (option K))) : nat * list (list (option K)) :=
  let U := eigenvectors_d (fst st) (snd st) in
  (length (slice_to dims_to_keep U), reduce_columns dims_to_keep U (snd st)).
(** utils.py:761-766. *)
Fixpoint halving_d (fuel : nat) (total_dims_to_keep to_keep_this_iter : Z) (st : nat * list (list (option K)))
  : res (nat * list (list (option K))) :=
  if (0 <? to_keep_this_iter)%Z then
    match fuel with
    | 0%nat => Raise LoopForever
    | S fuel => halving_d fuel total_dims_to_keep (to_keep_this_iter / 2)
                  (one_step_d (total_dims_to_keep + to_keep_this_iter) st)
    end
  else Ok st.

(** utils.py:784-787.  arccos of a number above 1 is NaN. *)
Definition squared_angle_d (a : R) : option R := if Rltb 1 a then None else Some (a_angle A a).
Definition step_variance_d (U X : list (list (option K))) : option R :=
  match finite (map (fun bx => match dot_d [2%nat; length X; fst bx] (last U []) (snd bx) with
                               | Some z => squared_angle_d (a_abs A z)
                               | None => None end) (combine (seq 0 (length X)) X)) with
  | Some l => if (length l =? 0)%nat then None else Some (a_mean A l)
  | None => None
  end.
(** utils.py:774-792, one turn of the loop.  State: number of rows of X, X, XRet, variance. *)
Definition loop_state_d := (nat * list (list (option K)) * option (list (list (option K))) * list (option R))%type.
Definition one_by_one_turn_d (n_dim proj_dim : Z) (i : nat) (st : loop_state_d) : res loop_state_d :=
  let '(d, X, XRet, variance) := st in
  let XRet := if (Z.of_nat i =? n_dim - proj_dim - 1)%Z then Some X else XRet in
  let U := eigenvectors_d d X in
  variance <- (if (i <? length variance)%nat
               then set_at IndexError variance (length variance - i - 1) (step_variance_d U X)
               else Raise IndexError) ;;
  Ok (length (slice_to (-1) U), reduce_columns (-1) U X, XRet, variance).

(** utils.py:703-797 [ppca]: the pair (variance, X). *)
Definition ppca_d (class_map : list (list (option K))) (n_dim : nat) (proj_dim : Z) (m : mode)
  : res (list (option R) * list (list (option K))) :=
  guard match m with OtherMode => false | _ => true end else AssertionError ;;
  guard (1 <=? n_dim)%nat else ValueError ;;
  let variance := repeat (Some 0) (n_dim - 1) in
  let total_dims_to_keep := (proj_dim + 1)%Z in
  match m with
  | Direct => Ok (variance, snd (one_step_d total_dims_to_keep (n_dim, class_map)))
  | Exponential =>
      let to_keep_this_iter := ((Z.of_nat n_dim - total_dims_to_keep) / 2)%Z in
      st <- halving_d (Z.to_nat to_keep_this_iter) total_dims_to_keep to_keep_this_iter (n_dim, class_map) ;;
      let st := if (total_dims_to_keep <? Z.of_nat (fst st))%Z then one_step_d total_dims_to_keep st else st in
      Ok (variance, snd st)
  | OneByOne =>
      st <- for_in (range 0 (n_dim - 1)) (one_by_one_turn_d (Z.of_nat n_dim) proj_dim)
              (n_dim, class_map, None, variance) ;;
      let '(_, _, XRet, variance) := st in
      match XRet with Some X => Ok (variance, X) | None => Raise AttributeError end
  | OtherMode => Raise AssertionError
  end.
End PPCA.

(** ** The two instances.  [rnd] rounds to nearest; [dot_] is the matrix product, [sum_] is
    np.add.reduce, at a place; [abs_], [acos_] and [mean_] are np.abs, np.arccos, np.mean. *)

(** [np.pi / 2] is exact; [x ** 2] is [x * x]. *)
Definition angle (rnd acos_ : R -> R) (a : R) : R := let x := rnd (rnd PI / 2 - acos_ a) in rnd (x * x).
(** Real arrays.  numpy computes the norm as [sqrt(add.reduce((x.conj() * x).real, axis=0))]. *)
Definition real_arith (rnd : R -> R) (dot_ : place -> list R -> list R -> R) (sum_ : place -> list R -> R) (acos_ : R -> R)
    (mean_ : list R -> R) : arith R :=
  mkArith R 0 1 (fun x => x) Rabs dot_
    (fun p v => rnd (sqrt (sum_ p (map (fun x => rnd (x * x)) v)))) (fun x s => rnd (x / s)) (angle rnd acos_) mean_.
(** Complex arrays.  Dividing by the complex number s + 0i, numpy multiplies with 1 / s. *)
Definition complex_arith (rnd : R -> R) (dot_ : place -> list C -> list C -> C) (sum_ : place -> list R -> R) (abs_ : C -> R)
    (acos_ : R -> R) (mean_ : list R -> R) : arith C :=
  mkArith C c0 c1 conj abs_ dot_
    (fun p v => rnd (sqrt (sum_ p (map (fun z => rnd (rnd (fst z * fst z) + rnd (snd z * snd z))) v))))
    (fun z s => let q := rnd (1 / s) in (rnd (fst z * q), rnd (snd z * q))) (angle rnd acos_) mean_.

(** ** ProjectiveCoords *)

(** projectivecoords.py:89-93.  Powers of -1 are exact. *)
Definition sign_matrix (n_landmarks : nat) (c : cocycle) : res (list (list R)) :=
  m <- cocycle_matrix sign_power sign_inverse_power n_landmarks c ;; Ok (map (map fst) m).
(** projectivecoords.py:95: [np.sqrt(varphi.T) * cocycle_matrix[ball_indx[:], :]]. *)
Definition sqrt_d (w : option R) : option R :=
  match w with Some x => if Rltb x 0 then None else Some (dbl (sqrt x)) | None => None end.
Definition sign_class_map_d (varphi : list (list (option R))) (ball_indx : list nat) (cm : list (list R))
  : res (list (list (option R))) :=
  map_res (fun b =>
    ball <- get IndexError ball_indx b ;;
    row <- get IndexError cm ball ;;
    guard (length row =? length varphi)%nat else ValueError ;;
    Ok (map (fun p => option_map (fun s => dbl (s * snd p)) (sqrt_d (nth b (fst p) None))) (combine varphi row)))
  (range 0 (length ball_indx)).

(** projectivecoords.py:39-104 [get_coordinates]; [sums] is the sum of emcoords.py:178. *)
Definition projective_get_coordinates_d (A : arith R) (eigh : list (list (option R)) -> option (list (list (option R))))
    (sums : list R -> R) (self : proj) (perc : R) (cocycle_idx : pyval) (proj_dim : Z)
    (partunity_fn : R -> R -> R) (standard_range : bool) (m : mode) : proj * res (list (list (option R))) :=
  match get_representative_cocycle (p_em self) cocycle_idx 1 with
  | Raise err => (self, Raise err)
  | Ok (cohomdeath_rips, cohombirth_rips, c) =>
      let (e, radius) := cover_radius_d (p_em self) perc cohomdeath_rips cohombirth_rips standard_range in
      match (rt <- radius ;;
             let (varphi, ball_indx) := get_covering_partition_d sums (em_dist_land_data e) (fst rt) partunity_fn in
             cm <- sign_matrix (em_n_landmarks e) c ;;
             class_map <- sign_class_map_d varphi ball_indx cm ;;
             ppca_d A eigh class_map (length varphi) proj_dim m) with
      | Raise err => (mkProj e (p_variance self), Raise err)
      | Ok (variance, X) => (mkProj e (Some variance), Ok X)
      end
  end.

(** ** LensCoords *)

(** lenscoords.py:100: [np.sqrt(varphi.T) * cocycle_matrix[ball_indx[:], :]]: the real factor becomes
    s + 0i; the products with 0 are exact. *)
Definition root_class_map_d (varphi : list (list (option R))) (ball_indx : list nat) (cm : list (list C))
  : res (list (list (option C))) :=
  map_res (fun b =>
    ball <- get IndexError ball_indx b ;;
    row <- get IndexError cm ball ;;
    guard (length row =? length varphi)%nat else ValueError ;;
    Ok (map (fun p : list (option R) * C => option_map (fun s => (dbl (s * fst (snd p)), dbl (s * snd (snd p)))) (sqrt_d (nth b (fst p) None)))
          (combine varphi row)))
  (range 0 (length ball_indx)).

(** lenscoords.py:42-105 [get_coordinates]; [power] is [root_of_unity ** k] and [inverse_power] is
    [(1 / root_of_unity) ** k] as numpy computes them. *)
Definition lens_get_coordinates_d (A : arith C) (eigh : list (list (option C)) -> option (list (list (option C))))
    (sums : list R -> R) (power inverse_power : Z -> C) (self : proj) (perc : R) (cocycle_idx : pyval) (complex_dim : Z)
    (partunity_fn : R -> R -> R) (standard_range : bool) (m : mode) : proj * res (list (list (option C))) :=
  match get_representative_cocycle (p_em self) cocycle_idx 1 with
  | Raise err => (self, Raise err)
  | Ok (cohomdeath_rips, cohombirth_rips, c) =>
      let (e, radius) := cover_radius_d (p_em self) perc cohomdeath_rips cohombirth_rips standard_range in
      match (rt <- radius ;;
             let (varphi, ball_indx) := get_covering_partition_d sums (em_dist_land_data e) (fst rt) partunity_fn in
             cm <- cocycle_matrix (fun k => Ok (power k)) inverse_power (em_n_landmarks e) c ;;
             class_map <- root_class_map_d varphi ball_indx cm ;;
             ppca_d A eigh class_map (length varphi) (complex_dim - 1) m) with
      | Raise err => (mkProj e (p_variance self), Raise err)
      | Ok (variance, X) => (mkProj e (Some variance), Ok X)
      end
  end.
