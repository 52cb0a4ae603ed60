(** GeometryModel.v -- dreimac/utils.py: GeometryUtils (23-225).  Floating point numbers are read
    as exact reals. *)
From Coq Require Import List ZArith Reals Lia Lra.
From Verif Require Import Base RealBase RealSum LLLModel.
Import ListNotations.
Local Open Scope R_scope.

(** One entry of utils.py:48-50: |x|^2 + |y|^2 - 2 <x,y>, negative values set to 0, square root. *)
Definition csm_entry (x y : list R) : R :=
  let c := vdot x x + vdot y y - 2 * vdot x y in
  sqrt (if Rltb c 0 then 0 else c).
(** GeometryUtils.get_csm, utils.py:29-50.  [dx] and [dy] are X.shape[1] and Y.shape[1];
    X.dot(Y.T) needs them equal. *)
Definition get_csm (dx : nat) (X : list (list R)) (dy : nat) (Y : list (list R)) : res (list (list R)) :=
  guard (dx =? dy)%nat else ValueError ;;
  Ok (map (fun x => map (fun y => csm_entry x y) Y) X).
(** GeometryUtils.get_ssm, utils.py:77-79. *)
Definition get_ssm (d : nat) (X : list (list R)) : res (list (list R)) := get_csm d X d X.

(** One entry of utils.py:71-74. *)
Definition projarc_entry (x y : list R) : R :=
  let D := Rabs (vdot x y) in
  let D := if Rltb D (-1) then -1 else D in
  let D := if Rltb 1 D then 1 else D in
  acos (Rabs D).
(** GeometryUtils.get_csm_projarc, utils.py:52-75. *)
Definition get_csm_projarc (dx : nat) (X : list (list R)) (dy : nat) (Y : list (list R)) : res (list (list R)) :=
  guard (dx =? dy)%nat else ValueError ;;
  Ok (map (fun x => map (fun y => projarc_entry x y) Y) X).

(** np.argmax: the first position of the largest value; ValueError on an empty array. *)
Fixpoint argmax_scan {A} (ltb : A -> A -> bool) (best : A) (pos i : nat) (l : list A) : nat :=
  match l with
  | [] => pos
  | x :: r => if ltb best x then argmax_scan ltb x i (S i) r else argmax_scan ltb best pos (S i) r
  end.
Definition argmax {A} (ltb : A -> A -> bool) (l : list A) : res nat :=
  match l with [] => Raise ValueError | x :: r => Ok (argmax_scan ltb x 0%nat 1%nat r) end.
(** np.minimum. *)
Definition minimum {A} (ltb : A -> A -> bool) (u v : list A) : list A :=
  map (fun p => if ltb (snd p) (fst p) then snd p else fst p) (combine u v).

(** The furthest point sampling loop shared by the three functions (utils.py:111-122, 149-156,
    204-216): [row idx] is the distances from point [idx] to all points.  perm, lambdas and D are
    preallocated with zeros and filled in order of i; here they are extended one entry at a time. *)
Record greedy_state (A : Type) := mkGreedy {
  g_perm : list nat; g_lambdas : list A; g_D : list (list A); g_ds : list A }.
Arguments mkGreedy {A}. Arguments g_perm {A}. Arguments g_lambdas {A}. Arguments g_D {A}. Arguments g_ds {A}.
Definition greedy_step {A} (ltb : A -> A -> bool) (row : nat -> res (list A)) (st : greedy_state A)
    : res (greedy_state A) :=
  idx <- argmax ltb (g_ds st) ;;
  lam <- get IndexError (g_ds st) idx ;;
  thisds <- row idx ;;
  Ok (mkGreedy (g_perm st ++ [idx]) (g_lambdas st ++ [lam]) (g_D st ++ [thisds])
        (minimum ltb (g_ds st) thisds)).
Definition greedy_loop {A} (ltb : A -> A -> bool) (zero : A) (row : nat -> res (list A)) (M : nat) (ds : list A)
    : res (greedy_state A) :=
  for_in (range 1 M) (fun _ st => greedy_step ltb row st) (mkGreedy [0%nat] [zero] [ds] ds).

(** GeometryUtils.get_greedy_perm_pc, utils.py:82-124.  [N] rows X; [csm_fn] is the third argument.
    Result: Y, perm, lambdas, D.  csm_fn(...).flatten() must have N entries to fit D[0, :]
    (one entry would be broadcast; the model raises ValueError). *)
Definition get_greedy_perm_pc (X : list (list R)) (M : Z)
    (csm_fn : list (list R) -> list (list R) -> res (list (list R)))
    : res (list (list R) * list nat * list R * list (list R)) :=
  guard (0 <=? M)%Z else ValueError ;;
  let row idx := x <- get IndexError X idx ;; c <- csm_fn [x] X ;;
                 guard (length (concat c) =? length X)%nat else ValueError ;; Ok (concat c) in
  ds <- row 0%nat ;;
  guard (negb (M =? 0)%Z) else IndexError ;;
  st <- greedy_loop Rltb 0 row (Z.to_nat M) ds ;;
  Y <- map_res (get IndexError X) (g_perm st) ;;
  Ok (Y, g_perm st, g_lambdas st, g_D st).

(** GeometryUtils.get_greedy_perm_dm, utils.py:126-158.  Result: perm, lambdas, DLandmarks. *)
Definition get_greedy_perm_dm (D : list (list R)) (M : Z) : res (list nat * list R * list (list R)) :=
  guard (0 <=? M)%Z else ValueError ;;
  ds <- get IndexError D 0 ;;
  if (M =? 0)%Z then Ok ([], [], [])
  else
    st <- greedy_loop Rltb 0 (get IndexError D) (Z.to_nat M) ds ;;
    DL <- map_res (get IndexError D) (g_perm st) ;;
    Ok (g_perm st, g_lambdas st, DL).

(** Distances that may be infinite (shortest_path gives np.inf for unreachable points): [None]. *)
Definition ext : Type := option R.
Definition ext_ltb (a b : ext) : bool :=
  match a, b with Some x, Some y => Rltb x y | Some _, None => true | None, _ => false end.

(** The nearest neighbour graph, utils.py:192-201: row r of the csr matrix holds the distances to
    the neighbours of point r. *)
Definition neighbour_graph (n : nat) (distances_nn : list (list R)) (indices_nn : list (list nat))
    : list (nat * nat * R) :=
  concat (map (fun r => map (fun p => (r, fst p, snd p)) (combine (nth r indices_nn []) (nth r distances_nn [])))
              (seq 0 n)).
(** np.setdiff1d(np.arange(0, n), perm, assume_unique=True), utils.py:218-220. *)
Definition rest_points (n : nat) (perm : list nat) : list nat :=
  filter (fun j => negb (existsb (Nat.eqb j) perm)) (seq 0 n).
(** GeometryUtils.landmark_geodesic_distance, utils.py:160-225.  [kd_query X k] stands for
    KDTree(X).query(X, k=k) (k < 1 raises ValueError) and [shortest_path n g i] for
    scipy's shortest_path(g, indices=i, directed=False). *)
Definition landmark_geodesic_distance
    (kd_query : list (list R) -> nat -> list (list R) * list (list nat))
    (shortest_path : nat -> list (nat * nat * R) -> nat -> list ext)
    (X : list (list R)) (n_landmarks n_neighbors : Z) : res (list (list ext) * list nat) :=
  let n := length X in
  guard (n_landmarks <=? Z.of_nat n)%Z else AssertionError ;;
  guard (n_neighbors <=? Z.of_nat n)%Z else AssertionError ;;
  guard (1 <=? n_neighbors)%Z else ValueError ;;
  let '(distances_nn, indices_nn) := kd_query X (Z.to_nat n_neighbors) in
  let g := neighbour_graph n distances_nn indices_nn in
  guard (0 <=? n_landmarks)%Z else ValueError ;;
  guard (negb (n_landmarks =? 0)%Z) else IndexError ;;
  st <- greedy_loop ext_ltb (Some 0) (fun idx => Ok (shortest_path n g idx)) (Z.to_nat n_landmarks)
          (shortest_path n g 0%nat) ;;
  let perm_all_points := g_perm st ++ rest_points n (g_perm st) in
  D <- map_res (fun row => map_res (get IndexError row) perm_all_points) (g_D st) ;;
  Ok (D, perm_all_points).
