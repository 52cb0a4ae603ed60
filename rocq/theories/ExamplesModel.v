(** ExamplesModel.v -- dreimac/utils.py: GeometryExamples (800-1230).  Floating point numbers are
    read as exact reals; [None] stands for NaN.  numpy's global random generator is a parameter. *)
From Coq Require Import List ZArith Reals Lia Lra.
From Verif Require Import Base RealBase RealSum LLLModel MapUtilsModel GeometryModel.
Import ListNotations.
Local Open Scope R_scope.

(** numpy's global random generator: its states, np.random.seed, and the functions that draw [n]
    numbers from the uniform distribution on [0,1) (rand, random, random_sample) and from the
    normal distribution (randn), returning the new state. *)
Record rng : Type := mkRng {
  rng_state : Type;
  np_seed : Z -> rng_state;
  np_random : rng_state -> nat -> list R * rng_state;
  np_randn : rng_state -> nat -> list R * rng_state }.

(** np.random.seed(seed) accepts 0..2^32-1. *)
Definition random_seed (g : rng) (seed : Z) : res (rng_state g) :=
  guard ((0 <=? seed) && (seed <? 2 ^ 32))%Z%bool else ValueError ;; Ok (np_seed g seed).
(** The default of the seed, e.g. utils.py:911-913. *)
Definition seed_or (seed : option Z) (n : Z) : Z := match seed with Some s => s | None => n end.
(** Draws of shape (n, k), row by row. *)
Definition in_rows (n k : nat) (l : list R) : list (list R) := mk2 n k (fun i j => nth (i * k + j) l 0).
(** np.linspace(a, b, n), which includes b, and with endpoint=False. *)
Definition linspace (a b : R) (n : nat) : list R :=
  mk1 n (fun i => a + INR i * (if (n =? 1)%nat then 0 else (b - a) / INR (n - 1))).
Definition linspace_open (a b : R) (n : nat) : list R := mk1 n (fun i => a + INR i * ((b - a) / INR n)).

(** GeometryExamples.line_patches, utils.py:808-845, for non-negative sizes; [Y, X] = meshgrid puts
    the row position in X and the column position in Y; sigma = 0 (0/0) is not modelled. *)
Definition line_patch (dim : nat) (sigma c s p : R) : list R :=
  concat (mk2 dim dim (fun i j =>
    exp (- (nth i (linspace (- (1 / 2)) (1 / 2) dim) 0 * c + nth j (linspace (- (1 / 2)) (1 / 2) dim) 0 * s + p) ^ 2 / sigma ^ 2))).
Definition line_patches (dim n_angles n_offsets : nat) (sigma : R) : list (list R) :=
  let thetas := firstn n_angles (linspace 0 PI (n_angles + 1)) in
  let ps := linspace (-1) 1 n_offsets in
  concat (map (fun theta => map (fun p => line_patch dim sigma (cos theta) (sin theta) p) ps) thetas).

(** _gkern, utils.py:870-875, and GeometryExamples.moving_dot, utils.py:847-888: the argument [dim]
    is overwritten with 10 (877).  Negative sqrt_num_images makes np.linspace fail. *)
Definition gkern (l : nat) (mx my sig : R) : list R :=
  let ax := linspace (- ((INR l - 1) / 2)) ((INR l - 1) / 2) l in
  let gauss m := map (fun a => exp (- (1 / 2) * (a - m) ^ 2 / sig ^ 2)) ax in
  concat (map (fun gx => map (fun gy => gx * gy) (gauss my)) (gauss mx)).
Definition moving_dot (sqrt_num_images : Z) (sigma : R) (dim : Z) : res (list (list R)) :=
  guard (0 <=? sqrt_num_images)%Z else ValueError ;;
  let dim := 10%nat in
  let xs := map (fun x => 15 * x ^ 3) (linspace (-1) 1 (Z.to_nat sqrt_num_images)) in
  let ys := map Ropp xs in
  Ok (concat (map (fun x => map (fun y => gkern dim x y sigma) ys) xs)).

(** GeometryExamples.rp2_metric, utils.py:890-917. *)
Definition normalised_rows (X : list (list R)) : list (option (list R)) := map normalise X.
(** When a raw row is zero, row and distances are NaN: [None]. *)
Fixpoint all_some {A} (l : list (option A)) : option (list A) :=
  match l with
  | [] => Some []
  | None :: _ => None
  | Some x :: r => match all_some r with Some s => Some (x :: s) | None => None end
  end.
Definition rp2_metric (g : rng) (st : rng_state g) (n_samples : Z) (seed : option Z)
    : res (option (list (list R) * list (list R)) * rng_state g) :=
  st <- random_seed g (seed_or seed n_samples) ;;
  guard (0 <=? n_samples)%Z else ValueError ;;
  let n := Z.to_nat n_samples in
  let '(raw, st) := np_randn g st (n * 3) in
  match all_some (normalised_rows (in_rows n 3 raw)) with
  | None => Ok (None, st)
  | Some X => D <- get_csm_projarc 3 X 3 X ;; Ok (Some (X, D), st)
  end.

(** GeometryExamples.torus_3d, utils.py:919-950. *)
Definition torus_point (R0 r s t : R) : list R :=
  [(R0 + r * cos s) * cos t; (R0 + r * cos s) * sin t; r * sin s].
Definition torus_3d (g : rng) (st : rng_state g) (n_samples : Z) (R0 r : R) (seed : option Z)
    : res (list (list R) * rng_state g) :=
  st <- random_seed g (seed_or seed n_samples) ;;
  guard (0 <=? n_samples)%Z else ValueError ;;
  let n := Z.to_nat n_samples in
  let '(s, st) := np_random g st n in
  let '(t, st) := np_random g st n in
  Ok (mk1 n (fun i => torus_point R0 r (nth i s 0 * 2 * PI) (nth i t 0 * 2 * PI)), st).

(** GeometryExamples.klein_bottle_4d, utils.py:952-984. *)
Definition klein_point (R0 r theta phi : R) : list R :=
  [(R0 + r * cos theta) * cos phi; (R0 + r * cos theta) * sin phi;
   r * sin theta * cos (phi / 2); r * sin theta * sin (phi / 2)].
Definition klein_bottle_4d (g : rng) (st : rng_state g) (n_samples : Z) (R0 r : R) (seed : option Z)
    : res (list (list R) * rng_state g) :=
  st <- random_seed g (seed_or seed n_samples) ;;
  guard (0 <=? n_samples)%Z else ValueError ;;
  let n := Z.to_nat n_samples in
  let '(theta, st) := np_random g st n in
  let '(phi, st) := np_random g st n in
  Ok (mk1 n (fun i => klein_point R0 r (nth i theta 0 * 2 * PI) (nth i phi 0 * 2 * PI)), st).

(** GeometryExamples.genus_two_surface, utils.py:986-1022. *)
Definition genus_two_parameters : list (R * R) :=
  list_prod (linspace_open 0 (2 * PI) 80) (linspace_open 0 (2 * PI) 120).
Definition shifted (a : R) (v : list R) : list R :=
  match v with [] => [] | x :: r => (a + x) :: r end.
Definition genus_two_surface : list (list R) :=
  let Y := map (fun st => torus_point 5 2 (fst st) (snd st)) genus_two_parameters in
  let Z0 := map (fun st => shifted 9 (torus_point 5 2 (fst st) (snd st))) genus_two_parameters in
  filter (fun v => Rleb (nth 0 v 0) (9 / 2)) Y ++ filter (fun v => Rleb (9 / 2) (nth 0 v 0)) Z0.

(** GeometryExamples.trefoil, utils.py:1024-1065. *)
Definition trefoil_noisy_point (w u v : R) : list R :=
  [cos u * cos v + w * cos u * (3 / 2 + sin (3 / 2 * u) / 2);
   sin u * cos v + w * sin u * (3 / 2 + sin (3 / 2 * u) / 2);
   sin v + 4 * cos (3 / 2 * u)].
Definition trefoil_point (w u : R) : list R :=
  [cos u + w * cos u * (3 / 2 + sin (3 / 2 * u) / 2);
   sin u + w * sin u * (3 / 2 + sin (3 / 2 * u) / 2);
   4 * cos (3 / 2 * u)].
Definition trefoil (g : rng) (st : rng_state g) (n_samples : Z) (horizontal_width : R) (noisy : bool)
    : res (list (list R) * rng_state g) :=
  st <- random_seed g 0 ;;
  guard (0 <=? n_samples)%Z else ValueError ;;
  let n := Z.to_nat n_samples in
  if noisy then
    let '(u, st) := np_random g st n in
    let '(v, st) := np_random g st n in
    Ok (mk1 n (fun i => trefoil_noisy_point horizontal_width (4 * PI * nth i u 0) (2 * PI * nth i v 0)), st)
  else
    Ok (map (fun u => trefoil_point horizontal_width (4 * PI * u)) (linspace_open 0 1 n), st).

(** n points of the circle of radius [a] around (cx, cy), as in utils.py:1079-1082, 1103-1121. *)
Definition circle_points (a cx cy : R) (n : nat) : list (list R) :=
  map (fun t => [a * sin t + cx; a * cos t + cy]) (linspace_open 0 (2 * PI) n).
(** X += (random(X.shape) - 0.5) * eps. *)
Definition perturbed (eps : R) (X : list (list R)) (noise : list R) : list (list R) :=
  mk2 (length X) 2 (fun i j => at2 0 X i j + (nth (i * 2 + j) noise 0 - 1 / 2) * eps).
(** GeometryExamples.bullseye, utils.py:1067-1090. *)
Definition bullseye (g : rng) (st : rng_state g) : res (list (list R) * rng_state g) :=
  let X := circle_points 1 0 0 200 ++ circle_points 2 0 0 200 ++ circle_points 3 0 0 200 in
  st <- random_seed g 0 ;;
  let '(noise, st) := np_random g st (length X * 2) in
  Ok (perturbed (1 / 10) X noise, st).
(** GeometryExamples.three_circles, utils.py:1092-1127. *)
Definition three_circles (g : rng) (st : rng_state g) : res (list (list R) * rng_state g) :=
  let X := circle_points 1 0 0 50 ++ circle_points 2 4 0 500 ++ circle_points (5 / 2) (-4) 0 500 in
  st <- random_seed g 0 ;;
  let '(noise, st) := np_random g st (length X * 2) in
  Ok (perturbed (3 / 10) X noise, st).

(** GeometryExamples.sphere, utils.py:1129-1142. *)
Definition sphere (g : rng) (st : rng_state g) (n_samples : Z) : res (list (option (list R)) * rng_state g) :=
  st <- random_seed g 0 ;;
  guard (0 <=? n_samples)%Z else ValueError ;;
  let n := Z.to_nat n_samples in
  let '(u, st) := np_random g st (n * 3) in
  Ok (normalised_rows (map (map (fun x => 2 * x - 1)) (in_rows n 3 u)), st).

(** GeometryExamples.noisy_circle, utils.py:1144-1171. *)
Definition noisy_circle (g : rng) (st : rng_state g) (n_samples : Z) (noise_size : R) (seed : Z)
    : res (list (option (list R)) * rng_state g) :=
  st <- random_seed g seed ;;
  guard (0 <=? n_samples)%Z else ValueError ;;
  let n := Z.to_nat n_samples in
  let '(u, st) := np_random g st (n * 2) in
  let '(noise, st) := np_random g st (n * 2) in
  Ok (mk1 n (fun i =>
        option_map (fun x => mk1 2 (fun j => nth j x 0 + (nth (i * 2 + j) noise 0 - 1 / 2) * noise_size))
          (normalise (map (fun x => x - 1 / 2) (nth i (in_rows n 2 u) [])))), st).

(** 2 x 2 matrices as ((a, b), (c, d)); np.linalg.matrix_power by repeated multiplication. *)
Definition mat2 : Type := ((R * R) * (R * R))%type.
Definition mat2_mul (m n : mat2) : mat2 :=
  let '((a, b), (c, d)) := m in let '((e, f), (g, h)) := n in
  ((a * e + b * g, a * f + b * h), (c * e + d * g, c * f + d * h)).
Fixpoint mat2_power (m : mat2) (k : nat) : mat2 :=
  match k with O => ((1, 0), (0, 1)) | S k => mat2_mul m (mat2_power m k) end.
Definition mat2_apply (m : mat2) (v : list R) : list R :=
  let '((a, b), (c, d)) := m in
  [a * nth 0 v 0 + b * nth 1 v 0; c * nth 0 v 0 + d * nth 1 v 0].
(** _rot_mat, utils.py:1197-1199. *)
Definition rot_mat (theta : R) : mat2 := ((cos theta, - sin theta), (sin theta, cos theta)).
(** min of a list; ValueError when it is empty. *)
Definition min_list (l : list R) : res R :=
  match l with [] => Raise ValueError | x :: r => Ok (fold_left Rmin r x) end.
(** One entry of _fill_dist_mat, utils.py:1206-1227: NaN (under fastmath, anything) for x = 0. *)
Definition moore_entry (rot : mat2) (prime : Z) (x y : list R) : res (option R) :=
  match normalise x with
  | None => Ok None
  | Some b =>
      m <- min_list (map (fun i => vnorm (vsub (mat2_apply (mat2_power rot i) b) y)) (seq 0 (Z.to_nat prime))) ;;
      Ok (Some (Rmin (vnorm (vsub x y)) (vnorm (vsub x b) + m)))
  end.
(** GeometryExamples.moore_space_distance_matrix, utils.py:1173-1230. *)
Definition moore_space_distance_matrix (g : rng) (st : rng_state g) (rough_n_points prime : Z)
    : res ((list (list (option R)) * list (list R)) * rng_state g) :=
  st <- random_seed g 0 ;;
  guard (0 <=? rough_n_points)%Z else ValueError ;;
  let n := Z.to_nat rough_n_points in
  let '(u, st) := np_random g st (n * 2) in
  let X := filter (fun x => Rleb (vnorm x) 1) (map (map (fun x => (x - 1 / 2) * 2)) (in_rows n 2 u)) in
  guard (negb (prime =? 0)%Z) else ZeroDivisionError ;;
  let rot := rot_mat (2 * PI / IZR prime) in
  D <- map_res (fun x => map_res (fun y => moore_entry rot prime x y) X) X ;;
  Ok ((D, X), st).
