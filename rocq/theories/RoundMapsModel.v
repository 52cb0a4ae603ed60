(** RoundMapsModel.v -- map utilities of dreimac/utils.py in double precision.  Every operation on
    floats is rounded; overflow is not modelled.  [sin_], [cos_], [angle_], [abs_] stand for
    np.sin, np.cos, np.angle and np.abs of complex numbers; [sum_] for np.sum of a short vector. *)
From Coq Require Import List ZArith Reals.
From Verif Require Import Base RealBase RealSum LLLModel ComplexBase MapUtilsModel SpecRound RoundModel.
Import ListNotations.
Local Open Scope R_scope.

(** ** CircleMapUtils.to_sinebow, utils.py:1240-1260, one point.  [circle_map / (2 * np.pi)], [+ 0.5],
    np.mod; the constants 3/6, 5/6, 7/6 are rounded quotients; [x ** 2] is [x * x]. *)
Definition sinebow_channel_d (sin_ : R -> R) (c h : R) : R :=
  let s := sin_ (dbl (np_pi * dbl (dbl c - h))) in dbl (s * s).
Definition to_sinebow_d (sin_ : R -> R) (x : R) : list R :=
  let h := np_mod_d (dbl (dbl (x / two_pi_d) + / 2)) 1 in
  [sinebow_channel_d sin_ (3 / 6) h; sinebow_channel_d sin_ (5 / 6) h; sinebow_channel_d sin_ (7 / 6) h].

(** ** ProjectiveMapUtils.hopf_map, utils.py:1477-1488, one point: np.prod and np.sum of two numbers. *)
Definition hopf_point_d (z : list C) : list R :=
  let y0 := fst (nth 0 z c0) in let y1 := snd (nth 0 z c0) in
  let y2 := fst (nth 1 z c0) in let y3 := snd (nth 1 z c0) in
  [dbl (2 * dbl (dbl (y0 * y2) + dbl (y1 * y3)));
   dbl (2 * dbl (dbl (y1 * y2) - dbl (y0 * y3)));
   dbl (dbl (dbl (y0 * y0) + dbl (y1 * y1)) - dbl (dbl (y2 * y2) + dbl (y3 * y3)))].

(** ** ProjectiveMapUtils.circle_to_3dnorthpole, utils.py:1453-1461, for two coordinates.  The result is
    the returned x (also the caller's array after the call) and the returned u; a negative number
    under the root would be NaN ([None]). *)
Definition circle_to_3dnorthpole_d (a b : R) : list R * list (option R) :=
  let magSqr := dbl (dbl (a * a) + dbl (b * b)) in
  let '(a, b, magSqr) :=
    if Rltb 1 magSqr then let s := dbl (sqrt magSqr) in (dbl (a / s), dbl (b / s), 1) else (a, b, magSqr) in
  let v := dbl (1 - magSqr) in
  ([a; b], [Some a; Some b; if Rltb v 0 then None else Some (dbl (sqrt v))]).

(** ** Stereographic projections of a rotated point [v] (the product with the rotation matrix has been
    taken): utils.py:1428-1433 and 1505-1521. *)
Definition stereo_codim1_d (v : list R) : list R :=
  let v := if Rltb (last v 0) 0 then map (fun y => dbl (y * -1)) v else v in
  map (fun y => dbl (y / dbl (1 + last v 0))) (removelast v).
Definition stereo_d (v : list R) : list R := map (fun y => dbl (y / dbl (1 - last v 0))) (removelast v).
Definition hemisphere_d (v : list R) : list R :=
  if Rltb (last v 0) 0 then stereo_d v
  else map (fun p => dbl (fst p + dbl (5 / 2 * snd p)))
         (combine (stereo_d (removelast v ++ [dbl (last v 0 * -1)])) (basis (length v - 1) 0)).

(** ** LensMapUtils.lens_3D_to_disk_3D, utils.py:1594-1620, one point.  [q] is a Python int.
    [r ** 2] of a numpy scalar is taken to be the correctly rounded square. *)
Section LensD.
Variables (angle_ abs_ : C -> R) (cos_ sin_ : R -> R).
(** 2 * np.pi / q *)
Definition lens_width_d (q : Z) : R := dbl (two_pi_d / IZR q).
(** k = np.floor((arg_z - theta) / (2 * np.pi / q)) *)
Definition lens_sector_d (q : Z) (arg_z : R) : Z :=
  let theta := np_mod_d arg_z (lens_width_d q) in
  Int_part (dbl (dbl (arg_z - theta) / lens_width_d q)).
Definition lens_point_d (q : Z) (p : list C) : list (option R) :=
  let p1 := nth 0 p c0 in
  let p2 := nth 1 p c0 in
  let arg_z := np_mod_d (angle_ p1) two_pi_d in
  let theta := np_mod_d arg_z (lens_width_d q) in
  let k := lens_sector_d q arg_z in
  let phi := dbl (np_mod_d (angle_ p2) two_pi_d - dbl (dbl (dbl (2 * IZR k) * np_pi) / IZR q)) in
  let r := abs_ p2 in
  let v := dbl (1 - dbl (r * r)) in
  [Some (dbl (r * cos_ phi)); Some (dbl (r * sin_ phi));
   if Rltb v 0 then None
   else Some (dbl (dbl (dbl (IZR q / np_pi) * dbl (theta - dbl (np_pi / IZR q))) * dbl (sqrt v)))].
End LensD.
