(** MapUtilsModel.v -- dreimac/utils.py: ProjectiveMapUtils (1397-1568) and LensMapUtils
    (1571-1617).  Floating point numbers are read as exact real numbers; a NaN is [None]. *)
From Coq Require Import List ZArith Reals Lia Lra.
From Verif Require Import Base RealBase RealSum CircleModel LLLModel ComplexBase.
Import ListNotations.
Local Open Scope R_scope.

(** np.sqrt(np.sum(v**2)), as used on utils.py:1546, 1552, 1556, 1560. *)
Definition vnorm (v : list R) : R := sqrt (vdot v v).

(** v / np.sqrt(np.sum(v**2)) (utils.py:1546, 1552, 1560); the zero vector gives 0/0 = NaN in
    every entry ([None]). *)
Definition normalise (v : list R) : option (list R) :=
  if Reqb (vnorm v) 0 then None else Some (map (fun x => x / vnorm v) v).

(** The standard vector np.zeros(d) with a one at position [i] (utils.py:1550-1551, 1509-1511). *)
Definition basis (d i : nat) : list R := mk1 d (fun j => if (j =? i)%nat then 1 else 0).

(** utils.py:1563-1568, the matrix expression. *)
Definition rotation (d : nat) (b c : list R) (lam beta : R) : list (list R) :=
  mk2 d d (fun i j =>
    at2 0 (eye d) i j
    - (1 - lam) * (nth i c 0 * nth j c 0)
    - (1 - lam) * (nth i b 0 * nth j b 0)
    + beta * (nth i b 0 * nth j c 0 - nth i c 0 * nth j b 0)).

(** ProjectiveMapUtils.rotmat, utils.py:1524-1568.  The outer option is the NaN result: when
    [a] or [b] is zero every entry of the result is NaN.
    Simplifications: [a] and [b] are one-dimensional (for a matrix with two or more rows and
    columns the code prints a message and returns None, 1539-1543); two vectors of different
    lengths raise ValueError (numpy would broadcast if one of them had length 1). *)
Definition rotmat (a b : list R) : res (option (list (list R))) :=
  let d := length a in
  guard (negb ((length b =? 0)%nat && (d =? 0)%nat)) else IndexError ;;
  let b := if (length b =? 0)%nat then basis d (d - 1) else b in
  guard (length b =? d)%nat else ValueError ;;
  match normalise a, normalise b with
  | Some a, Some b =>
      let c := vsub a (vscale (vdot b a) b) in
      if Rltb (vnorm c) (1 / 10 ^ 15) then Ok (Some (eye d))
      else
        let c := map (fun x => x / vnorm c) c in
        let lam := vdot b a in
        let beta := sqrt (1 - Rabs lam ^ 2) in
        Ok (Some (rotation d b c lam beta))
  | _, _ => Ok None
  end.

(** M.dot(x): one entry per row of M (utils.py:1427, 1513). *)
Definition matvec (M : list (list R)) (x : list R) : list R := map (fun row => vdot row x) M.

(** One column of utils.py:1427-1433: rotate, flip to the upper hemisphere, project. *)
Definition stereo_codim1_point (M : list (list R)) (x : list R) : list R :=
  let xx := matvec M x in
  let xx := if Rltb (last xx 0) 0 then vscale (-1) xx else xx in
  map (fun y => y / (1 + last xx 0)) (removelast xx).

(** X.dot(X.T) for X = pX.T (utils.py:1422, 1425): entry (i,j) sums over the points. *)
Definition scatter (d : nat) (pX : list (list R)) : list (list R) :=
  mk2 d d (fun i j => sumn (length pX) (fun r => at2 0 pX r i * at2 0 pX r j)).

(** ProjectiveMapUtils.get_stereo_proj_codim1, utils.py:1403-1433.  [d] is pX.shape[1] and
    [pX] the list of rows; [eigh] stands for the eigenvector matrix (rows) of
    np.linalg.eigh.  [None]: all entries of the result are NaN. *)
Definition get_stereo_proj_codim1 (eigh : list (list R) -> list (list R)) (d : nat)
    (pX : list (list R)) (u : list R) : res (option (list (list R))) :=
  u <- (if (length u =? 0)%nat
        then guard (negb (d =? 0)%nat) else IndexError ;;
             Ok (map (fun row => nth 0 row 0) (eigh (scatter d pX)))
        else Ok u) ;;
  M <- rotmat u [] ;;
  guard (length u =? d)%nat else ValueError ;;
  match M with
  | None => Ok None
  | Some M => Ok (Some (map (stereo_codim1_point M) pX))
  end.

(** ProjectiveMapUtils.circle_to_3dnorthpole, utils.py:1435-1461.  The result is (contents of
    the caller's array after the call, returned x, returned u): [x /= ...] works in place.
    Simplifications: the array holds floats and has two entries (u[0:2] = x raises ValueError
    for three or more; length one would broadcast and is excluded here with ValueError). *)
Definition circle_to_3dnorthpole (x : list R) : res (list R * list R * list R) :=
  let magSqr := vdot x x in
  let '(x, magSqr) :=
    if Rltb 1 magSqr then (map (fun c => c / sqrt magSqr) x, 1) else (x, magSqr) in
  guard (length x =? 2)%nat else ValueError ;;
  Ok (x, x, x ++ [sqrt (1 - magSqr)]).

(** ProjectiveMapUtils.hopf_map, utils.py:1463-1488, one point: y0 + i y1 is the first
    coordinate and y2 + i y3 the second one (the rows of Y, 1478-1480). *)
Definition hopf_point (z : list C) : list R :=
  let y0 := fst (nth 0 z c0) in let y1 := snd (nth 0 z c0) in
  let y2 := fst (nth 1 z c0) in let y3 := snd (nth 1 z c0) in
  [2 * (y0 * y2 + y1 * y3); 2 * (y1 * y2 - y0 * y3); y0 ^ 2 + y1 ^ 2 - (y2 ^ 2 + y3 ^ 2)].
(** [m] is X.shape[1]; the index lists [0, 2] and [1, 3] need 2 m > 3. *)
Definition hopf_map (m : nat) (X : list (list C)) : res (list (list R)) :=
  guard (2 <=? m)%nat else IndexError ;; Ok (map hopf_point X).

(** _stereo on one row, utils.py:1506-1507. *)
Definition stereo (v : list R) : list R := map (fun y => y / (1 - last v 0)) (removelast v).
(** One row of utils.py:1513-1521. *)
Definition flip_last (v : list R) : list R := removelast v ++ [-1 * last v 0].
Definition hemisphere_point (M : list (list R)) (n : nat) (x : list R) : list R :=
  let x := matvec M x in
  if Rltb (last x 0) 0 then stereo x
  else map (fun p => fst p + snd p) (combine (stereo (flip_last x)) (vscale (5 / 2) (basis (n - 1) 0))).
(** ProjectiveMapUtils.stereographic_projection_hemispheres, utils.py:1490-1522; [n] is
    X.shape[1].  With a zero centre every entry of X_ is NaN, both masks are empty and the
    rows stay np.zeros. *)
Definition stereographic_projection_hemispheres (n : nat) (X : list (list R))
    (center_vector : option (list R)) : res (list (list R)) :=
  center <- (match center_vector with
             | None => guard (negb (n =? 0)%nat) else IndexError ;; Ok (basis n (n - 1))
             | Some c => Ok c
             end) ;;
  M <- rotmat center [] ;;
  guard (length center =? n)%nat else ValueError ;;
  guard (2 <=? n)%nat else IndexError ;;
  match M with
  | None => Ok (map (fun _ => repeat 0 (n - 1)) X)
  | Some M => Ok (map (hemisphere_point M n) X)
  end.

(** np.angle on a complex number: the argument in (-pi, pi], 0 for 0. *)
Definition np_angle (z : C) : R :=
  if Reqb (cabs z) 0 then 0
  else if Rleb 0 (snd z) then acos (fst z / cabs z) else - acos (fst z / cabs z).

(** LensMapUtils.lens_3D_to_disk_3D, utils.py:1577-1617, one point; the third coordinate is
    NaN when r > 1. *)
Definition lens_point (q : Z) (p : list C) : list (option R) :=
  let p1 := nth 0 p c0 in
  let p2 := nth 1 p c0 in
  let arg_z := np_mod (np_angle p1) (2 * PI) in
  let theta := np_mod arg_z (2 * PI / IZR q) in
  let k := IZR (Int_part ((arg_z - theta) / (2 * PI / IZR q))) in
  let phi := np_mod (np_angle p2) (2 * PI) - 2 * k * PI / IZR q in
  let r := cabs p2 in
  [Some (r * cos phi); Some (r * sin phi);
   if Rltb (1 - r ^ 2) 0 then None
   else Some (IZR q / PI * (theta - PI / IZR q) * sqrt (1 - r ^ 2))].
(** [m] is X.shape[1].  With no rows nothing is evaluated. *)
Definition lens_3D_to_disk_3D (m : nat) (X : list (list C)) (q : Z) : res (list (list (option R))) :=
  map_res (fun p =>
    guard (2 <=? m)%nat else IndexError ;;
    guard (negb (q =? 0)%Z) else ZeroDivisionError ;;
    Ok (lens_point q p)) X.
