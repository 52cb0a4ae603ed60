(** CircleModel.v -- model of dreimac/utils.py, class CircleMapUtils (lines 1233-1394).
    Floats are reals; a NaN is [None]. *)
From Verif Require Export Base RealBase EMModel.
Local Open Scope R_scope.

(** Python and numpy [x % y] for y > 0. *)
Definition np_mod (x y : R) : R := x - y * IZR (Int_part (x / y)).
Definition two_pi : R := 2 * PI.

(** utils.py:1240-1260 [to_sinebow], one point; the array version is [map]. *)
Definition sinebow_f (x : R) : R := (sin (PI * x)) ^ 2.
Definition sinebow1 (x : R) : list R :=
  let h := np_mod (x / two_pi + 1 / 2) 1 in
  [sinebow_f (3 / 6 - h); sinebow_f (5 / 6 - h); sinebow_f (7 / 6 - h)].
Definition to_sinebow (circle_map : list R) : list (list R) := map sinebow1 circle_map.

(** np.histogram(a, bins): equal-width bins from min to max (width 1 around the value if
    all entries are equal, [0, 1] if there are none), the last bin closed. *)
Definition histogram_range (l : list R) : R * R :=
  match l with
  | [] => (0, 1)
  | x :: r => let lo := fold_left Rmin r x in let hi := fold_left Rmax r x in
              if Reqb lo hi then (lo - 1 / 2, hi + 1 / 2) else (lo, hi)
  end.
Definition histogram_tick (l : list R) (bins i : nat) : R :=
  let (lo, hi) := histogram_range l in lo + INR i * ((hi - lo) / INR bins).
Definition histogram_count (l : list R) (bins i : nat) : nat :=
  length (filter (fun x =>
    Rleb (histogram_tick l bins i) x &&
    (if (i =? bins - 1)%nat then Rleb x (histogram_tick l bins (i + 1))
     else Rltb x (histogram_tick l bins (i + 1)))) l).
Definition np_histogram (l : list R) (bins : nat) : list nat * list R :=
  (map (histogram_count l bins) (seq 0 bins), map (histogram_tick l bins) (seq 0 (bins + 1))).

(** np.argmax of integers: position of the first maximum. *)
Fixpoint argmax_from (best pos i : nat) (l : list nat) : nat :=
  match l with
  | [] => pos
  | x :: r => if (best <? x)%nat then argmax_from x i (S i) r else argmax_from best pos (S i) r
  end.
Definition np_argmax (l : list nat) : res nat :=
  match l with [] => Raise ValueError | x :: r => Ok (argmax_from x 0 1 r) end.

(** utils.py:1262-1283 [center]. *)
Definition center (circle_map : list R) : res (list R) :=
  let bins := 50%nat in
  let (vals, ticks) := np_histogram circle_map bins in
  i <- np_argmax vals ;;
  t <- get IndexError ticks i ;;
  Ok (map (fun x => np_mod ((x - t) + PI) two_pi) circle_map).

(** utils.py:1285-1306 [offset]. *)
Definition offset (circle_map : list R) (off : R) : list R :=
  map (fun x => np_mod (x + off * two_pi) two_pi) circle_map.

(** NaN-propagating scalar product of a real row with a column that may hold NaNs. *)
Definition add_nan (a b : option R) : option R :=
  match a, b with Some x, Some y => Some (x + y) | _, _ => None end.
Definition dot_nan (u : list R) (v : list (option R)) : option R :=
  fold_right add_nan (Some 0)
    (map (fun p => option_map (fun y => fst p * y) (snd p)) (combine u v)).
Definition mod_nan (x : option R) : option R := option_map (fun y => np_mod y two_pi) x.

(** The array passed as [linear_combination_matrix]: two-dimensional (at least one row),
    one-dimensional, or of another shape. *)
Inductive coeffs := Coeffs2 (rows : list (list R)) | Coeffs1 (row : list R) | CoeffsOther.

(** The returned array: two- or one-dimensional. *)
Inductive maps := Maps2 (rows : list (list (option R))) | Maps1 (row : list (option R)).

(** [M @ circle_maps] where [circle_maps] has [n] columns. *)
Definition mat_maps (M : list (list R)) (circle_maps : list (list (option R))) (n : nat)
  : list (list (option R)) :=
  map (fun row => map (fun b => dot_nan row (map (fun cm => nth b cm None) circle_maps)) (seq 0 n)) M.

(** utils.py:1308-1349 [linear_combination].  [circle_maps] is given by its rows, all of
    one length; without rows it is one-dimensional and rejected. *)
Definition linear_combination (circle_maps : list (list (option R))) (m : coeffs)
  : res maps :=
  guard negb (length circle_maps =? 0)%nat else AssertionError ;;
  let n := length (hd [] circle_maps) in
  match m with
  | Coeffs2 rows =>
      guard (length circle_maps =? length (hd [] rows))%nat else AssertionError ;;
      Ok (Maps2 (map (map mod_nan) (mat_maps rows circle_maps n)))
  | Coeffs1 row =>
      guard (length circle_maps =? length row)%nat else AssertionError ;;
      Ok (Maps1 (hd [] (map (map mod_nan) (mat_maps [row] circle_maps n))))
  | CoeffsOther => Raise AssertionError
  end.

(** utils.py:1351-1394 [levelset_coloring]. *)
Definition sigmoid (k x : R) : R := let x := (x - 1 / 2) * 2 in 1 / (1 + exp (- x / k)).
Definition triangle (y : R) : R := if Rltb y 1 then y else 2 - y.
Definition levelset_coloring (circle_map : list R) (n_levelsets : pyval) (smoothing : R)
  : res (list R) :=
  match n_levelsets with
  | PyOther => Raise AssertionError
  | PyInt n =>
      guard (0 <? n)%Z else AssertionError ;;
      let n_levelsets := IZR (n * 2) in
      let colors := map (fun x => x / two_pi) circle_map in
      if Reqb smoothing 0 then
        Ok (map (fun c => np_mod (IZR (Int_part (c * n_levelsets))) 2) colors)
      else
        Ok (map (fun c => sigmoid smoothing (triangle (np_mod (c * n_levelsets) 2))) colors)
  end.
