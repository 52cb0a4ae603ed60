(** PlotModel.v -- dreimac/plotting_utils.py: PlotUtils.  A function is modelled by what it asks
    matplotlib to draw, in order, and by how it ends; what matplotlib does with the requests
    (rasterising, downsampling of wireframes, checks of colour arguments) is not modelled.
    Floating point numbers are read as exact reals; [None] stands for NaN. *)
From Coq Require Import List ZArith Reals Lia Lra.
From Verif Require Import Base RealBase RealSum LLLModel EMModel MapUtilsModel GeometryModel ExamplesModel.
Import ListNotations.
Local Open Scope R_scope.

(** Colours of a scatter plot: the argument as given, or entries of the colour map. *)
Inductive colours : Type :=
| Given (f : list R)
| Table (entries : list (option Z)).

(** Requests to matplotlib. *)
Inductive request : Type :=
| Image (patch : list (list R)) (x y vmin vmax : R)          (* OffsetImage, set_clim, AnnotationBbox, add_artist *)
| DataLim (X : list (list R))                                (* update_datalim, autoscale *)
| Line (points : list (list R))                              (* ax.plot *)
| Arrow (x y dx dy : R)                                      (* ax.arrow *)
| Window (x0 x1 y0 y1 : R)                                   (* set_xlim, set_ylim *)
| Scatter (points : list (list R)) (c : colours)             (* scatter *)
| Wireframe (grid : list (list (list R)))                    (* plot_wireframe *)
| Warning.                                                   (* warnings.warn *)

(** What was requested and how the function ended. *)
Definition drawing : Type := (list request * res unit)%type.
Definition and_then (d : drawing) (k : drawing) : drawing :=
  match snd d with Ok _ => (fst d ++ fst k, snd k) | Raise _ => d end.
Definition ask (r : request) : drawing := ([r], Ok tt).
Definition nothing : drawing := ([], Ok tt).
Definition fails (e : exn) : drawing := ([], Raise e).

(** np.reshape(v, (dim, dim)): the number of entries must be dim * dim; negative sizes are refused. *)
Definition reshape_square (dim : Z) (v : list R) : res (list (list R)) :=
  guard ((0 <=? dim)%Z && (Z.of_nat (length v) =? dim * dim)%Z)%bool else ValueError ;;
  Ok (mk2 (Z.to_nat dim) (Z.to_nat dim) (fun i j => nth (i * Z.to_nat dim + j) v 0)).

(** The body of the loop of PlotUtils.imscatter, plotting_utils.py:36-42. *)
Definition imscatter_step (X P : list (list R)) (dim : Z) (lo hi : R) (i : nat) : drawing :=
  match reshape_square dim (nth i P []) with
  | Raise e => fails e
  | Ok patch =>
      match nth_error X i with
      | None => fails IndexError
      | Some [x; y] => ask (Image patch x y lo hi)
      | Some _ => fails ValueError
      end
  end.
Fixpoint imscatter_loop (X P : list (list R)) (dim : Z) (lo hi : R) (is : list nat) : drawing :=
  match is with
  | [] => nothing
  | i :: is => and_then (imscatter_step X P dim lo hi i) (imscatter_loop X P dim lo hi is)
  end.
(** PlotUtils.imscatter, plotting_utils.py:13-47; ticks and the returned axes are not modelled. *)
Definition imscatter (X P : list (list R)) (dim : Z) : drawing :=
  match np_min (concat P), np_max (concat P) with
  | Ok lo, Ok hi => and_then (imscatter_loop X P dim lo hi (seq 0 (length P))) (ask (DataLim X))
  | _, _ => fails ValueError
  end.

(** int(np.sqrt(n)) and int(np.ceil(np.sqrt(n))), plotting_utils.py:62-63. *)
Definition int_sqrt (n : nat) : Z := Int_part (sqrt (INR n)).
Definition ceil_sqrt (n : nat) : Z := (- Int_part (- sqrt (INR n)))%Z.
(** x, y = np.meshgrid(ex, ex); x.flatten() and y.flatten(), plotting_utils.py:64-68. *)
Definition meshgrid_x (g : nat) : list R := concat (mk2 g g (fun i j => INR j)).
Definition meshgrid_y (g : nat) : list R := concat (mk2 g g (fun i j => INR i)).
(** PlotUtils.plot_patches, plotting_utils.py:49-69; [m] is P.shape[1]. *)
Definition plot_patches (m : nat) (P : list (list R)) : drawing :=
  let n := length P in
  let g := Z.to_nat (ceil_sqrt n) in
  let xs := firstn n (meshgrid_x g) in
  let ys := firstn n (meshgrid_y g) in
  imscatter (mk1 n (fun i => [nth i xs 0; nth i ys 0])) P (int_sqrt m).

(** np.linspace(0, 2 * np.pi, 200), np.cos(t) + cx, np.sin(t), plotting_utils.py:85-86, 120-122, 305-306. *)
Definition drawn_circle (cx : R) : list (list R) :=
  map (fun t => [cos t + cx; sin t]) (linspace 0 (2 * PI) 200).
(** PlotUtils.plot_proj_boundary, plotting_utils.py:71-103. *)
Definition plot_proj_boundary : drawing :=
  ([Line (drawn_circle 0); Arrow (- (1 / 10)) 1 (1 / 1000) 0; Arrow (1 / 10) (-1) (- (1 / 1000)) 0], Ok tt).
(** PlotUtils.plot_2sphere_boundary, plotting_utils.py:105-203. *)
Definition plot_2sphere_boundary : drawing :=
  let o := 5 / 2 in
  ([Line (drawn_circle 0); Line (drawn_circle o);
    Arrow 0 (9 / 10) 0 (1 / 1000); Arrow o (11 / 10) 0 (- (1 / 1000));
    Arrow 0 (- (9 / 10)) 0 (- (1 / 1000)); Arrow o (- (11 / 10)) 0 (1 / 1000);
    Arrow (9 / 10) 0 (1 / 1000) 0; Arrow (o + 11 / 10) 0 (- (1 / 1000)) 0;
    Arrow (- (9 / 10)) 0 (- (1 / 1000)) 0; Arrow (o - 11 / 10) 0 (1 / 1000) 0], Ok tt).

(** np.mgrid[0 : 2 * np.pi : a * 1j, 0 : np.pi : b * 1j] and the three arrays computed from it,
    plotting_utils.py:228-231, 379-383: int(abs(a * 1j)) values, the end included. *)
Definition sphere_grid (a b : Z) : list (list (list R)) :=
  map (fun u => map (fun v => [cos u * sin v; sin u * sin v; cos v]) (linspace 0 PI (Z.abs_nat b)))
      (linspace 0 (2 * PI) (Z.abs_nat a)).
(** PlotUtils.plot_3sphere_mesh, plotting_utils.py:205-233. *)
Definition plot_3sphere_mesh (n_parallels n_meridians : Z) : drawing :=
  ask (Wireframe (sphere_grid n_meridians n_parallels)).

(** PlotUtils.set_axes_equal, plotting_utils.py:235-267: the limits of the three axes before and after. *)
Definition set_axes_equal (x y z : R * R) : (R * R) * (R * R) * (R * R) :=
  let x_range := Rabs (snd x - fst x) in
  let x_middle := (fst x + snd x) / 2 in
  let y_range := Rabs (snd y - fst y) in
  let y_middle := (fst y + snd y) / 2 in
  let z_range := Rabs (snd z - fst z) in
  let z_middle := (fst z + snd z) / 2 in
  let plot_radius := 1 / 2 * Rmax (Rmax x_range y_range) z_range in
  ((x_middle - plot_radius, x_middle + plot_radius),
   (y_middle - plot_radius, y_middle + plot_radius),
   (z_middle - plot_radius, z_middle + plot_radius)).

(** The columns of [S] handed to scatter: S[:, 0], ..., S[:, k-1]; [m] is S.shape[1]. *)
Definition scatter (m k : nat) (S : list (list R)) (c : colours) : drawing :=
  if (k <=? m)%nat then ask (Scatter (map (firstn k) S) c) else fails IndexError.
(** PlotUtils.plot_rp2_stereo, plotting_utils.py:269-346; [f] is the flattened colour argument.  Both
    branches of 343-346 pass [f] on as the colour argument. *)
Definition plot_rp2_stereo (m : nat) (S : list (list R)) (f : list R) : drawing :=
  and_then (if (m =? 2)%nat then nothing else ask Warning)
  (and_then ([Line (drawn_circle 0); Arrow (- (1 / 10)) 1 (1 / 1000) 0; Arrow (1 / 10) (-1) (- (1 / 1000)) 0;
              Window (- (11 / 10)) (11 / 10) (- (11 / 10)) (11 / 10)], Ok tt)
  (if (length S <? length f)%nat then scatter m 2 S (Given f) else scatter m 2 S (Given f))).

(** The colour indices of PlotUtils.plot_rp3_stereo, plotting_utils.py:373-375; a NaN has no index. *)
Definition colour_indices (f : list R) : res (list (option Z)) :=
  lo <- np_min f ;;
  let C := map (fun y => y - lo) f in
  hi <- np_max C ;;
  Ok (map (fun y => if Reqb hi 0 then None else Some (rint (y / hi * 255))) C).
(** PlotUtils.plot_rp3_stereo, plotting_utils.py:348-384, for one-dimensional [f] when its size does
    not exceed the number of points. *)
Definition plot_rp3_stereo (m : nat) (S : list (list R)) (f : list R) (draw_sphere : bool) : drawing :=
  and_then (if (m =? 3)%nat then nothing else ask Warning)
  (and_then
    (if (length S <? length f)%nat then scatter m 3 S (Given f)
     else match colour_indices f with
          | Raise e => fails e
          | Ok idx => scatter m 3 S (Table idx)
          end)
    (if draw_sphere then ask (Wireframe (sphere_grid 20 20)) else nothing)).
