(** PropPlot.v -- C72, C73, C83, C84: the plotting utilities. *)
From Coq Require Import List ZArith Reals Lia Lra Psatz.
From Verif Require Import Base BaseProofs RealBase RealSum SpecEM EMModel LLLModel SpecLLL LLLProofs SpecMapUtils MapUtilsModel MapUtilsProofs GeometryModel SpecGeometry GeometryProofs ExamplesModel SpecExamples ExamplesProofs PlotModel SpecPlot PlotProofs.
From Verif Require PropMapUtils.
Import ListNotations.
Local Open Scope R_scope.

(** * C72: patches *)

(** imscatter draws every patch, in order, at its position and on one common grey scale; when
    positions are missing it draws those it has before it fails. *)
Theorem C72_imscatter : forall X P d, P <> [] -> (1 <= d)%nat ->
  Forall (fun v => length v = (d * d)%nat) P -> Forall (fun p => length p = 2%nat) X ->
  exists lo hi images rest e, extremes (concat P) lo hi /\
    imscatter X P (Z.of_nat d) = (images ++ rest, e) /\ length images = Nat.min (length P) (length X) /\
    (forall k, (k < length images)%nat -> exists patch x y, picture d (nth k P []) patch /\ nth k X [] = [x; y] /\
       nth k images Warning = Image patch x y lo hi) /\
    ((length P <= length X)%nat -> rest = [DataLim X] /\ e = Ok tt) /\
    ((length X < length P)%nat -> rest = [] /\ e = Raise IndexError).
Proof.
  intros X P d HP Hd HPl HXl.
  assert (Hc : concat P <> []).
  { destruct P as [|v P]; [congruence|]. apply Forall_inv in HPl. destruct v as [|a v]; [cbn in HPl; nia|discriminate]. }
  destruct (extremes_of _ Hc) as [lo [hi [E1 [E2 HE]]]].
  assert (HN : forall k, (k < length P)%nat -> Z.of_nat (length (nth k P [])) = (Z.of_nat d * Z.of_nat d)%Z).
  { intros k Hk. rewrite Forall_forall in HPl. rewrite HPl by (apply nth_In; exact Hk). lia. }
  assert (HX2 : forall k, (k < length X)%nat -> exists x y, nth k X [] = [x; y]).
  { intros k Hk. rewrite Forall_forall in HXl. pose proof (HXl _ (nth_In X [] Hk)) as H2.
    destruct (nth k X []) as [|x [|y [|z r]]]; cbn in H2; try lia. eauto. }
  unfold imscatter. rewrite E1, E2.
  destruct (Nat.le_gt_cases (length P) (length X)) as [L|L].
  - destruct (imscatter_loop_ok X P (Z.of_nat d) lo hi (Nat2Z.is_nonneg d) (length P) 0) as [images [EI [LI NI]]]; [lia|lia| |].
    { intros k Hk. split; [apply HN; lia|apply HX2; lia]. }
    exists lo, hi, images, [DataLim X], (Ok tt). split; [exact HE|]. rewrite EI. split; [reflexivity|]. split; [lia|].
    split; [|split; [auto|lia]]. intros k Hk. rewrite LI in Hk. destruct (NI k Hk) as [p [x [y H]]]. rewrite Nat2Z.id in H. exists p, x, y. exact H.
  - destruct (imscatter_loop_ok X P (Z.of_nat d) lo hi (Nat2Z.is_nonneg d) (length X) 0) as [images [EI [LI NI]]]; [lia|lia| |].
    { intros k Hk. split; [apply HN; lia|apply HX2; lia]. }
    exists lo, hi, images, [], (Raise IndexError). split; [exact HE|].
    replace (length P) with (length X + S (length P - length X - 1))%nat at 1 by lia. rewrite seq_app, loop_app, EI.
    change (0 + length X)%nat with (length X). cbn [seq imscatter_loop]. unfold imscatter_step at 1.
    destruct (reshape_ok (Z.of_nat d) (nth (length X) P []) (Nat2Z.is_nonneg d) (HN (length X) L)) as [patch [-> _]].
    replace (nth_error X (length X)) with (@None (list R)) by (symmetry; apply nth_error_None; lia).
    split; [reflexivity|]. split; [lia|]. split; [|split; [lia|auto]].
    intros k Hk. rewrite LI in Hk. destruct (NI k Hk) as [p [x [y H]]]. rewrite Nat2Z.id in H. exists p, x, y. exact H.
Qed.
Print Assumptions C72_imscatter.

(** plot_patches lays N patches out row by row on the smallest square grid that has room. *)
Theorem C72_grid : forall P d, P <> [] -> (1 <= d)%nat -> Forall (fun v => length v = (d * d)%nat) P ->
  exists g lo hi images X, least_side (length P) g /\ extremes (concat P) lo hi /\
    plot_patches (d * d) P = (images ++ [DataLim X], Ok tt) /\ length images = length P /\ length X = length P /\
    forall k, (k < length P)%nat -> exists patch, picture d (nth k P []) patch /\
      nth k images Warning = Image patch (INR (k mod g)) (INR (k / g)) lo hi /\ nth k X [] = [INR (k mod g); INR (k / g)] /\
      (k mod g < g)%nat /\ (k / g < g)%nat /\
      (forall k', (k' < length P)%nat -> nth k' X [] = nth k X [] -> k' = k).
Proof.
  intros P d HP Hd HPl. unfold plot_patches. rewrite int_sqrt_square. set (n := length P).
  pose proof (ceil_sqrt_spec n) as Hg. set (g := Z.to_nat (ceil_sqrt n)) in *.
  set (X := mk1 n (fun i => [nth i (firstn n (meshgrid_x g)) 0; nth i (firstn n (meshgrid_y g)) 0])).
  assert (HX : forall k, (k < n)%nat -> nth k X [] = [INR (k mod g); INR (k / g)]).
  { intros k Hk. destruct Hg as [Hg _]. unfold X. rewrite mk1_nth by exact Hk. rewrite !nth_firstn_lt by exact Hk.
    unfold meshgrid_x, meshgrid_y. rewrite !nth_meshgrid by lia. reflexivity. }
  destruct (C72_imscatter X P d HP Hd HPl) as [lo [hi [images [rest [e [HE [EI [LI [NI [Hr _]]]]]]]]]].
  { apply mk1_Forall. reflexivity. }
  assert (LX : length X = n) by apply mk1_length. fold n in LI, Hr. rewrite LX in LI, Hr. destruct (Hr (le_n _)) as [-> ->]. rewrite Nat.min_id in LI.
  assert (Hg0 : g <> 0%nat) by (destruct Hg as [Hg _]; intros E; rewrite E in Hg; destruct P; [congruence|unfold n in Hg; cbn in Hg; lia]).
  exists g, lo, hi, images, X. split; [exact Hg|]. split; [exact HE|]. split; [exact EI|]. split; [exact LI|]. split; [exact LX|].
  intros k Hk. destruct (NI k ltac:(lia)) as [p [x [y [Hp [Hxy Hi]]]]]. rewrite (HX k Hk) in Hxy. injection Hxy as <- <-.
  exists p. split; [exact Hp|]. split; [exact Hi|]. split; [apply HX; exact Hk|]. split; [apply Nat.mod_upper_bound; exact Hg0|].
  split; [apply Nat.div_lt_upper_bound; [exact Hg0|destruct Hg; lia]|].
  intros k' Hk' E. rewrite (HX k Hk), (HX k' Hk') in E. injection E as E1 E2. apply INR_eq in E1. apply INR_eq in E2.
  rewrite (Nat.div_mod k' g Hg0), (Nat.div_mod k g Hg0), E1, E2. reflexivity.
Qed.
Print Assumptions C72_grid.

(** Without patches, with empty patches, or with a number of pixels that is not a square, nothing is
    drawn and ValueError is raised. *)
Theorem C72_refused : forall P m, Forall (fun v => length v = m) P ->
  P = [] \/ m = 0%nat \/ (forall d, m <> (d * d)%nat) -> plot_patches m P = ([], Raise ValueError).
Proof.
  intros P m HP H. unfold plot_patches, imscatter.
  destruct (np_min (concat P)) as [lo|] eqn:E1; [|reflexivity]. destruct (np_max (concat P)) as [hi|] eqn:E2; [|reflexivity].
  destruct P as [|v P]; [discriminate|]. destruct H as [H|[H|H]]; [discriminate| |].
  - exfalso. subst m. assert (L : length (concat (v :: P)) = (length (v :: P) * 0)%nat) by (apply concat_length; exact HP).
    rewrite Nat.mul_0_r in L. destruct (concat (v :: P)); [discriminate E1|discriminate L].
  - cbn [length seq imscatter_loop]. unfold imscatter_step at 1. cbn [nth]. rewrite reshape_bad; [reflexivity|].
    right. apply Forall_inv in HP. destruct (int_sqrt_spec m) as [d [-> Hd]]. rewrite HP. intros E. apply (H d). lia.
Qed.
Print Assumptions C72_refused.

Example C72_met : exists P : list (list R), P <> [] /\ Forall (fun v => length v = (2 * 2)%nat) P /\ length P = 5%nat /\
  least_side 5 3 /\ (forall d, 8 <> d * d)%nat.
Proof.
  exists (repeat [0; 1; 1; 0] 5). split; [discriminate|]. split; [cbn; repeat constructor|]. split; [reflexivity|]. split.
  - split; [lia|]. intros h Hh. destruct h as [|[|[|h]]]; lia.
  - intros [|[|[|d]]] E; lia.
Qed.

(** * C73: equal axes *)

(** All three axes keep their middle, get the largest extent of the three, show everything they
    showed, and increase. *)
Theorem C73_equal : forall x y z x' y' z', set_axes_equal x y z = (x', y', z') ->
  extent x' = extent y' /\ extent y' = extent z' /\
  (extent x <= extent x' /\ extent y <= extent x' /\ extent z <= extent x') /\
  (extent x' = extent x \/ extent x' = extent y \/ extent x' = extent z) /\
  (same_middle x x' /\ same_middle y y' /\ same_middle z z') /\
  (forall t, (between x t -> between x' t) /\ (between y t -> between y' t) /\ (between z t -> between z' t)) /\
  (fst x' <= snd x' /\ fst y' <= snd y' /\ fst z' <= snd z').
Proof.
  intros [x0 x1] [y0 y1] [z0 z1] x' y' z'. unfold set_axes_equal. cbn [fst snd]. cbv zeta.
  set (m := Rmax (Rmax (Rabs (x1 - x0)) (Rabs (y1 - y0))) (Rabs (z1 - z0))). intros H. injection H as <- <- <-.
  assert (Hx : Rabs (x1 - x0) <= m) by (unfold m; eapply Rle_trans; [apply Rmax_l|apply Rmax_l]).
  assert (Hy : Rabs (y1 - y0) <= m) by (unfold m; eapply Rle_trans; [apply Rmax_r|apply Rmax_l]).
  assert (Hz : Rabs (z1 - z0) <= m) by (unfold m; apply Rmax_r).
  assert (Hm : m = Rabs (x1 - x0) \/ m = Rabs (y1 - y0) \/ m = Rabs (z1 - z0)).
  { unfold m. unfold Rmax. destruct (Rle_dec _ _); [right; right; reflexivity|]. destruct (Rle_dec _ _); [right; left|left]; reflexivity. }
  clearbody m. pose proof (Rabs_pos (x1 - x0)) as H0.
  assert (E : forall c, Rabs (c + 1 / 2 * m - (c - 1 / 2 * m)) = m).
  { intros c. replace (c + 1 / 2 * m - (c - 1 / 2 * m)) with m by field. apply Rabs_pos_eq. lra. }
  unfold extent, same_middle, between. cbn [fst snd]. rewrite !E.
  split; [reflexivity|]. split; [reflexivity|]. split; [auto|]. split; [exact Hm|]. split; [split; [|split]; lra|].
  split; [|split; [|split]; lra].
  assert (I : forall a b t, Rabs (b - a) <= m -> a <= t <= b \/ b <= t <= a -> (a + b) / 2 - 1 / 2 * m <= t <= (a + b) / 2 + 1 / 2 * m).
  { intros a b t Hl Ht. apply Rabs_between in Hl. lra. }
  intros t. split; [|split]; intros Ht; left; apply I; assumption.
Qed.
Print Assumptions C73_equal.

(** Done twice it changes nothing; increasing axes of equal extent are left alone. *)
Theorem C73_fixed : forall x y z, fst x <= snd x -> fst y <= snd y -> fst z <= snd z ->
  extent x = extent y -> extent y = extent z -> set_axes_equal x y z = (x, y, z).
Proof.
  intros [x0 x1] [y0 y1] [z0 z1]. unfold extent, set_axes_equal. cbn [fst snd]. intros Hx Hy Hz E1 E2.
  rewrite !Rabs_pos_eq in * by lra. cbv zeta. rewrite <- E2, <- E1. replace (Rmax (x1 - x0) (x1 - x0)) with (x1 - x0) by (symmetry; apply Rmax_left; lra). rewrite (Rmax_left (x1 - x0) (x1 - x0)) by lra.
  repeat apply f_equal2; lra.
Qed.
Print Assumptions C73_fixed.
Theorem C73_idempotent : forall x y z x' y' z', set_axes_equal x y z = (x', y', z') -> set_axes_equal x' y' z' = (x', y', z').
Proof.
  intros x y z x' y' z' H. destruct (C73_equal _ _ _ _ _ _ H) as [H1 [H2 [_ [_ [_ [_ [H3 [H4 H5]]]]]]]]. apply C73_fixed; assumption.
Qed.
Print Assumptions C73_idempotent.

(** The direction of an inverted axis is lost. *)
Theorem C73_inverted_refuted : exists x y z x' y' z', set_axes_equal x y z = (x', y', z') /\ snd x < fst x /\ fst x' < snd x'.
Proof.
  exists (1, 0), (0, 1), (0, 1). eexists. eexists. eexists. split; [reflexivity|]. cbn [fst snd].
  replace (Rabs (0 - 1)) with 1 by (rewrite Rabs_left1; lra). replace (Rabs (1 - 0)) with 1 by (rewrite Rabs_pos_eq; lra).
  rewrite (Rmax_left 1 1) by lra. rewrite Rmax_left by lra. lra.
Qed.
Print Assumptions C73_inverted_refuted.

Example C73_met : exists x' y' z', set_axes_equal (0, 1) (2, 6) (-1, 1) = (x', y', z') /\ extent (2, 6) = 4 /\ extent (0, 1) = 1.
Proof.
  eexists. eexists. eexists. split; [reflexivity|]. unfold extent. cbn [fst snd]. rewrite !Rabs_pos_eq; lra.
Qed.

(** * C83: colours of projective plots *)

Lemma sphere_grid_unit a b : Forall (Forall (fun p => unit_vector 3 p)) (sphere_grid a b).
Proof.
  apply Forall_forall. intros row Hr. apply in_map_iff in Hr. destruct Hr as [u [<- _]].
  apply Forall_forall. intros p Hp. apply in_map_iff in Hp. destruct Hp as [v [<- _]]. split; [reflexivity|].
  unfold inner. cbn [sumn nth]. pose proof (sin2_cos2 u) as A. pose proof (sin2_cos2 v) as B. unfold Rsqr in A, B.
  transitivity ((sin u * sin u + cos u * cos u) * (sin v * sin v) + cos v * cos v); [ring|]. rewrite A. lra.
Qed.
Lemma sphere_part (ds : bool) : exists rest, (if ds then ask (Wireframe (sphere_grid 20 20)) else nothing) = (rest, Ok tt) /\ only_sphere ds rest.
Proof.
  destruct ds; [|exists (@nil request); split; reflexivity]. eexists. split; [reflexivity|]. eexists. split; [reflexivity|]. apply sphere_grid_unit.
Qed.
Lemma firstn_rows k (S : list (list R)) : Forall (fun p => length p = k) S -> map (firstn k) S = S.
Proof. induction 1 as [|p S Hp _ IH]; [reflexivity|]. cbn [map]. rewrite IH, <- Hp, firstn_all. reflexivity. Qed.

(** A non-constant function: the values are spread linearly over the 256 entries of the colour map,
    the least value gets the first and the greatest the last. *)
Theorem C83_scale : forall S f lo hi ds, Forall (fun p => length p = 3%nat) S -> (length f <= length S)%nat ->
  extremes f lo hi -> lo < hi ->
  exists idx rest, plot_rp3_stereo 3 S f ds = (Scatter S (Table (map Some idx)) :: rest, Ok tt) /\ only_sphere ds rest /\
    length idx = length f /\
    (forall k, (k < length f)%nat -> (0 <= nth k idx 0 <= 255)%Z /\ nearest (255 * ((nth k f 0 - lo) / (hi - lo))) (nth k idx 0%Z) /\
       (nth k f 0 = lo -> nth k idx 0%Z = 0%Z) /\ (nth k f 0 = hi -> nth k idx 0%Z = 255%Z)) /\
    (forall k k', (k < length f)%nat -> (k' < length f)%nat -> nth k f 0 <= nth k' f 0 -> (nth k idx 0 <= nth k' idx 0)%Z).
Proof.
  intros S f lo hi ds HS Hl HE Hlt.
  set (idx := map (fun y => rint ((y - lo) / (hi - lo) * 255)) f).
  assert (EI : colour_indices f = Ok (map Some idx)).
  { unfold colour_indices. destruct (extremes_of f) as [lo' [hi' [E1 [_ [I1 [_ F]]]]]]; [intros ->; destruct HE as [[] _]|].
    destruct HE as [J1 [J2 G]]. rewrite Forall_forall in F, G.
    assert (lo' = lo) by (pose proof (F _ J1); pose proof (G _ I1); lra). subst lo'. rewrite E1. cbn [bind].
    destruct (extremes_of (map (fun y => y - lo) f)) as [a [b [_ [E2 [_ [I2 F2]]]]]]; [destruct f; [destruct J1|discriminate]|].
    rewrite E2. cbn [bind]. apply in_map_iff in I2. destruct I2 as [y [<- Hy]]. rewrite Forall_forall in F2.
    assert (y = hi). { pose proof (F2 (hi - lo) (in_map (fun y => y - lo) _ _ J2)). pose proof (G _ Hy). lra. } subst y.
    assert (Z : Reqb (hi - lo) 0 = false) by (apply Reqb_false; lra). rewrite Z. unfold idx. rewrite !map_map. reflexivity. }
  destruct (sphere_part ds) as [rest [ER Hrest]]. exists idx, rest.
  assert (Hn : forall k, (k < length f)%nat -> nth k idx 0%Z = rint ((nth k f 0 - lo) / (hi - lo) * 255)).
  { intros k Hk. unfold idx. rewrite (nth_indep _ 0%Z (rint ((0 - lo) / (hi - lo) * 255))) by (rewrite map_length; exact Hk).
    apply (map_nth (fun y => rint ((y - lo) / (hi - lo) * 255))). }
  split; [|split; [exact Hrest|split; [apply map_length|split]]].
  - unfold plot_rp3_stereo. rewrite Nat.eqb_refl, EI, ER. replace (length S <? length f)%nat with false by (symmetry; apply Nat.ltb_ge; lia).
    unfold scatter. rewrite Nat.leb_refl, (firstn_rows _ _ HS). reflexivity.
  - intros k Hk. rewrite (Hn k Hk). destruct HE as [_ [_ G]]. rewrite Forall_forall in G. pose proof (G _ (nth_In f 0 Hk)) as Hy.
    set (y := nth k f 0) in *. assert (Hi : 0 < / (hi - lo)) by (apply Rinv_0_lt_compat; lra).
    assert (B : 0 <= (y - lo) / (hi - lo) * 255 <= 255).
    { unfold Rdiv. assert ((hi - lo) * / (hi - lo) = 1) by (apply Rinv_r; lra). split; [apply Rmult_le_pos; [apply Rmult_le_pos; lra|lra]|]. nra. }
    split; [split|split; [|split]].
    + apply (Z.le_trans _ (rint 0)); [rewrite (rint_IZR 0); lia|apply rint_mono; lra].
    + apply (Z.le_trans _ (rint 255)); [apply rint_mono; lra|rewrite (rint_IZR 255); lia].
    + unfold nearest. rewrite (Rmult_comm 255). apply rint_near.
    + intros ->. replace ((lo - lo) / (hi - lo) * 255) with 0 by (field; lra). apply rint_IZR.
    + intros ->. replace ((hi - lo) / (hi - lo) * 255) with 255 by (field; lra). apply rint_IZR.
  - intros k k' Hk Hk' H. rewrite !Hn by assumption. apply rint_mono. assert (Hi : 0 < / (hi - lo)) by (apply Rinv_0_lt_compat; lra).
    unfold Rdiv. apply Rmult_le_compat_r; [lra|]. apply Rmult_le_compat_r; lra.
Qed.
Print Assumptions C83_scale.

(** A constant function has no colours (0/0): every entry is NaN.  An empty one is refused, before
    anything is drawn.  More numbers than points are taken as colours. *)
Theorem C83_other : forall S f ds, Forall (fun p => length p = 3%nat) S ->
  (f <> [] -> (length f <= length S)%nat -> (forall y y', In y f -> In y' f -> y = y') ->
     exists rest, plot_rp3_stereo 3 S f ds = (Scatter S (Table (map (fun _ => None) f)) :: rest, Ok tt) /\ only_sphere ds rest) /\
  (f = [] -> plot_rp3_stereo 3 S f ds = ([], Raise ValueError)) /\
  ((length S < length f)%nat -> exists rest, plot_rp3_stereo 3 S f ds = (Scatter S (Given f) :: rest, Ok tt) /\ only_sphere ds rest).
Proof.
  intros S f ds HS. destruct (sphere_part ds) as [rest [ER Hrest]]. unfold plot_rp3_stereo. rewrite Nat.eqb_refl, ER. unfold scatter. rewrite Nat.leb_refl, (firstn_rows _ _ HS).
  split; [|split].
  - intros Hf Hl Hc. replace (length S <? length f)%nat with false by (symmetry; apply Nat.ltb_ge; lia). exists rest. split; [|exact Hrest].
    unfold colour_indices. destruct (extremes_of f Hf) as [lo [hi [E1 [_ [I1 _]]]]]. rewrite E1. cbn [bind].
    destruct (extremes_of (map (fun y => y - lo) f)) as [a [b [_ [E2 [_ [I2 _]]]]]]; [destruct f; [congruence|discriminate]|].
    rewrite E2. cbn [bind]. apply in_map_iff in I2. destruct I2 as [y [<- Hy]]. rewrite (Hc y lo Hy I1).
    assert (Z : Reqb (lo - lo) 0 = true) by (apply Reqb_true; ring). rewrite Z, map_map. reflexivity.
  - intros ->. replace (length S <? length [])%nat with false by (symmetry; apply Nat.ltb_ge; cbn; lia). reflexivity.
  - intros Hl. replace (length S <? length f)%nat with true by (symmetry; apply Nat.ltb_lt; lia). exists rest. split; [reflexivity|exact Hrest].
Qed.
Print Assumptions C83_other.

(** Points with another number of coordinates: a warning; the first three are drawn if there are
    that many, and IndexError otherwise. *)
Theorem C83_columns : forall m S f ds, m <> 3%nat -> Forall (fun p => length p = m) S -> f <> [] ->
  ((3 < m)%nat -> exists c rest, plot_rp3_stereo m S f ds = (Warning :: Scatter (map (firstn 3) S) c :: rest, Ok tt) /\ only_sphere ds rest) /\
  ((m < 3)%nat -> plot_rp3_stereo m S f ds = ([Warning], Raise IndexError)).
Proof.
  intros m S f ds Hm HS Hf. unfold plot_rp3_stereo. apply Nat.eqb_neq in Hm. rewrite Hm. destruct (sphere_part ds) as [rest [-> Hrest]].
  assert (EC : exists idx, colour_indices f = Ok idx).
  { unfold colour_indices. destruct (extremes_of f Hf) as [lo [hi [-> _]]]. cbn [bind].
    destruct (extremes_of (map (fun y => y - lo) f)) as [a [b [_ [-> _]]]]; [destruct f; [congruence|discriminate]|]. cbn [bind]. eauto. }
  destruct EC as [idx ->]. unfold scatter. split; intros H.
  - replace (3 <=? m)%nat with true by (symmetry; apply Nat.leb_le; lia).
    destruct (length S <? length f)%nat; eexists; exists rest; split; try reflexivity; exact Hrest.
  - replace (3 <=? m)%nat with false by (symmetry; apply Nat.leb_gt; lia). destruct (length S <? length f)%nat; reflexivity.
Qed.
Print Assumptions C83_columns.

Example C83_met : exists f, extremes f 1 3 /\ 1 < 3 /\ length f = 3%nat /\ nearest (255 * ((2 - 1) / (3 - 1))) 128.
Proof.
  exists [1; 2; 3]. split; [|split; [lra|split; [reflexivity|]]].
  - split; [left; reflexivity|]. split; [right; right; left; reflexivity|]. repeat constructor; lra.
  - unfold nearest. rewrite Rabs_left1; lra.
Qed.

(** * C84: boundaries *)

(** The boundary of the projective plane: the unit circle, closed, with two arrows that correspond to
    each other under the antipodal map. *)
Theorem C84_projective_boundary : exists pts x y dx dy,
  plot_proj_boundary = ([Line pts; Arrow x y dx dy; Arrow (- x) (- y) (- dx) (- dy)], Ok tt) /\
  closed_polygon 0 pts /\ length pts = 200%nat /\ (0 < dx * y - dy * x)%R.
Proof.
  exists (drawn_circle 0), (- (1 / 10)), 1, (1 / 1000), 0. split.
  - unfold plot_proj_boundary. rewrite Ropp_involutive, Ropp_0. reflexivity.
  - split; [apply drawn_circle_closed|]. split; [unfold drawn_circle; rewrite map_length; apply mk1_length|lra].
Qed.
Print Assumptions C84_projective_boundary.

(** plot_rp2_stereo: the same boundary, a window that contains the unit disk, and the points with
    their colours. *)
Theorem C84_projective_plane : forall S f, Forall (fun p => length p = 2%nat) S ->
  exists pts x y dx dy a b c d,
  plot_rp2_stereo 2 S f = ([Line pts; Arrow x y dx dy; Arrow (- x) (- y) (- dx) (- dy); Window a b c d; Scatter S (Given f)], Ok tt) /\
  closed_polygon 0 pts /\ (forall p q, p ^ 2 + q ^ 2 <= 1 -> a < p < b /\ c < q < d).
Proof.
  intros S f HS. exists (drawn_circle 0), (- (1 / 10)), 1, (1 / 1000), 0, (- (11 / 10)), (11 / 10), (- (11 / 10)), (11 / 10). split.
  - unfold plot_rp2_stereo, scatter. rewrite Nat.eqb_refl, Nat.leb_refl, (firstn_rows _ _ HS), Ropp_involutive, Ropp_0.
    destruct (length S <? length f)%nat; reflexivity.
  - split; [apply drawn_circle_closed|]. intros p q H. split; split; nra.
Qed.
Print Assumptions C84_projective_plane.

(** The two hemispheres: two unit circles, around the origin and around (5/2, 0); each of the four
    arrows that leave the first at a boundary point e comes with one that enters the second at e + (5/2, 0). *)
Theorem C84_hemispheres : exists pts pts' arrows,
  plot_2sphere_boundary = (Line pts :: Line pts' :: arrows, Ok tt) /\
  closed_polygon 0 pts /\ closed_polygon (5 / 2) pts' /\
  exists es, length es = 4%nat /\ NoDup es /\
    arrows = concat (map (fun e => [Arrow (9 / 10 * fst e) (9 / 10 * snd e) (1 / 1000 * fst e) (1 / 1000 * snd e);
                                    Arrow (5 / 2 + 11 / 10 * fst e) (11 / 10 * snd e) (- (1 / 1000) * fst e) (- (1 / 1000) * snd e)]) es) /\
    Forall (fun e => fst e ^ 2 + snd e ^ 2 = 1) es.
Proof.
  exists (drawn_circle 0), (drawn_circle (5 / 2)). eexists. split; [reflexivity|]. split; [apply drawn_circle_closed|]. split; [apply drawn_circle_closed|].
  exists [(0, 1); (0, -1); (1, 0); (-1, 0)]. split; [reflexivity|]. split; [|split].
  - repeat constructor; cbn [In]; intros H;
    repeat match goal with H : _ \/ _ |- _ => destruct H | H : (_, _) = (_, _) |- _ => injection H; intros; clear H end; try contradiction; lra.
  - cbn [map concat app fst snd].
    assert (A : forall x y dx dy x' y' dx' dy', x = x' -> y = y' -> dx = dx' -> dy = dy' -> Arrow x y dx dy = Arrow x' y' dx' dy') by (intros; subst; reflexivity).
    repeat (apply (f_equal2 (@cons request)); [apply A; lra|]). reflexivity.
  - repeat constructor; cbn [fst snd]; lra.
Qed.
Print Assumptions C84_hemispheres.

(** The mesh: n_meridians rows of n_parallels points of the unit sphere; every row runs from the north
    to the south pole along a meridian and the points with the same place in their rows have the same
    height.  The ends are included, so the last meridian is the first one again and the outer
    parallels are the poles. *)
Theorem C84_mesh : forall np nm, (2 <= np)%Z -> (2 <= nm)%Z -> exists grid,
  plot_3sphere_mesh np nm = ([Wireframe grid], Ok tt) /\ matrix (Z.to_nat nm) (Z.to_nat np) grid /\
  Forall (Forall (fun p => unit_vector 3 p)) grid /\
  (forall i, (i < Z.to_nat nm)%nat -> at2 [] grid i 0 = [0; 0; 1] /\ at2 [] grid i (Z.to_nat np - 1) = [0; 0; -1] /\
     exists a b, a ^ 2 + b ^ 2 = 1 /\ forall j, (j < Z.to_nat np)%nat -> exists r, 0 <= r /\ nth 0 (at2 [] grid i j) 0 = r * a /\ nth 1 (at2 [] grid i j) 0 = r * b) /\
  (forall i i' j, (i < Z.to_nat nm)%nat -> (i' < Z.to_nat nm)%nat -> (j < Z.to_nat np)%nat ->
     nth 2 (at2 [] grid i j) 0 = nth 2 (at2 [] grid i' j) 0) /\
  nth (Z.to_nat nm - 1) grid [] = nth 0 grid [].
Proof.
  intros np nm Hp Hm. exists (sphere_grid nm np). split; [reflexivity|].
  unfold sphere_grid. rewrite !Zabs2Nat.abs_nat_nonneg by lia. set (n := Z.to_nat nm). set (m := Z.to_nat np).
  assert (Hn : (2 <= n)%nat) by (unfold n; lia). assert (Hm2 : (2 <= m)%nat) by (unfold m; lia).
  set (us := linspace 0 (2 * PI) n). set (vs := linspace 0 PI m).
  assert (Lu : length us = n) by apply mk1_length. assert (Lv : length vs = m) by apply mk1_length.
  assert (Hrow : forall i, (i < n)%nat -> nth i (map (fun u => map (fun v => [cos u * sin v; sin u * sin v; cos v]) vs) us) [] =
     map (fun v => [cos (nth i us 0) * sin v; sin (nth i us 0) * sin v; cos v]) vs).
  { intros i Hi. rewrite (nth_indep _ [] (map (fun v => [cos 0 * sin v; sin 0 * sin v; cos v]) vs)) by (rewrite map_length, Lu; exact Hi).
    apply (map_nth (fun u => map (fun v => [cos u * sin v; sin u * sin v; cos v]) vs)). }
  assert (Hat : forall i j, (i < n)%nat -> (j < m)%nat -> at2 [] (map (fun u => map (fun v => [cos u * sin v; sin u * sin v; cos v]) vs) us) i j =
     [cos (nth i us 0) * sin (nth j vs 0); sin (nth i us 0) * sin (nth j vs 0); cos (nth j vs 0)]).
  { intros i j Hi Hj. unfold at2. rewrite Hrow by exact Hi.
    rewrite (nth_indep _ [] [cos (nth i us 0) * sin 0; sin (nth i us 0) * sin 0; cos 0]) by (rewrite map_length, Lv; exact Hj).
    apply (map_nth (fun v => [cos (nth i us 0) * sin v; sin (nth i us 0) * sin v; cos v])). }
  destruct (linspace_ends 0 PI m Hm2) as [V0 V1]. destruct (linspace_ends 0 (2 * PI) n Hn) as [U0 U1]. fold vs in V0, V1. fold us in U0, U1.
  split; [split; [rewrite map_length; exact Lu|]|].
  { apply Forall_forall. intros r Hr. apply in_map_iff in Hr. destruct Hr as [u [<- _]]. rewrite map_length. exact Lv. }
  split; [pose proof (sphere_grid_unit nm np) as G; unfold sphere_grid in G; rewrite !Zabs2Nat.abs_nat_nonneg in G by lia; exact G|].
  split; [|split].
  - intros i Hi. rewrite !Hat by lia. rewrite V0, V1, sin_0, cos_0, sin_PI, cos_PI, !Rmult_0_r. split; [reflexivity|]. split; [reflexivity|].
    exists (cos (nth i us 0)), (sin (nth i us 0)). split; [pose proof (sin2_cos2 (nth i us 0)) as S; unfold Rsqr in S; nra|].
    intros j Hj. exists (sin (nth j vs 0)). rewrite Hat by assumption. cbn [nth]. split; [|split; ring].
    apply sin_ge_0.
    + unfold vs, linspace. rewrite mk1_nth by exact Hj. replace (m =? 1)%nat with false by (symmetry; apply Nat.eqb_neq; lia).
      pose proof PI_RGT_0. pose proof (pos_INR j). assert (0 < INR (m - 1)) by (apply lt_0_INR; lia).
      apply Rplus_le_le_0_compat; [lra|]. apply Rmult_le_pos; [assumption|]. apply Rlt_le, Rdiv_lt_0_compat; lra.
    + unfold vs, linspace. rewrite mk1_nth by exact Hj. replace (m =? 1)%nat with false by (symmetry; apply Nat.eqb_neq; lia).
      pose proof PI_RGT_0. assert (Hq : 0 < INR (m - 1)) by (apply lt_0_INR; lia). assert (INR j <= INR (m - 1)) by (apply le_INR; lia).
      apply (Rmult_le_reg_r (INR (m - 1))); [exact Hq|]. replace ((0 + INR j * ((PI - 0) / INR (m - 1))) * INR (m - 1)) with (INR j * PI) by (field; lra). nra.
  - intros i i' j Hi Hi' Hj. rewrite !Hat by assumption. reflexivity.
  - rewrite !Hrow by lia. rewrite U0, U1, cos_2PI, sin_2PI, cos_0, sin_0. reflexivity.
Qed.
Print Assumptions C84_mesh.

(** Hence the documented number of parallels is never drawn: two of the [np] curves are points and of
    the [nm] meridians two coincide. *)
Theorem C84_counts_refuted : forall np nm, (2 <= np)%Z -> (2 <= nm)%Z -> exists grid,
  plot_3sphere_mesh np nm = ([Wireframe grid], Ok tt) /\ length grid = Z.to_nat nm /\ ~ NoDup grid /\
  (forall i i', (i < Z.to_nat nm)%nat -> (i' < Z.to_nat nm)%nat -> at2 [] grid i 0 = at2 [] grid i' 0 /\ at2 [] grid i (Z.to_nat np - 1) = at2 [] grid i' (Z.to_nat np - 1)).
Proof.
  intros np nm Hp Hm. destruct (C84_mesh np nm Hp Hm) as [grid [E [[L _] [_ [Hpole [_ Hlast]]]]]]. exists grid. split; [exact E|]. split; [exact L|]. split.
  - intros ND. rewrite (NoDup_nth grid []) in ND. specialize (ND (Z.to_nat nm - 1)%nat 0%nat ltac:(lia) ltac:(lia) Hlast). lia.
  - intros i i' Hi Hi'. destruct (Hpole i Hi) as [-> [-> _]]. destruct (Hpole i' Hi') as [-> [-> _]]. auto.
Qed.
Print Assumptions C84_counts_refuted.
