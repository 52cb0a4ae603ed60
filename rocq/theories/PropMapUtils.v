(** PropMapUtils.v -- C58-C63: ProjectiveMapUtils and LensMapUtils. *)
From Coq Require Import List ZArith Reals Lia Lra Psatz.
From Verif Require Import Base BaseProofs RealBase RealSum SpecEM SpecCircle CircleModel CircleProofs LLLModel SpecLLL LLLProofs ComplexBase MapUtilsModel SpecMapUtils MapUtilsProofs.
Import ListNotations.
Local Open Scope R_scope.

(** * C58: rotmat *)

(** When a is not within 1e-15 of the line of b, the result is an isometry that sends the
    direction of a to that of b, the direction of b to its mirror image of that of a in the line
    of b (so it is the rotation of the plane of a and b, not a reflection), and fixes every
    vector orthogonal to both. *)
Theorem C58_rotation : forall d a b ah bh, (1 <= d)%nat -> direction d a ah -> target d b bh ->
  1 / 10 ^ 30 <= 1 - inner d ah bh * inner d ah bh ->
  exists M, rotmat a b = Ok (Some M) /\ isometry d M /\ apply d M ah = bh /\
    (forall i, (i < d)%nat -> nth i (apply d M bh) 0 = 2 * inner d ah bh * nth i bh 0 - nth i ah 0) /\
    (forall x, length x = d -> inner d ah x = 0 -> inner d bh x = 0 -> apply d M x = x).
Proof.
  intros d a b ah bh Hd Ha Hb Hoff. pose proof (target_unit d b bh Hd Hb) as Hub.
  fold (off_axis d ah bh) in Hoff. pose proof (off_axis_nonneg d ah bh (proj1 Ha) Hub) as H0.
  rewrite (rotmat_eq d a b ah bh Hd Ha Hb).
  destruct (Rltb _ _) eqn:E.
  { apply Rltb_true in E. apply small_sqrt in E; [lra|exact H0]. }
  assert (Hpos : 0 < off_axis d ah bh) by (assert (0 < 1 / 10 ^ 30) by (apply Rdiv_lt_0_compat; lra); lra).
  eexists. split; [reflexivity|].
  split; [exact (rotation_isometry d ah bh (proj1 Ha) Hub Hpos)|].
  split; [exact (rotation_a d ah bh (proj1 Ha) Hub Hpos)|].
  split; [exact (rotation_b d ah bh (proj1 Ha) Hub Hpos)|exact (rotation_fix d ah bh (proj1 Ha) Hub)].
Qed.
Print Assumptions C58_rotation.

(** Otherwise the identity is returned; if a and b point the same way the two directions are
    within sqrt 2 * 1e-15 of each other, if they point opposite ways the directions are nearly
    antipodal. *)
Theorem C58_near_the_line : forall d a b ah bh, (1 <= d)%nat -> direction d a ah -> target d b bh ->
  1 - inner d ah bh * inner d ah bh < 1 / 10 ^ 30 ->
  exists M, rotmat a b = Ok (Some M) /\ identity_matrix d M /\
    (0 < inner d ah bh -> dist2 d ah bh <= 2 / 10 ^ 30) /\
    (inner d ah bh <= 0 -> dist2 d (negated ah) bh <= 2 / 10 ^ 30 /\ 2 <= dist2 d ah bh).
Proof.
  intros d a b ah bh Hd Ha Hb Hoff. pose proof (target_unit d b bh Hd Hb) as Hub.
  pose proof (inner_abs_le1 d ah bh (proj1 Ha) Hub) as Hle.
  pose proof (off_axis_nonneg d ah bh (proj1 Ha) Hub) as H0.
  rewrite (rotmat_eq d a b ah bh Hd Ha Hb).
  destruct (Rltb _ _) eqn:E.
  2:{ apply Rltb_false in E. exfalso. apply (Rle_not_lt _ _ E). apply small_sqrt; [exact H0|exact Hoff]. }
  exists (eye d). split; [reflexivity|]. split; [split; [apply eye_matrix|intros x Hx; apply apply_eye; exact Hx]|].
  assert (D : dist2 d ah bh = 2 - 2 * inner d ah bh).
  { unfold dist2. rewrite (sumn_ext d _ (fun i => nth i ah 0 * nth i ah 0 - 2 * (nth i ah 0 * nth i bh 0) + nth i bh 0 * nth i bh 0)) by (intros; ring).
    rewrite sumn_add, sumn_sub, sumn_scal. fold (inner d ah ah) (inner d ah bh) (inner d bh bh).
    destruct Ha as [[_ ->] _]. destruct Hub as [_ ->]. ring. }
  assert (D' : dist2 d (negated ah) bh = 2 + 2 * inner d ah bh).
  { unfold dist2. rewrite (sumn_ext d _ (fun i => nth i ah 0 * nth i ah 0 + 2 * (nth i ah 0 * nth i bh 0) + nth i bh 0 * nth i bh 0)).
    - rewrite !sumn_add, sumn_scal. fold (inner d ah ah) (inner d ah bh) (inner d bh bh).
      destruct Ha as [[_ ->] _]. destruct Hub as [_ ->]. ring.
    - intros i Hi. unfold negated. replace 0 with (- 0) at 1 by ring. rewrite map_nth. ring. }
  rewrite D, D'.
  assert (Hb1 : -1 <= inner d ah bh <= 1) by (destruct (Rcase_abs (inner d ah bh)); unfold Rabs in Hle; destruct (Rcase_abs _); lra).
  replace (2 / 10 ^ 30) with (2 * (1 / 10 ^ 30)) by (field; lra).
  split; intros Hl; [nra|]. split; nra.
Qed.
Print Assumptions C58_near_the_line.

(** The documented promise fails for opposite vectors: rotmat(-b, b) is the identity, which
    leaves -b where it is. *)
Theorem C58_opposite_refuted : forall d b, (1 <= d)%nat -> unit_vector d b ->
  exists M, rotmat (negated b) b = Ok (Some M) /\ apply d M (negated b) = negated b /\ negated b <> b.
Proof.
  intros d b Hd Hb.
  assert (Hn : negated b = map (Rmult (-1)) b) by (apply map_ext; intros; ring).
  assert (Hun : unit_vector d (negated b)).
  { rewrite Hn. split; [rewrite map_length; apply Hb|]. rewrite inner_scale_both, (proj2 Hb). ring. }
  assert (Hi : inner d (negated b) b = -1) by (rewrite inner_comm, Hn, inner_scale_r, (proj2 Hb); ring).
  assert (Ht : target d b b) by (right; split; [intros ->; destruct Hb as [Hb _]; cbn in Hb; lia|apply unit_direction; exact Hb]).
  destruct (C58_near_the_line d (negated b) b (negated b) b Hd (unit_direction d _ Hun) Ht) as [M [HM [[_ Hid] _]]].
  { rewrite Hi. assert (0 < 1 / 10 ^ 30) by (apply Rdiv_lt_0_compat; lra). lra. }
  exists M. split; [exact HM|]. split; [apply Hid; apply Hun|]. intros E. rewrite E, (proj2 Hb) in Hi. lra.
Qed.
Print Assumptions C58_opposite_refuted.

(** The other inputs: a zero vector gives a matrix of NaNs, vectors of different lengths and an
    empty vector are refused. *)
Theorem C58_other_inputs : forall a b,
  (a <> [] -> (b = [] \/ length b = length a) ->
     (inner (length a) a a = 0 \/ (b <> [] /\ inner (length b) b b = 0)) -> rotmat a b = Ok None) /\
  (b <> [] -> length b <> length a -> rotmat a b = Raise ValueError) /\
  rotmat [] [] = Raise IndexError.
Proof.
  intros a b. split; [|split; [|reflexivity]].
  - intros Ha Hb Hz. unfold rotmat.
    replace (length a =? 0)%nat with false by (destruct a; [congruence|reflexivity]). rewrite Bool.andb_false_r. cbn [negb].
    cbv zeta.
    replace (length (if (length b =? 0)%nat then basis (length a) (length a - 1) else b) =? length a)%nat with true.
    + destruct Hz as [Hz|[Hne Hz]].
      * rewrite (normalise_zero (length a) a eq_refl Hz). reflexivity.
      * replace (length b =? 0)%nat with false by (destruct b; [congruence|reflexivity]).
        rewrite (normalise_zero (length b) b eq_refl Hz). destruct (normalise a); reflexivity.
    + symmetry. apply Nat.eqb_eq. destruct Hb as [->|Hb]; [apply basis_standard|]. 
      destruct b as [|x b]; [cbn in Hb; destruct a; [congruence|discriminate]|exact Hb].
  - intros Hne Hl. unfold rotmat.
    replace (length b =? 0)%nat with false by (destruct b; [congruence|reflexivity]). cbn [andb negb]. cbv zeta.
    apply Nat.eqb_neq in Hl. rewrite Hl. reflexivity.
Qed.
Print Assumptions C58_other_inputs.

(** The hypotheses are met: a = (3,4) is rotated to the last axis; (-3,-4) and (3,4) are opposite. *)
Example C58_met : direction 2 [3; 4] [3 / 5; 4 / 5] /\ target 2 [] [0; 1] /\
  1 / 10 ^ 30 <= 1 - inner 2 [3 / 5; 4 / 5] [0; 1] * inner 2 [3 / 5; 4 / 5] [0; 1] /\
  unit_vector 2 [3 / 5; 4 / 5] /\
  1 - inner 2 [3 / 5; 4 / 5] [3 / 5; 4 / 5] * inner 2 [3 / 5; 4 / 5] [3 / 5; 4 / 5] < 1 / 10 ^ 30.
Proof.
  assert (T : 0 < 1 / 10 ^ 30) by (apply Rdiv_lt_0_compat; lra).
  assert (T' : 1 / 10 ^ 30 <= 9 / 25).
  { replace (9 / 25) with (9 / 25 * 10 ^ 30 / 10 ^ 30) by (field; lra). apply Rmult_le_compat_r; [left; apply Rinv_0_lt_compat; lra|lra]. }
  assert (U : unit_vector 2 [3 / 5; 4 / 5]) by (split; [reflexivity|unfold inner; cbn; field]).
  split; [|split; [|split; [|split]]].
  - split; [exact U|]. exists 5. split; [lra|]. cbn. repeat f_equal; field.
  - left. split; [reflexivity|]. split; [reflexivity|]. intros j Hj. destruct j as [|[|j]]; [reflexivity|reflexivity|lia].
  - unfold inner. cbn. lra.
  - exact U.
  - rewrite (proj2 U). lra.
Qed.

(** * C59: get_stereo_proj_codim1 *)

(** The answer on unit vectors pX for a given pole u: there is a unit vector v, the direction of u
    or (when that is within 1e-15 of the last axis) the last axis itself, such that with
    h = <v, x> the image of x has squared norm (1-|h|)/(1+|h|): it is in the closed unit ball, on
    its boundary exactly for x on the equator h = 0; opposite points have the same image off the
    equator and opposite images on it; and two points with the same image are equal or opposite. *)
Theorem C59_projective : forall eigh d pX u uh, (1 <= d)%nat -> direction d u uh ->
  Forall (unit_vector d) pX ->
  exists S v, get_stereo_proj_codim1 eigh d pX u = Ok (Some S) /\ length S = length pX /\
    unit_vector d v /\
    (v = uh \/ (last_standard d v /\ 1 - inner d uh v * inner d uh v < 1 / 10 ^ 30)) /\
    (forall b, (b < length pX)%nat ->
       let x := nth b pX [] in let y := nth b S [] in
       length y = (d - 1)%nat /\
       inner (d - 1) y y = (1 - Rabs (inner d v x)) / (1 + Rabs (inner d v x)) /\
       inner (d - 1) y y <= 1 /\ (inner (d - 1) y y = 1 <-> inner d v x = 0)) /\
    (forall b b', (b < length pX)%nat -> (b' < length pX)%nat ->
       let x := nth b pX [] in let x' := nth b' pX [] in
       let y := nth b S [] in let y' := nth b' S [] in
       (x' = negated x -> inner d v x <> 0 -> y' = y) /\
       (x' = negated x -> inner d v x = 0 -> y' = negated y) /\
       (y = y' -> x = x' \/ x = negated x')).
Proof.
  intros eigh d pX u uh Hd Hu HX. destruct (rotmat_pole d u uh Hd Hu) as [M [v [EM [Hp Hv]]]].
  pose proof (direction_length d u uh Hu) as Hlu.
  exists (map (stereo_codim1_point M) pX), v. split; [|split; [apply map_length|]].
  { unfold get_stereo_proj_codim1. replace (length u =? 0)%nat with false by (symmetry; apply Nat.eqb_neq; lia). cbn [bind].
    rewrite EM. cbn [bind]. rewrite Hlu, Nat.eqb_refl. reflexivity. }
  split; [apply Hp|]. split; [exact Hv|].
  assert (Hn : forall b, (b < length pX)%nat -> nth b (map (stereo_codim1_point M) pX) [] = stereo_codim1_point M (nth b pX [])).
  { intros b Hb. rewrite (nth_indep _ [] (stereo_codim1_point M [])) by (rewrite map_length; exact Hb). apply map_nth. }
  assert (Hx : forall b, (b < length pX)%nat -> unit_vector d (nth b pX [])).
  { intros b Hb. apply (proj1 (Forall_forall _ _) HX). apply nth_In. exact Hb. }
  assert (Hsg : forall h, (if Rltb h 0 then -1 else 1) * (if Rltb h 0 then -1 else 1) = 1) by (intros h; destruct (Rltb h 0); ring).
  assert (Hsh : forall h, (if Rltb h 0 then -1 else 1) * h = Rabs h).
  { intros h. destruct (Rltb h 0) eqn:E; [apply Rltb_true in E; rewrite Rabs_left by exact E; ring|apply Rltb_false in E; rewrite Rabs_pos_eq by exact E; ring]. }
  assert (Hshadow : forall b, (b < length pX)%nat -> shadow d M v (nth b pX []) (if Rltb (inner d v (nth b pX [])) 0 then -1 else 1) (nth b (map (stereo_codim1_point M) pX) [])).
  { intros b Hb. rewrite (Hn b Hb). apply stereo_codim1_shadow; [exact Hd|exact Hp|apply Hx; exact Hb]. }
  split.
  - intros b Hb x y. specialize (Hshadow b Hb). fold x y in Hshadow. split; [apply Hshadow|].
    pose proof (shadow_norm _ _ _ _ _ _ Hd Hp (Hx b Hb) (Hsg _) Hshadow) as N. fold x in N. split; [exact N|].
    rewrite N. pose proof (Rabs_pos (inner d v x)) as H0. split; [|split].
    + apply (Rmult_le_reg_r (1 + Rabs (inner d v x))); [lra|]. unfold Rdiv. rewrite Rmult_assoc, Rinv_l by lra. lra.
    + intros E. apply (f_equal (fun z => z * (1 + Rabs (inner d v x)))) in E. unfold Rdiv in E. rewrite Rmult_assoc, Rinv_l in E by lra.
      assert (Z : Rabs (inner d v x) = 0) by lra. destruct (Req_dec (inner d v x) 0) as [K|K]; [exact K|]. apply Rabs_no_R0 in K. contradiction.
    + intros ->. rewrite Rabs_R0. field.
  - intros b b' Hb Hb' x x' y y'. pose proof (Hshadow b Hb) as S1. pose proof (Hshadow b' Hb') as S2. fold x y in S1. fold x' y' in S2.
    assert (Hneg : x' = negated x -> x' = map (Rmult (-1)) x) by (intros ->; apply map_ext; intros; ring).
    split; [|split].
    + intros E Hh. apply Hneg in E. destruct S1 as [L1 S1], S2 as [L2 S2]. apply (vec_ext (d - 1) y' y L2 L1).
      intros i Hi. rewrite S1, S2 by exact Hi. rewrite E, inner_scale_r, apply_scale by lia. replace (-1 * inner d v x) with (- inner d v x) by ring.
      rewrite Rabs_Ropp. f_equal.
      destruct (Rltb (inner d v x) 0) eqn:A; destruct (Rltb (- inner d v x) 0) eqn:B; try ring.
      * apply Rltb_true in A. apply Rltb_true in B. lra.
      * apply Rltb_false in A. apply Rltb_false in B. lra.
    + intros E Hh. apply Hneg in E. destruct S1 as [L1 S1], S2 as [L2 S2]. apply (vec_ext (d - 1) y' (negated y) L2); [unfold negated; rewrite map_length; exact L1|].
      intros i Hi. rewrite S2 by exact Hi. unfold negated. replace 0 with (- 0) at 3 by ring. rewrite map_nth, S1 by exact Hi.
      rewrite E, inner_scale_r, apply_scale, Hh by lia. rewrite Rmult_0_r.
      destruct (Rltb 0 0) eqn:A; [apply Rltb_true in A; lra|]. unfold Rdiv. ring.
    + intros E. pose proof (shadow_inj d M v x x' _ _ y y' Hd Hp (Hx b Hb) (Hx b' Hb') (Hsg _) (Hsg _) S1 S2) as K.
      rewrite !Hsh in K. specialize (K (fun z => z) E).
      assert (Hid : map (Rmult 1) x = x) by (rewrite <- (map_id x) at 2; apply map_ext; intros; ring).
      assert (Hid' : map (Rmult 1) x' = x') by (rewrite <- (map_id x') at 2; apply map_ext; intros; ring).
      assert (Hm : forall z, map (Rmult (-1)) z = negated z) by (intros z; apply map_ext; intros; ring).
      assert (Hnn : forall z, negated (negated z) = z) by (intros z; unfold negated; rewrite map_map; rewrite <- (map_id z) at 2; apply map_ext; intros; ring).
      destruct (Rltb (inner d v x) 0), (Rltb (inner d v x') 0); rewrite ?Hid, ?Hid', ?Hm in K.
      * left. rewrite <- (Hnn x), K, Hnn. reflexivity.
      * right. rewrite <- (Hnn x), K. reflexivity.
      * right. exact K.
      * left. exact K.
Qed.
Print Assumptions C59_projective.

(** Without a pole the first column of eigh's answer is used: the unit vector with the least sum
    of squared components of the points. *)
Theorem C59_default_pole : forall eigh d pX lam, (1 <= d)%nat -> Forall (unit_vector d) pX ->
  (forall G, second_moments d pX G -> eigh_answer d G (eigh G) lam) ->
  exists u, unit_vector d u /\ (forall w, unit_vector d w -> spread d pX u <= spread d pX w) /\
    get_stereo_proj_codim1 eigh d pX [] = get_stereo_proj_codim1 eigh d pX u.
Proof.
  intros eigh d pX lam Hd HX He.
  assert (HU : eigh_answer d (scatter d pX) (eigh (scatter d pX)) lam).
  { apply He. split; [apply matrix_mk2|]. intros i j Hi Hj. unfold scatter. rewrite at2_mk2 by assumption. reflexivity. }
  pose proof (u0_unit d pX _ lam Hd HU) as Hu.
  eexists. split; [exact Hu|]. split.
  - intros w Hw. apply (u0_minimises d pX _ lam Hd HU w Hw).
  - unfold get_stereo_proj_codim1. cbn [length Nat.eqb]. replace (d =? 0)%nat with false by (symmetry; apply Nat.eqb_neq; lia). cbn [negb bind].
    destruct Hu as [Hlu _].
    replace (length (map (fun row => nth 0 row 0%R) (eigh (scatter d pX))) =? 0)%nat with false by (symmetry; apply Nat.eqb_neq; lia). reflexivity.
Qed.
Print Assumptions C59_default_pole.

(** A zero pole gives NaNs, a pole of the wrong length is refused. *)
Theorem C59_other_poles : forall eigh d pX u, u <> [] ->
  (length u = d -> inner d u u = 0 -> get_stereo_proj_codim1 eigh d pX u = Ok None) /\
  (length u <> d -> get_stereo_proj_codim1 eigh d pX u = Raise ValueError).
Proof.
  intros eigh d pX u Hu. unfold get_stereo_proj_codim1.
  replace (length u =? 0)%nat with false by (destruct u; [congruence|reflexivity]). cbn [bind]. split.
  - intros Hl Hz. destruct (C58_other_inputs u []) as [H _]. rewrite H; [|exact Hu|left; reflexivity|left; rewrite Hl; exact Hz].
    cbn [bind]. rewrite Hl, Nat.eqb_refl. reflexivity.
  - intros Hl. apply Nat.eqb_neq in Hl.
    destruct (Req_dec (inner (length u) u u) 0) as [Z|Z].
    + destruct (C58_other_inputs u []) as [H _]. rewrite H; [|exact Hu|left; reflexivity|left; exact Z]. cbn [bind]. rewrite Hl. reflexivity.
    + destruct (direction_exists (length u) u eq_refl Z) as [uh Huh].
      destruct (rotmat_pole (length u) u uh) as [M [v [-> _]]]; [destruct u; [congruence|cbn; lia]|exact Huh|]. cbn [bind]. rewrite Hl. reflexivity.
Qed.
Print Assumptions C59_other_poles.

Example C59_met : direction 3 [0; 2; 0] [0; 1; 0] /\
  Forall (unit_vector 3) [[3 / 5; 4 / 5; 0]; [- (3 / 5); - (4 / 5); - 0]; [1; 0; 0]].
Proof.
  split.
  - split; [split; [reflexivity|unfold inner; cbn; ring]|]. exists 2. split; [lra|]. cbn. repeat f_equal; ring.
  - repeat constructor; unfold inner; cbn; field.
Qed.

(** * C60: circle_to_3dnorthpole *)

(** A point of the closed disk is returned as it is, with the unit vector of the upper hemisphere
    above it; a point outside is first moved along its ray to the circle, and the caller's array
    is overwritten with the moved point. *)
Theorem C60_north_pole : forall a b, exists a' b' c,
  circle_to_3dnorthpole [a; b] = Ok ([a'; b'], [a'; b'], [a'; b'; c]) /\
  a' * a' + b' * b' + c * c = 1 /\ 0 <= c /\
  (a * a + b * b <= 1 -> a' = a /\ b' = b) /\
  (1 < a * a + b * b -> c = 0 /\ exists t, 1 < t /\ a = t * a' /\ b = t * b').
Proof.
  intros a b. unfold circle_to_3dnorthpole. unfold vdot. cbn [combine map fold_right fst snd].
  replace (a * a + (b * b + 0)) with (a * a + b * b) by ring. set (m := a * a + b * b).
  destruct (Rltb 1 m) eqn:E; cbv beta iota zeta; cbn [map length Nat.eqb app].
  - apply Rltb_true in E. assert (Hm : 1 < sqrt m) by (rewrite <- sqrt_1; apply sqrt_lt_1; lra).
    pose proof (sqrt_sqrt m ltac:(lra)) as Hs.
    exists (a / sqrt m), (b / sqrt m), 0. split; [|split; [|split; [|split]]].
    + replace (1 - 1) with 0 by ring. rewrite sqrt_0. reflexivity.
    + transitivity ((a * a + b * b) / (sqrt m * sqrt m)); [field; lra|]. rewrite Hs. fold m. field. lra.
    + lra.
    + lra.
    + intros _. split; [reflexivity|]. exists (sqrt m). split; [exact Hm|]. split; field; lra.
  - apply Rltb_false in E. exists a, b, (sqrt (1 - m)). split; [reflexivity|].
    rewrite sqrt_sqrt by lra. split; [unfold m; ring|]. split; [apply sqrt_pos|]. split; [auto|]. lra.
Qed.
Print Assumptions C60_north_pole.

(** The moved point is the point of the closed disk nearest to the one selected. *)
Theorem C60_nearest : forall a b a' b' u x p q,
  circle_to_3dnorthpole [a; b] = Ok (x, [a'; b'], u) -> p * p + q * q <= 1 ->
  (a - a') ^ 2 + (b - b') ^ 2 <= (a - p) ^ 2 + (b - q) ^ 2.
Proof.
  intros a b a' b' u x p q H Hpq. destruct (C60_north_pole a b) as [a1 [b1 [c [E [H1 [H2 [H3 H4]]]]]]].
  rewrite E in H. injection H as _ -> -> _. destruct (Rle_lt_dec (a * a + b * b) 1) as [L|L].
  - destruct (H3 L) as [-> ->]. pose proof (pow2_ge_0 (a - p)). pose proof (pow2_ge_0 (b - q)). replace ((a - a) ^ 2 + (b - b) ^ 2) with 0 by ring. lra.
  - destruct (H4 L) as [-> [t [Ht [-> ->]]]]. assert (H5 : a' * a' + b' * b' = 1) by lra.
    assert (CS : a' * p + b' * q <= 1).
    { pose proof (Rle_0_sqr (a' * q - b' * p)) as S. unfold Rsqr in S.
      assert (K : (a' * p + b' * q) * (a' * p + b' * q) <= 1).
      { replace ((a' * p + b' * q) * (a' * p + b' * q)) with ((a' * a' + b' * b') * (p * p + q * q) - (a' * q - b' * p) * (a' * q - b' * p)) by ring.
        rewrite H5. lra. }
      nra. }
    apply Rminus_le.
    replace ((t * a' - a') ^ 2 + (t * b' - b') ^ 2 - ((t * a' - p) ^ 2 + (t * b' - q) ^ 2))
      with ((1 - 2 * t) * (a' * a' + b' * b') + 2 * t * (a' * p + b' * q) - (p * p + q * q)) by ring.
    rewrite H5.
    assert (D : 0 <= (p - a') * (p - a') + (q - b') * (q - b')) by (apply Rplus_le_le_0_compat; apply Rle_0_sqr).
    assert (D2 : (p - a') * (p - a') + (q - b') * (q - b') = (p * p + q * q) - 2 * (a' * p + b' * q) + (a' * a' + b' * b')) by ring.
    rewrite H5 in D2. set (s := a' * p + b' * q) in *. pose proof (Rmult_le_compat_r (1 - s) 1 t ltac:(lra) ltac:(lra)) as G. lra.
Qed.
Print Assumptions C60_nearest.

(** Arrays that do not have two entries are refused (up to broadcasting of a single entry, which
    the model leaves out). *)
Theorem C60_other_lengths : forall x, length x <> 2%nat -> circle_to_3dnorthpole x = Raise ValueError.
Proof.
  intros x Hx. unfold circle_to_3dnorthpole. destruct (Rltb 1 (vdot x x)); cbv beta iota zeta.
  - rewrite map_length. apply Nat.eqb_neq in Hx. rewrite Hx. reflexivity.
  - apply Nat.eqb_neq in Hx. rewrite Hx. reflexivity.
Qed.
Print Assumptions C60_other_lengths.

(** * C61: hopf_map *)
Theorem C61_hopf : forall X, Forall sphere3 X ->
  exists Y, hopf_map 2 X = Ok Y /\ length Y = length X /\ Forall sphere2 Y /\
    forall b b', (b < length X)%nat -> (b' < length X)%nat ->
      (nth b Y [] = nth b' Y [] <-> exists lam, cabs2 lam = 1 /\ nth b' X [] = scaled lam (nth b X [])).
Proof.
  intros X HX. exists (map hopf_point X). split; [reflexivity|]. split; [apply map_length|].
  rewrite Forall_forall in HX. split.
  - apply Forall_forall. intros y Hy. apply in_map_iff in Hy. destruct Hy as [z [<- Hz]].
    destruct (HX z Hz) as [[x1 y1] [[x2 y2] [-> H]]]. unfold hopf_point. cbn [nth fst snd]. unfold cabs2 in H. cbn [fst snd] in H.
    eexists _, _, _. split; [reflexivity|].
    replace 1 with ((x1 * x1 + y1 * y1 + (x2 * x2 + y2 * y2)) * (x1 * x1 + y1 * y1 + (x2 * x2 + y2 * y2))) by (rewrite H; ring). ring.
  - intros b b' Hb Hb'.
    rewrite !(nth_indep (map hopf_point X) [] (hopf_point [])) by (rewrite map_length; assumption). rewrite !map_nth.
    destruct (HX _ (nth_In X [] Hb)) as [z1 [z2 [-> Hz]]]. destruct (HX _ (nth_In X [] Hb')) as [w1 [w2 [-> Hw]]].
    unfold hopf_point. cbn [nth]. split.
    + intros E. injection E as E1 E2 E3.
      destruct (hopf_fibre z1 z2 w1 w2 Hz Hw) as [lam [H1 [-> ->]]].
      * unfold cmul, conj. apply c_ext; cbn [fst snd]; lra.
      * unfold cabs2. lra.
      * exists lam. split; [exact H1|reflexivity].
    + intros [lam [H1 E]]. unfold scaled in E. cbn [map] in E. injection E as -> ->.
      destruct z1 as [x1 y1], z2 as [x2 y2], lam as [u v]. unfold cmul, cabs2 in *. cbn [fst snd] in *.
      f_equal; [|f_equal; [|f_equal]].
      * transitivity (2 * ((u * u + v * v) * (x1 * x2 + y1 * y2))); [rewrite H1; ring|ring].
      * transitivity (2 * ((u * u + v * v) * (y1 * x2 - x1 * y2))); [rewrite H1; ring|ring].
      * transitivity ((u * u + v * v) * (x1 ^ 2 + y1 ^ 2 - (x2 ^ 2 + y2 ^ 2))); [rewrite H1; ring|ring].
Qed.
Print Assumptions C61_hopf.

(** Every point of the sphere is reached, and the pole (0,0,1) is the image of the points
    (z,0): the formula is the one of the Hopf map. *)
Theorem C61_onto : forall a b c, a * a + b * b + c * c = 1 ->
  exists z, sphere3 z /\ hopf_map 2 [z] = Ok [[a; b; c]].
Proof.
  intros a b c H. assert (Hc : -1 <= c) by nra. destruct (Req_dec c (-1)) as [->|Hne].
  - assert (a = 0) by nra. assert (b = 0) by nra. subst. exists [c0; c1]. split.
    + exists c0, c1. split; [reflexivity|]. unfold cabs2. cbn. ring.
    + unfold hopf_map, hopf_point. cbn. do 3 f_equal; [ring|f_equal; [ring|f_equal; ring]].
  - set (r := sqrt ((1 + c) / 2)). assert (Hr : 0 < r) by (apply sqrt_lt_R0; lra).
    assert (Hrr : r * r = (1 + c) / 2) by (apply sqrt_sqrt; lra).
    assert (Hab : a * a + b * b = 4 * (r * r) * (1 - r * r)) by (rewrite Hrr; lra).
    assert (Hs : a / (2 * r) * (a / (2 * r)) + - b / (2 * r) * (- b / (2 * r)) = 1 - r * r).
    { transitivity ((a * a + b * b) / (4 * (r * r))); [field; lra|]. rewrite Hab. field. lra. }
    exists [(r, 0); (a / (2 * r), - b / (2 * r))]. split.
    + exists (r, 0), (a / (2 * r), - b / (2 * r)). split; [reflexivity|]. unfold cabs2. cbn [fst snd]. rewrite Hs. ring.
    + unfold hopf_map, hopf_point. cbn [Nat.leb map nth fst snd]. do 3 f_equal; [field; lra|]. f_equal; [field; lra|]. f_equal.
      replace (r ^ 2 + 0 ^ 2 - ((a / (2 * r)) ^ 2 + (- b / (2 * r)) ^ 2)) with (r * r - (a / (2 * r) * (a / (2 * r)) + - b / (2 * r) * (- b / (2 * r)))) by ring.
      rewrite Hs, Hrr. lra.
Qed.
Print Assumptions C61_onto.

(** Points with fewer than two complex coordinates are refused; further coordinates are ignored. *)
Theorem C61_columns : forall m X, (m < 2 -> hopf_map m X = Raise IndexError)%nat /\
  ((2 <= m)%nat -> hopf_map m X = hopf_map 2 (map (firstn 2) X)).
Proof.
  intros m X. unfold hopf_map. split.
  - intros H. destruct (2 <=? m)%nat eqn:E; [apply Nat.leb_le in E; lia|reflexivity].
  - intros H. apply Nat.leb_le in H. rewrite H. cbn [Nat.leb]. rewrite map_map. f_equal. apply map_ext. intros z.
    destruct z as [|z1 [|z2 z]]; reflexivity.
Qed.
Print Assumptions C61_columns.

Example C61_met : Forall sphere3 [[(3 / 5, 0); (0, 4 / 5)]; [(0, 3 / 5); (- (4 / 5), 0)]; [c1; c0]].
Proof.
  repeat constructor; eexists _, _; (split; [reflexivity|unfold cabs2; cbn; field]).
Qed.

(** * C62: stereographic_projection_hemispheres *)

(** For points of the unit sphere of R^n (n >= 2) and a nonzero centre (the last axis when none is
    given) there is a unit vector v -- the direction of the centre, or the last axis when that is
    within 1e-15 of its line -- such that the points with <v,x> < 0 go into the open unit disk
    around 0, the others into the closed unit disk around (5/2, 0, ...), and no two points of the
    sphere have the same image. *)
Theorem C62_two_disks : forall n X center ch, (2 <= n)%nat ->
  (center = None /\ last_standard n ch \/ exists c, center = Some c /\ direction n c ch) ->
  Forall (unit_vector n) X ->
  exists S v, stereographic_projection_hemispheres n X center = Ok S /\ length S = length X /\
    unit_vector n v /\
    (v = ch \/ (last_standard n v /\ 1 - inner n ch v * inner n ch v < 1 / 10 ^ 30)) /\
    (forall b, (b < length X)%nat ->
       let x := nth b X [] in let y := nth b S [] in
       length y = (n - 1)%nat /\
       (inner n v x < 0 -> inner (n - 1) y y = (1 + inner n v x) / (1 - inner n v x) /\ inner (n - 1) y y < 1) /\
       (0 <= inner n v x -> forall e1, standard (n - 1) 0 e1 ->
          dist2 (n - 1) y (map (Rmult (5 / 2)) e1) = (1 - inner n v x) / (1 + inner n v x) /\
          dist2 (n - 1) y (map (Rmult (5 / 2)) e1) <= 1)) /\
    (forall b b', (b < length X)%nat -> (b' < length X)%nat -> nth b S [] = nth b' S [] -> nth b X [] = nth b' X []).
Proof.
  intros n X center ch Hn Hc HX.
  set (cv := match center with None => basis n (n - 1) | Some c => c end).
  assert (Hcv : direction n cv ch).
  { destruct Hc as [[-> Hs]|[c [-> Hd]]]; [|exact Hd]. unfold cv. rewrite (standard_unique n _ _ _ (basis_standard n (n - 1)) Hs).
    apply unit_direction. apply (standard_unit n (n - 1)); [exact Hs|lia]. }
  destruct (rotmat_pole n cv ch ltac:(lia) Hcv) as [M [v [EM [Hp Hv]]]].
  exists (map (hemisphere_point M n) X), v. split; [|split; [apply map_length|]].
  { unfold stereographic_projection_hemispheres.
    assert (E : (match center with None => guard (negb (n =? 0)%nat) else IndexError ;; Ok (basis n (n - 1)) | Some c => Ok c end) = Ok cv).
    { unfold cv. destruct center; [reflexivity|]. replace (n =? 0)%nat with false by (symmetry; apply Nat.eqb_neq; lia). reflexivity. }
    rewrite E. cbn [bind]. rewrite EM. cbn [bind]. rewrite (direction_length _ _ _ Hcv), Nat.eqb_refl.
    apply Nat.leb_le in Hn. rewrite Hn. reflexivity. }
  split; [apply Hp|]. split; [exact Hv|].
  assert (Hx : forall b, (b < length X)%nat -> unit_vector n (nth b X [])).
  { intros b Hb. apply (proj1 (Forall_forall _ _) HX). apply nth_In. exact Hb. }
  assert (Hsh : forall b, (b < length X)%nat -> let x := nth b X [] in let y := nth b (map (hemisphere_point M n) X) [] in
     length y = (n - 1)%nat /\ (inner n v x < 0 -> shadow n M v x 1 y) /\
     (0 <= inner n v x -> exists y0, shadow n M v x 1 y0 /\ forall i, (i < n - 1)%nat -> nth i y 0 = nth i y0 0 + if (i =? 0)%nat then 5 / 2 else 0)).
  { intros b Hb. cbv zeta. rewrite (nth_indep (map _ X) [] (hemisphere_point M n [])) by (rewrite map_length; exact Hb). rewrite map_nth.
    apply (hemisphere_shadow n M v (nth b X []) Hn Hp). apply Hx. exact Hb. }
  assert (H11 : 1 * 1 = 1) by ring.
  split.
  - intros b Hb x y. destruct (Hsh b Hb) as [Hl [Hneg Hpos]]. fold x y in Hl, Hneg, Hpos. pose proof (Hx b Hb) as Hux. fold x in Hux.
    split; [exact Hl|]. split.
    + intros Hh. pose proof (shadow_norm n M v x 1 y ltac:(lia) Hp Hux H11 (Hneg Hh)) as N. rewrite (Rabs_left _ Hh) in N.
      replace (1 - - inner n v x) with (1 + inner n v x) in N by ring. replace (1 + - inner n v x) with (1 - inner n v x) in N by ring.
      split; [exact N|]. rewrite N. apply (Rmult_lt_reg_r (1 - inner n v x)); [lra|]. unfold Rdiv. rewrite Rmult_assoc, Rinv_l by lra. lra.
    + intros Hh e1 He1. destruct (Hpos Hh) as [y0 [Hs0 Hy]].
      pose proof (shadow_norm n M v x 1 y0 ltac:(lia) Hp Hux H11 Hs0) as N. rewrite (Rabs_pos_eq _ Hh) in N.
      assert (D : dist2 (n - 1) y (map (Rmult (5 / 2)) e1) = inner (n - 1) y0 y0).
      { unfold dist2, inner. apply sumn_ext. intros i Hi. rewrite Hy by exact Hi. rewrite nth_map_mul, (proj2 He1 i Hi). destruct (i =? 0)%nat; ring. }
      rewrite D, N. split; [reflexivity|]. apply (Rmult_le_reg_r (1 + inner n v x)); [lra|]. unfold Rdiv. rewrite Rmult_assoc, Rinv_l by lra. lra.
  - intros b b' Hb Hb' E. destruct (Hsh b Hb) as [Hl [Hneg Hpos]]. destruct (Hsh b' Hb') as [Hl' [Hneg' Hpos']].
    pose proof (Hx b Hb) as Hux. pose proof (Hx b' Hb') as Hux'. rewrite <- E in *.
    set (x := nth b X []) in *. set (x' := nth b' X []) in *. set (y := nth b (map (hemisphere_point M n) X) []) in *.
    assert (Hone : forall z : list R, map (Rmult 1) z = z) by (intros z; rewrite <- (map_id z) at 2; apply map_ext; intros; ring).
    assert (Hfar : forall z y1 z' y2, unit_vector n z -> unit_vector n z' -> shadow n M v z 1 y1 -> shadow n M v z' 1 y2 ->
       nth 0 y1 0 = nth 0 y2 0 + 5 / 2 -> False).
    { intros z y1 z' y2 Hz Hz' S1 S2 Eq.
      pose proof (shadow_coord n M v z 1 y1 0 ltac:(lia) Hp Hz H11 S1 ltac:(lia)) as A.
      pose proof (shadow_coord n M v z' 1 y2 0 ltac:(lia) Hp Hz' H11 S2 ltac:(lia)) as B.
      unfold Rabs in A, B. destruct (Rcase_abs (nth 0 y1 0)), (Rcase_abs (nth 0 y2 0)); lra. }
    destruct (Rlt_le_dec (inner n v x) 0) as [Hh|Hh]; destruct (Rlt_le_dec (inner n v x') 0) as [Hh'|Hh'].
    + rewrite <- (Hone x), <- (Hone x'). apply (shadow_inj n M v x x' 1 1 y y ltac:(lia) Hp Hux Hux' H11 H11 (Hneg Hh) (Hneg' Hh')); [|reflexivity].
      rewrite (Rabs_left _ Hh), (Rabs_left _ Hh'). lra.
    + exfalso. destruct (Hpos' Hh') as [y0 [S0 Hy]]. apply (Hfar x y x' y0 Hux Hux' (Hneg Hh) S0). rewrite (Hy 0%nat) by lia. reflexivity.
    + exfalso. destruct (Hpos Hh) as [y0 [S0 Hy]]. apply (Hfar x' y x y0 Hux' Hux (Hneg' Hh') S0). rewrite (Hy 0%nat) by lia. reflexivity.
    + destruct (Hpos Hh) as [y1 [S1 Hy1]]. destruct (Hpos' Hh') as [y2 [S2 Hy2]].
      rewrite <- (Hone x), <- (Hone x'). apply (shadow_inj n M v x x' 1 1 y1 y2 ltac:(lia) Hp Hux Hux' H11 H11 S1 S2).
      * rewrite (Rabs_pos_eq _ Hh), (Rabs_pos_eq _ Hh'). lra.
      * apply (vec_ext (n - 1)); [apply S1|apply S2|]. intros i Hi. pose proof (Hy1 i Hi). pose proof (Hy2 i Hi). lra.
Qed.
Print Assumptions C62_two_disks.

(** A zero centre sends everything to the origin (the NaNs fail both comparisons); a centre of the
    wrong length, or points with fewer than two coordinates, are refused. *)
Theorem C62_other_inputs : forall n X c, c <> [] ->
  ((2 <= n)%nat -> length c = n -> inner n c c = 0 ->
     stereographic_projection_hemispheres n X (Some c) = Ok (map (fun _ => repeat 0 (n - 1)) X)) /\
  (length c <> n -> stereographic_projection_hemispheres n X (Some c) = Raise ValueError) /\
  ((n < 2)%nat -> stereographic_projection_hemispheres n X None = Raise IndexError).
Proof.
  intros n X c Hc. unfold stereographic_projection_hemispheres. cbn [bind]. split; [|split].
  - intros Hn Hl Hz. destruct (C58_other_inputs c []) as [H _]. rewrite H; [|exact Hc|left; reflexivity|left; rewrite Hl; exact Hz].
    cbn [bind]. rewrite Hl, Nat.eqb_refl. apply Nat.leb_le in Hn. rewrite Hn. reflexivity.
  - intros Hl. apply Nat.eqb_neq in Hl.
    destruct (Req_dec (inner (length c) c c) 0) as [Z|Z].
    + destruct (C58_other_inputs c []) as [H _]. rewrite H; [|exact Hc|left; reflexivity|left; exact Z]. cbn [bind]. rewrite Hl. reflexivity.
    + destruct (direction_exists (length c) c eq_refl Z) as [uh Huh].
      destruct (rotmat_pole (length c) c uh) as [M [v [-> _]]]; [destruct c; [congruence|cbn; lia]|exact Huh|]. cbn [bind]. rewrite Hl. reflexivity.
  - intros Hn. destruct n as [|[|n]]; [reflexivity| |lia]. cbn [Nat.eqb negb bind].
    destruct (rotmat_pole 1 (basis 1 (1 - 1)) (basis 1 (1 - 1))) as [M [v [-> _]]]; [lia| |reflexivity].
    apply unit_direction. apply (standard_unit 1 0); [apply basis_standard|lia].
Qed.
Print Assumptions C62_other_inputs.

Example C62_met : last_standard 3 [0; 0; 1] /\ direction 3 [0; 2; 0] [0; 1; 0] /\
  Forall (unit_vector 3) [[3 / 5; 4 / 5; 0]; [- (3 / 5); 0; - (4 / 5)]; [0; 0; 1]].
Proof.
  split; [|split; [exact (proj1 C59_met)|repeat constructor; unfold inner; cbn; field]].
  split; [reflexivity|]. intros j Hj. destruct j as [|[|[|j]]]; try reflexivity; lia.
Qed.

(** * C63: lens_3D_to_disk_3D *)

(** The unit sphere of C^2 goes into the unit ball of R^3. *)
Theorem C63_ball : forall q X, (0 < q)%Z -> Forall sphere3 X ->
  exists Y, lens_3D_to_disk_3D 2 X q = Ok Y /\ length Y = length X /\
    Forall (fun y => exists a b c, y = [Some a; Some b; Some c] /\ a * a + b * b + c * c <= 1) Y.
Proof.
  intros q X Hq HX. exists (map (lens_point q) X). split; [|split; [apply map_length|]].
  - unfold lens_3D_to_disk_3D. clear HX. induction X as [|x X IH]; [reflexivity|]. cbn [map_res Nat.leb map].
    replace (q =? 0)%Z with false by (symmetry; apply Z.eqb_neq; lia). cbn [negb bind].
    replace (q =? 0)%Z with false in IH by (symmetry; apply Z.eqb_neq; lia). cbn [negb Nat.leb] in IH. rewrite IH. reflexivity.
  - apply Forall_forall. intros y Hy. apply in_map_iff in Hy. destruct Hy as [z [<- Hz]].
    rewrite Forall_forall in HX. destruct (HX z Hz) as [z1 [z2 [-> H]]].
    destruct (lens_values q z1 z2 Hq H) as [K [th [Ht [_ [_ ->]]]]]. cbv zeta.
    set (w := cmul z2 (cis (- (2 * PI / IZR q * IZR K)))).
    assert (Hw : cabs2 w = cabs2 z2) by apply cabs2_cmul_cis. unfold cabs2 in Hw at 1.
    eexists _, _, _. split; [reflexivity|].
    assert (Hq' : 0 < IZR q) by (apply (IZR_lt 0); exact Hq). pose proof PI_RGT_0 as HPI.
    assert (Hg : 0 <= IZR q * th / PI <= 2).
    { split.
      - apply Rmult_le_pos; [apply Rmult_le_pos; lra|]. left. apply Rinv_0_lt_compat. exact HPI.
      - apply (Rmult_le_reg_r PI); [exact HPI|]. unfold Rdiv. rewrite Rmult_assoc, Rinv_l by lra.
        destruct Ht as [_ Ht]. apply (Rmult_lt_compat_l (IZR q)) in Ht; [|exact Hq'].
        replace (IZR q * (2 * PI / IZR q)) with (2 * PI) in Ht by (field; lra). lra. }
    set (g := IZR q * th / PI) in *. pose proof (cabs_sq z1) as Hc. pose proof (cabs2_nonneg z1) as H0.
    replace ((g - 1) * cabs z1 * ((g - 1) * cabs z1)) with ((g - 1) * (g - 1) * cabs2 z1) by (rewrite <- Hc; ring).
    assert ((g - 1) * (g - 1) <= 1) by nra. nra.
Qed.
Print Assumptions C63_ball.

(** What is identified: two points have the same image exactly when they differ by a q-th root of
    unity -- if their first coordinates are not zero; points with first coordinate zero are only
    identified when they are equal. *)
Theorem C63_identified : forall q z1 z2 w1 w2, (0 < q)%Z ->
  cabs2 z1 + cabs2 z2 = 1 -> cabs2 w1 + cabs2 w2 = 1 ->
  (lens_3D_to_disk_3D 2 [[z1; z2]] q = lens_3D_to_disk_3D 2 [[w1; w2]] q <->
   (z1 <> c0 /\ exists om, root_of_unity q om /\ [w1; w2] = scaled om [z1; z2]) \/
   (z1 = c0 /\ w1 = c0 /\ z2 = w2)).
Proof.
  intros q z1 z2 w1 w2 Hq Hz Hw.
  assert (Eq : forall p, lens_3D_to_disk_3D 2 [p] q = Ok [lens_point q p]).
  { intros p. unfold lens_3D_to_disk_3D. cbn [map_res Nat.leb]. replace (q =? 0)%Z with false by (symmetry; apply Z.eqb_neq; lia). reflexivity. }
  rewrite !Eq.
  destruct (lens_values q z1 z2 Hq Hz) as [K [th [Ht [Hpz [Hz0 ->]]]]].
  destruct (lens_values q w1 w2 Hq Hw) as [K' [th' [Ht' [Hpw [Hw0 ->]]]]]. cbv zeta.
  assert (Hq' : 0 < IZR q) by (apply (IZR_lt 0); exact Hq). pose proof PI_RGT_0 as HPI.
  set (dl := 2 * PI / IZR q) in *.
  set (u := cmul z2 (cis (- (dl * IZR K)))). set (u' := cmul w2 (cis (- (dl * IZR K')))).
  assert (Hu : z2 = cmul u (cis (dl * IZR K))).
  { unfold u. transitivity (cmul z2 (cis (- (dl * IZR K) + dl * IZR K))).
    - replace (- (dl * IZR K) + dl * IZR K) with 0 by ring. rewrite cis_0. apply c_ext; cbn; ring.
    - rewrite cis_add. apply c_ext; cbn; ring. }
  assert (Hu' : w2 = cmul u' (cis (dl * IZR K'))).
  { unfold u'. transitivity (cmul w2 (cis (- (dl * IZR K') + dl * IZR K'))).
    - replace (- (dl * IZR K') + dl * IZR K') with 0 by ring. rewrite cis_0. apply c_ext; cbn; ring.
    - rewrite cis_add. apply c_ext; cbn; ring. }
  assert (Huz : cabs2 u = cabs2 z2) by apply cabs2_cmul_cis. assert (Huw : cabs2 u' = cabs2 w2) by apply cabs2_cmul_cis.
  split.
  - intros E. injection E as E1 E2 E3. assert (Eu : u = u') by (apply c_ext; assumption).
    assert (Eabs : cabs z1 = cabs w1) by (unfold cabs; f_equal; rewrite Eu in Huz; lra).
    destruct (Req_dec (cabs z1) 0) as [Z|Z].
    + right. assert (Z1 : z1 = c0) by (apply cabs_0; exact Z). assert (W1 : w1 = c0) by (apply cabs_0; lra).
      split; [exact Z1|]. split; [exact W1|]. destruct (Hz0 Z1) as [-> _]. destruct (Hw0 W1) as [-> _]. rewrite Hu, Hu', Eu. reflexivity.
    + left. split; [intros ->; apply Z; unfold cabs, cabs2; cbn; rewrite Rmult_0_l, Rplus_0_l; apply sqrt_0|].
      exists (cis (2 * PI * IZR (K' - K) / IZR q)). split; [exists (K' - K)%Z; reflexivity|].
      assert (Eth : th = th').
      { rewrite <- Eabs in E3. apply Rmult_eq_reg_r in E3; [|exact Z].
        assert (E4 : IZR q * th / PI = IZR q * th' / PI) by lra.
        apply (f_equal (fun t => t * (PI / IZR q))) in E4.
        replace (IZR q * th / PI * (PI / IZR q)) with th in E4 by (field; lra).
        replace (IZR q * th' / PI * (PI / IZR q)) with th' in E4 by (field; lra). exact E4. }
      replace (2 * PI * IZR (K' - K) / IZR q) with (dl * IZR K' - dl * IZR K) by (unfold dl; rewrite minus_IZR; field; lra).
      set (om := cis (dl * IZR K' - dl * IZR K)).
      assert (Hom : forall t, cis (t + dl * IZR K') = cmul om (cis (t + dl * IZR K))).
      { intros t. unfold om. rewrite <- cis_add. f_equal. ring. }
      unfold scaled. cbn [map]. f_equal; [|f_equal].
      * rewrite Hpw at 1. rewrite Hpz at 1. rewrite <- Eabs, <- Eth, Hom. apply c_ext; cbn; ring.
      * rewrite Hu' at 1. rewrite Hu at 1. rewrite <- Eu.
        pose proof (Hom 0) as H0. rewrite !Rplus_0_l in H0. rewrite H0. apply c_ext; cbn; ring.
  - intros [[Hne [om [[j ->] E]]]|[Z1 [W1 E]]].
    + unfold scaled in E. cbn [map] in E. injection E as E1 E2.
      set (om := cis (2 * PI * IZR j / IZR q)) in *.
      assert (Eom : om = cis (dl * IZR j)) by (unfold om, dl; f_equal; field; lra).
      assert (Ea : cabs w1 = cabs z1) by (unfold cabs; rewrite E1, cabs2_mul, Eom, cabs2_cis, Rmult_1_l; reflexivity).
      assert (Hr : cabs z1 <> 0) by (intros Z; apply Hne; apply cabs_0; exact Z).
      assert (Ec : cis (th' + dl * IZR K') = cis (th + dl * IZR (K + j))).
      { assert (E : cscale (cabs z1) (cis (th' + dl * IZR K')) = cscale (cabs z1) (cis (th + dl * IZR (K + j)))).
        { rewrite <- Ea at 1. rewrite <- Hpw, E1. rewrite Hpz at 1. rewrite Eom, plus_IZR.
          replace (th + dl * (IZR K + IZR j)) with (dl * IZR j + (th + dl * IZR K)) by ring. rewrite (cis_add (dl * IZR j)). apply c_ext; cbn; ring. }
        apply c_ext; [apply (f_equal fst) in E|apply (f_equal snd) in E]; unfold cscale in E; cbn [fst snd] in E; apply Rmult_eq_reg_l in E; assumption. }
      destruct (sector_unique q th' th K' (K + j) Hq Ht' Ht Ec) as [Eth [m EK]].
      assert (Eu : u' = u).
      { unfold u'. rewrite E2, Eom, EK. rewrite !cis_opp. pose proof (cis_full q (K + j) m Hq) as F. fold dl in F. rewrite F.
        rewrite plus_IZR. replace (dl * (IZR K + IZR j)) with (dl * IZR K + dl * IZR j) by ring. rewrite cis_add.
        unfold u. rewrite cis_opp, conj_mul. pose proof (conj_unit _ (cabs2_cis (dl * IZR j))) as Hc.
        transitivity (cmul (cmul (cis (dl * IZR j)) (conj (cis (dl * IZR j)))) (cmul z2 (conj (cis (dl * IZR K))))); [apply c_ext; cbn; ring|].
        rewrite Hc. apply c_ext; cbn; ring. }
      rewrite Eu, Eth, Ea. reflexivity.
    + destruct (Hz0 Z1) as [EK Eth]. destruct (Hw0 W1) as [EK' Eth'].
      assert (Eu : u = u') by (unfold u, u'; rewrite EK, EK', E; reflexivity).
      rewrite Eu, Eth, Eth', Z1, W1. reflexivity.
Qed.
Print Assumptions C63_identified.

(** So the promise that the picture is one of the lens space fails on the circle of points with
    first coordinate zero: for q >= 2 there is a point and a q-th root of unity multiple of it with
    different images. *)
Theorem C63_core_circle_refuted : forall q, (2 <= q)%Z -> forall z2, cabs2 z2 = 1 ->
  exists om, root_of_unity q om /\
    lens_3D_to_disk_3D 2 [[c0; z2]] q <> lens_3D_to_disk_3D 2 [scaled om [c0; z2]] q.
Proof.
  intros q Hq z2 Hz. assert (Hq' : 2 <= IZR q) by (apply (IZR_le 2); exact Hq). pose proof PI_RGT_0 as HPI.
  exists (cis (2 * PI * IZR 1 / IZR q)). split; [exists 1%Z; reflexivity|]. set (om := cis (2 * PI * IZR 1 / IZR q)).
  assert (Z0 : cabs2 c0 = 0) by (unfold cabs2; cbn; ring).
  assert (E0 : cmul om c0 = c0) by (apply c_ext; cbn; ring).
  unfold scaled. cbn [map]. rewrite E0. intros E.
  apply (C63_identified q c0 z2 c0 (cmul om z2)) in E; [|lia|lra|unfold om; rewrite cabs2_mul, cabs2_cis; lra].
  destruct E as [[Hne _]|[_ [_ E]]]; [apply Hne; reflexivity|].
  assert (E1 : om = c1).
  { pose proof (conj_unit z2 Hz) as Hc. transitivity (cmul (cmul om z2) (conj z2)).
    - transitivity (cmul om (cmul z2 (conj z2))); [rewrite Hc; apply c_ext; cbn; ring|apply c_ext; cbn; ring].
    - rewrite <- E. exact Hc. }
  rewrite <- cis_0 in E1. unfold om in E1. apply cis_same in E1. destruct E1 as [k E1].
  assert (Hx : 1 / IZR q = IZR k).
  { apply (Rmult_eq_reg_r (2 * PI)); [|lra]. rewrite <- E1. field. lra. }
  assert (0 < 1 / IZR q) by (apply Rdiv_lt_0_compat; lra).
  assert (1 / IZR q < 1) by (apply (Rmult_lt_reg_r (IZR q)); [lra|]; unfold Rdiv; rewrite Rmult_assoc, Rinv_l by lra; lra).
  assert (0 < k < 1)%Z by (split; apply lt_IZR; lra). lia.
Qed.
Print Assumptions C63_core_circle_refuted.

(** Errors: q = 0, or fewer than two coordinates, raise as soon as there is a point. *)
Theorem C63_errors : forall m p X q,
  ((m < 2)%nat -> lens_3D_to_disk_3D m (p :: X) q = Raise IndexError) /\
  ((2 <= m)%nat -> lens_3D_to_disk_3D m (p :: X) 0 = Raise ZeroDivisionError).
Proof.
  intros m p X q. unfold lens_3D_to_disk_3D. cbn [map_res]. split; intros H.
  - destruct (2 <=? m)%nat eqn:E; [apply Nat.leb_le in E; lia|reflexivity].
  - apply Nat.leb_le in H. rewrite H. reflexivity.
Qed.
Print Assumptions C63_errors.

Example C63_met : cabs2 (3 / 5, 0) + cabs2 (0, 4 / 5) = 1 /\ cabs2 (0, 1) = 1 /\ (3 / 5, 0) <> c0.
Proof.
  split; [unfold cabs2; cbn; field|]. split; [unfold cabs2; cbn; ring|]. intros E. injection E as E. lra.
Qed.

(** An eigh that answers as documented: the points (1,0), (-1,0), with second moments diag(2,0). *)
Example C59_default_met : Forall (unit_vector 2) [[1; 0]; [-1; 0]] /\
  forall G, second_moments 2 [[1; 0]; [-1; 0]] G -> eigh_answer 2 G [[0; 1]; [1; 0]] (fun i => if (i =? 0)%nat then 0 else 2).
Proof.
  split; [repeat constructor; unfold inner; cbn; ring|].
  intros G [_ HG].
  split; [split; [reflexivity|repeat constructor]|]. split; [|split; [|split]].
  - intros i j Hi Hj. destruct i as [|[|i]], j as [|[|j]]; try lia; unfold at2; cbn; ring.
  - intros i j Hi Hj. destruct i as [|[|i]], j as [|[|j]]; try lia; unfold at2; cbn; ring.
  - intros i k Hi Hk. cbn [sumn]. rewrite !HG by lia. destruct i as [|[|i]], k as [|[|k]]; try lia; unfold at2; cbn; ring.
  - intros i j H. destruct i as [|[|i]], j as [|[|j]]; try lia; cbn; lra.
Qed.
