(** PropExamples.v -- C68-C71, C77-C82: the example data sets of GeometryExamples. *)
From Coq Require Import List ZArith Reals Lia Lra Psatz.
From Verif Require Import Base BaseProofs RealBase RealSum SpecEM LLLModel SpecLLL LLLProofs SpecMapUtils MapUtilsModel MapUtilsProofs GeometryModel SpecGeometry GeometryProofs ExamplesModel SpecExamples ExamplesProofs.
From Verif Require PropGeometry.
Import ListNotations.
Local Open Scope R_scope.

Lemma seeded_ok g s : valid_seed s -> random_seed g s = Ok (np_seed g s).
Proof.
  intros [H1 H2]. unfold random_seed. replace (0 <=? s)%Z with true by (symmetry; apply Z.leb_le; lia).
  replace (s <? 2 ^ 32)%Z with true by (symmetry; apply Z.ltb_lt; lia). reflexivity.
Qed.
Lemma effective seed n s : effective_seed seed n s -> seed_or seed n = s.
Proof. unfold effective_seed, seed_or. destruct seed; auto. Qed.

(** * C68: tori and Klein bottles *)

(** Every torus sample, whatever is drawn, satisfies the torus equation; for r <= R0 this is the
    usual one. *)
Theorem C68_torus : forall g st n R0 r seed s, rng_ok g -> (0 <= n)%Z -> effective_seed seed n s -> valid_seed s ->
  exists X st', torus_3d g st n R0 r seed = Ok (X, st') /\ length X = Z.to_nat n /\ Forall (on_torus R0 r) X.
Proof.
  intros g st n R0 r seed s _ Hn Hs Hv. unfold torus_3d. rewrite (effective _ _ _ Hs), (seeded_ok _ _ Hv). cbn [bind].
  replace (0 <=? n)%Z with true by (symmetry; apply Z.leb_le; lia).
  destruct (np_random g (np_seed g s) (Z.to_nat n)) as [u st1]. destruct (np_random g st1 (Z.to_nat n)) as [t st2].
  eexists. eexists. split; [reflexivity|]. split; [apply mk1_length|]. apply mk1_Forall. intros i _. apply torus_point_on.
Qed.
Print Assumptions C68_torus.

Theorem C68_ring_torus : forall R0 r x y z, Rabs r <= R0 ->
  (on_torus R0 r [x; y; z] <-> (sqrt (x ^ 2 + y ^ 2) - R0) ^ 2 + z ^ 2 = r ^ 2).
Proof. exact ring_torus. Qed.
Print Assumptions C68_ring_torus.

(** Conversely every point of the torus can be drawn. *)
Theorem C68_torus_onto : forall R0 r v, on_torus R0 r v -> exists g, rng_ok g /\
  forall st, exists st', torus_3d g st 1 R0 r None = Ok ([v], st').
Proof.
  intros R0 r v Hv. destruct (torus_point_onto R0 r v Hv) as [s [t [Hs [Ht ->]]]]. pose proof PI_RGT_0.
  exists (stream_rng (fun k => match k with O => s / (2 * PI) | S O => t / (2 * PI) | _ => 0 end)). split.
  - apply stream_ok. intros [|[|k]]; [| |lra].
    + split; [apply Rmult_le_pos; [lra|apply Rlt_le, Rinv_0_lt_compat; lra]|]. apply (Rmult_lt_reg_r (2 * PI)); [lra|]. unfold Rdiv. rewrite Rmult_assoc, Rinv_l; lra.
    + split; [apply Rmult_le_pos; [lra|apply Rlt_le, Rinv_0_lt_compat; lra]|]. apply (Rmult_lt_reg_r (2 * PI)); [lra|]. unfold Rdiv. rewrite Rmult_assoc, Rinv_l; lra.
  - intros st. eexists. unfold torus_3d. change (Z.to_nat 1) with 1%nat. cbn.
    replace (s / (2 * PI) * 2 * PI) with s by (field; lra). replace (t / (2 * PI) * 2 * PI) with t by (field; lra). reflexivity.
Qed.
Print Assumptions C68_torus_onto.

Theorem C68_klein : forall g st n R0 r seed s, rng_ok g -> (0 <= n)%Z -> effective_seed seed n s -> valid_seed s ->
  exists X st', klein_bottle_4d g st n R0 r seed = Ok (X, st') /\ length X = Z.to_nat n /\ Forall (on_klein R0 r) X.
Proof.
  intros g st n R0 r seed s _ Hn Hs Hv. unfold klein_bottle_4d. rewrite (effective _ _ _ Hs), (seeded_ok _ _ Hv). cbn [bind].
  replace (0 <=? n)%Z with true by (symmetry; apply Z.leb_le; lia).
  destruct (np_random g (np_seed g s) (Z.to_nat n)) as [u st1]. destruct (np_random g st1 (Z.to_nat n)) as [t st2].
  eexists. eexists. split; [reflexivity|]. split; [apply mk1_length|]. apply mk1_Forall. intros i _. apply klein_point_on.
Qed.
Print Assumptions C68_klein.

Theorem C68_klein_onto : forall R0 r v, on_klein R0 r v -> exists g, rng_ok g /\
  forall st, exists st', klein_bottle_4d g st 1 R0 r None = Ok ([v], st').
Proof.
  intros R0 r v Hv. destruct (klein_point_onto R0 r v Hv) as [s [t [Hs [Ht ->]]]]. pose proof PI_RGT_0.
  exists (stream_rng (fun k => match k with O => s / (2 * PI) | S O => t / (2 * PI) | _ => 0 end)). split.
  - apply stream_ok. intros [|[|k]]; [| |lra].
    + split; [apply Rmult_le_pos; [lra|apply Rlt_le, Rinv_0_lt_compat; lra]|]. apply (Rmult_lt_reg_r (2 * PI)); [lra|]. unfold Rdiv. rewrite Rmult_assoc, Rinv_l; lra.
    + split; [apply Rmult_le_pos; [lra|apply Rlt_le, Rinv_0_lt_compat; lra]|]. apply (Rmult_lt_reg_r (2 * PI)); [lra|]. unfold Rdiv. rewrite Rmult_assoc, Rinv_l; lra.
  - intros st. eexists. unfold klein_bottle_4d. change (Z.to_nat 1) with 1%nat. cbn.
    replace (s / (2 * PI) * 2 * PI) with s by (field; lra). replace (t / (2 * PI) * 2 * PI) with t by (field; lra). reflexivity.
Qed.
Print Assumptions C68_klein_onto.

Example C68_met : rng_ok (stream_rng (fun _ => 1 / 2)) /\ effective_seed None 7 7 /\ valid_seed 7 /\
  on_torus 2 1 [3; 0; 0] /\ on_klein 2 1 [-2; 0; 0; 1].
Proof.
  split; [apply stream_ok; intros; lra|]. split; [reflexivity|]. split; [split; lia|]. split.
  - exists 3, 0, 0. split; [reflexivity|]. ring.
  - exists (-2), 0, 0, 1, 2. repeat split; ring.
Qed.

(** * C69: sphere and noisy_circle *)

(** Row i of sphere(n) is the direction of 2 u - 1 for the drawn u, a unit vector, except that it is
    NaN when all three numbers drawn are 1/2. *)
Theorem C69_sphere : forall g st n, rng_ok g -> (0 <= n)%Z ->
  let u := fst (np_random g (np_seed g 0) (Z.to_nat n * 3)) in
  exists X st', sphere g st n = Ok (X, st') /\ length X = Z.to_nat n /\
    forall i, (i < Z.to_nat n)%nat ->
      let raw := [2 * nth (i * 3) u 0 - 1; 2 * nth (i * 3 + 1) u 0 - 1; 2 * nth (i * 3 + 2) u 0 - 1] in
      match nth i X None with
      | Some v => direction 3 raw v
      | None => raw = [0; 0; 0]
      end.
Proof.
  intros g st n _ Hn u. unfold sphere. rewrite (seeded_ok g 0) by (split; lia). cbn [bind].
  replace (0 <=? n)%Z with true by (symmetry; apply Z.leb_le; lia). unfold u.
  destruct (np_random g (np_seed g 0) (Z.to_nat n * 3)) as [w st1]. cbn [fst].
  eexists. eexists. split; [reflexivity|]. unfold normalised_rows. split.
  - rewrite !map_length. unfold in_rows. rewrite mk2_eq. apply mk1_length.
  - intros i Hi. set (raw := [2 * nth (i * 3) w 0 - 1; 2 * nth (i * 3 + 1) w 0 - 1; 2 * nth (i * 3 + 2) w 0 - 1]). rewrite (nth_indep _ None (normalise (map (fun x => 2 * x - 1) []))) by (rewrite !map_length; unfold in_rows; rewrite mk2_eq, mk1_length; exact Hi).
    rewrite (map_nth normalise (map (map (fun x => 2 * x - 1)) (in_rows (Z.to_nat n) 3 w)) (map (fun x => 2 * x - 1) [])).
    rewrite (map_nth (map (fun x => 2 * x - 1)) (in_rows (Z.to_nat n) 3 w) []).
    rewrite in_rows_nth by exact Hi. cbn [mk1 seq map]. unfold mk1. cbn [seq map].
    replace (i * 3 + 0)%nat with (i * 3)%nat by lia. fold raw.
    destruct (Req_dec (inner 3 raw raw) 0) as [H0|H0].
    + rewrite (normalise_zero 3 raw eq_refl H0). pose proof (inner_self_0 3 raw H0) as Hz.
      pose proof (Hz 0%nat ltac:(lia)) as Z0. pose proof (Hz 1%nat ltac:(lia)) as Z1. pose proof (Hz 2%nat ltac:(lia)) as Z2.
      unfold raw in *. cbn [nth] in *. rewrite Z0, Z1, Z2. reflexivity.
    + destruct (normalise_nonzero 3 raw eq_refl H0) as [v [E D]]. rewrite E. exact D.
Qed.
Print Assumptions C69_sphere.

(** Every unit vector can be drawn. *)
Theorem C69_sphere_onto : forall v, unit_vector 3 v -> exists g, rng_ok g /\
  forall st, exists st', sphere g st 1 = Ok ([Some v], st').
Proof.
  intros v [Hl Hu]. destruct v as [|x [|y [|z [|? ?]]]]; try discriminate. unfold inner in Hu. cbn in Hu.
  assert (Hx : -1 <= x <= 1) by nra. assert (Hy : -1 <= y <= 1) by nra. assert (Hz : -1 <= z <= 1) by nra.
  exists (stream_rng (fun k => match k with O => x / 4 + 1 / 2 | S O => y / 4 + 1 / 2 | S (S O) => z / 4 + 1 / 2 | _ => 0 end)). split.
  - apply stream_ok. intros [|[|[|k]]]; lra.
  - intros st. eexists. unfold sphere. change (Z.to_nat 1) with 1%nat. cbn. unfold normalised_rows. cbn [map].
    assert (D : direction 3 [2 * (x / 4 + 1 / 2) - 1; 2 * (y / 4 + 1 / 2) - 1; 2 * (z / 4 + 1 / 2) - 1] [x; y; z]).
    { split; [split; [reflexivity|unfold inner; cbn; exact Hu]|]. exists (1 / 2). split; [lra|]. cbn [map]. f_equal; [field|f_equal; [field|f_equal; field]]. }
    rewrite (normalise_direction 3 _ _ D). reflexivity.
Qed.
Print Assumptions C69_sphere_onto.

(** Row i of noisy_circle is within noise_size / sqrt 2 of a point of the unit circle, hence at
    distance between 1 - noise_size and 1 + noise_size from the origin; it is NaN exactly when both
    numbers drawn for it are 1/2. *)
Theorem C69_noisy_circle : forall g st n noise_size seed, rng_ok g -> (0 <= n)%Z -> valid_seed seed ->
  let u := fst (np_random g (np_seed g seed) (Z.to_nat n * 2)) in
  exists X st', noisy_circle g st n noise_size seed = Ok (X, st') /\ length X = Z.to_nat n /\
    forall i, (i < Z.to_nat n)%nat ->
      match nth i X None with
      | Some v => exists c, direction 2 [nth (i * 2) u 0 - 1 / 2; nth (i * 2 + 1) u 0 - 1 / 2] c /\
          length v = 2%nat /\ euclid 2 v c <= Rabs noise_size * sqrt (1 / 2) /\
          1 - Rabs noise_size <= euclid 2 v [0; 0] <= 1 + Rabs noise_size
      | None => nth (i * 2) u 0 = 1 / 2 /\ nth (i * 2 + 1) u 0 = 1 / 2
      end.
Proof.
  intros g st n a seed Hg Hn Hv u. unfold noisy_circle. rewrite (seeded_ok g seed Hv). cbn [bind].
  replace (0 <=? n)%Z with true by (symmetry; apply Z.leb_le; lia).
  pose proof (Hg (np_seed g seed) (Z.to_nat n * 2)%nat) as Hg1. unfold u.
  destruct (np_random g (np_seed g seed) (Z.to_nat n * 2)) as [w st1].
  pose proof (Hg st1 (Z.to_nat n * 2)%nat) as Hg2. destruct (np_random g st1 (Z.to_nat n * 2)) as [e st2]. cbn [fst] in *.
  eexists. eexists. split; [reflexivity|]. split; [apply mk1_length|]. intros i Hi. rewrite mk1_nth by exact Hi.
  rewrite in_rows_nth by exact Hi. unfold mk1. cbn [seq map]. replace (i * 2 + 0)%nat with (i * 2)%nat by lia.
  set (raw := [nth (i * 2) w 0 - 1 / 2; nth (i * 2 + 1) w 0 - 1 / 2]).
  destruct (Req_dec (inner 2 raw raw) 0) as [H0|H0].
  - rewrite (normalise_zero 2 raw eq_refl H0). cbn [option_map]. pose proof (inner_self_0 2 raw H0) as Hz.
    pose proof (Hz 0%nat ltac:(lia)) as Z0. pose proof (Hz 1%nat ltac:(lia)) as Z1. unfold raw in *. cbn [nth] in *. lra.
  - destruct (normalise_nonzero 2 raw eq_refl H0) as [c [E D]]. rewrite E. cbn [option_map]. exists c. split; [exact D|]. split; [reflexivity|].
    destruct Hg2 as [Hle [Hu _]]. rewrite Forall_forall in Hu.
    assert (Hb : forall k, (k < Z.to_nat n * 2)%nat -> 0 <= nth k e 0 < 1) by (intros k Hk; apply Hu; apply nth_In; lia).
    pose proof (Hb (i * 2)%nat ltac:(lia)) as B0. pose proof (Hb (i * 2 + 1)%nat ltac:(lia)) as B1.
    set (e0 := nth (i * 2) e 0) in *. set (e1 := nth (i * 2 + 1) e 0) in *.
    set (v := [nth 0 c 0 + (e0 - 1 / 2) * a; nth 1 c 0 + (e1 - 1 / 2) * a]).
    destruct D as [[Hc Huc] _].
    assert (H1 : euclid 2 v c <= Rabs a * sqrt (1 / 2)).
    { rewrite euclid2. unfold v. cbn [nth]. rewrite <- (sqrt_pow2 (Rabs a)) by apply Rabs_pos. rewrite <- sqrt_mult by (try apply pow2_ge_0; lra).
      apply sqrt_le_1_alt. rewrite pow2_abs. pose proof (pow2_ge_0 a).
      replace ((nth 0 c 0 + (e0 - 1 / 2) * a - nth 0 c 0) ^ 2 + (nth 1 c 0 + (e1 - 1 / 2) * a - nth 1 c 0) ^ 2) with (a ^ 2 * ((e0 - 1 / 2) ^ 2 + (e1 - 1 / 2) ^ 2)) by ring.
      apply Rmult_le_compat_l; [assumption|]. nra. }
    split; [exact H1|].
    assert (Hs : sqrt (1 / 2) <= 1) by (rewrite <- sqrt_1 at 2; apply sqrt_le_1_alt; lra).
    assert (H2 : euclid 2 v c <= Rabs a) by (pose proof (Rabs_pos a); pose proof (sqrt_pos (1 / 2)); nra).
    assert (H3 : euclid 2 c [0; 0] = 1).
    { rewrite inner2 in Huc. rewrite euclid2. cbn [nth]. rewrite <- sqrt_1. f_equal. lra. }
    pose proof (euclid_triangle 2 v c [0; 0] eq_refl Hc eq_refl) as T1. pose proof (euclid_triangle 2 c v [0; 0] Hc eq_refl eq_refl) as T2.
    rewrite (euclid_sym 2 c v) in T2. lra.
Qed.
Print Assumptions C69_noisy_circle.

(** * C70: moving_dot *)

(** dim has no effect: there are always 100 columns. *)
Theorem C70_dim_ignored : forall k sigma dim, (0 <= k)%Z ->
  (forall dim', moving_dot k sigma dim = moving_dot k sigma dim') /\
  exists P, moving_dot k sigma dim = Ok P /\ matrix (Z.to_nat (k * k)) 100 P.
Proof.
  intros k sigma dim Hk. split; [reflexivity|]. unfold moving_dot. replace (0 <=? k)%Z with true by (symmetry; apply Z.leb_le; lia).
  eexists. split; [reflexivity|].
  assert (Hlin : length (map (fun x => 15 * x ^ 3) (linspace (-1) 1 (Z.to_nat k))) = Z.to_nat k) by (rewrite map_length; apply mk1_length).
  split.
  - rewrite (concat_length _ (Z.to_nat k)).
    + rewrite map_length, Hlin. lia.
    + apply Forall_forall. intros l Hl. apply in_map_iff in Hl. destruct Hl as [x [<- _]]. rewrite !map_length. apply mk1_length.
  - apply Forall_forall. intros l Hl. apply in_concat in Hl. destruct Hl as [l' [Hl' Hl]]. apply in_map_iff in Hl'. destruct Hl' as [x [<- _]].
    apply in_map_iff in Hl. destruct Hl as [y [<- _]]. unfold gkern. rewrite (concat_length _ 10).
    + rewrite !map_length. unfold linspace. rewrite mk1_length. reflexivity.
    + apply Forall_forall. intros l Hl. apply in_map_iff in Hl. destruct Hl as [z [<- _]]. rewrite !map_length. apply mk1_length.
Qed.
Print Assumptions C70_dim_ignored.

(** The documented number of columns dim*dim is wrong for every dim other than 10. *)
Theorem C70_patch_size_refuted : forall k sigma dim P, (1 <= k)%Z -> (0 <= dim)%Z -> dim <> 10%Z ->
  moving_dot k sigma dim = Ok P -> P <> [] /\ Forall (fun row => Z.of_nat (length row) <> (dim * dim)%Z) P.
Proof.
  intros k sigma dim P Hk Hd Hne E. destruct (C70_dim_ignored k sigma dim ltac:(lia)) as [_ [P' [E' [Hl Hr]]]].
  rewrite E in E'. injection E' as <-. split.
  - intros ->. cbn in Hl. nia.
  - apply Forall_forall. intros row Hrow. rewrite Forall_forall in Hr. rewrite (Hr row Hrow). nia.
Qed.
Print Assumptions C70_patch_size_refuted.

(** Row a*k+b is a Gaussian bump around (x_a, -x_b) on the 10 x 10 grid, where the x_a sweep
    15 t^3 for k equally spaced t from -1 to 1. *)
Theorem C70_values : forall k sigma dim P a b p q, (2 <= k)%nat -> sigma <> 0 ->
  moving_dot (Z.of_nat k) sigma dim = Ok P -> (a < k)%nat -> (b < k)%nat -> (p < 10)%nat -> (q < 10)%nat ->
  let x c := 15 * (-1 + 2 * INR c / INR (k - 1)) ^ 3 in
  at2 0 P (a * k + b) (p * 10 + q)
    = exp (- ((INR p - 9 / 2 - x a) ^ 2 + (INR q - 9 / 2 + x b) ^ 2) / (2 * sigma ^ 2)) /\
  0 < at2 0 P (a * k + b) (p * 10 + q) <= 1.
Proof.
  intros k sigma dim P a b p q Hk Hsig E Ha Hb Hp Hq x.
  assert (V : at2 0 P (a * k + b) (p * 10 + q) = exp (- ((INR p - 9 / 2 - x a) ^ 2 + (INR q - 9 / 2 + x b) ^ 2) / (2 * sigma ^ 2))).
  { unfold moving_dot in E. replace (0 <=? Z.of_nat k)%Z with true in E by (symmetry; apply Z.leb_le; lia). rewrite Nat2Z.id in E.
    injection E as <-. set (xs := map (fun x => 15 * x ^ 3) (linspace (-1) 1 k)).
    assert (Hxs : length xs = k) by (unfold xs; rewrite map_length; apply mk1_length).
    assert (Hx : forall c, (c < k)%nat -> nth c xs 0 = x c).
    { intros c Hc. unfold xs. rewrite (nth_indep _ 0 ((fun x => 15 * x ^ 3) 0)) by (rewrite map_length; unfold linspace; rewrite mk1_length; exact Hc).
      rewrite (map_nth (fun x => 15 * x ^ 3)). unfold linspace. rewrite mk1_nth by exact Hc.
      destruct (k =? 1)%nat eqn:E1; [apply Nat.eqb_eq in E1; lia|]. unfold x. f_equal. f_equal. field. apply not_0_INR. lia. }
    change (map (fun x0 : R => 15 * (x0 * (x0 * (x0 * 1)))) (linspace (-1) 1 k)) with xs. unfold at2. rewrite (concat_nth [] _ k); [| |rewrite map_length, Hxs; exact Ha|exact Hb].
    2:{ apply Forall_forall. intros l Hl. apply in_map_iff in Hl. destruct Hl as [z [<- _]]. rewrite !map_length. exact Hxs. }
    rewrite (nth_indep _ [] ((fun x => map (fun y => gkern 10 x y sigma) (map Ropp xs)) 0)) by (rewrite map_length; lia).
    rewrite (map_nth (fun x => map (fun y => gkern 10 x y sigma) (map Ropp xs))).
    rewrite (nth_indep _ [] (gkern 10 (nth a xs 0) (- 0) sigma)) by (rewrite !map_length; lia).
    rewrite (map_nth (fun y => gkern 10 (nth a xs 0) y sigma)). rewrite (map_nth Ropp).
    rewrite !Hx by assumption.
    set (ax := linspace (- ((INR 10 - 1) / 2)) ((INR 10 - 1) / 2) 10).
    assert (Hax : length ax = 10%nat) by apply mk1_length.
    assert (Hnax : forall c, (c < 10)%nat -> nth c ax 0 = INR c - 9 / 2).
    { intros c Hc. unfold ax, linspace. rewrite mk1_nth by exact Hc. cbn [Nat.eqb]. replace (INR 10) with 10 by (cbn; ring). replace (INR (10 - 1)) with 9 by (cbn; ring). field. }
    set (gs := fun m => map (fun a0 => exp (- (1 / 2) * (a0 - m) ^ 2 / sigma ^ 2)) ax).
    assert (Hgs : forall m c, (c < 10)%nat -> nth c (gs m) 0 = exp (- (1 / 2) * (INR c - 9 / 2 - m) ^ 2 / sigma ^ 2)).
    { intros m c Hc. unfold gs. rewrite (nth_indep _ 0 ((fun a0 => exp (- (1 / 2) * (a0 - m) ^ 2 / sigma ^ 2)) 0)) by (rewrite map_length; lia).
      rewrite (map_nth (fun a0 => exp (- (1 / 2) * (a0 - m) ^ 2 / sigma ^ 2))). rewrite Hnax by exact Hc. reflexivity. }
    assert (Hgl : forall m, length (gs m) = 10%nat) by (intros m; unfold gs; rewrite map_length; exact Hax).
    change (gkern 10 (x a) (- x b) sigma) with (concat (map (fun gx => map (fun gy => gx * gy) (gs (- x b))) (gs (x a)))).
    rewrite (concat_nth 0 _ 10); [| |rewrite map_length, Hgl; exact Hp|exact Hq].
    2:{ apply Forall_forall. intros l Hl. apply in_map_iff in Hl. destruct Hl as [z [<- _]]. rewrite map_length. apply Hgl. }
    rewrite (nth_indep _ [] ((fun gx => map (fun gy => gx * gy) (gs (- x b))) 0)) by (rewrite map_length, Hgl; exact Hp).
    rewrite (map_nth (fun gx => map (fun gy => gx * gy) (gs (- x b)))).
    rewrite (nth_indep _ 0 ((fun gy => nth p (gs (x a)) 0 * gy) 0)) by (rewrite map_length, Hgl; exact Hq).
    rewrite (map_nth (fun gy => nth p (gs (x a)) 0 * gy)). rewrite !Hgs by assumption. rewrite <- exp_plus. f_equal. field. exact Hsig. }
  split; [exact V|]. rewrite V. split; [apply exp_pos|]. rewrite <- exp_0.
  assert (Hn : forall t, t <= 0 -> exp t <= exp 0) by (intros t [H|H]; [left; apply exp_increasing; exact H|right; f_equal; exact H]).
  apply Hn. unfold Rdiv. rewrite Ropp_mult_distr_l_reverse. rewrite <- Ropp_0. apply Ropp_le_contravar. apply Rmult_le_pos.
  - apply Rplus_le_le_0_compat; apply pow2_ge_0.
  - left. apply Rinv_0_lt_compat. assert (0 < sigma ^ 2) by (apply pow2_gt_0; exact Hsig). lra.
Qed.
Print Assumptions C70_values.

Example C70_met : exists P, moving_dot 3 3 20 = Ok P /\ (1 <= 3)%Z /\ (20 <> 10)%Z.
Proof. destruct (C70_dim_ignored 3 3 20 ltac:(lia)) as [_ [P [E _]]]. exists P. split; [exact E|]. lia. Qed.

(** * C71: the Moore space *)

Lemma moore_run g st n q : (0 <= n)%Z -> (1 <= q)%Z ->
  let u := fst (np_random g (np_seed g 0) (Z.to_nat n * 2)) in
  let X := filter (fun x => Rleb (vnorm x) 1) (map (map (fun x => (x - 1 / 2) * 2)) (in_rows (Z.to_nat n) 2 u)) in
  Forall (fun x => inner 2 x x <> 0) X ->
  Forall (fun x => length x = 2%nat /\ inner 2 x x <= 1) X /\
  exists D st', moore_space_distance_matrix g st n q = Ok ((D, X), st') /\ length D = length X /\
    forall i j, (i < length X)%nat -> (j < length X)%nat ->
      exists d, at2 None D i j = Some d /\ nth_error D i <> None /\ (length (nth i D []) = length X) /\ moore_distance q (nth i X []) (nth j X []) d.
Proof.
  intros Hn Hq u X HX. unfold u in *. clear u. unfold X in *. clear X.
  assert (Hlen : forall w x, In x (filter (fun x => Rleb (vnorm x) 1) (map (map (fun x => (x - 1 / 2) * 2)) (in_rows (Z.to_nat n) 2 w))) -> length x = 2%nat /\ inner 2 x x <= 1).
  { intros w x Hx. apply filter_In in Hx. destruct Hx as [Hx Hle]. apply in_map_iff in Hx. destruct Hx as [y [<- Hy]].
    unfold in_rows in Hy. rewrite mk2_eq in Hy. apply mk1_In in Hy. destruct Hy as [i [Hi ->]]. split; [reflexivity|].
    unfold Rleb in Hle. match type of Hle with (if ?c then _ else _) = true => destruct c as [H|]; [|discriminate] end.
    rewrite (vnorm_inner 2) in H by reflexivity. set (v := map (fun x => (x - 1 / 2) * 2) (mk1 2 (fun j => nth (i * 2 + j) w 0))) in *.
    pose proof (inner_nonneg 2 v) as Hp. pose proof (sqrt_pos (inner 2 v v)) as Hsp. assert (Hss : sqrt (inner 2 v v) * sqrt (inner 2 v v) <= 1 * 1) by (apply Rmult_le_compat; assumption). rewrite sqrt_sqrt in Hss by exact Hp. lra. }
  unfold moore_space_distance_matrix. rewrite (seeded_ok g 0) by (split; lia). cbn [bind].
  replace (0 <=? n)%Z with true by (symmetry; apply Z.leb_le; lia).
  destruct (np_random g (np_seed g 0) (Z.to_nat n * 2)) as [w st1]. cbn [fst] in *.
  set (X := filter (fun x => Rleb (vnorm x) 1) (map (map (fun x => (x - 1 / 2) * 2)) (in_rows (Z.to_nat n) 2 w))) in *.
  split; [apply Forall_forall; intros x Hx; apply (Hlen w); exact Hx|].
  replace (q =? 0)%Z with false by (symmetry; apply Z.eqb_neq; lia). cbn [negb].
  assert (Hl : forall x, In x X -> length x = 2%nat) by (intros x Hx; apply (Hlen w x Hx)).
  assert (Hnz : forall x, In x X -> inner 2 x x <> 0) by (intros x Hx; rewrite Forall_forall in HX; apply HX; exact Hx).
  assert (Hrow : forall Y x, (forall y, In y Y -> length y = 2%nat) -> In x X -> exists r, map_res (fun y => moore_entry (rot_mat (2 * PI / IZR q)) q x y) Y = Ok r /\ length r = length Y /\
      forall j, (j < length Y)%nat -> exists d, nth j r None = Some d /\ moore_distance q x (nth j Y []) d).
  { intros Y x HY Hx. induction Y as [|y Y IH].
    - exists []. split; [reflexivity|]. split; [reflexivity|]. intros j Hj. cbn in Hj. lia.
    - destruct (moore_entry_spec q x y Hq (Hl x Hx) (HY y (or_introl eq_refl)) (Hnz x Hx)) as [d [E M]].
      destruct IH as [r [Er [Hr Hj]]]; [intros z Hz; apply HY; right; exact Hz|].
      exists (Some d :: r). cbn [map_res]. rewrite E. cbn [bind]. rewrite Er. cbn [bind]. split; [reflexivity|]. split; [cbn; rewrite Hr; reflexivity|].
      intros [|j] Hlt; [exists d; split; [reflexivity|exact M]|]. cbn [nth]. apply Hj. cbn in Hlt. lia. }
  assert (Hall : forall Z0, (forall x, In x Z0 -> In x X) -> exists D, map_res (fun x => map_res (fun y => moore_entry (rot_mat (2 * PI / IZR q)) q x y) X) Z0 = Ok D /\ length D = length Z0 /\
      forall i j, (i < length Z0)%nat -> (j < length X)%nat -> exists d, at2 None D i j = Some d /\ nth_error D i <> None /\ length (nth i D []) = length X /\ moore_distance q (nth i Z0 []) (nth j X []) d).
  { induction Z0 as [|x Z0 IH]; intros HZ.
    - exists []. split; [reflexivity|]. split; [reflexivity|]. intros i j Hi. cbn in Hi. lia.
    - destruct (Hrow X x Hl (HZ x (or_introl eq_refl))) as [r [Er [Hr Hj]]].
      destruct IH as [D [ED [HD Hij]]]; [intros z Hz; apply HZ; right; exact Hz|].
      exists (r :: D). cbn [map_res]. rewrite Er. cbn [bind]. rewrite ED. cbn [bind]. split; [reflexivity|]. split; [cbn; rewrite HD; reflexivity|].
      intros [|i] j Hi Hjlt.
      + destruct (Hj j Hjlt) as [d [E M]]. exists d. unfold at2. cbn [nth nth_error]. split; [exact E|]. split; [discriminate|]. split; [exact Hr|exact M].
      + unfold at2. cbn [nth nth_error]. apply (Hij i j); [cbn in Hi; lia|exact Hjlt]. }
  destruct (Hall X (fun x H => H)) as [D [ED [HD Hij]]]. exists D, st1. rewrite ED. cbn [bind]. split; [reflexivity|]. split; [exact HD|exact Hij].
Qed.

(** For every prime (or any q >= 1) and any draws of which no point is the centre: the function
    returns the pair (distances, points), the points lie in the unit disk, the entries are the
    lengths of shortest paths of the two kinds the code considers, the diagonal is zero, entries
    are non-negative and at most the Euclidean distance. *)
Theorem C71_moore : forall g st n q, (0 <= n)%Z -> (1 <= q)%Z ->
  let u := fst (np_random g (np_seed g 0) (Z.to_nat n * 2)) in
  (forall i, (i < Z.to_nat n)%nat -> ~ (nth (i * 2) u 0 = 1 / 2 /\ nth (i * 2 + 1) u 0 = 1 / 2)) ->
  exists D X st', moore_space_distance_matrix g st n q = Ok ((D, X), st') /\ matrix (length X) (length X) D /\
    Forall (fun x => length x = 2%nat /\ inner 2 x x <= 1) X /\
    (forall i, (i < length X)%nat -> at2 None D i i = Some 0) /\
    forall i j, (i < length X)%nat -> (j < length X)%nat ->
      exists d, at2 None D i j = Some d /\ moore_distance q (nth i X []) (nth j X []) d /\
        0 <= d <= euclid 2 (nth i X []) (nth j X []).
Proof.
  intros g st n q Hn Hq u Hu. destruct (moore_run g st n q Hn Hq) as [HX [D [st' [E [HD Hij]]]]].
  { fold u. apply Forall_forall. intros x Hx H0. apply filter_In in Hx. destruct Hx as [Hx _]. apply in_map_iff in Hx. destruct Hx as [y [<- Hy]].
    unfold in_rows in Hy. rewrite mk2_eq in Hy. apply mk1_In in Hy. destruct Hy as [i [Hi ->]]. apply (Hu i Hi).
    rewrite inner2 in H0. unfold mk1 in H0. cbn [seq map nth] in H0. replace (i * 2 + 0)%nat with (i * 2)%nat in H0 by lia.
    apply Rplus_sqr_eq_0 in H0. lra. }
  fold u in E, HX, HD, Hij. set (X := filter _ _) in *. exists D, X, st'. split; [exact E|].
  assert (Hd : forall i j, (i < length X)%nat -> (j < length X)%nat ->
      exists d, at2 None D i j = Some d /\ moore_distance q (nth i X []) (nth j X []) d /\ 0 <= d <= euclid 2 (nth i X []) (nth j X [])).
  { intros i j Hi Hj. destruct (Hij i j Hi Hj) as [d [Ed [_ [_ M]]]]. exists d. split; [exact Ed|]. split; [exact M|]. destruct M as [M1 M2].
    split; [|apply M2; left; reflexivity]. destruct M1 as [->|[b [k [_ [_ ->]]]]]; [apply euclid_nonneg|]. apply Rplus_le_le_0_compat; apply euclid_nonneg. }
  split; [|split; [exact HX|split; [|exact Hd]]].
  - split; [exact HD|]. apply Forall_forall. intros r Hr. destruct (In_nth _ _ [] Hr) as [i [Hi <-]]. rewrite HD in Hi.
    destruct (Hij i i Hi Hi) as [_ [_ [_ [Hr' _]]]]. exact Hr'.
  - intros i Hi. destruct (Hd i i Hi Hi) as [d [-> [_ H]]]. f_equal.
    assert (Hl : length (nth i X []) = 2%nat) by (rewrite Forall_forall in HX; apply HX; apply nth_In; exact Hi).
    rewrite (proj2 (euclid_zero 2 (nth i X []) (nth i X []) Hl Hl) eq_refl) in H. lra.
Qed.
Print Assumptions C71_moore.

(** The result is not symmetric: for every q >= 2 there are draws for which entry (0,1) is smaller
    than entry (1,0). *)
Theorem C71_symmetric_refuted : forall q, (2 <= q)%Z -> exists g, rng_ok g /\
  forall st, exists D X st' d01 d10, moore_space_distance_matrix g st 2 q = Ok ((D, X), st') /\
    length X = 2%nat /\ at2 None D 0 1 = Some d01 /\ at2 None D 1 0 = Some d10 /\ d01 < d10.
Proof.
  intros q Hq. set (al := 5 * (PI / (2 * IZR q))). pose proof (COS_bound al) as Hc. pose proof (SIN_bound al) as Hs.
  set (f := fun k => match k with O => 0 | S O => 1 / 2 | S (S O) => (1 - 1 / 2 * cos al) / 2 | S (S (S O)) => (1 - 1 / 2 * sin al) / 2 | _ => 0 end).
  exists (stream_rng f). split; [apply stream_ok; intros [|[|[|[|k]]]]; unfold f; lra|].
  intros st.
  assert (EX : filter (fun x => Rleb (vnorm x) 1) (map (map (fun x => (x - 1 / 2) * 2))
     (in_rows (Z.to_nat 2) 2 (fst (np_random (stream_rng f) (np_seed (stream_rng f) 0) (Z.to_nat 2 * 2))))) = [[-1; 0]; asym_y q]).
  { change (Z.to_nat 2) with 2%nat.
    assert (Em : map (map (fun x => (x - 1 / 2) * 2)) (in_rows 2 2 (fst (np_random (stream_rng f) (np_seed (stream_rng f) 0) (2 * 2)))) = [[-1; 0]; asym_y q]).
    { cbn. unfold asym_y. fold al. replace ((0 - 1 / 2) * 2) with (-1) by field. replace ((1 / 2 - 1 / 2) * 2) with 0 by field.
      replace (((1 - 1 / 2 * cos al) / 2 - 1 / 2) * 2) with (- (1 / 2 * cos al)) by field.
      replace (((1 - 1 / 2 * sin al) / 2 - 1 / 2) * 2) with (- (1 / 2 * sin al)) by field. reflexivity. }
    rewrite Em. cbn [filter]. 
    assert (E1 : Rleb (vnorm [-1; 0]) 1 = true).
    { unfold Rleb. destruct (Rle_dec _ _) as [|H]; [reflexivity|]. exfalso. apply H. rewrite (vnorm_inner 2) by reflexivity. rewrite inner2. cbn [nth].
      rewrite <- sqrt_1 at 1. apply sqrt_le_1_alt. lra. }
    assert (E2 : Rleb (vnorm (asym_y q)) 1 = true).
    { unfold Rleb. destruct (Rle_dec _ _) as [|H]; [reflexivity|]. exfalso. apply H. rewrite (vnorm_inner 2) by reflexivity. rewrite asym_y_facts.
      rewrite <- sqrt_1 at 2. apply sqrt_le_1_alt. lra. }
    rewrite E1, E2. reflexivity. }
  pose proof (moore_run (stream_rng f) st 2 q ltac:(lia) ltac:(lia)) as Hrun. cbv zeta in Hrun. rewrite EX in Hrun.
  destruct Hrun as [_ [D [st' [E [_ Hij]]]]].
  { constructor; [rewrite inner2; cbn [nth]; lra|]. constructor; [rewrite asym_y_facts; lra|constructor]. }
  destruct (Hij 0%nat 1%nat ltac:(cbn; lia) ltac:(cbn; lia)) as [d01 [E01 [_ [_ M01]]]].
  destruct (Hij 1%nat 0%nat ltac:(cbn; lia) ltac:(cbn; lia)) as [d10 [E10 [_ [_ M10]]]].
  exists D, [[-1; 0]; asym_y q], st', d01, d10. split; [exact E|]. split; [reflexivity|]. split; [exact E01|]. split; [exact E10|].
  apply (moore_asymmetric q); [exact Hq|exact M01|exact M10].
Qed.
Print Assumptions C71_symmetric_refuted.

(** q = 0 and negative numbers of points. *)
Theorem C71_errors : forall g st n q,
  ((n < 0)%Z -> moore_space_distance_matrix g st n q = Raise ValueError) /\
  ((0 <= n)%Z -> moore_space_distance_matrix g st n 0 = Raise ZeroDivisionError).
Proof.
  intros g st n q. unfold moore_space_distance_matrix. rewrite (seeded_ok g 0) by (split; lia). cbn [bind]. split; intros H.
  - replace (0 <=? n)%Z with false by (symmetry; apply Z.leb_gt; lia). reflexivity.
  - replace (0 <=? n)%Z with true by (symmetry; apply Z.leb_le; lia). destruct (np_random g (np_seed g 0) (Z.to_nat n * 2)). reflexivity.
Qed.
Print Assumptions C71_errors.

Example C71_met : exists g, rng_ok g /\ forall i, (i < 2)%nat ->
  ~ (nth (i * 2) (fst (np_random g (np_seed g 0) 4)) 0 = 1 / 2 /\ nth (i * 2 + 1) (fst (np_random g (np_seed g 0) 4)) 0 = 1 / 2).
Proof. exists (stream_rng (fun _ => 1 / 4)). split; [apply stream_ok; intros; lra|]. intros [|[|i]] Hi; try lia; cbn; lra. Qed.

(** * C77: line_patches *)

(** Entry (i,j) of patch (a,b) is the Gaussian of the signed distance of (x_i, y_j) from the line
    x cos t + y sin t + p = 0, with t sweeping [0, pi), p from -1 to 1 and x, y from -1/2 to 1/2;
    it is one exactly on the line. *)
Theorem C77_line_patches : forall dim n_angles n_offsets sigma,
  matrix (n_angles * n_offsets) (dim * dim) (line_patches dim n_angles n_offsets sigma) /\
  forall a b i j, (2 <= dim)%nat -> (2 <= n_offsets)%nat -> sigma <> 0 ->
    (a < n_angles)%nat -> (b < n_offsets)%nat -> (i < dim)%nat -> (j < dim)%nat ->
    let t := INR a * PI / INR n_angles in
    let p := -1 + 2 * INR b / INR (n_offsets - 1) in
    let x k := - (1 / 2) + INR k / INR (dim - 1) in
    let e := at2 0 (line_patches dim n_angles n_offsets sigma) (a * n_offsets + b) (i * dim + j) in
    e = exp (- ((x i * cos t + x j * sin t + p) / sigma) ^ 2) /\ 0 < e <= 1 /\
    (e = 1 <-> x i * cos t + x j * sin t + p = 0).
Proof.
  intros dim n_angles n_offsets sigma.
  assert (Hth : length (firstn n_angles (linspace 0 PI (n_angles + 1))) = n_angles) by (rewrite firstn_length; unfold linspace; rewrite mk1_length; lia).
  assert (Hpl : forall c s p, length (line_patch dim sigma c s p) = (dim * dim)%nat).
  { intros c s p. unfold line_patch. rewrite mk2_eq. rewrite (concat_length _ dim); [rewrite mk1_length; reflexivity|]. apply mk1_Forall. intros k _. apply mk1_length. }
  assert (Hrows : Forall (fun l => length l = n_offsets) (map (fun theta => map (fun p => line_patch dim sigma (cos theta) (sin theta) p) (linspace (-1) 1 n_offsets)) (firstn n_angles (linspace 0 PI (n_angles + 1))))).
  { apply Forall_forall. intros l Hl. apply in_map_iff in Hl. destruct Hl as [z [<- _]]. rewrite map_length. apply mk1_length. }
  split.
  - unfold line_patches. split.
    + rewrite (concat_length _ n_offsets) by exact Hrows. rewrite map_length, Hth. reflexivity.
    + apply Forall_forall. intros r Hr. apply in_concat in Hr. destruct Hr as [l [Hl Hr]]. apply in_map_iff in Hl. destruct Hl as [z [<- _]].
      apply in_map_iff in Hr. destruct Hr as [p [<- _]]. apply Hpl.
  - intros a b i j Hd Ho Hsig Ha Hb Hi Hj t p x e.
    assert (E : e = exp (- ((x i * cos t + x j * sin t + p) / sigma) ^ 2)).
    { unfold e, line_patches, at2. rewrite (concat_nth [] _ n_offsets Hrows) by (try rewrite map_length, Hth; assumption).
      rewrite (nth_indep _ [] ((fun theta => map (fun p => line_patch dim sigma (cos theta) (sin theta) p) (linspace (-1) 1 n_offsets)) 0)) by (rewrite map_length, Hth; exact Ha).
      rewrite (map_nth (fun theta => map (fun p => line_patch dim sigma (cos theta) (sin theta) p) (linspace (-1) 1 n_offsets))).
      set (th := nth a (firstn n_angles (linspace 0 PI (n_angles + 1))) 0).
      assert (Eth : th = t).
      { unfold th. rewrite <- (Nat.add_0_l a) at 1. assert (Hf : forall (l : list R) n k, (k < n)%nat -> nth k (firstn n l) 0 = nth k l 0).
        { clear. induction l as [|y l IH]; intros [|n] [|k] Hk; try lia; try reflexivity. cbn. apply IH. lia. }
        cbn [Nat.add]. rewrite Hf by exact Ha. unfold linspace. rewrite mk1_nth by lia.
        destruct (n_angles + 1 =? 1)%nat eqn:E1; [apply Nat.eqb_eq in E1; lia|]. unfold t. replace (n_angles + 1 - 1)%nat with n_angles by lia. field. apply not_0_INR. lia. }
      rewrite Eth. rewrite (nth_indep _ [] (line_patch dim sigma (cos t) (sin t) 0)) by (rewrite map_length; unfold linspace; rewrite mk1_length; exact Hb).
      rewrite (map_nth (fun p => line_patch dim sigma (cos t) (sin t) p)).
      assert (Ep : nth b (linspace (-1) 1 n_offsets) 0 = p).
      { unfold linspace. rewrite mk1_nth by exact Hb. destruct (n_offsets =? 1)%nat eqn:E1; [apply Nat.eqb_eq in E1; lia|]. unfold p. field. apply not_0_INR. lia. }
      rewrite Ep. unfold line_patch. rewrite mk2_eq. rewrite (concat_nth 0 _ dim); [| |rewrite mk1_length; exact Hi|exact Hj].
      2:{ apply mk1_Forall. intros k _. apply mk1_length. }
      rewrite mk1_nth by exact Hi. rewrite mk1_nth by exact Hj.
      assert (Ex : forall k, (k < dim)%nat -> nth k (linspace (- (1 / 2)) (1 / 2) dim) 0 = x k).
      { intros k Hk. unfold linspace. rewrite mk1_nth by exact Hk. destruct (dim =? 1)%nat eqn:E1; [apply Nat.eqb_eq in E1; lia|]. unfold x. field. apply not_0_INR. lia. }
      rewrite !Ex by assumption. f_equal. field. exact Hsig. }
    set (y := x i * cos t + x j * sin t + p) in *.
    assert (Hexp : forall z, exp (- z ^ 2) <= 1 /\ (exp (- z ^ 2) = 1 <-> z = 0)).
    { intros z. rewrite <- exp_0. pose proof (pow2_ge_0 z) as Hz. split.
      - destruct (Rle_lt_or_eq_dec _ _ Hz) as [H|H]; [left; apply exp_increasing; lra|right; f_equal; lra].
      - split; [intros H; apply exp_inv in H; destruct (Req_dec z 0) as [E0|E0]; [exact E0|]; pose proof (pow2_gt_0 z E0); lra|intros ->; f_equal; ring]. }
    split; [exact E|]. rewrite E. split; [split; [apply exp_pos|apply Hexp]|].
    rewrite (proj2 (Hexp _)). split; intros H.
    + unfold Rdiv in H. apply Rmult_integral in H. destruct H as [H|H]; [exact H|]. exfalso. apply (Rinv_neq_0_compat sigma Hsig). exact H.
    + rewrite H. unfold Rdiv. ring.
Qed.
Print Assumptions C77_line_patches.

(** The patch with the opposite offset is the patch turned by 180 degrees. *)
Theorem C77_half_turn : forall dim n_angles n_offsets sigma a b i j,
  (2 <= dim)%nat -> (2 <= n_offsets)%nat -> sigma <> 0 ->
  (a < n_angles)%nat -> (b < n_offsets)%nat -> (i < dim)%nat -> (j < dim)%nat ->
  at2 0 (line_patches dim n_angles n_offsets sigma) (a * n_offsets + (n_offsets - 1 - b)) ((dim - 1 - i) * dim + (dim - 1 - j))
  = at2 0 (line_patches dim n_angles n_offsets sigma) (a * n_offsets + b) (i * dim + j).
Proof.
  intros dim na no sigma a b i j Hd Ho Hs Ha Hb Hi Hj. destruct (C77_line_patches dim na no sigma) as [_ H].
  pose proof (H a b i j Hd Ho Hs Ha Hb Hi Hj) as [-> _].
  pose proof (H a (no - 1 - b)%nat (dim - 1 - i)%nat (dim - 1 - j)%nat Hd Ho Hs Ha ltac:(lia) ltac:(lia) ltac:(lia)) as [-> _].
  assert (E : forall n k, (2 <= n)%nat -> (k < n)%nat -> INR (n - 1 - k) / INR (n - 1) = 1 - INR k / INR (n - 1)).
  { intros n k Hn Hk. rewrite minus_INR by lia. field. apply not_0_INR. lia. }
  f_equal. f_equal. unfold Rdiv at 1. rewrite (E dim i Hd Hi), (E dim j Hd Hj).
  replace (2 * INR (no - 1 - b) / INR (no - 1)) with (2 * (INR (no - 1 - b) / INR (no - 1))) by (field; apply not_0_INR; lia). rewrite (E no b Ho Hb).
  field. repeat split; try exact Hs; apply not_0_INR; lia.
Qed.
Print Assumptions C77_half_turn.

(** * C78: rp2_metric *)

(** If no raw vector is zero, the points are unit vectors and the matrix is the projective arc
    length: a pseudometric with values in [0, pi/2], zero exactly between equal or antipodal points. *)
Theorem C78_rp2 : forall g st n seed s, rng_ok g -> (0 <= n)%Z -> effective_seed seed n s -> valid_seed s ->
  let raw := fst (np_randn g (np_seed g s) (Z.to_nat n * 3)) in
  (forall i, (i < Z.to_nat n)%nat -> [nth (i * 3) raw 0; nth (i * 3 + 1) raw 0; nth (i * 3 + 2) raw 0] <> [0; 0; 0]) ->
  exists X D st', rp2_metric g st n seed = Ok (Some (X, D), st') /\
    length X = Z.to_nat n /\ matrix (Z.to_nat n) (Z.to_nat n) D /\
    (forall i, (i < Z.to_nat n)%nat -> direction 3 [nth (i * 3) raw 0; nth (i * 3 + 1) raw 0; nth (i * 3 + 2) raw 0] (nth i X [])) /\
    pseudometric (Z.to_nat n) (at2 0 D) /\
    forall i j, (i < Z.to_nat n)%nat -> (j < Z.to_nat n)%nat ->
      cos (at2 0 D i j) = Rabs (inner 3 (nth i X []) (nth j X [])) /\ 0 <= at2 0 D i j <= PI / 2 /\
      (at2 0 D i j = 0 <-> nth i X [] = nth j X [] \/ nth i X [] = negated (nth j X [])).
Proof.
  intros g st n seed s _ Hn Hs Hv raw Hz. unfold rp2_metric. rewrite (effective _ _ _ Hs), (seeded_ok _ _ Hv). cbn [bind].
  replace (0 <=? n)%Z with true by (symmetry; apply Z.leb_le; lia). unfold raw in *. clear raw.
  destruct (np_randn g (np_seed g s) (Z.to_nat n * 3)) as [w st1]. cbn [fst] in *.
  set (N := Z.to_nat n) in *.
  assert (Hsome : forall k, (k <= N)%nat -> exists X, all_some (normalised_rows (map (fun i => mk1 3 (fun j => nth (i * 3 + j) w 0)) (seq (N - k) k))) = Some X /\ length X = k /\
      forall i, (i < k)%nat -> direction 3 [nth ((N - k + i) * 3) w 0; nth ((N - k + i) * 3 + 1) w 0; nth ((N - k + i) * 3 + 2) w 0] (nth i X [])).
  { induction k as [|k IH]; intros Hk.
    - exists []. split; [reflexivity|]. split; [reflexivity|]. intros i Hi. lia.
    - destruct IH as [X [EX [HX Hd]]]; [lia|]. cbn [seq map normalised_rows all_some].
      set (v := mk1 3 (fun j => nth ((N - S k) * 3 + j) w 0)).
      assert (Ev : v = [nth ((N - S k) * 3) w 0; nth ((N - S k) * 3 + 1) w 0; nth ((N - S k) * 3 + 2) w 0]).
      { unfold v, mk1. cbn [seq map]. replace ((N - S k) * 3 + 0)%nat with ((N - S k) * 3)%nat by lia. reflexivity. }
      assert (Hnz : inner 3 v v <> 0).
      { intros H0. apply (Hz (N - S k)%nat ltac:(lia)). rewrite <- Ev. pose proof (inner_self_0 3 v H0) as Hc.
        pose proof (Hc 0%nat ltac:(lia)) as Z0. pose proof (Hc 1%nat ltac:(lia)) as Z1. pose proof (Hc 2%nat ltac:(lia)) as Z2. rewrite Ev in *. cbn [nth] in *. rewrite Z0, Z1, Z2. reflexivity. }
      destruct (normalise_nonzero 3 v eq_refl Hnz) as [u [Eu Du]]. unfold normalised_rows in EX. cbn [map]. rewrite Eu.
      replace (S (N - S k)) with (N - k)%nat by lia. rewrite EX. exists (u :: X). split; [reflexivity|]. split; [cbn; rewrite HX; reflexivity|].
      intros [|i] Hi.
      + cbn [nth]. replace (N - S k + 0)%nat with (N - S k)%nat by lia. rewrite <- Ev. exact Du.
      + cbn [nth]. replace (N - S k + S i)%nat with (N - k + i)%nat by lia. apply Hd. lia. }
  destruct (Hsome N (Nat.le_refl N)) as [X [EX [HX Hd]]]. replace (N - N)%nat with 0%nat in EX, Hd by lia.
  change (in_rows N 3 w) with (map (fun i => mk1 3 (fun j => nth (i * 3 + j) w 0)) (seq 0 N)). rewrite EX.
  cbn [Nat.add] in Hd.
  assert (Hu : Forall (unit_vector 3) X).
  { apply Forall_forall. intros x Hx. destruct (In_nth _ _ [] Hx) as [i [Hi <-]]. rewrite HX in Hi. apply (Hd i Hi). }
  destruct (PropGeometry.C65_projective_metric 3 X X Hu Hu) as [dist [ED Hdist]]. rewrite ED. cbn [bind].
  set (D := map (fun x => map (dist x) X) X) in *. exists X, D, st1. split; [reflexivity|]. split; [exact HX|].
  assert (HD : matrix N N D).
  { split; [unfold D; rewrite map_length; exact HX|]. apply Forall_forall. intros r Hr. apply in_map_iff in Hr. destruct Hr as [x [<- _]]. rewrite map_length. exact HX. }
  split; [exact HD|]. split; [exact Hd|].
  assert (E : forall i j, (i < N)%nat -> (j < N)%nat -> at2 0 D i j = dist (nth i X []) (nth j X [])).
  { intros i j Hi Hj. unfold at2, D. rewrite (nth_indep _ [] ((fun x => map (dist x) X) [])) by (rewrite map_length; lia). rewrite (map_nth (fun x => map (dist x) X)).
    rewrite (nth_indep _ 0 (dist (nth i X []) [])) by (rewrite map_length; lia). apply map_nth. }
  assert (Hux : forall i, (i < N)%nat -> unit_vector 3 (nth i X [])) by (intros i Hi; apply (Hd i Hi)).
  destruct (PropGeometry.C65_range 3 X X) as [D' [ED' [_ HR]]]. rewrite ED in ED'. injection ED' as <-. fold D in HR.
  assert (Hrange : forall i j, (i < N)%nat -> (j < N)%nat -> 0 <= at2 0 D i j <= PI / 2).
  { intros i j Hi Hj. rewrite Forall_forall in HR. destruct HD as [HD1 HD2]. rewrite Forall_forall in HD2.
    assert (Hin : In (nth i D []) D) by (apply nth_In; lia). specialize (HR _ Hin). rewrite Forall_forall in HR. apply HR. apply nth_In. rewrite (HD2 _ Hin). exact Hj. }
  split; [split; [|split]|].
  - intros i Hi. rewrite E by assumption. apply (Hdist (nth i X []) (nth i X []) (nth i X [])); auto.
  - intros i j Hi Hj. split; [apply Hrange; assumption|]. rewrite !E by assumption. apply (Hdist (nth i X []) (nth j X []) (nth j X [])); auto.
  - intros i j k Hi Hj Hk. rewrite !E by assumption. apply (Hdist (nth i X []) (nth j X []) (nth k X [])); auto.
  - intros i j Hi Hj. split; [|split; [apply Hrange; assumption|]]; rewrite E by assumption; apply (Hdist (nth i X []) (nth j X []) (nth j X [])); auto.
Qed.
Print Assumptions C78_rp2.

Example C78_met : exists g, rng_ok g /\ forall i, (i < 2)%nat ->
  let raw := fst (np_randn g (np_seed g 2) 6) in [nth (i * 3) raw 0; nth (i * 3 + 1) raw 0; nth (i * 3 + 2) raw 0] <> [0; 0; 0].
Proof.
  exists (stream_rng (fun _ => 1 / 4)). split; [apply stream_ok; intros; lra|]. intros [|[|i]] Hi; try lia; cbn; intros E; injection E; intros; lra.
Qed.

(** * C79: genus_two_surface *)

(** The samples are points of two tori of radii 5 and 2 whose centres are 9 apart, cut at the plane
    between them; the plane is a mirror of the sample; and the sample is not empty on either side. *)
Theorem C79_genus_two : 
  (forall v, In v genus_two_surface -> exists x y z, v = [x; y; z] /\
     ((x <= 9 / 2 /\ on_torus 5 2 [x; y; z]) \/ (9 / 2 <= x /\ on_torus 5 2 [x - 9; y; z]))) /\
  (forall x y z, In [x; y; z] genus_two_surface -> In [9 - x; y; z] genus_two_surface) /\
  In [-7; 0; 0] genus_two_surface /\ In [16; 0; 0] genus_two_surface.
Proof.
  set (Y := map (fun st => torus_point 5 2 (fst st) (snd st)) genus_two_parameters).
  assert (Hmem : forall v, In v genus_two_surface <-> exists s t, In (s, t) genus_two_parameters /\
     ((v = torus_point 5 2 s t /\ nth 0 v 0 <= 9 / 2) \/ (v = shifted 9 (torus_point 5 2 s t) /\ 9 / 2 <= nth 0 v 0))).
  { intros v. unfold genus_two_surface. rewrite in_app_iff, !filter_In, !in_map_iff.
    assert (HR : forall x y, Rleb x y = true <-> x <= y).
    { intros x y. unfold Rleb. destruct (Rle_dec x y); split; auto; discriminate. }
    rewrite !HR. split.
    - intros [[[[s t] [E H]] Hc]|[[[s t] [E H]] Hc]]; exists s, t; (split; [exact H|]); [left|right]; cbn [fst snd] in E; subst v; auto.
    - intros [s [t [H [[-> Hc]|[-> Hc]]]]]; [left|right]; (split; [exists (s, t); split; [reflexivity|exact H]|exact Hc]). }
  assert (Hpar : forall s t, In (s, t) genus_two_parameters <-> exists i k, (i < 80)%nat /\ (k < 120)%nat /\ s = INR i * (2 * PI / 80) /\ t = INR k * (2 * PI / 120)).
  { intros s t. unfold genus_two_parameters, linspace_open. rewrite in_prod_iff, !mk1_In.
    replace (INR 80) with 80 by (rewrite INR_IZR_INZ; reflexivity). replace (INR 120) with 120 by (rewrite INR_IZR_INZ; reflexivity). split.
    - intros [[i [Hi ->]] [k [Hk ->]]]. exists i, k. split; [exact Hi|]. split; [exact Hk|]. split; field.
    - intros [i [k [Hi [Hk [-> ->]]]]]. split; [exists i|exists k]; (split; [assumption|field]). }
  assert (Hmir : forall s t, In (s, t) genus_two_parameters -> exists t', In (s, t') genus_two_parameters /\ cos t' = - cos t /\ sin t' = sin t).
  { intros s t H. apply Hpar in H. destruct H as [i [k [Hi [Hk [-> ->]]]]].
    destruct (Nat.le_gt_cases k 60) as [Hle|Hgt].
    - exists (INR (60 - k) * (2 * PI / 120)). split; [apply Hpar; exists i, (60 - k)%nat; split; [lia|]; split; [lia|auto]|].
      rewrite minus_INR by exact Hle. replace (INR 60) with 60 by (rewrite INR_IZR_INZ; reflexivity).
      replace ((60 - INR k) * (2 * PI / 120)) with (PI - INR k * (2 * PI / 120)) by field.
      rewrite cos_minus, sin_minus, cos_PI, sin_PI. split; ring.
    - exists (INR (180 - k) * (2 * PI / 120)). split; [apply Hpar; exists i, (180 - k)%nat; split; [lia|]; split; [lia|auto]|].
      rewrite minus_INR by lia. replace (INR 180) with 180 by (rewrite INR_IZR_INZ; reflexivity).
      replace ((180 - INR k) * (2 * PI / 120)) with (PI - INR k * (2 * PI / 120) + 2 * INR 1 * PI) by (cbn; field).
      rewrite cos_period, sin_period, cos_minus, sin_minus, cos_PI, sin_PI. split; ring. }
  assert (Hrefl : forall x y z, In [x; y; z] genus_two_surface -> In [9 - x; y; z] genus_two_surface).
  { intros x y z H. apply Hmem in H. destruct H as [s [t [Hp H]]]. destruct (Hmir s t Hp) as [t' [Hp' [Hc Hs]]]. apply Hmem. exists s, t'. split; [exact Hp'|].
    unfold torus_point, shifted in *. rewrite Hc, Hs. destruct H as [[E Hle]|[E Hle]]; injection E as E1 E2 E3; cbn [nth] in *; [right|left].
    - split; [|lra]. rewrite E1, E2, E3. f_equal. ring.
    - split; [|lra]. rewrite E1, E2, E3. f_equal. ring. }
  split; [|split; [exact Hrefl|]].
  - intros v Hv. apply Hmem in Hv. destruct Hv as [s [t [_ [[-> Hc]|[-> Hc]]]]]; pose proof (torus_point_on 5 2 s t) as Ht.
    + unfold torus_point in *. eexists. eexists. eexists. split; [reflexivity|]. left. split; [exact Hc|exact Ht].
    + unfold torus_point, shifted in *. eexists. eexists. eexists. split; [reflexivity|]. right. split; [exact Hc|].
      match goal with |- on_torus 5 2 [9 + ?a - 9; _; _] => replace (9 + a - 9) with a by ring end. exact Ht.
  - assert (H7 : In [-7; 0; 0] genus_two_surface).
    { apply Hmem. exists (INR 0 * (2 * PI / 80)), (INR 60 * (2 * PI / 120)). split; [apply Hpar; exists 0%nat, 60%nat; split; [lia|]; split; [lia|auto]|]. left.
      replace (INR 60) with 60 by (rewrite INR_IZR_INZ; reflexivity). replace (60 * (2 * PI / 120)) with PI by field. cbn [INR]. rewrite Rmult_0_l.
      unfold torus_point. rewrite cos_0, sin_0, cos_PI, sin_PI. cbn [nth]. split; [|lra]. f_equal; [ring|f_equal; [ring|f_equal; ring]]. }
    split; [exact H7|]. replace 16 with (9 - -7) by ring. apply Hrefl. exact H7.
Qed.
Print Assumptions C79_genus_two.

(** * C80: trefoil *)

(** Each sample is at distance exactly one from the point at parameter u of a closed trefoil curve;
    without noise it is the point with v = 0, so not on the curve itself. *)
Theorem C80_trefoil : forall g st n width noisy, rng_ok g -> (0 <= n)%Z ->
  (forall u, trefoil_core width (u + 4 * PI) = trefoil_core width u) /\
  exists X st', trefoil g st n width noisy = Ok (X, st') /\ length X = Z.to_nat n /\
    forall i, (i < Z.to_nat n)%nat -> exists u, 0 <= u < 4 * PI /\ euclid 3 (nth i X []) (trefoil_core width u) = 1 /\
      (noisy = false -> u = 4 * PI * INR i / IZR n /\
         forall j, (j < 3)%nat -> nth j (nth i X []) 0 = nth j (trefoil_core width u) 0 + nth j [cos u; sin u; 0] 0).
Proof.
  intros g st n width noisy Hg Hn. pose proof PI_RGT_0 as HPI. split.
  { intros u. unfold trefoil_core. replace (u + 4 * PI) with (u + 2 * INR 2 * PI) by (cbn; ring). rewrite cos_period, sin_period.
    replace (3 / 2 * (u + 2 * INR 2 * PI)) with (3 / 2 * u + 2 * INR 3 * PI) by (cbn; field). rewrite cos_period, sin_period. reflexivity. }
  assert (Hdist : forall u v, euclid 3 (trefoil_noisy_point width u v) (trefoil_core width u) = 1).
  { intros u v. unfold euclid. cbn [sumn]. unfold trefoil_noisy_point, trefoil_core. cbn [nth]. rewrite <- sqrt_1. f_equal.
    transitivity ((cos u ^ 2 + sin u ^ 2) * cos v ^ 2 + sin v ^ 2); [ring|]. rewrite cos2_sin2, Rmult_1_l. apply cos2_sin2. }
  assert (Ept : forall u, trefoil_point width u = trefoil_noisy_point width u 0).
  { intros u. unfold trefoil_point, trefoil_noisy_point. rewrite cos_0, sin_0. f_equal; [ring|f_equal; [ring|f_equal; ring]]. }
  unfold trefoil. rewrite (seeded_ok g 0) by (split; lia). cbn [bind]. replace (0 <=? n)%Z with true by (symmetry; apply Z.leb_le; lia).
  destruct noisy.
  - pose proof (Hg (np_seed g 0) (Z.to_nat n)) as [Hl [Hu _]].
    destruct (np_random g (np_seed g 0) (Z.to_nat n)) as [u st1]. destruct (np_random g st1 (Z.to_nat n)) as [v st2]. cbn [fst] in *.
    eexists. eexists. split; [reflexivity|]. split; [apply mk1_length|]. intros i Hi. rewrite mk1_nth by exact Hi. exists (4 * PI * nth i u 0).
    assert (Hb : 0 <= nth i u 0 < 1) by (rewrite Forall_forall in Hu; apply Hu; apply nth_In; lia).
    split; [split; [nra|]|split; [apply Hdist|discriminate]].
    replace (4 * PI) with (4 * PI * 1) at 2 by ring. apply Rmult_lt_compat_l; lra.
  - eexists. eexists. split; [reflexivity|]. split; [rewrite map_length; apply mk1_length|]. intros i Hi.
    rewrite (nth_indep _ [] ((fun u => trefoil_point width (4 * PI * u)) 0)) by (rewrite map_length; unfold linspace_open; rewrite mk1_length; exact Hi).
    rewrite (map_nth (fun u => trefoil_point width (4 * PI * u))). unfold linspace_open. rewrite mk1_nth by exact Hi.
    assert (HN : INR (Z.to_nat n) = IZR n) by (rewrite INR_IZR_INZ, Z2Nat.id by lia; reflexivity). rewrite HN.
    assert (Hnp : 0 < IZR n) by (apply (IZR_lt 0); lia).
    assert (HiR : 0 <= INR i < IZR n) by (split; [apply pos_INR|rewrite <- HN; apply lt_INR; exact Hi]).
    replace (4 * PI * (0 + INR i * ((1 - 0) / IZR n))) with (4 * PI * INR i / IZR n) by (field; lra).
    exists (4 * PI * INR i / IZR n). split; [split|split].
    + apply Rmult_le_pos; [nra|left; apply Rinv_0_lt_compat; lra].
    + apply (Rmult_lt_reg_r (IZR n)); [lra|]. unfold Rdiv. rewrite Rmult_assoc, Rinv_l by lra. nra.
    + rewrite Ept. apply Hdist.
    + intros _. split; [reflexivity|]. intros [|[|[|j]]] Hj; try lia; unfold trefoil_point, trefoil_core; cbn [nth]; ring.
Qed.
Print Assumptions C80_trefoil.

(** * C81: bullseye and three_circles *)

Lemma circle_points_on a cx cy n : length (circle_points a cx cy n) = n /\ Forall (on_circle a cx cy) (circle_points a cx cy n).
Proof.
  unfold circle_points, linspace_open. split; [rewrite map_length; apply mk1_length|]. apply Forall_forall. intros v Hv. apply in_map_iff in Hv. destruct Hv as [t [<- _]].
  eexists. eexists. split; [reflexivity|]. pose proof (cos2_sin2 t). replace ((a * sin t + cx - cx) ^ 2 + (a * cos t + cy - cy) ^ 2) with (a ^ 2 * (cos t ^ 2 + sin t ^ 2)) by ring. rewrite H. ring.
Qed.
Lemma perturbed_near eps X noise : 0 <= eps -> Forall (fun x => length x = 2%nat) X -> length noise = (length X * 2)%nat ->
  Forall (fun u => 0 <= u < 1) noise ->
  length (perturbed eps X noise) = length X /\
  forall i, (i < length X)%nat -> length (nth i (perturbed eps X noise) []) = 2%nat /\ euclid 2 (nth i (perturbed eps X noise) []) (nth i X []) <= eps * sqrt (1 / 2).
Proof.
  intros He HX Hl Hu. unfold perturbed. rewrite mk2_eq. split; [apply mk1_length|]. intros i Hi. rewrite mk1_nth by exact Hi. split; [apply mk1_length|].
  rewrite euclid2. rewrite !mk1_nth by lia. rewrite <- (sqrt_pow2 eps) at 3 by exact He. rewrite <- sqrt_mult by (try apply pow2_ge_0; lra).
  apply sqrt_le_1_alt. unfold at2. rewrite Forall_forall in Hu.
  pose proof (Hu (nth (i * 2 + 0) noise 0) ltac:(apply nth_In; lia)) as B0. pose proof (Hu (nth (i * 2 + 1) noise 0) ltac:(apply nth_In; lia)) as B1.
  set (e0 := nth (i * 2 + 0) noise 0) in *. set (e1 := nth (i * 2 + 1) noise 0) in *. pose proof (pow2_ge_0 eps).
  match goal with |- ?l <= _ => replace l with (eps ^ 2 * ((e0 - 1 / 2) ^ 2 + (e1 - 1 / 2) ^ 2)) by ring end.
  apply Rmult_le_compat_l; [assumption|]. nra.
Qed.
Lemma on_circle_length a cx cy v : on_circle a cx cy v -> length v = 2%nat.
Proof. intros [x [y [-> _]]]. reflexivity. Qed.

(** bullseye: 600 samples, those numbered 200 (k-1) to 200 k - 1 within 0.1/sqrt 2 of the circle
    of radius k around the origin. *)
Theorem C81_bullseye : forall g st, rng_ok g -> exists X st', bullseye g st = Ok (X, st') /\ length X = 600%nat /\
  forall i, (i < 600)%nat -> exists c, on_circle (INR (i / 200 + 1)) 0 0 c /\ length (nth i X []) = 2%nat /\ euclid 2 (nth i X []) c <= 1 / 10 * sqrt (1 / 2).
Proof.
  intros g st Hg. unfold bullseye. destruct (circle_points_on 1 0 0 200) as [L1 C1]. destruct (circle_points_on 2 0 0 200) as [L2 C2]. destruct (circle_points_on 3 0 0 200) as [L3 C3].
  set (c1 := circle_points 1 0 0 200) in *. set (c2 := circle_points 2 0 0 200) in *. set (c3 := circle_points 3 0 0 200) in *.
  set (X := c1 ++ c2 ++ c3). assert (HX : length X = 600%nat) by (unfold X; rewrite !app_length, L1, L2, L3; reflexivity).
  rewrite (seeded_ok g 0) by (split; lia). cbn [bind]. destruct (Hg (np_seed g 0) (length X * 2)%nat) as [Hl [Hu _]].
  destruct (np_random g (np_seed g 0) (length X * 2)) as [noise st1]. cbn [fst] in *.
  assert (HF : Forall (fun x => length x = 2%nat) X).
  { unfold X. rewrite !Forall_app. split; [|split]; eapply Forall_impl; try eassumption; intros v Hv; eapply on_circle_length; exact Hv. }
  destruct (perturbed_near (1 / 10) X noise ltac:(lra) HF Hl Hu) as [PL PN]. eexists. eexists. split; [reflexivity|]. split; [rewrite PL; exact HX|].
  intros i Hi. exists (nth i X []). destruct (PN i ltac:(lia)) as [P1 P2]. split; [|split; [exact P1|exact P2]].
  rewrite Forall_forall in C1, C2, C3. unfold X.
  destruct (Nat.lt_ge_cases i 200) as [H1|H1].
  - rewrite app_nth1 by lia. replace (i / 200)%nat with 0%nat by (symmetry; apply Nat.div_small; exact H1). cbn [INR Nat.add]. apply C1. apply nth_In. lia.
  - rewrite app_nth2 by lia. destruct (Nat.lt_ge_cases i 400) as [H2|H2].
    + rewrite app_nth1 by lia. replace (i / 200)%nat with 1%nat by (apply (Nat.div_unique i 200 1 (i - 200)); lia). replace (INR (1 + 1)) with 2 by (cbn; ring). apply C2. apply nth_In. lia.
    + rewrite app_nth2 by lia. replace (i / 200)%nat with 2%nat by (apply (Nat.div_unique i 200 2 (i - 400)); lia). replace (INR (2 + 1)) with 3 by (cbn; ring). apply C3. apply nth_In. lia.
Qed.
Print Assumptions C81_bullseye.

(** three_circles: 50 samples near the unit circle, 500 near the circle of radius 2 around (4,0), 500
    near the circle of radius 2.5 around (-4,0), within 0.3/sqrt 2. *)
Theorem C81_three_circles : forall g st, rng_ok g -> exists X st', three_circles g st = Ok (X, st') /\ length X = 1050%nat /\
  forall i, (i < 1050)%nat -> exists c, length (nth i X []) = 2%nat /\ euclid 2 (nth i X []) c <= 3 / 10 * sqrt (1 / 2) /\
    (((i < 50)%nat /\ on_circle 1 0 0 c) \/ ((50 <= i < 550)%nat /\ on_circle 2 4 0 c) \/ ((550 <= i)%nat /\ on_circle (5 / 2) (-4) 0 c)).
Proof.
  intros g st Hg. unfold three_circles. destruct (circle_points_on 1 0 0 50) as [L1 C1]. destruct (circle_points_on 2 4 0 500) as [L2 C2]. destruct (circle_points_on (5 / 2) (-4) 0 500) as [L3 C3].
  set (c1 := circle_points 1 0 0 50) in *. set (c2 := circle_points 2 4 0 500) in *. set (c3 := circle_points (5 / 2) (-4) 0 500) in *.
  set (X := c1 ++ c2 ++ c3). assert (HX : length X = 1050%nat) by (unfold X; rewrite !app_length, L1, L2, L3; reflexivity).
  rewrite (seeded_ok g 0) by (split; lia). cbn [bind]. destruct (Hg (np_seed g 0) (length X * 2)%nat) as [Hl [Hu _]].
  destruct (np_random g (np_seed g 0) (length X * 2)) as [noise st1]. cbn [fst] in *.
  assert (HF : Forall (fun x => length x = 2%nat) X).
  { unfold X. rewrite !Forall_app. split; [|split]; eapply Forall_impl; try eassumption; intros v Hv; eapply on_circle_length; exact Hv. }
  destruct (perturbed_near (3 / 10) X noise ltac:(lra) HF Hl Hu) as [PL PN]. eexists. eexists. split; [reflexivity|]. split; [rewrite PL; exact HX|].
  intros i Hi. exists (nth i X []). destruct (PN i ltac:(lia)) as [P1 P2]. split; [exact P1|]. split; [exact P2|].
  rewrite Forall_forall in C1, C2, C3. unfold X.
  destruct (Nat.lt_ge_cases i 50) as [H1|H1].
  - left. split; [exact H1|]. rewrite app_nth1 by lia. apply C1. apply nth_In. lia.
  - right. rewrite app_nth2 by lia. destruct (Nat.lt_ge_cases i 550) as [H2|H2].
    + left. split; [lia|]. rewrite app_nth1 by lia. apply C2. apply nth_In. lia.
    + right. split; [lia|]. rewrite app_nth2 by lia. apply C3. apply nth_In. lia.
Qed.
Print Assumptions C81_three_circles.

(** * C82: reproducibility *)

(** Whatever was drawn before, a call with the same arguments gives the same result and leaves the
    generator in the same state. *)
Theorem C82_reproducible : forall g st st' n R0 r width noise_size noisy seed s q,
  rp2_metric g st n seed = rp2_metric g st' n seed /\
  torus_3d g st n R0 r seed = torus_3d g st' n R0 r seed /\
  klein_bottle_4d g st n R0 r seed = klein_bottle_4d g st' n R0 r seed /\
  trefoil g st n width noisy = trefoil g st' n width noisy /\
  bullseye g st = bullseye g st' /\ three_circles g st = three_circles g st' /\
  sphere g st n = sphere g st' n /\
  noisy_circle g st n noise_size s = noisy_circle g st' n noise_size s /\
  moore_space_distance_matrix g st n q = moore_space_distance_matrix g st' n q.
Proof. intros. repeat split. Qed.
Print Assumptions C82_reproducible.

(** An omitted seed means the number of samples; seeds outside 0..2^32-1 and negative numbers of
    samples raise ValueError -- so do 2^32 samples or more when the seed is omitted. *)
Theorem C82_seeds : forall g st n R0 r noise_size seed s,
  (torus_3d g st n R0 r None = torus_3d g st n R0 r (Some n) /\
   klein_bottle_4d g st n R0 r None = klein_bottle_4d g st n R0 r (Some n) /\
   rp2_metric g st n None = rp2_metric g st n (Some n)) /\
  (effective_seed seed n s -> ~ valid_seed s \/ (n < 0)%Z ->
   torus_3d g st n R0 r seed = Raise ValueError /\ klein_bottle_4d g st n R0 r seed = Raise ValueError /\
   rp2_metric g st n seed = Raise ValueError /\ noisy_circle g st n noise_size s = Raise ValueError) /\
  ((n < 0)%Z -> sphere g st n = Raise ValueError).
Proof.
  intros g st n R0 r noise_size seed s. split; [repeat split|]. split.
  - intros Hs H. assert (HS : random_seed g s = Raise ValueError \/ (random_seed g s = Ok (np_seed g s) /\ (0 <=? n)%Z = false)).
    { unfold random_seed. destruct (0 <=? s)%Z eqn:E1; [|left; reflexivity]. destruct (s <? 2 ^ 32)%Z eqn:E2; [|left; reflexivity]. right. split; [reflexivity|].
      apply Z.leb_le in E1. apply Z.ltb_lt in E2. apply Z.leb_gt. destruct H as [H|H]; [|exact H]. exfalso. apply H. split; lia. }
    unfold torus_3d, klein_bottle_4d, rp2_metric, noisy_circle. rewrite (effective _ _ _ Hs).
    destruct HS as [->|[-> ->]]; repeat split.
  - intros H. unfold sphere. rewrite (seeded_ok g 0) by (split; lia). cbn [bind]. replace (0 <=? n)%Z with false by (symmetry; apply Z.leb_gt; lia). reflexivity.
Qed.
Print Assumptions C82_seeds.
