(** PropRoundMaps.v -- C100: the map utilities in double precision. *)
From Coq Require Import Reals Lra Lia ZArith List Psatz.
From Flocq Require Import Core.
From Verif Require Import Base RealBase RealSum SpecCircle CircleModel CircleProofs LLLModel ComplexBase MapUtilsModel MapUtilsProofs SpecRound RoundBase RoundModel RoundProofs
  RoundConstants RoundMapsModel RoundCProjAngles SpecRoundMaps RoundLensMap.
Import ListNotations.
Local Open Scope R_scope.

Lemma angle_range (angle_ : C -> R) z : 0 <= np_mod_d (angle_ z) two_pi_d <= two_pi_d.
Proof. destruct two_pi_bounds as [B D]. apply np_mod_range; [lra|exact D]. Qed.
Lemma is_angle_turn z A (j : Z) : is_angle z A -> is_angle z (A - 2 * PI * IZR j).
Proof. unfold is_angle. destruct (cos_minus_turns A j) as [-> ->]. tauto. Qed.
Lemma angle_arg (angle_ : C -> R) z : angle_sound angle_ -> exists A, is_angle z A /\ Rabs (np_mod_d (angle_ z) two_pi_d - A) <= 11 * bpow radix2 (-50).
Proof.
  intros H. destruct (H z) as (_ & B & A & IA & E). destruct (circle_of (angle_ z) A) as (j & J). exists (A - 2 * PI * IZR j). split; [apply is_angle_turn, IA|].
  assert (bpow radix2 (-50) * (Rabs (angle_ z) + 6) <= bpow radix2 (-50) * 10) by (apply Rmult_le_compat_l; [apply bpow_ge_0|lra]). lra.
Qed.

(** The coordinates drawn, for any sector [k] computed by the code. *)
Lemma lens_plane (angle_ abs_ : C -> R) (cos_ sin_ : R -> R) q k p2 : (1 <= q <= 64)%Z -> (0 <= k <= q)%Z -> angle_sound angle_ -> trig_sound cos_ cos -> trig_sound sin_ sin ->
  0 <= abs_ p2 <= 1 ->
  let phi := dbl (np_mod_d (angle_ p2) two_pi_d - dbl (dbl (dbl (2 * IZR k) * np_pi) / IZR q)) in
  exists A2, is_angle p2 A2 /\
    Rabs (dbl (abs_ p2 * cos_ phi) - abs_ p2 * cos (A2 - 2 * PI * IZR k / IZR q)) <= bpow radix2 (-44) /\
    Rabs (dbl (abs_ p2 * sin_ phi) - abs_ p2 * sin (A2 - 2 * PI * IZR k / IZR q)) <= bpow radix2 (-44).
Proof.
  intros Hq Hk HA HC HS Hr phi. destruct (HA p2) as (_ & B & A & IA & E). destruct (phi_close _ _ q k Hq Hk B E) as (j & J). fold phi in J.
  exists (A - 2 * PI * IZR j). split; [apply is_angle_turn, IA|].
  split; eapply planar_close; eauto using dbl_dbl, cos_lipschitz, sin_lipschitz.
Qed.

(** The computed angle [theta] and the height. *)
Theorem C100_lens : forall angle_ abs_ cos_ sin_ q p1 p2,
  angle_sound angle_ -> trig_sound cos_ cos -> trig_sound sin_ sin ->
  In q [2; 3; 5; 7; 11; 13; 19; 23; 31; 47; 53]%Z -> 0 <= abs_ p2 <= 1 ->
  exists x y z n A1 A2, lens_point_d angle_ abs_ cos_ sin_ q [p1; p2] = [Some x; Some y; Some z] /\
    is_angle p1 A1 /\ is_angle p2 A2 /\ drawn_at q n (abs_ p2) A1 A2 x y z.
Proof.
  intros angle_ abs_ cos_ sin_ q p1 p2 HA HC HS Hq Hr.
  assert (Q : (1 <= q <= 64)%Z /\ sectors_ok q = true).
  { cbn [In] in Hq. repeat (destruct Hq as [<-|Hq]; [split; [lia|vm_compute; reflexivity]|]). destruct Hq. }
  destruct Q as [Q S]. pose proof (angle_range angle_ p1) as G. set (arg := np_mod_d (angle_ p1) two_pi_d) in *.
  destruct (angle_arg angle_ p1 HA) as (A1 & I1 & E1). fold arg in E1. destruct (sector_range q arg Q G) as (N & _). pose proof (sector_right q arg Q S G) as K. set (n := Int_part (arg / lens_width_d q)) in *.
  destruct (lens_plane angle_ abs_ cos_ sin_ q n p2 Q N HA HC HS Hr) as (A2 & I2 & EX & EY).
  destruct (theta_close q arg A1 Q G E1) as [T1 T2]. fold n in T1, T2. destruct (root_close (abs_ p2) Hr) as (V0 & V1 & V2).
  unfold lens_point_d. cbn [nth]. fold arg. rewrite K. fold n. rewrite (proj2 (Rltb_false _ _)) by lra.
  eexists _, _, _, n, A1, A2. split; [reflexivity|]. split; [exact I1|]. split; [exact I2|]. unfold drawn_at; cbv zeta.
  split; [|split; [exact EX|split; [exact EY|]]].
  - change (bpow radix2 (-45)) with (/ 35184372088832). rewrite e50_val in T2. cbv zeta in T2 |- *. lra.
  - apply (height_close q); try assumption. split; [apply sqrt_pos|]. apply Rle_trans with (sqrt 1); [|rewrite sqrt_1; lra]. apply sqrt_le_1_alt. pose proof (pow2_ge_0 (abs_ p2)). lra.
Qed.
Print Assumptions C100_lens.

Lemma double_above_1 r : double r -> 1 < r -> 1 + bpow radix2 (-52) <= r.
Proof.
  intros D H. destruct (double_multiple (2 * (2 * r)) (double_twice _ (double_twice _ D)) ltac:(lra)) as (k & E).
  change (bpow radix2 (-50)) with (/ 1125899906842624) in E. change (bpow radix2 (-52)) with (/ 4503599627370496).
  assert (K : (4503599627370496 < k)%Z) by (apply lt_IZR; lra). assert (K' : (4503599627370497 <= k)%Z) by lia. apply IZR_le in K'. lra.
Qed.

(** The height is NaN exactly if the computed absolute value exceeds one. *)
Theorem C100_lens_nan : forall angle_ abs_ cos_ sin_ q p1 p2, double (abs_ p2) -> 0 <= abs_ p2 ->
  exists x y z, lens_point_d angle_ abs_ cos_ sin_ q [p1; p2] = [Some x; Some y; z] /\ (z = None <-> 1 < abs_ p2).
Proof.
  intros angle_ abs_ cos_ sin_ q p1 p2 D H0. unfold lens_point_d. cbn [nth]. eexists _, _, _. split; [reflexivity|]. set (r := abs_ p2) in *. clearbody r.
  destruct (Rle_dec r 1) as [H|H].
  - destruct (root_close r ltac:(lra)) as (V & _). rewrite (proj2 (Rltb_false _ _)) by lra. split; [discriminate|lra].
  - split; [lra|intros _]. apply Rnot_le_lt in H. pose proof (double_above_1 r D H) as L.
    assert (D2 : double (1 + bpow radix2 (-51))).
    { replace (1 + bpow radix2 (-51)) with (IZR (2 ^ 51 + 1) * bpow radix2 (-51)); [apply double_F; [cbn; lia|lia]|]. rewrite plus_IZR, (two_pow 51), Rmult_plus_distr_r, <- bpow_plus by lia. change (bpow radix2 (51 + -51)) with 1. ring. }
    assert (L2 : 1 + bpow radix2 (-51) <= dbl (r * r)).
    { apply dbl_ge_double; [exact D2|]. change (bpow radix2 (-51)) with (/ 2251799813685248). change (bpow radix2 (-52)) with (/ 4503599627370496) in L. nra. }
    pose proof (bpow_gt_0 radix2 (-51)) as P. assert (V : dbl (1 - dbl (r * r)) <= - bpow radix2 (-51)).
    { apply dbl_le_double; [apply double_opp, (double_bpow (-51)); lia|lra]. }
    rewrite (proj2 (Rltb_true _ _)) by lra. reflexivity.
Qed.
Print Assumptions C100_lens_nan.

(** For q = 17 a whole sector of the lens space is drawn one seventeenth of a turn away. *)
Lemma sector_17 : computed_sector 17 13 = Some 12%Z.
Proof. vm_compute. reflexivity. Qed.
Lemma width_17 : 3695 / 10000 <= lens_width_d 17 <= 3697 / 10000 /\ 3695 / 10000 <= 2 * PI / 17 <= 3697 / 10000.
Proof.
  destruct (width_close 17 ltac:(lia)) as (E & _). pose proof tiny_bound as T. pose proof e50_val as V. apply Rabs_le_inv in E.
  pose proof np_pi_error as PE. rewrite e50_val in *. apply Rabs_le_inv in PE. assert (TE : two_pi_d = 2 * np_pi) by exact two_pi_exact.
  assert (NP : 314159 / 100000 <= np_pi <= 314160 / 100000).
  { rewrite np_pi_value. change (bpow radix2 (-51)) with (/ 2251799813685248). unfold pi_mant. lra. }
  lra.
Qed.
Theorem C100_lens_refuted : forall angle_ abs_ cos_ sin_ p1 p2,
  angle_sound angle_ -> trig_sound cos_ cos -> trig_sound sin_ sin -> 0 < cabs p1 -> 0 < cabs p2 -> / 2 <= abs_ p2 <= 1 ->
  481 / 100 <= np_mod_d (angle_ p1) two_pi_d <= 517 / 100 ->
  exists x y z, lens_point_d angle_ abs_ cos_ sin_ 17 [p1; p2] = [Some x; Some y; Some z] /\
    forall n A1 A2, is_angle p1 A1 -> is_angle p2 A2 -> ~ drawn_at 17 n (abs_ p2) A1 A2 x y z.
Proof.
  intros angle_ abs_ cos_ sin_ p1 p2 HA HC HS P1 P2 Hr Harg. pose proof (angle_range angle_ p1) as G. set (arg := np_mod_d (angle_ p1) two_pi_d) in *.
  destruct width_17 as [W P]. assert (K : Int_part (arg / lens_width_d 17) = 13%Z).
  { apply Int_part_unique. set (w := lens_width_d 17) in *. split; [apply Rmult_le_reg_r with w|apply Rmult_lt_reg_r with w]; try lra; unfold Rdiv; rewrite Rmult_assoc, Rinv_l, Rmult_1_r by lra; lra. }
  destruct (sector_of 17 arg 13 ltac:(lia) G K) as [S _]. specialize (S 12%Z ltac:(lia) sector_17).
  destruct (lens_plane angle_ abs_ cos_ sin_ 17 12 p2 ltac:(lia) ltac:(lia) HA HC HS ltac:(lra)) as (B2 & I2 & EX & EY).
  destruct (root_close (abs_ p2) ltac:(lra)) as (V0 & _). destruct (angle_arg angle_ p1 HA) as (B1 & I1 & E1). fold arg in E1.
  unfold lens_point_d. cbn [nth]. fold arg. rewrite S. rewrite (proj2 (Rltb_false _ _)) by lra.
  match goal with |- context [dbl (abs_ p2 * cos_ ?p)] => set (phi := p) in * end.
  eexists _, _, _. split; [reflexivity|]. intros n A1 A2 J1 J2 (T & DX & DY & _).
  assert (U : forall z a b, 0 < cabs z -> is_angle z a -> is_angle z b -> exists m : Z, a = b + IZR m * (2 * PI)).
  { intros z a b Hz (C1 & S1) (C2 & S2). enough (same_angle a b) as (m & M) by (exists m; lra). apply cos_sin_same; [apply Rmult_eq_reg_l with (cabs z); [congruence|lra]|apply Rmult_eq_reg_l with (cabs z); [congruence|lra]]. }
  destruct (U p1 A1 B1 P1 J1 I1) as (m1 & M1). destruct (U p2 A2 B2 P2 J2 I2) as (m2 & M2).
  assert (N : (n = 13 + 17 * m1)%Z).
  { assert (X : B1 - 2 * PI / 17 * IZR (n - 17 * m1) = A1 - 2 * PI * IZR n / 17) by (rewrite M1, minus_IZR, mult_IZR; field).
    rewrite <- X in T. rewrite e50_val in E1. apply Rabs_le_inv in E1. change (bpow radix2 (-45)) with (/ 35184372088832) in T. set (w := 2 * PI / 17) in *.
    assert (12 < n - 17 * m1 < 14)%Z; [|lia]. split; apply lt_IZR; nra. }
  (* the two places *)
  assert (E : forall a : R, cos (A2 - a) = cos (B2 - a) /\ sin (A2 - a) = sin (B2 - a)).
  { intros a. destruct (cos_minus_turns (A2 - a) m2) as [F1 F2]. rewrite <- F1, <- F2. split; f_equal; rewrite M2; ring. }
  assert (F : cos (A2 - 2 * PI * IZR n / 17) = cos (B2 - 2 * PI * 13 / 17) /\ sin (A2 - 2 * PI * IZR n / 17) = sin (B2 - 2 * PI * 13 / 17)).
  { destruct (E (2 * PI * IZR n / 17)) as [-> ->]. destruct (cos_minus_turns (B2 - 2 * PI * 13 / 17) m1) as [F1 F2]. rewrite <- F1, <- F2. rewrite N, plus_IZR, mult_IZR. split; f_equal; field. }
  destruct F as [F1 F2]. rewrite F1 in DX. rewrite F2 in DY. set (b := B2 - 2 * PI * 13 / 17) in *.
  replace (B2 - 2 * PI * 12 / 17) with (b + 2 * PI / 17) in EX, EY by (unfold b; field).
  set (d := 2 * PI / 17) in *. set (r := abs_ p2) in *.
  assert (CD : cos d <= 1 - / 17).
  { destruct (pre_cos_bound d 0) as [_ C]; [lra..|]. cbn [Nat.mul Nat.add] in C. unfold cos_approx, cos_term in C. cbn [sum_f_R0 Nat.mul Nat.add fact pow] in C.
    eapply Rle_trans; [exact C|]. cbn [INR]. clear - P. field_simplify. assert (T : 3695 / 10000 * (3695 / 10000) <= d * d <= 3697 / 10000 * (3697 / 10000)) by nra. replace (d ^ 4) with ((d * d) * (d * d)) by ring. replace (d ^ 2) with (d * d) by ring. nra. }
  assert (NX : Rabs (r * cos (b + d) - r * cos b) <= 2 * bpow radix2 (-44)).
  { replace (r * cos (b + d) - r * cos b) with ((dbl (r * cos_ phi) - r * cos b) - (dbl (r * cos_ phi) - r * cos (b + d))) by ring. unfold Rminus at 1. eapply Rle_trans; [apply Rabs_triang|]. rewrite Rabs_Ropp. lra. }
  assert (NY : Rabs (r * sin (b + d) - r * sin b) <= 2 * bpow radix2 (-44)).
  { replace (r * sin (b + d) - r * sin b) with ((dbl (r * sin_ phi) - r * sin b) - (dbl (r * sin_ phi) - r * sin (b + d))) by ring. unfold Rminus at 1. eapply Rle_trans; [apply Rabs_triang|]. rewrite Rabs_Ropp. lra. }
  assert (Q : (r * cos (b + d) - r * cos b) ^ 2 + (r * sin (b + d) - r * sin b) ^ 2 = r * r * (2 - 2 * cos d)).
  { pose proof (sin2_cos2 b) as X1. pose proof (sin2_cos2 (b + d)) as X2. unfold Rsqr in X1, X2. assert (X3 : cos d = cos (b + d) * cos b + sin (b + d) * sin b) by (rewrite <- cos_minus; f_equal; ring).
    rewrite X3. set (c1 := cos (b + d)) in *. set (s1 := sin (b + d)) in *. set (c2 := cos b) in *. set (s2 := sin b) in *. nra. }
  change (bpow radix2 (-44)) with (/ 17592186044416) in NX, NY. apply Rabs_le_inv in NX, NY. nra.
Qed.
Print Assumptions C100_lens_refuted.

(** The hypotheses are met by a correctly rounded library. *)
Definition angle_rounded (z : C) : R := dbl (np_angle z).
Lemma np_angle_bound z : Rabs (np_angle z) <= PI.
Proof.
  unfold np_angle. pose proof PI_RGT_0. destruct (Reqb _ _); [rewrite Rabs_R0; lra|]. pose proof (acos_bound (fst z / cabs z)).
  destruct (Rleb _ _); [rewrite Rabs_right|rewrite Rabs_Ropp, Rabs_right]; lra.
Qed.
Lemma angle_rounded_sound : angle_sound angle_rounded.
Proof.
  intros z. pose proof (np_angle_bound z) as B. pose proof PI_4 as P. pose proof tiny_bound as T. split; [apply dbl_dbl|]. apply Rabs_le_inv in B. assert (D4 : double 4) by (apply double_IZR; cbn; lia). split.
  - apply Rabs_le. split; [apply dbl_ge_double; [apply double_opp, D4|lra]|apply dbl_le_double; [exact D4|lra]].
  - exists (np_angle z). split; [pose proof (polar z) as E; split; rewrite E at 1; reflexivity|]. eapply Rle_trans; [apply dbl_error|]. rewrite u53_val, e50_val.
    assert (Rabs (np_angle z) <= 4) by (apply Rabs_le; lra). lra.
Qed.
Lemma trig_rounded_sound f : (forall x, -1 <= f x <= 1) -> trig_sound (fun x => dbl (f x)) f.
Proof.
  intros H x _. specialize (H x). pose proof tiny_bound as T. assert (D1 : double 1) by (apply double_IZR; cbn; lia). split; [apply dbl_dbl|]. split.
  - apply Rabs_le. split; [apply dbl_ge_double; [apply double_opp, D1|lra]|apply dbl_le_double; [exact D1|lra]].
  - eapply Rle_trans; [apply dbl_error|]. rewrite u53_val, e50_val. assert (Rabs (f x) <= 1) by (apply Rabs_le; lra). lra.
Qed.
Definition abs_rounded (z : C) : R := dbl (cabs z).
Lemma abs_half : abs_rounded (1 / 2, 0) = / 2.
Proof.
  unfold abs_rounded. replace (cabs (1 / 2, 0)) with (/ 2); [change (/ 2) with (bpow radix2 (-1)); apply (double_bpow (-1)); lia|].
  unfold cabs, cabs2; cbn [fst snd]. replace (1 / 2 * (1 / 2) + 0 * 0) with (/ 2 * / 2) by field. symmetry. apply sqrt_square. lra.
Qed.
Example C100_lens_met : exists x y z n A1 A2,
  lens_point_d angle_rounded abs_rounded (fun x => dbl (cos x)) (fun x => dbl (sin x)) 5 [(0, 1); (1 / 2, 0)] = [Some x; Some y; Some z] /\
  is_angle (0, 1) A1 /\ is_angle (1 / 2, 0) A2 /\ drawn_at 5 n (/ 2) A1 A2 x y z.
Proof.
  rewrite <- abs_half. apply C100_lens; [exact angle_rounded_sound|apply trig_rounded_sound, COS_bound|apply trig_rounded_sound, SIN_bound|cbn; tauto|rewrite abs_half; lra].
Qed.
(** The point (e^{5 i}, 1/2) of the lens space of 17 is drawn at the wrong place. *)
Example C100_lens_wrong : exists x y z,
  lens_point_d angle_rounded abs_rounded (fun x => dbl (cos x)) (fun x => dbl (sin x)) 17 [(cos 5, sin 5); (1 / 2, 0)] = [Some x; Some y; Some z] /\
  forall n A1 A2, is_angle (cos 5, sin 5) A1 -> is_angle (1 / 2, 0) A2 -> ~ drawn_at 17 n (/ 2) A1 A2 x y z.
Proof.
  assert (A5 : cabs (cos 5, sin 5) = 1). { unfold cabs, cabs2; cbn [fst snd]. pose proof (sin2_cos2 5) as H. unfold Rsqr in H. rewrite Rplus_comm, H. apply sqrt_1. }
  assert (AH : cabs (1 / 2, 0) = / 2). { unfold cabs, cabs2; cbn [fst snd]. replace (1 / 2 * (1 / 2) + 0 * 0) with (/ 2 * / 2) by field. apply sqrt_square. lra. }
  pose proof abs_half as E. rewrite <- E. apply C100_lens_refuted; [exact angle_rounded_sound|apply trig_rounded_sound, COS_bound|apply trig_rounded_sound, SIN_bound|rewrite A5; lra|rewrite AH; lra|rewrite E; lra|].
  destruct (angle_arg angle_rounded (cos 5, sin 5) angle_rounded_sound) as (A & (I1 & I2) & D). pose proof (angle_range angle_rounded (cos 5, sin 5)) as G. rewrite A5 in I1, I2. cbn [fst snd] in I1, I2. rewrite Rmult_1_l in I1, I2.
  set (a := np_mod_d _ _) in *. clearbody a. destruct (cos_sin_same A 5 (eq_sym I1) (eq_sym I2)) as (m & M). rewrite e50_val in D. apply Rabs_le_inv in D.
  destruct width_17 as [_ P]. destruct two_pi_bounds as [TB _]. pose proof two_pi_exact as TE. pose proof np_pi_error as PE. rewrite e50_val in PE. apply Rabs_le_inv in PE.
  assert (m = 0)%Z as ->; [|lra]. assert (-1 < m < 1)%Z; [|lia]. split; apply lt_IZR; nra.
Qed.

(** ** Hopf map *)
Lemma mul_close x y : Rabs x <= 1 -> Rabs y <= 1 -> Rabs (dbl (x * y) - x * y) <= 2 * u53 /\ Rabs (x * y) <= 1.
Proof.
  intros Hx Hy. assert (B : Rabs (x * y) <= 1) by (rewrite Rabs_mult; pose proof (Rabs_pos x); pose proof (Rabs_pos y); nra). split; [|exact B].
  pose proof (dbl_close (x * y) (x * y) 1 0 ltac:(rewrite Rminus_diag_eq, Rabs_R0 by reflexivity; lra) B) as H. pose proof tiny_bound as T. rewrite u53_val in *. lra.
Qed.
Lemma two_close a b a' b' : Rabs (a' - a) <= 2 * u53 -> Rabs (b' - b) <= 2 * u53 -> Rabs a <= 1 -> Rabs b <= 1 ->
  Rabs (dbl (a' + b') - (a + b)) <= 8 * u53 /\ Rabs (a + b) <= 2.
Proof.
  intros Ha Hb Ba Bb. pose proof tiny_bound as T. assert (E : Rabs (a' + b' - (a + b)) <= 4 * u53).
  { replace (a' + b' - (a + b)) with ((a' - a) + (b' - b)) by ring. eapply Rle_trans; [apply Rabs_triang|]. lra. }
  assert (B : Rabs (a' + b') <= 3) by (rewrite u53_val in *; apply Rabs_le_inv in E, Ba, Bb; apply Rabs_le; lra).
  pose proof (dbl_close _ _ _ _ E B) as H. split; [rewrite u53_val in *; lra|]. eapply Rle_trans; [apply Rabs_triang|]. lra.
Qed.
Lemma out_close x y : Rabs (x - y) <= 16 * u53 -> Rabs y <= 4 -> Rabs (dbl x - y) <= 32 * u53.
Proof.
  intros H B. pose proof tiny_bound as T. assert (B' : Rabs x <= 5) by (rewrite u53_val in *; apply Rabs_le_inv in H, B; apply Rabs_le; lra).
  pose proof (dbl_close _ _ _ _ H B') as G. rewrite u53_val in *. lra.
Qed.
(** Every coordinate of the computed point is within 2^-48 of the coordinate of the exact one. *)
Theorem C100_hopf : forall a b c d i, Forall (fun v => Rabs v <= 1) [a; b; c; d] -> (i < 3)%nat ->
  length (hopf_point_d [(a, b); (c, d)]) = 3%nat /\
  double (nth i (hopf_point_d [(a, b); (c, d)]) 0) /\
  Rabs (nth i (hopf_point_d [(a, b); (c, d)]) 0 - nth i [2 * (a * c + b * d); 2 * (b * c - a * d); a * a + b * b - (c * c + d * d)] 0) <= bpow radix2 (-48).
Proof.
  intros a b c d i H Hi. inversion_clear H as [|? ? Ha H1]. inversion_clear H1 as [|? ? Hb H2]. inversion_clear H2 as [|? ? Hc H3]. inversion_clear H3 as [|? ? Hd _]. split; [reflexivity|].
  unfold hopf_point_d; cbn [nth fst snd]. replace (bpow radix2 (-48)) with (32 * u53) by (rewrite u53_val; change (bpow radix2 (-48)) with (/ 281474976710656); lra).
  destruct i as [|[|[|]]]; [| | |lia]; cbn [nth]; (split; [apply dbl_dbl|]).
  - destruct (mul_close a c Ha Hc) as [E1 B1]. destruct (mul_close b d Hb Hd) as [E2 B2]. destruct (two_close _ _ _ _ E1 E2 B1 B2) as [E B]. apply out_close.
    + rewrite <- Rmult_minus_distr_l, Rabs_mult, (Rabs_right 2) by lra. lra.
    + rewrite Rabs_mult, (Rabs_right 2) by lra. lra.
  - destruct (mul_close b c Hb Hc) as [E1 B1]. destruct (mul_close a d Ha Hd) as [E2 B2].
    assert (E2' : Rabs (- dbl (a * d) - - (a * d)) <= 2 * u53) by (replace (- dbl (a * d) - - (a * d)) with (- (dbl (a * d) - a * d)) by ring; rewrite Rabs_Ropp; exact E2).
    assert (B2' : Rabs (- (a * d)) <= 1) by (rewrite Rabs_Ropp; exact B2). destruct (two_close _ _ _ _ E1 E2' B1 B2') as [E B]. apply out_close.
    + unfold Rminus at 2 3. unfold Rminus at 1. rewrite Ropp_mult_distr_r, <- Rmult_plus_distr_l, Rabs_mult, (Rabs_right 2) by lra. unfold Rminus in E. lra.
    + rewrite Rabs_mult, (Rabs_right 2) by lra. unfold Rminus. lra.
  - destruct (mul_close a a Ha Ha) as [E1 B1]. destruct (mul_close b b Hb Hb) as [E2 B2]. destruct (two_close _ _ _ _ E1 E2 B1 B2) as [E B].
    destruct (mul_close c c Hc Hc) as [F1 C1]. destruct (mul_close d d Hd Hd) as [F2 C2]. destruct (two_close _ _ _ _ F1 F2 C1 C2) as [F G]. apply out_close.
    + match goal with |- Rabs (?x - ?y - (?z - ?w)) <= _ => replace (x - y - (z - w)) with ((x - z) - (y - w)) by ring end. unfold Rminus at 1. eapply Rle_trans; [apply Rabs_triang|]. rewrite Rabs_Ropp. lra.
    + unfold Rminus. eapply Rle_trans; [apply Rabs_triang|]. rewrite Rabs_Ropp. lra.
Qed.
Print Assumptions C100_hopf.

(** ** Colours *)
Lemma PI_bounds : 314 / 100 <= PI <= 315 / 100.
Proof. destruct width_17 as [_ P]. lra. Qed.
Lemma sin_sq_turn x (k : Z) : sin (x + PI * IZR k) ^ 2 = sin x ^ 2.
Proof.
  assert (S : sin (PI * IZR k) = 0) by (rewrite Rmult_comm; apply sin_eq_0_1; exists k; reflexivity). pose proof (sin2_cos2 (PI * IZR k)) as C. rewrite S in C. unfold Rsqr in C.
  rewrite sin_plus, S. replace ((sin x * cos (PI * IZR k) + cos x * 0) ^ 2) with (sin x ^ 2 * (cos (PI * IZR k) * cos (PI * IZR k))) by ring. nra.
Qed.
Lemma channel_close (sin_ : R -> R) c h y (k : Z) e : trig_sound sin_ sin -> 0 <= c <= 2 -> 0 <= h <= 1 -> Rabs (h - (y - IZR k)) <= e -> 0 <= e <= 1 ->
  let v := sinebow_channel_d sin_ c h in double v /\ 0 <= v <= 1 /\ Rabs (v - sin (PI * (c - y)) ^ 2) <= 8 * e + bpow radix2 (-45).
Proof.
  intros Hs Hc Hh He He0 v. pose proof tiny_bound as T. pose proof np_pi_error as PE. destruct np_pi_bounds as [PB _]. pose proof u53_val as U. pose proof e50_val as V. pose proof PI_bounds as PP.
  set (t := bpow radix2 (-1075)) in *.
  pose proof (dbl_close c c 2 0 ltac:(rewrite Rminus_diag_eq, Rabs_R0 by reflexivity; lra) ltac:(apply Rabs_le; lra)) as C1. fold t in C1.
  set (c' := dbl c) in *. set (w := c - (y - IZR k)) in *.
  assert (C2 : Rabs (c' - h - w) <= e + e50).
  { replace (c' - h - w) with ((c' - c) - (h - (y - IZR k))) by (unfold w; ring). unfold Rminus at 1. eapply Rle_trans; [apply Rabs_triang|]. rewrite Rabs_Ropp. rewrite U, V in *. lra. }
  assert (B2 : Rabs (c' - h) <= 3) by (apply Rabs_le_inv in C1; rewrite U in C1; apply Rabs_le; lra).
  pose proof (dbl_close _ _ _ _ C2 B2) as C3. fold t in C3. set (d := dbl (c' - h)) in *.
  assert (Bd : Rabs d <= 3). { apply Rabs_le_inv in B2. unfold d. assert (D3 : double 3) by (apply double_IZR; cbn; lia). apply Rabs_le; split; [apply dbl_ge_double; [apply double_opp, D3|lra]|apply dbl_le_double; [exact D3|lra]]. }
  assert (C4 : Rabs (np_pi * d - PI * w) <= 4 * (e + 2 * e50) + 3 * e50).
  { replace (np_pi * d - PI * w) with ((np_pi - PI) * d + PI * (d - w)) by ring. eapply Rle_trans; [apply Rabs_triang|]. rewrite !Rabs_mult, (Rabs_right PI) by lra.
    assert (Rabs (np_pi - PI) * Rabs d <= e50 * 3) by (apply Rmult_le_compat; try apply Rabs_pos; lra).
    assert (PI * Rabs (d - w) <= 4 * (e + 2 * e50)) by (apply Rmult_le_compat; try apply Rabs_pos; [lra|lra|rewrite U, V in *; lra]). lra. }
  assert (B4 : Rabs (np_pi * d) <= 12) by (rewrite Rabs_mult, (Rabs_right np_pi) by lra; pose proof (Rabs_pos d); nra).
  pose proof (dbl_close _ _ _ _ C4 B4) as C5. fold t in C5. set (a := dbl (np_pi * d)) in *.
  destruct (Hs a (dbl_dbl _)) as (_ & B & E). pose proof (sin_lipschitz a (PI * w)) as L. set (s := sin_ a) in *.
  assert (D1 : double 1) by (apply double_IZR; cbn; lia). assert (S2 : 0 <= s * s <= 1) by (apply Rabs_le_inv in B; nra).
  assert (EV : v = dbl (s * s)) by reflexivity. rewrite EV. split; [apply dbl_dbl|]. split; [split; [apply dbl_ge_0; lra|apply dbl_le_double; [exact D1|lra]]|].
  assert (W : sin (PI * (c - y)) ^ 2 = sin (PI * w) ^ 2). { rewrite <- (sin_sq_turn (PI * (c - y)) k). f_equal. f_equal. unfold w. ring. }
  rewrite W. assert (F : Rabs (s - sin (PI * w)) <= 4 * e + 14 * e50).
  { replace (s - sin (PI * w)) with ((s - sin a) + (sin a - sin (PI * w))) by ring. eapply Rle_trans; [apply Rabs_triang|]. rewrite U, V in *. lra. }
  assert (G : Rabs (s * s - sin (PI * w) ^ 2) <= 2 * (4 * e + 14 * e50)).
  { replace (s * s - sin (PI * w) ^ 2) with ((s - sin (PI * w)) * (s + sin (PI * w))) by ring. rewrite Rabs_mult, Rmult_comm. apply Rmult_le_compat; try apply Rabs_pos; [|exact F].
    pose proof (SIN_bound (PI * w)). apply Rabs_le_inv in B. apply Rabs_le. lra. }
  pose proof (dbl_close _ _ 1 _ G ltac:(apply Rabs_le; lra)) as H. fold t in H. rewrite U, V in *. change (bpow radix2 (-45)) with (/ 35184372088832). lra.
Qed.

(** Every channel is a double between 0 and 1, a valid colour for matplotlib, and near the exact one;
    the error grows with the number of turns. *)
Theorem C100_sinebow : forall sin_ x i, trig_sound sin_ sin -> double x -> (i < 3)%nat ->
  length (to_sinebow_d sin_ x) = 3%nat /\
  let v := nth i (to_sinebow_d sin_ x) 0 in
  double v /\ 0 <= v <= 1 /\
  (Rabs x <= bpow radix2 40 -> Rabs (v - sin (PI * (INR (2 * i + 3) / 6 - (x / (2 * PI) + 1 / 2))) ^ 2) <= bpow radix2 (-44) * (Rabs x + 1)).
Proof.
  intros sin_ x i Hs Dx Hi. split; [reflexivity|]. intros v. set (y := dbl (dbl (x / two_pi_d) + / 2)). set (h := np_mod_d y 1).
  assert (D1 : double 1) by (apply double_IZR; cbn; lia). pose proof (np_mod_range y 1 ltac:(lra) D1) as Hh. fold h in Hh. destruct (np_mod_value y 1 ltac:(lra) D1) as (k & Hk). fold h in Hk.
  pose proof tiny_bound as T. pose proof u53_val as U. pose proof e50_val as V. destruct two_pi_bounds as [TB _]. pose proof two_pi_exact as TE. pose proof np_pi_error as PE. pose proof PI_bounds as PP.
  set (c := INR (2 * i + 3) / 6). assert (Ev : v = sinebow_channel_d sin_ c h).
  { unfold v, c. destruct i as [|[|[|]]]; [| | |lia]; cbn [nth to_sinebow_d]; unfold to_sinebow_d; cbn [nth]; f_equal; cbn [Nat.mul Nat.add INR]; lra. }
  assert (Hc : 0 <= c <= 2). { unfold c. destruct i as [|[|[|]]]; [| | |lia]; cbn [Nat.mul Nat.add INR]; lra. }
  rewrite Ev. assert (HA : double (sinebow_channel_d sin_ c h) /\ 0 <= sinebow_channel_d sin_ c h <= 1).
  { destruct (channel_close sin_ c h y k (u53 * 1 + bpow radix2 (-1075)) Hs Hc Hh ltac:(rewrite Rmult_1_r in Hk; exact Hk) ltac:(rewrite U; lra)) as (A & B & _). split; assumption. }
  destruct HA as [A B]. split; [exact A|]. split; [exact B|]. intros Hx. change (bpow radix2 40) with 1099511627776 in Hx. pose proof (Rabs_pos x) as X0. set (ax := Rabs x) in *.
  set (z := x / (2 * PI) + 1 / 2).
  assert (Q1 : Rabs (x / two_pi_d - x / (2 * PI)) <= ax * e50).
  { replace (x / two_pi_d - x / (2 * PI)) with (x * (2 * (PI - np_pi)) / (two_pi_d * (2 * PI))) by (rewrite TE; field; lra). unfold Rdiv. rewrite !Rabs_mult, Rabs_inv, (Rabs_right 2), (Rabs_right (two_pi_d * (2 * PI))) by nra. fold ax.
    rewrite (Rabs_minus_sym PI). apply Rmult_le_reg_r with (two_pi_d * (2 * PI)); [nra|]. rewrite Rmult_assoc, Rinv_l, Rmult_1_r by nra. rewrite Rmult_assoc. apply Rmult_le_compat_l; [exact X0|]. nra. }
  assert (Q2 : Rabs (x / two_pi_d) <= ax). { unfold Rdiv. rewrite Rabs_mult, Rabs_inv, (Rabs_right two_pi_d) by lra. fold ax. apply Rmult_le_reg_r with two_pi_d; [lra|]. rewrite Rmult_assoc, Rinv_l by lra. nra. }
  pose proof (dbl_close _ _ _ _ Q1 Q2) as Q3. set (p := dbl (x / two_pi_d)) in *.
  assert (Q4 : Rabs (p + / 2 - z) <= ax * e50 + u53 * ax + bpow radix2 (-1075)) by (unfold z; replace (p + / 2 - (x / (2 * PI) + 1 / 2)) with (p - x / (2 * PI)) by lra; exact Q3).
  assert (Q5 : Rabs (p + / 2) <= 2 * ax + 2).
  { assert (W : Rabs p <= ax + (u53 * ax + bpow radix2 (-1075))). { pose proof (dbl_close _ _ _ 0 ltac:(rewrite Rminus_diag_eq, Rabs_R0 by reflexivity; lra) Q2) as W. fold p in W. replace p with ((p - x / two_pi_d) + x / two_pi_d) at 1 by ring. eapply Rle_trans; [apply Rabs_triang|]. lra. }
    eapply Rle_trans; [apply Rabs_triang|]. rewrite (Rabs_right (/ 2)) by lra. rewrite U in W. lra. }
  pose proof (dbl_close _ _ _ _ Q4 Q5) as Q6. fold y in Q6.
  set (e := 2 * e50 * (ax + 1)).
  assert (He : Rabs (h - (z - IZR k)) <= e).
  { replace (h - (z - IZR k)) with ((h - (y - IZR k * 1)) + (y - z)) by ring. eapply Rle_trans; [apply Rabs_triang|]. unfold e. rewrite U, V in *. lra. }
  assert (He0 : 0 <= e <= 1) by (unfold e; rewrite V; lra).
  destruct (channel_close sin_ c h z k e Hs Hc Hh He He0) as (_ & _ & F). eapply Rle_trans; [exact F|]. unfold e. rewrite V. change (bpow radix2 (-45)) with (/ 35184372088832). change (bpow radix2 (-44)) with (/ 17592186044416). lra.
Qed.
Print Assumptions C100_sinebow.

(** ** Stereographic projections *)
Lemma quotient_close y c : double y -> double c -> 0 <= c ->
  1 <= dbl (1 + c) /\ Rabs (dbl (y / dbl (1 + c))) <= Rabs y /\ Rabs (dbl (y / dbl (1 + c)) - y / (1 + c)) <= 3 * u53 * Rabs y + bpow radix2 (-1075).
Proof.
  intros Dy Dc Hc. assert (D1 : double 1) by (apply double_IZR; cbn; lia). assert (L : 1 <= dbl (1 + c)) by (apply dbl_ge_double; [exact D1|lra]). split; [exact L|].
  pose proof u53_val as U. pose proof (Rabs_pos y) as Y0. set (d := dbl (1 + c)) in *. assert (I : 0 < / d <= 1). { split; [apply Rinv_0_lt_compat; lra|]. rewrite <- Rinv_1. apply Rinv_le_contravar; lra. }
  assert (A : Rabs (y / d) <= Rabs y). { unfold Rdiv. rewrite Rabs_mult, (Rabs_right (/ d)) by lra. nra. } split.
  - apply Rabs_le_inv in A. assert (DA : double (Rabs y)) by (unfold Rabs; destruct (Rcase_abs y); [apply double_opp|]; exact Dy). apply Rabs_le. split; [apply dbl_ge_double; [apply double_opp, DA|lra]|apply dbl_le_double; [exact DA|lra]].
  - destruct (dbl_plus 1 c D1 Dc) as (eps & E & P). fold d in P. pose proof (dbl_error (y / d)) as F. assert (u53 * Rabs (y / d) <= u53 * Rabs y) by (apply Rmult_le_compat_l; [apply bpow_ge_0|exact A]).
    assert (G : Rabs (y / d - y / (1 + c)) <= 2 * u53 * Rabs y).
    { replace (y / d - y / (1 + c)) with (- eps * (y / d)). { rewrite Rabs_mult, Rabs_Ropp. assert (Rabs eps * Rabs (y / d) <= u53 * Rabs y) by (apply Rmult_le_compat; try apply Rabs_pos; assumption). pose proof (bpow_ge_0 radix2 (-53)). nra. }
      rewrite P. apply Rabs_le_inv in E. rewrite U in E. field. split; [lra|]. intros Z. assert (d = 0) by (rewrite P; nra). lra. }
    replace (dbl (y / d) - y / (1 + c)) with ((dbl (y / d) - y / d) + (y / d - y / (1 + c))) by ring. eapply Rle_trans; [apply Rabs_triang|]. lra.
Qed.
Lemma double_flip y : double y -> dbl (y * -1) = - y.
Proof. intros D. replace (y * -1) with (- y) by ring. apply double_opp, D. Qed.

(** The point is moved to the upper hemisphere and projected: no division by zero (every divisor is
    at least 1) and a small relative error. *)
Theorem C100_stereo : forall l c i y, Forall double l -> double c -> nth_error l i = Some y ->
  exists s, nth_error (stereo_codim1_d (l ++ [c])) i = Some s /\ length (stereo_codim1_d (l ++ [c])) = length l /\
    double s /\ Rabs s <= Rabs y /\
    Rabs (s - (if Rltb c 0 then - y else y) / (1 + Rabs c)) <= 3 * bpow radix2 (-53) * Rabs y + bpow radix2 (-1075).
Proof.
  intros l c i y F Dc Hi. pose proof (proj1 (Forall_forall _ _) F y (nth_error_In _ _ Hi)) as Dy. unfold stereo_codim1_d. rewrite last_last. destruct (Rltb c 0) eqn:E.
  - apply Rltb_true in E. rewrite map_app. cbn [map]. rewrite last_last, removelast_last, !map_map, (double_flip c Dc). eexists. split; [apply map_nth_error, Hi|]. split; [apply map_length|]. split; [apply dbl_dbl|].
    rewrite (double_flip y Dy), (Rabs_left c) by exact E. destruct (quotient_close (- y) (- c) (double_opp _ Dy) (double_opp _ Dc) ltac:(lra)) as (_ & A & B). rewrite Rabs_Ropp in A, B. split; assumption.
  - apply Rltb_false in E. rewrite last_last, removelast_last. eexists. split; [apply map_nth_error, Hi|]. split; [apply map_length|]. split; [apply dbl_dbl|].
    rewrite (Rabs_right c) by lra. destruct (quotient_close y c Dy Dc ltac:(lra)) as (_ & A & B). split; assumption.
Qed.
Print Assumptions C100_stereo.

(** The two hemispheres are drawn in different halves of the plane, as long as the first coordinate
    is at most 1 in absolute value. *)
Theorem C100_hemispheres : forall y l c, double y -> Forall double l -> double c -> Rabs y <= 1 ->
  exists s, nth_error (hemisphere_d (y :: l ++ [c])) 0 = Some s /\ length (hemisphere_d (y :: l ++ [c])) = S (length l) /\
    (c < 0 -> -1 <= s <= 1) /\ (0 <= c -> 3 / 2 <= s <= 7 / 2).
Proof.
  intros y l c Dy F Dc Hy. unfold hemisphere_d. change (y :: l ++ [c]) with ((y :: l) ++ [c]). rewrite last_last. destruct (Rltb c 0) eqn:E.
  - apply Rltb_true in E. unfold stereo_d. rewrite last_last, removelast_last. eexists. split; [reflexivity|]. split; [cbn [map length]; rewrite map_length; reflexivity|]. split; [intros _|lra].
    destruct (quotient_close y (- c) Dy (double_opp _ Dc) ltac:(lra)) as (_ & A & _). replace (1 - c) with (1 + - c) by ring. apply Rabs_le_inv. lra.
  - apply Rltb_false in E. unfold stereo_d. rewrite removelast_last, (double_flip c Dc), last_last, removelast_last. rewrite app_length. cbn [length]. rewrite Nat.add_sub. unfold basis.
    eexists. split; [cbn [map combine mk1 seq nth_error fst snd]; reflexivity|]. split; [rewrite map_length, combine_length, length_mk1 || rewrite map_length, combine_length; unfold mk1; rewrite !map_length, seq_length; cbn [length]; lia|]. split; [lra|intros _].
    cbn [Nat.eqb]. destruct (quotient_close y c Dy Dc E) as (_ & A & _). replace (1 - - c) with (1 + c) by ring. set (s := dbl (y / dbl (1 + c))) in *. apply Rabs_le_inv in A. assert (Rabs y <= 1) as H by exact Hy.
    assert (D52 : dbl (5 / 2 * 1) = 5 / 2). { rewrite Rmult_1_r. replace (5 / 2) with (IZR 5 * bpow radix2 (-1)); [apply double_F; [cbn; lia|lia]|]. change (bpow radix2 (-1)) with (/ 2). lra. }
    rewrite D52. assert (D32 : double (3 / 2)). { replace (3 / 2) with (IZR 3 * bpow radix2 (-1)); [apply double_F; [cbn; lia|lia]|]. change (bpow radix2 (-1)) with (/ 2). lra. }
    assert (D72 : double (7 / 2)). { replace (7 / 2) with (IZR 7 * bpow radix2 (-1)); [apply double_F; [cbn; lia|lia]|]. change (bpow radix2 (-1)) with (/ 2). lra. }
    split; [apply dbl_ge_double; [exact D32|lra]|apply dbl_le_double; [exact D72|lra]].
Qed.
Print Assumptions C100_hemispheres.

(** ** The north pole *)
From Verif Require Import SpecEM RoundGeomProofs.
Lemma mag_close a b : double a -> double b -> let M := dbl (dbl (a * a) + dbl (b * b)) in
  0 <= M /\ double M /\ Rabs (M - (a * a + b * b)) <= 6 * u53 * (a * a + b * b) + 4 * bpow radix2 (-1075).
Proof.
  intros Da Db M. assert (H : added_up (map (fun v => dbl (v * v)) [a; b]) M) by (apply (au_two [_] [_]); apply au_one).
  destruct (square_sum [a; b] M) as (D & P & E); [repeat constructor; assumption|cbn [length INR]; rewrite u53_val; lra|exact H|].
  split; [exact P|]. split; [exact D|]. cbn [length INR] in E. unfold total in E. cbn [map fold_right] in E. rewrite Rplus_0_r in E. lra.
Qed.
Lemma norm_close X M s : 0 <= X -> 1 < M -> Rabs (M - X) <= 6 * u53 * X + 4 * bpow radix2 (-1075) -> (exists e, Rabs e <= u53 /\ s = sqrt M * (1 + e)) ->
  / 2 <= X /\ 0 < s /\ Rabs (sqrt X - s) <= 10 * u53 * sqrt X.
Proof.
  intros HX HM H (e & He & ->). pose proof tiny_bound as T. set (t := bpow radix2 (-1075)) in *. pose proof u53_val as U. set (u := u53) in *. clearbody u t.
  assert (X2 : / 2 <= X) by (apply Rabs_le_inv in H; rewrite U in H; lra). split; [exact X2|].
  assert (PM : 1 <= sqrt M) by (apply Rle_trans with (sqrt 1); [rewrite sqrt_1; lra|apply sqrt_le_1_alt; lra]). apply Rabs_le_inv in He. assert (Ps : 0 < sqrt M * (1 + e)) by (rewrite U in He; nra). split; [exact Ps|].
  assert (PX : 0 < sqrt X) by (apply sqrt_lt_R0; lra). pose proof (sqrt_sqrt X HX) as SX. pose proof (sqrt_sqrt M ltac:(lra)) as SM. set (p := sqrt X) in *. set (m := sqrt M) in *. clearbody p m.
  assert (H7 : Rabs (M - X) <= 7 * u * X) by (rewrite U in *; lra). apply Rabs_le_inv in H7.
  assert (E : Rabs (X - (m * (1 + e)) * (m * (1 + e))) <= 10 * u * X).
  { replace (m * (1 + e) * (m * (1 + e))) with (M + M * (2 * e + e * e)) by (rewrite <- SM; ring). assert (Q : Rabs (2 * e + e * e) <= 5 / 2 * u) by (apply Rabs_le; rewrite U in *; nra).
    assert (Rabs (M * (2 * e + e * e)) <= (X + 7 * u * X) * (5 / 2 * u)) by (rewrite Rabs_mult, (Rabs_right M) by lra; apply Rmult_le_compat; try apply Rabs_pos; lra).
    apply Rabs_le_inv in H0. apply Rabs_le. rewrite U in *. nra. }
  set (s := m * (1 + e)) in *. clearbody s. replace (X - s * s) with ((p - s) * (p + s)) in E by (rewrite <- SX; ring). rewrite Rabs_mult, (Rabs_right (p + s)) in E by lra.
  apply Rmult_le_reg_r with p; [exact PX|]. apply Rle_trans with (Rabs (p - s) * (p + s)); [apply Rmult_le_compat_l; [apply Rabs_pos|lra]|]. rewrite Rmult_assoc, SX. exact E.
Qed.
Lemma direction_close a s p : 0 < s -> 0 < p -> Rabs (p - s) <= 10 * u53 * p -> Rabs a <= p ->
  Rabs (dbl (a / s) - a / p) <= 14 * u53 /\ Rabs (a / p) <= 1.
Proof.
  intros Hs Hp H Ha. pose proof tiny_bound as T. assert (A : Rabs (a / p) <= 1). { unfold Rdiv. rewrite Rabs_mult, Rabs_inv, (Rabs_right p) by lra. apply Rmult_le_reg_r with p; [exact Hp|]. rewrite Rmult_assoc, Rinv_l by lra. lra. }
  split; [|exact A]. pose proof u53_val as U. assert (S : 9 / 10 * p <= s) by (apply Rabs_le_inv in H; rewrite U in H; lra).
  assert (E : Rabs (a / s - a / p) <= 12 * u53).
  { replace (a / s - a / p) with ((a / p) * ((p - s) / s)) by (field; lra). rewrite Rabs_mult. unfold Rdiv at 2. rewrite (Rabs_mult (p - s)), Rabs_inv, (Rabs_right s) by lra.
    assert (Q : Rabs (p - s) * / s <= 12 * u53). { apply Rmult_le_reg_r with s; [exact Hs|]. rewrite Rmult_assoc, Rinv_l, Rmult_1_r by lra. rewrite U in *. lra. }
    assert (0 <= Rabs (p - s) * / s) by (apply Rmult_le_pos; [apply Rabs_pos|left; apply Rinv_0_lt_compat, Hs]). pose proof (Rabs_pos (a / p)). nra. }
  assert (B : Rabs (a / s) <= 11 / 10). { replace (a / s) with ((a / s - a / p) + a / p) by ring. eapply Rle_trans; [apply Rabs_triang|]. rewrite U in E. lra. }
  pose proof (dbl_close _ _ _ _ E B) as G. rewrite U in *. lra.
Qed.

(** The result is never NaN; the returned vector lies on the upper unit hemisphere up to rounding; a
    point well inside the disk is kept and one well outside is moved to the circle, in its direction. *)
Theorem C100_north_pole : forall a b, double a -> double b ->
  exists a' b' c, circle_to_3dnorthpole_d a b = ([a'; b'], [Some a'; Some b'; Some c]) /\
    0 <= c <= 1 /\ Rabs (a' * a' + b' * b' + c * c - 1) <= bpow radix2 (-47) /\
    (a * a + b * b <= 1 - bpow radix2 (-50) -> a' = a /\ b' = b) /\
    (1 + bpow radix2 (-50) <= a * a + b * b -> c = 0 /\
       Rabs (a' - a / sqrt (a * a + b * b)) <= bpow radix2 (-49) /\ Rabs (b' - b / sqrt (a * a + b * b)) <= bpow radix2 (-49)).
Proof.
  intros a b Da Db. unfold circle_to_3dnorthpole_d. destruct (mag_close a b Da Db) as (M0 & DM & EM). set (M := dbl (dbl (a * a) + dbl (b * b))) in *. set (X := a * a + b * b) in *.
  assert (HX : 0 <= X) by (unfold X; nra). pose proof tiny_bound as T. pose proof u53_val as U. pose proof e50_val as V. change (bpow radix2 (-47)) with (/ 140737488355328). change (bpow radix2 (-49)) with (/ 562949953421312).
  assert (D1 : double 1) by (apply double_IZR; cbn; lia). destruct (Rltb 1 M) eqn:E.
  - apply Rltb_true in E. destruct (norm_close X M (dbl (sqrt M)) HX E EM (sqrt_rounded M DM M0)) as (X2 & Ps & Es). set (s := dbl (sqrt M)) in *.
    assert (PX : 0 < sqrt X) by (apply sqrt_lt_R0; lra). assert (SX : sqrt X * sqrt X = X) by (apply sqrt_sqrt; exact HX).
    assert (Aa : Rabs a <= sqrt X) by (rewrite <- (sqrt_Rsqr_abs a); apply sqrt_le_1_alt; unfold Rsqr, X; nra).
    assert (Ab : Rabs b <= sqrt X) by (rewrite <- (sqrt_Rsqr_abs b); apply sqrt_le_1_alt; unfold Rsqr, X; nra).
    destruct (direction_close a s _ Ps PX Es Aa) as [Ea Ba]. destruct (direction_close b s _ Ps PX Es Ab) as [Eb Bb].
    assert (Z : dbl (1 - 1) = 0) by (rewrite Rminus_diag_eq by reflexivity; apply dbl_0). rewrite Z, sqrt_0, dbl_0. rewrite (proj2 (Rltb_false _ _)) by lra.
    eexists _, _, _. split; [reflexivity|]. split; [lra|]. assert (One : a / sqrt X * (a / sqrt X) + b / sqrt X * (b / sqrt X) = 1).
    { replace (a / sqrt X * (a / sqrt X) + b / sqrt X * (b / sqrt X)) with (X / (sqrt X * sqrt X)) by (unfold X; field; fold X; lra). rewrite SX. field. lra. }
    set (p := a / sqrt X) in *. set (q := b / sqrt X) in *. set (a' := dbl (a / s)) in *. set (b' := dbl (b / s)) in *. clearbody p q a' b'.
    apply Rabs_le_inv in Ea, Eb, Ba, Bb. split; [|split].
    + replace (a' * a' + b' * b' + 0 * 0 - 1) with ((a' - p) * (a' + p) + (b' - q) * (b' + q)) by (rewrite <- One; ring). apply Rabs_le. rewrite U in *. nra.
    + intros H. exfalso. apply Rabs_le_inv in EM. rewrite U, V in *. lra.
    + intros _. split; [reflexivity|]. split; apply Rabs_le; rewrite U in *; lra.
  - apply Rltb_false in E. assert (B : 0 <= dbl (1 - M) <= 1) by (split; [apply dbl_ge_0; lra|apply dbl_le_double; [exact D1|lra]]). rewrite (proj2 (Rltb_false _ _)) by lra.
    eexists _, _, _. split; [reflexivity|]. assert (S1 : 0 <= sqrt (dbl (1 - M)) <= 1). { split; [apply sqrt_pos|]. apply Rle_trans with (sqrt 1); [|rewrite sqrt_1; lra]. apply sqrt_le_1_alt. lra. }
    assert (C01 : 0 <= dbl (sqrt (dbl (1 - M))) <= 1) by (split; [apply dbl_ge_0; lra|apply dbl_le_double; [exact D1|lra]]). split; [exact C01|]. split; [|split].
    + destruct (sqrt_rounded (dbl (1 - M)) (dbl_dbl _) ltac:(lra)) as (e & He & ->). pose proof (sqrt_sqrt (dbl (1 - M)) ltac:(lra)) as SS. pose proof (dbl_error (1 - M)) as F. rewrite (Rabs_right (1 - M)) in F by lra. set (v := dbl (1 - M)) in *. set (r := sqrt v) in *.
      replace (r * (1 + e) * (r * (1 + e))) with (v + v * (2 * e + e * e)) by (rewrite <- SS; ring). clearbody v r. apply Rabs_le_inv in He, F, EM. fold X. rewrite U in *.
      assert (X <= 2) by lra. apply Rabs_le. assert (-4 * / 9007199254740992 <= 2 * e + e * e <= 4 * / 9007199254740992) by nra. nra.
    + intros _. split; reflexivity.
    + intros H. exfalso. apply Rabs_le_inv in EM. rewrite U, V in *. lra.
Qed.
Print Assumptions C100_north_pole.
