(** RoundLensMap.v -- lens_3D_to_disk_3D in double precision: lemmas. *)
From Coq Require Import Reals Lra Lia ZArith List Psatz.
From Flocq Require Import Core.
From Verif Require Import Base RealBase RealSum LLLModel ComplexBase MapUtilsModel SpecRound RoundBase RoundModel RoundProofs RoundConstants RoundMapsModel RoundCProjAngles.
Import ListNotations.
Local Open Scope R_scope.

(** ** The sector, by computation *)
Definition dyadic_ratio (m e : Z) : Z * Z := if (e <=? 0)%Z then (m, 2 ^ (- e))%Z else (m * 2 ^ e, 1)%Z.
Definition floor_of (m e : Z) : Z := let '(a, b) := dyadic_ratio m e in (a / b)%Z.
Definition computed_sector (q k : Z) : option Z :=
  match rounded_ratio pi_mant (2 ^ 50 * q) with
  | Some (m, e) =>
      let '(a, b) := dyadic_ratio m e in
      match rounded_ratio (k * a) b with
      | Some (m1, e1) =>
          let '(a1, b1) := dyadic_ratio m1 e1 in
          match rounded_ratio (a1 * b) (b1 * a) with
          | Some (m2, e2) => if (0 <? a)%Z then Some (floor_of m2 e2) else None
          | None => None
          end
      | None => None
      end
  | None => None
  end.
Lemma dyadic_ratio_val m e a b : dyadic_ratio m e = (a, b) -> (0 < b)%Z /\ IZR m * bpow radix2 e = IZR a / IZR b /\ ((0 < m)%Z -> (0 < a)%Z).
Proof.
  unfold dyadic_ratio. destruct (Z.leb_spec e 0) as [E|E]; intros H; injection H as <- <-.
  - split; [apply Z.pow_pos_nonneg; lia|]. split; [|tauto]. change 2%Z with (radix_val radix2). rewrite IZR_Zpower by lia. unfold Rdiv. rewrite <- bpow_opp, Z.opp_involutive. reflexivity.
  - split; [lia|]. split; [|intros; apply Z.mul_pos_pos; [assumption|apply Z.pow_pos_nonneg; lia]]. rewrite mult_IZR. change 2%Z with (radix_val radix2) at 1. rewrite IZR_Zpower by lia. unfold Rdiv. rewrite Rinv_1. ring.
Qed.
Lemma Int_part_unique x k : IZR k <= x < IZR k + 1 -> Int_part x = k.
Proof.
  intros H. pose proof (Int_part_bounds x) as B. assert (A : (k < Int_part x + 1)%Z) by (apply lt_IZR; rewrite plus_IZR; lra).
  assert (D : (Int_part x < k + 1)%Z) by (apply lt_IZR; rewrite plus_IZR; lra). lia.
Qed.
Lemma Int_part_ratio a b : (0 < b)%Z -> Int_part (IZR a / IZR b) = (a / b)%Z.
Proof.
  intros Hb. assert (B : 0 < IZR b) by (apply IZR_lt; exact Hb). apply Int_part_unique. pose proof (Z.div_mod a b ltac:(lia)) as D. pose proof (Z.mod_pos_bound a b Hb) as M.
  set (d := (a / b)%Z) in *. apply (f_equal IZR) in D. rewrite plus_IZR, mult_IZR in D. destruct M as [M1 M2]. apply IZR_le in M1. apply IZR_lt in M2. 
  replace (IZR a / IZR b) with (IZR d + IZR (a mod b) / IZR b) by (rewrite D; field; lra).
  assert (0 <= IZR (a mod b) / IZR b < 1); [|lra]. split; [apply Rmult_le_pos; [exact M1|left; apply Rinv_0_lt_compat, B]|].
  apply Rmult_lt_reg_r with (IZR b); [exact B|]. unfold Rdiv. rewrite Rmult_assoc, Rinv_l, Rmult_1_r, Rmult_1_l by lra. exact M2.
Qed.
Lemma computed_sector_ok q k k' : (0 < q)%Z -> (0 < k)%Z -> computed_sector q k = Some k' ->
  Int_part (dbl (dbl (lens_width_d q * IZR k) / lens_width_d q)) = k'.
Proof.
  intros Hq Hk. unfold computed_sector, floor_of. destruct (rounded_ratio pi_mant (2 ^ 50 * q)) as [[m e]|] eqn:E1; [|discriminate].
  destruct (dyadic_ratio m e) as [a b] eqn:D1. destruct (rounded_ratio (k * a) b) as [[m1 e1]|] eqn:E2; [|discriminate].
  destruct (dyadic_ratio m1 e1) as [a1 b1] eqn:D2. destruct (rounded_ratio (a1 * b) (b1 * a)) as [[m2 e2]|] eqn:E3; [|discriminate].
  destruct (dyadic_ratio m2 e2) as [a2 b2] eqn:D3. destruct (Z.ltb_spec 0 a) as [A0|]; [|discriminate]. intros H; injection H as <-.
  pose proof (dyadic_ratio_val _ _ _ _ D1) as (B0 & V1 & P1). pose proof (dyadic_ratio_val _ _ _ _ D2) as (B1 & V2 & P2). pose proof (dyadic_ratio_val _ _ _ _ D3) as (B2 & V3 & _).
  assert (Q : IZR q <> 0) by (apply not_0_IZR; lia).
  assert (W : lens_width_d q = IZR a / IZR b).
  { unfold lens_width_d. rewrite two_pi_value. replace (IZR pi_mant / IZR (2 ^ 50) / IZR q) with (IZR pi_mant / IZR (2 ^ 50 * q)).
    - rewrite <- V1. apply rounded_ratio_ok; [apply Z.mul_pos_pos; [reflexivity|exact Hq]|exact E1].
    - rewrite mult_IZR. field. split; [apply not_0_IZR; discriminate|exact Q]. }
  assert (NA : IZR a <> 0) by (apply not_0_IZR; lia). assert (NB : IZR b <> 0) by (apply not_0_IZR; lia). assert (NB1 : IZR b1 <> 0) by (apply not_0_IZR; lia).
  rewrite W. replace (IZR a / IZR b * IZR k) with (IZR (k * a) / IZR b) by (rewrite mult_IZR; field; exact NB). rewrite (rounded_ratio_ok _ _ _ _ B0 E2), V2.
  replace (IZR a1 / IZR b1 / (IZR a / IZR b)) with (IZR (a1 * b) / IZR (b1 * a)) by (rewrite !mult_IZR; field; repeat split; assumption).
  rewrite (rounded_ratio_ok _ _ _ _ (Z.mul_pos_pos _ _ B1 A0) E3), V3. apply Int_part_ratio, B2.
Qed.

Definition sectors_ok (q : Z) : bool :=
  forallb (fun k => match computed_sector q (Z.of_nat k) with Some k' => (k' =? Z.of_nat k)%Z | None => false end) (seq 1 (Z.to_nat q)).

(** ** Accuracy *)
Notation e50 := (bpow radix2 (-50)).
Lemma e50_val : e50 = / 1125899906842624. Proof. reflexivity. Qed.
Lemma tiny_bound : 0 < bpow radix2 (-1075) <= / 1152921504606846976.
Proof. exact (tiny_le (-1075) ltac:(lia)). Qed.

Lemma width_close q : (1 <= q <= 64)%Z ->
  Rabs (lens_width_d q * IZR q - two_pi_d) <= e50 + 64 * bpow radix2 (-1075) /\ 0 < lens_width_d q /\ double (lens_width_d q).
Proof.
  intros Hq. unfold lens_width_d. destruct two_pi_bounds as [B _]. set (W := two_pi_d) in *.
  assert (Q : 1 <= IZR q <= 64) by (split; apply IZR_le; lia). set (z := IZR q) in *.
  assert (X : 0 < W / z <= 8). { split; [apply Rdiv_lt_0_compat; lra|]. apply Rmult_le_reg_r with z; [lra|]. unfold Rdiv. rewrite Rmult_assoc, Rinv_l by lra. nra. }
  pose proof (dbl_error (W / z)) as E. rewrite (Rabs_right (W / z)) in E by lra. pose proof tiny_bound as T. pose proof e50_val as V. pose proof u53_val as U.
  assert (XW : W / z * z = W) by (field; lra). split; [|split; [|apply dbl_dbl]].
  - replace (dbl (W / z) * z - W) with ((dbl (W / z) - W / z) * z) by (rewrite Rmult_minus_distr_r, XW; reflexivity). rewrite Rabs_mult, (Rabs_right z) by lra.
    apply Rle_trans with ((u53 * (W / z) + bpow radix2 (-1075)) * z); [apply Rmult_le_compat_r; lra|]. rewrite Rmult_plus_distr_r, Rmult_assoc, XW. nra.
  - apply Rabs_le_inv in E. assert (/ 64 <= W / z). { apply Rmult_le_reg_r with z; [lra|]. rewrite XW. lra. } rewrite U in E. lra.
Qed.

(** The sector of an angle between 0 and 2 pi. *)
Lemma sector_range q arg : (1 <= q <= 64)%Z -> 0 <= arg <= two_pi_d ->
  let w := lens_width_d q in let n := Int_part (arg / w) in
  (0 <= n <= q)%Z /\ np_mod_d arg w = arg - w * IZR n /\ 0 <= arg - w * IZR n < w.
Proof.
  intros Hq Ha w n. destruct (width_close q Hq) as (E & W0 & _). fold w in E, W0. destruct two_pi_bounds as [B _].
  pose proof (Int_part_bounds (arg / w)) as I. fold n in I. assert (X : arg / w * w = arg) by (field; lra).
  assert (L : IZR n * w <= arg < (IZR n + 1) * w) by (rewrite <- X; split; [apply Rmult_le_compat_r|apply Rmult_lt_compat_r]; lra).
  assert (N0 : (0 <= n)%Z). { assert (-1 < n)%Z; [|lia]. apply lt_IZR. destruct (Rlt_dec (-1) (IZR n)); [assumption|]. exfalso. nra. }
  split; [split; [exact N0|]|].
  - assert (Q : 1 <= IZR q <= 64) by (split; apply IZR_le; lia). assert (n < q + 1)%Z; [|lia]. apply lt_IZR. rewrite plus_IZR. destruct (Rlt_dec (IZR n) (IZR q + 1)) as [|N]; [assumption|]. exfalso.
    pose proof tiny_bound as T. pose proof e50_val as V. apply Rabs_le_inv in E. assert ((IZR q + 1) * w <= two_pi_d) by nra.
    assert (w <= e50 + 64 * bpow radix2 (-1075)) by lra. nra.
  - split; [|lra]. assert (D : 0 <= arg / w) by (apply Rmult_le_pos; [lra|left; apply Rinv_0_lt_compat; lra]).
    assert (F : fmod arg w = arg - w * IZR n). { unfold fmod, trunc. rewrite (proj2 (Rltb_false _ _)) by lra. reflexivity. }
    unfold np_mod_d. rewrite F. rewrite (proj2 (Rltb_false _ _)) by lra. reflexivity.
Qed.
Lemma sector_of q arg k : (1 <= q <= 64)%Z -> 0 <= arg <= two_pi_d -> Int_part (arg / lens_width_d q) = k ->
  (forall k', (0 < k)%Z -> computed_sector q k = Some k' -> lens_sector_d q arg = k') /\ (k = 0%Z -> lens_sector_d q arg = 0%Z).
Proof.
  intros Hq Ha Hk. destruct (sector_range q arg Hq Ha) as (N & F & _). rewrite Hk in *. unfold lens_sector_d. rewrite F.
  replace (arg - (arg - lens_width_d q * IZR k)) with (lens_width_d q * IZR k) by ring. split.
  - intros k' K C. apply computed_sector_ok; [lia|exact K|exact C].
  - intros ->. rewrite Rmult_0_r, dbl_0. unfold Rdiv. rewrite Rmult_0_l, dbl_0. apply Int_part_unique. cbn. lra.
Qed.
Lemma sector_right q arg : (1 <= q <= 64)%Z -> sectors_ok q = true -> 0 <= arg <= two_pi_d ->
  lens_sector_d q arg = Int_part (arg / lens_width_d q).
Proof.
  intros Hq S Ha. destruct (sector_range q arg Hq Ha) as (N & _). destruct (sector_of q arg _ Hq Ha eq_refl) as [A B]. set (k := Int_part _) in *.
  destruct (Z.eq_dec k 0) as [Z|Z]; [rewrite Z; apply B, Z|]. unfold sectors_ok in S. rewrite forallb_forall in S. specialize (S (Z.to_nat k)). rewrite Z2Nat.id in S by lia.
  assert (I : In (Z.to_nat k) (seq 1 (Z.to_nat q))) by (apply in_seq; lia). specialize (S I). destruct (computed_sector q k) as [k'|] eqn:C; [|discriminate]. apply Z.eqb_eq in S. subst k'. apply A; [lia|reflexivity].
Qed.

Lemma theta_close q arg A : (1 <= q <= 64)%Z -> 0 <= arg <= two_pi_d -> Rabs (arg - A) <= 11 * e50 ->
  let n := Int_part (arg / lens_width_d q) in let th := A - 2 * PI * IZR n / IZR q in
  Rabs (np_mod_d arg (lens_width_d q) - th) <= 16 * e50 /\ - (16 * e50) <= th <= 2 * PI / IZR q + 32 * e50.
Proof.
  intros Hq Ha HA n th. destruct (sector_range q arg Hq Ha) as (N & F & R). fold n in N, F, R. destruct (width_close q Hq) as (E & W0 & _). set (w := lens_width_d q) in *.
  pose proof np_pi_error as PE. pose proof two_pi_exact as TE. pose proof tiny_bound as T. pose proof e50_val as V. assert (Q : 1 <= IZR q <= 64) by (split; apply IZR_le; lia).
  assert (Nn : 0 <= IZR n <= IZR q) by (split; apply IZR_le; lia). 
  assert (WE : Rabs (w - 2 * PI / IZR q) <= 4 * e50 / IZR q).
  { replace (w - 2 * PI / IZR q) with ((w * IZR q - 2 * PI) / IZR q) by (field; lra). unfold Rdiv. rewrite Rabs_mult, Rabs_inv, (Rabs_right (IZR q)) by lra. apply Rmult_le_compat_r; [left; apply Rinv_0_lt_compat; lra|].
    apply Rabs_le_inv in E, PE. apply Rabs_le. lra. }
  assert (D : Rabs (np_mod_d arg w - th) <= 16 * e50).
  { rewrite F. unfold th. replace (arg - w * IZR n - (A - 2 * PI * IZR n / IZR q)) with ((arg - A) - (w - 2 * PI / IZR q) * IZR n) by (field; lra).
    unfold Rminus at 1. eapply Rle_trans; [apply Rabs_triang|]. rewrite Rabs_Ropp, Rabs_mult, (Rabs_right (IZR n)) by lra.
    assert (Rabs (w - 2 * PI / IZR q) * IZR n <= 4 * e50 / IZR q * IZR q) by (apply Rmult_le_compat; try apply Rabs_pos; lra).
    replace (4 * e50 / IZR q * IZR q) with (4 * e50) in H by (field; lra). lra. }
  split; [exact D|]. rewrite F in D. apply Rabs_le_inv in D, WE.
  assert (4 * e50 / IZR q <= 4 * e50). { unfold Rdiv. rewrite <- (Rmult_1_r (4 * e50)) at 2. apply Rmult_le_compat_l; [lra|]. rewrite <- Rinv_1. apply Rinv_le_contravar; lra. }
  lra.
Qed.

Lemma phi_close alpha A q k : (1 <= q <= 64)%Z -> (0 <= k <= q)%Z -> Rabs alpha <= 4 -> Rabs (alpha - A) <= e50 ->
  exists j : Z, Rabs (dbl (np_mod_d alpha two_pi_d - dbl (dbl (dbl (2 * IZR k) * np_pi) / IZR q)) - (A - 2 * PI * IZR j - 2 * PI * IZR k / IZR q)) <= 32 * e50.
Proof.
  intros Hq Hk Ba HA. destruct (circle_of alpha A) as (j & J). exists j. destruct two_pi_bounds as [B D2]. pose proof (np_mod_range alpha two_pi_d ltac:(lra) D2) as G.
  pose proof np_pi_error as PE. destruct np_pi_bounds as [PB _]. pose proof tiny_bound as T. pose proof e50_val as V. pose proof u53_val as U.
  assert (Q : 1 <= IZR q <= 64) by (split; apply IZR_le; lia). assert (K : 0 <= IZR k <= IZR q) by (split; apply IZR_le; lia).
  assert (EK : dbl (2 * IZR k) = 2 * IZR k) by (rewrite <- mult_IZR; apply double_IZR; lia). rewrite EK.
  set (z := IZR q) in *. set (x := IZR k) in *. set (m := np_mod_d alpha two_pi_d) in *. set (t := bpow radix2 (-1075)) in *.
  assert (J' : Rabs (m - (A - 2 * PI * IZR j)) <= 11 * e50) by (assert (e50 * (Rabs alpha + 6) <= e50 * 10) by (apply Rmult_le_compat_l; [apply bpow_ge_0|lra]); lra). clear J.
  pose proof (dbl_error (2 * x * np_pi)) as E1. rewrite (Rabs_right (2 * x * np_pi)) in E1 by nra.
  assert (F1 : Rabs (dbl (2 * x * np_pi) - 2 * PI * x) <= 3 * e50 * x + t).
  { replace (dbl (2 * x * np_pi) - 2 * PI * x) with ((dbl (2 * x * np_pi) - 2 * x * np_pi) + 2 * x * (np_pi - PI)) by ring. eapply Rle_trans; [apply Rabs_triang|].
    rewrite Rabs_mult, (Rabs_right (2 * x)) by lra. fold t in E1. assert (2 * x * Rabs (np_pi - PI) <= 2 * x * e50) by (apply Rmult_le_compat_l; lra). 
    assert (u53 * (2 * x * np_pi) <= e50 * x) by (rewrite U, V; nra). lra. }
  set (T1 := dbl (2 * x * np_pi)) in *.
  assert (F2 : Rabs (T1 / z - 2 * PI * x / z) <= 4 * e50).
  { replace (T1 / z - 2 * PI * x / z) with ((T1 - 2 * PI * x) / z) by (field; lra). unfold Rdiv. rewrite Rabs_mult, Rabs_inv, (Rabs_right z) by lra.
    apply Rmult_le_reg_r with z; [lra|]. rewrite Rmult_assoc, Rinv_l, Rmult_1_r by lra. nra. }
  assert (XZ : 0 <= 2 * PI * x / z <= 8).
  { pose proof PI_RGT_0. pose proof PI_4.
    split; [apply Rmult_le_pos; [nra|left; apply Rinv_0_lt_compat; lra]|]. apply Rmult_le_reg_r with z; [lra|]. unfold Rdiv. rewrite Rmult_assoc, Rinv_l by lra. nra. }
  assert (B2 : Rabs (T1 / z) <= 9) by (apply Rabs_le_inv in F2; apply Rabs_le; rewrite V in F2; lra).
  pose proof (dbl_close _ _ _ _ F2 B2) as F3. fold t in F3. set (T2 := dbl (T1 / z)) in *.
  assert (F4 : Rabs (m - T2 - (A - 2 * PI * IZR j - 2 * PI * x / z)) <= 18 * e50).
  { replace (m - T2 - (A - 2 * PI * IZR j - 2 * PI * x / z)) with ((m - (A - 2 * PI * IZR j)) - (T2 - 2 * PI * x / z)) by ring. unfold Rminus at 1. eapply Rle_trans; [apply Rabs_triang|]. rewrite Rabs_Ropp. rewrite V in *. lra. }
  assert (B4 : Rabs (m - T2) <= 20) by (apply Rabs_le_inv in F3; apply Rabs_le; rewrite V, U in *; lra).
  pose proof (dbl_close _ _ _ _ F4 B4) as F5. fold t in F5. rewrite V, U in *. lra.
Qed.

(** ** The coordinates *)
From Verif Require Import SpecRoundMaps.
Lemma cos_minus_turns x (j : Z) : cos (x - 2 * PI * IZR j) = cos x /\ sin (x - 2 * PI * IZR j) = sin x.
Proof.
  assert (C : cos (2 * PI * IZR j) = 1 /\ sin (2 * PI * IZR j) = 0).
  { assert (P : forall n, cos (2 * PI * INR n) = 1 /\ sin (2 * PI * INR n) = 0).
    { intros n. pose proof (cos_period 0 n) as C. pose proof (sin_period 0 n) as S. rewrite cos_0 in C. rewrite sin_0 in S. replace (0 + 2 * INR n * PI) with (2 * PI * INR n) in C, S by ring. split; assumption. }
    destruct (Z_le_gt_dec 0 j) as [J|J].
    - specialize (P (Z.to_nat j)). rewrite INR_IZR_INZ, Z2Nat.id in P by lia. exact P.
    - specialize (P (Z.to_nat (- j))). rewrite INR_IZR_INZ, Z2Nat.id, opp_IZR in P by lia. replace (2 * PI * IZR j) with (- (2 * PI * - IZR j)) by ring. rewrite cos_neg, sin_neg. destruct P as [-> ->]. split; ring. }
  destruct C as [C S]. rewrite cos_minus, sin_minus, C, S. split; ring.
Qed.
Lemma planar_close (f_ f : R -> R) r phi T : trig_sound f_ f -> (forall a b, Rabs (f a - f b) <= Rabs (a - b)) ->
  0 <= r <= 1 -> double phi -> Rabs (phi - T) <= 32 * e50 -> Rabs (dbl (r * f_ phi) - r * f T) <= bpow radix2 (-44).
Proof.
  intros Ht Hf Hr Dp Hp. destruct (Ht phi Dp) as (_ & B & E). pose proof (Hf phi T) as L. pose proof tiny_bound as TB.
  assert (X : Rabs (r * f_ phi - r * f T) <= 33 * e50).
  { replace (r * f_ phi - r * f T) with (r * (f_ phi - f T)) by ring. rewrite Rabs_mult, (Rabs_right r) by lra.
    assert (Y : Rabs (f_ phi - f T) <= 33 * e50). { replace (f_ phi - f T) with ((f_ phi - f phi) + (f phi - f T)) by ring. eapply Rle_trans; [apply Rabs_triang|]. lra. }
    pose proof (Rabs_pos (f_ phi - f T)). nra. }
  assert (Z : Rabs (r * f_ phi) <= 1) by (rewrite Rabs_mult, (Rabs_right r) by lra; pose proof (Rabs_pos (f_ phi)); nra).
  pose proof (dbl_close _ _ _ _ X Z) as G. eapply Rle_trans; [exact G|]. rewrite u53_val, e50_val. change (bpow radix2 (-44)) with (/ 17592186044416). lra.
Qed.
Lemma sqrt_near a b : 0 <= a -> 0 <= b -> Rabs (sqrt a - sqrt b) <= sqrt (Rabs (a - b)).
Proof.
  intros Ha Hb. assert (G : forall a b, 0 <= a -> a <= b -> sqrt b - sqrt a <= sqrt (b - a)).
  { clear. intros a b Ha Hab. assert (0 <= sqrt a) by apply sqrt_pos. assert (sqrt b <= sqrt a + sqrt (b - a)); [|lra].
    assert (0 <= sqrt (b - a)) by apply sqrt_pos. rewrite <- (sqrt_square (sqrt a + sqrt (b - a))) by lra. apply sqrt_le_1_alt.
    pose proof (sqrt_sqrt a Ha). pose proof (sqrt_sqrt (b - a) ltac:(lra)). nra. }
  destruct (Rle_dec a b) as [H|H].
  - rewrite (Rabs_left1 (a - b)) by lra. rewrite Rabs_left1 by (pose proof (sqrt_le_1_alt a b H); lra). replace (- (a - b)) with (b - a) by ring. pose proof (G a b Ha H). lra.
  - rewrite (Rabs_right (a - b)) by lra. rewrite Rabs_right by (pose proof (sqrt_le_1_alt b a ltac:(lra)); lra). apply G; lra.
Qed.
Lemma root_close r : 0 <= r <= 1 -> let v := dbl (1 - dbl (r * r)) in
  0 <= v <= 1 /\ Rabs (dbl (sqrt v) - sqrt (1 - r ^ 2)) <= 3 / 4 * bpow radix2 (-24) /\ 0 <= dbl (sqrt v) <= 1.
Proof.
  intros Hr v. assert (R2 : 0 <= r * r <= 1) by nra. assert (D1 : double 1) by (apply double_IZR; cbn; lia).
  assert (B1 : 0 <= dbl (r * r) <= 1) by (split; [apply dbl_ge_0; lra|apply dbl_le_double; [exact D1|lra]]).
  assert (B : 0 <= v <= 1) by (unfold v; split; [apply dbl_ge_0; lra|apply dbl_le_double; [exact D1|lra]]). pose proof tiny_bound as T. pose proof u53_val as U.
  assert (E : Rabs (v - (1 - r ^ 2)) <= bpow radix2 (-51)).
  { unfold v. assert (E1 : Rabs (1 - dbl (r * r) - (1 - r ^ 2)) <= u53 + bpow radix2 (-1075)).
    { replace (1 - dbl (r * r) - (1 - r ^ 2)) with (- (dbl (r * r) - r * r)) by ring. rewrite Rabs_Ropp. pose proof (dbl_error (r * r)) as E. rewrite (Rabs_right (r * r)) in E by lra. assert (u53 * (r * r) <= u53 * 1) by (apply Rmult_le_compat_l; lra). lra. }
    assert (Bd : Rabs (1 - dbl (r * r)) <= 1) by (apply Rabs_le; lra). pose proof (dbl_close _ _ _ _ E1 Bd) as E2. eapply Rle_trans; [exact E2|]. rewrite U. change (bpow radix2 (-51)) with (/ 2251799813685248). lra. }
  split; [exact B|]. assert (S : Rabs (sqrt v - sqrt (1 - r ^ 2)) <= 71 / 100 * bpow radix2 (-25)).
  { eapply Rle_trans; [apply sqrt_near; [lra|nra]|]. apply Rle_trans with (sqrt (bpow radix2 (-51))); [apply sqrt_le_1_alt, E|].
    rewrite <- (sqrt_square (71 / 100 * bpow radix2 (-25))) by (pose proof (bpow_gt_0 radix2 (-25)); lra). apply sqrt_le_1_alt. change (bpow radix2 (-25)) with (/ 33554432). change (bpow radix2 (-51)) with (/ 2251799813685248). lra. }
  assert (S1 : 0 <= sqrt v <= 1). { split; [apply sqrt_pos|]. rewrite <- sqrt_1. apply sqrt_le_1_alt. lra. }
  split; [|split; [apply dbl_ge_0; lra|apply dbl_le_double; [exact D1|lra]]].
  pose proof (dbl_close _ _ 1 _ S ltac:(apply Rabs_le; lra)) as G. eapply Rle_trans; [exact G|]. rewrite U. change (bpow radix2 (-25)) with (/ 33554432). change (bpow radix2 (-24)) with (/ 16777216). lra.
Qed.
Lemma height_close q theta th v s : (1 <= q <= 64)%Z -> Rabs (theta - th) <= 16 * e50 -> - (16 * e50) <= th <= 2 * PI / IZR q + 32 * e50 ->
  0 <= v <= 1 -> 0 <= s <= 1 -> Rabs (v - s) <= 3 / 4 * bpow radix2 (-24) ->
  Rabs (dbl (dbl (dbl (IZR q / np_pi) * dbl (theta - dbl (np_pi / IZR q))) * v) - IZR q / PI * (th - PI / IZR q) * s) <= bpow radix2 (-24).
Proof.
  intros Hq Ht Hth Hv Hs Hvs. pose proof np_pi_error as PE. destruct np_pi_bounds as [PB _]. pose proof tiny_bound as T. pose proof e50_val as V. pose proof u53_val as U.
  assert (Q : 1 <= IZR q <= 64) by (split; apply IZR_le; lia). set (z := IZR q) in *. set (t := bpow radix2 (-1075)) in *.
  assert (P0 : 3 - / 1000 <= PI <= 4 + / 1000) by (apply Rabs_le_inv in PE; rewrite V in PE; lra).
  (* q / pi *)
  assert (A1 : Rabs (z / np_pi - z / PI) <= 64 * e50).
  { replace (z / np_pi - z / PI) with (- (z * (np_pi - PI)) / (np_pi * PI)) by (field; lra). unfold Rdiv. rewrite Rabs_mult, Rabs_Ropp, Rabs_mult, Rabs_inv, (Rabs_right z), (Rabs_right (np_pi * PI)) by nra.
    apply Rmult_le_reg_r with (np_pi * PI); [nra|]. rewrite Rmult_assoc, Rinv_l, Rmult_1_r by nra. assert (z * Rabs (np_pi - PI) <= 64 * e50) by (pose proof (Rabs_pos (np_pi - PI)); nra). nra. }
  assert (A2 : 0 <= z / np_pi <= 22 /\ 0 <= z / PI <= 22).
  { repeat split; try (apply Rmult_le_pos; [lra|left; apply Rinv_0_lt_compat; lra]); [apply Rmult_le_reg_r with np_pi; [lra|]|apply Rmult_le_reg_r with PI; [lra|]]; unfold Rdiv; rewrite Rmult_assoc, Rinv_l by lra; lra. }
  pose proof (dbl_close _ _ 22 _ A1 ltac:(apply Rabs_le; lra)) as A3. fold t in A3. set (a := dbl (z / np_pi)) in *.
  (* theta - pi / q *)
  assert (B1 : Rabs (np_pi / z - PI / z) <= e50).
  { replace (np_pi / z - PI / z) with ((np_pi - PI) / z) by (field; lra). unfold Rdiv. rewrite Rabs_mult, Rabs_inv, (Rabs_right z) by lra. apply Rmult_le_reg_r with z; [lra|]. rewrite Rmult_assoc, Rinv_l, Rmult_1_r by lra. nra. }
  assert (B2 : 0 <= np_pi / z <= 4 /\ 0 <= PI / z <= 5).
  { repeat split; try (apply Rmult_le_pos; [lra|left; apply Rinv_0_lt_compat; lra]); apply Rmult_le_reg_r with z; try lra; unfold Rdiv; rewrite Rmult_assoc, Rinv_l by lra; lra. }
  pose proof (dbl_close _ _ 4 _ B1 ltac:(apply Rabs_le; lra)) as B3. fold t in B3. set (b := dbl (np_pi / z)) in *.
  assert (TP : 2 * PI / z = 2 * (PI / z)) by (field; lra). rewrite TP in Hth. set (p := PI / z) in *.
  assert (B4 : Rabs (theta - b - (th - p)) <= 18 * e50).
  { replace (theta - b - (th - p)) with ((theta - th) - (b - p)) by ring. unfold Rminus at 1. eapply Rle_trans; [apply Rabs_triang|]. rewrite Rabs_Ropp. rewrite V, U in *. lra. }
  assert (B5 : Rabs (th - p) <= p + 32 * e50) by (apply Rabs_le; rewrite V in *; lra).
  assert (B6 : Rabs (theta - b) <= 6) by (apply Rabs_le_inv in B4, B5; apply Rabs_le; rewrite V in *; lra).
  pose proof (dbl_close _ _ _ _ B4 B6) as B7. fold t in B7. set (c := dbl (theta - b)) in *.
  (* the product *)
  set (x := z / PI) in *. set (y := th - p) in *. assert (XP : x * p = 1) by (unfold x, p; field; lra).
  assert (XY : Rabs (x * y) <= 1 + 1000 * e50) by (rewrite Rabs_mult, (Rabs_right x) by lra; pose proof (Rabs_pos y); nra).
  assert (C1 : Rabs (a * c - x * y) <= 4000 * e50).
  { replace (a * c - x * y) with ((a - x) * c + x * (c - y)) by ring. eapply Rle_trans; [apply Rabs_triang|]. rewrite !Rabs_mult, (Rabs_right x) by lra.
    assert (Y6 : Rabs c <= 7) by (apply Rabs_le_inv in B7, B5; apply Rabs_le; rewrite V, U in *; lra).
    assert (Rabs (a - x) * Rabs c <= (100 * e50) * 7) by (apply Rmult_le_compat; try apply Rabs_pos; [rewrite V, U in *; lra|exact Y6]).
    assert (x * Rabs (c - y) <= 22 * (22 * e50)) by (apply Rmult_le_compat; try apply Rabs_pos; [lra|lra|rewrite V, U in *; lra]). rewrite V in *. lra. }
  assert (C2 : Rabs (a * c) <= 2) by (apply Rabs_le_inv in C1, XY; apply Rabs_le; rewrite V in *; lra).
  pose proof (dbl_close _ _ _ _ C1 C2) as C3. fold t in C3. set (g := dbl (a * c)) in *.
  assert (D1 : Rabs (g * v - x * y * s) <= 5000 * e50 + (1 + 1000 * e50) * (3 / 4 * bpow radix2 (-24))).
  { replace (g * v - x * y * s) with ((g - x * y) * v + x * y * (v - s)) by ring. eapply Rle_trans; [apply Rabs_triang|]. rewrite !(Rabs_mult _ v), (Rabs_mult (x * y)), (Rabs_right v) by lra.
    apply Rplus_le_compat; [|apply Rmult_le_compat; try apply Rabs_pos; assumption]. pose proof (Rabs_pos (g - x * y)). assert (Rabs (g - x * y) <= 5000 * e50) by (rewrite V, U in *; lra). nra. }
  assert (G2 : Rabs (g * v) <= 3). { rewrite Rabs_mult, (Rabs_right v) by lra. assert (Rabs g <= 3) by (apply Rabs_le_inv in C3, XY; apply Rabs_le; rewrite V, U in *; lra). pose proof (Rabs_pos g). nra. }
  pose proof (dbl_close _ _ _ _ D1 G2) as D2. fold t in D2. eapply Rle_trans; [exact D2|]. rewrite V, U. change (bpow radix2 (-24)) with (/ 16777216). lra.
Qed.
