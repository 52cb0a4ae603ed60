(** RoundProofs.v -- lemmas on the code in double precision. *)
From Coq Require Import Reals Lra Lia ZArith List Permutation Psatz.
From Flocq Require Import Core Relative Plus_error.
From Verif Require Import Base BaseProofs RealBase RealSum SpecEM EMModel EMProofs SpecRound RoundBase RoundModel.
Import ListNotations.
Local Open Scope R_scope.

(** ** Powers of two *)
Lemma bpow_neg (n : positive) : bpow radix2 (Zneg n) = / IZR (2 ^ Zpos n).
Proof. reflexivity. Qed.
Ltac pow2 := repeat match goal with
  | |- context [bpow radix2 ?e] => let v := eval compute in e in match v with Zneg ?n => rewrite (bpow_neg n : bpow radix2 e = _); let w := eval vm_compute in (2 ^ Zpos n)%Z in change (2 ^ Zpos n)%Z with w end
  end.
Lemma tiny_le (e : Z) : (e <= -60)%Z -> 0 < bpow radix2 e <= / IZR (2 ^ 60).
Proof. intros H. split; [apply bpow_gt_0|]. change (/ IZR (2 ^ 60)) with (bpow radix2 (-60)). apply bpow_le, H. Qed.

(** ** Remainders *)
Lemma Int_part_bounds x : IZR (Int_part x) <= x < IZR (Int_part x) + 1.
Proof. destruct (base_Int_part x) as [A B]. lra. Qed.
Lemma fmod_bounds x y : 0 < y -> (0 <= x -> 0 <= fmod x y < y) /\ (x < 0 -> - y < fmod x y <= 0).
Proof.
  intros Hy. unfold fmod, trunc. assert (Q : x = y * (x / y)) by (field; lra). split; intros Hx.
  - assert (0 <= x / y) by (apply Rmult_le_pos; [exact Hx|left; apply Rinv_0_lt_compat, Hy]).
    destruct (Rltb (x / y) 0) eqn:E; [apply Rltb_true in E; lra|]. pose proof (Int_part_bounds (x / y)) as B.
    set (k := IZR (Int_part (x / y))) in *. set (q := x / y) in *. rewrite Q. nra.
  - assert (x / y < 0) by (assert (0 < (- x) / y) by (apply Rmult_lt_0_compat; [lra|apply Rinv_0_lt_compat, Hy]); unfold Rdiv in *; lra).
    rewrite (proj2 (Rltb_true _ _)) by assumption. pose proof (Int_part_bounds (- (x / y))) as B. rewrite opp_IZR.
    set (k := IZR (Int_part (- (x / y)))) in *. set (q := x / y) in *. rewrite Q. nra.
Qed.
Lemma np_mod_range x y : 0 < y -> double y -> 0 <= np_mod_d x y <= y.
Proof.
  intros Hy Dy. destruct (fmod_bounds x y Hy) as [B1 B2]. unfold np_mod_d. destruct (Rltb (fmod x y) 0) eqn:E.
  - apply Rltb_true in E. destruct (Rlt_dec x 0) as [N|N]; [specialize (B2 N)|specialize (B1 ltac:(lra)); lra].
    split; [apply dbl_ge_0; lra|apply dbl_le_double; [exact Dy|lra]].
  - apply Rltb_false in E. destruct (Rlt_dec x 0) as [N|N]; [specialize (B2 N); lra|specialize (B1 ltac:(lra)); lra].
Qed.
Lemma np_mod_below x y : 0 < y -> 0 <= x -> 0 <= np_mod_d x y < y.
Proof.
  intros Hy Hx. pose proof (proj1 (fmod_bounds x y Hy) Hx) as B. unfold np_mod_d. rewrite (proj2 (Rltb_false _ _)) by lra. exact B.
Qed.
(** The remainder is a multiple of the divisor away from its argument, up to one rounding. *)
Lemma np_mod_value x y : 0 < y -> double y ->
  exists k : Z, Rabs (np_mod_d x y - (x - IZR k * y)) <= bpow radix2 (-53) * y + bpow radix2 (-1075).
Proof.
  intros Hy Dy. unfold np_mod_d. destruct (fmod_bounds x y Hy) as [B1 B2]. assert (P1 := bpow_gt_0 radix2 (-53)). assert (P2 := bpow_gt_0 radix2 (-1075)).
  destruct (Rltb (fmod x y) 0) eqn:E.
  - exists (trunc (x / y) - 1)%Z. apply Rltb_true in E. destruct (Rlt_dec x 0) as [N|N]; [specialize (B2 N)|specialize (B1 ltac:(lra)); lra].
    replace (x - IZR (trunc (x / y) - 1) * y) with (fmod x y + y) by (unfold fmod; rewrite minus_IZR; ring).
    eapply Rle_trans; [apply dbl_error|]. apply Rplus_le_compat_r, Rmult_le_compat_l; [lra|]. apply Rabs_le; lra.
  - exists (trunc (x / y)). replace (fmod x y - (x - IZR (trunc (x / y)) * y)) with 0 by (unfold fmod; ring). rewrite Rabs_R0. nra.
Qed.

(** ** The constants *)
Lemma double_twice x : double x -> double (2 * x).
Proof.
  rewrite !double_format. intros H. destruct (FLT_format_generic radix2 (-1074) 53 x H) as [[m e] -> Hm He]. cbn [Fnum Fexp] in *.
  apply generic_format_FLT. exists (Float radix2 m (e + 1)); cbn [Fnum Fexp]; [|exact Hm|lia].
  unfold F2R; cbn [Fnum Fexp]. rewrite bpow_plus. change (bpow radix2 1) with 2. ring.
Qed.
Lemma np_pi_bounds : 3 <= np_pi <= 4 /\ double np_pi.
Proof.
  split; [|apply dbl_dbl]. pose proof PI2_3_2 as A. pose proof PI_4 as B. unfold np_pi. split.
  - apply dbl_ge_double; [apply double_IZR; cbn; lia|lra].
  - apply dbl_le_double; [apply double_IZR; cbn; lia|lra].
Qed.
Lemma two_pi_exact : two_pi_d = 2 * np_pi.
Proof. apply double_twice, np_pi_bounds. Qed.
Lemma two_pi_bounds : 6 <= two_pi_d <= 8 /\ double two_pi_d.
Proof. split; [rewrite two_pi_exact; destruct np_pi_bounds; lra|apply dbl_dbl]. Qed.
Lemma np_pi_error : Rabs (np_pi - PI) <= bpow radix2 (-50).
Proof.
  eapply Rle_trans; [apply dbl_error|]. rewrite Rabs_right by (pose proof PI_RGT_0; lra). pose proof PI_4. pose proof (tiny_le (-1075) ltac:(lia)) as [_ T]. revert T.
  generalize (bpow radix2 (-1075)); intros t T. pow2. change (2 ^ 60)%Z with 1152921504606846976%Z in T. lra.
Qed.

(** ** Doubles from 4 on are multiples of 2^-50 *)
Lemma double_multiple x : double x -> 4 <= x -> exists k : Z, x = IZR k * bpow radix2 (-50).
Proof.
  intros H Hx. apply double_format in H.
  assert (M : (3 <= mag radix2 x)%Z). { apply mag_ge_bpow. rewrite Rabs_right by lra. change (bpow radix2 (3 - 1)) with 4. exact Hx. }
  rewrite H. unfold F2R; cbn [Fnum Fexp]. set (m := Ztrunc _). set (e := cexp radix2 F64 x).
  assert (He : (-50 <= e)%Z) by (unfold e, cexp, FLT_exp; lia).
  exists (m * 2 ^ (e + 50))%Z. rewrite mult_IZR, Rmult_assoc. f_equal. replace (IZR (2 ^ (e + 50))) with (bpow radix2 (e + 50)) by (rewrite <- IZR_Zpower by lia; reflexivity).
  rewrite <- bpow_plus. f_equal. lia.
Qed.
Lemma dbl_nearest x y : double y -> Rabs (dbl x - x) <= Rabs (y - x).
Proof.
  intros Hy. apply double_format in Hy. destruct (round_N_pt radix2 F64 (fun x => negb (Z.even x)) x) as [_ N]. apply (N y Hy).
Qed.
Lemma absorbed x : - bpow radix2 (-52) < x <= 0 -> dbl (two_pi_d + x) = two_pi_d.
Proof.
  intros Hx. destruct two_pi_bounds as [B D]. set (m := two_pi_d) in *.
  pose proof (dbl_nearest (m + x) m D) as N. replace (m - (m + x)) with (- x) in N by ring. rewrite (Rabs_right (- x)) in N by lra.
  assert (P : bpow radix2 (-52) <= 1) by (pow2; lra).
  assert (L : 4 <= dbl (m + x)) by (apply dbl_ge_double; [apply double_IZR; cbn; lia|lra]).
  assert (U : dbl (m + x) <= m) by (apply dbl_le_double; [exact D|lra]).
  destruct (double_multiple (dbl (m + x)) (dbl_dbl _) L) as (k1 & E1). destruct (double_multiple m D ltac:(lra)) as (k2 & E2).
  assert (G : m - dbl (m + x) < bpow radix2 (-50)).
  { assert (2 * bpow radix2 (-52) < bpow radix2 (-50)) by (pow2; lra). apply Rabs_le_inv in N. lra. }
  assert (Hk : (k2 - k1 < 1)%Z).
  { apply lt_IZR. rewrite minus_IZR. apply Rmult_lt_reg_r with (bpow radix2 (-50)); [apply bpow_gt_0|]. lra. }
  assert (Hk2 : (k1 <= k2)%Z).
  { apply le_IZR. apply Rmult_le_reg_r with (bpow radix2 (-50)); [apply bpow_gt_0|]. lra. }
  rewrite E1. replace k1 with k2 by lia. symmetry. exact E2.
Qed.
Lemma np_mod_endpoint x : - bpow radix2 (-52) < x < 0 -> np_mod_d x two_pi_d = two_pi_d.
Proof.
  intros Hx. destruct two_pi_bounds as [B _]. assert (P : bpow radix2 (-52) <= 1) by (pow2; lra).
  assert (F : fmod x two_pi_d = x).
  { unfold fmod, trunc. assert (Q : -1 < x / two_pi_d < 0).
    { split; apply Rmult_lt_reg_r with two_pi_d; try lra; unfold Rdiv; rewrite Rmult_assoc, Rinv_l by lra; lra. }
    rewrite (proj2 (Rltb_true _ _)) by lra. replace (Int_part (- (x / two_pi_d))) with 0%Z; [cbn [Z.opp]; lra|].
    symmetry. pose proof (Int_part_bounds (- (x / two_pi_d))) as I. assert (-1 < Int_part (- (x / two_pi_d)) < 1)%Z; [|lia]. split; apply lt_IZR; lra. }
  unfold np_mod_d. rewrite F, (proj2 (Rltb_true _ _)) by lra. rewrite Rplus_comm. apply absorbed. lra.
Qed.

(** ** Sums *)
Notation u53 := (bpow radix2 (-53)).
Lemma u53_val : u53 = / 9007199254740992. Proof. reflexivity. Qed.
Lemma total_app l l' : total (l ++ l') = total l + total l'.
Proof. unfold total. induction l as [|x l IH]; cbn [app fold_right]; [lra|]. rewrite IH. lra. Qed.
Lemma total_perm l l' : Permutation l l' -> total l = total l'.
Proof. unfold total. induction 1; cbn [fold_right]; lra. Qed.
Lemma total_nonneg l : Forall (fun x => 0 <= x) l -> 0 <= total l.
Proof. unfold total. induction 1; cbn [fold_right]; lra. Qed.
Lemma Forall_perm {A} (P : A -> Prop) l l' : Permutation l l' -> Forall P l' -> Forall P l.
Proof. intros H. rewrite !Forall_forall. intros F x Hx. apply F. apply (Permutation_in x H Hx). Qed.

Lemma added_double l s : added_up l s -> Forall double l -> double s.
Proof.
  induction 1 as [|x|l1 l2 a b _ _ _ _|l l' a P _ IH]; intros F; [exact double_0|inversion F; assumption|apply dbl_dbl|].
  apply IH, (Forall_perm _ _ _ P F).
Qed.
Lemma added_ge l s : added_up l s -> Forall (fun x => double x /\ 0 <= x) l -> 0 <= s /\ forall x, In x l -> x <= s.
Proof.
  induction 1 as [|x|l1 l2 a b H1 IH1 H2 IH2|l l' a P _ IH]; intros F.
  - split; [lra|intros x []].
  - inversion F as [|? ? [_ Hx] _]; subst. split; [exact Hx|]. intros y [<-|[]]. lra.
  - apply Forall_app in F as [F1 F2]. destruct (IH1 F1) as [A1 A2]. destruct (IH2 F2) as [B1 B2].
    assert (Da : double a) by (apply (added_double l1 a H1); eapply Forall_impl; [|exact F1]; cbn; tauto).
    assert (Db : double b) by (apply (added_double l2 b H2); eapply Forall_impl; [|exact F2]; cbn; tauto).
    assert (La : a <= dbl (a + b)) by (apply dbl_ge_double; [exact Da|lra]).
    assert (Lb : b <= dbl (a + b)) by (apply dbl_ge_double; [exact Db|lra]).
    split; [lra|]. intros x Hx. apply in_app_or in Hx as [Hx|Hx]; [specialize (A2 x Hx)|specialize (B2 x Hx)]; lra.
  - destruct (IH (Forall_perm _ _ _ P F)) as [A B]. split; [exact A|]. intros x Hx. apply B, (Permutation_in x (Permutation_sym P) Hx).
Qed.
Lemma added_zero l s : added_up l s -> Forall (fun x => x = 0) l -> s = 0.
Proof.
  induction 1 as [|x|l1 l2 a b H1 IH1 H2 IH2|l l' a P _ IH]; intros F.
  - reflexivity.
  - inversion F; assumption.
  - apply Forall_app in F as [F1 F2]. rewrite (IH1 F1), (IH2 F2), Rplus_0_l. exact dbl_0.
  - apply IH, (Forall_perm _ _ _ P F).
Qed.
Lemma added_nil s : added_up [] s -> s = 0.
Proof. intros H. apply (added_zero [] s H). constructor. Qed.
Lemma pow_ge_1 x n : 1 <= x -> 1 <= x ^ n.
Proof. intros H. apply pow_R1_Rle, H. Qed.
Lemma pow_unit x n : 0 <= x <= 1 -> 0 <= x ^ n <= 1.
Proof. intros H. split; [apply pow_le; lra|]. induction n as [|n IH]; cbn [pow]; [lra|]. pose proof (pow_le x n (proj1 H)). nra. Qed.
Lemma scale_low X a Q w : 0 <= X <= a -> 0 <= Q <= 1 -> 0 <= w -> X * (Q * w) <= a * w.
Proof. intros H1 H2 H3. rewrite <- Rmult_assoc. apply Rmult_le_compat_r; [exact H3|]. nra. Qed.
Lemma scale_high X a Q w : a <= X -> 0 <= X -> 1 <= Q -> 0 <= w -> a * w <= X * (Q * w).
Proof. intros H1 H2 H3 H4. rewrite <- Rmult_assoc. apply Rmult_le_compat_r; [exact H4|]. nra. Qed.
Lemma added_error l s : added_up l s -> Forall (fun x => double x /\ 0 <= x) l ->
  total l * (1 - u53) ^ length l <= s <= total l * (1 + u53) ^ length l.
Proof.
  assert (U : 0 < u53 < 1) by (rewrite u53_val; lra).
  induction 1 as [|x|l1 l2 a b H1 IH1 H2 IH2|l l' a P _ IH]; intros F.
  - cbn; lra.
  - inversion F as [|? ? [_ Hx] _]; subst. unfold total; cbn [fold_right length pow]. nra.
  - apply Forall_app in F as [F1 F2]. specialize (IH1 F1). specialize (IH2 F2). rewrite total_app, app_length.
    assert (Da : double a) by (apply (added_double l1 a H1); eapply Forall_impl; [|exact F1]; cbn; tauto).
    assert (Db : double b) by (apply (added_double l2 b H2); eapply Forall_impl; [|exact F2]; cbn; tauto).
    pose proof (proj1 (added_ge l1 a H1 F1)) as Na. pose proof (proj1 (added_ge l2 b H2 F2)) as Nb.
    assert (T1 : 0 <= total l1) by (apply total_nonneg; eapply Forall_impl; [|exact F1]; cbn; tauto).
    assert (T2 : 0 <= total l2) by (apply total_nonneg; eapply Forall_impl; [|exact F2]; cbn; tauto).
    destruct l1 as [|x1 l1].
    { rewrite (added_nil a H1). replace (dbl (0 + b)) with b by (rewrite Rplus_0_l; symmetry; exact Db). cbn [length plus]. change (total []) with 0. rewrite Rplus_0_l. exact IH2. }
    destruct l2 as [|x2 l2].
    { rewrite (added_nil b H2). replace (dbl (a + 0)) with a by (rewrite Rplus_0_r; symmetry; exact Da). cbn [length]. rewrite Nat.add_0_r. change (total []) with 0. rewrite Rplus_0_r. exact IH1. }
    set (L1 := x1 :: l1) in *. set (L2 := x2 :: l2) in *.
    assert (N1 : exists p, length L1 = S p) by (eexists; reflexivity). assert (N2 : exists q, length L2 = S q) by (eexists; reflexivity).
    destruct N1 as [p Ep], N2 as [q Eq]. rewrite Ep in *. rewrite Eq in *.
    destruct (dbl_plus a b Da Db) as (eps & He & ->). apply Rabs_le_inv in He.
    assert (P1 : forall x, 0 <= x -> x ^ (S p + S q) = x ^ S p * x ^ q * x) by (intros; rewrite pow_add; cbn [pow]; ring).
    assert (P2 : forall x, 0 <= x -> x ^ (S p + S q) = x ^ S q * x ^ p * x) by (intros; rewrite pow_add; cbn [pow]; ring).
    split.
    + pose proof (pow_unit (1 - u53) q ltac:(lra)) as Q1. pose proof (pow_unit (1 - u53) p ltac:(lra)) as Q2.
      assert (A : total L1 * (1 - u53) ^ (S p + S q) <= a * (1 - u53)).
      { rewrite P1 by lra. rewrite !Rmult_assoc, <- Rmult_assoc. apply scale_low; [|exact Q1|lra]. split; [|exact (proj1 IH1)]. apply Rmult_le_pos; [exact T1|apply pow_le; lra]. }
      assert (B : total L2 * (1 - u53) ^ (S p + S q) <= b * (1 - u53)).
      { rewrite P2 by lra. rewrite !Rmult_assoc, <- Rmult_assoc. apply scale_low; [|exact Q2|lra]. split; [|exact (proj1 IH2)]. apply Rmult_le_pos; [exact T2|apply pow_le; lra]. }
      nra.
    + pose proof (pow_ge_1 (1 + u53) q ltac:(lra)) as Q1. pose proof (pow_ge_1 (1 + u53) p ltac:(lra)) as Q2.
      assert (A : a * (1 + u53) <= total L1 * (1 + u53) ^ (S p + S q)).
      { rewrite P1 by lra. rewrite !Rmult_assoc, <- Rmult_assoc. apply scale_high; [exact (proj2 IH1)| |exact Q1|lra]. apply Rmult_le_pos; [exact T1|apply pow_le; lra]. }
      assert (B : b * (1 + u53) <= total L2 * (1 + u53) ^ (S p + S q)).
      { rewrite P2 by lra. rewrite !Rmult_assoc, <- Rmult_assoc. apply scale_high; [exact (proj2 IH2)| |exact Q2|lra]. apply Rmult_le_pos; [exact T2|apply pow_le; lra]. }
      nra.
  - rewrite <- (total_perm l l' P), <- (Permutation_length P). apply IH, (Forall_perm _ _ _ P F).
Qed.
Lemma bernoulli u n : 0 <= u <= 1 -> 1 - INR n * u <= (1 - u) ^ n.
Proof.
  intros Hu. induction n as [|n IH]; [cbn; lra|]. rewrite S_INR. cbn [pow]. pose proof (pos_INR n).
  assert ((1 - u) * (1 - INR n * u) <= (1 - u) * (1 - u) ^ n) by (apply Rmult_le_compat_l; lra). nra.
Qed.
(** The exact sum divided by the computed one. *)
Lemma sum_ratio l s : added_up l s -> Forall (fun x => double x /\ 0 <= x) l -> 0 < s -> INR (length l) * u53 <= / 4 ->
  Rabs (total l / s - 1) <= 4 / 3 * (INR (length l) * u53).
Proof.
  intros H F Hs Hn. assert (U : 0 < u53 < 1) by (rewrite u53_val; lra). destruct (added_error l s H F) as [L1 L2].
  set (n := length l) in *. set (T := total l) in *. assert (HT : 0 <= T) by (apply total_nonneg; eapply Forall_impl; [|exact F]; cbn; tauto).
  pose proof (bernoulli u53 n ltac:(lra)) as B. pose proof (pos_INR n) as Pn.
  assert (G : (1 + u53) ^ n * (1 - u53) ^ n <= 1).
  { rewrite <- Rpow_mult_distr. apply (pow_unit ((1 + u53) * (1 - u53)) n). nra. }
  assert (Q : T / s * s = T) by (unfold Rdiv; rewrite Rmult_assoc, Rinv_l by lra; ring).
  set (q := T / s) in *. set (x := INR n * u53) in *.
  assert (X : 0 <= x) by (unfold x; nra). pose proof (pow_ge_1 (1 + u53) n ltac:(lra)) as G1. pose proof (pow_unit (1 - u53) n ltac:(lra)) as G2.
  set (a := (1 - u53) ^ n) in *. set (b := (1 + u53) ^ n) in *. clearbody q x a b T. rewrite <- Q in L1, L2. clear - L1 L2 B G X G1 G2 Hs Hn.
  assert (qa : q * a <= 1). { apply Rmult_le_reg_r with s; [exact Hs|]. nra. }
  assert (qb : 1 <= q * b). { apply Rmult_le_reg_r with s; [exact Hs|]. nra. }
  assert (q0 : 0 <= q) by nra. apply Rabs_le. split.
  - assert (a <= q). { assert (a <= q * b * a) by nra. nra. } lra.
  - assert (q * (1 - x) <= 1) by nra. assert (q <= 4 / 3) by nra. nra.
Qed.

(** ** Bump functions *)
Lemma linear_pos d r : double d -> double r -> d < r -> 0 < pu_linear_d d r /\ double (pu_linear_d d r).
Proof.
  intros Hd Hr H. split; [|apply dbl_dbl]. unfold pu_linear_d. assert (0 <= dbl (r - d)) by (apply dbl_ge_0; lra).
  destruct (Req_dec (dbl (r - d)) 0) as [E|N]; [|lra]. apply (dbl_plus_0 r (- d) Hr (double_opp d Hd)) in E. lra.
Qed.
Lemma quadratic_nonneg d r : 0 <= pu_quadratic_d d r /\ double (pu_quadratic_d d r).
Proof. split; [|apply dbl_dbl]. unfold pu_quadratic_d; cbv zeta. apply dbl_ge_0. nra. Qed.
Lemma double_bpow e : (-1074 <= e)%Z -> double (bpow radix2 e).
Proof. intros H. rewrite <- (Rmult_1_l (bpow radix2 e)). apply (double_F 1 e); [cbn; lia|exact H]. Qed.
Lemma quadratic_pos d r : bpow radix2 (-537) <= r - d -> 0 < pu_quadratic_d d r.
Proof.
  intros H. unfold pu_quadratic_d; cbv zeta. assert (L : bpow radix2 (-537) <= dbl (r - d)) by (apply dbl_ge_double; [apply double_bpow; lia|exact H]).
  apply Rlt_le_trans with (bpow radix2 (-1074)); [apply bpow_gt_0|]. apply dbl_ge_double; [apply double_bpow; lia|].
  change (-1074)%Z with (-537 + -537)%Z. rewrite bpow_plus. assert (0 < bpow radix2 (-537)) by apply bpow_gt_0. nra.
Qed.

(** The argument of the exponential. *)
Section Exponent.
Variables (d r : R).
Hypothesis Hr : bpow radix2 (-400) <= r.
Hypothesis Hd : 0 <= d < r.
Let r2 := dbl (r * r).
Let d2 := dbl (d * d).
Lemma sq_big : bpow radix2 (-1075) <= u53 * (r * r).
Proof.
  assert (0 < bpow radix2 (-400)) by apply bpow_gt_0. apply Rle_trans with (u53 * (bpow radix2 (-400) * bpow radix2 (-400))).
  - rewrite <- !bpow_plus. apply bpow_le. lia.
  - apply Rmult_le_compat_l; [apply bpow_ge_0|]. nra.
Qed.
Lemma sq_error : Rabs (r2 - r * r) <= 2 * u53 * (r * r) /\ Rabs (d2 - d * d) <= 2 * u53 * (r * r).
Proof.
  pose proof sq_big as B. assert (0 < bpow radix2 (-400)) by apply bpow_gt_0. assert (U : 0 < u53) by apply bpow_gt_0. unfold r2, d2. split.
  - eapply Rle_trans; [apply dbl_error|]. rewrite Rabs_right by nra. lra.
  - eapply Rle_trans; [apply dbl_error|]. rewrite Rabs_right by nra. assert (u53 * (d * d) <= u53 * (r * r)) by (apply Rmult_le_compat_l; nra). lra.
Qed.
Lemma exponent_small : 760 * (r * r - d * d) <= r * r -> bpow radix2 (-50) * (r * r) <= r * r - d * d ->
  dbl (r2 / dbl (d2 - r2)) <= -750.
Proof.
  intros H1 H2. destruct sq_error as [E1 E2]. apply Rabs_le_inv in E1, E2.
  assert (D1 : double r2) by apply dbl_dbl. assert (D2 : double d2) by apply dbl_dbl. destruct (dbl_plus d2 (- r2) D2 (double_opp _ D1)) as (eps & He & E).
  change (d2 - r2) with (d2 + - r2). rewrite E. apply Rabs_le_inv in He.
  assert (R0 : 0 < r * r) by (assert (0 < bpow radix2 (-400)) by apply bpow_gt_0; nra).
  rewrite u53_val in *. assert (P50 : bpow radix2 (-50) = / 1125899906842624) by reflexivity. rewrite P50 in H2.
  set (s := r * r) in *. set (v := d * d) in *. clearbody s v r2 d2.
  assert (X1 : 0 < r2 - d2) by nra. assert (X2 : r2 - d2 <= s / 759) by nra.
  assert (X3 : 0 < (r2 - d2) * (1 + eps)) by nra. assert (X4 : (r2 - d2) * (1 + eps) <= s / 758) by nra.
  apply dbl_le_double; [change (-750) with (IZR (-750)); apply double_IZR; cbn; lia|].
  replace (r2 / ((d2 + - r2) * (1 + eps))) with (- (r2 / ((r2 - d2) * (1 + eps)))) by (field; split; lra).
  apply Ropp_le_contravar. apply Rmult_le_reg_r with ((r2 - d2) * (1 + eps)); [exact X3|]. unfold Rdiv. rewrite Rmult_assoc, Rinv_l by lra. rewrite Rmult_1_r. apply Rle_trans with (750 * (s / 758)); [apply Rmult_le_compat_l; lra|lra].
Qed.
Lemma exponent_large : r * r <= 660 * (r * r - d * d) -> -670 <= dbl (r2 / dbl (d2 - r2)).
Proof.
  intros H1. destruct sq_error as [E1 E2]. apply Rabs_le_inv in E1, E2.
  assert (D1 : double r2) by apply dbl_dbl. assert (D2 : double d2) by apply dbl_dbl. destruct (dbl_plus d2 (- r2) D2 (double_opp _ D1)) as (eps & He & E).
  change (d2 - r2) with (d2 + - r2). rewrite E. apply Rabs_le_inv in He.
  assert (R0 : 0 < r * r) by (assert (0 < bpow radix2 (-400)) by apply bpow_gt_0; nra).
  rewrite u53_val in *. set (s := r * r) in *. set (v := d * d) in *. clearbody s v r2 d2.
  assert (X1 : s / 661 <= r2 - d2) by nra. assert (X3 : s / 662 <= (r2 - d2) * (1 + eps)) by nra.
  apply dbl_ge_double; [change (-670) with (IZR (-670)); apply double_IZR; cbn; lia|].
  replace (r2 / ((d2 + - r2) * (1 + eps))) with (- (r2 / ((r2 - d2) * (1 + eps)))) by (field; split; nra).
  change (-670) with (- (670)). apply Ropp_le_contravar. apply Rmult_le_reg_r with ((r2 - d2) * (1 + eps)); [lra|]. unfold Rdiv. rewrite Rmult_assoc, Rinv_l by lra. rewrite Rmult_1_r. apply Rle_trans with (670 * (s / 662)); [lra|apply Rmult_le_compat_l; lra].
Qed.
End Exponent.

(** ** The partition of unity *)
Section PartitionD.
Variables (sum_ : list R -> R) (dist : list (list R)) (r : R) (f : R -> R -> R) (n m : nat).
Hypothesis HM : matrix n m dist.
Hypothesis Hn : (1 <= n)%nat.
Definition phi_d d := if Rltb d r then f d r else 0.
Definition colphi_d b := column (map (map phi_d) dist) b.
Lemma partition_d_shape : matrix n m (fst (get_covering_partition_d sum_ dist r f)) /\
  length (snd (get_covering_partition_d sum_ dist r f)) = m.
Proof.
  unfold get_covering_partition_d; cbn [fst snd].
  rewrite (shape1_matrix n m dist HM Hn); split; [|rewrite map_length, seq_length; reflexivity].
  destruct HM as [L F]; split; [rewrite !map_length; exact L|].
  apply Forall_map, Forall_map; eapply Forall_impl; [|exact F]; cbn beta; intros row Lr.
  rewrite map_length, combine_length, !map_length, seq_length; lia.
Qed.
Lemma partition_d_entry i b d : entry dist i b d ->
  entry (fst (get_covering_partition_d sum_ dist r f)) i b
    (if Reqb (sum_ (colphi_d b)) 0 then None else Some (dbl (phi_d d / sum_ (colphi_d b)))).
Proof.
  intros H; pose proof (entry_bounds _ _ _ _ _ _ HM H) as [Hi Hb].
  destruct H as (row & E1 & E2).
  unfold get_covering_partition_d; cbn [fst].
  rewrite (shape1_matrix n m dist HM Hn).
  change (fun d0 : R => if Rltb d0 r then f d0 r else 0) with phi_d.
  set (den := map (fun b0 => sum_ (column (map (map phi_d) dist) b0)) (seq 0 m)).
  unfold entry; rewrite !nth_error_map, E1; cbn [option_map]; eexists; split; [reflexivity|].
  rewrite nth_error_map.
  assert (Ec : nth_error (combine (map phi_d row) den) b = Some (phi_d d, sum_ (colphi_d b))).
  { assert (Lr : length row = m) by (eapply matrix_row; eassumption).
    rewrite (nth_error_nth' _ (0, 0)) by (rewrite combine_length; unfold den; rewrite !map_length, seq_length; lia).
    rewrite combine_nth by (unfold den; rewrite !map_length, seq_length; lia).
    f_equal; f_equal.
    - apply nth_error_nth; rewrite nth_error_map, E2; reflexivity.
    - apply nth_error_nth; unfold den; rewrite nth_error_map_seq; [reflexivity|exact Hb]. }
  rewrite Ec; reflexivity.
Qed.
Lemma partition_d_ball b : (b < m)%nat -> nth_error (snd (get_covering_partition_d sum_ dist r f)) b =
  Some (argmax_bool (bcolumn (map (map (fun d => Rltb d r)) dist) b)).
Proof.
  intros Hb; unfold get_covering_partition_d; cbn [snd].
  rewrite (shape1_matrix n m dist HM Hn); rewrite nth_error_map_seq; [reflexivity|exact Hb].
Qed.
Lemma col_d_in b x : (b < m)%nat -> In x (colphi_d b) -> exists i d, entry dist i b d /\ x = phi_d d.
Proof.
  intros Hb Hx; apply In_nth_error in Hx; destruct Hx as (i & Hi).
  assert (Hl : (i < n)%nat).
  { assert (Hi' : nth_error (colphi_d b) i <> None) by congruence; apply nth_error_Some in Hi'; clear Hi; rename Hi' into Hi; unfold colphi_d, column in Hi; rewrite !map_length in Hi; destruct HM; lia. }
  destruct (matrix_entry n m dist i b HM Hl Hb) as (d & Hd); exists i, d; split; [exact Hd|].
  unfold colphi_d in Hi; rewrite (column_nth dist phi_d n m b i d HM Hd) in Hi; congruence.
Qed.
End PartitionD.

(** The weights: dividing by the computed sum. *)
Lemma total_weights s l : 0 < s -> Forall (fun x => 0 <= x) l ->
  Rabs (total (map (fun x => dbl (x / s)) l) - total l / s) <= u53 * (total l / s) + INR (length l) * bpow radix2 (-1075).
Proof.
  intros Hs. induction 1 as [|x l Hx _ IH].
  - unfold total, Rdiv; cbn [fold_right map length]. rewrite Rmult_0_l, Rminus_0_r, Rabs_R0. cbn. lra.
  - cbn [map length]. rewrite S_INR. unfold total in *; cbn [fold_right]. pose proof (dbl_error (x / s)) as E.
    rewrite (Rabs_right (x / s)) in E by (apply Rle_ge, Rmult_le_pos; [exact Hx|left; apply Rinv_0_lt_compat, Hs]).
    set (w := fold_right Rplus 0 (map (fun x => dbl (x / s)) l)) in *. set (t := fold_right Rplus 0 l) in *.
    replace (dbl (x / s) + w - (x + t) / s) with ((dbl (x / s) - x / s) + (w - t / s)) by (field; lra).
    eapply Rle_trans; [apply Rabs_triang|]. replace ((x + t) / s) with (x / s + t / s) by (field; lra). lra.
Qed.
Lemma weights_sum l s : added_up l s -> Forall (fun x => double x /\ 0 <= x) l -> 0 < s -> (Z.of_nat (length l) <= 2 ^ 50)%Z ->
  Rabs (total (map (fun x => dbl (x / s)) l) - 1) <= (INR (length l) + 1) * bpow radix2 (-52).
Proof.
  intros H F Hs Hn. assert (Hn' : INR (length l) <= 1125899906842624) by (rewrite INR_IZR_INZ; apply IZR_le; exact Hn).
  pose proof (pos_INR (length l)) as Pn. assert (F0 : Forall (fun x => 0 <= x) l) by (eapply Forall_impl; [|exact F]; cbn; tauto).
  pose proof (sum_ratio l s H F Hs) as Q. pose proof (total_weights s l Hs F0) as W. pose proof (tiny_le (-1075) ltac:(lia)) as [T0 T].
  change (2 ^ 60)%Z with 1152921504606846976%Z in T. rewrite u53_val in *. assert (P52 : bpow radix2 (-52) = / 4503599627370496) by reflexivity. rewrite P52.
  set (q := total l / s) in *. set (w := total (map _ l)) in *. set (N := INR (length l)) in *. set (e := bpow radix2 (-1075)) in *. clearbody q w N e.
  specialize (Q ltac:(lra)). apply Rabs_le_inv in Q, W. apply Rabs_le.
  assert (N * e <= N * / 1152921504606846976) by (apply Rmult_le_compat_l; lra). lra.
Qed.

(** ** Angles *)
Lemma np_mod_angle x : exists k : Z, Rabs (np_mod_d x two_pi_d - (x - 2 * PI * IZR k)) <= bpow radix2 (-50) * (Rabs x + 6).
Proof.
  destruct two_pi_bounds as [B D]. destruct (np_mod_value x two_pi_d ltac:(lra) D) as (k & E). exists k. pose proof (np_mod_range x two_pi_d ltac:(lra) D) as G.
  pose proof np_pi_error as PE. pose proof two_pi_exact as TE. pose proof (tiny_le (-1075) ltac:(lia)) as [T0 T]. change (2 ^ 60)%Z with 1152921504606846976%Z in T.
  rewrite u53_val in E. assert (P50 : bpow radix2 (-50) = / 1125899906842624) by reflexivity. rewrite P50 in *.
  set (w := np_mod_d x two_pi_d) in *. set (m := two_pi_d) in *. set (e := bpow radix2 (-1075)) in *. set (z := IZR k) in *. clearbody w m e z.
  pose proof (Rabs_pos x) as X0. assert (K : Rabs z <= Rabs x / 6 + 2).
  { assert (A : Rabs (z * m) <= Rabs x + m + 1).
    { replace (z * m) with (x + (- w + (w - (x - z * m)))) by ring. eapply Rle_trans; [apply Rabs_triang|]. rewrite Rplus_assoc. apply Rplus_le_compat_l.
      eapply Rle_trans; [apply Rabs_triang|]. rewrite Rabs_Ropp, (Rabs_right w) by lra. lra. }
    rewrite Rabs_mult, (Rabs_right m) in A by lra. pose proof (Rabs_pos z). nra. }
  replace (w - (x - 2 * PI * z)) with ((w - (x - z * m)) + z * (2 * (PI - np_pi))) by (rewrite TE; ring).
  eapply Rle_trans; [apply Rabs_triang|]. rewrite Rabs_mult, Rabs_mult, (Rabs_minus_sym PI), (Rabs_right 2) by lra.
  assert (Rabs z * (2 * Rabs (np_pi - PI)) <= (Rabs x / 6 + 2) * (2 * / 1125899906842624)) by (apply Rmult_le_compat; try apply Rabs_pos; pose proof (Rabs_pos (np_pi - PI)); lra). lra.
Qed.
Lemma dbl_close x y B e : Rabs (x - y) <= e -> Rabs x <= B -> Rabs (dbl x - y) <= e + bpow radix2 (-53) * B + bpow radix2 (-1075).
Proof.
  intros H1 H2. replace (dbl x - y) with ((dbl x - x) + (x - y)) by ring. eapply Rle_trans; [apply Rabs_triang|]. pose proof (dbl_error x) as E.
  assert (bpow radix2 (-53) * Rabs x <= bpow radix2 (-53) * B) by (apply Rmult_le_compat_l; [apply bpow_ge_0|exact H2]). lra.
Qed.
Lemma circle_of x y : exists k : Z, Rabs (np_mod_d x two_pi_d - (y - 2 * PI * IZR k)) <= Rabs (x - y) + bpow radix2 (-50) * (Rabs x + 6).
Proof.
  destruct (np_mod_angle x) as (k & E). exists k.
  replace (np_mod_d x two_pi_d - (y - 2 * PI * IZR k)) with ((x - y) + (np_mod_d x two_pi_d - (x - 2 * PI * IZR k))) by ring.
  eapply Rle_trans; [apply Rabs_triang|]. lra.
Qed.

Lemma weight_close l s x : added_up l s -> Forall (fun x => double x /\ 0 <= x) l -> 0 < s -> In x l -> (Z.of_nat (length l) <= 2 ^ 50)%Z ->
  0 < total l /\ 0 <= dbl (x / s) <= 1 /\ Rabs (dbl (x / s) - x / total l) <= (INR (length l) + 1) * bpow radix2 (-52) /\
  Rabs (dbl (x / s) - x / total l) <= (INR (length l) + 1) * bpow radix2 (-52) * (x / total l) + bpow radix2 (-1075).
Proof.
  intros H F Hs Hx Hn. assert (Hn' : INR (length l) <= 1125899906842624) by (rewrite INR_IZR_INZ; apply IZR_le; exact Hn).
  assert (Hn1 : 1 <= INR (length l)) by (change 1 with (INR 1); apply le_INR; destruct l; [destruct Hx|cbn; lia]).
  assert (F0 : Forall (fun x => 0 <= x) l) by (eapply Forall_impl; [|exact F]; cbn; tauto).
  pose proof (sum_ratio l s H F Hs) as Q. pose proof (tiny_le (-1075) ltac:(lia)) as [T0 T]. change (2 ^ 60)%Z with 1152921504606846976%Z in T.
  assert (X0 : 0 <= x) by (rewrite Forall_forall in F0; apply F0, Hx). pose proof (proj2 (added_ge l s H F) x Hx) as Xs.
  pose proof (np_sum_ge l x F0 Hx) as Xt. change (np_sum l) with (total l) in Xt. pose proof (np_sum_nonneg l F0) as T1. change (np_sum l) with (total l) in T1.
  rewrite u53_val in Q. specialize (Q ltac:(lra)). apply Rabs_le_inv in Q.
  assert (Tp : 0 < total l). { destruct (Req_dec (total l) 0) as [E|]; [|lra]. rewrite E in Q. unfold Rdiv in Q. rewrite Rmult_0_l in Q. lra. }
  assert (B : 0 <= x / s <= 1).
  { split; [apply Rmult_le_pos; [exact X0|left; apply Rinv_0_lt_compat, Hs]|]. apply Rmult_le_reg_r with s; [exact Hs|]. unfold Rdiv. rewrite Rmult_assoc, Rinv_l by lra. lra. }
  split; [exact Tp|]. split; [split; [apply dbl_ge_0, B|apply dbl_le_double; [apply (double_IZR 1); cbn; lia|apply B]]|].
  pose proof (dbl_error (x / s)) as E. rewrite (Rabs_right (x / s)), u53_val in E by lra.
  assert (P : 0 <= x / total l <= 1).
  { split; [apply Rmult_le_pos; [exact X0|left; apply Rinv_0_lt_compat, Tp]|]. apply Rmult_le_reg_r with (total l); [exact Tp|]. unfold Rdiv. rewrite Rmult_assoc, Rinv_l by lra. lra. }
  assert (E2 : x / s = x / total l * (total l / s)) by (field; lra). assert (P52 : bpow radix2 (-52) = / 4503599627370496) by reflexivity. rewrite P52.
  set (q := total l / s) in *. set (p := x / total l) in *. set (N := INR (length l)) in *. set (e := bpow radix2 (-1075)) in *. set (w := dbl (x / s)) in *. rewrite E2 in *. clearbody q p N e w.
  apply Rabs_le_inv in E.
  assert (A1 : p * q - p <= 4 / 3 * (N * / 9007199254740992)) by (assert (p * (q - 1) <= 1 * (4 / 3 * (N * / 9007199254740992))) by nra; lra).
  assert (A2 : - (4 / 3 * (N * / 9007199254740992)) <= p * q - p) by (assert (- (1 * (4 / 3 * (N * / 9007199254740992))) <= p * (q - 1)) by nra; lra).
  split; [apply Rabs_le; lra|]. apply Rabs_le.
  assert (B1 : p * q - p <= p * (4 / 3 * (N * / 9007199254740992))) by (replace (p * q - p) with (p * (q - 1)) by ring; apply Rmult_le_compat_l; lra).
  assert (B2 : - (p * (4 / 3 * (N * / 9007199254740992))) <= p * q - p) by (replace (p * q - p) with (p * (q - 1)) by ring; assert (p * (- (4 / 3 * (N * / 9007199254740992))) <= p * (q - 1)) by (apply Rmult_le_compat_l; lra); lra).
  assert (B3 : p * q <= 4 / 3 * p) by nra. assert (B4 : 0 <= N * p) by nra. split; nra.
Qed.

(** ** The exponential function rounded to the nearest double meets what is used of exp *)
Lemma dbl_small x : 0 <= x < bpow radix2 (-1075) -> dbl x = 0.
Proof.
  intros [H1 H2]. destruct (Req_dec x 0) as [->|N]; [exact dbl_0|].
  apply round_N_small with (ex := mag radix2 x).
  - split; [apply bpow_mag_le, N|apply bpow_mag_gt].
  - assert (M : (mag radix2 x <= -1075)%Z) by (apply mag_le_bpow; [exact N|rewrite Rabs_right by lra; exact H2]). unfold FLT_exp. lia.
Qed.
Lemma exp_pow x n : exp (INR n * x) = exp x ^ n.
Proof. induction n as [|n IH]; [cbn; rewrite Rmult_0_l; apply exp_0|]. rewrite S_INR, Rmult_plus_distr_r, exp_plus, IH, Rmult_1_l. cbn [pow]. ring. Qed.
Lemma pow_IZR' a n : IZR a ^ n = IZR (a ^ Z.of_nat n). Proof. apply pow_IZR. Qed.
Lemma frac_pow a b n : (0 < b)%Z -> (IZR a / IZR b) ^ n * IZR (b ^ Z.of_nat n) = IZR (a ^ Z.of_nat n).
Proof.
  intros Hb. apply IZR_lt in Hb. rewrite <- !pow_IZR', <- Rpow_mult_distr. f_equal. unfold Rdiv. rewrite Rmult_assoc, Rinv_l by lra. ring.
Qed.
Lemma frac_pow_le p q a b n : (0 < q)%Z -> (0 < b)%Z -> (p * b ^ Z.of_nat n <= q * a ^ Z.of_nat n)%Z -> IZR p / IZR q <= (IZR a / IZR b) ^ n.
Proof.
  intros Hq Hb H. pose proof (frac_pow a b n Hb) as E. assert (B : (0 < b ^ Z.of_nat n)%Z) by (apply Z.pow_pos_nonneg; lia). apply IZR_le in H. rewrite !mult_IZR, <- E in H.
  apply IZR_lt in B, Hq. set (x := (IZR a / IZR b) ^ n) in *. set (y := IZR (b ^ Z.of_nat n)) in *. clearbody x y.
  apply Rmult_le_reg_r with (IZR q); [exact Hq|]. unfold Rdiv. rewrite Rmult_assoc, Rinv_l, Rmult_1_r by lra. apply Rmult_le_reg_r with y; [exact B|]. lra.
Qed.
Lemma frac_pow_lt p a b n : (0 < b)%Z -> (p * b ^ Z.of_nat n < a ^ Z.of_nat n)%Z -> IZR p < (IZR a / IZR b) ^ n.
Proof.
  intros Hb H. pose proof (frac_pow a b n Hb) as E. assert (B : (0 < b ^ Z.of_nat n)%Z) by (apply Z.pow_pos_nonneg; lia). apply IZR_lt in H. rewrite !mult_IZR, <- E in H.
  apply IZR_lt in B. set (x := (IZR a / IZR b) ^ n) in *. set (y := IZR (b ^ Z.of_nat n)) in *. clearbody x y.
  apply Rmult_lt_reg_r with y; [exact B|]. lra.
Qed.
Lemma exp_1_low : 271 / 100 <= exp 1.
Proof.
  assert (A : 257 / 256 <= exp (1 / 256)) by (pose proof (exp_ineq1_le (1 / 256)); lra).
  replace 1 with (INR 256 * (1 / 256)) by (rewrite INR_IZR_INZ; change (Z.of_nat 256) with 256%Z; lra). rewrite exp_pow.
  apply Rle_trans with ((257 / 256) ^ 256); [|apply pow_incr; lra].
  apply (frac_pow_le 271 100 257 256 256); [lia|lia|]. vm_compute. discriminate.
Qed.
Lemma exp_decr x y : x <= y -> exp x <= exp y.
Proof. intros [H| ->]; [left; apply exp_increasing, H|lra]. Qed.
Lemma exp_m750 : exp (-750) < bpow radix2 (-1075).
Proof.
  replace (-750) with (- (INR 750 * 1)) by (rewrite INR_IZR_INZ; change (Z.of_nat 750) with 750%Z; lra). rewrite exp_Ropp, exp_pow.
  change (bpow radix2 (-1075)) with (/ IZR (2 ^ 1075)). apply Rinv_lt_contravar.
  - apply Rmult_lt_0_compat; [apply IZR_lt; reflexivity|apply pow_lt, exp_pos].
  - apply Rlt_le_trans with ((271 / 100) ^ 750); [|apply pow_incr; split; [lra|exact exp_1_low]].
    apply (frac_pow_lt (2 ^ 1075) 271 100 750); [lia|]. vm_compute. reflexivity.
Qed.
Lemma exp_m670 : bpow radix2 (-1074) <= exp (-670).
Proof.
  replace (-670) with (- (INR 670 * 1)) by (rewrite INR_IZR_INZ; change (Z.of_nat 670) with 670%Z; lra). rewrite exp_Ropp, exp_pow.
  change (bpow radix2 (-1074)) with (/ IZR (2 ^ 1074)). apply Rinv_le_contravar; [apply pow_lt, exp_pos|].
  apply Rle_trans with (3 ^ 670); [apply pow_incr; split; [left; apply exp_pos|exact exp_le_3]|]. rewrite pow_IZR'. apply IZR_le. vm_compute. discriminate.
Qed.
Lemma libm_exp_rounded : libm_exp (fun x => dbl (exp x)).
Proof.
  split; [intros x; apply dbl_ge_0; left; apply exp_pos|]. split; [intros x; apply dbl_dbl|]. split.
  - intros x Hx. apply Rlt_le_trans with (bpow radix2 (-1074)); [apply bpow_gt_0|]. apply dbl_ge_double; [apply double_bpow; lia|].
    eapply Rle_trans; [exact exp_m670|]. apply exp_decr, Hx.
  - intros x Hx. apply dbl_small. split; [left; apply exp_pos|]. eapply Rle_lt_trans; [apply exp_decr, Hx|exact exp_m750].
Qed.
