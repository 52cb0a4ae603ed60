(** GluingProofs.v -- the stereographic pictures are Lipschitz up to the gluing of their boundaries. *)
From Coq Require Import List ZArith Reals Lia Lra Psatz.
From Verif Require Import Base BaseProofs RealBase RealSum SpecEM LLLModel SpecLLL LLLProofs SpecMapUtils MapUtilsModel MapUtilsProofs.
Import ListNotations.
Local Open Scope R_scope.

Lemma dist2_inner d x y : dist2 d x y = inner d x x + inner d y y - 2 * inner d x y.
Proof.
  unfold dist2, inner. rewrite (sumn_ext d _ (fun i => nth i x 0 * nth i x 0 + nth i y 0 * nth i y 0 - 2 * (nth i x 0 * nth i y 0))) by (intros; ring).
  rewrite sumn_sub, sumn_add, sumn_scal. reflexivity.
Qed.
Lemma isometry_dist2 d M x y : isometry d M -> length x = d -> length y = d -> dist2 d (apply d M x) (apply d M y) = dist2 d x y.
Proof. intros [_ H] Hx Hy. rewrite !dist2_inner, !H by assumption. reflexivity. Qed.
Lemma inv_le_1 k : 1 <= k -> 0 < / k <= 1.
Proof. intros H. split; [apply Rinv_0_lt_compat; lra|]. rewrite <- Rinv_1. apply Rinv_le_contravar; lra. Qed.

Lemma shadow_lipschitz d M v x x' s y y' : (1 <= d)%nat -> pole_of d M v -> unit_vector d x -> unit_vector d x' -> s * s = 1 ->
  shadow d M v x s y -> shadow d M v x' s y' -> dist2 (d - 1) y y' <= 2 * dist2 d x x'.
Proof.
  intros Hd Hp Hx Hx' Hs [_ Hy] [_ Hy']. destruct Hp as [Hiso [Hv Hlast]].
  rewrite <- (isometry_dist2 d M x x' Hiso (proj1 Hx) (proj1 Hx')).
  set (q := apply d M x) in *. set (q' := apply d M x') in *. set (h := inner d v x) in *. set (h' := inner d v x') in *.
  assert (Eh : nth (d - 1) q 0 = h) by (apply Hlast, Hx). assert (Eh' : nth (d - 1) q' 0 = h') by (apply Hlast, Hx').
  assert (Nq' : sumn (d - 1) (fun i => nth i q' 0 ^ 2) <= 1).
  { destruct Hiso as [_ Hiso]. pose proof (Hiso x' x' (proj1 Hx') (proj1 Hx')) as E. rewrite (proj2 Hx') in E. fold q' in E.
    unfold inner in E. rewrite (sumn_last d) in E by exact Hd. rewrite Eh' in E.
    rewrite (sumn_ext (d - 1) _ (fun i => nth i q' 0 * nth i q' 0)) by (intros; ring). pose proof (Rle_0_sqr h') as P. unfold Rsqr in P. lra. }
  unfold dist2 at 2. rewrite (sumn_last d) by exact Hd. rewrite Eh, Eh'.
  pose proof (Rabs_pos h) as P1. pose proof (Rabs_pos h') as P2.
  destruct (inv_le_1 (1 + Rabs h) ltac:(lra)) as [I1 I2]. destruct (inv_le_1 (1 + Rabs h') ltac:(lra)) as [J1 J2].
  assert (T : (Rabs h' - Rabs h) ^ 2 <= (h - h') ^ 2).
  { unfold Rabs. destruct (Rcase_abs h), (Rcase_abs h'); nra. }
  apply Rle_trans with (sumn (d - 1) (fun i => 2 * (nth i q 0 - nth i q' 0) ^ 2 + 2 * (h - h') ^ 2 * nth i q' 0 ^ 2)).
  - unfold dist2. apply sumn_le. intros i Hi. rewrite Hy, Hy' by exact Hi. unfold Rdiv.
    set (a := (nth i q 0 - nth i q' 0) * / (1 + Rabs h)).
    set (b := nth i q' 0 * (Rabs h' - Rabs h) * (/ (1 + Rabs h) * / (1 + Rabs h'))).
    assert (E : (s * nth i q 0 * / (1 + Rabs h) - s * nth i q' 0 * / (1 + Rabs h')) ^ 2 = (a + b) ^ 2).
    { transitivity ((s * s) * (a + b) ^ 2); [|rewrite Hs; ring]. unfold a, b. field. lra. }
    rewrite E. apply Rle_trans with (2 * a ^ 2 + 2 * b ^ 2); [pose proof (Rle_0_sqr (a - b)) as Q; unfold Rsqr in Q; nra|].
    apply Rplus_le_compat.
    + unfold a. rewrite Rpow_mult_distr. apply Rmult_le_compat_l; [lra|]. rewrite <- (Rmult_1_r ((nth i q 0 - nth i q' 0) ^ 2)) at 2.
      apply Rmult_le_compat_l; [apply pow2_ge_0|]. pose proof (pow_incr (/ (1 + Rabs h)) 1 2 ltac:(lra)) as A. rewrite pow1 in A. exact A.
    + unfold b. rewrite !Rpow_mult_distr.
      assert (K : 0 <= (/ (1 + Rabs h)) ^ 2 * (/ (1 + Rabs h')) ^ 2 <= 1).
      { pose proof (pow_incr (/ (1 + Rabs h)) 1 2 ltac:(lra)) as A. pose proof (pow_incr (/ (1 + Rabs h')) 1 2 ltac:(lra)) as B. rewrite pow1 in A, B.
        pose proof (pow2_ge_0 (/ (1 + Rabs h))). pose proof (pow2_ge_0 (/ (1 + Rabs h'))). nra. }
      set (kk := (/ (1 + Rabs h)) ^ 2 * (/ (1 + Rabs h')) ^ 2) in *. pose proof (pow2_ge_0 (nth i q' 0)) as Q. pose proof (pow2_ge_0 (Rabs h' - Rabs h)) as Q2.
      assert (0 <= nth i q' 0 ^ 2 * ((h - h') ^ 2 - (Rabs h' - Rabs h) ^ 2)) by (apply Rmult_le_pos; lra).
      assert (0 <= nth i q' 0 ^ 2 * (Rabs h' - Rabs h) ^ 2 * (1 - kk)) by (apply Rmult_le_pos; [apply Rmult_le_pos|]; lra).
      lra.
  - rewrite sumn_add, !sumn_scal.
    pose proof (pow2_ge_0 (h - h')). nra.
Qed.
