(** PropCover.v -- C91: the threshold and the cover radius in double precision. *)
From Coq Require Import Reals Lra Lia ZArith List Psatz.
From Flocq Require Import Core Relative.
From Verif Require Import Base RealBase SpecRound RoundBase RoundModel RoundProofs RoundCover.
Import ListNotations.
Local Open Scope R_scope.

(** The start of the range is computed exactly. *)
Lemma start_exact birth (sr : bool) : double birth -> (if sr then dbl (2 * birth) else birth) = (if sr then 2 * birth else birth).
Proof. intros H. destruct sr; [apply double_twice, H|reflexivity]. Qed.
Lemma start_double birth (sr : bool) : double birth -> double (if sr then 2 * birth else birth).
Proof. intros H. destruct sr; [apply double_twice, H|exact H]. Qed.

(** For a percentage between 0 and 1 and a range that is not rejected, the threshold is the
    documented combination up to 2^-51 of the death, it is the end of the range exactly for the
    percentages 0 and 1, and the radius is exactly half of it. *)
Theorem C91_threshold :
  forall perc birth death (standard_range : bool), double perc -> double birth -> double death -> 0 <= perc <= 1 -> 0 <= birth ->
  let start := if standard_range then 2 * birth else birth in start <= death ->
  let (radius, threshold) := get_cover_radius_d perc birth death standard_range in
  Rabs (threshold - ((1 - perc) * start + perc * death)) <= bpow radix2 (-51) * death + bpow radix2 (-1073) /\
  (perc = 0 -> threshold = start) /\ (perc = 1 -> threshold = death) /\
  (bpow radix2 (-1021) <= threshold -> 2 * radius = threshold).
Proof.
  intros p b d sr Dp Db Dd Hp Hb start Hs. unfold get_cover_radius_d. rewrite (start_exact b sr Db). fold start. fold (thr p start d).
  assert (S0 : 0 <= start) by (unfold start; destruct sr; lra). pose proof (start_double b sr Db : double start) as Ds.
  split; [apply thr_error; [exact Dp|exact Hp|split; assumption]|]. split; [intros ->; apply thr_0, Ds|]. split; [intros ->; apply thr_1, Dd|].
  intros Ht. rewrite (double_half (thr p start d) (dbl_dbl _) Ht). field.
Qed.
Print Assumptions C91_threshold.

(** With the percentages the classes use by default (0.5: circular, toroidal and complex projective
    coordinates, 0.9: projective and lens coordinates) the threshold never exceeds the death of the
    class, even though every operation is rounded. *)
Theorem C91_default :
  forall perc birth death (standard_range : bool), (perc = 1 / 2 \/ perc = dbl (9 / 10)) -> double birth -> double death -> 0 <= birth ->
  bpow radix2 (-1000) <= death ->
  let start := if standard_range then 2 * birth else birth in start <= death ->
  snd (get_cover_radius_d perc birth death standard_range) <= death /\
  (perc = 1 / 2 -> bpow radix2 (-1021) <= start -> start <= snd (get_cover_radius_d perc birth death standard_range)).
Proof.
  intros p b d sr HP Db Dd Hb Hd start Hs. unfold get_cover_radius_d. rewrite (start_exact b sr Db). fold start. fold (thr p start d). cbn [snd].
  pose proof (start_double b sr Db : double start) as Ds.
  assert (Hd' : bpow radix2 (-1021) <= d) by (eapply Rle_trans; [apply (bpow_le radix2 _ (-1000)); lia|exact Hd]).
  assert (N : 0 <= dbl (9 / 10) <= 1) by (rewrite nine_tenths; unfold P9; pow2; lra).
  split.
  - eapply Rle_trans; [apply (thr_mono p start d d d); [destruct HP as [-> | ->]; [lra|exact N]|exact Hs|lra]|].
    destruct HP as [-> | ->]; [right; apply thr_half; assumption|apply thr_nine; assumption].
  - intros -> L. rewrite <- (thr_half start Ds L) at 1. apply thr_mono; lra.
Qed.
Print Assumptions C91_default.

(** With other percentages it can: perc = 0.2, birth 1.5, death 3 give a threshold of
    3.0000000000000004, so that edges of length 3, at which the class dies, are used. *)
Theorem C91_below_death_refuted :
  exists perc birth death, double perc /\ double birth /\ double death /\ 0 < perc < 1 /\ 0 < birth /\ 2 * birth <= death /\
  death < snd (get_cover_radius_d perc birth death true).
Proof.
  exists (dbl (1 / 5)), (3 / 2), 3.
  assert (D2 : double (3 / 2)). { replace (3 / 2) with (IZR 3 * bpow radix2 (-1)) by (change (bpow radix2 (-1)) with (/ 2); lra). apply double_F; cbn; lia. }
  assert (D3 : double 3) by (apply (double_IZR 3); cbn; lia).
  assert (E : dbl (1 / 5) = IZR 7205759403792794 * bpow radix2 (-55)).
  { apply dbl_exactly; [lia| |left].
    - change (-55 + 52)%Z with (-3)%Z. change (-55 + 53)%Z with (-2)%Z. pow2. lra.
    - change (bpow radix2 (- -55)) with 36028797018963968. apply Rabs_def1; lra. }
  assert (Q : dbl (1 - dbl (1 / 5)) = IZR 7205759403792794 * bpow radix2 (-53)).
  { rewrite E. apply dbl_exactly; [lia| |right; split; [reflexivity|]].
    - change (-53 + 52)%Z with (-1)%Z. change (-53 + 53)%Z with 0%Z. change (bpow radix2 0) with 1. pow2. lra.
    - change (bpow radix2 (- -53)) with 9007199254740992. pow2. apply Rabs_le. lra. }
  split; [apply dbl_dbl|]. split; [exact D2|]. split; [exact D3|]. split; [rewrite E; pow2; lra|]. split; [lra|]. split; [lra|].
  unfold get_cover_radius_d. cbn [snd]. rewrite Q, E. replace (dbl (2 * (3 / 2))) with 3 by (replace (2 * (3 / 2)) with 3 by lra; symmetry; exact D3).
  assert (A : dbl (IZR 7205759403792794 * bpow radix2 (-53) * 3) = IZR 5404319552844596 * bpow radix2 (-51)).
  { apply dbl_exactly; [lia| |right; split; [reflexivity|]].
    - change (-51 + 52)%Z with 1%Z. change (-51 + 53)%Z with 2%Z. change (bpow radix2 1) with 2. change (bpow radix2 2) with 4. pow2. lra.
    - change (bpow radix2 (- -51)) with 2251799813685248. pow2. apply Rabs_le. lra. }
  assert (B : dbl (IZR 7205759403792794 * bpow radix2 (-55) * 3) = IZR 5404319552844596 * bpow radix2 (-53)).
  { apply dbl_exactly; [lia| |right; split; [reflexivity|]].
    - change (-53 + 52)%Z with (-1)%Z. change (-53 + 53)%Z with 0%Z. change (bpow radix2 0) with 1. pow2. lra.
    - change (bpow radix2 (- -53)) with 9007199254740992. pow2. apply Rabs_le. lra. }
  rewrite A, B. assert (S : dbl (IZR 5404319552844596 * bpow radix2 (-51) + IZR 5404319552844596 * bpow radix2 (-53)) = IZR 6755399441055745 * bpow radix2 (-51)).
  { apply dbl_exactly; [lia| |left].
    - change (-51 + 52)%Z with 1%Z. change (-51 + 53)%Z with 2%Z. change (bpow radix2 1) with 2. change (bpow radix2 2) with 4. pow2. lra.
    - change (bpow radix2 (- -51)) with 2251799813685248. pow2. apply Rabs_def1; lra. }
  rewrite S. pow2. lra.
Qed.
Print Assumptions C91_below_death_refuted.

(** If the range left above the threshold is more than 2^-23 of the death, the threshold is below
    the death, even after rounding it to single precision (the margin needed in C89). *)
Theorem C91_margin :
  forall perc birth death (standard_range : bool), double perc -> double birth -> double death -> 0 <= perc <= 1 -> 0 <= birth ->
  let start := if standard_range then 2 * birth else birth in start <= death ->
  bpow radix2 (-23) * death + bpow radix2 (-149) < (1 - perc) * (death - start) ->
  let threshold := snd (get_cover_radius_d perc birth death standard_range) in threshold < death /\ sgl threshold < death.
Proof.
  intros p b d sr Dp Db Dd Hp Hb start Hs Hm. unfold get_cover_radius_d. rewrite (start_exact b sr Db). fold start. fold (thr p start d). cbn [snd].
  assert (S0 : 0 <= start) by (unfold start; destruct sr; lra).
  pose proof (thr_error p start d Dp Hp (conj S0 Hs)) as E. set (t := thr p start d) in *.
  assert (T0 : 0 <= t) by (unfold t, thr; apply dbl_ge_0; apply Rplus_le_le_0_compat; apply dbl_ge_0; apply Rmult_le_pos; try lra; apply dbl_ge_0; lra).
  assert (ES : Rabs (sgl t - t) <= bpow radix2 (-24) * Rabs t + bpow radix2 (-150)).
  { destruct (error_N_FLT radix2 (-149) 24 ltac:(reflexivity) (fun x => negb (Z.even x)) t) as (eps & eta & H1 & H2 & _ & E').
    fold (sgl t) in E'. rewrite E'. replace (t * (1 + eps) + eta - t) with (eps * t + eta) by ring.
    eapply Rle_trans; [apply Rabs_triang|]. apply Rplus_le_compat.
    - rewrite Rabs_mult. apply Rmult_le_compat_r; [apply Rabs_pos|]. replace (bpow radix2 (-24)) with (/ 2 * bpow radix2 (-24 + 1)); [exact H1|].
      rewrite bpow_plus. change (bpow radix2 1) with 2. lra.
    - replace (bpow radix2 (-150)) with (/ 2 * bpow radix2 (-149)); [exact H2|]. replace (-149)%Z with (-150 + 1)%Z by lia. rewrite bpow_plus. change (bpow radix2 1) with 2. lra. }
  rewrite (Rabs_right t) in ES by lra. apply Rabs_le_inv in E, ES.
  assert (P : bpow radix2 (-1073) <= bpow radix2 (-152)) by (apply bpow_le; lia).
  replace (bpow radix2 (-149)) with (8 * bpow radix2 (-152)) in Hm by (change (-149)%Z with (3 + -152)%Z; rewrite bpow_plus; reflexivity).
  replace (bpow radix2 (-150)) with (4 * bpow radix2 (-152)) in ES by (change (-150)%Z with (2 + -152)%Z; rewrite bpow_plus; reflexivity).
  pose proof (bpow_gt_0 radix2 (-152)) as W. set (h := bpow radix2 (-152)) in *. set (h' := bpow radix2 (-1073)) in *.
  assert (D0 : 0 <= d) by lra.
  assert (C1 : bpow radix2 (-51) = / 2251799813685248) by (pow2; reflexivity). assert (C2 : bpow radix2 (-23) = / 8388608) by (pow2; reflexivity). assert (C3 : bpow radix2 (-24) = / 16777216) by (pow2; reflexivity).
  rewrite C1 in E. rewrite C2 in Hm. rewrite C3 in ES. replace ((1 - p) * (d - start)) with (d - ((1 - p) * start + p * d)) in Hm by ring.
  set (x := (1 - p) * start + p * d) in *. clearbody t x h h'. split; lra.
Qed.
Print Assumptions C91_margin.

(** The hypotheses are met, for example, by birth 1, death 4 and the default percentage. *)
Example C91_case : snd (get_cover_radius_d (1 / 2) 1 4 true) = 3 /\
  bpow radix2 (-23) * 4 + bpow radix2 (-149) < (1 - 1 / 2) * (4 - 2 * 1) /\ double (1 / 2) /\ double 1 /\ double 4.
Proof.
  assert (D : double (1 / 2)). { replace (1 / 2) with (IZR 1 * bpow radix2 (-1)) by (change (bpow radix2 (-1)) with (/ 2); lra). apply double_F; cbn; lia. }
  assert (I : forall z, (Z.abs z <= 2 ^ 53)%Z -> dbl (IZR z) = IZR z) by exact double_IZR.
  split; [|split; [|split; [exact D|split; [apply (I 1%Z); cbn; lia|apply (I 4%Z); cbn; lia]]]].
  - unfold get_cover_radius_d. cbn [snd]. replace (1 - 1 / 2) with (1 / 2) by lra. rewrite D. replace (2 * 1) with 2 by lra. rewrite (I 2%Z) by (cbn; lia).
    replace (1 / 2 * 2) with 1 by lra. replace (1 / 2 * 4) with 2 by lra. rewrite (I 2%Z), (I 1%Z) by (cbn; lia). replace (1 + 2) with 3 by lra. apply (I 3%Z). cbn; lia.
  - assert (bpow radix2 (-149) <= bpow radix2 (-1)) by (apply bpow_le; lia). change (bpow radix2 (-1)) with (/ 2) in H. assert (bpow radix2 (-23) = / 8388608) by (pow2; reflexivity). lra.
Qed.
