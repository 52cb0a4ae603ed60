(** RoundBase.v -- facts about rounding to doubles. *)
From Coq Require Import Reals Lra Lia ZArith List Permutation Psatz.
From Flocq Require Import Core Relative Plus_error.
From Verif Require Import Base RealBase SpecRound.
Import ListNotations.
Local Open Scope R_scope.

Global Instance prec53 : Prec_gt_0 53. Proof. reflexivity. Qed.
Global Instance prec24 : Prec_gt_0 24. Proof. reflexivity. Qed.
Notation F64 := (FLT_exp (-1074) 53).

Lemma dbl_le x y : x <= y -> dbl x <= dbl y.
Proof. apply round_le; auto with typeclass_instances. Qed.
Lemma dbl_0 : dbl 0 = 0. Proof. apply round_0; auto with typeclass_instances. Qed.
Lemma dbl_dbl x : double (dbl x).
Proof. apply round_generic; [auto with typeclass_instances|]. apply generic_format_round; auto with typeclass_instances. Qed.
Lemma double_format x : double x <-> generic_format radix2 F64 x.
Proof.
  split; intros H; [rewrite <- H; apply generic_format_round; auto with typeclass_instances|apply round_generic; [auto with typeclass_instances|exact H]].
Qed.
Lemma dbl_ge_0 x : 0 <= x -> 0 <= dbl x. Proof. intros H. rewrite <- dbl_0. apply dbl_le, H. Qed.
Lemma dbl_le_double x y : double y -> x <= y -> dbl x <= y. Proof. intros Hy H. rewrite <- Hy. apply dbl_le, H. Qed.
Lemma dbl_ge_double x y : double y -> y <= x -> y <= dbl x. Proof. intros Hy H. rewrite <- Hy. apply dbl_le, H. Qed.
Lemma double_0 : double 0. Proof. exact dbl_0. Qed.
Lemma double_opp x : double x -> double (- x).
Proof. rewrite !double_format. apply generic_format_opp. Qed.
(** Integers times powers of two. *)
Lemma double_F m e : (Z.abs m <= 2 ^ 53)%Z -> (-1074 <= e)%Z -> double (IZR m * bpow radix2 e).
Proof.
  intros Hm He. apply double_format. destruct (Z.eq_dec (Z.abs m) (2 ^ 53)) as [E|N].
  - assert (G : generic_format radix2 F64 (bpow radix2 (53 + e))) by (apply generic_format_FLT_bpow; [exact prec53|lia]).
    rewrite bpow_plus in G. change (bpow radix2 53) with (IZR (2 ^ 53)) in G.
    destruct (Z.abs_eq_or_opp m) as [Q|Q]; rewrite Q in E.
    + rewrite E. exact G.
    + replace m with (- 2 ^ 53)%Z by lia. rewrite opp_IZR, <- Ropp_mult_distr_l. apply generic_format_opp, G.
  - apply generic_format_FLT. exists (Float radix2 m e); [reflexivity| |exact He]. cbn [Fnum]. change (radix2 ^ 53)%Z with (2 ^ 53)%Z. lia.
Qed.
Lemma double_IZR m : (Z.abs m <= 2 ^ 53)%Z -> double (IZR m).
Proof. intros H. rewrite <- (Rmult_1_r (IZR m)). apply (double_F m 0 H). lia. Qed.
(** The error of one rounding. *)
Lemma dbl_error x : Rabs (dbl x - x) <= bpow radix2 (-53) * Rabs x + bpow radix2 (-1075).
Proof.
  destruct (error_N_FLT radix2 (-1074) 53 ltac:(reflexivity) (fun x => negb (Z.even x)) x) as (eps & eta & H1 & H2 & _ & E).
  fold (dbl x) in E. rewrite E. replace (x * (1 + eps) + eta - x) with (eps * x + eta) by ring.
  eapply Rle_trans; [apply Rabs_triang|]. apply Rplus_le_compat.
  - rewrite Rabs_mult. apply Rmult_le_compat_r; [apply Rabs_pos|]. replace (bpow radix2 (-53)) with (/ 2 * bpow radix2 (-53 + 1)); [exact H1|].
    rewrite bpow_plus. change (bpow radix2 1) with 2. lra.
  - replace (bpow radix2 (-1075)) with (/ 2 * bpow radix2 (-1074)); [exact H2|]. replace (-1074)%Z with (-1075 + 1)%Z by lia. rewrite bpow_plus. change (bpow radix2 1) with 2. lra.
Qed.
(** Sums and differences are zero only if exact ones are, and have no underflow error. *)
Lemma dbl_plus_0 x y : double x -> double y -> dbl (x + y) = 0 -> x + y = 0.
Proof.
  intros Hx Hy H. apply double_format in Hx, Hy. destruct (Req_dec (x + y) 0) as [|N]; [assumption|].
  exfalso. apply (round_plus_neq_0 radix2 F64 ZnearestE x y Hx Hy N). exact H.
Qed.
Lemma dbl_plus x y : double x -> double y -> exists eps, Rabs eps <= bpow radix2 (-53) /\ dbl (x + y) = (x + y) * (1 + eps).
Proof.
  intros Hx Hy. apply double_format in Hx, Hy.
  destruct (FLT_plus_error_N_ex radix2 (-1074) 53 (fun x => negb (Z.even x)) x y Hx Hy) as (eps & H & E).
  exists eps. split; [|exact E]. eapply Rle_trans; [exact H|].
  assert (U : u_ro radix2 53 = bpow radix2 (-53)).
  { unfold u_ro. rewrite (bpow_plus radix2 (- (53)) 1). change (bpow radix2 1) with 2. change (- (53))%Z with (-53)%Z. lra. }
  rewrite U. assert (0 < bpow radix2 (-53)) by apply bpow_gt_0. apply Rmult_le_reg_r with (1 + bpow radix2 (-53)); [lra|].
  unfold Rdiv. rewrite Rmult_assoc, Rinv_l by lra. nra.
Qed.
