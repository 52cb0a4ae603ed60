(** RoundConstants.v -- rounding of ratios of integers by computation; the value of np.pi. *)
From Coq Require Import Reals Lra Lia ZArith List Machin Ratan.
From Flocq Require Import Core.
From Verif Require Import Base RealBase SpecRound RoundBase RoundModel RoundProofs.
Import ListNotations.
Local Open Scope R_scope.

(** ** Rounding a ratio of integers *)
Definition nearest_of (a b m : Z) : bool :=
  ((2 * Z.abs (a - m * b) <? b) || ((2 * Z.abs (a - m * b) =? b) && Z.even m))%Z.
Lemma Znearest_ratio a b m : (0 < b)%Z -> nearest_of a b m = true -> ZnearestE (IZR a / IZR b) = m.
Proof.
  intros Hb H. assert (B : 0 < IZR b) by (apply IZR_lt; exact Hb). unfold nearest_of in H. apply Bool.orb_true_iff in H. destruct H as [H|H].
  - apply Z.ltb_lt in H. apply Znearest_imp. replace (IZR a / IZR b - IZR m) with (IZR (a - m * b) / IZR b) by (rewrite minus_IZR, mult_IZR; field; lra).
    unfold Rdiv. rewrite Rabs_mult, Rabs_inv, (Rabs_right (IZR b)) by lra. rewrite <- abs_IZR. apply Rmult_lt_reg_r with (IZR b); [exact B|]. rewrite Rmult_assoc, Rinv_l, Rmult_1_r by lra.
    apply IZR_lt in H. rewrite mult_IZR in H. lra.
  - apply andb_prop in H. destruct H as [H E]. apply Z.eqb_eq in H.
    assert (C : (a - m * b = Z.abs (a - m * b) \/ a - m * b = - Z.abs (a - m * b))%Z) by lia. destruct C as [C|C].
    + assert (A : (2 * a = 2 * m * b + b)%Z) by lia.
      assert (X : IZR a / IZR b = IZR m + / 2). { apply (f_equal IZR) in A. rewrite mult_IZR, plus_IZR, !mult_IZR in A. field_simplify_eq; [|lra]. lra. }
      rewrite X. unfold Znearest. rewrite (Zfloor_imp m) by (rewrite plus_IZR; lra). replace (IZR m + / 2 - IZR m) with (/ 2) by ring. rewrite Rcompare_Eq by reflexivity. rewrite E. reflexivity.
    + assert (A : (2 * a = 2 * m * b - b)%Z) by lia.
      assert (X : IZR a / IZR b = IZR (m - 1) + / 2). { apply (f_equal IZR) in A. rewrite mult_IZR, minus_IZR, !mult_IZR in A. rewrite minus_IZR. field_simplify_eq; [|lra]. lra. }
      rewrite X. unfold Znearest. rewrite (Zfloor_imp (m - 1)) by (rewrite plus_IZR; lra). replace (IZR (m - 1) + / 2 - IZR (m - 1)) with (/ 2) by ring. rewrite Rcompare_Eq by reflexivity.
      rewrite Z.even_sub. rewrite E. cbn. rewrite (Zceil_imp m); [reflexivity|]. rewrite !minus_IZR. lra.
Qed.
Lemma dbl_ratio a b m e : (0 < b)%Z -> (-1074 <= e)%Z -> (2 ^ 52 * b <= a < 2 ^ 53 * b)%Z -> nearest_of a b m = true ->
  dbl (IZR a / IZR b * bpow radix2 e) = IZR m * bpow radix2 e.
Proof.
  intros Hb He Ha Hm. assert (B : 0 < IZR b) by (apply IZR_lt; exact Hb).
  assert (L : bpow radix2 52 <= IZR a / IZR b < bpow radix2 53).
  { destruct Ha as [A1 A2]. apply IZR_le in A1. apply IZR_lt in A2. rewrite mult_IZR in A1, A2. change (bpow radix2 52) with (IZR (2 ^ 52)). change (bpow radix2 53) with (IZR (2 ^ 53)).
    split; [apply Rmult_le_reg_r with (IZR b)|apply Rmult_lt_reg_r with (IZR b)]; try exact B; unfold Rdiv; rewrite Rmult_assoc, Rinv_l, Rmult_1_r by lra; assumption. }
  pose proof (bpow_gt_0 radix2 e) as Pe. pose proof (bpow_gt_0 radix2 52) as P52.
  assert (M : mag radix2 (IZR a / IZR b * bpow radix2 e) = (e + 53)%Z :> Z).
  { apply mag_unique_pos. replace (e + 53 - 1)%Z with (52 + e)%Z by lia. replace (e + 53)%Z with (53 + e)%Z by lia. rewrite !bpow_plus. split; [apply Rmult_le_compat_r|apply Rmult_lt_compat_r]; lra. }
  assert (C : cexp radix2 (FLT_exp (-1074) 53) (IZR a / IZR b * bpow radix2 e) = e).
  { unfold cexp. rewrite M. unfold FLT_exp. lia. }
  unfold dbl, round, F2R, scaled_mantissa. rewrite C. cbn [Fnum Fexp]. rewrite Rmult_assoc, <- bpow_plus, Z.add_opp_diag_r, Rmult_1_r.
  rewrite (Znearest_ratio a b m Hb Hm). reflexivity.
Qed.

(** [rounded_ratio a b] is (m, e) with [dbl (a / b) = m * 2^e], if the check succeeds. *)
Definition shift_ratio (a b e : Z) : Z * Z := if (e <=? 0)%Z then (a * 2 ^ (- e), b)%Z else (a, b * 2 ^ e)%Z.
Definition nearest_quotient (a b : Z) : Z :=
  let m := (a / b)%Z in if nearest_of a b m then m else (m + 1)%Z.
Definition exponent_of (a b : Z) : Z :=
  let e := (Z.log2 a - Z.log2 b - 52)%Z in
  let '(a', b') := shift_ratio a b e in if (a' <? 2 ^ 52 * b')%Z then (e - 1)%Z else e.
Definition rounded_ratio (a b : Z) : option (Z * Z) :=
  let e := exponent_of a b in let '(a', b') := shift_ratio a b e in let m := nearest_quotient a' b' in
  if ((0 <? b') && (-1074 <=? e) && (2 ^ 52 * b' <=? a') && (a' <? 2 ^ 53 * b') && nearest_of a' b' m)%Z then Some (m, e) else None.
Lemma shift_ratio_val a b e a' b' : (0 < b)%Z -> shift_ratio a b e = (a', b') -> IZR a / IZR b = IZR a' / IZR b' * bpow radix2 e.
Proof.
  intros Hb H. assert (B : IZR b <> 0) by (apply not_0_IZR; lia). unfold shift_ratio in H. destruct (Z.leb_spec e 0) as [E|E]; injection H as <- <-.
  - rewrite mult_IZR. change 2%Z with (radix_val radix2). rewrite IZR_Zpower by lia. unfold Rdiv. rewrite (Rmult_comm (IZR a)), !Rmult_assoc, (Rmult_comm (bpow radix2 (- e))), !Rmult_assoc, <- bpow_plus, Z.add_opp_diag_r. cbn [bpow]. ring.
  - rewrite mult_IZR. change 2%Z with (radix_val radix2). rewrite IZR_Zpower by lia. field. split; [apply Rgt_not_eq, bpow_gt_0|exact B].
Qed.
Lemma rounded_ratio_ok a b m e : (0 < b)%Z -> rounded_ratio a b = Some (m, e) -> dbl (IZR a / IZR b) = IZR m * bpow radix2 e.
Proof.
  intros Hb. unfold rounded_ratio. set (e0 := exponent_of a b). destruct (shift_ratio a b e0) as [a' b'] eqn:S. set (m0 := nearest_quotient a' b').
  destruct (_ && _)%bool eqn:C; [|discriminate]. intros H; injection H as <- <-. repeat (apply andb_prop in C; destruct C as [C ?]).
  apply Z.ltb_lt in C. apply Z.leb_le in H2. apply Z.leb_le in H1. apply Z.ltb_lt in H0.
  rewrite (shift_ratio_val a b e0 a' b' Hb S). apply dbl_ratio; (assumption || lia).
Qed.

(** ** The value of pi *)
Definition machin_term (n : nat) : Z * Z :=
  let m := (2 * Z.of_nat n + 1)%Z in (((if Nat.even n then 1 else -1) * (2 * 7 ^ m + 3 ^ m))%Z, (21 ^ m * m)%Z).
Fixpoint machin_sum (n : nat) : Z * Z :=
  match n with
  | O => machin_term 0
  | S n' => let '(a, b) := machin_sum n' in let '(c, d) := machin_term (S n') in ((a * d + c * b)%Z, (b * d)%Z)
  end.
Lemma machin_term_pos n : (0 < snd (machin_term n))%Z.
Proof. unfold machin_term; cbn [snd]. apply Z.mul_pos_pos; [apply Z.pow_pos_nonneg|]; lia. Qed.
Lemma minus_one_pow n : (-1) ^ n = IZR (if Nat.even n then 1 else -1).
Proof.
  induction n as [|n IH]; [reflexivity|]. rewrite <- tech_pow_Rmult, IH, Nat.even_succ, <- Nat.negb_even. destruct (Nat.even n); cbn [negb]; lra.
Qed.
Lemma machin_term_val n : tg_alt PI_2_3_7_tg n = IZR (fst (machin_term n)) / IZR (snd (machin_term n)).
Proof.
  unfold tg_alt, PI_2_3_7_tg, Ratan_seq, machin_term; cbn [fst snd]. rewrite minus_one_pow.
  assert (Em : (2 * Z.of_nat n + 1)%Z = Z.of_nat (2 * n + 1)) by lia. rewrite Em. rewrite !mult_IZR, plus_IZR, mult_IZR, <- !pow_IZR, <- INR_IZR_INZ.
  assert (I : INR (2 * n + 1) <> 0) by (apply not_0_INR; lia). set (m := (2 * n + 1)%nat) in *. rewrite !pow_inv.
  replace 21 with (3 * 7) by ring. rewrite Rpow_mult_distr.
  assert (A : 3 ^ m <> 0) by (apply pow_nonzero; lra). assert (B : 7 ^ m <> 0) by (apply pow_nonzero; lra). field. repeat split; assumption.
Qed.
Lemma machin_sum_val n : (0 < snd (machin_sum n))%Z /\ sum_f_R0 (tg_alt PI_2_3_7_tg) n = IZR (fst (machin_sum n)) / IZR (snd (machin_sum n)).
Proof.
  induction n as [|n [P IH]].
  - split; [apply machin_term_pos|]. cbn [sum_f_R0 machin_sum]. apply machin_term_val.
  - cbn [sum_f_R0 machin_sum]. rewrite IH, machin_term_val. pose proof (machin_term_pos (S n)) as Q. destruct (machin_sum n) as [a b]. destruct (machin_term (S n)) as [c d]. cbn [fst snd] in *.
    split; [apply Z.mul_pos_pos; assumption|]. rewrite plus_IZR, !mult_IZR. field. split; apply not_0_IZR; lia.
Qed.
(** 7074237752028440 / 2^51 = 3.14159265358979311... *)
Definition pi_mant : Z := 7074237752028440.
Lemma ratio_bounds (x M K : R) (a b c d : Z) : 0 < M -> (0 < b)%Z -> (0 < d)%Z -> IZR a / IZR b <= x <= IZR c / IZR d ->
  K * IZR b < M * IZR a -> M * IZR c < (K + 2) * IZR d -> K < M * x < K + 2.
Proof.
  intros HM Hb Hd [L U] H1 H2. apply IZR_lt in Hb, Hd. split.
  - apply Rmult_lt_reg_r with (IZR b); [exact Hb|]. eapply Rlt_le_trans; [exact H1|]. replace (M * IZR a) with (M * (IZR a / IZR b) * IZR b) by (field; lra).
    apply Rmult_le_compat_r; [lra|]. apply Rmult_le_compat_l; lra.
  - apply Rmult_lt_reg_r with (IZR d); [exact Hd|]. eapply Rle_lt_trans; [|exact H2]. replace (M * IZR c) with (M * (IZR c / IZR d) * IZR d) by (field; lra).
    apply Rmult_le_compat_r; [lra|]. apply Rmult_le_compat_l; lra.
Qed.
Definition machin_check : bool :=
  let '(a, b) := machin_sum 21 in let '(c, d) := machin_sum 20 in
  (((2 * pi_mant - 1) * b <? 2 ^ 54 * a) && (2 ^ 54 * c <? (2 * pi_mant + 1) * d))%Z.
Lemma machin_check_true : machin_check = true.
Proof. vm_compute. reflexivity. Qed.
Lemma two_pow (n : Z) : (0 <= n)%Z -> IZR (2 ^ n) = bpow radix2 n.
Proof. intros H. exact (IZR_Zpower radix2 n H). Qed.
Lemma bpow_54 : bpow radix2 54 = 8 * bpow radix2 51.
Proof. change 54%Z with (3 + 51)%Z. rewrite bpow_plus. change (bpow radix2 3) with 8. reflexivity. Qed.
Lemma pi_scaled : Rabs (PI * bpow radix2 51 - IZR pi_mant) < / 2.
Proof.
  pose proof (PI_2_3_7_ineq 10) as I. replace (S (2 * 10)) with 21%nat in I by reflexivity. replace (2 * 10)%nat with 20%nat in I by reflexivity.
  destruct (machin_sum_val 21) as [P1 E1]. destruct (machin_sum_val 20) as [P2 E2]. pose proof machin_check_true as C. unfold machin_check in C.
  destruct (machin_sum 21) as [a b]. destruct (machin_sum 20) as [c d]. cbn [fst snd] in *. rewrite E1, E2 in I.
  apply andb_prop in C. destruct C as [C1 C2]. apply Z.ltb_lt, IZR_lt in C1, C2. rewrite !mult_IZR, minus_IZR, mult_IZR in C1. rewrite !mult_IZR, plus_IZR, mult_IZR in C2.
  rewrite (two_pow 54) in C1, C2 by lia. pose proof (bpow_gt_0 radix2 54) as G.
  pose proof (ratio_bounds (PI / 4) (bpow radix2 54) (2 * IZR pi_mant - 1) a b c d G P1 P2 I C1 ltac:(lra)) as B. rewrite bpow_54 in B. apply Rabs_lt. lra.
Qed.
Lemma scaled_near x e m : bpow radix2 52 <= x < bpow radix2 53 -> (-1074 <= e)%Z -> Rabs (x - IZR m) < / 2 ->
  dbl (x * bpow radix2 e) = IZR m * bpow radix2 e.
Proof.
  intros Bx He Hx. pose proof (bpow_gt_0 radix2 e) as Pe. pose proof (bpow_gt_0 radix2 52) as P52.
  assert (M : mag radix2 (x * bpow radix2 e) = (e + 53)%Z :> Z).
  { apply mag_unique_pos. replace (e + 53 - 1)%Z with (52 + e)%Z by lia. replace (e + 53)%Z with (53 + e)%Z by lia. rewrite !bpow_plus. split; [apply Rmult_le_compat_r|apply Rmult_lt_compat_r]; lra. }
  assert (C : cexp radix2 (FLT_exp (-1074) 53) (x * bpow radix2 e) = e) by (unfold cexp; rewrite M; unfold FLT_exp; lia).
  unfold dbl, round, F2R, scaled_mantissa. rewrite C. cbn [Fnum Fexp]. rewrite Rmult_assoc, <- bpow_plus, Z.add_opp_diag_r, Rmult_1_r.
  rewrite (Znearest_imp _ x m Hx). reflexivity.
Qed.
Lemma np_pi_value : np_pi = IZR pi_mant * bpow radix2 (-51).
Proof.
  unfold np_pi. replace PI with (PI * bpow radix2 51 * bpow radix2 (-51)) by (rewrite Rmult_assoc, <- bpow_plus; change (51 + -51)%Z with 0%Z; change (bpow radix2 0) with 1; ring).
  apply scaled_near; [|lia|exact pi_scaled]. pose proof pi_scaled as H. apply Rabs_def2 in H.
  rewrite <- (two_pow 52), <- (two_pow 53) by lia. assert (A : (2 ^ 52 < pi_mant)%Z) by reflexivity. assert (B : (pi_mant + 1 < 2 ^ 53)%Z) by reflexivity. apply IZR_lt in A, B. rewrite plus_IZR in B.
  assert (A' : (2 ^ 52 + 1 <= pi_mant)%Z) by (apply Z.leb_le; reflexivity). apply IZR_le in A'. rewrite plus_IZR in A'. lra.
Qed.
Lemma two_pi_value : two_pi_d = IZR pi_mant / IZR (2 ^ 50).
Proof.
  rewrite two_pi_exact, np_pi_value, (two_pow 50) by lia. change (-51)%Z with (- (50) + - (1))%Z. rewrite bpow_plus, !bpow_opp. change (bpow radix2 1) with 2.
  field. apply Rgt_not_eq, bpow_gt_0.
Qed.
