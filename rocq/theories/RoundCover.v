(** RoundCover.v -- lemmas for C91: the cover radius in double precision. *)
From Coq Require Import Reals Lra Lia ZArith List Psatz.
From Flocq Require Import Core Relative.
From Verif Require Import Base RealBase SpecRound RoundBase RoundModel RoundProofs.
Import ListNotations.
Local Open Scope R_scope.

(** Rounding in a known binade. *)
Lemma dbl_binade e x : (-1074 <= e)%Z -> bpow radix2 (e + 52) <= x < bpow radix2 (e + 53) ->
  dbl x = IZR (ZnearestE (x * bpow radix2 (- e))) * bpow radix2 e.
Proof.
  intros He Hx. unfold dbl, round, F2R, scaled_mantissa, cexp. cbn [Fnum Fexp].
  assert (Hp : 0 < x) by (pose proof (bpow_gt_0 radix2 (e + 52)); lra).
  rewrite (mag_unique radix2 x (e + 53)). 2:{ rewrite Rabs_right by lra. replace (e + 53 - 1)%Z with (e + 52)%Z by lia. exact Hx. }
  unfold FLT_exp. replace (Z.max (e + 53 - 53) (-1074)) with e by lia. reflexivity.
Qed.
Lemma nearest_is x m : Rabs (x - IZR m) < / 2 -> ZnearestE x = m.
Proof. apply Znearest_imp. Qed.
Lemma nearest_even x m : Z.even m = true -> Rabs (x - IZR m) <= / 2 -> ZnearestE x = m.
Proof.
  intros Ev H. destruct (Rle_lt_or_eq_dec _ _ H) as [L|E]; [apply nearest_is, L|].
  unfold Rabs in E. destruct (Rcase_abs _) as [C|C].
  - assert (F : Zfloor x = (m - 1)%Z) by (apply Zfloor_imp; rewrite plus_IZR, minus_IZR; lra).
    unfold Znearest. rewrite F, minus_IZR. replace (x - (IZR m - 1)) with (/ 2) by lra. rewrite Rcompare_Eq by reflexivity.
    replace (Z.even (m - 1)) with false by (rewrite Z.even_sub, Ev; reflexivity). cbn [negb].
    apply Zceil_imp. rewrite minus_IZR. lra.
  - assert (F : Zfloor x = m) by (apply Zfloor_imp; rewrite plus_IZR; lra).
    unfold Znearest. rewrite F. replace (x - IZR m) with (/ 2) by lra. rewrite Rcompare_Eq by reflexivity. rewrite Ev. reflexivity.
Qed.
Lemma nearest_close x : Rabs (x - IZR (ZnearestE x)) <= / 2.
Proof. apply Znearest_half. Qed.
Lemma dbl_exactly e x m : (-1074 <= e)%Z -> bpow radix2 (e + 52) <= x < bpow radix2 (e + 53) ->
  (Rabs (x * bpow radix2 (- e) - IZR m) < / 2 \/ Z.even m = true /\ Rabs (x * bpow radix2 (- e) - IZR m) <= / 2) ->
  dbl x = IZR m * bpow radix2 e.
Proof. intros He Hx [H|[Ev H]]; rewrite (dbl_binade e x He Hx); f_equal; f_equal; [apply nearest_is, H|apply nearest_even; assumption]. Qed.

(** The threshold as a function of the percentage and the ends of the range. *)
Definition thr (p s e : R) : R := dbl (dbl (dbl (1 - p) * s) + dbl (p * e)).
Lemma thr_mono p s s' e e' : 0 <= p <= 1 -> s <= s' -> e <= e' -> thr p s e <= thr p s' e'.
Proof.
  intros Hp Hs He. unfold thr. apply dbl_le. apply Rplus_le_compat; apply dbl_le.
  - apply Rmult_le_compat_l; [apply dbl_ge_0; lra|exact Hs].
  - apply Rmult_le_compat_l; lra.
Qed.
Lemma double_1 : double 1. Proof. apply (double_IZR 1). cbn. lia. Qed.
Lemma thr_0 s e : double s -> thr 0 s e = s.
Proof. intros Hs. unfold thr. rewrite Rminus_0_r, double_1, Rmult_1_l, Hs, Rmult_0_l, dbl_0, Rplus_0_r. exact Hs. Qed.
Lemma thr_1 s e : double e -> thr 1 s e = e.
Proof. intros He. unfold thr. replace (1 - 1) with 0 by lra. rewrite dbl_0, Rmult_0_l, dbl_0, Rmult_1_l, He, Rplus_0_l. exact He. Qed.
Lemma thr_error p s e : double p -> 0 <= p <= 1 -> 0 <= s <= e ->
  Rabs (thr p s e - ((1 - p) * s + p * e)) <= bpow radix2 (-51) * e + bpow radix2 (-1073).
Proof.
  intros Dp Hp Hs. unfold thr. set (u := bpow radix2 (-53)). set (h := bpow radix2 (-1075)).
  replace (bpow radix2 (-51)) with (4 * u) by (unfold u; change (-51)%Z with (2 + -53)%Z; rewrite bpow_plus; reflexivity).
  replace (bpow radix2 (-1073)) with (4 * h) by (unfold h; change (-1073)%Z with (2 + -1075)%Z; rewrite bpow_plus; reflexivity).
  assert (U : 0 < u <= / 64). { unfold u. destruct (tiny_le (-53 - 7)) as [_ T]; [lia|]. split; [apply bpow_gt_0|]. rewrite bpow_neg. apply Rinv_le; [lra|]. apply IZR_le. cbn. lia. }
  assert (H0 : 0 < h) by apply bpow_gt_0.
  set (q := dbl (1 - p)). set (A := dbl (q * s)). set (B := dbl (p * e)). set (X := (1 - p) * s). set (Y := p * e).
  assert (HX : 0 <= X) by (unfold X; apply Rmult_le_pos; lra). assert (HY : 0 <= Y) by (unfold Y; apply Rmult_le_pos; lra).
  assert (XY : X + Y <= e) by (unfold X, Y; nra).
  assert (Q : Rabs (q * s - X) <= u * X).
  { destruct (dbl_plus 1 (- p) double_1 (double_opp _ Dp)) as (eps & He & E). fold (1 - p) in E. fold q in E. unfold X. rewrite E.
    replace ((1 - p) * (1 + eps) * s - (1 - p) * s) with (eps * ((1 - p) * s)) by ring. rewrite Rabs_mult, (Rabs_right ((1 - p) * s)) by (fold X; lra).
    apply Rmult_le_compat_r; [exact HX|exact He]. }
  assert (Q0 : 0 <= q * s) by (apply Rmult_le_pos; [unfold q; apply dbl_ge_0; lra|lra]).
  pose proof (dbl_error (q * s)) as EA. fold A u h in EA. rewrite (Rabs_right (q * s)) in EA by lra.
  pose proof (dbl_error (p * e)) as EB. fold B Y u h in EB. rewrite (Rabs_right Y) in EB by lra.
  assert (A0 : 0 <= A) by (apply dbl_ge_0, Q0). assert (B0 : 0 <= B) by (apply dbl_ge_0; exact HY).
  assert (ET : Rabs (dbl (A + B) - (A + B)) <= u * (A + B)).
  { destruct (dbl_plus A B (dbl_dbl _) (dbl_dbl _)) as (eps & He & E). rewrite E. replace ((A + B) * (1 + eps) - (A + B)) with (eps * (A + B)) by ring.
    rewrite Rabs_mult, (Rabs_right (A + B)) by lra. apply Rmult_le_compat_r; [lra|exact He]. }
  set (t := dbl (A + B)) in *. clearbody t A B X Y u h. set (w := q * s) in *. clearbody w. clear q.
  apply Rabs_le_inv in Q, EA, EB, ET.
  assert (u * w <= u * X + u * X / 64) by nra. assert (u * (A + B) <= u * (X + Y) + u * (X + Y) / 16 + h / 16) by nra.
  assert (u * (X + Y) <= u * e) by nra. assert (0 <= u * X) by nra. assert (0 <= u * Y) by nra. assert (0 <= u * e) by nra.
  apply Rabs_le. lra.
Qed.

Lemma double_repr x : double x -> exists m e, (Z.abs m < 2 ^ 53)%Z /\ (-1074 <= e)%Z /\ x = IZR m * bpow radix2 e.
Proof.
  intros Hx. apply double_format in Hx. apply FLT_format_generic in Hx; [|exact prec53]. destruct Hx as [[m e] E Hm He].
  exists m, e. split; [exact Hm|]. split; [exact He|exact E].
Qed.
Lemma double_half x : double x -> bpow radix2 (-1021) <= x -> double (x / 2).
Proof.
  intros Hx L. destruct (double_repr x Hx) as (m & e & Hm & He & ->).
  replace (IZR m * bpow radix2 e / 2) with (IZR m * bpow radix2 (e - 1)).
  2:{ change (e - 1)%Z with (e + -1)%Z. rewrite bpow_plus. change (bpow radix2 (-1)) with (/ 2). field. }
  apply double_F; [lia|]. destruct (Z.eq_dec e (-1074)) as [->|N]; [|lia]. exfalso.
  replace (-1021)%Z with (53 + -1074)%Z in L by lia. rewrite bpow_plus in L. apply Rmult_le_reg_r in L; [|apply bpow_gt_0].
  change (bpow radix2 53) with (IZR (2 ^ 53)) in L. apply le_IZR in L. lia.
Qed.
Lemma thr_half x : double x -> bpow radix2 (-1021) <= x -> thr (1 / 2) x x = x.
Proof.
  intros Hx L. unfold thr. assert (H2 : double (1 / 2)). { replace (1 / 2) with (IZR 1 * bpow radix2 (-1)) by (change (bpow radix2 (-1)) with (/ 2); lra). apply double_F; cbn; lia. }
  replace (1 - 1 / 2) with (1 / 2) by lra. rewrite H2. replace (1 / 2 * x) with (x / 2) by lra. rewrite (double_half x Hx L). replace (x / 2 + x / 2) with x by lra. exact Hx.
Qed.
(** A number that is not too small has a mantissa of full length. *)
Lemma full_mantissa x : double x -> bpow radix2 (-1021) <= x ->
  exists M k, (2 ^ 52 <= M < 2 ^ 53)%Z /\ (-1074 < k)%Z /\ x = IZR M * bpow radix2 k.
Proof.
  intros Hx L. assert (P : 0 < x) by (pose proof (bpow_gt_0 radix2 (-1021)); lra).
  destruct (mag radix2 x) as [g Hg]. specialize (Hg ltac:(lra)). rewrite Rabs_right in Hg by lra. set (k := (g - 53)%Z).
  assert (Kg : (-1021 < g)%Z) by (apply (lt_bpow radix2); lra).
  assert (E : x = IZR (ZnearestE (x * bpow radix2 (- k))) * bpow radix2 k).
  { rewrite <- dbl_binade; [symmetry; exact Hx|lia|]. unfold k. replace (g - 53 + 52)%Z with (g - 1)%Z by lia. replace (g - 53 + 53)%Z with g by lia. exact Hg. }
  exists (ZnearestE (x * bpow radix2 (- k))), k. split; [|split; [lia|exact E]]. set (M := ZnearestE _) in *. clearbody M.
  rewrite E in Hg. replace (g - 1)%Z with (52 + k)%Z in Hg by lia. replace (bpow radix2 g) with (bpow radix2 (53 + k)) in Hg by (f_equal; lia). rewrite !bpow_plus in Hg.
  destruct Hg as [H1 H2]. apply Rmult_le_reg_r in H1; [|apply bpow_gt_0]. apply Rmult_lt_reg_r in H2; [|apply bpow_gt_0].
  change (bpow radix2 52) with (IZR (2 ^ 52)) in H1. change (bpow radix2 53) with (IZR (2 ^ 53)) in H2. split; [apply le_IZR, H1|apply lt_IZR, H2].
Qed.

(** The default percentage 0.9 of projective and lens coordinates. *)
Definition P9 : Z := 8106479329266893. Definition Q9 : Z := 900719925474099.
Lemma nine_tenths : dbl (9 / 10) = IZR P9 * bpow radix2 (-53).
Proof.
  apply dbl_exactly; [lia| |left].
  - change (-53 + 52)%Z with (-1)%Z. change (-53 + 53)%Z with 0%Z. change (bpow radix2 0) with 1. change (bpow radix2 (-1)) with (/ 2). lra.
  - change (bpow radix2 (- -53)) with (IZR (2 ^ 53)). unfold P9. change (2 ^ 53)%Z with 9007199254740992%Z. apply Rabs_def1; lra.
Qed.
Lemma one_tenth_left : dbl (1 - dbl (9 / 10)) = IZR Q9 * bpow radix2 (-53).
Proof.
  rewrite nine_tenths. replace (1 - IZR P9 * bpow radix2 (-53)) with (IZR Q9 * bpow radix2 (-53)) by (pow2; unfold P9, Q9; lra).
  apply double_F; unfold Q9; lia.
Qed.

Lemma split10 M : exists q r, M = (10 * q + r)%Z /\ (0 <= r < 10)%Z.
Proof. exists (M / 10)%Z, (M mod 10)%Z. split; [apply Z.div_mod; lia|apply Z.mod_pos_bound; lia]. Qed.
Lemma thr_nine x : double x -> bpow radix2 (-1000) <= x -> thr (dbl (9 / 10)) x x <= x.
Proof.
  intros Hx L. assert (L' : bpow radix2 (-1021) <= x) by (eapply Rle_trans; [apply (bpow_le radix2 (-1021) (-1000)); lia|exact L]).
  destruct (full_mantissa x Hx L') as (M & k & HM & _ & E).
  assert (Hk : (-1053 <= k)%Z).
  { destruct (Z.le_gt_cases (-1053) k) as [|K]; [assumption|exfalso]. rewrite E in L. apply (Rlt_irrefl (bpow radix2 (-1000))). eapply Rle_lt_trans; [exact L|].
    replace (-1000)%Z with (53 + -1053)%Z by lia. rewrite bpow_plus. apply Rmult_le_0_lt_compat; [apply IZR_le; lia|apply bpow_ge_0| |apply bpow_lt, K].
    change (bpow radix2 53) with (IZR (2 ^ 53)). apply IZR_lt. lia. }
  pose proof (bpow_gt_0 radix2 k) as K0. set (b := bpow radix2 k) in *.
  assert (Kb : bpow radix2 (- k) * b = 1) by (unfold b; rewrite <- bpow_plus; replace (- k + k)%Z with 0%Z by lia; reflexivity).
  unfold thr. rewrite one_tenth_left, nine_tenths.
  (* the two products in units of the last place of x *)
  set (yA := IZR Q9 * IZR M / 9007199254740992). set (yB := IZR P9 * IZR M / 9007199254740992).
  replace (IZR Q9 * bpow radix2 (-53) * x) with (yA * b) by (rewrite E; unfold yA; pow2; field).
  replace (IZR P9 * bpow radix2 (-53) * x) with (yB * b) by (rewrite E; unfold yB; pow2; field).
  assert (M1 : 4503599627370496 <= IZR M) by (apply (IZR_le (2 ^ 52)); lia). assert (M2 : IZR M <= 9007199254740991) by (apply IZR_le; lia).
  assert (SAB : yA + yB = IZR M) by (unfold yA, yB, P9, Q9; field).
  set (th := IZR M / 45035996273704960). assert (TH : 1 / 10 <= th < 2 / 10) by (unfold th; lra).
  assert (YA : yA = IZR M / 10 - th) by (unfold yA, th, Q9; field).
  (* error of the first product *)
  assert (EA : exists a, dbl (yA * b) = a * b /\ Rabs (a - yA) <= th / 2 + / 1000 /\ forall z : Z, (0 <= z)%Z -> (z < 2 ^ 51)%Z -> yA <= IZR z + / 2 -> a <= IZR z + / 2).
  { exists (dbl (yA * b) * bpow radix2 (- k)). split; [rewrite Rmult_assoc, Kb; lra|]. split.
    - pose proof (dbl_error (yA * b)) as D. rewrite (Rabs_right (yA * b)) in D by (apply Rle_ge, Rmult_le_pos; lra).
      replace (dbl (yA * b) * bpow radix2 (- k) - yA) with ((dbl (yA * b) - yA * b) * bpow radix2 (- k)) by (rewrite Rmult_minus_distr_r, Rmult_assoc, (Rmult_comm b), Kb; ring).
      rewrite Rabs_mult, (Rabs_right (bpow radix2 (- k))) by (apply Rle_ge, bpow_ge_0).
      eapply Rle_trans; [apply Rmult_le_compat_r; [apply bpow_ge_0|exact D]|]. rewrite Rmult_plus_distr_r. apply Rplus_le_compat.
      + rewrite Rmult_assoc, (Rmult_assoc yA), (Rmult_comm b), Kb. pow2. rewrite YA. unfold th. lra.
      + rewrite <- bpow_plus. eapply Rle_trans; [apply (bpow_le radix2 _ (-20)); lia|]. pow2. lra.
    - intros z Hz Hz2 Y. apply (Rmult_le_reg_r b); [exact K0|]. rewrite Rmult_assoc, Kb, Rmult_1_r.
      replace ((IZR z + / 2) * b) with (IZR (2 * z + 1) * bpow radix2 (k - 1)).
      2:{ rewrite plus_IZR, mult_IZR. change (k - 1)%Z with (k + -1)%Z. rewrite bpow_plus. fold b. change (bpow radix2 (-1)) with (/ 2). field. }
      apply dbl_le_double; [apply double_F; lia|]. rewrite plus_IZR, mult_IZR. change (k - 1)%Z with (k + -1)%Z. rewrite bpow_plus. fold b. change (bpow radix2 (-1)) with (/ 2).
      replace ((2 * IZR z + 1) * (b * / 2)) with ((IZR z + / 2) * b) by field. apply Rmult_le_compat_r; lra. }
  destruct EA as (a & -> & EA & RA). apply Rabs_le_inv in EA.
  (* the second product *)
  assert (EB : exists c, dbl (yB * b) = c * b /\ (Rabs (c - yB) <= / 4 \/ exists n, c = IZR n /\ Rabs (yB - IZR n) <= / 2)).
  { destruct (Rle_dec 4503599627370496 yB) as [G|G].
    - exists (IZR (ZnearestE yB)). split.
      + rewrite (dbl_binade k); [|lia|]. { rewrite Rmult_assoc, (Rmult_comm b), Kb, Rmult_1_r. reflexivity. }
        rewrite !(Z.add_comm k), !bpow_plus. fold b. split; [apply Rmult_le_compat_r; [lra|exact G]|apply Rmult_lt_compat_r; [lra|]].
        change (bpow radix2 53) with 9007199254740992. lra.
      + right. eexists. split; [reflexivity|apply nearest_close].
    - exists (IZR (ZnearestE (2 * yB)) / 2). split.
      + rewrite (dbl_binade (k - 1)); [|lia|].
        * replace (yB * b * bpow radix2 (- (k - 1))) with (2 * yB). 2:{ replace (- (k - 1))%Z with (- k + 1)%Z by lia. rewrite bpow_plus. change (bpow radix2 1) with 2. replace (yB * b * (bpow radix2 (- k) * 2)) with (2 * yB * (bpow radix2 (- k) * b)) by ring. rewrite Kb. ring. }
          change (k - 1)%Z with (k + -1)%Z. rewrite bpow_plus. fold b. change (bpow radix2 (-1)) with (/ 2). field.
        * replace (k - 1 + 52)%Z with (51 + k)%Z by lia. replace (k - 1 + 53)%Z with (52 + k)%Z by lia. rewrite !bpow_plus. fold b. change (bpow radix2 51) with 2251799813685248. change (bpow radix2 52) with 4503599627370496.
          split; [apply Rmult_le_compat_r; lra|apply Rmult_lt_compat_r; lra].
      + left. pose proof (nearest_close (2 * yB)) as N. apply Rabs_le_inv in N. apply Rabs_le. lra. }
  destruct EB as (c & -> & EB). rewrite <- Rmult_plus_distr_r.
  (* the sum *)
  assert (F : a + c < IZR M + / 2 \/ a + c <= IZR M + / 2 /\ Z.even M = true).
  { destruct EB as [EB|(n & -> & EB)]; apply Rabs_le_inv in EB; [left; lra|].
    destruct (split10 M) as (q & r & EM & Hr). assert (RM : IZR M = 10 * IZR q + IZR r) by (rewrite EM, plus_IZR, mult_IZR; ring).
    assert (NB : IZR n <= 9 * IZR q + 9 / 10 * IZR r + th + / 2) by lra.
    assert (RB : IZR n <= IZR (9 * q) + 9 / 10 * IZR r + th + / 2) by (rewrite mult_IZR; exact NB).
    assert (UP : forall w : Z, 9 / 10 * IZR r + 2 / 10 + / 2 <= IZR w + 1 -> IZR n <= 9 * IZR q + IZR w).
    { intros w W. rewrite <- (mult_IZR 9), <- plus_IZR. apply IZR_le. apply Z.lt_succ_r. apply lt_IZR. rewrite succ_IZR, plus_IZR. lra. }
    assert (Cr : (r = 0 \/ r = 1 \/ r = 2 \/ r = 3 \/ r = 4 \/ r = 5 \/ r = 6 \/ r = 7 \/ r = 8 \/ r = 9)%Z) by lia.
    destruct Cr as [Cr|[Cr|[Cr|[Cr|[Cr|[Cr|[Cr|[Cr|[Cr|Cr]]]]]]]]]; subst r.
    - pose proof (UP 0%Z ltac:(lra)). left; lra.
    - pose proof (UP 1%Z ltac:(lra)). left; lra.
    - pose proof (UP 2%Z ltac:(lra)). left; lra.
    - pose proof (UP 3%Z ltac:(lra)). left; lra.
    - pose proof (UP 4%Z ltac:(lra)). left; lra.
    - pose proof (UP 5%Z ltac:(lra)). left; lra.
    - pose proof (UP 6%Z ltac:(lra)). right. split; [|rewrite EM, Z.even_add, Z.even_mul; reflexivity].
      pose proof (RA q ltac:(lia) ltac:(lia) ltac:(lra)). lra.
    - pose proof (UP 6%Z ltac:(lra)). left; lra.
    - pose proof (UP 7%Z ltac:(lra)). left; lra.
    - pose proof (UP 8%Z ltac:(lra)). left; lra. }
  assert (F1 : a + c <= IZR M + / 2) by (destruct F; lra).
  destruct (Rle_dec (a + c) (IZR M)) as [G|G].
  { apply dbl_le_double; [exact Hx|]. rewrite E. apply Rmult_le_compat_r; lra. }
  assert (D : (a + c) * b * bpow radix2 (- k) = a + c) by (rewrite Rmult_assoc, (Rmult_comm b), Kb; ring).
  right. rewrite E. apply dbl_exactly; [lia| |].
  - replace (k + 52)%Z with (52 + k)%Z by lia. replace (k + 53)%Z with (53 + k)%Z by lia. rewrite !bpow_plus. fold b. change (bpow radix2 52) with 4503599627370496. change (bpow radix2 53) with 9007199254740992.
    split; [apply Rmult_le_compat_r; lra|apply Rmult_lt_compat_r; lra].
  - rewrite D, Rabs_right by lra. destruct F as [F|[F Ev]]; [left; lra|right; split; [exact Ev|lra]].
Qed.
