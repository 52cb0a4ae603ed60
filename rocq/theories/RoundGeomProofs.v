(** RoundGeomProofs.v -- distances computed in double precision: lemmas. *)
From Coq Require Import Reals Lra Lia ZArith List Permutation Psatz.
From Flocq Require Import Core Relative.
From Verif Require Import Base BaseProofs RealBase RealSum EMModel SpecEM LLLModel SpecLLL LLLProofs GeometryModel SpecGeometry GeometryProofs
  SpecRound RoundBase RoundModel RoundProofs RoundCover SpecRoundGeom RoundGeomModel.
Import ListNotations.
Local Open Scope R_scope.

Lemma sum_of_nonneg l s : added_up l s -> Forall (fun x => double x /\ 0 <= x) l -> INR (length l) * u53 <= / 4 ->
  Rabs (s - total l) <= 4 / 3 * (INR (length l) * u53) * total l.
Proof.
  intros H F Hn. assert (U : 0 < u53 < 1) by (rewrite u53_val; lra). destruct (added_error l s H F) as [L1 L2].
  set (n := length l) in *. set (T := total l) in *. assert (HT : 0 <= T) by (apply total_nonneg; eapply Forall_impl; [|exact F]; cbn; tauto).
  pose proof (bernoulli u53 n ltac:(lra)) as B. pose proof (pos_INR n) as Pn.
  assert (G : (1 + u53) ^ n * (1 - u53) ^ n <= 1).
  { rewrite <- Rpow_mult_distr. apply pow_unit. nra. }
  set (q := INR n * u53) in *. set (a := (1 - u53) ^ n) in *. set (b := (1 + u53) ^ n) in *.
  assert (Q : 0 <= q) by (unfold q; nra). assert (B0 : 0 < b) by (apply pow_lt; lra).
  assert (Bq : b <= 1 + 4 / 3 * q). { assert (b * (1 - q) <= 1) by nra. assert (1 <= (1 + 4 / 3 * q) * (1 - q)) by nra. nra. }
  clearbody q a b T. apply Rabs_le. nra.
Qed.
Lemma total_map_le {A} (f g : A -> R) l : (forall x, In x l -> f x <= g x) -> total (map f l) <= total (map g l).
Proof. unfold total. induction l as [|x l IH]; intros H; cbn [map fold_right]; [lra|]. pose proof (H x (or_introl eq_refl)). pose proof (IH (fun y Hy => H y (or_intror Hy))). lra. Qed.
Lemma total_map_plus {A} (f g : A -> R) l : total (map (fun x => f x + g x) l) = total (map f l) + total (map g l).
Proof. unfold total. induction l as [|x l IH]; cbn [map fold_right]; [lra|]. rewrite IH. ring. Qed.
Lemma total_map_scal {A} c (f : A -> R) l : total (map (fun x => c * f x) l) = c * total (map f l).
Proof. unfold total. induction l as [|x l IH]; cbn [map fold_right]; [ring|]. rewrite IH. ring. Qed.
Lemma total_const {A} c (l : list A) : total (map (fun _ => c) l) = INR (length l) * c.
Proof. unfold total. induction l as [|x l IH]; [cbn; ring|]. cbn [map fold_right length]. rewrite IH, S_INR. ring. Qed.

(** The rounded squares of the coordinates, added up. *)
Lemma square_sum x s : Forall double x -> INR (length x) * u53 <= / 4096 -> added_up (map (fun v => dbl (v * v)) x) s ->
  double s /\ 0 <= s /\ Rabs (s - total (map (fun v => v * v) x)) <=
    2 * u53 * (INR (length x) + 1) * total (map (fun v => v * v) x) + 2 * INR (length x) * bpow radix2 (-1075).
Proof.
  intros F Hn H. set (t := bpow radix2 (-1075)). assert (T0 : 0 < t) by apply bpow_gt_0.
  assert (F' : Forall (fun v => double v /\ 0 <= v) (map (fun v => dbl (v * v)) x)).
  { apply Forall_map. apply Forall_forall. intros v _. split; [apply dbl_dbl|]. apply dbl_ge_0. nra. }
  split; [apply (added_double _ _ H); eapply Forall_impl; [|exact F']; cbn; tauto|]. split; [exact (proj1 (added_ge _ _ H F'))|].
  pose proof (sum_of_nonneg _ _ H F') as E. rewrite map_length in E. specialize (E ltac:(lra)).
  set (n := INR (length x)) in *. assert (Pn : 0 <= n) by apply pos_INR.
  set (T := total (map (fun v => v * v) x)). set (T' := total (map (fun v => dbl (v * v)) x)) in *.
  assert (HT : 0 <= T) by (apply total_nonneg, Forall_map, Forall_forall; intros; nra).
  assert (HD : Rabs (T' - T) <= u53 * T + n * t).
  { unfold n. rewrite <- (total_const t x). unfold T, T'. rewrite <- total_map_scal. rewrite <- total_map_plus.
    clear. induction x as [|v x IH]; [unfold total; cbn; rewrite Rminus_0_r, Rabs_R0; lra|]. unfold total in *. cbn [map fold_right].
    match goal with |- Rabs ((?a + ?b) - (?c + ?e)) <= _ => replace ((a + b) - (c + e)) with ((a - c) + (b - e)) by ring end.
    eapply Rle_trans; [apply Rabs_triang|]. apply Rplus_le_compat; [|exact IH].
    pose proof (dbl_error (v * v)) as D. rewrite (Rabs_right (v * v)) in D by nra. exact D. }
  assert (U : 0 < u53 < / 4096) by (rewrite u53_val; lra). clearbody n T T' t. apply Rabs_le_inv in E, HD. clear - E HD U Hn Pn HT T0.
  set (q := n * u53) in *. assert (Q : 0 <= q) by (unfold q; nra).
  replace (2 * u53 * (n + 1) * T) with (2 * (q + u53) * T) by (unfold q; ring).
  assert (H1 : T' <= (1 + u53) * T + n * t) by lra. assert (H2 : 0 <= n * t) by nra.
  assert (H3 : 4 / 3 * q * T' <= 4 / 3 * q * ((1 + u53) * T + n * t)) by (apply Rmult_le_compat_l; nra).
  assert (H4 : 4 / 3 * q * (n * t) <= n * t) by nra.
  assert (H5 : 4 / 3 * q * ((1 + u53) * T) + u53 * T <= 2 * (q + u53) * T).
  { assert (4 / 3 * q * (1 + u53) <= 2 * q) by nra. nra. }
  apply Rabs_le. lra.
Qed.

Lemma products_amgm x y : length x = length y ->
  2 * total (map Rabs (products x y)) <= total (map (fun v => v * v) x) + total (map (fun v => v * v) y).
Proof.
  revert y. induction x as [|a x IH]; intros [|b y] H; try discriminate; [cbn; lra|]. injection H as H. specialize (IH y H).
  unfold products, total in *. cbn [combine map fold_right fst snd] in *. rewrite Rabs_mult.
  pose proof (Rabs_pos a). pose proof (Rabs_pos b). pose proof (Rsqr_abs a) as A. pose proof (Rsqr_abs b) as B. unfold Rsqr in A, B. pose proof (Rle_0_sqr (Rabs a - Rabs b)) as Q. unfold Rsqr in Q. lra.
Qed.
Lemma total_products d x y : length x = d -> length y = d -> total (products x y) = inner d x y.
Proof.
  intros Hx Hy. rewrite <- (vdot_inner d) by assumption. unfold vdot, products, total. reflexivity.
Qed.
Lemma total_squares d x : length x = d -> total (map (fun v => v * v) x) = inner d x x.
Proof.
  intros H. rewrite <- (total_products d x x H H). f_equal. unfold products. clear. induction x as [|a x IH]; [reflexivity|]. cbn. f_equal. exact IH.
Qed.

Lemma sqrt_rounded c : double c -> 0 <= c -> exists eps, Rabs eps <= u53 /\ dbl (sqrt c) = sqrt c * (1 + eps).
Proof.
  intros D Hc. destruct (Rle_lt_or_eq_dec 0 c Hc) as [P|<-].
  - destruct (relative_error_N_FLT_ex radix2 (-1074) 53 ltac:(reflexivity) (fun x => negb (Z.even x)) (sqrt c)) as (eps & H & E).
    { rewrite Rabs_right by (apply Rle_ge, sqrt_pos).
      apply Rle_trans with (bpow radix2 (-537)); [apply bpow_le; lia|].
      assert (C : bpow radix2 (-1074) <= c).
      { destruct (double_repr c D) as (m & e & Hm & He & ->). pose proof (bpow_gt_0 radix2 e) as Be.
        assert (M1 : (1 <= m)%Z). { destruct (Z_lt_le_dec m 1) as [N|]; [|lia]. exfalso. assert (IZR m <= 0) by (apply IZR_le; lia). nra. }
        apply IZR_le in M1. pose proof (bpow_le radix2 _ _ He). nra. }
      replace (bpow radix2 (-537)) with (sqrt (bpow radix2 (-1074))); [apply sqrt_le_1_alt; exact C|].
      replace (-1074)%Z with (-537 + -537)%Z by reflexivity. rewrite bpow_plus. apply sqrt_square, bpow_ge_0. }
    exists eps. split; [|exact E]. eapply Rle_trans; [exact H|]. replace (bpow radix2 (-53)) with (/ 2 * bpow radix2 (-53 + 1)); [apply Rle_refl|]. rewrite bpow_plus. change (bpow radix2 1) with 2. lra.
  - exists 0. rewrite sqrt_0, Rabs_R0. split; [rewrite u53_val; lra|]. unfold dbl. rewrite round_0 by auto with typeclass_instances. ring.
Qed.

(** The error of the square before the root. *)
Lemma square_close n t X Y P sx sy p s1 c :
  0 <= n -> n * u53 <= / 4096 -> 0 < t -> 0 <= X -> 0 <= Y -> 2 * Rabs P <= X + Y ->
  Rabs (sx - X) <= 2 * u53 * (n + 1) * X + 2 * n * t -> Rabs (sy - Y) <= 2 * u53 * (n + 1) * Y + 2 * n * t ->
  Rabs (p - P) <= n * u53 * (X + Y) + 2 * n * t ->
  (exists eps, Rabs eps <= u53 /\ s1 = (sx + sy) * (1 + eps)) ->
  (exists eps, Rabs eps <= u53 /\ c = (s1 - 2 * p) * (1 + eps)) ->
  Rabs (c - (X + Y - 2 * P)) <= u53 * (4 * n + 9) * (X + Y) + 10 * n * t.
Proof.
  intros Pn Hn T0 HX HY HP Ex Ey Ep (e1 & B1 & ->) (e2 & B2 & ->). assert (U : 0 < u53 < / 4096) by (rewrite u53_val; lra).
  assert (Un : u53 * 4096 <= 1) by lra.
  set (u := u53) in *. clearbody u. set (S := X + Y) in *. set (q := n * u) in *. assert (Q : 0 <= q) by (unfold q; nra).
  assert (Hnt : 0 <= n * t) by nra. set (w := n * t) in *.
  assert (E1 : Rabs (sx + sy - S) <= 2 * (q + u) * S + 4 * w).
  { replace (sx + sy - S) with ((sx - X) + (sy - Y)) by (unfold S; ring). eapply Rle_trans; [apply Rabs_triang|]. unfold q, w, S. lra. }
  assert (HS : 0 <= S) by (unfold S; lra). clearbody S. clear Ex Ey.
  assert (E2 : Rabs ((sx + sy) * (1 + e1) - S) <= (2 * q + 2 * u + u * (1 + / 512)) * S + (4 + / 512) * w).
  { replace ((sx + sy) * (1 + e1) - S) with ((sx + sy - S) * (1 + e1) + e1 * S) by ring. eapply Rle_trans; [apply Rabs_triang|]. rewrite !Rabs_mult, (Rabs_right S) by lra.
    assert (A1 : Rabs (1 + e1) <= 1 + u) by (eapply Rle_trans; [apply Rabs_triang|]; rewrite Rabs_R1; lra).
    assert (A2 : Rabs (sx + sy - S) * Rabs (1 + e1) <= (2 * (q + u) * S + 4 * w) * (1 + u)) by (apply Rmult_le_compat; try apply Rabs_pos; assumption).
    assert (A3 : Rabs e1 * S <= u * S) by nra.
    assert (A4 : (2 * (q + u)) * u <= u * / 512) by (clear - Hn U Un Q; assert (2 * (q + u) <= / 512) by lra; nra).
    assert (A5 : 2 * (q + u) * u * S <= u * / 512 * S) by (apply Rmult_le_compat_r; assumption).
    assert (A6 : 4 * w * u <= / 512 * w) by nra. nra. }
  assert (E3 : Rabs ((sx + sy) * (1 + e1) - 2 * p - (S - 2 * P)) <= (4 * q + 2 * u + u * (1 + / 512)) * S + (8 + / 512) * w).
  { replace ((sx + sy) * (1 + e1) - 2 * p - (S - 2 * P)) with (((sx + sy) * (1 + e1) - S) - 2 * (p - P)) by ring.
    unfold Rminus at 1. eapply Rle_trans; [apply Rabs_triang|]. rewrite Rabs_Ropp, Rabs_mult, (Rabs_right 2) by lra. assert (2 * n * t = 2 * w) by (unfold w; ring). lra. }
  set (z := (sx + sy) * (1 + e1) - 2 * p) in *. set (D := S - 2 * P) in *.
  assert (HD : 0 <= D <= 2 * S) by (unfold D; apply Rabs_le_inv in E3; assert (Rabs P <= S / 2) by lra; apply Rabs_le_inv in H; lra).
  replace (z * (1 + e2) - D) with ((z - D) * (1 + e2) + e2 * D) by ring. eapply Rle_trans; [apply Rabs_triang|]. rewrite !Rabs_mult, (Rabs_right D) by lra.
  assert (A1 : Rabs (1 + e2) <= 1 + u) by (eapply Rle_trans; [apply Rabs_triang|]; rewrite Rabs_R1; lra).
  assert (A2 : Rabs (z - D) * Rabs (1 + e2) <= ((4 * q + 2 * u + u * (1 + / 512)) * S + (8 + / 512) * w) * (1 + u)) by (apply Rmult_le_compat; try apply Rabs_pos; assumption).
  assert (A3 : Rabs e2 * D <= u * (2 * S)) by (apply Rmult_le_compat; try apply Rabs_pos; lra).
  assert (A4 : (4 * q + 4 * u) * u * S <= u * / 256 * S) by (apply Rmult_le_compat_r; [lra|]; assert (4 * q + 4 * u <= / 256) by lra; nra).
  assert (A5 : (8 + / 512) * w * u <= / 256 * w) by nra.
  replace (u * (4 * n + 9) * S) with ((4 * q + 9 * u) * S) by (unfold q; ring). fold w. 
  assert (A6 : 10 * n * t = 10 * w) by (unfold w; ring). rewrite A6. assert (0 <= u * S) by nra. assert (u * u * S <= u * / 4096 * S) by (apply Rmult_le_compat_r; nra). nra.
Qed.

Section Entry.
Variable sums : list (list R) -> nat -> R.
Variable prod : list (list R) -> list (list R) -> nat -> nat -> R.
Hypothesis Hsums : rows_added sums.
Hypothesis Hprod : product_sound prod.

Lemma csm_entry_close d X Y i j x y : (Z.of_nat d <= 2 ^ 40)%Z -> doubles d X -> doubles d Y ->
  nth_error X i = Some x -> nth_error Y j = Some y ->
  let v := csm_entry_d sums prod X Y i j in
  double v /\ 0 <= v /\ Rabs (v ^ 2 - euclid d x y ^ 2) <= csm_error d x y.
Proof.
  intros Hd DX DY Ex Ey v.
  destruct (proj1 (Forall_forall _ _) DX x (nth_error_In _ _ Ex)) as [Lx Fx].
  destruct (proj1 (Forall_forall _ _) DY y (nth_error_In _ _ Ey)) as [Ly Fy].
  set (t := bpow radix2 (-1075)). assert (T0 : 0 < t) by apply bpow_gt_0.
  assert (Hn : INR d * u53 <= / 4096).
  { rewrite INR_IZR_INZ. apply IZR_le in Hd. change (2 ^ 40)%Z with 1099511627776%Z in Hd. rewrite u53_val. lra. }
  pose proof (pos_INR d) as Pn.
  destruct (square_sum x (sums (squares_d X) i) Fx ltac:(rewrite Lx; exact Hn)) as (Dsx & Nsx & Esx).
  { apply Hsums. unfold squares_d. rewrite nth_error_map, Ex. reflexivity. }
  destruct (square_sum y (sums (squares_d Y) j) Fy ltac:(rewrite Ly; exact Hn)) as (Dsy & Nsy & Esy).
  { apply Hsums. unfold squares_d. rewrite nth_error_map, Ey. reflexivity. }
  destruct (Hprod X Y i j x y Ex Ey ltac:(congruence) Fx Fy ltac:(rewrite Lx; lia)) as [Dp Ep].
  set (sx := sums (squares_d X) i) in *. set (sy := sums (squares_d Y) j) in *. set (p := prod X Y i j) in *.
  pose proof (products_amgm x y ltac:(congruence)) as AG.
  rewrite (total_squares d x Lx) in Esx, AG. rewrite (total_squares d y Ly) in Esy, AG. rewrite (total_products d x y Lx Ly) in Ep. rewrite Lx in Ep, Esx. rewrite Ly in Esy.
  assert (HX : 0 <= inner d x x) by (apply sumn_nonneg; intros; nra). assert (HY : 0 <= inner d y y) by (apply sumn_nonneg; intros; nra).
  assert (HA : Rabs (inner d x y) <= total (map Rabs (products x y))).
  { rewrite <- (total_products d x y Lx Ly). generalize (products x y). intros l. unfold total. induction l as [|a l IH]; cbn [map fold_right]; [rewrite Rabs_R0; lra|]. eapply Rle_trans; [apply Rabs_triang|]. lra. }
  set (A := total (map Rabs (products x y))) in *.
  set (c := dbl (dbl (sx + sy) - dbl (2 * p))).
  assert (E2 : dbl (2 * p) = 2 * p) by (apply double_twice; exact Dp).
  assert (EC : Rabs (c - (inner d x x + inner d y y - 2 * inner d x y)) <= u53 * (4 * INR d + 9) * (inner d x x + inner d y y) + 10 * INR d * t).
  { apply (square_close (INR d) t (inner d x x) (inner d y y) (inner d x y) sx sy p (dbl (sx + sy)) c); try assumption; try lra.
    - eapply Rle_trans; [exact Ep|]. replace (bpow radix2 (-52)) with (2 * u53) by (rewrite u53_val; reflexivity || (rewrite bpow_neg; cbn; lra)).
      replace (bpow radix2 (-1074)) with (2 * t) by (unfold t; replace (-1074)%Z with (-1075 + 1)%Z by lia; rewrite bpow_plus; change (bpow radix2 1) with 2; ring).
      assert (INR d * u53 * (2 * A) <= INR d * u53 * (inner d x x + inner d y y)) by (apply Rmult_le_compat_l; [|exact AG]; pose proof (bpow_gt_0 radix2 (-53)); nra). lra.
    - apply dbl_plus; assumption.
    - unfold c. rewrite E2. unfold Rminus. apply dbl_plus; [apply dbl_dbl|]. apply double_opp. apply double_twice. exact Dp. }
  assert (ED : inner d x x + inner d y y - 2 * inner d x y = euclid d x y ^ 2).
  { unfold euclid. rewrite pow2_sqrt by (apply sumn_nonneg; intros; apply pow2_ge_0). unfold inner. rewrite <- sumn_scal, <- sumn_add, <- sumn_sub. apply sumn_ext. intros i0 Hi0. ring. }
  rewrite ED in EC. set (D2 := euclid d x y ^ 2) in *. assert (HD2 : 0 <= D2) by apply pow2_ge_0.
  set (c' := if Rltb c 0 then 0 else c).
  assert (Hc' : 0 <= c' /\ double c' /\ Rabs (c' - D2) <= u53 * (4 * INR d + 9) * (inner d x x + inner d y y) + 10 * INR d * t).
  { unfold c'. destruct (Rltb c 0) eqn:B; [apply Rltb_true in B|apply Rltb_false in B].
    - split; [lra|]. split; [apply double_0|]. eapply Rle_trans; [|exact EC]. rewrite Rminus_0_l, Rabs_Ropp, (Rabs_right D2) by lra. rewrite Rabs_left by lra. lra.
    - split; [exact B|]. split; [apply dbl_dbl|exact EC]. }
  destruct Hc' as (Nc & Dc & Ec). destruct (sqrt_rounded c' Dc Nc) as (eps & He & Es).
  assert (Ev : v = dbl (sqrt c')) by reflexivity. split; [rewrite Ev; apply dbl_dbl|]. split; [rewrite Ev; apply dbl_ge_0, sqrt_pos|].
  rewrite Ev, Es, Rpow_mult_distr, pow2_sqrt by exact Nc.
  assert (D2S : D2 <= 2 * (inner d x x + inner d y y)) by (rewrite <- ED; apply Rabs_le_inv in HA; lra).
  unfold csm_error. fold t. replace (bpow radix2 (-1071)) with (16 * t) by (unfold t; replace (-1071)%Z with (-1075 + 4)%Z by lia; rewrite bpow_plus; change (bpow radix2 4) with 16; ring).
  replace (bpow radix2 (-51)) with (4 * u53) by (rewrite u53_val; rewrite bpow_neg; cbn; lra).
  set (S := inner d x x + inner d y y) in *. assert (HS : 0 <= S) by (unfold S; lra).
  assert (U : 0 < u53 < / 4096) by (rewrite u53_val; lra). set (u := u53) in *. set (n := INR d) in *. clearbody u n t c' D2 S. clear - U He Ec D2S HS HD2 Nc Hn Pn T0.
  replace (c' * (1 + eps) ^ 2 - D2) with ((c' - D2) + c' * (2 * eps + eps * eps)) by ring.
  eapply Rle_trans; [apply Rabs_triang|]. rewrite Rabs_mult, (Rabs_right c') by lra.
  assert (K : Rabs (2 * eps + eps * eps) <= u * (2 + / 4096)).
  { eapply Rle_trans; [apply Rabs_triang|]. rewrite !Rabs_mult, (Rabs_right 2) by lra. pose proof (Rabs_pos eps). nra. }
  set (W := u * (4 * n + 9) * S + 10 * n * t) in *.
  assert (C : c' <= 2 * S + W) by (apply Rabs_le_inv in Ec; lra).
  assert (Wn : 0 <= n * t) by nra. assert (Q : 0 <= n * u) by nra.
  assert (W2 : W <= / 64 * S + 10 * (n * t)).
  { unfold W. assert (u * (4 * n + 9) <= / 64) by nra. assert (u * (4 * n + 9) * S <= / 64 * S) by (apply Rmult_le_compat_r; lra). lra. }
  assert (K2 : c' * Rabs (2 * eps + eps * eps) <= (2 * S + (/ 64 * S + 10 * (n * t))) * (u * (2 + / 4096))) by (apply Rmult_le_compat; try apply Rabs_pos; lra).
  assert (K3 : n * t * u <= n * t * / 4096) by (apply Rmult_le_compat_l; lra). unfold W in Ec. assert (0 <= u * S) by nra. nra.
Qed.
End Entry.

Lemma square_root_error v e E : 0 <= v -> 0 <= e -> Rabs (v ^ 2 - e ^ 2) <= E -> Rabs (v - e) <= sqrt E /\ Rabs (v - e) * e <= E.
Proof.
  intros Hv He H. assert (F : Rabs (v ^ 2 - e ^ 2) = Rabs (v - e) * (v + e)).
  { replace (v ^ 2 - e ^ 2) with ((v - e) * (v + e)) by ring. rewrite Rabs_mult, (Rabs_right (v + e)) by lra. reflexivity. }
  pose proof (Rabs_pos (v - e)) as P. split.
  - rewrite <- (sqrt_square (Rabs (v - e))) by exact P. apply sqrt_le_1_alt. eapply Rle_trans; [|exact H]. rewrite F. apply Rmult_le_compat_l; [exact P|].
    unfold Rabs. destruct (Rcase_abs (v - e)); lra.
  - eapply Rle_trans; [|exact H]. rewrite F. apply Rmult_le_compat_l; lra.
Qed.

(** ** Arcs *)
Lemma sin_lower d : 0 <= d <= PI / 4 -> d <= sqrt 2 * sin d.
Proof.
  intros [H0 H1]. pose proof PI_RGT_0 as P. destruct (Rle_lt_or_eq_dec 0 d H0) as [H|<-]; [|rewrite sin_0; lra].
  destruct (MVT_cor2 sin cos 0 d H) as (c & E & Hc1 & Hc2). { intros c _. apply derivable_pt_lim_sin. }
  rewrite sin_0, !Rminus_0_r in E. rewrite E.
  assert (C : 1 / sqrt 2 <= cos c). { rewrite <- cos_PI4. left. apply cos_decreasing_1; lra. }
  assert (S2 : 0 < sqrt 2) by (apply sqrt_lt_R0; lra).
  assert (1 <= sqrt 2 * cos c). { apply Rle_trans with (sqrt 2 * (1 / sqrt 2)); [right; field; lra|]. apply Rmult_le_compat_l; lra. }
  replace d with (1 * d) at 1 by ring. rewrite <- Rmult_assoc. apply Rmult_le_compat_r; lra.
Qed.
Lemma acos_holder_le a b : 0 <= a <= b -> b <= 1 -> 0 <= acos a - acos b <= 2 * sqrt (b - a).
Proof.
  intros Ha Hb. pose proof PI_RGT_0 as P.
  assert (RA : forall v, 0 <= v <= 1 -> 0 <= acos v <= PI / 2).
  { intros v Hv. split; [apply acos_bound|]. destruct (Rle_lt_dec (acos v) (PI / 2)) as [|N]; [assumption|]. exfalso.
    assert (C : cos (acos v) < cos (PI / 2)) by (apply cos_decreasing_1; pose proof (acos_bound v); lra). rewrite cos_acos, cos_PI2 in C by lra. lra. }
  pose proof (RA a ltac:(lra)) as A. pose proof (RA b ltac:(lra)) as B. set (s := acos a) in *. set (t := acos b) in *.
  assert (Ea : cos s = a) by (apply cos_acos; lra). assert (Eb : cos t = b) by (apply cos_acos; lra).
  assert (O : t <= s). { destruct (Rle_lt_dec t s) as [|N]; [assumption|]. exfalso. assert (cos t < cos s) by (apply cos_decreasing_1; lra). lra. }
  split; [lra|]. set (d := (s - t) / 2). assert (D : 0 <= d <= PI / 4) by (unfold d; lra).
  assert (F : b - a = 2 * sin ((s + t) / 2) * sin d).
  { rewrite <- Ea, <- Eb. rewrite form2. replace ((t - s) / 2) with (- d) by (unfold d; field). replace ((t + s) / 2) with ((s + t) / 2) by field. rewrite sin_neg. ring. }
  assert (M : sin d <= sin ((s + t) / 2)). { apply sin_incr_1; unfold d; lra. }
  assert (S0 : 0 <= sin d) by (apply sin_ge_0; lra).
  assert (L : d <= sqrt 2 * sin d) by (apply sin_lower; exact D).
  assert (Q : d * d <= b - a).
  { rewrite F. apply Rle_trans with ((sqrt 2 * sin d) * (sqrt 2 * sin d)); [apply Rmult_le_compat; lra|].
    replace (sqrt 2 * sin d * (sqrt 2 * sin d)) with (sqrt 2 * sqrt 2 * (sin d * sin d)) by ring. rewrite sqrt_sqrt by lra. nra. }
  replace (s - t) with (2 * d) by (unfold d; field). apply Rmult_le_compat_l; [lra|]. rewrite <- (sqrt_square d) by lra. apply sqrt_le_1_alt, Q.
Qed.
Lemma acos_holder a b : 0 <= a <= 1 -> 0 <= b <= 1 -> Rabs (acos a - acos b) <= 2 * sqrt (Rabs (a - b)).
Proof.
  intros Ha Hb. destruct (Rle_lt_dec a b) as [H|H].
  - pose proof (acos_holder_le a b ltac:(lra) ltac:(lra)) as K. rewrite Rabs_right by lra. rewrite (Rabs_left1 (a - b)) by lra. replace (- (a - b)) with (b - a) by ring. lra.
  - pose proof (acos_holder_le b a ltac:(lra) ltac:(lra)) as K. rewrite Rabs_left1 by lra. rewrite (Rabs_right (a - b)) by lra. lra.
Qed.
Lemma acos_lower v : -1 <= v <= 1 -> sqrt (2 * (1 - v)) <= acos v.
Proof.
  intros Hv. pose proof (acos_bound v) as B. set (t := acos v) in *. assert (E : v = cos t) by (symmetry; apply cos_acos; exact Hv).
  rewrite <- (sqrt_square t) by lra. apply sqrt_le_1_alt. rewrite E.
  replace t with (2 * (t / 2)) at 1 by field. rewrite cos_2a_sin.
  assert (S : 0 <= sin (t / 2) <= t / 2).
  { split; [apply sin_ge_0; lra|]. destruct (Rle_lt_or_eq_dec 0 (t / 2) ltac:(lra)) as [H|<-]; [left; apply sin_lt_x; exact H|rewrite sin_0; lra]. }
  nra.
Qed.
