(** PropRound.v -- properties of the code in double precision. *)
From Coq Require Import Reals Lra Lia ZArith List Permutation Psatz.
From Flocq Require Import Core.
From Verif Require Import Base BaseProofs RealBase RealSum SpecEM EMModel EMProofs CircleProofs LLLModel SpecLLL LLLProofs SpecRound RoundBase RoundModel RoundProofs RoundLLL.
Import ListNotations.
Local Open Scope R_scope.

(** ** C87: angles *)

(** Whatever the number reduced modulo 2 pi, the computed angle lies between 0 and the double
    nearest to 2 pi, ends included; it is below 2 pi for numbers that are not negative; and it is
    the angle of the number up to 2^-50 (|x| + 6). *)
Theorem C87_reduced_angle : forall x,
  0 <= np_mod_d x two_pi_d <= two_pi_d /\
  (0 <= x -> np_mod_d x two_pi_d < two_pi_d) /\
  exists k : Z, Rabs (np_mod_d x two_pi_d - (x - 2 * PI * IZR k)) <= bpow radix2 (-50) * (Rabs x + 6).
Proof.
  intros x. destruct two_pi_bounds as [B D]. split; [apply np_mod_range; [lra|exact D]|]. split; [|apply np_mod_angle].
  intros Hx. apply np_mod_below; [lra|exact Hx].
Qed.
Print Assumptions C87_reduced_angle.

(** offset: rotation of angles by a fraction of a turn. *)
Theorem C87_offset : forall c off, 0 <= c <= two_pi_d -> 0 <= off <= 1 ->
  0 <= offset_d c off < two_pi_d /\
  exists k : Z, Rabs (offset_d c off - (c + 2 * PI * off - 2 * PI * IZR k)) <= bpow radix2 (-44).
Proof.
  intros c off Hc Ho. destruct two_pi_bounds as [B D]. pose proof np_pi_error as PE. pose proof two_pi_exact as TE. unfold offset_d.
  assert (S1 : 0 <= dbl (off * two_pi_d) <= two_pi_d) by (split; [apply dbl_ge_0; nra|apply dbl_le_double; [exact D|nra]]).
  assert (E1 : Rabs (dbl (off * two_pi_d) - off * (2 * PI)) <= 8 * bpow radix2 (-50)).
  { eapply Rle_trans; [apply (dbl_close _ _ 8 (2 * bpow radix2 (-50)))|].
    - replace (off * two_pi_d - off * (2 * PI)) with ((off * 2) * (np_pi - PI)) by (rewrite TE; ring). rewrite Rabs_mult, (Rabs_right (off * 2)) by lra.
      apply Rmult_le_compat; try apply Rabs_pos; lra.
    - rewrite Rabs_right by nra. nra.
    - pose proof (tiny_le (-1075) ltac:(lia)) as [T0 T]. change (2 ^ 60)%Z with 1152921504606846976%Z in T. revert T. generalize (bpow radix2 (-1075)). intros t T. pow2. lra. }
  set (s := dbl (off * two_pi_d)) in *. assert (S2 : 0 <= dbl (c + s) <= 16) by (split; [apply dbl_ge_0; lra|apply dbl_le_double; [apply double_IZR; cbn; lia|lra]]).
  split; [apply np_mod_below; lra|].
  destruct (circle_of (dbl (c + s)) (c + 2 * PI * off)) as (k & E). exists k. eapply Rle_trans; [exact E|]. rewrite (Rabs_right (dbl (c + s))) by lra.
  assert (E2 : Rabs (dbl (c + s) - (c + 2 * PI * off)) <= 12 * bpow radix2 (-50)).
  { eapply Rle_trans; [apply (dbl_close _ _ 16 (8 * bpow radix2 (-50)))|].
    - replace (c + s - (c + 2 * PI * off)) with (s - off * (2 * PI)) by ring. exact E1.
    - rewrite Rabs_right by lra. lra.
    - pose proof (tiny_le (-1075) ltac:(lia)) as [T0 T]. change (2 ^ 60)%Z with 1152921504606846976%Z in T. revert T. generalize (bpow radix2 (-1075)). intros t T. pow2. lra. }
  assert (bpow radix2 (-50) * (dbl (c + s) + 6) <= bpow radix2 (-50) * 20 + bpow radix2 (-50) * 2).
  { rewrite <- Rmult_plus_distr_l. apply Rmult_le_compat_l; [apply bpow_ge_0|]. lra. }
  assert (34 * bpow radix2 (-50) <= bpow radix2 (-44)) by (pow2; lra).
  assert (Rabs (dbl (c + s) - (c + 2 * PI * off)) + bpow radix2 (-50) * (dbl (c + s) + 6) <= 12 * bpow radix2 (-50) + 22 * bpow radix2 (-50)) by lra. lra.
Qed.
Print Assumptions C87_offset.

(** center: the map turned so that the angle [tick] goes to pi. *)
Theorem C87_center : forall c tick, 0 <= c <= two_pi_d -> 0 <= tick <= two_pi_d ->
  0 <= center_d c tick <= two_pi_d /\
  exists k : Z, Rabs (center_d c tick - (c - tick + PI - 2 * PI * IZR k)) <= bpow radix2 (-44).
Proof.
  intros c t Hc Ht. destruct two_pi_bounds as [B D]. pose proof np_pi_error as PE. destruct np_pi_bounds as [PB PD]. unfold center_d.
  split; [apply np_mod_range; [lra|exact D]|]. pose proof (tiny_le (-1075) ltac:(lia)) as [T0 T]. change (2 ^ 60)%Z with 1152921504606846976%Z in T.
  assert (S1 : -8 <= dbl (c - t) <= 8) by (split; [apply dbl_ge_double; [apply (double_IZR (-8)); cbn; lia|lra]|apply dbl_le_double; [apply double_IZR; cbn; lia|lra]]).
  assert (E1 : Rabs (dbl (c - t) - (c - t)) <= 2 * bpow radix2 (-50)).
  { eapply Rle_trans; [apply (dbl_close _ _ 8 0)|].
    - replace (c - t - (c - t)) with 0 by ring. rewrite Rabs_R0. lra.
    - apply Rabs_le. lra.
    - revert T. generalize (bpow radix2 (-1075)). intros u T. pow2. lra. }
  set (s := dbl (c - t)) in *.
  assert (S2 : -5 <= dbl (s + np_pi) <= 12) by (split; [apply dbl_ge_double; [apply (double_IZR (-5)); cbn; lia|lra]|apply dbl_le_double; [apply double_IZR; cbn; lia|lra]]).
  destruct (circle_of (dbl (s + np_pi)) (c - t + PI)) as (k & E). exists k. eapply Rle_trans; [exact E|].
  assert (E2 : Rabs (dbl (s + np_pi) - (c - t + PI)) <= 5 * bpow radix2 (-50)).
  { eapply Rle_trans; [apply (dbl_close _ _ 12 (3 * bpow radix2 (-50)))|].
    - replace (s + np_pi - (c - t + PI)) with ((s - (c - t)) + (np_pi - PI)) by ring. eapply Rle_trans; [apply Rabs_triang|]. lra.
    - apply Rabs_le. lra.
    - revert T. generalize (bpow radix2 (-1075)). intros u T. pow2. lra. }
  assert (A : Rabs (dbl (s + np_pi)) <= 12) by (apply Rabs_le; lra).
  assert (bpow radix2 (-50) * (Rabs (dbl (s + np_pi)) + 6) <= bpow radix2 (-50) * 18) by (apply Rmult_le_compat_l; [apply bpow_ge_0|lra]).
  assert (23 * bpow radix2 (-50) <= bpow radix2 (-44)) by (pow2; lra). lra.
Qed.
Print Assumptions C87_center.

(** Toroidal coordinates: the angle of a class map value. *)
Theorem C87_coordinate : forall v,
  0 <= angle_d v <= two_pi_d /\
  exists k : Z, Rabs (angle_d v - (2 * PI * v - 2 * PI * IZR k)) <= bpow radix2 (-46) * (Rabs v + 1).
Proof.
  intros v. destruct two_pi_bounds as [B D]. pose proof np_pi_error as PE. pose proof two_pi_exact as TE. unfold angle_d.
  split; [apply np_mod_range; [lra|exact D]|]. pose proof (tiny_le (-1075) ltac:(lia)) as [T0 T]. change (2 ^ 60)%Z with 1152921504606846976%Z in T.
  destruct (circle_of (dbl (two_pi_d * v)) (2 * PI * v)) as (k & E). exists k. eapply Rle_trans; [exact E|]. pose proof (Rabs_pos v) as V0.
  assert (A : Rabs (two_pi_d * v) <= 8 * Rabs v) by (rewrite Rabs_mult, (Rabs_right two_pi_d) by lra; apply Rmult_le_compat_r; lra).
  assert (E0 : Rabs (two_pi_d * v - 2 * PI * v) <= 2 * bpow radix2 (-50) * Rabs v).
  { replace (two_pi_d * v - 2 * PI * v) with (2 * (np_pi - PI) * v) by (rewrite TE; ring). rewrite !Rabs_mult, (Rabs_right 2) by lra. apply Rmult_le_compat_r; [exact V0|lra]. }
  pose proof (dbl_close _ _ _ _ E0 A) as E2.
  assert (A2 : Rabs (dbl (two_pi_d * v)) <= 9 * Rabs v + 1).
  { pose proof (dbl_error (two_pi_d * v)) as E3. replace (dbl (two_pi_d * v)) with (two_pi_d * v + (dbl (two_pi_d * v) - two_pi_d * v)) by ring. eapply Rle_trans; [apply Rabs_triang|].
    assert (bpow radix2 (-53) * Rabs (two_pi_d * v) <= bpow radix2 (-53) * (8 * Rabs v)) by (apply Rmult_le_compat_l; [apply bpow_ge_0|exact A]). rewrite u53_val in *. lra. }
  set (x := dbl (two_pi_d * v)) in *. rewrite u53_val in *. assert (P50 : bpow radix2 (-50) = / 1125899906842624) by reflexivity. assert (P46 : bpow radix2 (-46) = / 70368744177664) by reflexivity.
  rewrite P50, P46 in *. lra.
Qed.
Print Assumptions C87_coordinate.

(** The interval is not half open: every number in (-2^-52, 0) is reduced to the double nearest
    to 2 pi itself, which the documentation does not exclude but which is the angle 0 again. *)
Theorem C87_half_open_refuted :
  (forall x, - bpow radix2 (-52) < x < 0 -> np_mod_d x two_pi_d = two_pi_d) /\
  exists v, v < 0 /\ double v /\ angle_d v = two_pi_d.
Proof.
  split; [exact np_mod_endpoint|]. exists (- bpow radix2 (-60)). destruct two_pi_bounds as [B D]. pose proof (bpow_gt_0 radix2 (-60)) as P.
  split; [lra|]. split; [apply double_opp, double_bpow; lia|]. unfold angle_d. apply np_mod_endpoint.
  assert (L : - bpow radix2 (-57) <= dbl (two_pi_d * - bpow radix2 (-60))).
  { apply dbl_ge_double; [apply double_opp, double_bpow; lia|]. assert (bpow radix2 (-57) = 8 * bpow radix2 (-60)) by (pow2; lra). nra. }
  assert (U : dbl (two_pi_d * - bpow radix2 (-60)) <= - bpow radix2 (-60)) by (apply dbl_le_double; [apply double_opp, double_bpow; lia|nra]).
  assert (bpow radix2 (-57) < bpow radix2 (-52)) by (apply bpow_lt; lia). lra.
Qed.
Print Assumptions C87_half_open_refuted.
Example C87_cases : (0 <= 1 <= two_pi_d) /\ (0 <= 1 / 2 <= 1) /\ offset_d 0 0 = 0.
Proof.
  destruct two_pi_bounds as [B D]. split; [lra|]. split; [lra|]. unfold offset_d. rewrite Rmult_0_l, dbl_0, Rplus_0_r, dbl_0. unfold np_mod_d, fmod, trunc.
  unfold Rdiv. rewrite Rmult_0_l. rewrite (proj2 (Rltb_false 0 0)) by lra. assert (I : Int_part 0 = 0%Z).
  { pose proof (Int_part_bounds 0) as I. assert (-1 < Int_part 0 < 1)%Z; [|lia]. split; apply lt_IZR; lra. }
  rewrite I, Rmult_0_r, Rminus_0_r, (proj2 (Rltb_false 0 0)) by lra. reflexivity.
Qed.

(** ** C88: partitions of unity *)

(** In double precision, with the sums taken in any order: where some bump value is positive, the
    weights are between 0 and 1, are 0 outside the balls, differ from the exact quotients of the
    same bump values by at most (n + 1) 2^-52, also relative to the weight, as does their sum from 1.  Where every bump value is
    0 the weights are NaN.  The chosen ball is the first that contains the point. *)
Theorem C88_weights :
  forall sum_ dist r f n m, matrix n m dist -> (1 <= n)%nat -> (Z.of_nat n <= 2 ^ 50)%Z ->
  (forall l, added_up l (sum_ l)) ->
  (forall i b d, entry dist i b d -> d < r -> double (f d r) /\ 0 <= f d r) ->
  let (varphi, ball) := get_covering_partition_d sum_ dist r f in
  matrix n m varphi /\ length ball = m /\
  forall b, (b < m)%nat ->
  ((exists i, 0 < bump_at dist r f i b) ->
     exists w, length w = n /\ Rabs (total w - 1) <= (INR n + 1) * bpow radix2 (-52) /\
       forall i x, nth_error w i = Some x ->
         entry varphi i b (Some x) /\ double x /\ 0 <= x <= 1 /\ (~ in_ball dist r i b -> x = 0) /\
         exists y, unity_weight dist r f i b = Some y /\ Rabs (x - y) <= (INR n + 1) * bpow radix2 (-52) /\
           Rabs (x - y) <= (INR n + 1) * bpow radix2 (-52) * y + bpow radix2 (-1075)) /\
  ((forall i, (i < n)%nat -> bump_at dist r f i b = 0) -> forall i, (i < n)%nat -> entry varphi i b None) /\
  ((exists i, in_ball dist r i b) ->
     exists k, nth_error ball b = Some k /\ in_ball dist r k b /\ forall i, (i < k)%nat -> ~ in_ball dist r i b) /\
  ((forall i, ~ in_ball dist r i b) -> nth_error ball b = Some 0%nat).
Proof.
  intros sum_ dist r f n m HM Hn Hn2 Hsum Hf.
  destruct (get_covering_partition_d sum_ dist r f) as [varphi ball] eqn:Eg.
  destruct (partition_d_shape sum_ dist r f n m HM Hn) as [S1 S2].
  rewrite Eg in S1, S2; cbn [fst snd] in S1, S2. split; [exact S1|split; [exact S2|]]; intros b Hb.
  set (phi := phi_d r f). set (cl := colphi_d dist r f b).
  assert (Lcol : length cl = n) by (unfold cl, colphi_d, column; rewrite !map_length; apply HM).
  assert (Hcol : forall i d, entry dist i b d -> nth_error cl i = Some (phi d)) by (intros i d Hd; apply (column_nth dist (phi_d r f) n m b i d HM Hd)).
  assert (Hent : forall i d, entry dist i b d -> entry varphi i b (if Reqb (sum_ cl) 0 then None else Some (dbl (phi d / sum_ cl)))).
  { intros i d Hd; pose proof (partition_d_entry sum_ dist r f n m HM Hn i b d Hd) as H; rewrite Eg in H; exact H. }
  assert (Hbump : forall i d, entry dist i b d -> bump_at dist r f i b = phi d).
  { intros i d (row & E1 & E2). unfold bump_at. rewrite E1, E2. unfold phi, phi_d, Rltb. destruct (Rlt_dec d r); reflexivity. }
  assert (Hnn : Forall (fun x => double x /\ 0 <= x) cl).
  { apply Forall_forall; intros x Hx. destruct (col_d_in dist r f n m HM Hn b x Hb Hx) as (i & d & Hd & ->). unfold phi_d. destruct (Rltb d r) eqn:E; [apply (Hf i b d Hd), Rltb_true, E|split; [exact double_0|lra]]. }
  assert (Htot : sumn (length dist) (fun j => bump_at dist r f j b) = total cl).
  { change (total cl) with (np_sum cl). unfold np_sum. rewrite fold_sumn. rewrite Lcol. pose proof (proj1 HM) as LD. rewrite LD. apply sumn_ext. intros i Hi.
    destruct (matrix_entry n m dist i b HM Hi Hb) as (d & Hd). rewrite (Hbump i d Hd). symmetry. apply nth_error_nth. apply Hcol, Hd. }
  assert (Hball : nth_error ball b = Some (argmax_bool (bcolumn (map (map (fun d => Rltb d r)) dist) b))).
  { pose proof (partition_d_ball sum_ dist r f n m HM Hn b Hb) as H; rewrite Eg in H; exact H. }
  set (bc := bcolumn (map (map (fun d => Rltb d r)) dist) b) in *.
  assert (Lbc : length bc = n) by (unfold bc, bcolumn; rewrite !map_length; apply HM).
  assert (Hin : forall i, in_ball dist r i b <-> nth_error bc i = Some true).
  { intros i; split.
    - intros (d & Hd & Hr); unfold bc; rewrite (bcolumn_nth dist (fun d => Rltb d r) n m b i d HM Hd). f_equal; apply Rltb_true; exact Hr.
    - intros Hi. assert (Hl : (i < n)%nat) by (rewrite <- Lbc; apply nth_error_Some; congruence). destruct (matrix_entry n m dist i b HM Hl Hb) as (d & Hd).
      exists d; split; [exact Hd|]. unfold bc in Hi. rewrite (bcolumn_nth dist (fun d => Rltb d r) n m b i d HM Hd) in Hi. apply Rltb_true; congruence. }
  pose proof (first_true_spec bc) as FT; unfold argmax_bool in Hball.
  split; [|split; [|split]].
  - intros (i0 & Hi0). assert (Hs : 0 < sum_ cl).
    { assert (Hl : (i0 < n)%nat) by (unfold bump_at in Hi0; destruct (nth_error dist i0) eqn:E; [rewrite <- (proj1 HM); apply nth_error_Some; congruence|lra]).
      destruct (matrix_entry n m dist i0 b HM Hl Hb) as (d & Hd). rewrite (Hbump i0 d Hd) in Hi0. apply Rlt_le_trans with (phi d); [exact Hi0|].
      apply (added_ge cl (sum_ cl) (Hsum cl) Hnn). eapply nth_error_In, Hcol, Hd. }
    exists (map (fun x => dbl (x / sum_ cl)) cl). split; [rewrite map_length; exact Lcol|]. rewrite <- Lcol in *. split; [apply weights_sum; [apply Hsum|exact Hnn|exact Hs|exact Hn2]|].
    intros i x Ex. rewrite nth_error_map in Ex. destruct (nth_error cl i) as [y|] eqn:Ey; [|discriminate]; cbn [option_map] in Ex; injection Ex as <-.
    assert (Hl : (i < length cl)%nat) by (apply nth_error_Some; congruence). destruct (matrix_entry _ m dist i b HM Hl Hb) as (d & Hd).
    pose proof (Hcol i d Hd) as Ey'; rewrite Ey in Ey'; injection Ey' as ->. pose proof (Hent i d Hd) as He; rewrite (proj2 (Reqb_false _ _)) in He by lra.
    destruct (weight_close cl (sum_ cl) (phi d) (Hsum cl) Hnn Hs (nth_error_In _ _ Ey) Hn2) as (W0 & W1 & W2). split; [exact He|]. split; [apply dbl_dbl|]. split; [exact W1|]. split.
    + intros Ni. unfold phi, phi_d. destruct (Rltb d r) eqn:E; [exfalso; apply Ni; exists d; split; [exact Hd|apply Rltb_true, E]|]. unfold Rdiv. rewrite Rmult_0_l. apply dbl_0.
    + exists (phi d / total cl). split; [|exact W2]. unfold unity_weight. rewrite Htot, (Hbump i d Hd). destruct (Req_EM_T (total cl) 0); [lra|reflexivity].
  - intros H0 i Hi. destruct (matrix_entry n m dist i b HM Hi Hb) as (d & Hd). pose proof (Hent i d Hd) as He. rewrite (proj2 (Reqb_true _ _)) in He; [exact He|].
    apply (added_zero cl (sum_ cl) (Hsum cl)). apply Forall_forall; intros x Hx. destruct (col_d_in dist r f n m HM Hn b x Hb Hx) as (j & d' & Hd' & ->).
    change (phi_d r f d') with (phi d'). rewrite <- (Hbump j d' Hd'). apply H0. apply (entry_bounds _ _ _ _ _ _ HM Hd').
  - intros (i0 & Hi0). assert (Ht : exists k, first_true bc = Some k).
    { destruct (first_true bc) as [k|]; [exists k; reflexivity|exfalso]. apply (FT i0), Hin, Hi0. }
    destruct Ht as (k & Ek); rewrite Ek in FT, Hball; exists k; split; [exact Hball|]. destruct FT as [F1 F2]; split; [apply Hin, F1|].
    intros i Hi Hc; apply Hin in Hc. rewrite (F2 i Hi) in Hc; discriminate.
  - intros Hno. destruct (first_true bc) as [k|]; [|exact Hball]. exfalso; apply (Hno k), Hin, FT.
Qed.
Print Assumptions C88_weights.

(** The weights of data point [b] are numbers between 0 and 1, or all NaN. *)
Definition all_numbers (varphi : list (list (option R))) (n b : nat) : Prop :=
  forall i, (i < n)%nat -> exists x, entry varphi i b (Some x) /\ 0 <= x <= 1.
Definition all_nan (varphi : list (list (option R))) (n b : nat) : Prop :=
  forall i, (i < n)%nat -> entry varphi i b None.

Lemma numbers_of sum_ dist r f n m b : matrix n m dist -> (1 <= n)%nat -> (Z.of_nat n <= 2 ^ 50)%Z ->
  (forall l, added_up l (sum_ l)) -> (forall i b d, entry dist i b d -> d < r -> double (f d r) /\ 0 <= f d r) -> (b < m)%nat ->
  ((exists i d, entry dist i b d /\ d < r /\ 0 < f d r) -> all_numbers (fst (get_covering_partition_d sum_ dist r f)) n b) /\
  ((forall i d, entry dist i b d -> d < r -> f d r = 0) -> all_nan (fst (get_covering_partition_d sum_ dist r f)) n b).
Proof.
  intros HM Hn Hn2 Hs Hf Hb. pose proof (C88_weights sum_ dist r f n m HM Hn Hn2 Hs Hf) as H. destruct (get_covering_partition_d sum_ dist r f) as [varphi ball]. cbn [fst].
  destruct H as (_ & _ & H). destruct (H b Hb) as (H1 & H2 & _ & _).
  assert (Hbump : forall i d, entry dist i b d -> bump_at dist r f i b = if Rlt_dec d r then f d r else 0).
  { intros i d (row & E1 & E2). unfold bump_at. rewrite E1, E2. reflexivity. }
  split.
  - intros (i & d & He & Hr & Hp). destruct H1 as (w & Lw & _ & Hw).
    { exists i. rewrite (Hbump i d He). destruct (Rlt_dec d r); [exact Hp|contradiction]. }
    intros j Hj. destruct (nth_error w j) as [x|] eqn:E; [|apply nth_error_None in E; lia]. exists x. destruct (Hw j x E) as (A & _ & B & _). split; assumption.
  - intros Hz. refine (H2 _). intros i Hi. destruct (matrix_entry n m dist i b HM Hi Hb) as (d & Hd). rewrite (Hbump i d Hd). destruct (Rlt_dec d r); [apply (Hz i d Hd); assumption|reflexivity].
Qed.

(** Linear bump function: a point that lies in a ball has weights, however close it is to the
    boundary. *)
Theorem C88_linear :
  forall sum_ dist r n m b, matrix n m dist -> (1 <= n)%nat -> (Z.of_nat n <= 2 ^ 50)%Z -> (b < m)%nat ->
  (forall l, added_up l (sum_ l)) -> double r -> (forall i j d, entry dist i j d -> double d) ->
  let varphi := fst (get_covering_partition_d sum_ dist r pu_linear_d) in
  ((exists i, in_ball dist r i b) -> all_numbers varphi n b) /\
  ((forall i, ~ in_ball dist r i b) -> all_nan varphi n b).
Proof.
  intros sum_ dist r n m b HM Hn Hn2 Hb Hs Dr Dd. cbv zeta.
  destruct (numbers_of sum_ dist r pu_linear_d n m b HM Hn Hn2 Hs) as [N1 N2]; [|exact Hb|].
  - intros i j d He Hr. destruct (linear_pos d r (Dd i j d He) Dr Hr) as [P D]. split; [exact D|lra].
  - split; [intros (i & d & He & Hr); apply N1; exists i, d|intros Hno; apply N2; intros i d He Hr; exfalso; apply (Hno i); exists d; split; assumption].
    split; [exact He|]. split; [exact Hr|]. apply linear_pos; [apply (Dd i b d He)|exact Dr|exact Hr].
Qed.
Print Assumptions C88_linear.

(** Quadratic bump function: the same, for points that are not absurdly close to the boundary. *)
Theorem C88_quadratic :
  forall sum_ dist r n m b, matrix n m dist -> (1 <= n)%nat -> (Z.of_nat n <= 2 ^ 50)%Z -> (b < m)%nat ->
  (forall l, added_up l (sum_ l)) ->
  let varphi := fst (get_covering_partition_d sum_ dist r pu_quadratic_d) in
  ((exists i d, entry dist i b d /\ bpow radix2 (-537) <= r - d) -> all_numbers varphi n b) /\
  ((forall i, ~ in_ball dist r i b) -> all_nan varphi n b).
Proof.
  intros sum_ dist r n m b HM Hn Hn2 Hb Hs. cbv zeta.
  destruct (numbers_of sum_ dist r pu_quadratic_d n m b HM Hn Hn2 Hs) as [N1 N2]; [|exact Hb|].
  - intros i j d He Hr. destruct (quadratic_nonneg d r) as [P D]. split; assumption.
  - split; [intros (i & d & He & Hr); apply N1; exists i, d|intros Hno; apply N2; intros i d He Hr; exfalso; apply (Hno i); exists d; split; assumption].
    split; [exact He|]. pose proof (bpow_gt_0 radix2 (-537)). split; [lra|]. apply quadratic_pos, Hr.
Qed.
Print Assumptions C88_quadratic.

(** Exponential bump function: a point has weights if it is in a ball and not too close to the
    boundary, r^2 <= 660 (r^2 - d^2); that is about d <= 0.9992 r. *)
Theorem C88_exp :
  forall exp_ sum_ dist r n m b, libm_exp exp_ -> matrix n m dist -> (1 <= n)%nat -> (Z.of_nat n <= 2 ^ 50)%Z -> (b < m)%nat ->
  (forall l, added_up l (sum_ l)) -> bpow radix2 (-400) <= r ->
  (forall i j d, entry dist i j d -> 0 <= d /\ (d < r -> dbl (d * d) <> dbl (r * r))) ->
  let varphi := fst (get_covering_partition_d sum_ dist r (pu_exp_d exp_)) in
  ((exists i d, entry dist i b d /\ d < r /\ r * r <= 660 * (r * r - d * d)) -> all_numbers varphi n b) /\
  ((forall i, ~ in_ball dist r i b) -> all_nan varphi n b).
Proof.
  intros e sum_ dist r n m b (E0 & E1 & E2 & _) HM Hn Hn2 Hb Hs Hr Hd. cbv zeta.
  destruct (numbers_of sum_ dist r (pu_exp_d e) n m b HM Hn Hn2 Hs) as [N1 N2]; [|exact Hb|].
  - intros i j d He Hdr. split; [apply E1|apply E0].
  - split; [intros (i & d & He & Hdr & Hm); apply N1; exists i, d|intros Hno; apply N2; intros i d He Hdr; exfalso; apply (Hno i); exists d; split; assumption].
    split; [exact He|]. split; [exact Hdr|]. unfold pu_exp_d; cbv zeta. apply E2. destruct (Hd i b d He) as [D0 _]. apply exponent_large; [exact Hr|lra|exact Hm].
Qed.
Print Assumptions C88_exp.

(** Beyond that the claim fails: a point all of whose balls contain it only in a thin outer layer,
    760 (r^2 - d^2) <= r^2, has weights NaN although it is covered; and there is such a point. *)
Theorem C88_exp_refuted :
  (forall exp_ sum_ dist r n m b, libm_exp exp_ -> matrix n m dist -> (1 <= n)%nat -> (Z.of_nat n <= 2 ^ 50)%Z -> (b < m)%nat ->
   (forall l, added_up l (sum_ l)) -> bpow radix2 (-400) <= r ->
   (forall i j d, entry dist i j d -> 0 <= d) ->
   (forall i d, entry dist i b d -> d < r -> 760 * (r * r - d * d) <= r * r /\ bpow radix2 (-50) * (r * r) <= r * r - d * d) ->
   all_nan (fst (get_covering_partition_d sum_ dist r (pu_exp_d exp_))) n b) /\
  (forall exp_ sum_, libm_exp exp_ -> (forall l, added_up l (sum_ l)) ->
   exists d, double d /\ in_ball [[d]] 1 0 0 /\ all_nan (fst (get_covering_partition_d sum_ [[d]] 1 (pu_exp_d exp_))) 1 0).
Proof.
  assert (G : forall exp_ sum_ dist r n m b, libm_exp exp_ -> matrix n m dist -> (1 <= n)%nat -> (Z.of_nat n <= 2 ^ 50)%Z -> (b < m)%nat ->
   (forall l, added_up l (sum_ l)) -> bpow radix2 (-400) <= r ->
   (forall i j d, entry dist i j d -> 0 <= d) ->
   (forall i d, entry dist i b d -> d < r -> 760 * (r * r - d * d) <= r * r /\ bpow radix2 (-50) * (r * r) <= r * r - d * d) ->
   all_nan (fst (get_covering_partition_d sum_ dist r (pu_exp_d exp_))) n b).
  { intros e sum_ dist r n m b (E0 & E1 & _ & E3) HM Hn Hn2 Hb Hs Hr Hd Hc.
    apply (numbers_of sum_ dist r (pu_exp_d e) n m b HM Hn Hn2 Hs); [intros i j d He Hdr; split; [apply E1|apply E0]|exact Hb|].
    intros i d He Hdr. destruct (Hc i d He Hdr) as [C1 C2]. unfold pu_exp_d; cbv zeta. apply E3. apply exponent_small; [exact Hr|split; [apply (Hd i b d He)|exact Hdr]|exact C1|exact C2]. }
  split; [exact G|]. intros e sum_ He Hs. exists (2047 / 2048).
  assert (Ent : forall i j d, entry [[2047 / 2048]] i j d -> d = 2047 / 2048).
  { intros [|[|i]] [|[|j]] d (row & E1 & E2); cbn in E1; try discriminate; injection E1 as <-; cbn in E2; try discriminate; congruence. }
  split; [|split].
  - change (2047 / 2048) with (IZR 2047 * bpow radix2 (-11)). apply double_F; cbn; lia.
  - exists (2047 / 2048). split; [exists [2047 / 2048]; split; reflexivity|lra].
  - apply (G e sum_ [[2047 / 2048]] 1 1%nat 1%nat 0%nat He); [split; [reflexivity|repeat constructor]|lia|cbn; lia|lia|exact Hs| | |].
    + change 1 with (bpow radix2 0). apply bpow_le. lia.
    + intros i j d Hd. rewrite (Ent i j d Hd). lra.
    + intros i d Hd _. rewrite (Ent i 0%nat d Hd). split; [lra|]. pow2. lra.
Qed.
Print Assumptions C88_exp_refuted.

(** Sums and exponential functions as assumed exist. *)
Fixpoint running_sum (l : list R) : R := match l with [] => 0 | [x] => x | x :: l' => dbl (x + running_sum l') end.
Lemma running_sum_added l : added_up l (running_sum l).
Proof.
  induction l as [|x l IH]; [constructor|]. destruct l as [|y l]; [constructor|].
  change (running_sum (x :: y :: l)) with (dbl (x + running_sum (y :: l))). apply (au_two [x] (y :: l) x _); [constructor|exact IH].
Qed.
Example C88_cases : (forall l, added_up l (running_sum l)) /\ libm_exp (fun x => dbl (exp x)) /\
  matrix 2 2 [[1 / 2; 2]; [1 / 4; 3]] /\ in_ball [[1 / 2; 2]; [1 / 4; 3]] 1 0 0 /\ (forall i, ~ in_ball [[1 / 2; 2]; [1 / 4; 3]] 1 i 1) /\
  1 * 1 <= 660 * (1 * 1 - 1 / 2 * (1 / 2)) /\ dbl (1 / 2 * (1 / 2)) <> dbl (1 * 1).
Proof.
  split; [exact running_sum_added|]. split; [exact libm_exp_rounded|]. split; [split; [reflexivity|repeat constructor]|]. split; [|split; [|split; [lra|]]].
  - exists (1 / 2). split; [eexists; split; reflexivity|lra].
  - intros [|[|i]] (d & (row & E1 & E2) & H); cbn in E1; try discriminate; [| |destruct i; discriminate]; injection E1 as <-; cbn in E2; injection E2 as <-; lra.
  - assert (A : dbl (1 / 2 * (1 / 2)) <= 1 / 2). { apply dbl_le_double; [|lra]. replace (1 / 2) with (IZR 1 * bpow radix2 (-1)) by (pow2; lra). apply double_F; cbn; lia. }
    assert (B : 1 <= dbl (1 * 1)) by (apply dbl_ge_double; [apply (double_IZR 1); cbn; lia|lra]). lra.
Qed.

(** ** C90: lattice reduction with rounding *)

(** However the operations on floats are rounded, and whatever np.dot returns: if the
    reduction returns and the integers of the change matrix stay below 2^53 on the way, that matrix
    is an integer matrix with an integer inverse, so the new classes generate the same group as the
    old ones. *)
Theorem C90_unimodular :
  forall rnd (dot_ : list R -> list R -> R) fuel n B B' change, matrix n n B ->
  lll_d rnd dot_ fuel B = Ok (B', change) ->
  unimodular n change /\ Forall (Forall (fun z => (Z.abs z <= 2 ^ 53)%Z)) change.
Proof.
  intros rnd dot_ fuel n B B' change [L _] E. unfold lll_d in E.
  destruct (loop_wfd rnd dot_ n _ _ _ _ _ (init_wfd rnd dot_ n B L) E) as (st & (_ & M & _ & U & Bd) & _ & <-). split; [|exact Bd].
  pose proof (real_mat_matrix n n _ M) as RM. destruct (Uni_unimodular n (eye n) _ _ RM RM U) as (V & HV & EV & _).
  replace (d_change st) with V; [exact HV|]. clear - EV. unfold real_mat in EV. revert V EV. induction (d_change st) as [|c l IH]; intros [|v V]; cbn [map]; try discriminate; [reflexivity|].
  intros X. injection X as X1 X2. f_equal; [|apply IH, X2]. clear - X1. revert v X1. induction c as [|z c IH]; intros [|w v]; cbn [map]; try discriminate; [reflexivity|].
  intros X. injection X as X1 X2. apply eq_IZR in X1. f_equal; [congruence|apply IH, X2].
Qed.
Print Assumptions C90_unimodular.

(** The inner product computed with a loop. *)
Definition running_dot (u v : list R) : R := running_sum (map (fun p => dbl (fst p * snd p)) (combine u v)).
Ltac ev := repeat match goal with |- context [dbl ?x] => lazymatch x with context [dbl _] => fail | _ =>
  first [ replace (dbl x) with 0 by (replace x with 0 by lra; symmetry; exact dbl_0)
        | replace (dbl x) with 1 by (replace x with 1 by lra; symmetry; apply (double_IZR 1); cbn; lia)
        | replace (dbl x) with 3 by (replace x with 3 by lra; symmetry; apply (double_IZR 3); cbn; lia)
        | replace (dbl x) with (3 / 4) by (replace x with (3 / 4) by lra; symmetry; replace (3 / 4) with (IZR 3 * bpow radix2 (-2)) by (pow2; lra); apply double_F; cbn; lia) ] end end.
Ltac dots := unfold gram_schmidt_d, gs_column_d, gs_coefficient_d, mu_d, running_dot, vsub_d, vscale_d, col, range; cbn [d_B d_Q nth length map seq Nat.sub fold_left combine fst snd running_sum].
Lemma gs_before : gram_schmidt_d dbl running_dot [[1; 0]; [3; 1]] = [[1; 0]; [0; 1]].
Proof. dots. ev. reflexivity. Qed.
Lemma gs_after : gram_schmidt_d dbl running_dot [[1; 0]; [0; 1]] = [[1; 0]; [0; 1]].
Proof. dots. ev. reflexivity. Qed.
Example C90_case : exists B', lll_d dbl running_dot 3 [[1; 0]; [3; 1]] = Ok (B', [[1; 0]; [-3; 1]]%Z).
Proof.
  exists [[1; 0]; [0; 1]]. unfold lll_d, lll_init_d. rewrite gs_before. cbn [length].
  assert (T : lll_turn_d dbl running_dot (3 / 4) (mkLLLd [[1; 0]; [3; 1]] [[1; 0]; [0; 1]] (zeye 2) 1) = Ok (mkLLLd [[1; 0]; [0; 1]] [[1; 0]; [0; 1]] [[1; 0]; [-3; 1]]%Z 2)).
  { unfold lll_turn_d, lll_reduce_d. cbn [d_k]. change (rev (range 0 1)) with [0%nat]. cbn [for_in]. unfold lll_reduce1_d.
    assert (M : mu_d dbl running_dot (mkLLLd [[1; 0]; [3; 1]] [[1; 0]; [0; 1]] (zeye 2) 1) 1 0 = 3) by (dots; ev; reflexivity).
    rewrite M, (rint_IZR 3), (proj2 (Rltb_true (1 / 2) (Rabs 3))) by (rewrite Rabs_right; lra). cbn [d_B d_change d_k zeye].
    replace (firstn 1 [[1; 0]; [3; 1]] ++ vsub_d dbl (col [[1; 0]; [3; 1]] 1) (vscale_d dbl (IZR 3) (col [[1; 0]; [3; 1]] 0)) :: skipn 2 [[1; 0]; [3; 1]]) with [[1; 0]; [0; 1]] by (dots; ev; reflexivity).
    rewrite gs_after. replace (zcolumn_op 3 (zcol _ 1) (zcol _ 0)) with (Ok [-3; 1]%Z) by reflexivity. cbn [bind d_B d_Q d_change d_k].
    assert (M2 : forall c, mu_d dbl running_dot (mkLLLd [[1; 0]; [0; 1]] [[1; 0]; [0; 1]] c 1) 1 0 = 0) by (intros c; dots; ev; reflexivity).
    change (1 - 1)%nat with 0%nat. rewrite M2. rewrite (proj2 (Rltb_true _ _)); [reflexivity|]. dots. ev. lra. }
  cbn [lll_loop_d d_k d_B length]. change (1 <? 2)%nat with true. cbv iota. rewrite T. cbn [bind]. reflexivity.
Qed.
