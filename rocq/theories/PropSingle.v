(** PropSingle.v -- C89: ripser in single precision. *)
From Coq Require Import Reals Lra Lia ZArith List Permutation Psatz.
From Flocq Require Import Core Relative.
From Verif Require Import Base BaseProofs CombinatorialModel SpecSimplex CombinatorialProofs Argsort
  DeltaModel SpecRips RipsProofs DeltaProofs DeltaFacts RealBase RealSum SpecRepair RepairModel RepairProofs
  EMModel SpecEM EMProofs CircleModel SpecCircle CircleProofs LLLModel SpecLLL LLLProofs
  CohomologyModel SpecCohomology CohomologyProofs PropDelta PropRepair PropCohomology PropEM PropCircle PropLLL
  ToroidalModel SpecToroidal ToroidalProofs ToroidalFacts PropToroidal ToroidalCalls SpecHarmonic HarmonicProofs ToroidalTotal GraphExample PropRepairCall
  SpecRound RoundBase RoundProofs.
Import ListNotations.
Local Open Scope R_scope.

Lemma close_round rnd dm t i j : close Rltb dm t i j -> forall d, (forall y, y < t -> rnd y < d) -> close Rltb (map (map rnd) dm) d i j.
Proof.
  intros (row & y & E1 & E2 & L) d H. exists (map rnd row), (rnd y). rewrite !nth_error_map, E1, E2. split; [reflexivity|]. split; [reflexivity|].
  apply Rltb_true. apply Rltb_true in L. apply H, L.
Qed.
Lemma rips_round rnd dm t d k s : (forall y, y < t -> rnd y < d) -> rips Rltb dm t k s -> rips Rltb (map (map rnd) dm) d k s.
Proof.
  intros H [H1 H2]. split; [rewrite map_length; exact H1|]. clear H1. induction H2 as [|a l Ha Hl IH]; constructor; [|exact IH].
  eapply Forall_impl; [|exact Ha]. intros b Hc. apply (close_round rnd dm t a b Hc d H).
Qed.

(** If the threshold, rounded, is below the deaths of the selected classes, the guarantee C32 holds
    although ripser rounded the distances. *)
Theorem C89_represented :
  forall rnd ext x n N perc idxs f sr x' rows,
  (forall a b, a <= b -> rnd a <= rnd b) ->
  consistent x n N -> metric x ->
  sound_numpy ext -> sound_cholesky ext -> sound_solver ext -> (forall r, bump f r) -> perc <= 1 ->
  (forall k birth death c, In k idxs -> class_of x k birth death c -> cocycle_until_rounded rnd x death c) ->
  get_coordinates ext x perc idxs f sr true = (x', Ok rows) ->
  (forall t k birth death c, em_rips_threshold (t_em x') = Some t -> In k idxs -> class_of x k birth death c -> rnd t < death) ->
  let k := length idxs in
  exists t U (integrals : nat -> nat -> R) (etas : nat -> nat -> nat -> Z),
    em_rips_threshold (t_em x') = Some t /\ em_r_cover (t_em x') = Some (t / 2) /\
    unimodular k U /\
    (forall h idx, nth_error idxs h = Some idx -> exists birth death c,
       class_of x idx birth death c /\ birth < death /\ t <= death /\ lifts_class x n t c (etas h)) /\
    length rows = k /\
    (forall i row, nth_error rows i = Some row ->
       let integral := fun s => sumn k (fun h => IZR (at2 0%Z U i h) * integrals h s) in
       let eta := fun a b => sumnZ k (fun h => (at2 0%Z U i h * etas h a b)%Z) in
       classified_by x N (t / 2) f row integral eta /\
       (forall b j l, in_ball (em_dist_land_data (t_em x)) (t / 2) j b -> in_ball (em_dist_land_data (t_em x)) (t / 2) l b ->
          lift x (t / 2) f integral eta j b - lift x (t / 2) f integral eta l b = IZR (eta j l))).
Proof.
  intros rnd ext x n N perc idxs f sr x' rows Hr C Me HE HC HS Hf Hp Hu E Hd k.
  destruct (represent_vec ext x n N perc idxs f sr x' rows C Me HE HC HS Hf Hp) as (t & U & ints & etas & G1 & G2 & G3 & G4 & G5 & G6 & G7 & G8); [|exact E|].
  - intros t0 k0 b0 d0 c0 v0 Et0 _ I0 H0 Ev0.
    assert (Hc : cocycle_until x t0 c0).
    { intros i j l Hrips. apply (Hu k0 b0 d0 c0 I0 H0). apply (rips_round rnd _ t0 d0); [|exact Hrips].
      intros y Hy. apply Rle_lt_trans with (rnd t0); [apply Hr; lra|]. apply (Hd t0 k0 b0 d0 c0 Et0 I0 H0). }
    exact (until_vec x n N C ext HE t0 c0 (class_edge_cocycle x n N C _ _ _ _ H0) Hc t0 v0 ltac:(lra) Ev0).
  - exists t, U, ints, etas. do 3 (split; [assumption|]). split; [|split; [exact G7|exact G8]].
    intros h idx Hh. destruct (G6 h idx Hh) as (b0 & d0 & c & vec & etavec & K1 & K2 & K3 & K4 & K5 & K6 & K7).
    exists b0, d0, c. do 3 (split; [assumption|]).
    exact (vec_lifts x n N C ext HE c t vec etavec (etas h) (class_edge_cocycle x n N C _ _ _ _ K1) K4 K5 K6 K7).
Qed.
Print Assumptions C89_represented.

(** Single precision: that is so if perc leaves a margin of a relative 2^-24 below the death. *)
Theorem C89_margin :
  (forall a b, a <= b -> sgl a <= sgl b) /\
  (forall perc start death, 0 <= perc <= 1 -> 0 <= start <= death ->
     bpow radix2 (-24) * death + bpow radix2 (-150) < (1 - perc) * (death - start) ->
     sgl ((1 - perc) * start + perc * death) < death).
Proof.
  split; [intros a b; apply round_le; auto with typeclass_instances|].
  intros perc s d Hp Hs Hm. set (t := (1 - perc) * s + perc * d).
  assert (T : 0 <= t <= d) by (unfold t; nra).
  assert (E : Rabs (sgl t - t) <= bpow radix2 (-24) * Rabs t + bpow radix2 (-150)).
  { destruct (error_N_FLT radix2 (-149) 24 ltac:(reflexivity) (fun x => negb (Z.even x)) t) as (eps & eta & H1 & H2 & _ & E).
    fold (sgl t) in E. rewrite E. replace (t * (1 + eps) + eta - t) with (eps * t + eta) by ring.
    eapply Rle_trans; [apply Rabs_triang|]. apply Rplus_le_compat.
    - rewrite Rabs_mult. apply Rmult_le_compat_r; [apply Rabs_pos|]. replace (bpow radix2 (-24)) with (/ 2 * bpow radix2 (-24 + 1)); [exact H1|].
      rewrite bpow_plus. change (bpow radix2 1) with 2. lra.
    - replace (bpow radix2 (-150)) with (/ 2 * bpow radix2 (-149)); [exact H2|]. replace (-149)%Z with (-150 + 1)%Z by lia. rewrite bpow_plus. change (bpow radix2 1) with 2. lra. }
  rewrite (Rabs_right t) in E by lra. apply Rabs_le_inv in E. pose proof (bpow_gt_0 radix2 (-24)) as P.
  assert (bpow radix2 (-24) * t <= bpow radix2 (-24) * d) by (apply Rmult_le_compat_l; lra).
  assert (d - t = (1 - perc) * (d - s)) by (unfold t; ring). lra.
Qed.
Print Assumptions C89_margin.

(** ** At perc = 1 the guarantee fails *)

(** Four points of a circle; neighbours are at distance 1, opposite points at 2 - 2^-30, which is 2
    in single precision: ripser finds a class that lives from 1 to 2. *)
Definition ring_edges : list (nat * nat) := [(0, 1); (1, 2); (2, 3); (0, 3)]%nat.
Definition ring_dist (i j : nat) : R := if (i =? j)%nat then 0 else if adj ring_edges i j then 1 else 2 - bpow radix2 (-30).
Definition ring_class : cocycle := edges_cocycle [(0%nat, 1%nat, 1%Z)].
Definition ring_points : tor :=
  let dm := mk2 4 4 ring_dist in
  mkTor (mkEM 41 [[]; [(1, 2)]] (map Z.of_nat (seq 0 4)) 4 dm 0 dm [[]; [ring_class]] None None)
    (combinatorial_number_system_table 4 2) None None None.

Lemma single_IZR z : (Z.abs z <= 2 ^ 24)%Z -> single (IZR z).
Proof.
  intros H. unfold single, sgl. apply round_generic; [auto with typeclass_instances|].
  destruct (Z.eq_dec (Z.abs z) (2 ^ 24)) as [E|N].
  - assert (G : generic_format radix2 (FLT_exp (-149) 24) (bpow radix2 24)) by (apply generic_format_FLT_bpow; [exact prec24|lia]). change (bpow radix2 24) with (IZR (2 ^ 24)) in G.
    destruct (Z.abs_eq_or_opp z) as [Q|Q]; rewrite Q in E; [rewrite E; exact G|]. replace z with (- 2 ^ 24)%Z by lia. rewrite opp_IZR. apply generic_format_opp, G.
  - apply generic_format_FLT. exists (Float radix2 z 0); [unfold F2R; cbn [Fnum Fexp bpow]; lra| |cbn; lia]. cbn [Fnum]. change (radix2 ^ 24)%Z with (2 ^ 24)%Z. lia.
Qed.
Lemma single_multiple x : single x -> 1 <= x -> exists k : Z, x = IZR k * bpow radix2 (-23).
Proof.
  intros H Hx. assert (G : generic_format radix2 (FLT_exp (-149) 24) x) by (rewrite <- H; apply generic_format_round; auto with typeclass_instances).
  assert (M : (1 <= mag radix2 x)%Z). { apply mag_ge_bpow. rewrite Rabs_right by lra. change (bpow radix2 (1 - 1)) with 1. exact Hx. }
  rewrite G. unfold F2R; cbn [Fnum Fexp]. set (m := Ztrunc _). set (e := cexp radix2 (FLT_exp (-149) 24) x).
  assert (He : (-23 <= e)%Z) by (unfold e, cexp, FLT_exp; lia).
  exists (m * 2 ^ (e + 23))%Z. rewrite mult_IZR, Rmult_assoc. f_equal. replace (IZR (2 ^ (e + 23))) with (bpow radix2 (e + 23)) by (rewrite <- IZR_Zpower by lia; reflexivity).
  rewrite <- bpow_plus. f_equal. lia.
Qed.
Lemma sgl_diagonal : sgl (2 - bpow radix2 (-30)) = 2.
Proof.
  set (x := 2 - bpow radix2 (-30)). assert (P : 0 < bpow radix2 (-30) < / 4 * bpow radix2 (-23)) by (split; [apply bpow_gt_0|pow2; lra]). assert (P23 : bpow radix2 (-23) <= 1) by (pow2; lra).
  assert (D2 : single 2) by (apply (single_IZR 2); cbn; lia). assert (D1 : single 1) by (apply (single_IZR 1); cbn; lia).
  assert (Mono : forall a b, a <= b -> sgl a <= sgl b) by apply C89_margin.
  assert (L : 1 <= sgl x) by (rewrite <- D1; apply Mono; unfold x; lra). assert (U : sgl x <= 2) by (rewrite <- D2; apply Mono; unfold x; lra).
  assert (N : Rabs (sgl x - x) <= Rabs (2 - x)).
  { assert (G : generic_format radix2 (FLT_exp (-149) 24) 2) by (rewrite <- D2; apply generic_format_round; auto with typeclass_instances).
    destruct (round_N_pt radix2 (FLT_exp (-149) 24) (fun x => negb (Z.even x)) x) as [_ N]. apply (N 2 G). }
  rewrite (Rabs_right (2 - x)) in N by (unfold x; lra). apply Rabs_le_inv in N.
  assert (Sx : single (sgl x)). { unfold single, sgl. apply round_generic; [auto with typeclass_instances|]. apply generic_format_round; auto with typeclass_instances. }
  destruct (single_multiple _ Sx L) as (k1 & E1). destruct (single_multiple 2 D2 ltac:(lra)) as (k2 & E2).
  assert (G : 2 - sgl x < bpow radix2 (-23)) by (unfold x in *; lra).
  assert (Hk : (k2 - k1 < 1)%Z). { apply lt_IZR. rewrite minus_IZR. apply Rmult_lt_reg_r with (bpow radix2 (-23)); [apply bpow_gt_0|]. lra. }
  assert (Hk2 : (k1 <= k2)%Z). { apply le_IZR. apply Rmult_le_reg_r with (bpow radix2 (-23)); [apply bpow_gt_0|]. lra. }
  rewrite E1, E2. replace k1 with k2 by lia. reflexivity.
Qed.
Lemma mk2_entry n (D : nat -> nat -> R) i j d : entry (mk2 n n D) i j d <-> (i < n)%nat /\ (j < n)%nat /\ d = D i j.
Proof.
  split.
  - intros (row & E1 & E2). unfold mk2 in E1. rewrite nth_error_map in E1. destruct (nth_error (seq 0 n) i) as [i'|] eqn:Ei; [|discriminate]. injection E1 as <-.
    rewrite nth_error_map in E2. destruct (nth_error (seq 0 n) j) as [j'|] eqn:Ej; [|discriminate]. injection E2 as <-.
    assert (Hi : (i < n)%nat) by (rewrite <- (seq_length n 0); apply nth_error_Some; congruence).
    assert (Hj : (j < n)%nat) by (rewrite <- (seq_length n 0); apply nth_error_Some; congruence).
    apply nth_error_nth with (d := 0%nat) in Ei, Ej. rewrite seq_nth in Ei, Ej by assumption. subst. auto.
  - intros (Hi & Hj & ->). exists (mk1 n (D i)). split.
    + rewrite <- (nth_mk2_row n n) by exact Hi. apply nth_error_nth'. rewrite length_mk2. exact Hi.
    + rewrite <- (nth_mk1 n (D i) j 0 Hj). apply nth_error_nth'. unfold mk1. rewrite map_length, seq_length. exact Hj.
Qed.
Lemma ring_entry i j d : entry (mk2 4 4 ring_dist) i j d <-> (i < 4)%nat /\ (j < 4)%nat /\ d = ring_dist i j.
Proof. apply mk2_entry. Qed.
Lemma ring_small : 0 < bpow radix2 (-30) < 1. Proof. split; [apply bpow_gt_0|pow2; lra]. Qed.
Lemma ring_dist_bounds i j : 0 <= ring_dist i j < 2 /\ (i <> j -> 1 <= ring_dist i j) /\ ring_dist i j = ring_dist j i.
Proof.
  pose proof ring_small. unfold ring_dist. rewrite (Nat.eqb_sym j i), (adj_sym ring_edges j i). destruct (Nat.eqb_spec i j), (adj ring_edges i j); repeat split; try lra; intros; contradiction.
Qed.
Lemma ring_consistent : consistent ring_points 4 4.
Proof.
  pose proof (matrix_mk2 4 4 ring_dist) as M. constructor; cbn [ring_points t_em t_table em_n_landmarks em_dist_land_land em_dist_land_data em_prime em_dgms em_cocycles]; try assumption; try reflexivity; try lia.
  - intros i b d H. apply ring_entry in H as (_ & _ & ->). apply ring_dist_bounds.
  - exists 4%nat. split; [lia|reflexivity].
  - exists [(1, 2)], [ring_class]. do 3 (split; [reflexivity|]). edge_class.
Qed.
Lemma ring_metric : metric ring_points.
Proof.
  split; cbn [ring_points t_em em_dist_land_land em_dist_land_data].
  - intros i j d H. apply ring_entry in H as (Hi & Hj & ->). apply ring_entry. split; [exact Hj|]. split; [exact Hi|]. apply ring_dist_bounds.
  - intros i j b d d1 d2 H H1 H2. apply ring_entry in H as (Hi & Hj & ->). apply ring_entry in H1 as (_ & Hb & ->). apply ring_entry in H2 as (_ & _ & ->).
    destruct (ring_dist_bounds i j) as (B1 & _ & S1). destruct (ring_dist_bounds i b) as (B2 & L2 & S2). destruct (ring_dist_bounds j b) as (B3 & L3 & S3).
    destruct (Nat.eq_dec i b) as [->|N1]; [|destruct (Nat.eq_dec j b) as [->|N2]].
    + rewrite S1. lra.
    + lra.
    + specialize (L2 N1). specialize (L3 N2). lra.
Qed.
Lemma ring_class_of : class_of ring_points (PyInt 0) 1 2 ring_class.
Proof. apply em_class1. rewrite (rep_ok (t_em ring_points) [(1, 2)] [ring_class] (PyInt 0) eq_refl eq_refl eq_refl). reflexivity. Qed.
Lemma ring_until : cocycle_until_rounded sgl ring_points 2 ring_class.
Proof.
  unfold cocycle_until_rounded. cbn [ring_points t_em em_dist_land_land em_prime].
  replace (map (map sgl) (mk2 4 4 ring_dist)) with (mk2 4 4 (graph_dist ring_edges)).
  - apply (graph_cocycle 4 ring_edges 2 _ (fun v => (v mod 41 =? 0)%Z)); [lra|intros v H; apply Z.eqb_eq in H; apply Z.mod_divide; [lia|exact H]|vm_compute; reflexivity].
  - unfold mk2. rewrite map_map. apply map_ext; intros i. unfold mk1. rewrite map_map. apply map_ext; intros j. unfold graph_dist, ring_dist.
    destruct (i =? j)%nat; [symmetry; apply (single_IZR 0); cbn; lia|]. destruct (adj ring_edges i j); [symmetry; apply (single_IZR 1); cbn; lia|symmetry; exact sgl_diagonal].
Qed.
Lemma ring_triangle i j k : (i < j < k)%nat -> (k < 4)%nat -> rips Rltb (mk2 4 4 ring_dist) 2 2 [i; j; k].
Proof.
  intros H1 H2. split.
  { split; [reflexivity|]. rewrite length_mk2. split.
    - repeat (apply Sorted.SSorted_cons || apply Sorted.SSorted_nil || apply Forall_cons || apply Forall_nil); lia.
    - repeat (apply Forall_cons || apply Forall_nil); lia. }
  assert (G : forall a b, (a < 4)%nat -> (b < 4)%nat -> close Rltb (mk2 4 4 ring_dist) 2 a b).
  { intros a b Ha Hb. destruct (proj2 (ring_entry a b _) (conj Ha (conj Hb eq_refl))) as (row & E1 & E2). exists row, (ring_dist a b). split; [exact E1|]. split; [exact E2|]. apply Rltb_true. apply ring_dist_bounds. }
  repeat constructor; apply G; lia.
Qed.

(** With perc = 1 the call returns, for every bump function and solver, though no integer cocycle
    on the complex that was used is congruent to the class: the check of the cocycle condition does
    not see that the class is no cocycle mod the prime there. *)
Theorem C89_last_scale_refuted :
  single 1 /\ single 2 /\ consistent ring_points 4 4 /\ metric ring_points /\ class_of ring_points (PyInt 0) 1 2 ring_class /\
  cocycle_until_rounded sgl ring_points 2 ring_class /\
  forall ext f, sound_numpy ext -> sound_solver ext -> complete_milp (x_milp ext) -> (forall r, bump f r) ->
    (exists row, snd (circular_get_coordinates ext ring_points 1 (PyInt 0) f true true) = Ok row) /\
    ~ exists eta, lifts_class ring_points 4 2 ring_class eta.
Proof.
  split; [apply (single_IZR 1); cbn; lia|]. split; [apply (single_IZR 2); cbn; lia|]. split; [exact ring_consistent|]. split; [exact ring_metric|].
  split; [exact ring_class_of|]. split; [exact ring_until|]. intros ext f HE HS Hcm Hf. set (x := ring_points). pose proof ring_consistent as C. fold x in C. split.
  2: { unfold x; intros (eta & _ & Hc & Ho). destruct (Hc 0%nat 1%nat ltac:(lia)) as [q0 Q0]. destruct (Hc 1%nat 2%nat ltac:(lia)) as [q1 Q1]. destruct (Hc 0%nat 2%nat ltac:(lia)) as [q2 Q2].
       pose proof (Ho _ _ _ (ring_triangle 0 1 2 ltac:(lia) ltac:(lia))) as T.
       change (sparse_edge ring_class 0 1) with 1%Z in Q0. change (sparse_edge ring_class 1 2) with 0%Z in Q1. change (sparse_edge ring_class 0 2) with 0%Z in Q2.
       change (em_prime (t_em ring_points)) with 41%Z in Q0, Q1, Q2. cbv beta in T. lia. }
  set (p := 41%Z). set (dm := em_dist_land_land (t_em x)). destruct (sq_ll x 4 4 C) as [Sq L]. fold dm in Sq, L.
  pose proof (class_edge_cocycle x 4 4 C _ _ _ _ ring_class_of) as Ecc. pose proof (lift_edge 4 p ring_class Ecc) as Ez.
  destruct (edge_vector (x_argsort ext) 4 4 _ (proj1 HE) (le_n 4) Ez) as (vec & Ev & Lv). change (combinatorial_number_system_table 4 2) with (t_table x) in Ev.
  pose proof (dense_value x 4 4 C ext HE _ vec Ez Ev) as Dv.
  assert (B : is_binomial (length dm) 2 (length vec)) by (rewrite Lv, L; apply comb_is_binomial).
  assert (Rep : exists e, repair_all Rltb (x_junk ext) p (x_milp ext) dm 2 (t_table x) [vec] = Ok [e] /\ length e = comb 4 2).
  { unfold repair_all, range. cbn [length Nat.sub seq map combine for_in]. unfold repair_step; cbn [fst snd].
    change (t_table x) with (combinatorial_number_system_table 4 2) in *.
    destruct (C15_is_one_cocycle Rltb dm 2 4 2 vec Sq ltac:(lia) ltac:(lia) B) as (ans & ff & EA & _). rewrite EA. cbn [bind fst snd].
    destruct ans; cbn [bind app snd]; [exists vec; auto|].
    destruct (C12_delta1_compact Rltb dm 2 4 2 Sq ltac:(lia) ltac:(lia) ltac:(lia)) as (M & _ & HM & _). rewrite (HM (x_junk ext)). cbn [bind].
    pose proof (HM (x_junk ext)) as EM.
    assert (Ls : length dm = 4%nat) by exact L.
    destruct (weight1 Rltb dm 2 4 2 Sq ltac:(lia) (x_junk ext) M 0 ltac:(lia) ltac:(lia) EM) as [Hcols _].
    assert (Lvc : length vec = s_cols M) by (rewrite Lv, Hcols, Ls; reflexivity).
    destruct (matvec_ok (K := Zring) M vec Lvc) as (d & Ed & Ld & _).
    assert (Fd : Forall (fun v => (0 <= v < p)%Z) d).
    { apply (rows1_P Rltb dm 2 4 2 Sq ltac:(lia) _ (x_junk ext) M vec d ltac:(lia) ltac:(lia) EM (eq_trans Lvc Hcols) Ed).
      intros i j k a b e Hr V1 V2 V3. destruct (rips_triangle _ _ _ _ _ Hr) as [H1 H2]. rewrite Ls in H2.
      rewrite (value_at_unique _ _ _ _ _ V1 (Dv i j ltac:(lia))), (value_at_unique _ _ _ _ _ V2 (Dv j k ltac:(lia))), (value_at_unique _ _ _ _ _ V3 (Dv i k ltac:(lia))).
      destruct i as [|[|[|[|i]]]]; try lia; destruct j as [|[|[|[|j]]]]; try lia; destruct k as [|[|[|[|k]]]]; try lia; vm_compute; split; discriminate || reflexivity. }
    unfold repair_with. rewrite Ed. cbn [bind]. change (carrier Zring) with Z.
    assert (Ey : map (fun v => (v / p)%Z) d = repeat 0%Z (length d)).
    { clear - Fd. induction Fd as [|v d H _ IH]; [reflexivity|]. cbn [map length repeat]. rewrite IH, Z.div_small by exact H. reflexivity. }
    rewrite Ey. destruct HS as (eps & tol & He & Ht & Het & Hm).
    destruct (x_milp ext M (repeat 0%Z (length d))) as [sol|] eqn:Es.
    - destruct (Hm _ _ _ Es) as (Ll & _). rewrite Ll, Hcols, Ls, Lv. change (comb 4 2 =? comb 4 2)%nat with true. cbv iota. cbn [bind snd app]. eexists. split; [reflexivity|].
      rewrite map_length, combine_length, Ll, Hcols, Ls, Lv. reflexivity.
    - exfalso. apply (Hcm M _ (repeat 0%Z (s_cols M)) Es); [apply repeat_length|].
      destruct (matvec_ok (K := Zring) M (repeat 0%Z (s_cols M)) (repeat_length _ _)) as (w & Ew & Lw & _). rewrite Ew. f_equal.
      assert (Fw : Forall (fun v => v = 0%Z) w).
      { apply (rows1_P Rltb dm 2 4 2 Sq ltac:(lia) _ (x_junk ext) M _ w ltac:(lia) ltac:(lia) EM (eq_trans (repeat_length _ _) Hcols) Ew).
        assert (Z0 : forall s v, value_at (combinatorial_number_system_table 4 2) (repeat 0%Z (s_cols M)) s v -> v = 0%Z).
        { intros s v (q & _ & Hq). apply nth_error_In in Hq. apply (repeat_spec _ _ _ Hq). }
        intros i j k a b e _ V1 V2 V3. rewrite (Z0 _ _ V1), (Z0 _ _ V2), (Z0 _ _ V3). reflexivity. }
      assert (Lwd : length w = length d) by congruence.
      rewrite <- Lwd. clear - Fw. induction Fw as [|v w -> _ IH]; [reflexivity|]. cbn [length repeat]. rewrite IH at 1. reflexivity. }
  destruct Rep as (e & Er & Le).
  rewrite (single_front ext x 4 4 1 (PyInt 0) f true true 1 2 ring_class C ring_class_of ltac:(lra) ltac:(lra)). cbv zeta.
  replace ((1 - 1) * (2 * 1) + 1 * 2) with 2 by lra. change (em_prime (t_em x)) with p.
  assert (Ev1 : map_res (fun c => sparse_cocycle_to_vector (x_argsort ext) c (t_table x) 4) [lift_to_integer_cocycle p ring_class] = Ok [vec]) by (cbn [map_res]; rewrite Ev; reflexivity).
  destruct (coordinates_total x 4 4 ext C HE f 2 (Hf _) [lift_to_integer_cocycle p ring_class] [vec] [e] true Ev1 Er ltac:(constructor; [exact Le|constructor]))
    as (M0 & W & hf & A & gm & E0 & EW & Ehf & EA & _ & ->). cbn [length Nat.ltb Nat.leb].
  pose proof (map_res_length _ _ _ Ehf) as Q1. pose proof (map_res_length _ _ _ EA) as Q2. rewrite Q1 in Q2; cbn [length] in Q2.
  destruct A as [|row [|]]; try discriminate Q2. exists row. reflexivity.
Qed.
Print Assumptions C89_last_scale_refuted.

(** The hypotheses of the positive result are met: the kite of C18 at perc = 1/2. *)
Example C89_case :
  let x := graph 5 kite_edges 3 [kite_class] in
  consistent x 5 5 /\ metric x /\ cocycle_until_rounded sgl x 2 kite_class /\
  (forall f, (forall r, bump f r) -> exists row, snd (circular_get_coordinates good_ext x (1 / 2) (PyInt 0) f false true) = Ok row) /\
  bpow radix2 (-24) * 2 + bpow radix2 (-150) < (1 - 1 / 2) * (2 - 1) /\ sgl ((1 - 1 / 2) * 1 + 1 / 2 * 2) < 2.
Proof.
  destruct C18_call_nonvacuous as ((HE & HS & HC) & (C & Me & _ & Hc & Hu & _ & Hl) & _). cbv zeta.
  assert (M : bpow radix2 (-24) * 2 + bpow radix2 (-150) < (1 - 1 / 2) * (2 - 1)).
  { assert (bpow radix2 (-150) <= bpow radix2 (-24)) by (apply bpow_le; lia). assert (bpow radix2 (-24) <= / 16) by (pow2; lra). lra. }
  split; [exact C|]. split; [exact Me|]. split; [|split; [|split; [exact M|apply C89_margin; lra]]].
  - unfold cocycle_until_rounded. cbn [graph t_em em_dist_land_land em_prime].
    replace (map (map sgl) (mk2 5 5 (graph_dist kite_edges))) with (mk2 5 5 (graph_dist kite_edges)); [exact Hu|].
    unfold mk2. rewrite map_map. apply map_ext; intros i. unfold mk1. rewrite map_map. apply map_ext; intros j. unfold graph_dist.
    destruct (i =? j)%nat; [symmetry; apply (single_IZR 0); cbn; lia|]. destruct (adj kite_edges i j); [symmetry; apply (single_IZR 1); cbn; lia|symmetry; apply (single_IZR 2); cbn; lia].
  - intros f Hf. apply (C18_call good_ext _ 5 5 (1 / 2) (PyInt 0) f false 1 2 kite_class C HE Hf Hc); try lra; try assumption.
    replace ((1 - 1 / 2) * 1 + 1 / 2 * 2) with (3 / 2) by lra. exact Hl.
Qed.
