(** RoundCProj.v -- ComplexProjectiveCoords in double precision: lemmas. *)
From Coq Require Import Reals List ZArith Lia Lra Psatz Permutation.
From Flocq Require Import Core.
From Verif Require Import Base BaseProofs CombinatorialModel SpecSimplex CombinatorialProofs DeltaModel SpecRips RipsProofs DeltaProofs DeltaFacts
  RealBase RealSum EMModel SpecEM EMProofs CohomologyModel LLLModel LLLProofs ToroidalModel SpecToroidal ToroidalProofs ComplexBase PPCAModel SpecPPCA PPCAProofs
  ClassMapModel SpecClassMap ClassMapProofs ComplexProjModel SpecComplexProj ComplexProjProofs ComplexProjFacts CircleProofs SpecRound RoundBase RoundModel RoundTorusModel RoundProofs RoundTorusProofs
  PropRound RoundPPCAModel SpecRoundPPCA RoundPPCAProofs RoundClassMap RoundLens PropRoundTorus RoundHarmonic RoundCProjModel SpecRoundCProj.
Import ListNotations.
Local Open Scope R_scope.

(** ** Sums *)
Lemma fold_added l : forall A a, added_up A a -> added_up (A ++ l) (fold_left (fun x y => dbl (x + y)) l a).
Proof.
  induction l as [|y l IH]; intros A a H; [rewrite app_nil_r; exact H|]. cbn [fold_left].
  replace (A ++ y :: l) with ((A ++ [y]) ++ l) by (rewrite <- app_assoc; reflexivity). apply IH. apply au_two; [exact H|constructor].
Qed.
Lemma added_products qs s : (Z.of_nat (length qs) <= 2 ^ 50)%Z -> added_up (map dbl qs) s ->
  Rabs (s - total qs) <= INR (length qs) * bpow radix2 (-52) * total (map Rabs qs) + INR (length qs) * bpow radix2 (-1074).
Proof.
  intros Hn Ad. assert (F : Forall double (map dbl qs)) by (apply Forall_map, Forall_forall; intros; apply dbl_dbl).
  destruct (length qs) as [|n] eqn:Lq.
  { apply length_zero_iff_nil in Lq. rewrite Lq in *. cbn [map] in Ad. rewrite (added_nil _ Ad). cbn. rewrite Rminus_0_r, Rabs_R0. lra. }
  pose proof (added_error_sharp _ _ Ad F) as E1. rewrite map_length, Lq in E1. replace (S n - 1)%nat with n in E1 by lia.
  set (e := bpow radix2 (-1075)). assert (He : 0 < e) by apply bpow_gt_0.
  destruct (rounded_total qs e ltac:(lra) dbl_error) as [E2 E3]. rewrite Lq in E2, E3.
  replace (bpow radix2 (-1074)) with (2 * e) by (unfold e; change (-1074)%Z with (1 + -1075)%Z; rewrite bpow_plus; reflexivity).
  replace (bpow radix2 (-52)) with (2 * u53) by (change (-52)%Z with (1 + -53)%Z; rewrite bpow_plus; reflexivity).
  assert (Hu : INR (S n) * u53 <= / 8).
  { rewrite INR_IZR_INZ. apply IZR_le in Hn. rewrite u53_val. change (2 ^ 50)%Z with 1125899906842624%Z in Hn. lra. }
  assert (U : 0 < u53 < / 1000) by (rewrite u53_val; lra). pose proof (pos_INR n) as Pn. rewrite S_INR in *.
  pose proof (pow_upper n ltac:(clearbody e; nra)) as P. pose proof (pow_ge_1 (1 + u53) n ltac:(lra)) as P1.
  pose proof (total_abs_nonneg qs) as T0. pose proof (total_abs_nonneg (map dbl qs)) as T1.
  set (u := u53) in *. set (Q := (1 + u) ^ n) in *. set (T := total (map Rabs qs)) in *. set (T' := total (map Rabs (map dbl qs))) in *.
  set (x := INR n * u) in *.
  assert (X : 0 <= x <= / 8) by (unfold x; nra).
  assert (E : Rabs (s - total qs) <= (Q - 1) * T' + (u * T + (INR n + 1) * e)).
  { replace (s - total qs) with ((s - total (map dbl qs)) + (total (map dbl qs) - total qs)) by ring. eapply Rle_trans; [apply Rabs_triang|]. lra. }
  assert (Q2 : (Q - 1) * T' <= (Q - 1) * ((1 + u) * T + (INR n + 1) * e)) by (apply Rmult_le_compat_l; lra).
  assert (Q3 : (Q - 1) * ((INR n + 1) * e) <= (INR n + 1) * e) by (clear - P X P1 Pn He; assert (Q - 1 <= 1) by nra; assert (0 <= (INR n + 1) * e) by nra; nra).
  assert (Q4 : (Q - 1) * (1 + u) + u <= (INR n + 1) * (2 * u)).
  { replace ((INR n + 1) * (2 * u)) with (2 * x + 2 * u) by (unfold x; ring). clear - P X U P1. clearbody Q x. nra. }
  assert (Q5 : ((Q - 1) * (1 + u) + u) * T <= (INR n + 1) * (2 * u) * T) by (apply Rmult_le_compat_r; assumption). lra.
Qed.
Lemma sum_three a b c s B : added_up [a; b; c] s -> double a -> double b -> double c -> Rabs a <= B -> Rabs b <= B -> Rabs c <= B ->
  Rabs (s - (a + b + c)) <= 7 * u53 * B.
Proof.
  intros H Da Db Dc Ha Hb Hc. pose proof (added_error_sharp _ _ H ltac:(repeat constructor; assumption)) as E.
  unfold total in E; cbn [map fold_right length Nat.sub pow] in E. rewrite !Rplus_0_r in E. rewrite Rmult_1_r in E.
  replace (a + (b + c)) with (a + b + c) in E by ring. eapply Rle_trans; [exact E|].
  apply Rle_trans with (((1 + u53) * (1 + u53) - 1) * (3 * B)); [apply Rmult_le_compat_l; [rewrite u53_val; lra|lra]|].
  pose proof (Rabs_pos a). rewrite u53_val. lra.
Qed.

(** ** The harmonic representative *)
Section Harmonic.
Variables (sum_ : list R -> R) (dm : list (list R)) (t : R) (N Dm : nat).
Hypothesis Hsum : forall l, added_up l (sum_ l).
Hypothesis Hsq : square dm.
Notation n := (length dm).
Hypothesis HN : (n <= N)%nat.
Hypothesis HD : (2 <= Dm)%nat.
Notation T := (combinatorial_number_system_table N Dm).

Lemma delta1_d M (g : list R) : M = mkSparse (comb n 3) (comb n 2) (flat_map (fun s => ent1 (rank s) s) (rl Rltb dm t 2)) -> length g = comb n 2 -> Forall double g ->
  exists d, matvec_d sum_ M g = Ok d /\ length d = comb n 3 /\
    forall B, (forall i j, (i < j < n)%nat -> Rabs (nth (rank [i; j]) g 0) <= B) -> forall i j k, (i < j < k)%nat -> (k < n)%nat -> rips Rltb dm t 2 [i; j; k] ->
      Rabs (nth (rank [i; j; k]) d 0 - (nth (rank [i; j]) g 0 + nth (rank [j; k]) g 0 - nth (rank [i; k]) g 0)) <= 7 * u53 * B.
Proof.
  intros -> Lg Dg. unfold matvec_d. cbn [s_cols s_rows s_entries]. rewrite Lg, Nat.eqb_refl. eexists. split; [reflexivity|]. split; [apply length_mk1|].
  intros B HB i j k Hij Hk Rp. assert (Hs : simplex n 2 [i; j; k]) by (apply simplex3; lia). pose proof (rank_lt_d n 2 _ Hs) as Hr. rewrite nth_mk1 by exact Hr.
  assert (Dn : forall q, double (nth q g 0)).
  { intros q. destruct (nth_in_or_default q g 0) as [I| ->]; [rewrite Forall_forall in Dg; apply Dg, I|exact double_0]. }
  rewrite (block_in Rltb dm t 2 (fun s => ent1 (rank s) s)); [|intros u e0; apply ent1_key|apply rl_rips; exact Rp].
  cbn [ent1 map fst snd]. set (x := nth (rank [i; j]) g 0). set (y := nth (rank [j; k]) g 0). set (z := nth (rank [i; k]) g 0).
  replace (1 * x) with x by ring. replace (1 * y) with y by ring. replace (-1 * z) with (- z) by ring.
  rewrite (Dn (rank [i; j]) : dbl x = x), (Dn (rank [j; k]) : dbl y = y), (double_opp _ (Dn (rank [i; k])) : dbl (- z) = - z).
  replace (x + y - z) with (x + y + - z) by ring.
  apply sum_three; [apply Hsum|apply Dn|apply Dn|apply double_opp, Dn|apply HB; lia|apply HB; lia|rewrite Rabs_Ropp; apply HB; lia].
Qed.

Lemma harmonic_tensor_d (vec : list Z) (g : list R) junk M : (Z.of_nat n <= 2345)%Z -> length vec = comb n 3 -> length g = comb n 2 -> Forall double g ->
  (forall i j x, entry dm i j x -> entry dm j i x) -> make_delta1 Rltb junk dm t T = Ok M ->
  exists d m1 m2, matvec_d sum_ M g = Ok d /\ one_cocycle_to_tensor g dm t T = Ok m1 /\
    two_cocycle_to_tensor (vsub_d dbl (map (fun z => dbl (IZR z)) vec) d) dm t T = Ok m2 /\
    (forall i j, (i < n)%nat -> (j < n)%nat -> near dm t i j -> m1 i j = alt2 g i j) /\
    forall K B, (forall i j k, (i < n)%nat -> (j < n)%nat -> (k < n)%nat -> Rabs (IZR (alt3 vec i j k)) <= K) -> (forall i j, (i < n)%nat -> (j < n)%nat -> Rabs (alt2 g i j) <= B) ->
    forall i j k, (i < n)%nat -> (j < n)%nat -> (k < n)%nat -> near dm t i j -> near dm t j k -> near dm t i k ->
      Rabs (m2 i j k - (IZR (alt3 vec i j k) - (alt2 g i j + alt2 g j k - alt2 g i k))) <= bpow radix2 (-51) * (K + 3 * B) + bpow radix2 (-1074).
Proof.
  intros Hb Lv Lg Dg Sy EM.
  rewrite (delta1_ok Rltb junk dm t N Dm Hsq HN HD (tri_fit _ Hb)) in EM. injection EM as EM.
  destruct (delta1_d M g (eq_sym EM) Lg Dg) as (d & Ed & Ld & Hd).
  destruct (tensor1_ok dm t N Dm Hsq HN HD g Lg) as (m1 & E1 & D1 & V1).
  set (cd := map (fun z => dbl (IZR z)) vec). assert (Lcd : length cd = comb n 3) by (unfold cd; rewrite map_length; exact Lv).
  assert (Lh : length (vsub_d dbl cd d) = comb n 3) by (unfold vsub_d; rewrite map_length, combine_length; lia).
  destruct (tensor2_ok dm t N Dm Hsq HN HD _ Lh) as (m2 & E2 & D2 & V2).
  exists d, m1, m2. split; [exact Ed|]. split; [exact E1|]. split; [exact E2|].
  assert (A2d : forall i, alt2 g i i = 0) by (intros i; pose proof (alt2_swap g i i); lra).
  split.
  { intros i j Hi Hj Nr. destruct (Nat.lt_trichotomy i j) as [L|[-> |L]].
    + destruct (V1 i j ltac:(lia) (near_close _ _ _ _ Nr)) as [-> _]. rewrite alt2_sorted by exact L; reflexivity.
    + rewrite D1, A2d; reflexivity.
    + destruct (V1 j i ltac:(lia) (near_close _ _ _ _ (near_sym _ _ _ _ Sy Nr))) as [_ ->]. rewrite alt2_swap, alt2_sorted by exact L; reflexivity. }
  intros K B HK HB. set (e := bpow radix2 (-51) * (K + 3 * B) + bpow radix2 (-1074)).
  set (ex := fun i j k => IZR (alt3 vec i j k) - (alt2 g i j + alt2 g j k - alt2 g i k)).
  assert (S : forall i j k, (i < j < k)%nat -> (k < n)%nat -> near dm t i j -> near dm t j k -> near dm t i k ->
      let close x v := Rabs (x - v) <= e in let v := ex i j k in
      close (m2 i j k) v /\ close (m2 j k i) v /\ close (m2 k i j) v /\ close (m2 i k j) (- v) /\ close (m2 j i k) (- v) /\ close (m2 k j i) (- v)).
  { intros i j k H Hk N1 N2 N3 close v. assert (Sx : simplex n 2 [i; j; k]) by (apply simplex3; lia).
    assert (Rp : rips Rltb dm t 2 [i; j; k]) by (split; [exact Sx|]; repeat constructor; apply near_close; assumption).
    assert (HB' : forall i j, (i < j < n)%nat -> Rabs (nth (rank [i; j]) g 0) <= B) by (intros i' j' H'; rewrite <- alt2_sorted by lia; apply HB; lia).
    pose proof (Hd B HB' i j k H Hk Rp) as Ed'. rewrite <- !alt2_sorted in Ed' by lia. pose proof (HK i j k ltac:(lia) ltac:(lia) Hk) as Kz.
    pose proof (HB i j ltac:(lia) ltac:(lia)) as B1. pose proof (HB j k ltac:(lia) ltac:(lia)) as B2. pose proof (HB i k ltac:(lia) ltac:(lia)) as B3.
    pose proof (V2 i j k H Hk Rp) as V. cbv zeta in V. pose proof (rank_lt_d n 2 _ Sx) as Hr.
    assert (Ev : nth (rank [i; j; k]) (vsub_d dbl cd d) 0 = dbl (dbl (IZR (alt3 vec i j k)) - nth (rank [i; j; k]) d 0)).
    { unfold vsub_d. rewrite (nth_map_lt _ _ _ (0, 0)) by (rewrite combine_length; lia). rewrite combine_nth by lia. cbn [fst snd]. do 2 f_equal. unfold cd. rewrite (nth_map_lt _ _ _ 0%Z) by lia. rewrite alt3_sorted by lia. reflexivity. }
    rewrite Ev in V. set (dd := nth (rank [i; j; k]) d 0) in *. set (z := alt3 vec i j k) in *. pose proof (int_error z) as Ez. pose proof (dbl_error (dbl (IZR z) - dd)) as E3.
    set (q := alt2 g i j + alt2 g j k - alt2 g i k) in *. assert (Q0 : Rabs q <= 3 * B).
    { unfold q. replace (alt2 g i j + alt2 g j k - alt2 g i k) with (alt2 g i j + (alt2 g j k + - alt2 g i k)) by ring. eapply Rle_trans; [apply Rabs_triang|]. pose proof (Rabs_triang (alt2 g j k) (- alt2 g i k)) as Q1. rewrite Rabs_Ropp in Q1. lra. }
    assert (U : u53 = / 9007199254740992) by apply u53_val. change (bpow radix2 (-53)) with u53 in E3. assert (P52 : bpow radix2 (-52) = 2 * u53) by (rewrite u53_val; pow2; lra). assert (P51 : bpow radix2 (-51) = 4 * u53) by (rewrite u53_val; pow2; lra).
    assert (Pt : bpow radix2 (-1074) = 2 * bpow radix2 (-1075)) by (change (-1074)%Z with (1 + -1075)%Z; rewrite bpow_plus; reflexivity). pose proof (bpow_gt_0 radix2 (-1075)) as T0.
    rewrite P52 in Ez. set (zd := dbl (IZR z)) in *. set (hv := dbl (zd - dd)) in *. rewrite U in *.
    assert (K0 : 0 <= K) by (eapply Rle_trans; [apply Rabs_pos|exact Kz]). assert (B0 : 0 <= B) by (eapply Rle_trans; [apply Rabs_pos|exact B1]).
    assert (X1 : Rabs ((zd - dd) - (IZR z - q)) <= 2 * / 9007199254740992 * K + 7 * / 9007199254740992 * B).
    { replace ((zd - dd) - (IZR z - q)) with ((zd - IZR z) + - (dd - q)) by ring. eapply Rle_trans; [apply Rabs_triang|]. rewrite Rabs_Ropp. lra. }
    assert (X2 : Rabs (IZR z - q) <= K + 3 * B) by (replace (IZR z - q) with (IZR z + - q) by ring; eapply Rle_trans; [apply Rabs_triang|]; rewrite Rabs_Ropp; lra).
    assert (X3 : Rabs (zd - dd) <= (K + 3 * B) + (2 * / 9007199254740992 * K + 7 * / 9007199254740992 * B)).
    { replace (zd - dd) with (((zd - dd) - (IZR z - q)) + (IZR z - q)) by ring. eapply Rle_trans; [apply Rabs_triang|]. lra. }
    assert (X4 : Rabs (hv - v) <= e).
    { unfold v, ex. fold z q. replace (hv - (IZR z - q)) with ((hv - (zd - dd)) + ((zd - dd) - (IZR z - q))) by ring. eapply Rle_trans; [apply Rabs_triang|]. unfold e. rewrite P51, Pt. lra. }
    unfold close. destruct V as (-> & -> & -> & -> & -> & ->). assert (X5 : Rabs (- hv - - v) <= e) by (replace (- hv - - v) with (- (hv - v)) by ring; rewrite Rabs_Ropp; exact X4). tauto. }
  intros i j k Hi Hj Hk N1 N2 N3. fold (ex i j k).
  pose proof (near_sym _ _ _ _ Sy N1) as N1'. pose proof (near_sym _ _ _ _ Sy N2) as N2'. pose proof (near_sym _ _ _ _ Sy N3) as N3'.
  assert (A3 : forall a b c, (a = b \/ b = c \/ a = c)%nat -> alt3 vec a b c = 0%Z).
  { intros a b c H. unfold alt3. destruct H as [ -> |[ -> | -> ]]; rewrite sg_same; ring. }
  assert (e0 : 0 <= e).
  { unfold e. pose proof (HK i j k Hi Hj Hk). pose proof (HB i j Hi Hj). pose proof (Rabs_pos (IZR (alt3 vec i j k))). pose proof (Rabs_pos (alt2 g i j)). pose proof (bpow_gt_0 radix2 (-1074)). pose proof (bpow_gt_0 radix2 (-51)). assert (0 <= bpow radix2 (-51) * (K + 3 * B)) by (apply Rmult_le_pos; lra). lra. }
  assert (Z0 : forall x v, x = v -> Rabs (x - v) <= e) by (intros x v ->; replace (v - v) with 0 by ring; rewrite Rabs_R0; exact e0).
  destruct (Nat.eq_dec i j) as [-> |Q1]; [apply Z0; unfold ex; rewrite D2, A3 by lia; rewrite A2d; ring|].
  destruct (Nat.eq_dec j k) as [-> |Q2]; [apply Z0; unfold ex; rewrite D2, A3 by lia; rewrite A2d; ring|].
  destruct (Nat.eq_dec i k) as [-> |Q3]; [apply Z0; unfold ex; rewrite D2, A3 by lia; rewrite (alt2_swap g j k), A2d; ring|].
  destruct (Nat.lt_ge_cases i j), (Nat.lt_ge_cases j k), (Nat.lt_ge_cases i k); try lia.
  + destruct (S i j k) as (W & _); auto; lia.
  + destruct (S i k j) as (_ & _ & _ & W & _ & _); auto; [lia|]. replace (ex i j k) with (- ex i k j); [exact W|]. unfold ex. rewrite (alt3_swap2 vec i j k), opp_IZR, (alt2_swap g j k). ring.
  + destruct (S k i j) as (_ & W & _); auto; [lia|]. replace (ex i j k) with (ex k i j); [exact W|]. unfold ex. rewrite (alt3_swap1 vec i k j), (alt3_swap2 vec i j k), !opp_IZR, (alt2_swap g i k), (alt2_swap g j k). ring.
  + destruct (S j i k) as (_ & _ & _ & _ & W & _); auto; [lia|]. replace (ex i j k) with (- ex j i k); [exact W|]. unfold ex. rewrite (alt3_swap1 vec i j k), opp_IZR, (alt2_swap g i j). ring.
  + destruct (S j k i) as (_ & _ & W & _); auto; [lia|]. replace (ex i j k) with (ex j k i); [exact W|]. unfold ex. rewrite (alt3_swap2 vec j i k), (alt3_swap1 vec i j k), !opp_IZR, (alt2_swap g i j), (alt2_swap g i k). ring.
  + destruct (S k j i) as (_ & _ & _ & _ & _ & W); auto; [lia|]. replace (ex i j k) with (- ex k j i); [exact W|]. unfold ex. rewrite (alt3_swap1 vec j k i), (alt3_swap2 vec j i k), (alt3_swap1 vec i j k), !opp_IZR, (alt2_swap g i j), (alt2_swap g i k), (alt2_swap g j k). ring.
Qed.
End Harmonic.

