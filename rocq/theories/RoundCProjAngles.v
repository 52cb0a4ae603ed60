(** RoundCProjAngles.v -- ComplexProjectiveCoords in double precision: angles and entries. *)
From Coq Require Import Reals List ZArith Lia Lra Psatz Permutation.
From Flocq Require Import Core.
From Verif Require Import Base BaseProofs CombinatorialModel SpecSimplex CombinatorialProofs DeltaModel SpecRips RipsProofs DeltaProofs DeltaFacts
  RealBase RealSum EMModel SpecEM EMProofs CohomologyModel LLLModel LLLProofs ToroidalModel SpecToroidal ToroidalProofs ComplexBase PPCAModel SpecPPCA PPCAProofs
  ClassMapModel SpecClassMap ClassMapProofs ComplexProjModel SpecComplexProj ComplexProjProofs ComplexProjFacts CircleProofs SpecRound RoundBase RoundModel RoundTorusModel RoundProofs RoundTorusProofs
  PropRound RoundPPCAModel SpecRoundPPCA RoundPPCAProofs RoundClassMap RoundLens PropRoundTorus RoundHarmonic RoundCProjModel SpecRoundCProj RoundCProj.
Import ListNotations.
Local Open Scope R_scope.
(** ** Angles *)
Lemma phase_fold (F : nat -> option R) (q : nat -> R) l : (forall t, In t l -> F t = Some (q t)) -> forall x,
  fold_left (fun x t => add_nan_d x (F t)) l (Some x) = Some (fold_left (fun x y => dbl (x + y)) (map q l) x).
Proof.
  induction l as [|t l IH]; intros H x; [reflexivity|]. cbn [fold_left map]. rewrite (H t (or_introl eq_refl)). cbn [add_nan_d]. apply IH. intros t' Ht'. apply H. right; exact Ht'.
Qed.
Lemma phase_fold_nan (F : nat -> option R) l : (exists t, In t l /\ F t = None) -> forall x, fold_left (fun x t => add_nan_d x (F t)) l x = None.
Proof.
  assert (G : forall l, fold_left (fun x t => add_nan_d x (F t)) l None = None) by (induction l0 as [|t l0 IH]; [reflexivity|exact IH]).
  induction l as [|t l IH]; intros (t0 & I & E) x; [destruct I|]. cbn [fold_left]. destruct I as [-> |I].
  - rewrite E. destruct x; apply G.
  - apply IH. exists t0; split; assumption.
Qed.
Lemma total_seq' n (g : nat -> R) : total (map g (seq 0 n)) = sumn n g.
Proof.
  rewrite ClassMapProofs.total_sumn, map_length, seq_length. apply sumn_ext. intros t Ht. rewrite (nth_map_lt _ _ _ 0%nat) by (rewrite seq_length; exact Ht). rewrite seq_nth by exact Ht. reflexivity.
Qed.
Lemma sumn_const k c : sumn k (fun _ => c) = INR k * c.
Proof. induction k as [|k IH]; [cbn; ring|]. cbn [sumn]. rewrite S_INR, IH. ring. Qed.

(** The computed phase. *)
Lemma phase_close n nu0 (w eta h y : nat -> R) B Q e : (1 <= n)%nat -> (Z.of_nat n <= 2345)%Z -> double nu0 -> Rabs nu0 <= B -> 3 * B <= Q -> e = bpow radix2 (-51) * Q + bpow radix2 (-1074) ->
  (forall t, (t < n)%nat -> 0 <= w t /\ Rabs (h t) <= Q /\ (w t = 0 \/ Rabs (eta t - h t) <= e)) ->
  sumn n w <= 2 -> sumn n y = 1 -> (forall t, (t < n)%nat -> 0 <= y t /\ Rabs (w t - y t) <= (INR n + 1) * bpow radix2 (-52) * y t + bpow radix2 (-1075)) ->
  let x := fold_left (fun x y => dbl (x + y)) (map (fun t => dbl (w t * eta t)) (seq 0 n)) nu0 in
  Rabs (x - (nu0 + sumn n (fun t => y t * h t))) <= u53 * (7 * INR n + 15) * (Q + 1).
Proof.
  intros Hn Hn2 D0 B0 BQ Ee H Sw Sy Hy x.
  assert (HB : 0 <= B) by (eapply Rle_trans; [apply Rabs_pos|exact B0]). assert (HQ : 0 <= Q) by lra.
  assert (N1 : 1 <= INR n <= 2345) by (split; [apply (le_INR 1); exact Hn|rewrite INR_IZR_INZ; apply IZR_le in Hn2; exact Hn2]).
  set (qs := nu0 :: map (fun t => w t * eta t) (seq 0 n)).
  assert (Ad : added_up (map dbl qs) x).
  { unfold qs, x. cbn [map]. rewrite (D0 : dbl nu0 = nu0), map_map. apply (fold_added _ [nu0] nu0). constructor. }
  assert (Lq : length qs = S n) by (unfold qs; cbn [length]; rewrite map_length, seq_length; reflexivity).
  pose proof (added_products qs x ltac:(rewrite Lq; lia) Ad) as E. rewrite Lq, S_INR in E.
  assert (Tq : total qs = nu0 + sumn n (fun t => w t * eta t)) by (unfold qs, total; cbn [fold_right]; fold (total (map (fun t => w t * eta t) (seq 0 n))); rewrite total_seq'; reflexivity).
  assert (Ta : total (map Rabs qs) = Rabs nu0 + sumn n (fun t => Rabs (w t * eta t))) by (unfold qs, total; cbn [map fold_right]; rewrite map_map; fold (total (map (fun t => Rabs (w t * eta t)) (seq 0 n))); rewrite total_seq'; reflexivity).
  rewrite Tq, Ta in E.
  assert (U : u53 = / 9007199254740992) by apply u53_val. assert (P52 : bpow radix2 (-52) = 2 * u53) by (rewrite u53_val; pow2; lra). assert (P51 : bpow radix2 (-51) = 4 * u53) by (rewrite u53_val; pow2; lra).
  assert (Pt : bpow radix2 (-1074) = 2 * bpow radix2 (-1075)) by (change (-1074)%Z with (1 + -1075)%Z; rewrite bpow_plus; reflexivity). pose proof (tiny_le (-1075) ltac:(lia)) as [T0 T1]. change (2 ^ 60)%Z with 1152921504606846976%Z in T1.
  set (tt := bpow radix2 (-1075)) in *.
  assert (T2 : tt <= u53 * / 100000). { unfold tt. apply Rle_trans with (bpow radix2 (-53 + -20)); [apply bpow_le; lia|]. rewrite bpow_plus. apply Rmult_le_compat_l; [apply bpow_ge_0|pow2; lra]. }
  assert (e0 : 0 <= e) by (rewrite Ee, P51, Pt, U; lra).
  assert (S1 : sumn n (fun t => Rabs (w t * eta t)) <= 2 * (Q + e)).
  { apply Rle_trans with (sumn n (fun t => (Q + e) * w t)).
    - apply sumn_le. intros t Ht. destruct (H t Ht) as (W0 & H1 & H2). destruct H2 as [-> |H2]; [rewrite Rmult_0_l, Rabs_R0; lra|].
      rewrite Rabs_mult, (Rabs_right (w t)), Rmult_comm by lra. apply Rmult_le_compat_r; [exact W0|]. replace (eta t) with ((eta t - h t) + h t) by ring. eapply Rle_trans; [apply Rabs_triang|]. lra.
    - rewrite sumn_scal. nra. }
  assert (S2 : Rabs (sumn n (fun t => w t * eta t) - sumn n (fun t => w t * h t)) <= 2 * e).
  { rewrite <- sumn_sub. eapply Rle_trans; [apply sumn_abs|]. apply Rle_trans with (sumn n (fun t => e * w t)).
    - apply sumn_le. intros t Ht. destruct (H t Ht) as (W0 & _ & [-> |H2]); [replace (0 * eta t - 0 * h t) with 0 by ring; rewrite Rabs_R0; lra|].
      replace (w t * eta t - w t * h t) with ((eta t - h t) * w t) by ring. rewrite Rabs_mult, (Rabs_right (w t)) by lra. apply Rmult_le_compat_r; assumption.
    - rewrite sumn_scal. nra. }
  assert (S3 : Rabs (sumn n (fun t => w t * h t) - sumn n (fun t => y t * h t)) <= Q * ((INR n + 1) * (2 * u53)) + INR n * (Q * tt)).
  { rewrite <- sumn_sub. eapply Rle_trans; [apply sumn_abs|]. apply Rle_trans with (sumn n (fun t => Q * ((INR n + 1) * (2 * u53)) * y t + Q * tt)).
    - apply sumn_le. intros t Ht. destruct (Hy t Ht) as (Y0 & Y1). destruct (H t Ht) as (_ & H1 & _). rewrite P52 in Y1.
      replace (w t * h t - y t * h t) with (h t * (w t - y t)) by ring. rewrite Rabs_mult.
      replace (Q * ((INR n + 1) * (2 * u53)) * y t + Q * tt) with (Q * ((INR n + 1) * (2 * u53) * y t + tt)) by ring. apply Rmult_le_compat; try apply Rabs_pos; assumption.
    - rewrite sumn_add, sumn_scal, Sy, sumn_const. lra. }
  assert (S4 : (INR n + 1) * bpow radix2 (-52) * (Rabs nu0 + sumn n (fun t => Rabs (w t * eta t))) <= (INR n + 1) * (2 * u53) * (B + 2 * (Q + e))).
  { rewrite P52. apply Rmult_le_compat_l; [rewrite U; lra|lra]. }
  replace (x - (nu0 + sumn n (fun t => y t * h t))) with ((x - (nu0 + sumn n (fun t => w t * eta t))) + ((sumn n (fun t => w t * eta t) - sumn n (fun t => w t * h t)) + (sumn n (fun t => w t * h t) - sumn n (fun t => y t * h t)))) by ring.
  eapply Rle_trans; [apply Rabs_triang|]. eapply Rle_trans; [apply Rplus_le_compat_l, Rabs_triang|].
  set (nq := INR n * Q). assert (Nq : Q <= nq <= 2345 * Q) by (unfold nq; nra). assert (Nb : INR n * B <= nq * / 3) by (unfold nq; nra).
  assert (Ne : INR n * e <= 4 * u53 * nq + 2 * (2345 * tt)). { rewrite Ee, P51, Pt. unfold nq. replace (INR n * (4 * u53 * Q + 2 * tt)) with (4 * u53 * (INR n * Q) + 2 * (INR n * tt)) by ring. nra. }
  assert (S5 : (INR n + 1) * (2 * u53) * (B + 2 * (Q + e)) = 2 * u53 * ((INR n * B + 2 * nq + 2 * (INR n * e)) + (B + 2 * (Q + e)))) by (unfold nq; ring).
  assert (S6 : INR n * (Q * tt) <= nq * (u53 * / 100000)) by (unfold nq; rewrite <- Rmult_assoc; apply Rmult_le_compat_l; [nra|exact T2]).
  assert (S7 : Q * ((INR n + 1) * (2 * u53)) = 2 * u53 * (nq + Q)) by (unfold nq; ring).
  assert (S8 : (INR n + 1) * bpow radix2 (-1074) <= 4700 * tt) by (rewrite Pt; nra).
  replace (u53 * (7 * INR n + 15) * (Q + 1)) with (u53 * (7 * nq + 15 * Q + 7 * INR n + 15)) by (unfold nq; ring).
  assert (e1 : e = 4 * u53 * Q + 2 * tt) by (rewrite Ee, P51, Pt; reflexivity). rewrite S7 in S3. rewrite S5 in S4.
  assert (Ut : 4700 * tt <= / 10 * u53) by lra.
  assert (S9 : 2 * u53 * (INR n * B + 2 * nq + 2 * (INR n * e) + (B + 2 * (Q + e))) <= 2 * u53 * (nq * / 3 + 2 * nq + / 100 * nq + / 100 + (Q * / 3 + 2 * Q + / 100 * Q + / 100))).
  { apply Rmult_le_compat_l; [rewrite U; lra|]. clear S1 S2 S3 S4 S5 S6 S7 S8 E. rewrite U in *. set (ne := INR n * e) in *. set (nb := INR n * B) in *. clearbody nq tt ne nb. lra. }
  assert (Uq : 0 <= u53 * nq) by (rewrite U; nra). assert (Uq2 : 0 <= u53 * Q) by (rewrite U; nra). assert (Un : 0 <= u53 * INR n) by (rewrite U; nra).
  clearbody nq tt x. lra.
Qed.
(** The computed angle. *)
Lemma angle_close2 x L E Q : Rabs (x - L) <= E -> Rabs L <= Q -> 100 * E <= Q + 1 ->
  Rabs (dbl (two_pi_d * x) - 2 * PI * L) <= 8 * E + 32 * u53 * (Q + 1).
Proof.
  intros H1 H2 H4. pose proof np_pi_error as EP. pose proof two_pi_exact as TE. pose proof two_pi_bounds as [TB _]. pose proof PI_RGT_0 as P0. pose proof PI_4 as P4.
  assert (H3 : 0 <= E) by (eapply Rle_trans; [apply Rabs_pos|exact H1]). assert (Q0 : 0 <= Q) by (eapply Rle_trans; [apply Rabs_pos|exact H2]).
  pose proof (dbl_error (two_pi_d * x)) as Ex. assert (P50 : bpow radix2 (-50) = 8 * u53) by (rewrite u53_val; pow2; lra). change (bpow radix2 (-53)) with u53 in Ex.
  assert (T2 : bpow radix2 (-1075) <= u53 * / 100000). { apply Rle_trans with (bpow radix2 (-53 + -20)); [apply bpow_le; lia|]. rewrite bpow_plus. apply Rmult_le_compat_l; [apply bpow_ge_0|pow2; lra]. }
  assert (X : Rabs x <= 101 / 100 * Q + 1 / 100) by (replace x with ((x - L) + L) by ring; eapply Rle_trans; [apply Rabs_triang|lra]).
  assert (U : 0 < u53 <= / 1000) by (rewrite u53_val; lra).
  replace (dbl (two_pi_d * x) - 2 * PI * L) with ((dbl (two_pi_d * x) - two_pi_d * x) + (2 * ((np_pi - PI) * x) + 2 * PI * (x - L))) by (rewrite TE; ring).
  assert (A1 : Rabs (two_pi_d * x) <= 8 * (101 / 100 * Q + 1 / 100)) by (rewrite Rabs_mult, (Rabs_right two_pi_d) by lra; pose proof (Rabs_pos x); nra).
  assert (A2 : Rabs ((np_pi - PI) * x) <= 8 * u53 * (101 / 100 * Q + 1 / 100)) by (rewrite Rabs_mult; apply Rmult_le_compat; try apply Rabs_pos; [rewrite <- P50; exact EP|exact X]).
  assert (A3 : Rabs (2 * PI * (x - L)) <= 8 * E) by (rewrite Rabs_mult, (Rabs_right (2 * PI)) by lra; apply Rmult_le_compat; try apply Rabs_pos; lra).
  assert (A4 : u53 * Rabs (two_pi_d * x) <= u53 * (8 * (101 / 100 * Q + 1 / 100))) by (apply Rmult_le_compat_l; lra).
  assert (A5 : Rabs (2 * ((np_pi - PI) * x)) <= 2 * (8 * u53 * (101 / 100 * Q + 1 / 100))) by (rewrite Rabs_mult, (Rabs_right 2) by lra; lra).
  eapply Rle_trans; [apply Rabs_triang|]. eapply Rle_trans; [apply Rplus_le_compat_l, Rabs_triang|]. assert (0 <= u53 * Q) by nra. lra.
Qed.
Lemma cos_lipschitz a b : Rabs (cos a - cos b) <= Rabs (a - b).
Proof.
  assert (G : forall a b, a < b -> Rabs (cos b - cos a) <= Rabs (b - a)).
  { clear. intros a b H. destruct (MVT_cor2 cos (fun x => - sin x) a b H) as (c & E & _); [intros; apply derivable_pt_lim_cos|]. rewrite E, Rabs_mult, Rabs_Ropp.
    assert (Rabs (sin c) <= 1) by (apply Rabs_le; pose proof (SIN_bound c); lra). pose proof (Rabs_pos (b - a)). nra. }
  destruct (Rtotal_order a b) as [H|[->|H]]; [|rewrite !Rminus_diag_eq by reflexivity; lra|apply G; exact H].
  rewrite <- Rabs_Ropp, <- (Rabs_Ropp (a - b)). replace (- (cos a - cos b)) with (cos b - cos a) by ring. replace (- (a - b)) with (b - a) by ring. apply G, H.
Qed.
Lemma sin_lipschitz a b : Rabs (sin a - sin b) <= Rabs (a - b).
Proof. rewrite <- (cos_shift a), <- (cos_shift b). eapply Rle_trans; [apply cos_lipschitz|]. replace (PI / 2 - a - (PI / 2 - b)) with (- (a - b)) by ring. rewrite Rabs_Ropp. lra. Qed.

(** ** The exact weights *)
Section Weights.
Variables (e : em) (r : R) (f : R -> R -> R) (n N : nat).
Hypothesis HM : matrix n N (em_dist_land_data e).
Hypothesis Hn : (1 <= n)%nat.
Hypothesis Hf : forall i b d, entry (em_dist_land_data e) i b d -> d < r -> double (f d r) /\ 0 < f d r.
Notation ld := (em_dist_land_data e).

Lemma exact_weights b : (exists i, in_ball ld r i b) ->
  exists y : nat -> R, sumn n y = 1 /\ forall t, (t < n)%nat -> unity_weight ld r f t b = Some (y t) /\ 0 <= y t <= 1 /\ (0 < y t <-> in_ball ld r t b).
Proof.
  intros Hc. exists (fun t => weight0 e r f t b). assert (G : forall t, (t < n)%nat -> unity_weight ld r f t b = Some (weight0 e r f t b)).
  { intros t Ht. destruct (unity_range e r f n N HM Hf t b Ht) as [U _]. destruct (U Hc) as (y & E & _). unfold weight0. rewrite E. reflexivity. }
  split.
  - unfold weight0. pose proof HM as [LM _]. destruct Hc as [i Hi]. pose proof (in_ball_lt e n N r i b HM Hi) as Li. specialize (G i Li). unfold weight0, unity_weight in *. rewrite LM in *.
    set (s := sumn n (fun j => bump_at ld r f j b)) in *. destruct (Req_EM_T s 0) as [Z|Z]; [discriminate|].
    rewrite (sumn_ext n _ (fun t => / s * bump_at ld r f t b)); [|intros t _; unfold Rdiv; ring]. rewrite sumn_scal. fold s. field. exact Z.
  - intros t Ht. destruct (unity_range e r f n N HM Hf t b Ht) as [U _]. destruct (U Hc) as (y & E & By & Q). rewrite (G t Ht) in E. injection E as E. rewrite E. split; [rewrite G by exact Ht; rewrite E; reflexivity|]. split; assumption.
Qed.
Lemma exact_nan b t : (t < n)%nat -> (forall i, ~ in_ball ld r i b) -> unity_weight ld r f t b = None.
Proof. intros Ht. apply (unity_range e r f n N HM Hf t b Ht). Qed.

Lemma phase_change_d a nu ball ball' :
  (forall i j, nu j i = - nu i j) -> (forall i j k, a j i k = - a i j k)%Z -> (forall i j k, a i k j = - a i j k)%Z ->
  (forall b i j k l, in_ball ld r i b -> in_ball ld r j b -> in_ball ld r k b -> in_ball ld r l b -> (a j k l - a i k l + a i j l - a i j k = 0)%Z) ->
  covering_choice e r n N ball -> covering_choice e r n N ball' ->
  phase_class_map e r f n N a nu ball' =
  scale_rows (map (fun b => cis (2 * PI * mean_phase e r f n a nu (ball' b) b (ball b))) (seq 0 N)) (phase_class_map e r f n N a nu ball).
Proof.
  intros Hnu A1 A2 T Cb Cb'. unfold phase_class_map. rewrite scale_mk2. apply mk2_ext. intros b i Hb Hi.
  destruct (in_ball_dec e n N r b HM) as [[i0 Hi0]|H].
  - destruct (exact_weights b (ex_intro _ i0 Hi0)) as (w & Sw & Hw). destruct (Hw i Hi) as (E & P & Q). rewrite E. cbn [option_map]. f_equal.
    destruct (Cb b Hb) as [_ K]. destruct (Cb' b Hb) as [_ K']. specialize (K (ex_intro _ i0 Hi0)). specialize (K' (ex_intro _ i0 Hi0)).
    destruct (Req_dec (w i) 0) as [Z|Z]; [rewrite Z, sqrt_0; csolve|].
    assert (B : in_ball ld r i b) by (apply Q; lra).
    assert (Eph : mean_phase e r f n a nu (ball' b) b i = mean_phase e r f n a nu (ball' b) b (ball b) + mean_phase e r f n a nu (ball b) b i + IZR (a (ball b) i (ball' b))).
    { unfold mean_phase. rewrite <- (Rmult_1_r (IZR (a (ball b) i (ball' b)))), <- Sw, <- sumn_scal, <- !sumn_add. apply sumn_ext. intros t Ht.
      unfold weight0. destruct (Hw t Ht) as (Et & Pt & Qt). rewrite Et.
      destruct (Req_dec (w t) 0) as [Z0|Z0]; [rewrite Z0; ring|]. assert (Bt : in_ball ld r t b) by (apply Qt; lra).
      pose proof (T b i (ball b) (ball' b) t B K K' Bt) as Tz. pose proof (A1 i (ball b) (ball' b)) as Q1. 
      assert (Tr : IZR (a (ball b) (ball' b) t) - IZR (a i (ball' b) t) + IZR (a i (ball b) t) - IZR (a i (ball b) (ball' b)) = 0) by (rewrite <- minus_IZR, <- plus_IZR, <- minus_IZR; f_equal; exact Tz).
      rewrite Q1, opp_IZR. replace (IZR (a i (ball' b) t)) with (IZR (a (ball b) (ball' b) t) + IZR (a i (ball b) t) - IZR (a i (ball b) (ball' b))) by lra. ring. }
    rewrite Eph. replace (2 * PI * (mean_phase e r f n a nu (ball' b) b (ball b) + mean_phase e r f n a nu (ball b) b i + IZR (a (ball b) i (ball' b))))
      with (2 * PI * mean_phase e r f n a nu (ball' b) b (ball b) + (2 * PI * mean_phase e r f n a nu (ball b) b i + 2 * PI * IZR (a (ball b) i (ball' b)))) by ring.
    rewrite !cis_add, cis_2PI. csolve.
  - rewrite (exact_nan b i Hi H). reflexivity.
Qed.
End Weights.

(** ** Entries *)
Section Entries.
Variables (sums : list R -> R) (cexp : R -> C) (e : em) (r t : R) (f : R -> R -> R) (n N : nat).
Hypothesis HM : matrix n N (em_dist_land_data e).
Hypothesis Hn : (1 <= n)%nat.
Hypothesis Hn2 : (Z.of_nat n <= 2345)%Z.
Hypothesis Hs : forall l, added_up l (sums l).
Hypothesis Hf : forall i b d, entry (em_dist_land_data e) i b d -> d < r -> double (f d r) /\ 0 < f d r.
Hypothesis Hov : em_overlaps_joined e r t.
Notation ld := (em_dist_land_data e).
Notation ll := (em_dist_land_land e).
Notation W := (fst (get_covering_partition_d sums ld r f)).
Notation balls := (snd (get_covering_partition_d sums ld r f)).
Variables (nu : nat -> nat -> R) (eta : nat -> nat -> nat -> R) (g : list R) (a : nat -> nat -> nat -> Z).
Hypothesis Dg : Forall double g.
Hypothesis Hnu : forall i j, (i < n)%nat -> (j < n)%nat -> near ll t i j -> nu i j = alt2 g i j.

Lemma small_n : (Z.of_nat n <= 2 ^ 50)%Z. Proof. lia. Qed.
Lemma double_nth (l : list R) q : Forall double l -> double (nth q l 0).
Proof. intros F. destruct (nth_in_or_default q l 0) as [I| ->]; [rewrite Forall_forall in F; apply F, I|exact double_0]. Qed.
Lemma double_alt2 i j : double (alt2 g i j).
Proof.
  unfold alt2. set (v := nth _ g 0). assert (D : double v) by (apply double_nth, Dg). unfold sg. destruct (Nat.compare i j).
  - replace (IZR 0 * v) with 0 by ring. exact double_0.
  - replace (IZR 1 * v) with v by ring. exact D.
  - replace (IZR (-1) * v) with (- v) by ring. apply double_opp, D.
Qed.

(** The computed entry: a double angle [y]; near the exact one where it matters. *)
Lemma entry_facts ball b i : covering_choice e r n N ball -> (b < N)%nat -> (i < n)%nat -> (exists i, in_ball ld r i b) ->
  exists s y, at2 None W i b = Some s /\ double y /\
    exp_times_d cexp (phase_d nu eta W n (ball b) b i) (at2 None W i b) = Some (dbl (fst (cexp y) * dbl (sqrt s)), dbl (snd (cexp y) * dbl (sqrt s))) /\
    (in_ball ld r i b -> forall K B, (forall i j k, (i < n)%nat -> (j < n)%nat -> (k < n)%nat -> Rabs (IZR (a i j k)) <= K) -> (forall i j, (i < n)%nat -> (j < n)%nat -> Rabs (alt2 g i j) <= B) ->
      (forall i j k, (i < n)%nat -> (j < n)%nat -> (k < n)%nat -> near ll t i j -> near ll t j k -> near ll t i k ->
        Rabs (eta i j k - (IZR (a i j k) - (alt2 g i j + alt2 g j k - alt2 g i k))) <= bpow radix2 (-51) * (K + 3 * B) + bpow radix2 (-1074)) ->
      Rabs (y - 2 * PI * mean_phase e r f n a (alt2 g) (ball b) b i) <= phase_error n K B).
Proof.
  intros CC Hb Hi Hc. destruct (partition_facts_d sums e r f n N HM Hn small_n Hs Hf) as (_ & _ & _ & P). destruct (P b Hb) as [P1 _].
  destruct (P1 Hc) as (w & Sw & Hw). destruct (Hw i Hi) as (Ew & Dw & Bw & _). set (j := ball b).
  set (x := fold_left (fun x y => dbl (x + y)) (map (fun t0 => dbl (w t0 * eta i j t0)) (seq 0 n)) (dbl (0 + nu i j))).
  assert (Ep : phase_d nu eta W n j b i = Some x).
  { unfold phase_d, range. rewrite Nat.sub_0_r. cbn [add_nan_d]. apply phase_fold. intros t0 Ht0. apply in_seq in Ht0. destruct (Hw t0 ltac:(lia)) as (-> & _). reflexivity. }
  exists (w i), (dbl (two_pi_d * x)). split; [exact Ew|]. split; [apply dbl_dbl|]. split.
  { rewrite Ep, Ew. unfold exp_times_d, sqrt_d. destruct (Rltb (w i) 0) eqn:Q0; [apply Rltb_true in Q0; lra|]. reflexivity. }
  intros Bi K B HK HB He. destruct (exact_weights e r f n N HM Hf b Hc) as (y & Sy & Hy). destruct (CC b Hb) as [Lj Bj]. fold j in Lj, Bj. specialize (Bj Hc).
  assert (Near : forall a c, in_ball ld r a b -> in_ball ld r c b -> near ll t a c) by (intros a0 c0 Ha Hc0; exact (Hov a0 c0 b Ha Hc0)).
  set (L := mean_phase e r f n a (alt2 g) j b i).
  set (h := fun t0 => if Rlt_dec 0 (y t0) then IZR (a i j t0) - (alt2 g i j + alt2 g j t0 - alt2 g i t0) else 0).
  assert (N1 : 1 <= INR n <= 2345) by (split; [apply (le_INR 1); exact Hn|rewrite INR_IZR_INZ; apply IZR_le in Hn2; exact Hn2]).
  assert (K0 : 0 <= K) by (eapply Rle_trans; [apply Rabs_pos|exact (HK i i i Hi Hi Hi)]). assert (B0 : 0 <= B) by (eapply Rle_trans; [apply Rabs_pos|exact (HB i i Hi Hi)]).
  assert (HL : L = alt2 g i j + sumn n (fun t0 => y t0 * h t0)).
  { unfold L, mean_phase. rewrite <- (Rmult_1_r (alt2 g i j)), <- Sy, <- sumn_scal, <- sumn_add. apply sumn_ext. intros t0 Ht0. unfold weight0. destruct (Hy t0 Ht0) as (-> & B1 & _).
    unfold h. destruct (Rlt_dec 0 (y t0)); [ring|]. assert (y t0 = 0) as -> by lra. ring. }
  assert (HLQ : Rabs L <= K + 3 * B).
  { unfold L, mean_phase. eapply Rle_trans; [apply sumn_abs|]. rewrite <- (Rmult_1_r (K + 3 * B)), <- Sy, <- sumn_scal. apply sumn_le. intros t0 Ht0. unfold weight0. destruct (Hy t0 Ht0) as (-> & B1 & _).
    rewrite Rabs_mult, (Rabs_right (y t0)), Rmult_comm by lra. apply Rmult_le_compat_r; [lra|]. pose proof (HK i j t0 Hi Lj Ht0). pose proof (HB i t0 Hi Ht0). pose proof (HB j t0 Lj Ht0).
    replace (IZR (a i j t0) + alt2 g i t0 - alt2 g j t0) with (IZR (a i j t0) + (alt2 g i t0 + - alt2 g j t0)) by ring. eapply Rle_trans; [apply Rabs_triang|]. pose proof (Rabs_triang (alt2 g i t0) (- alt2 g j t0)) as T3. rewrite Rabs_Ropp in T3. lra. }
  assert (Ex : Rabs (x - L) <= u53 * (7 * INR n + 15) * ((K + 3 * B) + 1)).
  { rewrite HL. unfold x. rewrite Rplus_0_l. rewrite (Hnu i j Hi Lj (Near _ _ Bi Bj)). rewrite (double_alt2 i j : dbl (alt2 g i j) = alt2 g i j).
    apply (phase_close n (alt2 g i j) w (eta i j) h y B (K + 3 * B) _ Hn Hn2 (double_alt2 i j) (HB i j Hi Lj) ltac:(lra) eq_refl).
    - intros t0 Ht0. destruct (Hw t0 Ht0) as (_ & _ & B1 & O1 & _). destruct (Hy t0 Ht0) as (_ & By & Q). split; [apply B1|]. unfold h. destruct (Rlt_dec 0 (y t0)) as [Y|Y].
      + split; [|right; apply He; auto; apply Near; try assumption; apply Q, Y]. pose proof (HK i j t0 Hi Lj Ht0). pose proof (HB i t0 Hi Ht0). pose proof (HB j t0 Lj Ht0). pose proof (HB i j Hi Lj).
        replace (IZR (a i j t0) - (alt2 g i j + alt2 g j t0 - alt2 g i t0)) with (IZR (a i j t0) + (- alt2 g i j + (alt2 g i t0 + - alt2 g j t0))) by ring. eapply Rle_trans; [apply Rabs_triang|].
        pose proof (Rabs_triang (alt2 g i t0) (- alt2 g j t0)) as T3. pose proof (Rabs_triang (- alt2 g i j) (alt2 g i t0 + - alt2 g j t0)) as T4. rewrite Rabs_Ropp in T3, T4. lra.
      + split; [rewrite Rabs_R0; lra|left; apply O1; intros I; apply Y, Q, I].
    - apply Rabs_le_inv in Sw. assert ((INR n + 1) * bpow radix2 (-52) <= 1) by (pow2; lra). lra.
    - exact Sy.
    - intros t0 Ht0. destruct (Hw t0 Ht0) as (_ & _ & _ & _ & y' & Ey' & D). destruct (Hy t0 Ht0) as (Ey & By & _). rewrite Ey in Ey'. injection Ey' as <-. split; [apply By|exact D]. }
  pose proof (angle_close2 x L _ (K + 3 * B) Ex HLQ) as A. fold L. eapply Rle_trans; [apply A|].
  - assert (100 * (u53 * (7 * INR n + 15)) <= 1) by (rewrite u53_val; lra). assert (0 <= K + 3 * B + 1) by lra. nra.
  - unfold phase_error. replace (bpow radix2 (-47)) with (64 * u53) by (rewrite u53_val; pow2; lra).
    assert (0 <= u53 * (K + 3 * B + 1)) by (rewrite u53_val; lra). assert (0 <= INR n * (u53 * (K + 3 * B + 1))) by (apply Rmult_le_pos; lra). lra.
Qed.
End Entries.
