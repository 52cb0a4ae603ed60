(** RoundTorusProofs.v -- ToroidalCoords.get_coordinates in double precision: lemmas. *)
From Coq Require Import Reals Lra Lia ZArith List Permutation Psatz.
From Flocq Require Import Core.
From Verif Require Import Base BaseProofs CombinatorialModel SpecSimplex CombinatorialProofs
  DeltaModel SpecRips RipsProofs DeltaProofs DeltaFacts RealBase RealSum SpecRepair RepairModel RepairProofs
  EMModel SpecEM EMProofs CircleModel SpecCircle CircleProofs LLLModel SpecLLL LLLProofs
  CohomologyModel SpecCohomology CohomologyProofs
  ToroidalModel SpecToroidal ToroidalProofs ToroidalFacts SpecRound RoundBase RoundModel RoundProofs RoundCover RoundLLL RoundTorusModel PropRound.
Import ListNotations.
Local Open Scope R_scope.

(** ** Sums of numbers of any sign *)
Lemma total_abs l : Rabs (total l) <= total (map Rabs l).
Proof. unfold total. induction l as [|x l IH]; cbn [map fold_right]; [rewrite Rabs_R0; lra|]. eapply Rle_trans; [apply Rabs_triang|]. lra. Qed.
Lemma total_abs_nonneg l : 0 <= total (map Rabs l).
Proof. eapply Rle_trans; [apply Rabs_pos|apply total_abs]. Qed.
Lemma pow_mono_1 x m n : 1 <= x -> (m <= n)%nat -> x ^ m <= x ^ n.
Proof. intros H1 H2. apply Rle_pow; assumption. Qed.
Lemma added_error_sharp l s : added_up l s -> Forall double l ->
  Rabs (s - total l) <= ((1 + u53) ^ (length l - 1) - 1) * total (map Rabs l).
Proof.
  assert (U : 0 < u53 < 1) by (rewrite u53_val; lra).
  induction 1 as [|x|l1 l2 a b H1 IH1 H2 IH2|l l' a P _ IH]; intros F.
  - cbn. rewrite Rminus_0_r, Rabs_R0. lra.
  - unfold total; cbn [fold_right map length pow Nat.sub]. replace (x - (x + 0)) with 0 by ring. rewrite Rabs_R0. pose proof (Rabs_pos x). nra.
  - apply Forall_app in F as [F1 F2]. specialize (IH1 F1). specialize (IH2 F2). rewrite map_app, !total_app, app_length.
    pose proof (added_double l1 a H1 F1) as Da. pose proof (added_double l2 b H2 F2) as Db.
    destruct l1 as [|x1 l1].
    { rewrite (added_nil a H1). replace (dbl (0 + b)) with b by (rewrite Rplus_0_l; symmetry; exact Db). cbn [length plus map]. change (total []) with 0. rewrite !Rplus_0_l. exact IH2. }
    destruct l2 as [|x2 l2].
    { rewrite (added_nil b H2). replace (dbl (a + 0)) with a by (rewrite Rplus_0_r; symmetry; exact Da). cbn [length map]. rewrite Nat.add_0_r. change (total []) with 0. rewrite !Rplus_0_r. exact IH1. }
    set (L1 := x1 :: l1) in *. set (L2 := x2 :: l2) in *.
    assert (N1 : (1 <= length L1)%nat) by (cbn; lia). assert (N2 : (1 <= length L2)%nat) by (cbn; lia).
    pose proof (total_abs_nonneg L1) as A1. pose proof (total_abs_nonneg L2) as A2. pose proof (total_abs L1) as T1. pose proof (total_abs L2) as T2.
    set (m := (length L1 + length L2 - 2)%nat).
    pose proof (pow_mono_1 (1 + u53) (length L1 - 1) m ltac:(lra) ltac:(lia)) as P1. pose proof (pow_mono_1 (1 + u53) (length L2 - 1) m ltac:(lra) ltac:(lia)) as P2.
    replace (length L1 + length L2 - 1)%nat with (S m) by lia. cbn [pow].
    destruct (dbl_plus a b Da Db) as (eps & He & ->).
    set (Q1 := (1 + u53) ^ (length L1 - 1)) in *. set (Q2 := (1 + u53) ^ (length L2 - 1)) in *. set (Q := (1 + u53) ^ m) in *.
    set (t1 := total L1) in *. set (t2 := total L2) in *. set (b1 := total (map Rabs L1)) in *. set (b2 := total (map Rabs L2)) in *.
    assert (E1 : Rabs (a - t1) <= (Q - 1) * b1) by (eapply Rle_trans; [exact IH1|]; apply Rmult_le_compat_r; lra).
    assert (E2 : Rabs (b - t2) <= (Q - 1) * b2) by (eapply Rle_trans; [exact IH2|]; apply Rmult_le_compat_r; lra).
    assert (E3 : Rabs (a + b - (t1 + t2)) <= (Q - 1) * (b1 + b2)).
    { replace (a + b - (t1 + t2)) with ((a - t1) + (b - t2)) by ring. eapply Rle_trans; [apply Rabs_triang|]. lra. }
    assert (E4 : Rabs (a + b) <= Q * (b1 + b2)).
    { replace (a + b) with ((a + b - (t1 + t2)) + (t1 + t2)) by ring. eapply Rle_trans; [apply Rabs_triang|].
      assert (Rabs (t1 + t2) <= b1 + b2) by (eapply Rle_trans; [apply Rabs_triang|]; lra). lra. }
    replace ((a + b) * (1 + eps) - (t1 + t2)) with ((a + b - (t1 + t2)) + eps * (a + b)) by ring.
    eapply Rle_trans; [apply Rabs_triang|]. rewrite Rabs_mult.
    assert (Rabs eps * Rabs (a + b) <= u53 * (Q * (b1 + b2))) by (apply Rmult_le_compat; try apply Rabs_pos; assumption). nra.
  - rewrite <- (total_perm l l' P), <- (total_perm _ _ (Permutation_map Rabs P)), <- (Permutation_length P). apply IH, (Forall_perm _ _ _ P F).
Qed.
Lemma added_error_mixed l s : added_up l s -> Forall double l ->
  Rabs (s - total l) <= ((1 + u53) ^ length l - 1) * total (map Rabs l).
Proof.
  intros H F. eapply Rle_trans; [apply added_error_sharp; assumption|]. apply Rmult_le_compat_r; [apply total_abs_nonneg|].
  assert (U : 0 < u53 < 1) by (rewrite u53_val; lra). pose proof (pow_mono_1 (1 + u53) (length l - 1) (length l) ltac:(lra) ltac:(lia)). lra.
Qed.
Lemma sum_two a b s : added_up [a; b] s -> double a -> double b -> Rabs (s - (a + b)) <= 3 * u53 * (Rabs a + Rabs b).
Proof.
  intros H Da Db. pose proof (added_error_mixed _ _ H ltac:(repeat constructor; assumption)) as E.
  unfold total in E; cbn [map fold_right length] in E. rewrite !Rplus_0_r in E. eapply Rle_trans; [exact E|].
  apply Rmult_le_compat_r; [pose proof (Rabs_pos a); pose proof (Rabs_pos b); lra|]. rewrite u53_val. lra.
Qed.

Lemma nth_map_lt {A B} (f : A -> B) l i a b : (i < length l)%nat -> nth i (map f l) b = f (nth i l a).
Proof. intros H. rewrite (nth_indep _ b (f a)) by (rewrite map_length; exact H). apply map_nth. Qed.

(** ** Inner products *)
Lemma sumn_abs n f : Rabs (sumn n f) <= sumn n (fun i => Rabs (f i)).
Proof. induction n as [|n IH]; cbn [sumn]; [rewrite Rabs_R0; lra|]. eapply Rle_trans; [apply Rabs_triang|]. lra. Qed.
Lemma products_mk1 n a w : products (mk1 n a) (mk1 n w) = map (fun i => a i * w i) (seq 0 n).
Proof.
  unfold products, mk1. induction (seq 0 n) as [|i l IH]; cbn [map combine fst snd]; [reflexivity|]. rewrite IH. reflexivity.
Qed.
Lemma dot_close dot_ n a w : dot_sound dot_ -> (Z.of_nat n <= 2 ^ 50)%Z ->
  (forall i, (i < n)%nat -> double (a i) /\ double (w i)) ->
  double (dot_ (mk1 n a) (mk1 n w)) /\
  Rabs (dot_ (mk1 n a) (mk1 n w) - sumn n (fun i => a i * w i)) <=
    INR n * bpow radix2 (-52) * sumn n (fun i => Rabs (a i * w i)) + INR n * bpow radix2 (-1074).
Proof.
  intros Hd Hn H. destruct (Hd (mk1 n a) (mk1 n w)) as [D E].
  - rewrite !length_mk1; reflexivity.
  - unfold mk1. apply Forall_map, Forall_forall. intros i Hi. apply in_seq in Hi. apply H. lia.
  - unfold mk1. apply Forall_map, Forall_forall. intros i Hi. apply in_seq in Hi. apply H. lia.
  - rewrite length_mk1; exact Hn.
  - split; [exact D|]. rewrite products_mk1, map_map, length_mk1 in E. unfold total in E. rewrite !fold_map_seq in E. exact E.
Qed.

(** ** The remainder of doubles is a double *)
Lemma IZR_pow2 e : (0 <= e)%Z -> IZR (2 ^ e) = bpow radix2 e.
Proof. intros H. change (2 ^ e)%Z with (radix2 ^ e)%Z. apply IZR_Zpower, H. Qed.
Lemma scaled m e e' : (e' <= e)%Z -> IZR m * bpow radix2 e = IZR (m * 2 ^ (e - e')) * bpow radix2 e'.
Proof. intros H. rewrite mult_IZR, IZR_pow2 by lia. rewrite Rmult_assoc, <- bpow_plus. do 2 f_equal. lia. Qed.
Lemma fmod_abs x y : 0 < y -> Rabs (fmod x y) <= Rabs x /\ Rabs (fmod x y) < y.
Proof.
  intros Hy. destruct (fmod_bounds x y Hy) as [B1 B2]. unfold fmod, trunc in *.
  assert (Q : x = y * (x / y)) by (field; lra). destruct (Rlt_dec x 0) as [Hx|Hx].
  - specialize (B2 Hx). assert (N : x / y < 0) by (assert (0 < (- x) / y) by (apply Rmult_lt_0_compat; [lra|apply Rinv_0_lt_compat, Hy]); unfold Rdiv in *; lra).
    rewrite (proj2 (Rltb_true _ _)) in * by exact N. rewrite opp_IZR in *. pose proof (Int_part_bounds (- (x / y))) as B.
    assert (K : 0 <= IZR (Int_part (- (x / y)))) by (apply (IZR_le 0); assert (-1 < Int_part (- (x / y)))%Z by (apply lt_IZR; lra); lia).
    set (k := IZR (Int_part (- (x / y)))) in *. split; [|apply Rabs_def1; lra]. rewrite !Rabs_left1 by nra. nra.
  - specialize (B1 ltac:(lra)). assert (N : 0 <= x / y) by (apply Rmult_le_pos; [lra|left; apply Rinv_0_lt_compat, Hy]).
    rewrite (proj2 (Rltb_false _ _)) in * by exact N. pose proof (Int_part_bounds (x / y)) as B.
    assert (K : 0 <= IZR (Int_part (x / y))) by (apply (IZR_le 0); assert (-1 < Int_part (x / y))%Z by (apply lt_IZR; lra); lia).
    set (k := IZR (Int_part (x / y))) in *. split; [|apply Rabs_def1; lra]. rewrite !Rabs_right by nra. nra.
Qed.
Lemma small_mantissa q e b : Rabs (IZR q * bpow radix2 e) <= Rabs (IZR b * bpow radix2 e) -> (Z.abs b < 2 ^ 53)%Z -> (Z.abs q <= 2 ^ 53)%Z.
Proof.
  intros H Hb. rewrite !Rabs_mult, (Rabs_right (bpow radix2 e)), <- !abs_IZR in H by (apply Rle_ge, bpow_ge_0).
  apply Rmult_le_reg_r in H; [|apply bpow_gt_0]. apply le_IZR in H. lia.
Qed.
Lemma fmod_double x y : 0 < y -> double x -> double y -> double (fmod x y).
Proof.
  intros Hy Dx Dy. destruct (double_repr x Dx) as (m & e & Hm & He & Ex). destruct (double_repr y Dy) as (m' & e' & Hm' & He' & Ey).
  destruct (fmod_abs x y Hy) as [A1 A2]. unfold fmod in *. set (k := trunc (x / y)) in *. clearbody k.
  destruct (Z.le_ge_cases e e') as [H|H].
  - assert (E : x - y * IZR k = IZR (m - m' * 2 ^ (e' - e) * k) * bpow radix2 e).
    { rewrite Ex, Ey, (scaled m' e' e H), minus_IZR, (mult_IZR (m' * 2 ^ (e' - e)) k). ring. }
    rewrite E in *. apply double_F; [|exact He]. rewrite Ex in A1. apply (small_mantissa _ e m A1 Hm).
  - assert (E : x - y * IZR k = IZR (m * 2 ^ (e - e') - m' * k) * bpow radix2 e').
    { rewrite Ex, Ey, (scaled m e e') by lia. rewrite minus_IZR, (mult_IZR m' k). ring. }
    rewrite E in *. apply double_F; [|exact He']. apply (small_mantissa _ e' m'); [|exact Hm'].
    rewrite <- Ey, (Rabs_right y) by lra. lra.
Qed.
Lemma np_mod_double x y : 0 < y -> double x -> double y -> double (np_mod_d x y).
Proof. intros Hy Dx Dy. unfold np_mod_d. destruct (Rltb _ _); [apply dbl_dbl|apply fmod_double; assumption]. Qed.

(** ** The harmonic representative *)
Section Harmonic.
Variables (sum_ : list R -> R) (dm : list (list R)) (t : R) (N : nat).
Hypothesis Hsum : forall l, added_up l (sum_ l).
Hypothesis Hsq : square dm.
Notation n := (length dm).
Hypothesis HN : (n <= N)%nat.
Notation T := (combinatorial_number_system_table N 2).
Notation closeb := (closeb Rltb dm t).

Lemma delta0_d M (g : list R) B : M = mkSparse (comb n 2) n (flat_map ent0 (rl Rltb dm t 1)) -> length g = n -> Forall double g ->
  (forall i, (i < n)%nat -> Rabs (nth i g 0) <= B) ->
  exists d, matvec_d sum_ M g = Ok d /\ length d = comb n 2 /\
    forall i j, (i < j < n)%nat ->
      (closeb i j = true -> Rabs (nth (rank [i; j]) d 0 - (nth i g 0 - nth j g 0)) <= 6 * u53 * B) /\
      (closeb i j = false -> nth (rank [i; j]) d 0 = 0).
Proof.
  intros -> Lg Dg HB. unfold matvec_d. cbn [s_cols s_rows s_entries]. rewrite Lg, Nat.eqb_refl. eexists. split; [reflexivity|]. split; [apply length_mk1|].
  intros i j Hij. assert (Hs : simplex n 1 [i; j]) by (apply simplex2; exact Hij). pose proof (rank_lt_d n 1 _ Hs) as Hr. rewrite nth_mk1 by exact Hr.
  assert (Dn : forall k, double (nth k g 0)).
  { intros k. destruct (nth_in_or_default k g 0) as [I| ->]; [rewrite Forall_forall in Dg; apply Dg, I|exact double_0]. }
  split; intros Cl.
  - apply closeb_close in Cl. rewrite (block_in Rltb dm t 1 ent0) by (apply ent0_key || (apply rips1; [exact Hij|exact Cl])).
    cbn [ent0 map fst snd]. replace (1 * nth i g 0) with (nth i g 0) by ring. replace (-1 * nth j g 0) with (- nth j g 0) by ring.
    rewrite (Dn i : dbl _ = _), (double_opp _ (Dn j) : dbl _ = _).
    pose proof (sum_two (nth i g 0) (- nth j g 0) _ (Hsum _) (Dn i) (double_opp _ (Dn j))) as E.
    rewrite Rabs_Ropp in E. pose proof (HB i ltac:(lia)). pose proof (HB j ltac:(lia)).
    replace (nth i g 0 - nth j g 0) with (nth i g 0 + - nth j g 0) by ring. eapply Rle_trans; [exact E|]. rewrite u53_val. lra.
  - rewrite (block_out Rltb dm t 1 ent0); [apply (added_nil _ (Hsum []))|apply ent0_key|exact Hs|].
    intros Hin. apply rips1 in Hin; [|exact Hij]. apply closeb_close in Hin. congruence.
Qed.

Definition constant_lsqr (g : list R) (A : sparse) (b : list R) : list R := if (length g =? s_cols A)%nat then g else repeat 0 (s_cols A).
Lemma constant_lsqr_length g A b : length (constant_lsqr g A b) = s_cols A.
Proof. unfold constant_lsqr. destruct (Nat.eqb_spec (length g) (s_cols A)); [assumption|apply repeat_length]. Qed.

(** The computed values differ little from those of the same integral in exact arithmetic. *)
Lemma integrate_d lsqr (c : list Z) junk M0 W hd g : (Z.of_nat n <= 65536)%Z ->
  (forall A b, length (lsqr A b) = s_cols A /\ Forall double (lsqr A b)) ->
  make_delta0 Rltb junk dm t T = Ok M0 -> make_inner_product Rltb junk dm t T = Ok W -> length c = comb n 2 ->
  integrate_harmonic_representative_d sum_ lsqr c M0 (snd W) = Ok (hd, g) ->
  length g = n /\ Forall double g /\ length hd = comb n 2 /\ Forall double hd /\
  exists h, integrate_harmonic_representative (constant_lsqr g) c M0 (snd W) = Ok (h, g) /\ length h = comb n 2 /\
  forall K B, 0 <= K -> (forall i j, (i < j < n)%nat -> Rabs (IZR (nth (rank [i; j]) c 0%Z)) <= K) -> (forall i, (i < n)%nat -> Rabs (nth i g 0) <= B) ->
    forall i j, (i < n)%nat -> (j < n)%nat ->
    Rabs (upper dm t h i j) <= K + 2 * B /\
    Rabs (upper dm t hd i j - upper dm t h i j) <= bpow radix2 (-50) * (K + 2 * B) + bpow radix2 (-1073).
Proof.
  intros Hn Hl E0 EW Lc EI.
  destruct (integrate_ok dm t N 2 Hsq HN ltac:(lia) (constant_lsqr g) c junk M0 W Hn (constant_lsqr_length g) E0 EW Lc) as (A & b & f & h & EH & EA & Eb & Ef & Lf & Lh & Hh).
  pose proof E0 as E0'. rewrite (delta0_ok Rltb junk dm t N 2 Hsq HN ltac:(lia) (edges_fit _ Hn)) in E0'; apply Ok_inj in E0'.
  unfold integrate_harmonic_representative_d in EI. rewrite EA in EI; cbn [bind] in EI.
  destruct (matvec_d sum_ (snd W) _) as [bd|]; cbn [bind] in EI; [|discriminate].
  set (g' := lsqr A bd) in *. assert (SA : s_cols A = n).
  { unfold spmm in EA. destruct (_ =? _)%nat; [|discriminate]. apply Ok_inj in EA. subst A M0. reflexivity. }
  assert (Lg : length g' = n) by (unfold g'; rewrite (proj1 (Hl A bd)); exact SA). assert (Dg : Forall double g') by apply (Hl A bd).
  set (B0 := total (map Rabs g')).
  assert (HB0 : forall i, (i < n)%nat -> Rabs (nth i g' 0) <= B0).
  { intros i Hi. assert (F : Forall (fun x => 0 <= x) (map Rabs g')) by (apply Forall_map, Forall_forall; intros; apply Rabs_pos).
    apply (np_sum_ge (map Rabs g') (Rabs (nth i g' 0)) F). apply in_map, nth_In. lia. }
  destruct (delta0_d M0 g' B0 (eq_sym E0') Lg Dg HB0) as (d & Ed & Ld & _). pose proof Ed as Ed0. rewrite Ed in EI; cbn [bind] in EI. injection EI as Ehd Eg.
  subst g. assert (f = g') as -> by (rewrite Ef; unfold constant_lsqr; rewrite Lg, SA, Nat.eqb_refl; reflexivity).
  set (cd := map (fun z => dbl (IZR z)) c) in *. assert (Lcd : length cd = comb n 2) by (unfold cd; rewrite map_length; exact Lc).
  split; [exact Lg|]. split; [exact Dg|].
  assert (Lhd : length hd = comb n 2) by (subst hd; unfold vsub_d; rewrite map_length, combine_length; lia).
  split; [exact Lhd|]. split; [subst hd; unfold vsub_d; apply Forall_map, Forall_forall; intros; apply dbl_dbl|].
  exists h. split; [exact EH|]. split; [exact Lh|].
  intros K B K0 HK HB. destruct (delta0_d M0 g' B (eq_sym E0') Lg Dg HB) as (d' & Ed' & _ & Hd). rewrite Ed in Ed'. apply Ok_inj in Ed'. subst d'.
  assert (P50 : bpow radix2 (-50) = 8 * u53) by (rewrite u53_val; pow2; lra).
  assert (P73 : bpow radix2 (-1073) = 4 * bpow radix2 (-1075)) by (change (-1073)%Z with (2 + -1075)%Z; rewrite bpow_plus; reflexivity).
  pose proof (bpow_gt_0 radix2 (-1075)) as Tp. 
  intros i j Hi Hj. unfold upper. assert (B0' : 0 <= B) by (eapply Rle_trans; [apply Rabs_pos|apply (HB i Hi)]).
  destruct (Nat.ltb_spec i j) as [Hij|Hij]; cbn [andb].
  2: { rewrite Rminus_0_r, Rabs_R0. split; [lra|]. rewrite P73. assert (0 <= bpow radix2 (-50)) by apply bpow_ge_0. nra. }
  destruct (closeb i j) eqn:Cl.
  2: { rewrite Rminus_0_r, Rabs_R0. split; [lra|]. rewrite P73. assert (0 <= bpow radix2 (-50)) by apply bpow_ge_0. nra. }
  destruct (Hd i j ltac:(lia)) as [Hd1 _]. specialize (Hd1 Cl). rewrite (Hh i j ltac:(lia)), Cl.
  assert (Hr : (rank [i; j] < comb n 2)%nat) by (apply (rank_lt_d n 1 [i; j]), simplex2; lia).
  assert (Ehd' : nth (rank [i; j]) hd 0 = dbl (dbl (IZR (nth (rank [i; j]) c 0%Z)) - nth (rank [i; j]) d 0)).
  { rewrite <- Ehd. unfold vsub_d. rewrite (nth_map_lt _ _ _ (0, 0)) by (rewrite combine_length; lia).
    rewrite combine_nth by lia. cbn [fst snd]. do 2 f_equal. unfold cd.
    rewrite (nth_map_lt _ _ _ 0%Z) by lia. reflexivity. }
  rewrite Ehd'. specialize (HK i j ltac:(lia)). pose proof (HB i Hi) as Bi. pose proof (HB j Hj) as Bj.
  set (z := IZR (nth (rank [i; j]) c 0%Z)) in *. set (gi := nth i g' 0) in *. set (gj := nth j g' 0) in *. set (dd := nth (rank [i; j]) d 0) in *.
  pose proof (dbl_error z) as Ez. pose proof (dbl_error (dbl z - dd)) as E2. set (zd := dbl z) in *. set (hv := dbl (zd - dd)) in *.
  rewrite P50, P73. rewrite u53_val in *. set (e := bpow radix2 (-1075)) in *.
  pose proof (tiny_le (-1075) ltac:(lia)) as [_ Tt]. fold e in Tt. change (2 ^ 60)%Z with 1152921504606846976%Z in Tt.
  assert (Gij : Rabs (gi - gj) <= 2 * B) by (replace (gi - gj) with (gi + - gj) by ring; eapply Rle_trans; [apply Rabs_triang|]; rewrite Rabs_Ropp; lra).
  split.
  { replace (z - (gi - gj)) with (z + - (gi - gj)) by ring. eapply Rle_trans; [apply Rabs_triang|]. rewrite Rabs_Ropp. lra. }
  assert (Q1 : Rabs (zd - z) <= / 9007199254740992 * K + e) by lra.
  assert (Q2 : Rabs ((zd - dd) - (z - (gi - gj))) <= / 9007199254740992 * K + e + 6 * / 9007199254740992 * B).
  { replace ((zd - dd) - (z - (gi - gj))) with ((zd - z) + - (dd - (gi - gj))) by ring. eapply Rle_trans; [apply Rabs_triang|]. rewrite Rabs_Ropp. lra. }
  assert (Q3 : Rabs (z - (gi - gj)) <= K + 2 * B).
  { replace (z - (gi - gj)) with (z + - (gi - gj)) by ring. eapply Rle_trans; [apply Rabs_triang|]. rewrite Rabs_Ropp. lra. }
  assert (Q4 : Rabs (zd - dd) <= 2 * K + 4 * B + 1).
  { replace (zd - dd) with (((zd - dd) - (z - (gi - gj))) + (z - (gi - gj))) by ring. eapply Rle_trans; [apply Rabs_triang|]. lra. }
  assert (Q5 : Rabs (zd - dd) <= (K + 2 * B) + (/ 9007199254740992 * K + e + 6 * / 9007199254740992 * B)).
  { replace (zd - dd) with (((zd - dd) - (z - (gi - gj))) + (z - (gi - gj))) by ring. eapply Rle_trans; [apply Rabs_triang|]. lra. }
  replace (hv - (z - (gi - gj))) with ((hv - (zd - dd)) + ((zd - dd) - (z - (gi - gj)))) by ring. eapply Rle_trans; [apply Rabs_triang|]. lra.
Qed.
End Harmonic.

(** ** The value at a data point *)
Lemma numbers_some l : numbers (map Some l) = Some l.
Proof. induction l as [|y l IH]; cbn; [reflexivity|]. rewrite IH. reflexivity. Qed.
Lemma numbers_none l : In None l -> numbers l = None.
Proof. induction l as [|[y|] l IH]; intros H; [destruct H| |reflexivity]. destruct H as [H|H]; [discriminate|]. cbn. rewrite (IH H). reflexivity. Qed.

Lemma sparse_integrate_d_ok dot_ dm t N h (f : list R) (varphi : list (list (option R))) (ball : list nat) m :
  square dm -> (length dm <= N)%nat ->
  length h = comb (length dm) 2 -> length f = length dm -> matrix (length dm) m varphi -> length ball = m ->
  Forall (fun k => (k < length dm)%nat) ball ->
  exists row, sparse_integrate_d dot_ h f varphi ball dm t (combinatorial_number_system_table N 2) = Ok row /\ length row = m /\
    forall b k, nth_error ball b = Some k ->
      (forall w, (forall s, (s < length dm)%nat -> entry varphi s b (Some (w s))) ->
         nth_error row b = Some (Some (angle_d (dbl (nth k f 0 + dot_ (mk1 (length dm) (upper dm t h k)) (mk1 (length dm) w)))))) /\
      ((exists s, entry varphi s b None) -> nth_error row b = Some None).
Proof.
  intros Hsq HN Lh Lf HM Lb Fb. set (n := length dm) in *.
  unfold sparse_integrate_d; rewrite Lf. unfold n at 1. rewrite (cocycle_to_matrix_ok dm t N 2 Hsq HN ltac:(lia)) by exact Lh; fold n; cbn [bind].
  rewrite (map_res_ok _ (fun k => nth k f 0)) by
    (intros k Hk; rewrite Forall_forall in Fb; apply get_ok; rewrite Lf; apply Fb, Hk).
  cbn [bind]; rewrite map_length, Lb, range_0.
  set (val := fun b => option_map (fun d => angle_d (dbl (nth (nth b ball 0%nat) f 0 + d)))
     (dot_nan_d dot_ (mk1 n (upper dm t h (nth b ball 0%nat))) (map (fun r => nth b r None) varphi))).
  rewrite (map_res_ok _ val).
  - eexists; split; [reflexivity|]. split; [rewrite map_length, seq_length; reflexivity|].
    intros b k Ek; pose proof (some_lt _ _ _ Ek) as Hb; rewrite Lb in Hb.
    pose proof (nth_error_nth _ _ 0%nat Ek) as Ek'.
    assert (Hcol : forall s, nth_error (map (fun r => nth b r None) varphi) s = option_map (fun r => nth b r None) (nth_error varphi s)) by (intros; apply nth_error_map).
    rewrite nth_error_map_seq by exact Hb; unfold val; rewrite Ek'; split.
    + intros w Hw.
      assert (E : map (fun r => nth b r None) varphi = map Some (mk1 n w)).
      { unfold mk1. rewrite map_map; apply nth_error_ext; intros s.
        rewrite Hcol. destruct (Nat.lt_ge_cases s n) as [Hs|Hs].
        - rewrite nth_error_map_seq by exact Hs. destruct (Hw s Hs) as (r & E1 & E2).
          rewrite E1; cbn [option_map]; rewrite (nth_error_nth _ _ None E2); reflexivity.
        - rewrite (proj2 (nth_error_None varphi s)) by (destruct HM; lia).
          symmetry; apply nth_error_None; rewrite map_length, seq_length; exact Hs. }
      rewrite E. unfold dot_nan_d. rewrite numbers_some. reflexivity.
    + intros (s & r & E1 & E2). unfold dot_nan_d. rewrite numbers_none; [reflexivity|].
      apply nth_error_In with s; rewrite Hcol, E1; cbn [option_map]; rewrite (nth_error_nth _ _ None E2); reflexivity.
  - intros b Hb; apply in_seq in Hb.
    rewrite (get_ok IndexError ball b 0%nat) by lia; cbn [bind].
    assert (Hk : (nth b ball 0 < n)%nat) by (rewrite Forall_forall in Fb; apply Fb, nth_In; lia).
    rewrite (get_ok IndexError _ b 0) by (rewrite map_length; lia); cbn [bind].
    rewrite (nth_indep _ 0 ((fun k => nth k f 0) 0%nat)) by (rewrite map_length; lia).
    rewrite (map_nth (fun k => nth k f 0)).
    rewrite (get_ok IndexError _ _ []) by (rewrite length_mk2; exact Hk); cbn [bind].
    rewrite nth_mk2_row by exact Hk. rewrite length_mk1, (proj1 HM), Nat.eqb_refl. reflexivity.
Qed.

(** The error of one angle. *)
Lemma angle_close y L E Y : Rabs (y - L) <= E -> Rabs y <= Y -> 0 <= E ->
  exists k : Z, Rabs (angle_d (dbl y) - 2 * PI * (L + IZR k)) <= 8 * E + bpow radix2 (-45) * (Y + 1).
Proof.
  intros H1 H2 H3. unfold angle_d. set (yd := dbl y). set (x := two_pi_d * yd).
  destruct (circle_of (dbl x) (2 * PI * L)) as (k & Hk). exists (- k)%Z.
  replace (2 * PI * (L + IZR (- k))) with (2 * PI * L - 2 * PI * IZR k) by (rewrite opp_IZR; ring). eapply Rle_trans; [exact Hk|].
  pose proof (dbl_error y) as Ey. fold yd in Ey. pose proof (dbl_error x) as Ex. pose proof np_pi_error as EP. pose proof two_pi_exact as TE.
  destruct two_pi_bounds as [TB _]. pose proof PI_4 as P4. pose proof PI_RGT_0 as P0.
  assert (P45 : bpow radix2 (-45) = 256 * u53) by (rewrite u53_val; pow2; lra). assert (P50 : bpow radix2 (-50) = 8 * u53) by (rewrite u53_val; pow2; lra).
  rewrite P45, P50 in *. rewrite u53_val in *. pose proof (tiny_le (-1075) ltac:(lia)) as [T0 Tt]. change (2 ^ 60)%Z with 1152921504606846976%Z in Tt.
  set (e := bpow radix2 (-1075)) in *.
  assert (Y0 : 0 <= Y) by (eapply Rle_trans; [apply Rabs_pos|exact H2]).
  assert (A1 : Rabs (yd - L) <= E + / 9007199254740992 * Y + e).
  { replace (yd - L) with ((yd - y) + (y - L)) by ring. eapply Rle_trans; [apply Rabs_triang|]. lra. }
  assert (A2 : Rabs yd <= 2 * Y + 1).
  { replace yd with ((yd - y) + y) by ring. eapply Rle_trans; [apply Rabs_triang|]. lra. }
  assert (A3 : Rabs x <= 8 * (2 * Y + 1)).
  { unfold x. rewrite Rabs_mult, (Rabs_right two_pi_d) by lra. apply Rmult_le_compat; try lra. apply Rabs_pos. }
  assert (A4 : Rabs (x - 2 * PI * L) <= 2 * (8 * / 9007199254740992) * (2 * Y + 1) + 8 * (E + / 9007199254740992 * Y + e)).
  { replace (x - 2 * PI * L) with (2 * (np_pi - PI) * yd + 2 * PI * (yd - L)) by (unfold x; rewrite TE; ring).
    eapply Rle_trans; [apply Rabs_triang|]. rewrite !Rabs_mult, (Rabs_right 2), (Rabs_right PI) by lra. apply Rplus_le_compat.
    - apply Rmult_le_compat; [pose proof (Rabs_pos (np_pi - PI)); lra|apply Rabs_pos|lra|exact A2].
    - apply Rmult_le_compat; [lra|apply Rabs_pos|lra|exact A1]. }
  assert (A5 : Rabs (dbl x - 2 * PI * L) <= 2 * (8 * / 9007199254740992) * (2 * Y + 1) + 8 * (E + / 9007199254740992 * Y + e) + / 9007199254740992 * (8 * (2 * Y + 1)) + e).
  { replace (dbl x - 2 * PI * L) with ((dbl x - x) + (x - 2 * PI * L)) by ring. eapply Rle_trans; [apply Rabs_triang|]. lra. }
  assert (A6 : Rabs (dbl x) <= 9 * (2 * Y + 1)).
  { replace (dbl x) with ((dbl x - x) + x) by ring. eapply Rle_trans; [apply Rabs_triang|]. lra. }
  lra.
Qed.

(** ** The row of one class *)
Section RowD.
Variables (sum_ : list R -> R) (dot_ : list R -> list R -> R) (x : tor) (n N : nat).
Hypothesis Hsum : forall l, added_up l (sum_ l).
Hypothesis Hdot : dot_sound dot_.
Hypothesis C : consistent x n N.
Variables (f : R -> R -> R) (r t : R).
Notation ld := (em_dist_land_data (t_em x)).
Notation ll := (em_dist_land_land (t_em x)).
Notation T := (t_table x).
Hypothesis Hf : forall i b d, entry ld i b d -> d < r -> 0 < f d r /\ double (f d r).
Notation varphi := (fst (get_covering_partition_d sum_ ld r f)).
Notation ball := (snd (get_covering_partition_d sum_ ld r f)).
Notation w := (weight_at x r f).

Lemma n_small : INR n <= 2345 /\ 1 <= INR n /\ (Z.of_nat n <= 2 ^ 50)%Z.
Proof.
  pose proof (co_pos _ _ _ C) as H. rewrite INR_IZR_INZ. split; [apply IZR_le; lia|]. split; [apply IZR_le; lia|]. cbn. lia.
Qed.

(** The bump function with other values at numbers that are no distances. *)
Definition is_distance (d : R) : bool := existsb (existsb (Reqb d)) ld.
Lemma is_distance_ok d : is_distance d = true <-> exists i b, entry ld i b d.
Proof.
  unfold is_distance. rewrite existsb_exists. split.
  - intros (row & H1 & H2). apply existsb_exists in H2 as (d' & H2 & H3). apply Reqb_true in H3. subst d'.
    apply In_nth_error in H1 as (i & H1). apply In_nth_error in H2 as (b & H2). exists i, b, row. auto.
  - intros (i & b & row & H1 & H2). exists row. split; [apply (nth_error_In _ _ H1)|]. apply existsb_exists. exists d.
    split; [apply (nth_error_In _ _ H2)|apply Reqb_true; reflexivity].
Qed.
Definition f_all (d r' : R) : R := if is_distance d then f d r' else 1.
Lemma f_all_bump : bump f_all r.
Proof. intros d Hd. unfold f_all. destruct (is_distance d) eqn:E; [|lra]. apply is_distance_ok in E as (i & b & E). apply (Hf i b d E), Hd. Qed.
Lemma f_all_bump_at i b : bump_at ld r f_all i b = bump_at ld r f i b.
Proof.
  unfold bump_at. destruct (nth_error ld i) as [row|] eqn:E1; [|reflexivity]. destruct (nth_error row b) as [d|] eqn:E2; [|reflexivity].
  destruct (Rlt_dec d r); [|reflexivity]. unfold f_all. rewrite (proj2 (is_distance_ok d)); [reflexivity|].
  exists i, b, row. auto.
Qed.
Lemma f_all_weight i b : weight_at x r f_all i b = w i b.
Proof.
  unfold weight_at, unity_weight. rewrite f_all_bump_at. rewrite (sumn_ext _ _ (fun j => bump_at ld r f j b)) by (intros; apply f_all_bump_at). reflexivity.
Qed.
Lemma f_all_lift g eta j b : lift x r f_all g eta j b = lift x r f g eta j b.
Proof. unfold lift. apply sumn_ext. intros s _. rewrite f_all_weight. reflexivity. Qed.

Lemma part_d : matrix n N varphi /\ length ball = N /\
  ball = snd (get_covering_partition (t_em x) r f_all) /\
  forall b, (b < N)%nat ->
   ((exists i, in_ball ld r i b) ->
      exists k wd, nth_error ball b = Some k /\ in_ball ld r k b /\ (forall i, (i < k)%nat -> ~ in_ball ld r i b) /\
        sumn n wd <= 2 /\ sumn n (fun s => w s b) = 1 /\
        forall s, (s < n)%nat -> entry varphi s b (Some (wd s)) /\ double (wd s) /\ 0 <= wd s /\ (~ in_ball ld r s b -> wd s = 0) /\
          0 <= w s b /\ (~ in_ball ld r s b -> w s b = 0) /\
          Rabs (wd s - w s b) <= (INR n + 1) * bpow radix2 (-52) * w s b + bpow radix2 (-1075)) /\
   ((forall i, ~ in_ball ld r i b) -> (forall i, (i < n)%nat -> entry varphi i b None) /\ nth_error ball b = Some 0%nat).
Proof.
  destruct n_small as (N1 & N2 & N3).
  assert (Hf' : forall i b d, entry ld i b d -> d < r -> double (f d r) /\ 0 <= f d r).
  { intros i b d He Hr. destruct (Hf i b d He Hr). split; [assumption|lra]. }
  pose proof (C88_weights sum_ ld r f n N (co_ld _ _ _ C) (proj1 (co_pos _ _ _ C)) N3 Hsum Hf') as P.
  destruct (part_ok x n N C f_all r f_all_bump) as (_ & _ & P3).
  assert (Eb : ball = snd (get_covering_partition (t_em x) r f_all)) by reflexivity.
  destruct (get_covering_partition_d sum_ ld r f) as [vp bl] eqn:Eg; cbn [fst snd] in *.
  destruct P as (Q1 & Q2 & Q3). split; [exact Q1|]. split; [exact Q2|]. split; [exact Eb|].
  intros b Hb. destruct (Q3 b Hb) as (A1 & A2 & A3 & A4). destruct (P3 b Hb) as [B1 _]. split.
  - intros Hc. destruct (A3 Hc) as (k & Ek & Bk & Mk). destruct Hc as (i0 & d0 & He0 & Hr0).
    destruct A1 as (ws & Lw & Tw & Hw).
    { exists i0. destruct He0 as (row & E1 & E2). unfold bump_at. rewrite E1, E2. destruct (Rlt_dec d0 r); [|contradiction].
      apply (Hf i0 b d0); [exists row; auto|assumption]. }
    destruct (B1 (ex_intro _ i0 (ex_intro _ d0 (conj He0 Hr0)))) as (_ & S1 & W1 & _).
    exists k, (fun s => nth s ws 0). split; [exact Ek|]. split; [exact Bk|]. split; [exact Mk|].
    split; [|split].
    + unfold total in Tw. rewrite fold_sumn, Lw in Tw. apply Rabs_le_inv in Tw.
      assert (P52 : bpow radix2 (-52) = / 4503599627370496) by reflexivity. rewrite P52 in Tw. lra.
    + rewrite <- S1. apply sumn_ext. intros s _. symmetry. apply f_all_weight.
    + intros s Hs. destruct (Hw s (nth s ws 0)) as (V1 & V2 & V3 & V4 & y & V5 & _ & V6); [apply nth_error_nth'; lia|].
      destruct (W1 s Hs) as [W2 W3]. rewrite f_all_weight in W2, W3.
      split; [exact V1|]. split; [exact V2|]. split; [lra|]. split; [exact V4|]. split; [exact W2|]. split.
      * intros Ns. destruct (Rle_lt_or_eq_dec _ _ W2) as [W4|W4]; [exfalso; apply Ns, W3, W4|symmetry; exact W4].
      * unfold weight_at. rewrite V5. exact V6.
  - intros Hn. split; [|apply A4, Hn]. apply A2. intros i Hi. unfold bump_at.
    destruct (nth_error ld i) as [row|] eqn:E1; [|reflexivity]. destruct (nth_error row b) as [d|] eqn:E2; [|reflexivity].
    destruct (Rlt_dec d r); [|reflexivity]. exfalso. apply (Hn i). exists d. split; [exists row; auto|assumption].
Qed.

(** The inner product of a row of values bounded by [Q], known up to [e], with the weights. *)
Lemma weighted_close (a h wd wx : nat -> R) Q e : 0 <= Q -> 0 <= e -> e <= Q + 1 ->
  (forall s, (s < n)%nat -> double (a s) /\ Rabs (h s) <= Q /\ Rabs (a s - h s) <= e) ->
  sumn n wd <= 2 -> sumn n wx = 1 ->
  (forall s, (s < n)%nat -> double (wd s) /\ 0 <= wd s /\ 0 <= wx s /\ Rabs (wd s - wx s) <= (INR n + 1) * bpow radix2 (-52) * wx s + bpow radix2 (-1075)) ->
  Rabs (dot_ (mk1 n a) (mk1 n wd) - sumn n (fun s => h s * wx s)) <=
    INR n * bpow radix2 (-52) * (2 * (Q + e)) + 2 * e + Q * ((INR n + 1) * bpow radix2 (-52)) + 3 * INR n * (Q + 1) * bpow radix2 (-1074).
Proof.
  intros HQ He HeQ Ha Hs1 Hs2 Hw. destruct n_small as (N1 & N2 & N3).
  destruct (dot_close dot_ n a wd Hdot N3) as [_ D]. { intros i Hi. split; [apply Ha, Hi|apply Hw, Hi]. }
  assert (P52 : 0 < bpow radix2 (-52)) by apply bpow_gt_0. assert (Pt : 0 < bpow radix2 (-1074)) by apply bpow_gt_0.
  assert (Pt5 : bpow radix2 (-1074) = 2 * bpow radix2 (-1075)) by (change (-1074)%Z with (1 + -1075)%Z; rewrite bpow_plus; reflexivity).
  assert (Aa : forall s, (s < n)%nat -> Rabs (a s) <= Q + e).
  { intros s Hs. destruct (Ha s Hs) as (_ & A1 & A2). replace (a s) with (h s + (a s - h s)) by ring. eapply Rle_trans; [apply Rabs_triang|]. lra. }
  assert (S1 : sumn n (fun i => Rabs (a i * wd i)) <= 2 * (Q + e)).
  { apply Rle_trans with (sumn n (fun i => (Q + e) * wd i)).
    - apply sumn_le. intros s Hs. destruct (Hw s Hs) as (_ & W1 & _). rewrite Rabs_mult, (Rabs_right (wd s)) by lra. apply Rmult_le_compat_r; [exact W1|apply Aa, Hs].
    - rewrite sumn_scal. nra. }
  assert (S2 : Rabs (sumn n (fun s => a s * wd s) - sumn n (fun s => h s * wd s)) <= 2 * e).
  { rewrite <- sumn_sub. eapply Rle_trans; [apply sumn_abs|]. apply Rle_trans with (sumn n (fun i => e * wd i)).
    - apply sumn_le. intros s Hs. destruct (Hw s Hs) as (_ & W1 & _). destruct (Ha s Hs) as (_ & _ & A2).
      replace (a s * wd s - h s * wd s) with ((a s - h s) * wd s) by ring. rewrite Rabs_mult, (Rabs_right (wd s)) by lra. apply Rmult_le_compat_r; assumption.
    - rewrite sumn_scal. nra. }
  assert (S3 : Rabs (sumn n (fun s => h s * wd s) - sumn n (fun s => h s * wx s)) <= Q * ((INR n + 1) * bpow radix2 (-52)) + INR n * Q * bpow radix2 (-1075)).
  { rewrite <- sumn_sub. eapply Rle_trans; [apply sumn_abs|]. apply Rle_trans with (sumn n (fun i => Q * ((INR n + 1) * bpow radix2 (-52)) * wx i + Q * bpow radix2 (-1075))).
    - apply sumn_le. intros s Hs. destruct (Hw s Hs) as (_ & _ & W1 & W2). destruct (Ha s Hs) as (_ & A1 & _).
      replace (h s * wd s - h s * wx s) with (h s * (wd s - wx s)) by ring. rewrite Rabs_mult.
      replace (Q * ((INR n + 1) * bpow radix2 (-52)) * wx s + Q * bpow radix2 (-1075)) with (Q * ((INR n + 1) * bpow radix2 (-52) * wx s + bpow radix2 (-1075))) by ring.
      apply Rmult_le_compat; try apply Rabs_pos; assumption.
    - rewrite sumn_add, sumn_scal, Hs2. assert (Ec : forall m c, sumn m (fun _ => c) = INR m * c) by (intros m c; induction m as [|m IH]; [cbn; ring|]; rewrite S_INR; cbn [sumn]; rewrite IH; ring).
      rewrite Ec. lra. }
  replace (dot_ (mk1 n a) (mk1 n wd) - sumn n (fun s => h s * wx s)) with
    ((dot_ (mk1 n a) (mk1 n wd) - sumn n (fun s => a s * wd s)) + ((sumn n (fun s => a s * wd s) - sumn n (fun s => h s * wd s)) + (sumn n (fun s => h s * wd s) - sumn n (fun s => h s * wx s)))) by ring.
  eapply Rle_trans; [apply Rabs_triang|]. eapply Rle_trans; [apply Rplus_le_compat_l, Rabs_triang|].
  assert (INR n * bpow radix2 (-52) * sumn n (fun i => Rabs (a i * wd i)) <= INR n * bpow radix2 (-52) * (2 * (Q + e))) by (apply Rmult_le_compat_l; [apply Rmult_le_pos; lra|exact S1]).
  assert (INR n * Q * bpow radix2 (-1075) <= INR n * Q * bpow radix2 (-1074)) by (apply Rmult_le_compat_l; [apply Rmult_le_pos; lra|lra]).
  assert (0 <= INR n * bpow radix2 (-1074)) by (apply Rmult_le_pos; lra). assert (0 <= INR n * bpow radix2 (-1074) * Q) by (apply Rmult_le_pos; lra). lra.
Qed.
End RowD.
