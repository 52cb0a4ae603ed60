(** RoundClassMap.v -- the class map of ProjectiveCoords in double precision: lemmas. *)
From Coq Require Import Reals List ZArith Lia Lra Permutation.
From Flocq Require Import Core.
From Verif Require Import Base BaseProofs RealBase RealSum EMModel SpecEM EMProofs CohomologyModel ToroidalModel ToroidalProofs DeltaFacts ComplexBase PPCAModel SpecPPCA ClassMapModel SpecClassMap ClassMapProofs
  CircleProofs SpecRound RoundBase RoundModel RoundTorusModel RoundProofs RoundTorusProofs PropRound RoundPPCAModel SpecRoundPPCA RoundPPCAProofs.
Import ListNotations.
Local Open Scope R_scope.

Section Partition.
Variables (sums : list R -> R) (e : em) (r : R) (f : R -> R -> R) (n N : nat).
Hypothesis HM : matrix n N (em_dist_land_data e).
Hypothesis Hn : (1 <= n)%nat.
Hypothesis Hn2 : (Z.of_nat n <= 2 ^ 50)%Z.
Hypothesis Hs : forall l, added_up l (sums l).
Hypothesis Hf : forall i b d, entry (em_dist_land_data e) i b d -> d < r -> double (f d r) /\ 0 < f d r.
Notation ld := (em_dist_land_data e).
Notation W := (fst (get_covering_partition_d sums ld r f)).
Notation balls := (snd (get_covering_partition_d sums ld r f)).

Lemma partition_facts_d : matrix n N W /\ length balls = N /\ covering_choice e r n N (fun b => nth b balls 0%nat) /\
  forall b, (b < N)%nat ->
    ((exists i, in_ball ld r i b) ->
       exists w : nat -> R, Rabs (sumn n w - 1) <= (INR n + 1) * bpow radix2 (-52) /\
         forall t, (t < n)%nat -> at2 None W t b = Some (w t) /\ double (w t) /\ 0 <= w t <= 1 /\ (~ in_ball ld r t b -> w t = 0) /\
           exists y, unity_weight ld r f t b = Some y /\ Rabs (w t - y) <= (INR n + 1) * bpow radix2 (-52) * y + bpow radix2 (-1075)) /\
    ((forall i, ~ in_ball ld r i b) -> forall t, (t < n)%nat -> at2 None W t b = None).
Proof.
  pose proof (C88_weights sums ld r f n N HM Hn Hn2 Hs (fun i b d H1 H2 => Logic.conj (proj1 (Hf i b d H1 H2)) (Rlt_le _ _ (proj2 (Hf i b d H1 H2))))) as P.
  destruct (get_covering_partition_d sums ld r f) as [V B]. cbn [fst snd]. destruct P as (MV & LB & P). split; [exact MV|]. split; [exact LB|]. split.
  - intros b Hb. destruct (P b Hb) as (_ & _ & P3 & P4). destruct (in_ball_dec e n N r b HM) as [[i Hi]|H].
    + destruct (P3 (ex_intro _ i Hi)) as (k & Ek & Hk & _). rewrite (nth_error_nth _ _ 0%nat Ek). split; [exact (in_ball_lt _ _ _ _ _ _ HM Hk)|intros _; exact Hk].
    + rewrite (nth_error_nth _ _ 0%nat (P4 H)). split; [lia|]. intros [i Hi]; exfalso; exact (H i Hi).
  - intros b Hb. destruct (P b Hb) as (P1 & P2 & _ & _). split.
    + intros (i & d & He & Hd). assert (Q : exists i, 0 < bump_at ld r f i b).
      { exists i. destruct He as (row & E1 & E2). unfold bump_at. rewrite E1, E2. destruct (Rlt_dec d r); [|contradiction]. apply (Hf i b d); [exists row; split; assumption|exact Hd]. }
      destruct (P1 Q) as (w & Lw & Tw & Hw). exists (fun t => nth t w 0). split; [rewrite <- Lw, <- total_sumn, Lw; exact Tw|].
      intros t Ht. destruct (nth_error w t) as [x|] eqn:E; [|apply nth_error_None in E; lia]. rewrite (nth_error_nth _ _ 0 E).
      destruct (Hw t x E) as (H1 & H2 & H3 & H4 & y & H5 & _ & H6). split; [apply entry_at2; exact H1|]. split; [exact H2|]. split; [exact H3|]. split; [exact H4|]. exists y. split; assumption.
    + intros H t Ht. apply entry_at2, P2; [|exact Ht]. intros i Hi. destruct (matrix_entry n N ld i b HM Hi Hb) as (d & row & E1 & E2).
      unfold bump_at. rewrite E1, E2. destruct (Rlt_dec d r) as [L|L]; [|reflexivity]. exfalso. apply (H i). exists d. split; [exists row; split; assumption|exact L].
Qed.
Lemma nearly_weights_d : nearly_weights e r f n N W.
Proof.
  destruct partition_facts_d as (MV & _ & _ & P). split; [exact MV|]. intros b t Hb Ht. destruct (P b Hb) as [P1 P2]. split; [|intros H; apply P2; assumption].
  intros H. destruct (P1 H) as (w & _ & Hw). destruct (Hw t Ht) as (E & D & B & O & y & Y & Ey). exists (w t), y. repeat split; try assumption; apply B.
Qed.

(** The signs. *)
Lemma sign_value q : cpowZ minus_one q = if Z.even q then (1, 0) else (-1, 0).
Proof.
  destruct (Z.even q) eqn:E.
  - apply Z.even_spec in E. destruct E as [h E]. rewrite (cpowZ_divide minus_one 2 q 0 minus_one_unit minus_one_order); [reflexivity|]. exists h; lia.
  - assert (O : Z.odd q = true) by (rewrite <- Z.negb_even, E; reflexivity). apply Z.odd_spec in O. destruct O as [h O].
    rewrite (cpowZ_divide minus_one 2 q 1 minus_one_unit minus_one_order); [|exists h; lia]. change (cpowZ minus_one 1) with (cmul minus_one c1). unfold minus_one; csolve.
Qed.
Lemma sign_matrix_ok c : simplex_cocycle n 1 c -> Forall (fun row => 0 <= snd row)%Z (c_rows c) ->
  exists M, sign_matrix n c = Ok M /\ matrix n n M /\
    forall i j, (i < n)%nat -> (j < n)%nat -> at2 0 M i j = if Z.even (eta_of c i j) then 1 else -1.
Proof.
  intros S Hv. destruct (cocycle_matrix_ok n c minus_one sign_power sign_inverse_power S minus_one_unit) as (M & EM & [LM FM] & HE).
  - intros row I. rewrite Forall_forall in Hv. specialize (Hv row I). unfold sign_power. destruct (Z.ltb_spec (snd row) 0); [lia|reflexivity].
  - intros q. unfold sign_inverse_power. apply (cpowZ_divide minus_one 2); [exact minus_one_unit|exact minus_one_order|exists q; lia].
  - exists (map (map fst) M). unfold sign_matrix. rewrite EM. split; [reflexivity|]. split.
    + split; [rewrite map_length; exact LM|]. apply Forall_map. eapply Forall_impl; [|exact FM]. intros row L. rewrite map_length; exact L.
    + intros i j Hi Hj. specialize (HE i j Hi Hj). rewrite sign_value in HE. unfold at2 in *. rewrite (nth_map_lt (map fst) M i [] []) by (exact (Nat.lt_le_trans _ _ _ Hi (Nat.eq_le_incl _ _ (eq_sym LM)))).
      rewrite Forall_forall in FM. rewrite (nth_map_lt _ _ _ c0) by (rewrite FM; [exact Hj|apply nth_In; exact (Nat.lt_le_trans _ _ _ Hi (Nat.eq_le_incl _ _ (eq_sym LM)))]). transitivity (fst (if Z.even (eta_of c i j) then (1, 0) else (-1, 0) : C)); [f_equal; exact HE|destruct (Z.even _); reflexivity].
Qed.
Lemma dbl_sign x (b : bool) : dbl (dbl x * (if b then 1 else -1)) = if b then dbl x else - dbl x.
Proof.
  destruct b; [rewrite Rmult_1_r; apply dbl_dbl|]. replace (dbl x * -1) with (- dbl x) by ring. unfold dbl at 1. rewrite round_NE_opp. f_equal. apply dbl_dbl.
Qed.
Lemma sign_class_map_ok c M : matrix n n M -> (forall i j, (i < n)%nat -> (j < n)%nat -> at2 0 M i j = if Z.even (eta_of c i j) then 1 else -1) ->
  sign_class_map_d W balls M = Ok (signed_roots W n N (eta_of c) (fun b => nth b balls 0%nat)).
Proof.
  intros [LM FM] HE. destruct partition_facts_d as ([LV FV] & LB & CC & P).
  unfold sign_class_map_d, signed_roots, mk2. rewrite LB. unfold range. rewrite Nat.sub_0_r. apply map_res_ok. intros b Hb. apply in_seq in Hb.
  rewrite (get_ok _ balls b 0%nat) by lia. cbn [bind]. destruct (CC b ltac:(lia)) as [Hlt _]. rewrite (get_ok _ M (nth b balls 0%nat) []) by lia. cbn [bind].
  rewrite Forall_forall in FM. assert (Lr : length (nth (nth b balls 0%nat) M []) = n) by (apply FM, nth_In; lia). rewrite Lr, LV, Nat.eqb_refl. f_equal.
  rewrite (map_combine_seq _ W _ [] 0 n LV Lr). apply map_ext_in. intros t Ht. apply in_seq in Ht. cbn [fst snd].
  change (nth t (nth (nth b balls 0%nat) M []) 0) with (at2 0 M (nth b balls 0%nat) t). rewrite HE by lia.
  change (nth b (nth t W []) None) with (at2 None W t b).
  destruct (P b ltac:(lia)) as [P1 P2]. destruct (in_ball_dec e n N r b HM) as [[i Hi]|H].
  - destruct (P1 (ex_intro _ i Hi)) as (w & _ & Hw). destruct (Hw t ltac:(lia)) as (-> & _ & H0 & _). unfold sqrt_d.
    destruct (Rltb (w t) 0) eqn:Q; [apply Rltb_true in Q; lra|]. cbn [option_map]. rewrite dbl_sign. destruct (Z.even _); reflexivity.
  - rewrite (P2 H t) by lia. reflexivity.
Qed.
(** The norms of the rows. *)
Lemma signed_rows eta ball b : (b < N)%nat ->
  ((exists i, in_ball ld r i b) -> nearly_unit ((INR n + 3) * bpow radix2 (-52)) (nth b (signed_roots W n N eta ball) [])) /\
  ((forall i, ~ in_ball ld r i b) -> not_finite (nth b (signed_roots W n N eta ball) [])).
Proof.
  intros Hb. destruct partition_facts_d as (_ & _ & _ & P). destruct (P b Hb) as [P1 P2].
  unfold signed_roots. rewrite (nth_error_nth _ _ [] (mk2_row N n _ b Hb)). split.
  - intros Hc. destruct (P1 Hc) as (w & S & Hw). exists (map (fun t => if Z.even (eta (ball b) t) then dbl (sqrt (w t)) else - dbl (sqrt (w t))) (seq 0 n)). split.
    + rewrite map_map. apply map_ext_in. intros t Ht. apply in_seq in Ht. destruct (Hw t ltac:(lia)) as (-> & _). reflexivity.
    + rewrite map_map. assert (T : forall g : nat -> R, total (map g (seq 0 n)) = sumn n g).
      { intros g. rewrite total_sumn, map_length, seq_length. apply sumn_ext. intros t Ht. rewrite (nth_map_lt _ _ _ 0%nat) by (rewrite seq_length; exact Ht). rewrite seq_nth by exact Ht. reflexivity. }
      rewrite T. set (q := sumn n w) in *. set (D := bpow radix2 (-52)) in *. assert (D0 : u53 = D / 2) by (unfold D; rewrite u53_val; pow2; lra).
      assert (Dv : 0 < D <= / 4503599627370496) by (unfold D; pow2; lra).
      assert (G : Rabs (sumn n (fun t => (if Z.even (eta (ball b) t) then dbl (sqrt (w t)) else - dbl (sqrt (w t))) * (if Z.even (eta (ball b) t) then dbl (sqrt (w t)) else - dbl (sqrt (w t)))) - q) <= 201 / 200 * D * q).
      { unfold q. rewrite <- sumn_sub, <- sumn_scal. eapply Rle_trans; [apply sumn_abs|]. apply sumn_le. intros t Ht.
        destruct (Hw t Ht) as (_ & Dw & B & _). destruct (norm_squared (w t) Dw ltac:(lra)) as (x & Hx & Ex).
        replace ((if Z.even (eta (ball b) t) then dbl (sqrt (w t)) else - dbl (sqrt (w t))) * (if Z.even (eta (ball b) t) then dbl (sqrt (w t)) else - dbl (sqrt (w t)))) with (w t * (1 + x)) by (destruct (Z.even _); nra).
        replace (w t * (1 + x) - w t) with (w t * x) by ring. rewrite Rabs_mult, (Rabs_right (w t)) by lra. rewrite D0 in Hx. assert (0 <= w t) by lra. nra. }
      apply Rabs_le_inv in S, G. assert (K : INR n <= bpow radix2 50).
      { rewrite INR_IZR_INZ. change (bpow radix2 50) with (IZR (2 ^ 50)). apply IZR_le; lia. }
      assert (K2 : INR n * D <= / 4). { apply Rle_trans with (bpow radix2 50 * D); [apply Rmult_le_compat_r; [lra|exact K]|]. unfold D. rewrite <- bpow_plus. change (50 + -52)%Z with (-2)%Z. pow2. lra. }
      assert (q <= 3 / 2) by lra. pose proof (pos_INR n). apply Rabs_le. assert (0 <= INR n * D) by nra. assert (201 / 200 * D * q <= 201 / 200 * D * (3 / 2)) by (apply Rmult_le_compat_l; lra). split; lra.
  - intros Hc. apply Forall_map, Forall_forall. intros t Ht. apply in_seq in Ht. rewrite (P2 Hc t) by lia. reflexivity.
Qed.
Lemma flip_mk2 (s : nat -> bool) (F : nat -> nat -> option R) :
  flip_rows Ropp (map s (seq 0 N)) (mk2 N n F) = mk2 N n (fun b t => if s b then option_map Ropp (F b t) else F b t).
Proof.
  unfold flip_rows, mk2. generalize (seq 0 N) as l. induction l as [|b l IH]; [reflexivity|]. cbn [map combine fst snd]. rewrite IH. f_equal. destruct (s b); [apply map_map|reflexivity].
Qed.
Lemma signed_change eta ball ball' :
  (forall b i j t, in_ball ld r i b -> in_ball ld r j b -> in_ball ld r t b -> (2 | eta i j + eta j t - eta i t)%Z) ->
  covering_choice e r n N ball -> covering_choice e r n N ball' ->
  signed_roots W n N eta ball' = flip_rows Ropp (map (fun b => negb (Z.even (eta (ball' b) (ball b)))) (seq 0 N)) (signed_roots W n N eta ball).
Proof.
  intros T C C'. unfold signed_roots. rewrite flip_mk2. apply mk2_ext. intros b t Hb Ht.
  destruct partition_facts_d as (_ & _ & _ & P). destruct (P b Hb) as [P1 P2]. destruct (in_ball_dec e n N r b HM) as [[i Hi]|H].
  - destruct (P1 (ex_intro _ i Hi)) as (w & _ & Hw). destruct (Hw t Ht) as (-> & _ & _ & Q & _). cbn [option_map].
    destruct (C b Hb) as [_ K]. destruct (C' b Hb) as [_ K']. specialize (K (ex_intro _ i Hi)). specialize (K' (ex_intro _ i Hi)).
    destruct (Req_dec (w t) 0) as [Z|Z].
    + rewrite Z, sqrt_0, dbl_0. repeat match goal with |- context [Z.even ?q] => destruct (Z.even q) end; cbn [negb option_map]; f_equal; ring.
    + assert (B : in_ball ld r t b).
      { destruct (in_ball_dec e n N r b HM) as [_|Hx]; [|exfalso; exact (Hx i Hi)]. destruct (nth_error ld t) as [row|] eqn:E1; [|exfalso; apply Z, Q; intros (d & (row & F1 & _) & _); congruence].
        destruct (nth_error row b) as [d|] eqn:E2; [|exfalso; apply Z, Q; intros (d & (row' & F1 & F2) & _); congruence].
        destruct (Rlt_dec d r) as [L|L]; [exists d; split; [exists row; split; assumption|exact L]|]. exfalso; apply Z, Q. intros (d' & (row' & F1 & F2) & L'). rewrite E1 in F1; injection F1 as <-. rewrite E2 in F2; injection F2 as <-. contradiction. }
      pose proof (T b _ _ _ K' K B) as [h D].
      assert (E : Z.even (eta (ball' b) t) = Bool.eqb (Z.even (eta (ball' b) (ball b))) (Z.even (eta (ball b) t))).
      { rewrite <- Z.even_add. replace (eta (ball' b) t) with (eta (ball' b) (ball b) + eta (ball b) t - h * 2)%Z by lia. rewrite Z.even_sub, (Z.even_mul h 2), Bool.orb_true_r. destruct (Z.even _); reflexivity. }
      rewrite E. destruct (Z.even (eta (ball' b) (ball b))), (Z.even (eta (ball b) t)); cbn [Bool.eqb negb]; f_equal; ring.
  - rewrite (P2 H t Ht). destruct (negb _); reflexivity.
Qed.
End Partition.
