(** RoundLens.v -- accuracy of the class maps in double precision: lemmas. *)
From Coq Require Import Reals List ZArith Lia Lra Psatz Permutation.
From Flocq Require Import Core.
From Verif Require Import Base BaseProofs RealBase RealSum EMModel SpecEM EMProofs CohomologyModel CohomologyProofs ToroidalModel ToroidalProofs DeltaFacts ComplexBase PPCAModel SpecPPCA PPCAProofs ClassMapModel SpecClassMap ClassMapProofs
  CircleProofs SpecRound RoundBase RoundModel RoundTorusModel RoundProofs RoundTorusProofs PropRound RoundCover RoundGeomProofs RoundPPCAModel SpecRoundPPCA RoundPPCAProofs RoundClassMap.
Import ListNotations.
Local Open Scope R_scope.

Lemma roots_close a b g s : 0 <= a -> 0 <= b -> 0 <= g -> 0 < s -> Rabs (a * a - b * b) <= g * (b * b) + s * s -> Rabs (a - b) <= g * b + s.
Proof.
  intros A B G S H. apply Rabs_le_inv in H. apply Rabs_le. assert (P : 0 <= g * b) by nra. split; apply Rnot_lt_le; intros L.
  - assert (b > s) by lra. assert ((g * b + s) * (b + a) <= (b - a) * (b + a)) by (apply Rmult_le_compat_r; lra). assert ((g * b + s) * b <= (g * b + s) * (b + a)) by (apply Rmult_le_compat_l; lra). nra.
  - assert ((g * b + s) * (a + b) <= (a - b) * (a + b)) by (apply Rmult_le_compat_r; lra). assert (Q : b + s <= a + b) by lra.
    assert ((g * b + s) * (b + s) <= (g * b + s) * (a + b)) by (apply Rmult_le_compat_l; lra). assert (0 <= s * b) by nra. assert (0 < (a + b) * (a - b - (g * b + s))) by (apply Rmult_lt_0_compat; lra).
    assert (0 <= g * b * s) by (apply Rmult_le_pos; lra). nra.
Qed.
Lemma weight_root (n : nat) w y : (Z.of_nat n <= 2 ^ 50)%Z -> double w -> 0 <= w <= 1 -> 0 <= y <= 1 -> Rabs (w - y) <= (INR n + 1) * bpow radix2 (-52) * y + bpow radix2 (-1075) ->
  0 <= dbl (sqrt w) <= 1 /\ Rabs (dbl (sqrt w) - sqrt y) <= (INR n + 2) * bpow radix2 (-52).
Proof.
  intros Hn Dw Hw Hy H. destruct (sqrt_rounded w Dw ltac:(lra)) as (e & He & E).
  assert (S1 : 0 <= sqrt w <= 1) by (split; [apply sqrt_pos|rewrite <- sqrt_1; apply sqrt_le_1_alt; lra]). assert (S2 : 0 <= sqrt y <= 1) by (split; [apply sqrt_pos|rewrite <- sqrt_1; apply sqrt_le_1_alt; lra]).
  split; [split; [apply dbl_ge_0; lra|apply dbl_le_double; [apply (double_IZR 1); cbn; lia|lra]]|].
  pose proof (pos_INR n) as N0. pose proof (roots_close (sqrt w) (sqrt y) ((INR n + 1) * bpow radix2 (-52)) (bpow radix2 (-537)) ltac:(lra) ltac:(lra)) as Rc.
  rewrite !sqrt_sqrt in Rc by lra. assert (B : 0 < bpow radix2 (-52)) by apply bpow_gt_0. specialize (Rc ltac:(apply Rmult_le_pos; lra) (bpow_gt_0 _ _)).
  assert (T : bpow radix2 (-1075) <= bpow radix2 (-537) * bpow radix2 (-537)) by (rewrite <- bpow_plus; apply bpow_le; lia). specialize (Rc ltac:(lra)).
  assert (Q : bpow radix2 (-537) <= / 4 * bpow radix2 (-52)). { replace (/ 4) with (bpow radix2 (-2)) by (pow2; lra). rewrite <- bpow_plus. apply bpow_le. lia. }
  assert (U : u53 = / 2 * bpow radix2 (-52)) by (rewrite u53_val; pow2; lra). set (D := bpow radix2 (-52)) in *. rewrite E. apply Rabs_le_inv in Rc, He. rewrite U in He.
  assert (Rabs (sqrt w * e) <= / 2 * D). { rewrite Rabs_mult, (Rabs_right (sqrt w)) by lra. assert (Rabs e <= / 2 * D) by (apply Rabs_le; lra). pose proof (Rabs_pos e). nra. }
  assert ((INR n + 1) * D * sqrt y <= (INR n + 1) * D * 1) by (apply Rmult_le_compat_l; [apply Rmult_le_pos; lra|lra]). apply Rabs_le_inv in H0. replace (sqrt w * (1 + e) - sqrt y) with (sqrt w - sqrt y + sqrt w * e) by ring.
  apply Rabs_le. split; lra.
Qed.
(** One entry. *)
Lemma entry_close (h eps s y a a0 : R) : 0 <= s <= 1 -> Rabs (s - y) <= h -> Rabs (a - a0) <= eps -> Rabs a0 <= 1 -> 0 <= eps <= / 32 ->
  Rabs (dbl (s * a) - y * a0) <= eps + h + 2 * bpow radix2 (-52).
Proof.
  intros Hs Hy Ha H0 He. pose proof (dbl_error (s * a)) as E. assert (A : Rabs a <= 2) by (apply Rabs_le_inv in Ha, H0; apply Rabs_le; lra).
  assert (SA : Rabs (s * a) <= 2). { rewrite Rabs_mult, (Rabs_right s) by lra. pose proof (Rabs_pos a). nra. }
  replace (dbl (s * a) - y * a0) with ((dbl (s * a) - s * a) + (s * (a - a0) + (s - y) * a0)) by ring.
  assert (X1 : Rabs (s * (a - a0)) <= eps). { rewrite Rabs_mult, (Rabs_right s) by lra. pose proof (Rabs_pos (a - a0)). nra. }
  assert (X2 : Rabs ((s - y) * a0) <= h). { rewrite Rabs_mult. pose proof (Rabs_pos (s - y)). pose proof (Rabs_pos a0). nra. }
  assert (X3 : Rabs (dbl (s * a) - s * a) <= 2 * bpow radix2 (-52)).
  { eapply Rle_trans; [exact E|]. assert (T : bpow radix2 (-1075) <= bpow radix2 (-52)) by (apply bpow_le; lia). assert (V : bpow radix2 (-53) = / 2 * bpow radix2 (-52)) by (pow2; lra). pose proof (bpow_gt_0 radix2 (-52)). rewrite V.
    assert (/ 2 * bpow radix2 (-52) * Rabs (s * a) <= / 2 * bpow radix2 (-52) * 2) by (apply Rmult_le_compat_l; lra). lra. }
  eapply Rle_trans; [apply Rabs_triang|]. pose proof (Rabs_triang (s * (a - a0)) ((s - y) * a0)). lra.
Qed.
Lemma square_rounded x : Rabs x <= 2 -> Rabs (dbl x * dbl x - x * x) <= 201 / 100 * u53 * (x * x) + 6 * bpow radix2 (-1075).
Proof.
  intros Hx. pose proof (dbl_error x) as E. change (bpow radix2 (-53)) with u53 in E. set (t := bpow radix2 (-1075)) in *. assert (T : 0 < t <= / 1000) by (unfold t; split; [apply bpow_gt_0|apply Rle_trans with (bpow radix2 (-10)); [apply bpow_le; lia|pow2; lra]]).
  set (r := dbl x - x) in *. replace (dbl x) with (x + r) by (unfold r; ring). assert (U : 0 < u53 <= / 1000) by (rewrite u53_val; lra). set (u := u53) in *. clearbody u t r.
  replace ((x + r) * (x + r) - x * x) with (2 * (x * r) + r * r) by ring. rewrite <- (Rabs_mult x x) || idtac.
  set (m := Rabs x) in *. assert (M : 0 <= m) by apply Rabs_pos. assert (XX : x * x = m * m) by (unfold m; rewrite <- Rabs_mult; symmetry; apply Rabs_right; nra). rewrite XX.
  assert (R1 : Rabs (x * r) <= m * (u * m + t)) by (rewrite Rabs_mult; apply Rmult_le_compat_l; [exact M|exact E]).
  assert (R2 : r * r <= (u * m + t) * (u * m + t)). { replace (r * r) with (Rabs r * Rabs r) by (rewrite <- Rabs_mult; apply Rabs_right; nra). pose proof (Rabs_pos r). apply Rmult_le_compat; lra. }
  assert (R3 : 0 <= r * r) by nra. apply Rabs_le_inv in R1. assert (m * t <= 2 * t) by (apply Rmult_le_compat_r; lra). assert (Q : 0 <= u * (m * m)) by (apply Rmult_le_pos; nra).
  assert (u * (u * (m * m)) <= / 1000 * (u * (m * m))) by (apply Rmult_le_compat_r; lra). assert (2 * (u * (m * t)) <= 2 * (/ 1000 * (2 * t))) by (assert (0 <= m * t) by nra; nra). assert (t * t <= t) by nra.
  assert (R2' : r * r <= u * (u * (m * m)) + 2 * (u * (m * t)) + t * t) by lra. apply Rabs_le. split; lra.
Qed.
Lemma unit_close eps a b a0 b0 : 0 <= eps <= / 32 -> a0 * a0 + b0 * b0 = 1 -> Rabs (a - a0) <= eps -> Rabs (b - b0) <= eps -> Rabs (a * a + b * b - 1) <= 3 * eps.
Proof.
  intros He E Ha Hb. set (x := a - a0) in *. set (y := b - b0) in *. replace a with (a0 + x) by (unfold x; ring). replace b with (b0 + y) by (unfold y; ring). clearbody x y.
  replace ((a0 + x) * (a0 + x) + (b0 + y) * (b0 + y) - 1) with (2 * (a0 * x + b0 * y) + (x * x + y * y)) by (rewrite <- E; ring).
  assert (X : x * x <= eps * eps). { replace (x * x) with (Rabs x * Rabs x) by (rewrite <- Rabs_mult; apply Rabs_right; nra). pose proof (Rabs_pos x). nra. }
  assert (Y : y * y <= eps * eps). { replace (y * y) with (Rabs y * Rabs y) by (rewrite <- Rabs_mult; apply Rabs_right; nra). pose proof (Rabs_pos y). nra. }
  assert (Sm : Rabs a0 + Rabs b0 <= 1415 / 1000). { pose proof (Rabs_pos a0). pose proof (Rabs_pos b0). assert (P : Rabs a0 * Rabs a0 + Rabs b0 * Rabs b0 = 1) by (rewrite <- !Rabs_mult, !Rabs_right by nra; exact E). assert (0 <= (Rabs a0 - Rabs b0) * (Rabs a0 - Rabs b0)) by (apply Rle_0_sqr). apply Rnot_lt_le; intros L. nra. }
  assert (L : Rabs (a0 * x + b0 * y) <= 1415 / 1000 * eps).
  { eapply Rle_trans; [apply Rabs_triang|]. rewrite !Rabs_mult. pose proof (Rabs_pos a0). pose proof (Rabs_pos b0). pose proof (Rabs_pos x). pose proof (Rabs_pos y).
    assert (Rabs a0 * Rabs x <= Rabs a0 * eps) by (apply Rmult_le_compat_l; lra). assert (Rabs b0 * Rabs y <= Rabs b0 * eps) by (apply Rmult_le_compat_l; lra). nra. }
  apply Rabs_le_inv in L. assert (eps * eps <= / 32 * eps) by (apply Rmult_le_compat_r; lra). assert (0 <= x * x) by nra. assert (0 <= y * y) by nra. apply Rabs_le. split; lra.
Qed.
Lemma entry_square eps w a b a0 b0 : 0 <= eps <= / 32 -> double w -> 0 <= w <= 1 -> a0 * a0 + b0 * b0 = 1 -> Rabs (a - a0) <= eps -> Rabs (b - b0) <= eps ->
  let s := dbl (sqrt w) in Rabs (cabs2 (dbl (s * a), dbl (s * b)) - w) <= (3 * eps + 6 * u53) * w + 12 * bpow radix2 (-1075).
Proof.
  intros He Dw Hw E Ha Hb s. destruct (norm_squared w Dw ltac:(lra)) as (x & Hx & Ex). fold s in Ex. pose proof (unit_close eps a b a0 b0 He E Ha Hb) as Q.
  assert (S1 : 0 <= s <= 1). { unfold s. assert (S1 : 0 <= sqrt w <= 1) by (split; [apply sqrt_pos|rewrite <- sqrt_1; apply sqrt_le_1_alt; lra]). split; [apply dbl_ge_0; lra|apply dbl_le_double; [apply (double_IZR 1); cbn; lia|lra]]. }
  assert (A0 : Rabs a0 <= 1 /\ Rabs b0 <= 1) by (split; apply Rabs_le; nra). destruct A0 as [A0 B0].
  assert (A2 : Rabs (s * a) <= 2). { rewrite Rabs_mult, (Rabs_right s) by lra. assert (Rabs a <= 2) by (apply Rabs_le_inv in Ha, A0; apply Rabs_le; lra). pose proof (Rabs_pos a). nra. }
  assert (B2 : Rabs (s * b) <= 2). { rewrite Rabs_mult, (Rabs_right s) by lra. assert (Rabs b <= 2) by (apply Rabs_le_inv in Hb, B0; apply Rabs_le; lra). pose proof (Rabs_pos b). nra. }
  pose proof (square_rounded _ A2) as SA. pose proof (square_rounded _ B2) as SB. unfold cabs2. cbn [fst snd]. set (p := dbl (s * a)) in *. set (q := dbl (s * b)) in *. set (t := bpow radix2 (-1075)) in *.
  assert (U : 0 < u53 <= / 100000000) by (rewrite u53_val; lra). set (u := u53) in *. clearbody u p q t.
  replace (s * a * (s * a)) with (w * (1 + x) * (a * a)) in SA by (rewrite <- Ex; ring). replace (s * b * (s * b)) with (w * (1 + x) * (b * b)) in SB by (rewrite <- Ex; ring).
  set (Z := a * a + b * b) in *. apply Rabs_le_inv in SA, SB, Q, Hx. set (V := w * (1 + x) * Z) in *. assert (EV : w * (1 + x) * (a * a) + w * (1 + x) * (b * b) = V) by (unfold V, Z; ring).
  assert (Zb : 0 <= Z <= 11 / 10) by lra. assert (K : Rabs ((1 + x) * Z - 1) <= 3 * eps + 23 / 10 * u).
  { replace ((1 + x) * Z - 1) with ((Z - 1) + x * Z) by ring. assert (Rabs (x * Z) <= 23 / 10 * u) by (rewrite Rabs_mult, (Rabs_right Z) by lra; assert (Rabs x <= 201 / 100 * u) by (apply Rabs_le; lra); pose proof (Rabs_pos x); nra). apply Rabs_le_inv in H. apply Rabs_le. split; lra. }
  apply Rabs_le_inv in K. assert (V1 : - ((3 * eps + 23 / 10 * u) * w) <= V - w <= (3 * eps + 23 / 10 * u) * w).
  { replace (V - w) with (w * ((1 + x) * Z - 1)) by (unfold V; ring). split.
    - replace (- ((3 * eps + 23 / 10 * u) * w)) with (w * - (3 * eps + 23 / 10 * u)) by ring. apply Rmult_le_compat_l; lra.
    - rewrite (Rmult_comm _ w). apply Rmult_le_compat_l; lra. }
  assert (V2 : 0 <= V <= 12 / 10 * w). { split; [unfold V; repeat apply Rmult_le_pos; lra|]. assert ((3 * eps + 23 / 10 * u) * w <= 2 / 10 * w) by (apply Rmult_le_compat_r; lra). lra. }
  assert (V3 : 201 / 100 * u * V <= 25 / 10 * (u * w)). { assert (u * V <= u * (12 / 10 * w)) by (apply Rmult_le_compat_l; lra). assert (0 <= u * w) by (apply Rmult_le_pos; lra). lra. }
  assert (W0 : 0 <= u * w) by (apply Rmult_le_pos; lra).
  assert (V4 : 201 / 100 * u * (w * (1 + x) * (a * a)) + 201 / 100 * u * (w * (1 + x) * (b * b)) = 201 / 100 * u * V) by (rewrite <- EV; ring). apply Rabs_le. clearbody V Z. split; lra.
Qed.

(** ** The matrix of transition constants *)
Lemma cocycle_matrix_values n c (P Q : Z -> C) : simplex_cocycle n 1 c ->
  exists M, cocycle_matrix (fun k => Ok (P k)) Q n c = Ok M /\ matrix n n M /\
    forall i j, (i < n)%nat -> (j < n)%nat ->
      (exists w, In ([Z.of_nat i; Z.of_nat j], w) (c_rows c) /\ at2 c0 M i j = P w) \/
      (exists w, In ([Z.of_nat j; Z.of_nat i], w) (c_rows c) /\ at2 c0 M i j = Q w) \/
      (at2 c0 M i j = c1 /\ eta_of c i j = 0%Z).
Proof.
  intros S. unfold cocycle_matrix. rewrite (edges_ok n c S). cbn [bind].
  assert (Ep : map_res (fun r : Z * Z * Z => Ok (P (snd r))) (edges_of c) = Ok (map (fun r => P (snd r)) (edges_of c))) by (apply map_res_ok; intros [[u v] w] _; reflexivity).
  rewrite Ep. cbn [bind].
  set (l1 := map (fun r => (fst (fst r), snd (fst r), P (snd r))) (edges_of c)).
  set (l2 := map (fun r => (snd (fst r), fst (fst r), Q (snd r))) (edges_of c)).
  assert (B1 : forall M0, for_in (combine (edges_of c) (map (fun r => P (snd r)) (edges_of c))) (fun rv m => let '(u, v, _, x) := rv in set2 m u v x) M0 =
    for_in l1 (fun e m => let '(u, v, x) := e in set2 m u v x) M0).
  { unfold l1. clear. induction (edges_of c) as [|[[u v] w] l IH]; intros M0; [reflexivity|]. cbn [combine map for_in fst snd]. destruct (set2 M0 u v (P w)); cbn [bind]; [apply IH|reflexivity]. }
  assert (B2 : forall M0, for_in (edges_of c) (fun r m => let '(u, v, k) := r in set2 m v u (Q k)) M0 =
    for_in l2 (fun e m => let '(u, v, x) := e in set2 m u v x) M0).
  { unfold l2. clear. induction (edges_of c) as [|[[u v] w] l IH]; intros M0; [reflexivity|]. cbn [map for_in fst snd]. destruct (set2 M0 v u (Q w)); cbn [bind]; [apply IH|reflexivity]. }
  rewrite B1. destruct (write_all n c0 (fun e m => let '(u, v, x) := e in set2 m u v x) (fun _ _ _ _ => eq_refl) l1 (mk2 n n (fun _ _ => c1)) (mk2_matrix n n _)) as (M1 & -> & HM1 & V1).
  { unfold l1. apply Forall_map, Forall_forall. intros [[u v] w] I. exact (edges_range n c S u v w I). }
  cbn [bind]. rewrite B2. destruct (write_all n c0 (fun e m => let '(u, v, x) := e in set2 m u v x) (fun _ _ _ _ => eq_refl) l2 M1 HM1) as (M2 & -> & HM2 & V2).
  { unfold l2. apply Forall_map, Forall_forall. intros [[u v] w] I. cbn [fst snd]. destruct (edges_range n c S u v w I); split; assumption. }
  exists M2. split; [reflexivity|]. split; [exact HM2|]. intros i j Hin Hjn.
  destruct (eta_values n c S) as (A & V & Z0).
  destruct (V2 i j) as [(x & I & Ex)|[N2 E2]].
  - right; left. unfold l2 in I. apply in_map_iff in I. destruct I as ([[u v] w] & E & I). cbn [fst snd] in E. injection E as Ev Eu <-.
    apply (edges_in n c u v w S) in I. subst u v. exists w. split; [exact I|exact Ex].
  - destruct (V1 i j) as [(x & I & Ex)|[N1 E1]].
    + left. unfold l1 in I. apply in_map_iff in I. destruct I as ([[u v] w] & E & I). cbn [fst snd] in E. injection E as Eu Ev <-.
      apply (edges_in n c u v w S) in I. subst u v. exists w. split; [exact I|]. rewrite E2; exact Ex.
    + right; right. split; [rewrite E2, E1, at2_mk2 by assumption; reflexivity|]. apply Z0; try assumption.
      * intros w I. apply (edges_in n c _ _ _ S) in I. apply (N1 (P w)). unfold l1. apply in_map_iff. exists (Z.of_nat i, Z.of_nat j, w). split; [reflexivity|exact I].
      * intros w I. apply (edges_in n c _ _ _ S) in I. apply (N2 (Q w)). unfold l2. apply in_map_iff. exists (Z.of_nat j, Z.of_nat i, w). split; [reflexivity|exact I].
Qed.
Lemma cocycle_matrix_near n c root eps P Q : simplex_cocycle n 1 c -> 0 <= eps -> nearly_powers eps root P Q c ->
  exists M, cocycle_matrix (fun k => Ok (P k)) Q n c = Ok M /\ matrix n n M /\
    forall i j, (i < n)%nat -> (j < n)%nat -> within eps (at2 c0 M i j) (cpowZ root (eta_of c i j)).
Proof.
  intros S He HP. destruct (cocycle_matrix_values n c P Q S) as (M & EM & HM & H). exists M. split; [exact EM|]. split; [exact HM|]. intros i j Hi Hj.
  destruct (eta_values n c S) as (A & V & _). destruct (H i j Hi Hj) as [(w & I & ->)|[(w & I & ->)|[-> ->]]].
  - rewrite (V i j w Hi Hj I). apply (HP _ I).
  - rewrite A, (V j i w Hj Hi I). apply (HP _ I).
  - split; cbn; rewrite Rminus_diag_eq by reflexivity; rewrite Rabs_R0; exact He.
Qed.

Lemma Forall2_mk2 {A B} (T : A -> B -> Prop) (F : nat -> nat -> A) (G : nat -> nat -> B) a b :
  (forall i j, (i < a)%nat -> (j < b)%nat -> T (F i j) (G i j)) -> Forall2 (Forall2 T) (mk2 a b F) (mk2 a b G).
Proof.
  intros H. unfold mk2. assert (Q : forall l, (forall i, In i l -> (i < a)%nat) -> Forall2 (Forall2 T) (map (fun i => map (F i) (seq 0 b)) l) (map (fun i => map (G i) (seq 0 b)) l)).
  { induction l as [|i l IH]; intros Hl; [constructor|]. cbn [map]. constructor; [|apply IH; intros; apply Hl; right; assumption].
    assert (Q2 : forall l', (forall j, In j l' -> (j < b)%nat) -> Forall2 T (map (F i) l') (map (G i) l')).
    { induction l' as [|j l' IH']; intros Hl'; [constructor|]. cbn [map]. constructor; [apply H; [apply Hl; left; reflexivity|apply Hl'; left; reflexivity]|apply IH'; intros; apply Hl'; right; assumption]. }
    apply Q2. intros j Hj. apply in_seq in Hj. lia. }
  apply Q. intros i Hi. apply in_seq in Hi. lia.
Qed.
Lemma unit_component root q : cabs2 root = 1 -> Rabs (fst (cpowZ root q)) <= 1 /\ Rabs (snd (cpowZ root q)) <= 1.
Proof. intros H. pose proof (cabs2_cpowZ root q H) as E. unfold cabs2 in E. split; apply Rabs_le; nra. Qed.

Section Lens.
Variables (sums : list R -> R) (e : em) (r : R) (f : R -> R -> R) (n N : nat).
Hypothesis HM : matrix n N (em_dist_land_data e).
Hypothesis Hn : (1 <= n)%nat.
Hypothesis Hn2 : (Z.of_nat n <= 2 ^ 50)%Z.
Hypothesis Hs : forall l, added_up l (sums l).
Hypothesis Hf : forall i b d, entry (em_dist_land_data e) i b d -> d < r -> double (f d r) /\ 0 < f d r.
Notation ld := (em_dist_land_data e).
Notation W := (fst (get_covering_partition_d sums ld r f)).
Notation balls := (snd (get_covering_partition_d sums ld r f)).

Lemma bump_pos t b : 0 <= bump_at ld r f t b /\ (0 < bump_at ld r f t b <-> in_ball ld r t b).
Proof.
  unfold bump_at, in_ball, entry. destruct (nth_error ld t) as [row|] eqn:E1; [|split; [lra|split; [lra|intros (d & (row & F & _) & _); discriminate]]].
  destruct (nth_error row b) as [d|] eqn:E2; [|split; [lra|split; [lra|intros (d & (row' & F & G) & _); injection F as <-; congruence]]].
  destruct (Rlt_dec d r) as [L|L].
  - pose proof (Hf t b d ltac:(exists row; split; assumption) L) as [_ P]. split; [lra|]. split; [|intros _; exact P]. intros _. exists d. split; [exists row; split; [reflexivity|exact E2]|exact L].
  - split; [lra|]. split; [lra|]. intros (d' & (row' & F & G) & L'). injection F as <-. rewrite E2 in G. injection G as <-. contradiction.
Qed.
Lemma unity_range t b : (t < n)%nat ->
  ((exists i, in_ball ld r i b) -> exists y, unity_weight ld r f t b = Some y /\ 0 <= y <= 1 /\ (0 < y <-> in_ball ld r t b)) /\
  ((forall i, ~ in_ball ld r i b) -> unity_weight ld r f t b = None).
Proof.
  intros Ht. destruct HM as [LM _]. unfold unity_weight. rewrite LM. set (s := sumn n (fun j => bump_at ld r f j b)). split.
  - intros [i Hi]. pose proof (in_ball_lt e n N r i b HM Hi) as Li. assert (K : forall j, (j < n)%nat -> bump_at ld r f j b <= s) by (intros j Lj; unfold s; apply (sumn_ge n (fun j => bump_at ld r f j b) j Lj); intros; apply bump_pos).
    assert (P : 0 < s) by (eapply Rlt_le_trans; [apply (proj2 (proj2 (bump_pos i b)) Hi)|apply K, Li]).
    destruct (Req_EM_T s 0) as [Z|Z]; [lra|]. eexists. split; [reflexivity|]. pose proof (bump_pos t b) as [B0 B1]. pose proof (K t Ht) as K1. split; [split|].
    + apply Rmult_le_pos; [exact B0|left; apply Rinv_0_lt_compat, P].
    + apply Rmult_le_reg_r with s; [exact P|]. field_simplify; lra.
    + rewrite <- B1. split; intros H.
      * destruct (Req_dec (bump_at ld r f t b) 0) as [E|E]; [rewrite E in H; unfold Rdiv in H; lra|lra].
      * apply Rdiv_lt_0_compat; assumption.
  - intros H. assert (Z : s = 0). { unfold s. apply sumn_0. intros j Hj. destruct (bump_pos j b) as [B0 B1]. destruct (Req_dec (bump_at ld r f j b) 0) as [E|E]; [exact E|]. exfalso. apply (H j), B1. lra. }
    destruct (Req_EM_T s 0); [reflexivity|contradiction].
Qed.

Lemma root_class_map_ok M g : matrix n n M -> (forall i j, (i < n)%nat -> (j < n)%nat -> at2 c0 M i j = g i j) ->
  root_class_map_d W balls M = Ok (rounded_roots W n N g (fun b => nth b balls 0%nat)).
Proof.
  intros [LM FM] HE. destruct (partition_facts_d sums e r f n N HM Hn Hn2 Hs Hf) as ([LV FV] & LB & CC & P).
  unfold root_class_map_d, rounded_roots, mk2. rewrite LB. unfold range. rewrite Nat.sub_0_r. apply map_res_ok. intros b Hb. apply in_seq in Hb.
  rewrite (get_ok _ balls b 0%nat) by lia. cbn [bind]. destruct (CC b ltac:(lia)) as [Hlt _]. rewrite (get_ok _ M (nth b balls 0%nat) []) by lia. cbn [bind].
  rewrite Forall_forall in FM. assert (Lr : length (nth (nth b balls 0%nat) M []) = n) by (apply FM, nth_In; lia). rewrite Lr, LV, Nat.eqb_refl. apply (f_equal (@Ok (list (option C)))).
  rewrite (map_combine_seq _ W _ [] c0 n LV Lr). apply map_ext_in. intros t Ht. apply in_seq in Ht. cbn [fst snd].
  change (nth t (nth (nth b balls 0%nat) M []) c0) with (at2 c0 M (nth b balls 0%nat) t). rewrite HE by lia.
  change (nth b (nth t W []) None) with (at2 None W t b).
  destruct (P b ltac:(lia)) as [P1 P2]. destruct (in_ball_dec e n N r b HM) as [[i Hi]|H].
  - destruct (P1 (ex_intro _ i Hi)) as (w & _ & Hw). destruct (Hw t ltac:(lia)) as (-> & _ & H0 & _). unfold sqrt_d.
    destruct (Rltb (w t) 0) eqn:Q; [apply Rltb_true in Q; lra|]. reflexivity.
  - rewrite (P2 H t) by lia. reflexivity.
Qed.

Lemma rounded_near eps root eta g ball : cabs2 root = 1 -> 0 <= eps <= / 32 -> (forall b, (b < N)%nat -> (ball b < n)%nat) ->
  (forall i j, (i < n)%nat -> (j < n)%nat -> within eps (g i j) (cpowZ root (eta i j))) ->
  nearly_map (eps + (INR n + 4) * bpow radix2 (-52)) (rounded_roots W n N g ball) (root_class_map e r f n N root eta ball).
Proof.
  intros Hr He Hb Hg. apply Forall2_mk2. intros b t Lb Lt. destruct (partition_facts_d sums e r f n N HM Hn Hn2 Hs Hf) as (_ & _ & _ & P). destruct (P b Lb) as [P1 P2]. destruct (unity_range t b Lt) as [U1 U2].
  destruct (in_ball_dec e n N r b HM) as [[i Hi]|H].
  - destruct (P1 (ex_intro _ i Hi)) as (w & _ & Hw). destruct (Hw t Lt) as (-> & Dw & Bw & _ & y & Ey & Dy). destruct (U1 (ex_intro _ i Hi)) as (y' & Y' & By & _). rewrite Ey in Y'. injection Y' as <-. rewrite Ey.
    destruct (weight_root n (w t) y Hn2 Dw Bw By Dy) as [S1 S2]. destruct (Hg (ball b) t (Hb b Lb) Lt) as [G1 G2]. destruct (unit_component root (eta (ball b) t) Hr) as [C1 C2].
    replace (eps + (INR n + 4) * bpow radix2 (-52)) with (eps + (INR n + 2) * bpow radix2 (-52) + 2 * bpow radix2 (-52)) by ring.
    split; cbn [fst snd cscale]; apply entry_close; assumption.
  - rewrite (P2 H t Lt), (U2 H). exact I.
Qed.
Lemma total_seq (g : nat -> R) : total (map g (seq 0 n)) = sumn n g.
Proof.
  rewrite total_sumn, map_length, seq_length. apply sumn_ext. intros t Ht. rewrite (nth_map_lt _ _ _ 0%nat) by (rewrite seq_length; exact Ht). rewrite seq_nth by exact Ht. reflexivity.
Qed.
Lemma rounded_rows eps root eta g ball b : cabs2 root = 1 -> 0 <= eps <= / 32 -> (forall b, (b < N)%nat -> (ball b < n)%nat) ->
  (forall i j, (i < n)%nat -> (j < n)%nat -> within eps (g i j) (cpowZ root (eta i j))) -> (b < N)%nat ->
  ((exists i, in_ball ld r i b) -> nearly_unit_c (4 * eps + (INR n + 5) * bpow radix2 (-52)) (nth b (rounded_roots W n N g ball) [])) /\
  ((forall i, ~ in_ball ld r i b) -> not_finite (nth b (rounded_roots W n N g ball) [])).
Proof.
  intros Hr He Hball Hg Hb. destruct (partition_facts_d sums e r f n N HM Hn Hn2 Hs Hf) as (_ & _ & _ & P). destruct (P b Hb) as [P1 P2].
  unfold rounded_roots. rewrite (nth_error_nth _ _ [] (mk2_row N n _ b Hb)). split.
  - intros Hc. destruct (P1 Hc) as (w & S & Hw). exists (map (fun t => (dbl (dbl (sqrt (w t)) * fst (g (ball b) t)), dbl (dbl (sqrt (w t)) * snd (g (ball b) t)))) (seq 0 n)). split.
    + rewrite map_map. apply map_ext_in. intros t Ht. apply in_seq in Ht. destruct (Hw t ltac:(lia)) as (-> & _). reflexivity.
    + rewrite map_map, total_seq. set (q := sumn n w) in *. set (D := bpow radix2 (-52)) in *. assert (D0 : u53 = D / 2) by (unfold D; rewrite u53_val; pow2; lra).
      assert (Dv : 0 < D <= / 4503599627370496) by (unfold D; pow2; lra). set (T := bpow radix2 (-1075)).
      set (F := fun t => cabs2 (dbl (dbl (sqrt (w t)) * fst (g (ball b) t)), dbl (dbl (sqrt (w t)) * snd (g (ball b) t)))).
      assert (G : Rabs (sumn n F - q) <= (3 * eps + 3 * D) * q + INR n * (12 * T)).
      { unfold q. rewrite <- sumn_sub, <- sumn_scal. eapply Rle_trans; [apply sumn_abs|]. apply Rle_trans with (sumn n (fun t => (3 * eps + 3 * D) * w t + 12 * T)).
        - apply sumn_le. intros t Ht. destruct (Hw t Ht) as (_ & Dw & B & _). destruct (Hg (ball b) t (Hball b Hb) Ht) as [G1 G2]. pose proof (cabs2_cpowZ root (eta (ball b) t) Hr) as E. unfold cabs2 in E.
          pose proof (entry_square eps (w t) _ _ _ _ He Dw B E G1 G2) as Q. cbv zeta in Q. rewrite D0 in Q. unfold F. fold T in Q. eapply Rle_trans; [exact Q|]. apply Req_le. field.
        - rewrite sumn_add. apply Rplus_le_compat_l. apply Req_le. clear. induction n as [|k IH]; [cbn; ring|]. cbn [sumn]. rewrite IH, S_INR. ring. }
      apply Rabs_le_inv in S, G. assert (K : INR n <= bpow radix2 50) by (rewrite INR_IZR_INZ; change (bpow radix2 50) with (IZR (2 ^ 50)); apply IZR_le; lia).
      assert (K2 : INR n * D <= / 4). { apply Rle_trans with (bpow radix2 50 * D); [apply Rmult_le_compat_r; [lra|exact K]|]. unfold D. rewrite <- bpow_plus. change (50 + -52)%Z with (-2)%Z. pow2. lra. }
      pose proof (pos_INR n) as N0. assert (KT : INR n * (12 * T) <= / 100 * D).
      { apply Rle_trans with (bpow radix2 50 * (bpow radix2 4 * T)); [apply Rmult_le_compat; [exact N0|unfold T; pose proof (bpow_gt_0 radix2 (-1075)); lra|exact K|]|].
        - apply Rmult_le_compat_r; [apply bpow_ge_0|change (bpow radix2 4) with (IZR 16); lra].
        - unfold T, D. rewrite <- !bpow_plus. apply Rle_trans with (bpow radix2 (-7 + -52)); [apply bpow_le; lia|]. rewrite bpow_plus. apply Rmult_le_compat_r; [apply bpow_ge_0|pow2; lra]. }
      assert (q <= 126 / 100) by lra. assert (0 <= INR n * D) by nra. assert ((3 * eps + 3 * D) * q <= (3 * eps + 3 * D) * (126 / 100)) by (apply Rmult_le_compat_l; lra). apply Rabs_le. split; lra.
  - intros Hc. apply Forall_map, Forall_forall. intros t Ht. apply in_seq in Ht. rewrite (P2 Hc t) by lia. reflexivity.
Qed.
(** Another landmark. *)
Lemma exact_change root p eta ball ball' : cabs2 root = 1 -> cpowZ root p = c1 ->
  (forall b i j t, in_ball ld r i b -> in_ball ld r j b -> in_ball ld r t b -> (p | eta i j + eta j t - eta i t)%Z) ->
  covering_choice e r n N ball -> covering_choice e r n N ball' ->
  root_class_map e r f n N root eta ball' = scale_rows (map (fun b => cpowZ root (eta (ball' b) (ball b))) (seq 0 N)) (root_class_map e r f n N root eta ball).
Proof.
  intros Hr Ho T C C'. unfold root_class_map. rewrite scale_mk2. apply mk2_ext. intros b t Hb Ht. destruct (unity_range t b Ht) as [U1 U2].
  destruct (in_ball_dec e n N r b HM) as [[i Hi]|H].
  - destruct (U1 (ex_intro _ i Hi)) as (y & -> & By & Q). cbn [option_map]. f_equal.
    destruct (C b Hb) as [_ K]. destruct (C' b Hb) as [_ K']. specialize (K (ex_intro _ i Hi)). specialize (K' (ex_intro _ i Hi)).
    destruct (Req_dec y 0) as [Z|Z].
    + rewrite Z, sqrt_0. csolve.
    + assert (B : in_ball ld r t b) by (apply Q; lra). pose proof (T b _ _ _ K' K B) as D.
      rewrite (cpowZ_divide root p (eta (ball' b) t) (eta (ball' b) (ball b) + eta (ball b) t)); [|exact Hr|exact Ho|].
      * rewrite cpowZ_add by exact Hr. csolve.
      * destruct D as [q D]. exists (- q)%Z. lia.
  - rewrite (U2 H). reflexivity.
Qed.
End Lens.
