(** PropRoundGeom.v -- C93: distances and landmarks computed in double precision. *)
From Coq Require Import Reals Lra Lia ZArith List Permutation Psatz.
From Flocq Require Import Core Relative.
From Verif Require Import Base BaseProofs RealBase RealSum EMModel SpecEM LLLModel SpecLLL LLLProofs GeometryModel SpecGeometry GeometryProofs PropGeometry
  SpecRound RoundBase RoundModel RoundProofs RoundCover RoundHarmonic SpecRoundGeom RoundGeomModel RoundGeomProofs PropRound PropRoundTorus.
Import ListNotations.
Local Open Scope R_scope.

(** * C93: get_csm and get_greedy_perm_pc in double precision *)

Lemma csm_d_at sums prod X Y i j : (i < length X)%nat -> (j < length Y)%nat ->
  at2 0 (map (fun i => map (csm_entry_d sums prod X Y i) (seq 0 (length Y))) (seq 0 (length X))) i j = csm_entry_d sums prod X Y i j.
Proof.
  intros Hi Hj. unfold at2. rewrite (nth_indep _ [] (map (csm_entry_d sums prod X Y 0) (seq 0 (length Y)))) by (rewrite map_length, seq_length; exact Hi).
  rewrite (map_nth (fun i => map (csm_entry_d sums prod X Y i) (seq 0 (length Y)))), seq_nth by exact Hi.
  rewrite (nth_indep _ 0 (csm_entry_d sums prod X Y (0 + i) 0)) by (rewrite map_length, seq_length; exact Hj).
  rewrite map_nth, seq_nth by exact Hj. reflexivity.
Qed.

(** Every entry is the Euclidean distance up to an error which is relative to the norms of the two
    points; in particular the square of the distance of a point to itself is not above this error. *)
Theorem C93_distances : forall sums prod dx X dy Y, rows_added sums -> product_sound prod -> (Z.of_nat dx <= 2 ^ 40)%Z ->
  doubles dx X -> doubles dy Y ->
  (dx = dy -> exists D, get_csm_d sums prod dx X dy Y = Ok D /\ matrix (length X) (length Y) D /\
     forall i j x y, nth_error X i = Some x -> nth_error Y j = Some y ->
       nearly_distance dx x y (euclid dx x y) (at2 0 D i j)) /\
  (dx <> dy -> get_csm_d sums prod dx X dy Y = Raise ValueError).
Proof.
  intros sums prod dx X dy Y Hs Hp Hd DX DY. unfold get_csm_d. split.
  - intros <-. rewrite Nat.eqb_refl. eexists. split; [reflexivity|]. split.
    + split; [rewrite map_length, seq_length; reflexivity|]. apply Forall_forall. intros r Hr. apply in_map_iff in Hr. destruct Hr as (i & <- & _).
      rewrite map_length, seq_length. reflexivity.
    + intros i j x y Ex Ey. rewrite csm_d_at by (apply nth_error_Some; congruence).
      destruct (csm_entry_close sums prod Hs Hp dx X Y i j x y Hd DX DY Ex Ey) as (A & B & C).
      split; [exact A|]. split; [exact B|]. split; [exact C|]. apply square_root_error; [exact B|apply euclid_nonneg|exact C].
  - intros N. replace (dx =? dy)%nat with false by (symmetry; apply Nat.eqb_neq; exact N). reflexivity.
Qed.
Print Assumptions C93_distances.

(** The diagonal of get_ssm is exactly zero where the product adds the squares up in the same way
    as the sum, and the matrix is symmetric if the product is. *)
Theorem C93_symmetric : forall sums prod d X D, get_ssm_d sums prod d X = Ok D ->
  (forall i, (i < length X)%nat -> double (prod X X i i) -> prod X X i i = sums (squares_d X) i -> at2 0 D i i = 0) /\
  (forall i j, (i < length X)%nat -> (j < length X)%nat -> prod X X i j = prod X X j i -> at2 0 D i j = at2 0 D j i).
Proof.
  intros sums prod d X D E. unfold get_ssm_d, get_csm_d in E. rewrite Nat.eqb_refl in E. injection E as <-. split.
  - intros i Hi Dp Ep. rewrite csm_d_at by assumption. unfold csm_entry_d. rewrite <- Ep.
    replace (prod X X i i + prod X X i i) with (2 * prod X X i i) by ring. rewrite Rminus_diag_eq by reflexivity. rewrite dbl_0.
    replace (Rltb 0 0) with false by (symmetry; apply Rltb_false; lra). rewrite sqrt_0. apply dbl_0.
  - intros i j Hi Hj Ep. rewrite !csm_d_at by assumption. unfold csm_entry_d.
    rewrite Ep, (Rplus_comm (sums (squares_d X) i)). reflexivity.
Qed.
Print Assumptions C93_symmetric.

(** Furthest point sampling with the computed distances: the landmarks cover the data within the
    last computed radius, and are that far apart, up to the error of the distances. *)
Theorem C93_landmarks : forall sums prod d X M, rows_added sums -> product_sound prod -> (Z.of_nat d <= 2 ^ 40)%Z ->
  doubles d X -> X <> [] -> (1 <= M)%Z ->
  exists Y perm lambdas D, get_greedy_perm_pc_d sums prod d X M = Ok (Y, perm, lambdas, D) /\
    length perm = Z.to_nat M /\ Forall (fun p => (p < length X)%nat) perm /\ Y = map (fun p => nth p X []) perm /\
    (forall i j, (1 <= i <= j)%nat -> (Z.of_nat j < M)%Z -> nth j lambdas 0 <= nth i lambdas 0) /\
    (forall k j y x, nth_error Y k = Some y -> nth_error X j = Some x -> nearly_distance d y x (euclid d y x) (at2 0 D k j)) /\
    (forall i j x y, (i < j)%nat -> nth_error Y i = Some x -> nth_error Y j = Some y ->
       nth j lambdas 0 <= euclid d x y + sqrt (csm_error d x y)) /\
    ((2 <= M)%Z -> forall x, In x X -> exists k y, (Z.of_nat k < M - 1)%Z /\ nth_error Y k = Some y /\
       euclid d y x <= last lambdas 0 + sqrt (csm_error d y x)).
Proof.
  intros sums prod d X M Hs Hp Hd DX HX HM. unfold get_greedy_perm_pc_d.
  set (dists := fun x => map (csm_entry_d sums prod [x] X 0) (seq 0 (length X))).
  assert (HR : forall x, In x X -> get_csm_d sums prod d [x] d X = Ok [dists x] /\ length (dists x) = length X).
  { intros x Hx. unfold get_csm_d. rewrite Nat.eqb_refl. split; [reflexivity|]. unfold dists. rewrite map_length, seq_length. reflexivity. }
  destruct (C66_point_cloud X M (fun A B => get_csm_d sums prod d A d B) dists HX HM HR) as (perm & lambdas & D & Edm & Epc). set (N := length X).
  assert (HN : (1 <= N)%nat) by (unfold N; destruct X; [congruence|cbn; lia]).
  assert (HD : matrix N N (map dists X)).
  { split; [apply map_length|]. apply Forall_forall. intros r Hr. apply in_map_iff in Hr. destruct Hr as (x & <- & Hx). apply HR, Hx. }
  destruct (C66_distance_matrix N M (map dists X) HN HM HD) as (perm' & lambdas' & E' & Hl & _ & G). rewrite Edm in E'. injection E' as <- <- ED.
  destruct (C66_radii N M (map dists X) perm lambdas D HN HM HD Edm) as (R1 & R2 & R3 & _).
  assert (Lp : length perm = Z.to_nat M) by apply G.
  assert (Fp : Forall (fun p => (p < N)%nat) perm).
  { apply Forall_forall. intros p Hin. apply In_nth_error in Hin. destruct Hin as (i & Hi). destruct i as [|i].
    - destruct G as (_ & G0 & _). rewrite G0 in Hi. injection Hi as <-. lia.
    - destruct G as (_ & _ & G). destruct (G (S i)) as (p' & Ep' & HG); [assert (S i < length perm)%nat by (apply nth_error_Some; congruence); lia|].
      rewrite Hi in Ep'. injection Ep' as <-. apply HG. }
  assert (HA : forall p j y x, nth_error X p = Some y -> nth_error X j = Some x -> nearly_distance d y x (euclid d y x) (at2 0 (map dists X) p j)).
  { intros p j y x Ey Ex.
    assert (Hj : (j < length X)%nat) by (apply nth_error_Some; congruence).
    assert (EA : at2 0 (map dists X) p j = csm_entry_d sums prod [y] X 0 j).
    { unfold at2. rewrite (nth_error_nth (map dists X) p [] (x := dists y)) by (rewrite nth_error_map, Ey; reflexivity). unfold dists.
      rewrite (nth_indep _ 0 (csm_entry_d sums prod [y] X 0 0)) by (rewrite map_length, seq_length; exact Hj). rewrite map_nth, seq_nth by exact Hj. reflexivity. }
    rewrite EA. assert (DY : doubles d [y]) by (constructor; [|constructor]; apply (proj1 (Forall_forall _ _) DX), (nth_error_In _ _ Ey)).
    destruct (csm_entry_close sums prod Hs Hp d [y] X 0 j y x Hd DY DX eq_refl Ex) as (A & B & C).
    split; [exact A|]. split; [exact B|]. split; [exact C|]. apply square_root_error; [exact B|apply euclid_nonneg|exact C]. }
  assert (HY : forall k y, nth_error (map (fun p => nth p X []) perm) k = Some y -> (k < length perm)%nat /\ nth_error X (nth k perm 0%nat) = Some y).
  { intros k y Ek. rewrite nth_error_map in Ek. destruct (nth_error perm k) as [p|] eqn:Ep; [|discriminate]. injection Ek as <-.
    split; [apply nth_error_Some; congruence|]. rewrite (nth_error_nth perm k 0%nat Ep). apply nth_error_nth'.
    apply (proj1 (Forall_forall _ _) Fp). apply (nth_error_In _ _ Ep). }
  exists (map (fun p => nth p X []) perm), perm, lambdas, D. split; [exact Epc|]. split; [exact Lp|]. split; [exact Fp|]. split; [reflexivity|].
  split; [exact R1|]. split; [|split].
  - intros k j y x Ek Ej. destruct (HY k y Ek) as [Hk Ey]. rewrite ED.
    assert (EA : at2 0 (map (fun p => nth p (map dists X) []) perm) k j = at2 0 (map dists X) (nth k perm 0%nat) j).
    { unfold at2. f_equal. rewrite (nth_indep _ [] (nth 0%nat (map dists X) [])) by (rewrite map_length; exact Hk). rewrite (map_nth (fun p => nth p (map dists X) [])). reflexivity. }
    rewrite EA. apply HA; assumption.
  - intros i j x y Hij Ei Ej. destruct (HY i x Ei) as [Hi Ex]. destruct (HY j y Ej) as [Hj Ey].
    destruct (R2 i j Hij ltac:(lia)) as [_ B]. destruct (HA _ _ x y Ex Ey) as (_ & _ & _ & C & _). apply Rabs_le_inv in C. lra.
  - intros HM2 x Hx. apply In_nth_error in Hx. destruct Hx as (j & Ex). destruct (R3 HM2 j) as (k & Hk & B); [apply nth_error_Some; congruence|].
    exists k, (nth (nth k perm 0%nat) X []). split; [exact Hk|].
    assert (Ek : nth_error (map (fun p => nth p X []) perm) k = Some (nth (nth k perm 0%nat) X [])).
    { rewrite nth_error_map, (nth_error_nth' perm 0%nat) by lia. reflexivity. }
    split; [exact Ek|]. destruct (HY k _ Ek) as [_ Ey]. destruct (HA _ _ _ x Ey Ex) as (_ & _ & _ & C & _). apply Rabs_le_inv in C. lra.
Qed.
Print Assumptions C93_landmarks.

(** Two landmarks whose balls of radius r meet at a data point, by the computed distances, are at a
    computed distance less than 2 r plus three times the largest error. *)
Theorem C93_balls_that_meet : forall sums prod sums' prod' d L X DLL DLX r E i j b, rows_added sums -> product_sound prod ->
  rows_added sums' -> product_sound prod' -> (Z.of_nat d <= 2 ^ 40)%Z -> doubles d L -> doubles d X ->
  get_csm_d sums prod d L d X = Ok DLX -> get_csm_d sums' prod' d L d L = Ok DLL ->
  (forall x y, In x (L ++ X) -> In y (L ++ X) -> csm_error d x y <= E ^ 2) -> 0 <= E ->
  (i < length L)%nat -> (j < length L)%nat -> (b < length X)%nat ->
  at2 0 DLX i b < r -> at2 0 DLX j b < r -> at2 0 DLL i j < 2 * r + 3 * E.
Proof.
  intros sums prod sums' prod' d L X DLL DLX r E i j b Hs Hp Hs' Hp' Hd DL DX E1 E2 HE HE0 Hi Hj Hb Bi Bj.
  assert (Gi : exists x, nth_error L i = Some x) by (destruct (nth_error L i) eqn:Q; [eauto|apply nth_error_None in Q; lia]).
  assert (Gj : exists x, nth_error L j = Some x) by (destruct (nth_error L j) eqn:Q; [eauto|apply nth_error_None in Q; lia]).
  assert (Gb : exists x, nth_error X b = Some x) by (destruct (nth_error X b) eqn:Q; [eauto|apply nth_error_None in Q; lia]).
  destruct Gi as (x & Ex), Gj as (y & Ey), Gb as (z & Ez).
  destruct (C93_distances sums prod d L d X Hs Hp Hd DL DX) as [H1 _]. destruct (H1 eq_refl) as (D1 & F1 & _ & A1). rewrite E1 in F1. injection F1 as <-.
  destruct (C93_distances sums' prod' d L d L Hs' Hp' Hd DL DL) as [H2 _]. destruct (H2 eq_refl) as (D2 & F2 & _ & A2). rewrite E2 in F2. injection F2 as <-.
  assert (SE : forall x y, In x (L ++ X) -> In y (L ++ X) -> sqrt (csm_error d x y) <= E).
  { intros p q P Q. rewrite <- (sqrt_pow2 E) by exact HE0. apply sqrt_le_1_alt, HE; assumption. }
  assert (IX : In x (L ++ X)) by (apply in_or_app; left; apply (nth_error_In _ _ Ex)). assert (IY : In y (L ++ X)) by (apply in_or_app; left; apply (nth_error_In _ _ Ey)).
  assert (IZ : In z (L ++ X)) by (apply in_or_app; right; apply (nth_error_In _ _ Ez)).
  destruct (A1 i b x z Ex Ez) as (_ & _ & _ & C1 & _). destruct (A1 j b y z Ey Ez) as (_ & _ & _ & C2 & _). destruct (A2 i j x y Ex Ey) as (_ & _ & _ & C3 & _).
  pose proof (SE x z IX IZ). pose proof (SE y z IY IZ). pose proof (SE x y IX IY).
  assert (LN : forall l v, doubles d l -> In v l -> length v = d) by (intros l v Hl Hv; apply (proj1 (Forall_forall _ _) Hl), Hv).
  pose proof (euclid_triangle d x z y (LN L x DL (nth_error_In _ _ Ex)) (LN X z DX (nth_error_In _ _ Ez)) (LN L y DL (nth_error_In _ _ Ey))) as T.
  rewrite (euclid_sym d z y) in T. apply Rabs_le_inv in C1, C2, C3. lra.
Qed.
Print Assumptions C93_balls_that_meet.

(** ** What goes wrong *)

Lemma dbl_big m : (2 ^ 54 <= m < 2 ^ 55)%Z -> (m mod 4 = 1)%Z -> dbl (IZR m) = IZR (m - 1).
Proof.
  intros Hm H4. change (2 ^ 54)%Z with 18014398509481984%Z in Hm. change (2 ^ 55)%Z with 36028797018963968%Z in Hm.
  rewrite (dbl_exactly 2 (IZR m) (m / 4)); [|lia| |].
  - change (bpow radix2 2) with 4. rewrite <- mult_IZR. f_equal. pose proof (Z.div_mod m 4 ltac:(lia)). lia.
  - change (bpow radix2 (2 + 52)) with 18014398509481984. change (bpow radix2 (2 + 53)) with 36028797018963968. split; [apply IZR_le; lia|apply IZR_lt; lia].
  - left. change (bpow radix2 (- (2))) with (/ 4). pose proof (Z.div_mod m 4 ltac:(lia)) as E. rewrite H4 in E. rewrite E at 1. rewrite plus_IZR, mult_IZR.
    replace ((4 * IZR (m / 4) + 1) * / 4 - IZR (m / 4)) with (/ 4) by field. rewrite Rabs_right by lra. lra.
Qed.

(** Far from the origin distances are lost: on the line, where the only freedom numpy has is gone,
    the points 2^27 and 2^27 + 1 get the distance 0 (the points 0 and 1 get 1), and furthest point
    sampling takes the same landmark twice although the points are different. *)
Theorem C93_translation_refuted : forall sums prod, rows_added sums ->
  (forall X Y i j x y, nth_error X i = Some [x] -> nth_error Y j = Some [y] -> prod X Y i j = dbl (x * y)) ->
  let a := 134217728 in
  doubles 1 [[a]; [a + 1]] /\
  get_csm_d sums prod 1 [[0]] 1 [[1]] = Ok [[1]] /\
  get_csm_d sums prod 1 [[a]] 1 [[a + 1]] = Ok [[0]] /\
  get_greedy_perm_pc_d sums prod 1 [[a]; [a + 1]] 2 = Ok ([[a]; [a]], [0; 0]%nat, [0; 0], [[0; 0]; [0; 0]]).
Proof.
  intros sums prod Hs Hp a.
  assert (ES : forall X i x, nth_error X i = Some [x] -> sums (squares_d X) i = dbl (x * x)).
  { intros X i x Ex. apply added_one; [|apply dbl_dbl]. apply Hs. unfold squares_d. rewrite nth_error_map, Ex. reflexivity. }
  assert (EN : forall X Y i j x y, nth_error X i = Some [x] -> nth_error Y j = Some [y] ->
    csm_entry_d sums prod X Y i j = let c := dbl (dbl (dbl (x * x) + dbl (y * y)) - dbl (2 * dbl (x * y))) in dbl (sqrt (if Rltb c 0 then 0 else c))).
  { intros X Y i j x y Ex Ey. unfold csm_entry_d. rewrite (ES X i x Ex), (ES Y j y Ey), (Hp X Y i j x y Ex Ey). reflexivity. }
  assert (DI : forall m, (Z.abs m <= 2 ^ 53)%Z -> dbl (IZR m) = IZR m) by (intros; apply double_IZR; assumption).
  assert (B : forall m e, (Z.abs m <= 2 ^ 53)%Z -> (-1074 <= e)%Z -> dbl (IZR m * bpow radix2 e) = IZR m * bpow radix2 e) by (intros; apply double_F; assumption).
  assert (D54 : dbl 18014398509481984 = 18014398509481984) by (pose proof (B 1%Z 54%Z ltac:(lia) ltac:(lia)) as H; change (bpow radix2 54) with 18014398509481984 in H; rewrite Rmult_1_l in H; exact H).
  assert (D55 : dbl 36028797018963968 = 36028797018963968) by (pose proof (B 1%Z 55%Z ltac:(lia) ltac:(lia)) as H; change (bpow radix2 55) with 36028797018963968 in H; rewrite Rmult_1_l in H; exact H).
  assert (G4 : forall k, (Z.abs k <= 2 ^ 53)%Z -> dbl (IZR (4 * k)) = IZR (4 * k)).
  { intros k Hk. pose proof (B k 2%Z Hk ltac:(lia)) as H. change (bpow radix2 2) with 4 in H. rewrite mult_IZR, Rmult_comm. exact H. }
  assert (E01 : forall X Y i j, nth_error X i = Some [0] -> nth_error Y j = Some [1] -> csm_entry_d sums prod X Y i j = 1).
  { intros X Y i j Ex Ey. rewrite (EN X Y i j 0 1 Ex Ey). cbv zeta. rewrite !Rmult_0_l, !Rmult_1_l, !dbl_0.
    rewrite (DI 1%Z) by (cbn; lia). rewrite Rplus_0_l, (DI 1%Z) by (cbn; lia). rewrite Rmult_0_r, dbl_0, Rminus_0_r, (DI 1%Z) by (cbn; lia).
    replace (Rltb 1 0) with false by (symmetry; apply Rltb_false; lra). rewrite sqrt_1. apply (DI 1%Z). cbn; lia. }
  assert (EAA : forall X Y i j, nth_error X i = Some [a] -> nth_error Y j = Some [a] -> csm_entry_d sums prod X Y i j = 0).
  { intros X Y i j Ex Ey. rewrite (EN X Y i j a a Ex Ey). cbv zeta. replace (dbl (a * a) + dbl (a * a)) with (2 * dbl (a * a)) by ring.
    rewrite Rminus_diag_eq by reflexivity. rewrite dbl_0. replace (Rltb 0 0) with false by (symmetry; apply Rltb_false; lra). rewrite sqrt_0. apply dbl_0. }
  assert (EAB : forall X Y i j, nth_error X i = Some [a] -> nth_error Y j = Some [a + 1] -> csm_entry_d sums prod X Y i j = 0).
  { intros X Y i j Ex Ey. rewrite (EN X Y i j a (a + 1) Ex Ey). cbv zeta.
    assert (Q1 : dbl (a * a) = 18014398509481984) by (unfold a; replace (134217728 * 134217728) with 18014398509481984 by lra; exact D54).
    assert (Q2 : dbl ((a + 1) * (a + 1)) = 18014398777917440).
    { unfold a. replace ((134217728 + 1) * (134217728 + 1)) with (IZR 18014398777917441) by lra. apply (dbl_big 18014398777917441); [lia|reflexivity]. }
    assert (Q3 : dbl (a * (a + 1)) = 18014398643699712).
    { unfold a. replace (134217728 * (134217728 + 1)) with 18014398643699712 by lra. exact (G4 4503599660924928%Z ltac:(lia)). }
    rewrite Q1, Q2, Q3. replace (18014398509481984 + 18014398777917440) with 36028797287399424 by lra.
    replace (2 * 18014398643699712) with 36028797287399424 by lra. rewrite Rminus_diag_eq by reflexivity. rewrite dbl_0.
    replace (Rltb 0 0) with false by (symmetry; apply Rltb_false; lra). rewrite sqrt_0. apply dbl_0. }
  assert (Da : double a) by (apply (double_IZR 134217728); cbn; lia).
  assert (Da1 : double (a + 1)) by (unfold a; replace (134217728 + 1) with (IZR 134217729) by lra; apply double_IZR; cbn; lia).
  split; [repeat constructor; assumption|]. split; [unfold get_csm_d; cbn [Nat.eqb length seq map]; rewrite E01 by reflexivity; reflexivity|].
  split; [unfold get_csm_d; cbn [Nat.eqb length seq map]; rewrite EAB by reflexivity; reflexivity|].
  unfold get_greedy_perm_pc_d, get_greedy_perm_pc. cbn -[get_csm_d Rltb].
  assert (ER : get_csm_d sums prod 1 [[a]] 1 [[a]; [a + 1]] = Ok [[0; 0]]).
  { unfold get_csm_d; cbn [Nat.eqb length seq map]. rewrite EAA, EAB by reflexivity. reflexivity. }
  assert (L0 : Rltb 0 0 = false) by (apply Rltb_false; lra).
  rewrite ER. cbn -[get_csm_d Rltb]. unfold greedy_loop. cbn -[get_csm_d Rltb]. unfold greedy_step. change (Pos.to_nat 2) with 2%nat. cbn -[get_csm_d Rltb]. rewrite L0. cbn -[get_csm_d Rltb].
  rewrite ER. cbn -[get_csm_d Rltb]. unfold minimum. cbn -[get_csm_d Rltb]. rewrite ?L0. reflexivity.
Qed.
Print Assumptions C93_translation_refuted.

(** numpy adding up coordinates from the last to the first for the sums and from the first to the
    last for the products. *)
Definition backward (X Y : list (list R)) (i j : nat) : R := running_dot (rev (nth i X [])) (rev (nth j Y [])).
Definition straight (X Y : list (list R)) (i j : nat) : R := running_dot (nth i X []) (nth j Y []).
Definition running_sums (A : list (list R)) (i : nat) : R := running_sum (nth i A []).
Lemma running_sums_added : rows_added running_sums.
Proof. intros A i row E. unfold running_sums. rewrite (nth_error_nth _ _ _ E). apply running_sum_added. Qed.
Lemma straight_sound : product_sound straight.
Proof.
  intros X Y i j x y Ex Ey L Fx Fy Hn. unfold straight. rewrite (nth_error_nth _ _ _ Ex), (nth_error_nth _ _ _ Ey). apply running_dot_sound; assumption.
Qed.
Lemma products_rev x y : length x = length y -> products (rev x) (rev y) = rev (products x y).
Proof.
  unfold products. revert y. induction x as [|a x IH]; intros [|b y] L; try discriminate; [reflexivity|]. injection L as L. cbn [rev combine map].
  assert (G : forall (l1 l2 : list R) u v, length l1 = length l2 -> combine (l1 ++ [u]) (l2 ++ [v]) = combine l1 l2 ++ [(u, v)]).
  { clear. induction l1 as [|p l1 IH]; intros [|q l2] u v H; try discriminate; [reflexivity|]. cbn. f_equal. apply IH. injection H. auto. }
  rewrite G by (rewrite !rev_length; exact L). rewrite map_app. f_equal. apply IH. exact L.
Qed.
Lemma backward_sound : product_sound backward.
Proof.
  intros X Y i j x y Ex Ey L Fx Fy Hn. unfold backward. rewrite (nth_error_nth _ _ _ Ex), (nth_error_nth _ _ _ Ey).
  destruct (running_dot_sound (rev x) (rev y)) as [A B].
  - rewrite !rev_length. exact L.
  - apply Forall_rev, Fx.
  - apply Forall_rev, Fy.
  - rewrite rev_length. exact Hn.
  - split; [exact A|]. rewrite products_rev, map_rev, rev_length in B by exact L.
    rewrite <- (total_perm _ _ (Permutation_rev (products x y))), <- (total_perm _ _ (Permutation_rev (map Rabs (products x y)))) in B. exact B.
Qed.

(** The diagonal of get_ssm need not be zero: a point of R^3 of norm about 1 whose computed distance
    to itself is above 2 * 10^-8, if numpy adds up the sum and the product in different orders. *)
Theorem C93_diagonal_refuted : exists sums prod x D, rows_added sums /\ product_sound prod /\ doubles 3 [x] /\
  inner 3 x x <= 1 + 1 / 10 ^ 15 /\ get_ssm_d sums prod 3 [x] = Ok D /\ 2 / 10 ^ 8 < at2 0 D 0 0.
Proof.
  set (s := 5 * bpow radix2 (-29)).
  assert (Ds : double s) by (apply (double_F 5); lia).
  assert (Es : dbl (s * s) = 25 * bpow radix2 (-58)).
  { replace (s * s) with (25 * bpow radix2 (-58)) by (unfold s; replace (-58)%Z with (-29 + -29)%Z by reflexivity; rewrite bpow_plus; ring). apply (double_F 25); lia. }
  assert (E1 : dbl (1 * 1) = 1) by (rewrite Rmult_1_l; apply (double_IZR 1); cbn; lia).
  assert (Ess : dbl (25 * bpow radix2 (-58) + 25 * bpow radix2 (-58)) = 50 * bpow radix2 (-58)) by (rewrite <- Rmult_plus_distr_r; replace (25 + 25) with 50 by lra; apply (double_F 50); lia).
  assert (EU : dbl (1 + 50 * bpow radix2 (-58)) = IZR (2 ^ 52 + 1) * bpow radix2 (-52)).
  { apply dbl_exactly; [lia| |].
    - change (bpow radix2 (-52 + 52)) with 1. change (bpow radix2 (-52 + 53)) with 2. pow2. change (2 ^ 58)%Z with 288230376151711744%Z. lra.
    - left. change (bpow radix2 (- -52)) with 4503599627370496. change (2 ^ 52 + 1)%Z with 4503599627370497%Z. pow2. change (2 ^ 58)%Z with 288230376151711744%Z. apply Rabs_def1; lra. }
  assert (ED : dbl (25 * bpow radix2 (-58) + 1) = 1).
  { rewrite (dbl_exactly (-52) _ (2 ^ 52)); [|lia| |].
    - change (2 ^ 52)%Z with 4503599627370496%Z. pow2. change (2 ^ 52)%Z with 4503599627370496%Z. lra.
    - change (bpow radix2 (-52 + 52)) with 1. change (bpow radix2 (-52 + 53)) with 2. pow2. change (2 ^ 58)%Z with 288230376151711744%Z. lra.
    - left. change (bpow radix2 (- -52)) with 4503599627370496. change (2 ^ 52)%Z with 4503599627370496%Z. pow2. change (2 ^ 58)%Z with 288230376151711744%Z. apply Rabs_def1; lra. }
  assert (D1 : double 1) by (apply (double_IZR 1); cbn; lia).
  exists running_sums, backward, [1; s; s], [[csm_entry_d running_sums backward [[1; s; s]] [[1; s; s]] 0 0]].
  split; [exact running_sums_added|]. split; [exact backward_sound|]. split; [repeat constructor; assumption|]. split; [|split; [reflexivity|]].
  - unfold inner, s. cbn. pow2. change (2 ^ 29)%Z with 536870912%Z. lra.
  - cbn [at2 nth]. unfold at2. cbn [nth]. unfold csm_entry_d.
    assert (A : running_sums (squares_d [[1; s; s]]) 0 = IZR (2 ^ 52 + 1) * bpow radix2 (-52)).
    { unfold running_sums, squares_d. cbn [map nth running_sum]. rewrite Es, E1, Ess. exact EU. }
    assert (P : backward [[1; s; s]] [[1; s; s]] 0 0 = 1).
    { unfold backward, running_dot. cbn [nth rev app combine map running_sum fst snd]. rewrite Es, E1, ED. exact ED. }
    rewrite A, P. rewrite Rmult_1_r.
    replace (IZR (2 ^ 52 + 1) * bpow radix2 (-52) + IZR (2 ^ 52 + 1) * bpow radix2 (-52)) with (IZR (2 ^ 52 + 1) * bpow radix2 (-51)) by (change (2 ^ 52 + 1)%Z with 4503599627370497%Z; pow2; change (2 ^ 52)%Z with 4503599627370496%Z; change (2 ^ 51)%Z with 2251799813685248%Z; lra).
    rewrite (double_F (2 ^ 52 + 1) (-51)) by lia. rewrite (double_IZR 2) by (cbn; lia).
    replace (IZR (2 ^ 52 + 1) * bpow radix2 (-51) - 2) with (1 * bpow radix2 (-51)) by (pow2; change (2 ^ 52 + 1)%Z with 4503599627370497%Z; change (2 ^ 51)%Z with 2251799813685248%Z; lra).
    rewrite (double_F 1 (-51)) by lia. rewrite Rmult_1_l. pose proof (bpow_gt_0 radix2 (-51)) as B0.
    replace (Rltb (bpow radix2 (-51)) 0) with false by (symmetry; apply Rltb_false; lra).
    apply Rlt_le_trans with (11 * bpow radix2 (-29)); [pow2; lra|]. apply dbl_ge_double; [apply (double_F 11); lia|].
    rewrite <- (sqrt_square (11 * bpow radix2 (-29))) by (pose proof (bpow_gt_0 radix2 (-29)); lra). apply sqrt_le_1_alt. pow2.  change (2 ^ 51)%Z with 2251799813685248%Z. lra.
Qed.
Print Assumptions C93_diagonal_refuted.

(** The hypotheses are met: a numpy, and three points in the plane whose distances are exact. *)
Example C93_met : rows_added running_sums /\ product_sound straight /\ product_sound backward /\
  doubles 2 [[0; 0]; [3; 4]; [0; 1]] /\ csm_error 2 [3; 4] [0; 1] <= (1 / 10 ^ 6) ^ 2.
Proof.
  split; [exact running_sums_added|]. split; [exact straight_sound|]. split; [exact backward_sound|]. split.
  - repeat constructor; try apply double_0; try (apply (double_IZR 3); cbn; lia); try (apply (double_IZR 4); cbn; lia); apply (double_IZR 1); cbn; lia.
  - unfold csm_error, inner. cbn [INR sumn nth plus]. pose proof (tiny_le (-1071) ltac:(lia)) as [_ T]. change (2 ^ 60)%Z with 1152921504606846976%Z in T.
    set (z := bpow radix2 (-1071)) in *. clearbody z. pow2. change (2 ^ 51)%Z with 2251799813685248%Z. lra.
Qed.

(** * C94: get_csm_projarc in double precision *)

Lemma Rmin_close a b : Rabs (Rmin 1 a - Rmin 1 b) <= Rabs (a - b).
Proof. unfold Rmin, Rabs. destruct (Rle_dec 1 a), (Rle_dec 1 b); repeat destruct (Rcase_abs _); lra. Qed.
Lemma projarc_d_at prod acos_ X Y i j : (i < length X)%nat -> (j < length Y)%nat ->
  at2 0 (map (fun i => map (projarc_entry_d prod acos_ X Y i) (seq 0 (length Y))) (seq 0 (length X))) i j = projarc_entry_d prod acos_ X Y i j.
Proof.
  intros Hi Hj. unfold at2. rewrite (nth_indep _ [] (map (projarc_entry_d prod acos_ X Y 0) (seq 0 (length Y)))) by (rewrite map_length, seq_length; exact Hi).
  rewrite (map_nth (fun i => map (projarc_entry_d prod acos_ X Y i) (seq 0 (length Y)))), seq_nth by exact Hi.
  rewrite (nth_indep _ 0 (projarc_entry_d prod acos_ X Y (0 + i) 0)) by (rewrite map_length, seq_length; exact Hj).
  rewrite map_nth, seq_nth by exact Hj. reflexivity.
Qed.

(** Every entry is the angle between the lines through the two points (for points of norm 1: the
    arc cosine of the absolute inner product), up to an error of the order of the square root of
    the precision: 10^-8 rather than 10^-16. *)
Theorem C94_arcs : forall prod acos_ dx X dy Y, product_sound prod -> libm_acos acos_ -> (Z.of_nat dx <= 2 ^ 50)%Z ->
  doubles dx X -> doubles dy Y ->
  (dx = dy -> exists D, get_csm_projarc_d prod acos_ dx X dy Y = Ok D /\ matrix (length X) (length Y) D /\
     forall i j x y, nth_error X i = Some x -> nth_error Y j = Some y ->
       double (at2 0 D i j) /\ 0 <= at2 0 D i j /\ Rabs (at2 0 D i j - acos (Rmin 1 (Rabs (inner dx x y)))) <= arc_error dx x y) /\
  (dx <> dy -> get_csm_projarc_d prod acos_ dx X dy Y = Raise ValueError).
Proof.
  intros prod acos_ dx X dy Y Hp Ha Hd DX DY. unfold get_csm_projarc_d. split.
  - intros <-. rewrite Nat.eqb_refl. eexists. split; [reflexivity|]. split.
    + split; [rewrite map_length, seq_length; reflexivity|]. apply Forall_forall. intros r Hr. apply in_map_iff in Hr. destruct Hr as (i & <- & _).
      rewrite map_length, seq_length. reflexivity.
    + intros i j x y Ex Ey. rewrite projarc_d_at by (apply nth_error_Some; congruence).
      destruct (proj1 (Forall_forall _ _) DX x (nth_error_In _ _ Ex)) as [Lx Fx].
      destruct (proj1 (Forall_forall _ _) DY y (nth_error_In _ _ Ey)) as [Ly Fy].
      destruct (Hp X Y i j x y Ex Ey ltac:(congruence) Fx Fy ltac:(rewrite Lx; exact Hd)) as [Dp Ep].
      unfold projarc_entry_d. set (p := prod X Y i j) in *. rewrite (total_products dx x y Lx Ly), Lx in Ep.
      pose proof (products_amgm x y ltac:(congruence)) as AG. rewrite (total_squares dx x Lx), (total_squares dx y Ly) in AG.
      assert (Q : Rabs (p - inner dx x y) <= inner_error dx x y).
      { eapply Rle_trans; [exact Ep|]. unfold inner_error. replace (bpow radix2 (-52)) with (2 * bpow radix2 (-53)) by (pow2; lra).
        pose proof (pos_INR dx). pose proof (bpow_gt_0 radix2 (-53)).
        assert (INR dx * bpow radix2 (-53) * (2 * total (map Rabs (products x y))) <= INR dx * bpow radix2 (-53) * (inner dx x x + inner dx y y)) by (apply Rmult_le_compat_l; [nra|exact AG]). lra. }
      pose proof (Rabs_pos p) as P0. replace (Rltb (Rabs p) (-1)) with false by (symmetry; apply Rltb_false; lra).
      set (q := if Rltb 1 (Rabs p) then 1 else Rabs p).
      assert (Eq : q = Rmin 1 (Rabs p)).
      { unfold q. destruct (Rltb 1 (Rabs p)) eqn:T; [apply Rltb_true in T; rewrite Rmin_left by lra; reflexivity|apply Rltb_false in T; rewrite Rmin_right by lra; reflexivity]. }
      assert (Hq : 0 <= q <= 1) by (rewrite Eq; unfold Rmin; destruct (Rle_dec 1 (Rabs p)); lra).
      assert (Dq : double q).
      { unfold q. destruct (Rltb 1 (Rabs p)); [apply (double_IZR 1); cbn; lia|]. unfold Rabs. destruct (Rcase_abs p); [apply double_opp; exact Dp|exact Dp]. }
      rewrite (Rabs_right q) by lra. destruct (Ha q Dq Hq) as (A & B & C). split; [exact A|]. split; [exact B|].
      set (m := Rmin 1 (Rabs (inner dx x y))). pose proof (Rabs_pos (inner dx x y)) as I0.
      assert (Hm : 0 <= m <= 1) by (unfold m, Rmin; destruct (Rle_dec 1 (Rabs (inner dx x y))); lra).
      assert (QM : Rabs (q - m) <= inner_error dx x y).
      { eapply Rle_trans; [|exact Q]. eapply Rle_trans; [|apply Rabs_triang_inv2]. rewrite Eq. apply Rmin_close. }
      pose proof (acos_holder q m Hq Hm) as H. assert (S : sqrt (Rabs (q - m)) <= sqrt (inner_error dx x y)) by (apply sqrt_le_1_alt; exact QM).
      unfold arc_error. replace (acos_ q - acos m) with ((acos_ q - acos q) + (acos q - acos m)) by ring. eapply Rle_trans; [apply Rabs_triang|]. lra.
  - intros N. replace (dx =? dy)%nat with false by (symmetry; apply Nat.eqb_neq; exact N). reflexivity.
Qed.
Print Assumptions C94_arcs.

(** The computed arc from a point to itself need not be zero: the point 1 - 2^-53 of the line, of
    norm 1 up to rounding, is at a computed distance above 2 * 10^-8 from itself. *)
Theorem C94_diagonal_refuted : forall prod acos_, libm_acos acos_ ->
  (forall X Y i j x y, nth_error X i = Some [x] -> nth_error Y j = Some [y] -> prod X Y i j = dbl (x * y)) ->
  let x := 1 - bpow radix2 (-53) in
  doubles 1 [[x]] /\ exists v, get_csm_projarc_d prod acos_ 1 [[x]] 1 [[x]] = Ok [[v]] /\ 2 / 10 ^ 8 < v.
Proof.
  intros prod acos_ Ha Hp x. assert (Dx : double x).
  { replace x with (IZR (2 ^ 53 - 1) * bpow radix2 (-53)) by (unfold x; change (2 ^ 53 - 1)%Z with 9007199254740991%Z; pow2; lra). apply double_F; lia. }
  split; [repeat constructor; exact Dx|].
  assert (E : dbl (x * x) = 1 - bpow radix2 (-52)).
  { rewrite (dbl_exactly (-53) _ (2 ^ 53 - 2)).
    - change (2 ^ 53 - 2)%Z with 9007199254740990%Z. pow2. lra.
    - lia.
    - change (bpow radix2 (-53 + 52)) with (/ 2). change (bpow radix2 (-53 + 53)) with 1. unfold x. pow2. lra.
    - left. change (bpow radix2 (- -53)) with 9007199254740992. change (2 ^ 53 - 2)%Z with 9007199254740990%Z. unfold x. pow2. apply Rabs_def1; lra. }
  set (v := 1 - bpow radix2 (-52)) in *. assert (Hv : 0 <= v <= 1) by (unfold v; pow2; lra).
  eexists. split; [unfold get_csm_projarc_d; cbn [Nat.eqb length seq map]; reflexivity|].
  unfold projarc_entry_d. rewrite (Hp [[x]] [[x]] 0%nat 0%nat x x eq_refl eq_refl), E. rewrite (Rabs_right v) by lra.
  replace (Rltb v (-1)) with false by (symmetry; apply Rltb_false; lra). replace (Rltb 1 v) with false by (symmetry; apply Rltb_false; lra).
  rewrite (Rabs_right v) by lra. destruct (Ha v) as (_ & _ & C); [rewrite <- E; apply dbl_dbl|exact Hv|].
  pose proof (acos_lower v ltac:(lra)) as L. assert (S : 11 * bpow radix2 (-29) <= sqrt (2 * (1 - v))).
  { rewrite <- (sqrt_square (11 * bpow radix2 (-29))) by (pose proof (bpow_gt_0 radix2 (-29)); lra). apply sqrt_le_1_alt. unfold v. pow2. lra. }
  apply Rabs_le_inv in C. clearbody v. revert S C. pow2. intros. lra.
Qed.
Print Assumptions C94_diagonal_refuted.

(** The hypotheses are met: the correctly rounded arc cosine, and two points of the unit circle. *)
Lemma rounded_acos : libm_acos (fun v => dbl (acos v)).
Proof.
  intros v Dv Hv. pose proof (acos_bound v) as B. pose proof PI_4 as P. split; [apply dbl_dbl|]. split; [apply dbl_ge_0; lra|].
  assert (A : acos v <= 2).
  { destruct (Rle_lt_dec (acos v) (PI / 2)) as [|N]; [lra|]. exfalso.
    assert (C : cos (acos v) < cos (PI / 2)) by (apply cos_decreasing_1; pose proof PI_RGT_0; lra). rewrite cos_acos, cos_PI2 in C by lra. lra. }
  destruct (Rle_lt_dec (bpow radix2 (-60)) (acos v)) as [L|L].
  - destruct (Req_dec (acos v) 2) as [->|N]; [rewrite (double_IZR 2) by (cbn; lia); rewrite Rminus_diag_eq, Rabs_R0 by reflexivity; apply bpow_ge_0|].
    assert (U : Rabs (dbl (acos v) - acos v) <= bpow radix2 (-53) * acos v + bpow radix2 (-1075)) by (pose proof (dbl_error (acos v)) as D; rewrite (Rabs_right (acos v)) in D by lra; exact D).
    pose proof (error_le_half_ulp radix2 F64 (fun x => negb (Z.even x)) (acos v)) as H. fold (dbl (acos v)) in H. eapply Rle_trans; [exact H|].
    assert (W : ulp radix2 F64 (acos v) <= bpow radix2 (-52)).
    { rewrite ulp_neq_0 by (pose proof (bpow_gt_0 radix2 (-60)); lra). apply bpow_le. unfold cexp, FLT_exp. 
      assert (mag radix2 (acos v) <= 1)%Z by (apply mag_le_bpow; [pose proof (bpow_gt_0 radix2 (-60)); lra|rewrite Rabs_right by lra; change (bpow radix2 1) with 2; lra]). lia. }
    pose proof (bpow_gt_0 radix2 (-52)). lra.
  - pose proof (dbl_error (acos v)) as D. rewrite (Rabs_right (acos v)) in D by lra. eapply Rle_trans; [exact D|].
    pose proof (tiny_le (-1075) ltac:(lia)) as [_ T]. change (2 ^ 60)%Z with 1152921504606846976%Z in T. set (t := bpow radix2 (-1075)) in *. clearbody t. revert L. pow2. intros L. lra.
Qed.
Example C94_met : libm_acos (fun v => dbl (acos v)) /\ product_sound straight /\ doubles 2 [[1; 0]; [0; 1]] /\ inner 2 [1; 0] [1; 0] = 1.
Proof.
  split; [exact rounded_acos|]. split; [exact straight_sound|]. split.
  - repeat constructor; try apply double_0; apply (double_IZR 1); cbn; lia.
  - unfold inner. cbn. ring.
Qed.
