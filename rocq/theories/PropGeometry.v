(** PropGeometry.v -- C64-C67: GeometryUtils. *)
From Coq Require Import List ZArith Reals Lia Lra Psatz Permutation.
From Verif Require Import Base BaseProofs RealBase RealSum SpecEM LLLModel SpecLLL LLLProofs SpecMapUtils GeometryModel SpecGeometry GeometryProofs.
Import ListNotations.
Local Open Scope R_scope.

(** * C64: Euclidean distances *)

(** The entries of get_csm are the Euclidean distances: the clipping of negative values never
    changes anything (in exact arithmetic); clouds of different dimension are refused. *)
Theorem C64_distances : forall dx X dy Y,
  Forall (fun x => length x = dx) X -> Forall (fun y => length y = dy) Y ->
  (dx = dy -> get_csm dx X dy Y = Ok (map (fun x => map (fun y => euclid dx x y) Y) X)) /\
  (dx <> dy -> get_csm dx X dy Y = Raise ValueError).
Proof.
  intros dx X dy Y HX HY. rewrite Forall_forall in HX, HY. unfold get_csm. split.
  - intros ->. rewrite Nat.eqb_refl. f_equal. apply map_ext_in. intros x Hx. apply map_ext_in. intros y Hy.
    apply csm_entry_euclid; auto.
  - intros H. apply Nat.eqb_neq in H. rewrite H. reflexivity.
Qed.
Print Assumptions C64_distances.

(** get_ssm is a metric on the points: symmetric, zero exactly between equal points, with the
    triangle inequality. *)
Theorem C64_metric : forall d X, Forall (fun x => length x = d) X ->
  exists D, get_ssm d X = Ok D /\ matrix (length X) (length X) D /\
    pseudometric (length X) (at2 0 D) /\
    (forall i j, (i < length X)%nat -> (j < length X)%nat -> (at2 0 D i j = 0 <-> nth i X [] = nth j X [])).
Proof.
  intros d X HX. eexists. split; [unfold get_ssm; apply (C64_distances d X d X HX HX); reflexivity|].
  assert (Hl : forall i, (i < length X)%nat -> length (nth i X []) = d) by (intros i Hi; rewrite Forall_forall in HX; apply HX; apply nth_In; exact Hi).
  assert (E : forall i j, (i < length X)%nat -> (j < length X)%nat ->
     at2 0 (map (fun x => map (fun y => euclid d x y) X) X) i j = euclid d (nth i X []) (nth j X [])).
  { intros i j Hi Hj. unfold at2.
    rewrite (nth_indep (map _ X) [] ((fun x => map (fun y => euclid d x y) X) [])) by (rewrite map_length; exact Hi). rewrite (map_nth (fun x => map (fun y => euclid d x y) X)).
    rewrite (nth_indep (map _ X) 0 (euclid d (nth i X []) [])) by (rewrite map_length; exact Hj). apply map_nth. }
  split; [|split; [split; [|split]|]].
  - split; [apply map_length|]. apply Forall_forall. intros r Hr. apply in_map_iff in Hr. destruct Hr as [x [<- _]]. apply map_length.
  - intros i Hi. rewrite E by assumption. apply (euclid_zero d); auto.
  - intros i j Hi Hj. rewrite !E by assumption. split; [apply euclid_nonneg|apply euclid_sym].
  - intros i j k Hi Hj Hk. rewrite !E by assumption. apply euclid_triangle; auto.
  - intros i j Hi Hj. rewrite E by assumption. apply euclid_zero; auto.
Qed.
Print Assumptions C64_metric.

Example C64_met : Forall (fun x => length x = 2%nat) [[0; 0]; [3; 4]; [0; 0]] /\ euclid 2 [0; 0] [3; 4] = 5.
Proof.
  split; [repeat constructor|]. unfold euclid. cbn. replace (0 + (0 - 3) * ((0 - 3) * 1) + (0 - 4) * ((0 - 4) * 1)) with (5 * 5) by ring. apply sqrt_square. lra.
Qed.

(** * C65: projective arc length *)

(** For any clouds the entries are between 0 and pi/2. *)
Theorem C65_range : forall d X Y, exists D, get_csm_projarc d X d Y = Ok D /\ matrix (length X) (length Y) D /\
  Forall (Forall (fun t => 0 <= t <= PI / 2)) D.
Proof.
  intros d X Y. unfold get_csm_projarc. rewrite Nat.eqb_refl. eexists. split; [reflexivity|]. split.
  - split; [apply map_length|]. apply Forall_forall. intros r Hr. apply in_map_iff in Hr. destruct Hr as [x [<- _]]. apply map_length.
  - apply Forall_forall. intros r Hr. apply in_map_iff in Hr. destruct Hr as [x [<- _]].
    apply Forall_forall. intros t Ht. apply in_map_iff in Ht. destruct Ht as [y [<- _]]. unfold projarc_entry.
    set (D := Rabs (vdot x y)). assert (H0 : 0 <= D) by apply Rabs_pos.
    destruct (Rltb D (-1)) eqn:E; [apply Rltb_true in E; lra|]. destruct (Rltb 1 D) eqn:E2.
    + rewrite Rabs_R1. apply acos_half. lra.
    + apply Rltb_false in E2. rewrite Rabs_pos_eq by exact H0. apply acos_half. lra.
Qed.
Print Assumptions C65_range.

(** On unit vectors the entry for x, y is arccos |<x,y>|: it does not see signs, is symmetric, zero
    exactly for equal or antipodal vectors, and satisfies the triangle inequality. *)
Theorem C65_projective_metric : forall d X Y, Forall (unit_vector d) X -> Forall (unit_vector d) Y ->
  exists dist, get_csm_projarc d X d Y = Ok (map (fun x => map (dist x) Y) X) /\
    forall x y z, unit_vector d x -> unit_vector d y -> unit_vector d z ->
      cos (dist x y) = Rabs (inner d x y) /\
      dist x y = dist y x /\ dist (negated x) y = dist x y /\ dist x (negated y) = dist x y /\
      (dist x y = 0 <-> x = y \/ x = negated y) /\
      dist x z <= dist x y + dist y z.
Proof.
  intros d X Y HX HY. exists (fun x y => acos (Rabs (inner d x y))). rewrite Forall_forall in HX, HY. split.
  - unfold get_csm_projarc. rewrite Nat.eqb_refl. f_equal. apply map_ext_in. intros x Hx. apply map_ext_in. intros y Hy.
    apply projarc_value; [apply HX|apply HY]; assumption.
  - intros x y z Hx Hy Hz.
    assert (Hneg : forall u v, inner d (negated u) v = - inner d u v).
    { intros u v. unfold inner, negated. rewrite <- sumn_opp. apply sumn_ext. intros i _. replace 0 with (- 0) at 1 by ring. rewrite map_nth. ring. }
    pose proof (unit_inner_le d x y Hx Hy) as H1. pose proof (Rabs_pos (inner d x y)) as H0.
    split; [apply cos_acos; lra|]. split; [rewrite inner_comm; reflexivity|].
    split; [rewrite Hneg, Rabs_Ropp; reflexivity|]. split; [rewrite inner_comm, Hneg, Rabs_Ropp, inner_comm; reflexivity|].
    assert (Hun : unit_vector d (negated y)).
    { split; [unfold negated; rewrite map_length; apply Hy|]. rewrite Hneg, inner_comm, Hneg. destruct Hy as [_ ->]. ring. }
    split; [split|apply projarc_angle_triangle; assumption].
    + intros E. apply acos_zero in E; [|lra]. unfold Rabs in E. destruct (Rcase_abs (inner d x y)).
      * right. apply (unit_inner_one d); [exact Hx|exact Hun|]. rewrite inner_comm, Hneg, inner_comm. lra.
      * left. apply (unit_inner_one d); [exact Hx|exact Hy|]. lra.
    + intros [-> | ->].
      * destruct Hy as [_ ->]. rewrite Rabs_R1. apply acos_1.
      * rewrite Hneg. destruct Hy as [_ ->]. rewrite Rabs_Ropp, Rabs_R1. apply acos_1.
Qed.
Print Assumptions C65_projective_metric.

Example C65_met : Forall (unit_vector 2) [[3 / 5; 4 / 5]; [0; 1]; [- (3 / 5); - (4 / 5)]].
Proof. repeat constructor; unfold inner; cbn; field. Qed.

(** * C66: greedy permutations *)

(** On an N x N matrix of any numbers and M >= 1: the permutation and the radii are those of
    furthest point sampling from point 0, lambdas[0] is 0, and the rows returned are the rows of
    the landmarks. *)
Theorem C66_distance_matrix : forall N M D, (1 <= N)%nat -> (1 <= M)%Z -> matrix N N D ->
  exists perm lambdas, get_greedy_perm_dm D M = Ok (perm, lambdas, map (fun p => nth p D []) perm) /\
    length lambdas = Z.to_nat M /\ nth_error lambdas 0 = Some 0 /\
    greedy_permutation Rle N (Z.to_nat M) (at2 0 D) perm (fun i => nth i lambdas 0).
Proof.
  intros N M D HN HM [HD Hrow]. rewrite Forall_forall in Hrow.
  assert (Hget : forall k, (k < N)%nat -> get IndexError D k = Ok (nth k D [])).
  { intros k Hk. unfold get. rewrite (nth_error_nth' D [] (n := k)) by lia. reflexivity. }
  assert (Hlen : forall k, (k < N)%nat -> length (nth k D []) = N) by (intros k Hk; apply Hrow; apply nth_In; lia).
  destruct (greedy_loop_ok Rltb Rltb_irr Rltb_trans Rltb_total N 0 (get IndexError D) (fun k => nth k D []) Hget Hlen HN (Z.to_nat M)) as [st [E I]]; [lia|].
  exists (g_perm st), (g_lambdas st). split; [|split; [|split]].
  - unfold get_greedy_perm_dm. replace (0 <=? M)%Z with true by (symmetry; apply Z.leb_le; lia).
    rewrite (Hget 0%nat) by lia. cbn [bind]. replace (M =? 0)%Z with false by (symmetry; apply Z.eqb_neq; lia).
    rewrite E. cbn [bind].
    assert (Em : map_res (get IndexError D) (g_perm st) = Ok (map (fun p => nth p D []) (g_perm st))).
    { destruct I as [_ [_ [_ [_ [_ [Hin _]]]]]]. induction Hin as [|p l Hp _ IH]; [reflexivity|]. cbn [map_res map]. rewrite Hget by exact Hp. cbn [bind]. rewrite IH. reflexivity. }
    rewrite Em. reflexivity.
  - apply I.
  - apply I.
  - apply (greedy_le_ext (le Rltb)); [exact le_R|]. apply (inv_greedy Rltb N 0 (fun k => nth k D [])). exact I.
Qed.
Print Assumptions C66_distance_matrix.

(** What follows for users: from the second on the radii do not increase; landmarks are pairwise at
    least the last radius apart; every point is within the last radius of an earlier landmark; and
    points at positive distances give distinct landmarks. *)
Theorem C66_radii : forall N M D perm lambdas DL, (1 <= N)%nat -> (1 <= M)%Z -> matrix N N D ->
  get_greedy_perm_dm D M = Ok (perm, lambdas, DL) ->
  (forall i j, (1 <= i <= j)%nat -> (Z.of_nat j < M)%Z -> nth j lambdas 0 <= nth i lambdas 0) /\
  (forall i j, (i < j)%nat -> (Z.of_nat j < M)%Z ->
     last lambdas 0 <= nth j lambdas 0 <= at2 0 D (nth i perm 0%nat) (nth j perm 0%nat)) /\
  ((2 <= M)%Z -> forall j, (j < N)%nat -> exists k, (Z.of_nat k < M - 1)%Z /\ at2 0 D (nth k perm 0%nat) j <= last lambdas 0) /\
  ((M <= Z.of_nat N)%Z -> (forall i, (i < N)%nat -> at2 0 D i i = 0) ->
     (forall i j, (i < N)%nat -> (j < N)%nat -> i <> j -> 0 < at2 0 D i j) -> NoDup perm).
Proof.
  intros N M D perm lambdas DL HN HM HD E. destruct (C66_distance_matrix N M D HN HM HD) as [perm' [lambdas' [E' [Hl [Hl0 G]]]]].
  rewrite E in E'. injection E' as <- <- _.
  assert (Elast : last lambdas 0 = nth (Z.to_nat M - 1) lambdas 0).
  { assert (HG : forall l : list R, last l 0 = nth (length l - 1) l 0).
    { clear. induction l as [|a l IH]; [reflexivity|]. destruct l as [|b l]; [reflexivity|].
      change (last (a :: b :: l) 0) with (last (b :: l) 0). rewrite IH. cbn [length].
      replace (S (S (length l)) - 1)%nat with (S (S (length l) - 1)) by lia. reflexivity. }
    rewrite HG, Hl. reflexivity. }
  rewrite Elast. split; [|split; [|split]].
  - intros i j Hij Hj. apply (radii_decrease N (Z.to_nat M) (at2 0 D) perm (fun i => nth i lambdas 0) G i j); lia.
  - intros i j Hij Hj. split.
    + apply (radii_decrease N (Z.to_nat M) (at2 0 D) perm (fun i => nth i lambdas 0) G j (Z.to_nat M - 1)); lia.
    + apply (radii_packed N (Z.to_nat M) (at2 0 D) perm (fun i => nth i lambdas 0) G i j); lia.
  - intros HM2 j Hj. destruct (radii_covered N (Z.to_nat M) (at2 0 D) perm (fun i => nth i lambdas 0) G (Z.to_nat M - 1) j) as [k [Hk H]]; [lia|exact Hj|].
    exists k. split; [lia|exact H].
  - intros HMN H0 Hp. apply (distinct_landmarks N (Z.to_nat M) (at2 0 D) perm (fun i => nth i lambdas 0) G); [lia|exact H0|exact Hp].
Qed.
Print Assumptions C66_radii.

(** On a (pseudo)metric the last radius is at most twice the best covering radius achievable with
    M - 1 centres: whatever centres are chosen, if every point is within rho of one of them then the
    landmarks but the last cover all points within 2 rho. *)
Theorem C66_two_approximation : forall N M D perm lambdas DL centres rho, (1 <= N)%nat -> (1 <= M)%Z -> matrix N N D ->
  pseudometric N (at2 0 D) -> get_greedy_perm_dm D M = Ok (perm, lambdas, DL) ->
  Forall (fun c => (c < N)%nat) centres -> (Z.of_nat (length centres) < M)%Z ->
  (forall j, (j < N)%nat -> exists c, In c centres /\ at2 0 D c j <= rho) ->
  last lambdas 0 <= 2 * rho.
Proof.
  intros N M D perm lambdas DL centres rho HN HM HD Hpm E Hc Hlen Hcov.
  destruct (C66_distance_matrix N M D HN HM HD) as [perm' [lambdas' [E' [Hl [Hl0 G]]]]].
  rewrite E in E'. injection E' as <- <- _.
  assert (Elast : last lambdas 0 = nth (Z.to_nat M - 1) lambdas 0).
  { assert (HG : forall l : list R, last l 0 = nth (length l - 1) l 0).
    { clear. induction l as [|a l IH]; [reflexivity|]. destruct l as [|b l]; [reflexivity|].
      change (last (a :: b :: l) 0) with (last (b :: l) 0). rewrite IH. cbn [length].
      replace (S (S (length l)) - 1)%nat with (S (S (length l) - 1)) by lia. reflexivity. }
    rewrite HG, Hl. reflexivity. }
  rewrite Elast. apply (two_approximation N (Z.to_nat M) (at2 0 D) perm (fun i => nth i lambdas 0) G centres rho Hpm); auto. lia.
Qed.
Print Assumptions C66_two_approximation.

(** The point cloud version, for a cross-similarity function that returns a row of N distances for
    every point (get_csm and get_csm_projarc do): it is the distance matrix version on the matrix of
    these rows, and Y holds the points of the permutation. *)
Theorem C66_point_cloud : forall X M csm_fn dists, X <> [] -> (1 <= M)%Z ->
  (forall x, In x X -> csm_fn [x] X = Ok [dists x] /\ length (dists x) = length X) ->
  exists perm lambdas DL, get_greedy_perm_dm (map dists X) M = Ok (perm, lambdas, DL) /\
    get_greedy_perm_pc X M csm_fn = Ok (map (fun p => nth p X []) perm, perm, lambdas, DL).
Proof.
  intros X M csm_fn dists HX HM Hf. set (D := map dists X). set (N := length X).
  assert (HN : (1 <= N)%nat) by (unfold N; destruct X; [congruence|cbn; lia]).
  assert (HD : matrix N N D).
  { split; [apply map_length|]. apply Forall_forall. intros r Hr. apply in_map_iff in Hr. destruct Hr as [x [<- Hx]]. apply (Hf x Hx). }
  destruct (C66_distance_matrix N M D HN HM HD) as [perm [lambdas [E [Hl [Hl0 G]]]]].
  exists perm, lambdas, (map (fun p => nth p D []) perm). split; [exact E|].
  unfold get_greedy_perm_dm in E. unfold get_greedy_perm_pc.
  replace (0 <=? M)%Z with true in * by (symmetry; apply Z.leb_le; lia).
  replace (M =? 0)%Z with false in * by (symmetry; apply Z.eqb_neq; lia). cbn [negb].
  set (row := fun idx => x <- get IndexError X idx ;; c <- csm_fn [x] X ;; guard (length (concat c) =? length X)%nat else ValueError ;; Ok (concat c)).
  assert (Erow : forall idx, row idx = get IndexError D idx).
  { intros idx. unfold row, get, D. rewrite nth_error_map. destruct (nth_error X idx) as [x|] eqn:Ex; [|reflexivity]. cbn [bind option_map].
    destruct (Hf x (nth_error_In _ _ Ex)) as [-> Lx]. cbn [bind concat]. rewrite app_nil_r, Lx, Nat.eqb_refl. reflexivity. }
  cbv zeta. change (ds <- row 0%nat ;; st <- greedy_loop Rltb 0 row (Z.to_nat M) ds ;; Y <- map_res (get IndexError X) (g_perm st) ;; Ok (Y, g_perm st, g_lambdas st, g_D st) = Ok (map (fun p => nth p X []) perm, perm, lambdas, map (fun p => nth p D []) perm)). rewrite (Erow 0%nat). destruct (get IndexError D 0) as [ds|] eqn:E0; [|discriminate]. cbn [bind] in *.
  assert (Eloop : greedy_loop Rltb 0 row (Z.to_nat M) ds = greedy_loop Rltb 0 (get IndexError D) (Z.to_nat M) ds).
  { unfold greedy_loop. generalize (mkGreedy [0%nat] [0] [ds] ds). induction (range 1 (Z.to_nat M)) as [|i l IH]; intros st; [reflexivity|].
    cbn [for_in]. unfold greedy_step at 1 3. destruct (argmax Rltb (g_ds st)) as [idx|]; [|reflexivity]. cbn [bind].
    destruct (get IndexError (g_ds st) idx) as [lam|]; [|reflexivity]. cbn [bind]. rewrite Erow.
    destruct (get IndexError D idx) as [r|]; [|reflexivity]. cbn [bind]. apply IH. }
  rewrite Eloop. destruct (greedy_loop Rltb 0 (get IndexError D) (Z.to_nat M) ds) as [st|] eqn:El; [|discriminate]. cbn [bind] in *.
  assert (I : exists st', greedy_loop Rltb 0 (get IndexError D) (Z.to_nat M) (nth 0 D []) = Ok st' /\ Inv Rltb N 0 (fun k => nth k D []) (Z.to_nat M) st').
  { apply (greedy_loop_ok Rltb Rltb_irr Rltb_trans Rltb_total N 0 (get IndexError D) (fun k => nth k D [])); [| |exact HN|lia].
    - intros k Hk. unfold get. rewrite (nth_error_nth' D [] (n := k)); [reflexivity|]. destruct HD as [-> _]. exact Hk.
    - intros k Hk. destruct HD as [HD Hr]. rewrite Forall_forall in Hr. apply Hr. apply nth_In. lia. }
  destruct I as [st' [El' I]].
  assert (Eds : nth 0 D [] = ds).
  { unfold get in E0. destruct (nth_error D 0) as [d0|] eqn:Ed; [|discriminate]. injection E0 as <-. apply nth_error_nth. exact Ed. }
  rewrite Eds, El in El'. injection El' as <-.
  assert (EP : g_perm st = perm /\ g_lambdas st = lambdas) by (destruct (map_res (get IndexError D) (g_perm st)); [|discriminate]; cbn [bind] in E; injection E as <- <- _; auto).
  destruct EP as [<- <-].
  assert (EY : map_res (get IndexError X) (g_perm st) = Ok (map (fun p => nth p X []) (g_perm st))).
  { destruct I as [_ [_ [_ [_ [_ [Hin _]]]]]]. clear - Hin. induction Hin as [|p l Hp _ IH]; [reflexivity|]. cbn [map_res map].
    unfold get at 1. rewrite (nth_error_nth' X [] (n := p)) by exact Hp. cbn [bind]. rewrite IH. reflexivity. }
  rewrite EY. cbn [bind]. destruct I as [_ [_ [_ [_ [_ [_ [ED _]]]]]]]. rewrite ED. reflexivity.
Qed.
Print Assumptions C66_point_cloud.

(** The default cross-similarity function and the projective one are row by row. *)
Theorem C66_cross_similarities : forall d X, Forall (fun x => length x = d) X ->
  (forall x, In x X -> get_csm d [x] d X = Ok [map (euclid d x) X]) /\
  exists f, (forall x, In x X -> get_csm_projarc d [x] d X = Ok [map (f x) X]) /\
    get_csm_projarc d X d X = Ok (map (fun x => map (f x) X) X).
Proof.
  intros d X HX. split.
  - intros x Hx. rewrite Forall_forall in HX. apply (C64_distances d [x] d X); [constructor; [apply HX; exact Hx|constructor]|apply Forall_forall; exact HX|reflexivity].
  - exists projarc_entry. unfold get_csm_projarc. rewrite Nat.eqb_refl. split; reflexivity.
Qed.
Print Assumptions C66_cross_similarities.

(** The number of landmarks 0, and negative numbers. *)
Theorem C66_no_landmarks : forall (D X : list (list R)) M csm_fn,
  (D <> [] -> get_greedy_perm_dm D 0 = Ok ([], [], [])) /\
  ((M < 0)%Z -> get_greedy_perm_dm D M = Raise ValueError /\ get_greedy_perm_pc X M csm_fn = Raise ValueError) /\
  ((0 <= M)%Z -> get_greedy_perm_dm [] M = Raise IndexError /\ get_greedy_perm_pc [] M csm_fn = Raise IndexError) /\
  (forall x f, In x X -> (forall x, In x X -> csm_fn [x] X = Ok [map (f x) X]) -> get_greedy_perm_pc X 0 csm_fn = Raise IndexError).
Proof.
  intros D X M csm_fn. split; [|split; [|split]].
  - intros H. destruct D; [congruence|reflexivity].
  - intros H. unfold get_greedy_perm_dm, get_greedy_perm_pc. replace (0 <=? M)%Z with false by (symmetry; apply Z.leb_gt; lia). auto.
  - intros H. unfold get_greedy_perm_dm, get_greedy_perm_pc. replace (0 <=? M)%Z with true by (symmetry; apply Z.leb_le; lia). auto.
  - intros x f Hx Hf. destruct X as [|x0 X]; [contradiction|]. unfold get_greedy_perm_pc. cbn [Z.leb]. unfold get at 1. cbn [nth_error bind].
    rewrite (Hf x0) by (left; reflexivity). cbn [bind concat]. rewrite app_nil_r, map_length, Nat.eqb_refl. reflexivity.
Qed.
Print Assumptions C66_no_landmarks.

(** Three points on a line at 0, 1, 5. *)
Example C66_met : matrix 3 3 [[0; 1; 5]; [1; 0; 4]; [5; 4; 0]] /\ pseudometric 3 (at2 0 [[0; 1; 5]; [1; 0; 4]; [5; 4; 0]]) /\
  get_greedy_perm_dm [[0; 1; 5]; [1; 0; 4]; [5; 4; 0]] 2 = Ok ([0; 2]%nat, [0; 5], [[0; 1; 5]; [5; 4; 0]]).
Proof.
  split; [split; [reflexivity|repeat constructor]|]. split.
  - split; [|split].
    + intros i Hi. destruct i as [|[|[|i]]]; try lia; reflexivity.
    + intros i j Hi Hj. destruct i as [|[|[|i]]], j as [|[|[|j]]]; try lia; unfold at2; cbn; split; lra.
    + intros i j k Hi Hj Hk. destruct i as [|[|[|i]]], j as [|[|[|j]]], k as [|[|[|k]]]; try lia; unfold at2; cbn; lra.
  - unfold get_greedy_perm_dm, greedy_loop, greedy_step, argmax, Rltb. change (Z.to_nat 2) with 2%nat. cbn.
    destruct (Rlt_dec 0 1); [|lra]. destruct (Rlt_dec 1 5); [|lra]. cbn. reflexivity.
Qed.

(** * C67: landmark_geodesic_distance *)

Lemma geodesic_landmarks_graph : forall kd_query shortest_path X L k,
  let n := length X in
  let g := neighbour_graph n (fst (kd_query X (Z.to_nat k))) (snd (kd_query X (Z.to_nat k))) in
  (1 <= L <= Z.of_nat n)%Z -> (1 <= k <= Z.of_nat n)%Z ->
  neighbours n (Z.to_nat k) (fst (kd_query X (Z.to_nat k))) (snd (kd_query X (Z.to_nat k))) ->
  (forall i, (i < n)%nat -> shortest_row n (linked g) i (shortest_path n g i)) ->
  let dist i j := nth j (shortest_path n g i) None in
  exists D perm lam, landmark_geodesic_distance kd_query shortest_path X L k = Ok (D, perm) /\
    greedy_permutation ext_le n (Z.to_nat L) dist (firstn (Z.to_nat L) perm) lam /\
    D = map (fun i => map (fun j => dist i j) perm) (firstn (Z.to_nat L) perm) /\
    (forall j, (j < n)%nat <-> In j perm) /\
    (Permutation perm (seq 0 n) <->
       exists q, length q = Z.to_nat L /\ Forall (fun v => (v < n)%nat) q /\
         forall i j, (i < j < Z.to_nat L)%nat -> dist (nth i q 0%nat) (nth j q 0%nat) <> Some 0) /\
    (Permutation perm (seq 0 n) \/ (n < length perm)%nat).
Proof.
  intros kd_query shortest_path X L k n g HL Hk Hnb Hsp dist0.
  assert (Hn : (1 <= n)%nat) by lia.
  assert (Hw : forall i j w, In (i, j, w) g -> 0 <= w).
  { intros i j w H. unfold g, neighbour_graph in H. apply in_concat in H. destruct H as [l [Hl H]]. apply in_map_iff in Hl. destruct Hl as [r [<- Hr]].
    apply in_map_iff in H. destruct H as [[a b] [E Hab]]. injection E as <- <- <-. apply in_combine_r in Hab. cbn [snd].
    destruct Hnb as [[Hld _] [_ [_ Hpos]]]. rewrite Forall_forall in Hpos. apply in_seq in Hr.
    specialize (Hpos (nth r (fst (kd_query X (Z.to_nat k))) []) ltac:(apply nth_In; lia)). rewrite Forall_forall in Hpos. exact (Hpos b Hab). }
  assert (Hlen : forall i, (i < n)%nat -> length (shortest_path n g i) = n) by (intros i Hi; apply Hsp; exact Hi).
  destruct (greedy_loop_ok ext_ltb ext_irr ext_trans ext_total n (Some 0) (fun idx => Ok (shortest_path n g idx)) (shortest_path n g) (fun k _ => eq_refl) Hlen Hn (Z.to_nat L)) as [st [E I]]; [lia|].
  pose proof (inv_greedy ext_ltb n (Some 0) (shortest_path n g) _ _ I) as G0.
  apply (greedy_le_ext _ ext_le) in G0; [|exact le_ext].
  assert (Hin : Forall (fun k => (k < n)%nat) (g_perm st)) by apply I.
  assert (HLp : length (g_perm st) = Z.to_nat L) by apply I.
  assert (ED : g_D st = map (shortest_path n g) (g_perm st)) by apply I.
  set (perm := g_perm st) in *. set (all := perm ++ rest_points n perm).
  assert (Hfirst : firstn (Z.to_nat L) all = perm) by (unfold all; rewrite <- HLp, firstn_app, Nat.sub_diag, firstn_O, app_nil_r; apply firstn_all).
  assert (G : greedy_permutation ext_le n (Z.to_nat L) dist0 perm (fun i => nth i (g_lambdas st) (Some 0))).
  { destruct G0 as [A1 [A2 A3]]. split; [exact A1|]. split; [exact A2|]. intros i Hi. destruct (A3 i Hi) as [p [Ep [B1 [B2 [B3 [B4 B5]]]]]].
    assert (Hd : forall k j, (k < Z.to_nat L)%nat -> (j < n)%nat -> dist0 (nth k perm 0%nat) j = nth j (shortest_path n g (nth k perm 0%nat)) (Some 0)).
    { intros k0 j Hk0 Hj. unfold dist0. apply nth_indep. rewrite Hlen; [exact Hj|]. rewrite Forall_forall in Hin. apply Hin. apply nth_In. lia. }
    exists p. split; [exact Ep|]. split; [exact B1|]. split; [|split; [|split]].
    - intros k0 Hk0. rewrite Hd by lia. apply B2. exact Hk0.
    - destruct B3 as [k0 [Hk0 B3]]. exists k0. split; [exact Hk0|]. rewrite Hd by lia. exact B3.
    - intros j Hj. destruct (B4 j Hj) as [k0 [Hk0 B]]. exists k0. split; [exact Hk0|]. rewrite Hd by lia. exact B.
    - intros j Hj. destruct (B5 j Hj) as [k0 [Hk0 B]]. exists k0. split; [exact Hk0|]. rewrite Hd by lia. exact B. }
  assert (Hrest : forall j, In j (rest_points n perm) <-> (j < n)%nat /\ ~ In j perm).
  { intros j. unfold rest_points. rewrite filter_In, in_seq. split.
    - intros [H1 H2]. split; [lia|]. intros Hj. apply Bool.negb_true_iff in H2. assert (T : existsb (Nat.eqb j) perm = true) by (apply existsb_exists; exists j; split; [exact Hj|apply Nat.eqb_refl]). congruence.
    - intros [H1 H2]. split; [lia|]. apply Bool.negb_true_iff. destruct (existsb (Nat.eqb j) perm) eqn:T; [|reflexivity]. apply existsb_exists in T. destruct T as [x [Hx Ex]]. apply Nat.eqb_eq in Ex. subst x. contradiction. }
  assert (Hall : forall j, (j < n)%nat <-> In j all).
  { intros j. unfold all. rewrite in_app_iff, Hrest. split.
    - intros Hj. destruct (in_dec Nat.eq_dec j perm); auto.
    - intros [H|[H _]]; [|exact H]. rewrite Forall_forall in Hin. apply Hin. exact H. }
  assert (Hnd_all : NoDup all <-> NoDup perm).
  { split.
    - intros H. unfold all in H. revert H. generalize (rest_points n perm). clear. intros rst H. induction perm as [|a l IH]; [constructor|]. cbn in H. inversion H; subst. constructor.
      + intros Ha. apply H2. apply in_app_iff. left. exact Ha.
      + apply IH. exact H3.
    - intros H. unfold all.
      assert (Happ : forall l l' : list nat, NoDup l -> NoDup l' -> (forall x, In x l' -> ~ In x l) -> NoDup (l ++ l')).
      { clear. intros l l' Hl Hl' Hd. induction Hl as [|a l Ha Hl IH]; [exact Hl'|]. cbn. constructor.
        - rewrite in_app_iff. intros [T|T]; [contradiction|]. apply (Hd a T). left. reflexivity.
        - apply IH. intros x Hx T. apply (Hd x Hx). right. exact T. }
      apply Happ; [exact H|apply NoDup_filter; apply seq_NoDup|]. intros x Hx. apply Hrest. exact Hx. }
  assert (Hperm : Permutation all (seq 0 n) <-> NoDup perm).
  { rewrite <- Hnd_all. split.
    - intros P. apply (Permutation_NoDup (Permutation_sym P)). apply seq_NoDup.
    - intros H. apply NoDup_Permutation; [exact H|apply seq_NoDup|]. intros x. rewrite <- Hall, in_seq. lia. }
  exists (map (fun i => map (fun j => dist0 i j) all) perm), all, (fun i => nth i (g_lambdas st) (Some 0)).
  split; [|split; [|split; [|split; [|split]]]].
  - unfold landmark_geodesic_distance. fold n.
    replace (L <=? Z.of_nat n)%Z with true by (symmetry; apply Z.leb_le; lia).
    replace (k <=? Z.of_nat n)%Z with true by (symmetry; apply Z.leb_le; lia).
    replace (1 <=? k)%Z with true by (symmetry; apply Z.leb_le; lia).
    rewrite (surjective_pairing (kd_query X (Z.to_nat k))). fold g.
    replace (0 <=? L)%Z with true by (symmetry; apply Z.leb_le; lia).
    replace (L =? 0)%Z with false by (symmetry; apply Z.eqb_neq; lia). cbn [negb].
    rewrite E. cbn [bind]. fold perm. fold all. rewrite ED.
    assert (Em : forall l, Forall (fun i => (i < n)%nat) l ->
      map_res (fun row => map_res (get IndexError row) all) (map (shortest_path n g) l) = Ok (map (fun i => map (fun j => dist0 i j) all) l)).
    { induction 1 as [|i l Hi _ IH]; [reflexivity|]. cbn [map map_res].
      assert (Er : map_res (get IndexError (shortest_path n g i)) all = Ok (map (fun j => dist0 i j) all)).
      { assert (Hr : forall a, (forall x, In x a -> (x < n)%nat) -> map_res (get IndexError (shortest_path n g i)) a = Ok (map (fun j => dist0 i j) a)).
        { induction a as [|x a IHa]; intros Ha; [reflexivity|]. cbn [map map_res]. unfold get at 1.
          rewrite (nth_error_nth' (shortest_path n g i) None (n := x)) by (rewrite Hlen by exact Hi; apply Ha; left; reflexivity). cbn [bind].
          rewrite IHa by (intros y Hy; apply Ha; right; exact Hy). reflexivity. }
        apply Hr. intros x Hx. apply Hall. exact Hx. }
      rewrite Er. cbn [bind]. rewrite IH. reflexivity. }
    rewrite (Em perm Hin). reflexivity.
  - rewrite Hfirst. exact G.
  - rewrite Hfirst. reflexivity.
  - exact Hall.
  - rewrite Hperm. apply (nodup_iff_separated g Hw n (shortest_path n g) Hsp (Z.to_nat L) perm (fun i => nth i (g_lambdas st) (Some 0)) G Hn).
  - destruct (Nat.le_gt_cases (length all) n) as [Hle|Hgt]; [left|right; exact Hgt].
    apply Permutation_sym. apply NoDup_Permutation_bis; [apply seq_NoDup|rewrite seq_length; exact Hle|].
    intros x Hx. apply Hall. apply in_seq in Hx. lia.
Qed.

Lemma walk_ext (l l' : nat -> nat -> R -> Prop) : (forall i j w, l i j w -> l' i j w) -> forall i j r, walk l i j r -> walk l' i j r.
Proof. intros H i j r W. induction W as [|i j k w r Hl _ IH]; [constructor|]. apply (walk_on _ i j k w r); [apply H; exact Hl|exact IH]. Qed.
Lemma geodesic_ext (l l' : nat -> nat -> R -> Prop) : (forall i j w, l i j w <-> l' i j w) -> forall i j d, geodesic l i j d -> geodesic l' i j d.
Proof.
  intros H i j [r|] G; cbn in *.
  - destruct G as [W M]. split; [apply (walk_ext l); [intros; apply H; assumption|exact W]|]. intros r' W'. apply M. apply (walk_ext l'); [intros; apply H; assumption|exact W'].
  - intros r' W'. apply (G r'). apply (walk_ext l'); [intros; apply H; assumption|exact W'].
Qed.
Lemma combine_entry (a : list nat) (b : list R) c j w : nth_error (combine a b) c = Some (j, w) <-> nth_error a c = Some j /\ nth_error b c = Some w.
Proof.
  revert b c. induction a as [|x a IH]; intros [|y b] [|c]; cbn; try (split; [discriminate|intros [? ?]; discriminate]).
  - split; [intros E; injection E as -> ->; auto|intros [E1 E2]; injection E1 as ->; injection E2 as ->; reflexivity].
  - apply IH.
Qed.
Lemma neighbour_graph_edges n k ds is : neighbours n k ds is ->
  (forall i j w, In (i, j, w) (neighbour_graph n ds is) <-> exists c, entry is i c j /\ entry ds i c w) /\
  Forall (fun e => (fst (fst e) < n)%nat /\ (snd (fst e) < n)%nat /\ 0 <= snd e) (neighbour_graph n ds is).
Proof.
  intros [[Hd Hd2] [[Hi Hi2] [Hin Hpos]]].
  assert (H1 : forall i j w, In (i, j, w) (neighbour_graph n ds is) <-> exists c, entry is i c j /\ entry ds i c w).
  { intros i j w. unfold neighbour_graph. rewrite in_concat. split.
    - intros [l [Hl H]]. apply in_map_iff in Hl. destruct Hl as [r [<- Hr]]. apply in_map_iff in H. destruct H as [[a b] [E H]]. cbn [fst snd] in E. injection E as -> -> ->.
      apply in_seq in Hr. apply In_nth_error in H. destruct H as [c H]. apply combine_entry in H. exists c. split.
      + exists (nth i is []). split; [apply nth_error_nth'; lia|apply H].
      + exists (nth i ds []). split; [apply nth_error_nth'; lia|apply H].
    - intros [c [[ri [E1 E2]] [rd [E3 E4]]]]. assert (Hlt : (i < n)%nat) by (rewrite <- Hi; apply nth_error_Some; congruence).
      exists (map (fun p => (i, fst p, snd p)) (combine (nth i is []) (nth i ds []))). split.
      + apply in_map_iff. exists i. split; [reflexivity|]. apply in_seq. lia.
      + apply in_map_iff. exists (j, w). split; [reflexivity|]. apply nth_error_In with c. apply combine_entry.
        rewrite (nth_error_nth is i [] E1), (nth_error_nth ds i [] E3). auto. }
  split; [exact H1|]. apply Forall_forall. intros [[i j] w] H. apply H1 in H. destruct H as [c [[ri [E1 E2]] [rd [E3 E4]]]]. cbn [fst snd]. split; [|split].
  - rewrite <- Hi. apply nth_error_Some. congruence.
  - apply nth_error_In in E1. apply nth_error_In in E2. rewrite Forall_forall in Hin. specialize (Hin _ E1). rewrite Forall_forall in Hin. apply Hin. exact E2.
  - apply nth_error_In in E3. apply nth_error_In in E4. rewrite Forall_forall in Hpos. specialize (Hpos _ E3). rewrite Forall_forall in Hpos. apply Hpos. exact E4.
Qed.

(** Given what KDTree.query and shortest_path promise: let dist be the geodesic distances of the
    nearest neighbour graph.  The first n_landmarks entries of the permutation are furthest point
    samples for them, starting at point 0; entry (i,j) of the matrix is the distance from
    perm[i] to perm[j]; every point occurs in perm; and perm is a permutation of 0..n-1 exactly
    when there are n_landmarks points no two of which are at distance zero -- otherwise it is too
    long. *)
Theorem C67_geodesic_landmarks : forall kd_query shortest_path X L k distances indices,
  let n := length X in
  (1 <= L <= Z.of_nat n)%Z -> (1 <= k <= Z.of_nat n)%Z ->
  kd_query X (Z.to_nat k) = (distances, indices) -> neighbours n (Z.to_nat k) distances indices ->
  shortest_path_contract n (neighbour_step distances indices) shortest_path ->
  exists dist D perm lam,
    (forall i j, (i < n)%nat -> (j < n)%nat -> geodesic (neighbour_step distances indices) i j (dist i j)) /\
    landmark_geodesic_distance kd_query shortest_path X L k = Ok (D, perm) /\
    greedy_permutation ext_le n (Z.to_nat L) dist (firstn (Z.to_nat L) perm) lam /\
    D = map (fun i => map (fun j => dist i j) perm) (firstn (Z.to_nat L) perm) /\
    (forall j, (j < n)%nat <-> In j perm) /\
    (Permutation perm (seq 0 n) <->
       exists q, length q = Z.to_nat L /\ Forall (fun v => (v < n)%nat) q /\
         forall i j, (i < j < Z.to_nat L)%nat -> dist (nth i q 0%nat) (nth j q 0%nat) <> Some 0) /\
    (Permutation perm (seq 0 n) \/ (n < length perm)%nat).
Proof.
  intros kd_query shortest_path X L k ds is n HL Hk E Hnb Hsp.
  destruct (neighbour_graph_edges n (Z.to_nat k) ds is Hnb) as [Hg HF].
  assert (Hlink : forall i j w, linked (neighbour_graph n ds is) i j w <-> neighbour_step ds is i j w).
  { intros a b w. unfold linked, neighbour_step. rewrite !Hg. split.
    - intros [[c H]|[c H]]; exists c; [left|right]; exact H.
    - intros [c [H|H]]; [left|right]; exists c; exact H. }
  pose proof (Hsp (neighbour_graph n ds is) Hlink) as Hs.
  pose proof (geodesic_landmarks_graph kd_query shortest_path X L k HL Hk) as T. rewrite E in T. cbn [fst snd] in T.
  assert (Hs' : forall i, (i < n)%nat -> shortest_row n (linked (neighbour_graph n ds is)) i (shortest_path n (neighbour_graph n ds is) i)).
  { intros i Hi. destruct (Hs i Hi) as [H1 H2]. split; [exact H1|]. intros j Hj. apply (geodesic_ext (neighbour_step ds is)); [intros; symmetry; apply Hlink|apply H2; exact Hj]. }
  specialize (T Hnb Hs'). cbv zeta in T. destruct T as [D [perm [lam T]]].
  exists (fun i j => nth j (shortest_path n (neighbour_graph n ds is) i) None), D, perm, lam. split; [|exact T].
  intros i j Hi Hj. apply (Hs i Hi). exact Hj.
Qed.
Print Assumptions C67_geodesic_landmarks.

(** The documented permutation of [0, ..., n-1] is not one whenever two landmarks or more are asked
    for and all points are at geodesic distance zero (the same point repeated, say): the result is
    0, ..., 0, 1, ..., n-1, longer than n. *)
Theorem C67_permutation_refuted : forall kd_query shortest_path X L k distances indices,
  let n := length X in
  (2 <= L <= Z.of_nat n)%Z -> (1 <= k <= Z.of_nat n)%Z ->
  kd_query X (Z.to_nat k) = (distances, indices) -> neighbours n (Z.to_nat k) distances indices ->
  shortest_path_contract n (neighbour_step distances indices) shortest_path ->
  (forall i j, (i < n)%nat -> (j < n)%nat -> walk (neighbour_step distances indices) i j 0) ->
  exists D perm, landmark_geodesic_distance kd_query shortest_path X L k = Ok (D, perm) /\
    ~ Permutation perm (seq 0 n) /\ (n < length perm)%nat.
Proof.
  intros kd_query shortest_path X L k ds is n HL Hk E Hnb Hsp Hz.
  destruct (C67_geodesic_landmarks kd_query shortest_path X L k ds is ltac:(lia) Hk E Hnb Hsp) as [dist [D [perm [lam [Hg [ER [_ [_ [_ [Hp Hlen]]]]]]]]]].
  exists D, perm. split; [exact ER|].
  assert (Hwn : forall i j r, walk (neighbour_step ds is) i j r -> 0 <= r).
  { induction 1 as [|i j l w r Hl _ IH]; [lra|]. apply Rplus_le_le_0_compat; [|exact IH].
    assert (Hent : forall a c, entry ds a c w -> 0 <= w).
    { intros a c [row [E1 E2]]. apply nth_error_In in E1. apply nth_error_In in E2. destruct Hnb as [_ [_ [_ Hpos]]]. rewrite Forall_forall in Hpos. specialize (Hpos _ E1). rewrite Forall_forall in Hpos. apply Hpos. exact E2. }
    destruct Hl as [c [[_ H]|[_ H]]]; exact (Hent _ _ H). }
  assert (Hd0 : forall i j, (i < n)%nat -> (j < n)%nat -> dist i j = Some 0).
  { intros i j Hi Hj. specialize (Hg i j Hi Hj). specialize (Hz i j Hi Hj). destruct (dist i j) as [r|]; cbn in Hg.
    - destruct Hg as [W M]. f_equal. apply Rle_antisym; [apply M; exact Hz|apply (Hwn i j); exact W].
    - exfalso. apply (Hg 0). exact Hz. }
  assert (Hnp : ~ Permutation perm (seq 0 n)).
  { intros P. apply Hp in P. destruct P as [q [Hql [Hq Hne]]]. rewrite Forall_forall in Hq. unfold n in *.
    apply (Hne 0%nat 1%nat); [lia|]. apply Hd0; apply Hq; apply nth_In; lia. }
  split; [exact Hnp|]. destruct Hlen as [H|H]; [contradiction|exact H].
Qed.
Print Assumptions C67_permutation_refuted.

(** Arguments out of range. *)
Theorem C67_errors : forall kd_query shortest_path X L k,
  ((Z.of_nat (length X) < L)%Z \/ (Z.of_nat (length X) < k)%Z ->
     landmark_geodesic_distance kd_query shortest_path X L k = Raise AssertionError) /\
  ((L <= Z.of_nat (length X))%Z -> (k < 1)%Z ->
     landmark_geodesic_distance kd_query shortest_path X L k = Raise ValueError) /\
  ((1 <= k <= Z.of_nat (length X))%Z -> (L < 0)%Z ->
     landmark_geodesic_distance kd_query shortest_path X L k = Raise ValueError) /\
  ((1 <= k <= Z.of_nat (length X))%Z -> landmark_geodesic_distance kd_query shortest_path X 0 k = Raise IndexError).
Proof.
  intros kd_query shortest_path X L k. unfold landmark_geodesic_distance. split; [|split; [|split]].
  - intros [H|H].
    + replace (L <=? Z.of_nat (length X))%Z with false by (symmetry; apply Z.leb_gt; lia). reflexivity.
    + replace (k <=? Z.of_nat (length X))%Z with false by (symmetry; apply Z.leb_gt; lia). destruct (L <=? _)%Z; reflexivity.
  - intros H H1. replace (L <=? Z.of_nat (length X))%Z with true by (symmetry; apply Z.leb_le; lia).
    replace (k <=? Z.of_nat (length X))%Z with true by (symmetry; apply Z.leb_le; lia).
    replace (1 <=? k)%Z with false by (symmetry; apply Z.leb_gt; lia). reflexivity.
  - intros H H1. replace (L <=? Z.of_nat (length X))%Z with true by (symmetry; apply Z.leb_le; lia).
    replace (k <=? Z.of_nat (length X))%Z with true by (symmetry; apply Z.leb_le; lia).
    replace (1 <=? k)%Z with true by (symmetry; apply Z.leb_le; lia).
    destruct (kd_query X (Z.to_nat k)).
    replace (0 <=? L)%Z with false by (symmetry; apply Z.leb_gt; lia). reflexivity.
  - intros H. replace (0 <=? Z.of_nat (length X))%Z with true by (symmetry; apply Z.leb_le; lia).
    replace (k <=? Z.of_nat (length X))%Z with true by (symmetry; apply Z.leb_le; lia).
    replace (1 <=? k)%Z with true by (symmetry; apply Z.leb_le; lia).
    destruct (kd_query X (Z.to_nat k)). reflexivity.
Qed.
Print Assumptions C67_errors.

(** Two copies of one point, with the neighbour lists and shortest walks scipy gives: the contracts
    are met and the result has three entries. *)
Definition two_same_query (_ : list (list R)) (_ : nat) : list (list R) * list (list nat) :=
  ([[0; 0]; [0; 0]], [[0; 1]; [1; 0]]%nat).
Definition two_same_path (_ : nat) (_ : list (nat * nat * R)) (_ : nat) : list ext := [Some 0; Some 0].
Lemma two_steps a b i j w : neighbour_step [[a; b]; [a; b]] [[0; 1]; [1; 0]]%nat i j w -> (i < 2 /\ j < 2)%nat /\ (w = a /\ i = j \/ w = b /\ i <> j).
Proof.
  assert (H : forall i j w, (exists c, entry [[0; 1]; [1; 0]]%nat i c j /\ entry [[a; b]; [a; b]] i c w) -> (i < 2 /\ j < 2)%nat /\ (w = a /\ i = j \/ w = b /\ i <> j)).
  { clear. intros i j w [c [[r [E1 E2]] [r' [E3 E4]]]].
    destruct i as [|[|i]]; cbn in E1, E3; try (destruct i; discriminate); injection E1 as <-; injection E3 as <-;
      (destruct c as [|[|c]]; cbn in E2, E4; try (destruct c; discriminate); injection E2 as <-; injection E4 as <-; (split; [lia|auto])). }
  intros [c [Hc|Hc]].
  - apply H. exists c. exact Hc.
  - destruct (H j i w) as [H1 H2]; [exists c; exact Hc|]. split; [lia|]. destruct H2 as [[-> ->]|[-> H2]]; auto.
Qed.
Lemma two_step a b i j : (i < 2)%nat -> (j < 2)%nat -> i <> j -> neighbour_step [[a; b]; [a; b]] [[0; 1]; [1; 0]]%nat i j b.
Proof.
  intros Hi Hj Hij. exists 1%nat. left. destruct i as [|[|i]], j as [|[|j]]; try lia; (split; [eexists; split; reflexivity|eexists; split; reflexivity]).
Qed.
Example C67_met :
  let X := [[7]; [7]] in let '(distances, indices) := two_same_query X 2 in
  neighbours 2 2 distances indices /\
  shortest_path_contract 2 (neighbour_step distances indices) two_same_path /\
  (forall i j, (i < 2)%nat -> (j < 2)%nat -> walk (neighbour_step distances indices) i j 0) /\
  landmark_geodesic_distance two_same_query two_same_path X 2 2
    = Ok ([[Some 0; Some 0; Some 0]; [Some 0; Some 0; Some 0]], [0; 0; 1]%nat).
Proof.
  cbv zeta. unfold two_same_query at 1.
  assert (W : forall i j, (i < 2)%nat -> (j < 2)%nat -> walk (neighbour_step [[0; 0]; [0; 0]] [[0; 1]; [1; 0]]%nat) i j 0).
  { intros i j Hi Hj. destruct (Nat.eq_dec i j) as [->|Hij]; [constructor|]. rewrite <- (Rplus_0_l 0) at 5.
    apply (walk_on _ i j j 0 0); [apply two_step; assumption|constructor]. }
  split; [|split; [|split; [exact W|]]].
  - split; [split; [reflexivity|repeat constructor]|]. split; [split; [reflexivity|repeat constructor]|].
    split; repeat constructor; lra.
  - intros g _ i Hi. split; [reflexivity|].
    assert (Hw : forall a b r, walk (neighbour_step [[0; 0]; [0; 0]] [[0; 1]; [1; 0]]%nat) a b r -> r = 0).
    { induction 1 as [|a b c w r Hl _ IH]; [reflexivity|]. rewrite IH. apply two_steps in Hl. lra. }
    intros j Hj. assert (Ej : nth j (two_same_path 2 g i) None = Some 0) by (destruct j as [|[|j]]; [reflexivity|reflexivity|lia]).
    rewrite Ej. split; [apply W; assumption|intros r' Hr; apply Hw in Hr; lra].
  - unfold landmark_geodesic_distance, greedy_loop, greedy_step, argmax, Rltb, ext_ltb, Rltb. change (Z.to_nat 2) with 2%nat. cbn.
    destruct (Rlt_dec 0 0); [lra|]. cbn. reflexivity.
Qed.

(** Two points at distance 3: their permutation is the identity. *)
Definition two_far_query (_ : list (list R)) (_ : nat) : list (list R) * list (list nat) :=
  ([[0; 3]; [0; 3]], [[0; 1]; [1; 0]]%nat).
Definition two_far_path (_ : nat) (_ : list (nat * nat * R)) (i : nat) : list ext :=
  match i with O => [Some 0; Some 3] | _ => [Some 3; Some 0] end.
Example C67_met_far :
  let X := [[4]; [7]] in let '(distances, indices) := two_far_query X 2 in
  neighbours 2 2 distances indices /\
  shortest_path_contract 2 (neighbour_step distances indices) two_far_path /\
  landmark_geodesic_distance two_far_query two_far_path X 2 2
    = Ok ([[Some 0; Some 3]; [Some 3; Some 0]], [0; 1]%nat).
Proof.
  cbv zeta. unfold two_far_query at 1. split; [|split].
  - split; [split; [reflexivity|repeat constructor]|]. split; [split; [reflexivity|repeat constructor]|].
    split; repeat constructor; lra.
  - intros g _ i Hi. split; [destruct i; reflexivity|].
    assert (Hw : forall a b r, walk (neighbour_step [[0; 3]; [0; 3]] [[0; 1]; [1; 0]]%nat) a b r -> (a <> b -> 3 <= r) /\ 0 <= r).
    { induction 1 as [|a b c w r Hl _ [IH1 IH2]]; [split; [congruence|lra]|]. apply two_steps in Hl. destruct Hl as [_ [[-> ->]|[-> Hab]]]; split; try lra.
      intros Hac. specialize (IH1 Hac). lra. }
    assert (W : forall a b, (a < 2)%nat -> (b < 2)%nat -> a <> b -> walk (neighbour_step [[0; 3]; [0; 3]] [[0; 1]; [1; 0]]%nat) a b 3).
    { intros a b Ha Hb Hab. replace 3 with (3 + 0) at 3 by ring. apply (walk_on _ a b b 3 0); [apply two_step; assumption|constructor]. }
    intros j Hj. destruct i as [|[|i]], j as [|[|j]]; try lia; cbn [two_far_path nth].
    + split; [constructor|]. intros r' Hr. apply Hw in Hr. apply Hr.
    + split; [apply W; lia|]. intros r' Hr. apply Hw in Hr. apply Hr. lia.
    + split; [apply W; lia|]. intros r' Hr. apply Hw in Hr. apply Hr. lia.
    + split; [constructor|]. intros r' Hr. apply Hw in Hr. apply Hr.
  - unfold landmark_geodesic_distance, greedy_loop, greedy_step, argmax, Rltb, ext_ltb, Rltb. change (Z.to_nat 2) with 2%nat. cbn.
    destruct (Rlt_dec 0 3); [|lra]. cbn. reflexivity.
Qed.
