(** LLLProofs.v -- lemmas about the lattice reduction. *)
From Verif Require Import Base BaseProofs RealBase RealSum SpecEM EMProofs SpecCircle CircleProofs LLLModel SpecLLL.
Local Open Scope R_scope.

(** * Integer sums. *)
Lemma sumnZ_add n f g : sumnZ n (fun i => (f i + g i)%Z) = (sumnZ n f + sumnZ n g)%Z.
Proof. induction n; cbn; [lia|rewrite IHn; lia]. Qed.
Lemma sumnZ_sub n f g : sumnZ n (fun i => (f i - g i)%Z) = (sumnZ n f - sumnZ n g)%Z.
Proof. induction n; cbn; [lia|rewrite IHn; lia]. Qed.
Lemma sumnZ_scal n c f : sumnZ n (fun i => (c * f i)%Z) = (c * sumnZ n f)%Z.
Proof. induction n; cbn; [lia|rewrite IHn; lia]. Qed.
Lemma sumnZ_single n f k : (k < n)%nat -> (forall i, (i < n)%nat -> i <> k -> f i = 0%Z) -> sumnZ n f = f k.
Proof.
  induction n; cbn; intros Hk H; [lia|]. destruct (Nat.eq_dec k n) as [->|Hn].
  - rewrite sumnZ_0 by (intros; apply H; lia); lia.
  - rewrite IHn by (lia || (intros; apply H; lia)). rewrite (H n) by lia; lia.
Qed.
Lemma sumnZ_two n f g j k : (j < n)%nat -> (k < n)%nat -> j <> k ->
  (forall i, (i < n)%nat -> i <> j -> i <> k -> f i = g i) ->
  (f j + f k = g j + g k)%Z -> sumnZ n f = sumnZ n g.
Proof.
  intros Hj Hk Hjk H E.
  cut (sumnZ n (fun i => f i - g i)%Z = 0%Z); [rewrite sumnZ_sub; lia|].
  rewrite (sumnZ_ext n _ (fun i => (if (i =? j)%nat then f j - g j else 0) + (if (i =? k)%nat then f k - g k else 0))%Z).
  - rewrite sumnZ_add, (sumnZ_single n _ j Hj), (sumnZ_single n _ k Hk), !Nat.eqb_refl; [lia| |];
      intros i Hi Hn; rewrite (proj2 (Nat.eqb_neq _ _) Hn); reflexivity.
  - intros i Hi; destruct (Nat.eqb_spec i j) as [->|N1]; destruct (Nat.eqb_spec j k) as [->|N2];
      try contradiction; [lia|]. destruct (Nat.eqb_spec i k) as [->|N3]; [lia|]. rewrite H by assumption; lia.
Qed.
Lemma sumn_two n f g j k : (j < n)%nat -> (k < n)%nat -> j <> k ->
  (forall i, (i < n)%nat -> i <> j -> i <> k -> f i = g i) ->
  f j + f k = g j + g k -> sumn n f = sumn n g.
Proof.
  intros Hj Hk Hjk H E.
  cut (sumn n (fun i => f i - g i) = 0); [rewrite sumn_sub; lra|].
  rewrite (sumn_ext n _ (fun i => (if (i =? j)%nat then f j - g j else 0) + (if (i =? k)%nat then f k - g k else 0))).
  - rewrite sumn_add, (sumn_single n _ j Hj), (sumn_single n _ k Hk), !Nat.eqb_refl; [lra| |];
      intros i Hi Hn; rewrite (proj2 (Nat.eqb_neq _ _) Hn); reflexivity.
  - intros i Hi; destruct (Nat.eqb_spec i j) as [->|N1]; destruct (Nat.eqb_spec j k) as [->|N2];
      try contradiction; [lra|]. destruct (Nat.eqb_spec i k) as [->|N3]; [lra|]. rewrite H by assumption; lra.
Qed.

(** * Vectors. *)
Lemma vdot_inner n u v : length u = n -> length v = n -> vdot u v = inner n u v.
Proof.
  revert u v; induction n; intros u v Lu Lv.
  - destruct u; [|discriminate]; destruct v; [|discriminate]; reflexivity.
  - destruct u as [|x u]; [discriminate|]; destruct v as [|y v]; [discriminate|].
    unfold inner; rewrite sumn_first. change (vdot (x :: u) (y :: v)) with (x * y + vdot u v).
    rewrite IHn by (cbn in *; lia); reflexivity.
Qed.
Lemma vdot_comm u v : vdot u v = vdot v u.
Proof.
  revert v; induction u as [|x u IH]; intros [|y v]; try reflexivity.
  change (x * y + vdot u v = y * x + vdot v u); rewrite IH; ring.
Qed.
Lemma vdot_sub_l u v w : length u = length v -> vdot (vsub u v) w = vdot u w - vdot v w.
Proof.
  revert v w; induction u as [|x u IH]; intros [|y v] w L; try discriminate; [unfold vdot; cbn; ring|].
  destruct w as [|z w]; [unfold vdot; cbn; ring|].
  change ((x - y) * z + vdot (vsub u v) w = x * z + vdot u w - (y * z + vdot v w)).
  rewrite IH by (cbn in L; lia); ring.
Qed.
Lemma vdot_scale_l c v w : vdot (vscale c v) w = c * vdot v w.
Proof.
  revert w; induction v as [|x v IH]; intros [|z w]; try (unfold vdot; cbn; ring).
  change (c * x * z + vdot (vscale c v) w = c * (x * z + vdot v w)); rewrite IH; ring.
Qed.
Lemma vdot_sub_r u v w : length u = length v -> vdot w (vsub u v) = vdot w u - vdot w v.
Proof. intros L; rewrite vdot_comm, vdot_sub_l, (vdot_comm u), (vdot_comm v) by exact L; reflexivity. Qed.
Lemma vdot_scale_r c v w : vdot w (vscale c v) = c * vdot w v.
Proof. rewrite vdot_comm, vdot_scale_l, vdot_comm; reflexivity. Qed.
Lemma vsub_length u v : length u = length v -> length (vsub u v) = length u.
Proof. intros L; unfold vsub; rewrite map_length, combine_length; lia. Qed.
Lemma vscale_length c v : length (vscale c v) = length v.
Proof. apply map_length. Qed.
Lemma proj_length u v : length (proj u v) = length u.
Proof. apply vscale_length. Qed.
Lemma vdot_self_nonneg u : 0 <= vdot u u.
Proof.
  induction u as [|x u IH]; [unfold vdot; cbn; lra|].
  change (0 <= x * x + vdot u u); nra.
Qed.
Lemma vdot_self_zero_l u v : vdot u u = 0 -> vdot u v = 0.
Proof.
  revert v; induction u as [|x u IH]; intros [|y v] H; try (unfold vdot; cbn; reflexivity).
  change (x * x + vdot u u = 0) in H; pose proof (vdot_self_nonneg u).
  assert (x = 0) by nra; subst x. change (0 * y + vdot u v = 0); rewrite IH by lra; ring.
Qed.
Lemma nth_vsub u v r : length u = length v -> nth r (vsub u v) 0 = nth r u 0 - nth r v 0.
Proof.
  revert v r; induction u as [|x u IH]; intros [|y v] r L; try discriminate; [destruct r; cbn; ring|].
  destruct r as [|r]; cbn; [reflexivity|]. apply IH; cbn in L; lia.
Qed.
Lemma nth_vscale c v r : nth r (vscale c v) 0 = c * nth r v 0.
Proof. revert r; induction v as [|x v IH]; intros [|r]; cbn; try ring; apply IH. Qed.

(** * Columns. *)
Lemma set_col_length M k v : (k < length M)%nat -> length (set_col M k v) = length M.
Proof. intros H; unfold set_col; rewrite app_length, firstn_length; cbn [length]; rewrite skipn_length; lia. Qed.
Lemma col_set_col M k v i : (k < length M)%nat ->
  col (set_col M k v) i = if (i =? k)%nat then v else col M i.
Proof.
  intros H; unfold col, set_col.
  assert (L : length (firstn k M) = k) by (rewrite firstn_length; lia).
  destruct (Nat.eqb_spec i k) as [->|N].
  - rewrite app_nth2, L, Nat.sub_diag by lia; reflexivity.
  - destruct (Nat.lt_ge_cases i k).
    + rewrite app_nth1 by lia. rewrite <- (firstn_skipn k M) at 2; rewrite app_nth1 by lia; reflexivity.
    + rewrite app_nth2 by lia. rewrite L. destruct (i - k)%nat as [|d] eqn:E; [lia|]. cbn [nth].
      rewrite <- (firstn_skipn (S k) M) at 2. rewrite app_nth2; rewrite firstn_length; [|lia].
      f_equal; lia.
Qed.
Lemma swap_length M k : (1 <= k)%nat -> (k < length M)%nat -> length (swap_cols M k) = length M.
Proof. intros H1 H; unfold swap_cols; rewrite !set_col_length; lia || (rewrite set_col_length; lia). Qed.
Lemma col_swap M k i : (1 <= k)%nat -> (k < length M)%nat ->
  col (swap_cols M k) i = if (i =? k - 1)%nat then col M k else if (i =? k)%nat then col M (k - 1) else col M i.
Proof.
  intros H1 H; unfold swap_cols; rewrite !col_set_col by (rewrite ?set_col_length; lia). reflexivity.
Qed.
Lemma col_length n M i : matrix n n M -> (i < n)%nat -> length (col M i) = n.
Proof.
  intros [L F] Hi; unfold col. rewrite Forall_forall in F; apply F, nth_In; lia.
Qed.
Lemma matrix_cols {A} n m (M : list (list A)) : length M = n ->
  (forall i, (i < n)%nat -> length (nth i M []) = m) -> matrix n m M.
Proof.
  intros L H; split; [exact L|]. apply Forall_forall; intros x Hx.
  destruct (In_nth M x [] Hx) as (i & Hi & E); rewrite <- E; apply H; lia.
Qed.
Lemma at2_col M i r : at2 0 M i r = nth r (col M i) 0.
Proof. reflexivity. Qed.

Lemma set_col_matrix n M k v : matrix n n M -> (k < n)%nat -> length v = n -> matrix n n (set_col M k v).
Proof.
  intros HM Hk Lv; pose proof HM as [L _]; apply matrix_cols; [rewrite set_col_length; lia|].
  intros i Hi; fold (col (set_col M k v) i); rewrite col_set_col by lia.
  destruct (i =? k)%nat; [exact Lv|apply (col_length n); assumption].
Qed.
Lemma swap_matrix n M k : matrix n n M -> (1 <= k)%nat -> (k < n)%nat -> matrix n n (swap_cols M k).
Proof.
  intros HM H1 Hk; pose proof HM as [L _]; apply matrix_cols; [rewrite swap_length; lia|].
  intros i Hi; fold (col (swap_cols M k) i); rewrite col_swap by lia.
  destruct (i =? k - 1)%nat; [|destruct (i =? k)%nat]; apply (col_length n); assumption || lia.
Qed.
Lemma eye_matrix n : matrix n n (eye n).
Proof. apply matrix_mk2. Qed.

Lemma gs_column_length n B i : matrix n n B -> (i < n)%nat -> length (gs_column B i) = n.
Proof.
  intros HB Hi; unfold gs_column.
  assert (G : forall l v, length v = n -> (forall j, In j l -> (j < n)%nat) ->
    length (fold_left (fun Ai j => vsub Ai (proj (col B j) Ai)) l v) = n).
  { induction l as [|j l IH]; intros v Lv H; [exact Lv|]; cbn [fold_left].
    assert (Lj : length (col B j) = n) by (apply (col_length n); [exact HB|apply H; left; reflexivity]).
    apply IH; [rewrite vsub_length; rewrite ?proj_length; lia|intros; apply H; right; assumption]. }
  apply G; [apply (col_length n); assumption|].
  intros j Hj; unfold range in Hj; apply in_seq in Hj; lia.
Qed.
Lemma gram_schmidt_matrix n B : matrix n n B -> matrix n n (gram_schmidt B).
Proof.
  intros HB; pose proof HB as [L _]; apply matrix_cols.
  - unfold gram_schmidt, range; rewrite map_length, seq_length; lia.
  - intros i Hi; unfold gram_schmidt, range.
    rewrite (nth_indep _ [] (gs_column B 0)) by (rewrite map_length, seq_length; lia).
    rewrite map_nth, seq_nth by lia; apply (gs_column_length n); assumption.
Qed.
Lemma col_gs B i : (i < length B)%nat -> col (gram_schmidt B) i = gs_column B i.
Proof.
  intros Hi; unfold col, gram_schmidt, range.
  rewrite (nth_indep _ [] (gs_column B 0)) by (rewrite map_length, seq_length; lia).
  rewrite map_nth, seq_nth by lia; reflexivity.
Qed.
Lemma gs_column_0 B : gs_column B 0 = col B 0.
Proof. reflexivity. Qed.
Lemma gs_column_1 B : gs_column B 1 = vsub (col B 1) (proj (col B 0) (col B 1)).
Proof. reflexivity. Qed.
Lemma gs_column_2 B : gs_column B 2 =
  let w := vsub (col B 2) (proj (col B 0) (col B 2)) in vsub w (proj (col B 1) w).
Proof. reflexivity. Qed.
Lemma gs_column_ext B C i : (forall j, (j <= i)%nat -> col B j = col C j) -> gs_column B i = gs_column C i.
Proof.
  intros H; unfold gs_column; rewrite (H i) by lia.
  assert (G : forall l v, (forall j, In j l -> (j <= i)%nat) ->
    fold_left (fun Ai j => vsub Ai (proj (col B j) Ai)) l v =
    fold_left (fun Ai j => vsub Ai (proj (col C j) Ai)) l v).
  { induction l as [|j l IH]; intros v Hl; [reflexivity|]; cbn [fold_left].
    rewrite (H j) by (apply Hl; left; reflexivity). apply IH; intros; apply Hl; right; assumption. }
  apply G; intros j Hj; unfold range in Hj; apply in_seq in Hj; lia.
Qed.

(** * The invariant: an integer unimodular recombination (C37). *)
Definition Uni (n : nat) (B0 : list (list R)) (B change : list (list R)) : Prop :=
  exists u v : nat -> nat -> Z,
    (forall i h, (i < n)%nat -> (h < n)%nat -> at2 0 change i h = IZR (u i h)) /\
    (forall i r, (i < n)%nat -> (r < n)%nat -> at2 0 B i r = sumn n (fun h => IZR (u i h) * at2 0 B0 h r)) /\
    (forall i j, (i < n)%nat -> (j < n)%nat -> sumnZ n (fun h => u i h * v h j)%Z = if (i =? j)%nat then 1%Z else 0%Z) /\
    (forall i j, (i < n)%nat -> (j < n)%nat -> sumnZ n (fun h => v i h * u h j)%Z = if (i =? j)%nat then 1%Z else 0%Z).

Definition Wf (n : nat) (B0 : list (list R)) (st : lll_state) : Prop :=
  matrix n n (l_B st) /\ matrix n n (l_change st) /\ l_Q st = gram_schmidt (l_B st) /\
  (1 <= l_k st)%nat /\ Uni n B0 (l_B st) (l_change st).

Lemma Wf_init n B : matrix n n B -> Wf n B (lll_init B).
Proof.
  intros HB; pose proof HB as [L _]. unfold lll_init; rewrite L.
  split; [exact HB|split; [apply eye_matrix|split; [reflexivity|split; [cbn; lia|]]]].
  set (id := fun i h : nat => if (i =? h)%nat then 1%Z else 0%Z).
  assert (E : forall i j, (i < n)%nat -> (j < n)%nat ->
    sumnZ n (fun h => id i h * id h j)%Z = if (i =? j)%nat then 1%Z else 0%Z).
  { intros i j Hi Hj; rewrite (sumnZ_single n _ i Hi); unfold id; [rewrite Nat.eqb_refl; lia|].
    intros h Hh N; rewrite (proj2 (Nat.eqb_neq i h)) by congruence; lia. }
  exists id, id; split; [|split; [|split; exact E]].
  - intros i h Hi Hh; cbn [l_change]; unfold eye; rewrite at2_mk2 by assumption; unfold id.
    destruct (i =? h)%nat; reflexivity.
  - intros i r Hi Hr; cbn [l_B]; rewrite (sumn_single n _ i Hi); unfold id; [rewrite Nat.eqb_refl; lra|].
    intros h Hh N; rewrite (proj2 (Nat.eqb_neq i h)) by congruence; lra.
Qed.

Lemma Uni_op n B0 B change k j z : matrix n n B -> matrix n n change ->
  (k < n)%nat -> (j < n)%nat -> j <> k -> Uni n B0 B change ->
  Uni n B0 (set_col B k (vsub (col B k) (vscale (IZR z) (col B j))))
           (set_col change k (vsub (col change k) (vscale (IZR z) (col change j)))).
Proof.
  intros HB HC Hk Hj Hjk (u & v & E1 & E2 & E3 & E4).
  exists (fun i h => if (i =? k)%nat then (u k h - z * u j h)%Z else u i h),
         (fun h i => if (i =? j)%nat then (v h j + z * v h k)%Z else v h i).
  pose proof HB as [LB _]; pose proof HC as [LC _].
  assert (Lk : length (col B k) = n) by (apply col_length; assumption).
  assert (Lj : length (col B j) = n) by (apply col_length; assumption).
  assert (Mk : length (col change k) = n) by (apply col_length; assumption).
  assert (Mj : length (col change j) = n) by (apply col_length; assumption).
  split; [|split; [|split]].
  - intros i h Hi Hh; rewrite at2_col, col_set_col by lia.
    destruct (Nat.eqb_spec i k) as [->|N]; [|rewrite <- at2_col; apply E1; assumption].
    rewrite nth_vsub, nth_vscale, <- !at2_col, !E1 by (rewrite ?vscale_length; congruence || assumption).
    rewrite minus_IZR, mult_IZR; reflexivity.
  - intros i r Hi Hr; rewrite at2_col, col_set_col by lia.
    destruct (Nat.eqb_spec i k) as [->|N]; [|rewrite <- at2_col; apply E2; assumption].
    rewrite nth_vsub, nth_vscale, <- !at2_col, !E2 by (rewrite ?vscale_length; congruence || assumption).
    rewrite <- sumn_scal, <- sumn_sub; apply sumn_ext; intros h Hh; rewrite minus_IZR, mult_IZR; ring.
  - intros i i' Hi Hi'.
    assert (X : forall a b, (a < n)%nat -> (b < n)%nat -> sumnZ n (fun h => u a h * v h b)%Z = if (a =? b)%nat then 1%Z else 0%Z) by exact E3.
    destruct (Nat.eqb_spec i k) as [->|Ni]; destruct (Nat.eqb_spec i' j) as [->|Nj].
    + rewrite (sumnZ_ext n _ (fun h => ((u k h * v h j + z * (u k h * v h k)) - z * (u j h * v h j + z * (u j h * v h k))))%Z)
        by (intros; ring).
      rewrite sumnZ_sub, sumnZ_add, !sumnZ_scal, sumnZ_add, sumnZ_scal, !X by assumption.
      rewrite !Nat.eqb_refl, (proj2 (Nat.eqb_neq k j)), (proj2 (Nat.eqb_neq j k)) by congruence; ring.
    + rewrite (sumnZ_ext n _ (fun h => (u k h * v h i' - z * (u j h * v h i')))%Z) by (intros; ring).
      rewrite sumnZ_sub, sumnZ_scal, !X by assumption.
      rewrite (proj2 (Nat.eqb_neq j i')) by congruence; ring.
    + rewrite (sumnZ_ext n _ (fun h => (u i h * v h j + z * (u i h * v h k)))%Z) by (intros; ring).
      rewrite sumnZ_add, sumnZ_scal, !X by assumption.
      rewrite (proj2 (Nat.eqb_neq i k)) by congruence; ring.
    + apply X; assumption.
  - intros i i' Hi Hi'. rewrite <- (E4 i i' Hi Hi').
    apply (sumnZ_two n _ _ j k Hj Hk Hjk).
    + intros h Hh N1 N2; rewrite (proj2 (Nat.eqb_neq h j) N1), (proj2 (Nat.eqb_neq h k) N2); reflexivity.
    + rewrite !Nat.eqb_refl, (proj2 (Nat.eqb_neq j k)), (proj2 (Nat.eqb_neq k j)) by congruence; ring.
Qed.

Definition tau (k i : nat) : nat := if (i =? k - 1)%nat then k else if (i =? k)%nat then (k - 1)%nat else i.
Lemma Uni_swap n B0 B change k : matrix n n B -> matrix n n change ->
  (1 <= k)%nat -> (k < n)%nat -> Uni n B0 B change ->
  Uni n B0 (swap_cols B k) (swap_cols change k).
Proof.
  intros HB HC H1 Hk (u & v & E1 & E2 & E3 & E4).
  pose proof HB as [LB _]; pose proof HC as [LC _].
  assert (T : forall i, (i < n)%nat -> (tau k i < n)%nat).
  { intros i Hi; unfold tau; destruct (i =? k - 1)%nat; [lia|destruct (i =? k)%nat; lia]. }
  assert (T2 : forall i j, tau k i = tau k j <-> i = j).
  { intros i j; unfold tau; destruct (Nat.eqb_spec i (k - 1)), (Nat.eqb_spec j (k - 1)),
      (Nat.eqb_spec i k), (Nat.eqb_spec j k); subst; lia. }
  assert (C : forall M i, length M = n -> col (swap_cols M k) i = col M (tau k i)).
  { intros M i L; rewrite col_swap by lia; unfold tau.
    destruct (i =? k - 1)%nat; [reflexivity|]; destruct (i =? k)%nat; reflexivity. }
  exists (fun i h => u (tau k i) h), (fun h i => v h (tau k i)); split; [|split; [|split]].
  - intros i h Hi Hh; rewrite at2_col, C, <- at2_col by exact LC; apply E1; auto.
  - intros i h Hi Hh; rewrite at2_col, C, <- at2_col by exact LB; apply E2; auto.
  - intros i j Hi Hj; rewrite E3 by auto.
    destruct (Nat.eqb_spec i j) as [->|N]; [rewrite Nat.eqb_refl; reflexivity|].
    rewrite (proj2 (Nat.eqb_neq _ _)) by (rewrite T2; exact N); reflexivity.
  - intros i j Hi Hj; rewrite <- (E4 i j Hi Hj). apply (sumnZ_two n _ _ (k - 1) k); [lia..| |].
    + intros h Hh N1 N2; unfold tau; rewrite (proj2 (Nat.eqb_neq _ _) N1), (proj2 (Nat.eqb_neq _ _) N2); reflexivity.
    + unfold tau; rewrite !Nat.eqb_refl, (proj2 (Nat.eqb_neq k (k - 1))) by lia; ring.
Qed.

Lemma reduce1_spec n B0 k st j : Wf n B0 st -> (k < n)%nat -> (j < k)%nat ->
  Wf n B0 (lll_reduce1 k st j) /\ l_k (lll_reduce1 k st j) = l_k st /\
  (forall i, i <> k -> col (l_B (lll_reduce1 k st j)) i = col (l_B st) i) /\
  exists z, col (l_B (lll_reduce1 k st j)) k = vsub (col (l_B st) k) (vscale (IZR z) (col (l_B st) j)) /\
    z = (if Rltb (1 / 2) (Rabs (mu st k j)) then rint (mu st k j) else 0%Z).
Proof.
  intros (HB & HC & HQ & H1 & HU) Hk Hj; unfold lll_reduce1.
  pose proof HB as [LB _].
  assert (Lk : length (col (l_B st) k) = n) by (apply col_length; assumption || lia).
  assert (Lj : length (col (l_B st) j) = n) by (apply col_length; assumption || lia).
  assert (Mk : length (col (l_change st) k) = n) by (apply col_length; assumption || lia).
  assert (Mj : length (col (l_change st) j) = n) by (apply col_length; assumption || lia).
  destruct (Rltb _ _).
  - set (z := rint (mu st k j)); cbn [l_B l_Q l_change l_k]. split; [|split; [reflexivity|split]].
    + split; [|split; [|split; [reflexivity|split; [exact H1|]]]].
      * apply set_col_matrix; [assumption|lia|rewrite vsub_length; rewrite ?vscale_length; lia].
      * apply set_col_matrix; [assumption|lia|rewrite vsub_length; rewrite ?vscale_length; lia].
      * apply Uni_op; assumption || lia.
    + intros i Hi; cbn [l_B]; rewrite col_set_col by lia; rewrite (proj2 (Nat.eqb_neq _ _) Hi); reflexivity.
    + exists z; split; [|reflexivity]. cbn [l_B]; rewrite col_set_col, Nat.eqb_refl by lia; reflexivity.
  - split; [exact (conj HB (conj HC (conj HQ (conj H1 HU))))|split; [reflexivity|split; [reflexivity|]]].
    exists 0%Z; split; [|reflexivity].
    apply nth_ext with (d := 0) (d' := 0); [rewrite vsub_length; rewrite ?vscale_length; lia|].
    intros r Hr; rewrite nth_vsub, nth_vscale by (rewrite vscale_length; lia); lra.
Qed.

Lemma fold_reduce_spec n B0 k l : forall st, Wf n B0 st -> (k < n)%nat -> (forall j, In j l -> (j < k)%nat) ->
  let st' := fold_left (lll_reduce1 k) l st in
  Wf n B0 st' /\ l_k st' = l_k st /\ (forall i, i <> k -> col (l_B st') i = col (l_B st) i).
Proof.
  induction l as [|j l IH]; intros st HW Hk Hl; cbn [fold_left]; [auto|].
  destruct (reduce1_spec n B0 k st j HW Hk (Hl j (or_introl eq_refl))) as (W1 & K1 & C1 & _).
  destruct (IH (lll_reduce1 k st j) W1 Hk (fun i Hi => Hl i (or_intror Hi))) as (W2 & K2 & C2).
  split; [exact W2|split; [congruence|]]. intros i Hi; rewrite C2, C1 by exact Hi; reflexivity.
Qed.

Lemma reduce_spec n B0 st : Wf n B0 st -> (l_k st < n)%nat ->
  Wf n B0 (lll_reduce st) /\ l_k (lll_reduce st) = l_k st /\
  (forall i, i <> l_k st -> col (l_B (lll_reduce st)) i = col (l_B st) i).
Proof.
  intros HW Hk; apply fold_reduce_spec; [exact HW|exact Hk|].
  intros j Hj; rewrite <- in_rev in Hj; unfold range in Hj; apply in_seq in Hj; lia.
Qed.

Lemma turn_wf n B0 delta st : Wf n B0 st -> (l_k st < n)%nat -> Wf n B0 (lll_turn delta st).
Proof.
  intros HW Hk; destruct (reduce_spec n B0 st HW Hk) as ((HB & HC & HQ & H1 & HU) & K & _).
  unfold lll_turn; rewrite K. rewrite K in H1.
  destruct (Rltb _ _).
  - split; [exact HB|split; [exact HC|split; [exact HQ|split; [cbn; lia|exact HU]]]].
  - split; [|split; [|split; [reflexivity|split]]]; cbn [l_B l_change l_k].
    + apply swap_matrix; assumption.
    + apply swap_matrix; assumption.
    + lia.
    + apply Uni_swap; assumption.
Qed.

Lemma reaches_wf n B delta st : matrix n n B -> lll_reaches delta B st -> Wf n B st.
Proof.
  intros HB R; induction R; [apply Wf_init, HB|].
  apply turn_wf; [exact IHR|]. destruct IHR as ([L _] & _); rewrite L in H; exact H.
Qed.

Lemma reaches_k n B delta st : matrix n n B -> (1 <= n)%nat -> lll_reaches delta B st -> (l_k st <= n)%nat.
Proof.
  intros HB Hn Rr; induction Rr as [|st Rr IHR H]; [cbn; lia|].
  pose proof (reaches_wf n B delta st HB Rr) as W. pose proof W as ([L _] & _); rewrite L in H.
  destruct (reduce_spec n B st W H) as (_ & K & _).
  unfold lll_turn; rewrite K; destruct (Rltb _ _); cbn [l_k]; lia.
Qed.

Lemma loop_reaches delta B fuel : forall st B' change, lll_reaches delta B st ->
  lll_loop delta fuel st = Ok (B', change) ->
  exists st', lll_reaches delta B st' /\ l_B st' = B' /\ l_change st' = change /\ (length B' <= l_k st')%nat.
Proof.
  induction fuel as [|fuel IH]; intros st B' change R E; cbn [lll_loop] in E;
    destruct (Nat.ltb_spec (l_k st) (length (l_B st))); try discriminate.
  - injection E as <- <-; exists st; auto.
  - apply (IH _ _ _ (reach_turn _ _ _ R H) E).
  - injection E as <- <-; exists st; auto.
Qed.
Lemma loop_more delta fuel : forall st r, lll_loop delta fuel st = Ok r ->
  forall fuel', (fuel <= fuel')%nat -> lll_loop delta fuel' st = Ok r.
Proof.
  induction fuel as [|fuel IH]; intros st r E fuel' Hf; destruct fuel' as [|fuel']; try lia; cbn [lll_loop] in *;
    destruct (l_k st <? length (l_B st))%nat; try exact E; try discriminate.
  apply IH; [exact E|lia].
Qed.

(** From functions to matrices. *)
Lemma Uni_unimodular n B0 B change : matrix n n B -> matrix n n change -> Uni n B0 B change ->
  exists U, unimodular n U /\ change = map (map IZR) U /\ recombined n U B0 B.
Proof.
  intros HB HC (u & v & E1 & E2 & E3 & E4); exists (mk2 n n u); split; [|split].
  - split; [apply matrix_mk2|]. exists (mk2 n n v); split; [apply matrix_mk2|].
    unfold zmat_mul, zmat_id; split.
    + apply (matrix_ext n n _ _ 0%Z); [apply matrix_mk2..|].
      intros i j Hi Hj; rewrite !at2_mk2 by assumption; rewrite <- E3 by assumption.
      apply sumnZ_ext; intros h Hh; rewrite !at2_mk2 by assumption; reflexivity.
    + apply (matrix_ext n n _ _ 0%Z); [apply matrix_mk2..|].
      intros i j Hi Hj; rewrite !at2_mk2 by assumption; rewrite <- E4 by assumption.
      apply sumnZ_ext; intros h Hh; rewrite !at2_mk2 by assumption; reflexivity.
  - fold (real_mat (mk2 n n u)).
    apply (matrix_ext n n _ _ 0); [exact HC|apply real_mat_matrix, matrix_mk2|].
    intros i j Hi Hj; rewrite at2_real_mat, at2_mk2 by assumption; apply E1; assumption.
  - intros i r Hi Hr; rewrite E2 by assumption; apply sumn_ext; intros h Hh; rewrite at2_mk2 by assumption; reflexivity.
Qed.

Lemma recombined_inverse n U V B B' : matrix n n U -> matrix n n V ->
  zmat_mul n n V U n = zmat_id n -> recombined n U B B' -> recombined n V B' B.
Proof.
  intros HU HV E H i r Hi Hr.
  rewrite (sumn_ext n _ (fun h => sumn n (fun t => IZR (at2 0%Z V i h) * (IZR (at2 0%Z U h t) * at2 0 B t r))))
    by (intros h Hh; rewrite H, sumn_scal by assumption; reflexivity).
  rewrite sumn_swap.
  rewrite (sumn_ext n _ (fun t => IZR (if (i =? t)%nat then 1 else 0) * at2 0 B t r)).
  - rewrite (sumn_single n _ i Hi); [rewrite Nat.eqb_refl; lra|].
    intros t Ht N; rewrite (proj2 (Nat.eqb_neq i t)) by congruence; lra.
  - intros t Ht; rewrite (sumn_ext n _ (fun h => IZR (at2 0%Z V i h * at2 0%Z U h t) * at2 0 B t r))
      by (intros; rewrite mult_IZR; ring).
    rewrite sumn_scal_r, <- sumnZ_IZR; do 2 f_equal.
    apply (f_equal (fun M => at2 0%Z M i t)) in E; unfold zmat_mul, zmat_id in E.
    rewrite !at2_mk2 in E by assumption; exact E.
Qed.
Lemma recombined_lattice n U B B' v : matrix n n U -> recombined n U B B' -> in_lattice n B' v -> in_lattice n B v.
Proof.
  intros HU H [L (c & Hc)]; split; [exact L|].
  exists (fun t => sumnZ n (fun h => c h * at2 0%Z U h t)%Z); intros r Hr; rewrite Hc by exact Hr.
  rewrite (sumn_ext n _ (fun h => sumn n (fun t => IZR (c h) * (IZR (at2 0%Z U h t) * at2 0 B t r))))
    by (intros h Hh; rewrite H, sumn_scal by assumption; reflexivity).
  rewrite sumn_swap; apply sumn_ext; intros t Ht; rewrite sumnZ_IZR, <- sumn_scal_r.
  apply sumn_ext; intros h Hh; rewrite mult_IZR; ring.
Qed.

(** * Size reduction against the first two columns, for any number of columns. *)
Lemma gs1_orth_0 n B : matrix n n B -> (2 <= n)%nat -> vdot (col B 0) (gs_column B 1) = 0.
Proof.
  intros HB Hn; rewrite gs_column_1.
  assert (L0 : length (col B 0) = n) by (apply col_length; assumption || lia).
  assert (L1 : length (col B 1) = n) by (apply col_length; assumption || lia).
  rewrite vdot_sub_r by (rewrite proj_length; lia). unfold proj, gs_coefficient; rewrite vdot_scale_r.
  destruct (Req_dec (vdot (col B 0) (col B 0)) 0) as [E|N].
  - rewrite (vdot_self_zero_l _ (col B 1) E), E; ring.
  - rewrite (vdot_comm (col B 1)); field; exact N.
Qed.

(** |u.q| / |q|^2 <= 1/2 in product form. *)
Definition reduced (u q : list R) : Prop := 2 * Rabs (vdot u q) <= vdot q q.

Lemma mu_reduced u q : Rabs (vdot u q / vdot q q) <= 1 / 2 -> reduced u q.
Proof.
  unfold reduced; intros H. pose proof (vdot_self_nonneg q) as Nn.
  destruct (Req_dec (vdot q q) 0) as [E|N].
  - rewrite (vdot_comm u), (vdot_self_zero_l q u E), Rabs_R0, E; lra.
  - assert (P : 0 < vdot q q) by lra.
    unfold Rdiv in H; rewrite Rabs_mult, Rabs_inv, (Rabs_right (vdot q q)) in H by lra.
    apply Rmult_le_reg_r with (/ vdot q q); [apply Rinv_0_lt_compat, P|].
    rewrite Rinv_r by exact N; lra.
Qed.
Lemma mu_reduced_iff u q : vdot q q <> 0 -> (Rabs (vdot u q / vdot q q) <= 1 / 2 <-> reduced u q).
Proof.
  intros N; split; [apply mu_reduced|]. unfold reduced; intros H. pose proof (vdot_self_nonneg q) as Nn.
  unfold Rdiv; rewrite Rabs_mult, Rabs_inv, (Rabs_right (vdot q q)) by lra.
  apply Rmult_le_reg_r with (vdot q q); [lra|]. rewrite Rmult_assoc, Rinv_l by exact N; lra.
Qed.

Lemma reduce1_reduced n B0 k st j : Wf n B0 st -> (k < n)%nat -> (j < k)%nat -> (j < 2)%nat ->
  reduced (col (l_B (lll_reduce1 k st j)) k) (gs_column (l_B st) j).
Proof.
  intros HW Hk Hj Hj2.
  destruct (reduce1_spec n B0 k st j HW Hk Hj) as (_ & _ & _ & z & Ez & Hz).
  destruct HW as (HB & _ & HQ & _ & _). pose proof HB as [LB _].
  assert (Lk : length (col (l_B st) k) = n) by (apply col_length; assumption || lia).
  assert (Lj : length (col (l_B st) j) = n) by (apply col_length; assumption || lia).
  assert (Lq : length (gs_column (l_B st) j) = n) by (apply gs_column_length; assumption || lia).
  set (q := gs_column (l_B st) j) in *.
  assert (Emu : mu st k j = vdot (col (l_B st) k) q / vdot q q).
  { unfold mu; rewrite HQ, col_gs by lia; reflexivity. }
  (* b_j . q_j = |q_j|^2 for j = 0, 1 *)
  assert (Ejq : vdot (col (l_B st) j) q = vdot q q).
  { destruct j as [|[|j]]; [reflexivity| |lia]. unfold q.
    assert (O : vdot (col (l_B st) 0) (gs_column (l_B st) 1) = 0) by (apply (gs1_orth_0 n); [assumption|lia]).
    set (g := gs_column (l_B st) 1) in *.
    assert (E : vdot g g = vdot (vsub (col (l_B st) 1) (proj (col (l_B st) 0) (col (l_B st) 1))) g) by reflexivity.
    rewrite E, vdot_sub_l by (rewrite proj_length, !(col_length n); assumption || lia).
    unfold proj; rewrite vdot_scale_l, O; ring. }
  rewrite Ez. destruct (Req_dec (vdot q q) 0) as [E|N].
  - unfold reduced; rewrite vdot_comm, (vdot_self_zero_l q _ E), Rabs_R0, E; lra.
  - apply (mu_reduced_iff _ _ N).
    rewrite vdot_sub_l, vdot_scale_l by (rewrite vscale_length; lia).
    rewrite Ejq. replace ((vdot (col (l_B st) k) q - IZR z * vdot q q) / vdot q q) with (mu st k j - IZR z)
      by (rewrite Emu; field; exact N).
    rewrite Hz; destruct (Rltb _ _) eqn:T; [apply rint_near|].
    apply Rltb_false in T; rewrite Rminus_0_r; exact T.
Qed.

Lemma reduced_stays n B0 k st j : Wf n B0 st -> (k < n)%nat -> (1 < k)%nat -> j = 0%nat ->
  reduced (col (l_B st) k) (gs_column (l_B st) 1) ->
  reduced (col (l_B (lll_reduce1 k st j)) k) (gs_column (l_B st) 1).
Proof.
  intros HW Hk H1 -> H.
  destruct (reduce1_spec n B0 k st 0 HW Hk ltac:(lia)) as (_ & _ & _ & z & Ez & _).
  destruct HW as (HB & _). rewrite Ez; unfold reduced in *.
  rewrite vdot_sub_l, vdot_scale_l, (gs1_orth_0 n) by (rewrite ?vscale_length, ?(col_length n); assumption || lia).
  rewrite Rmult_0_r, Rminus_0_r; exact H.
Qed.

Lemma rev_range_S k : rev (range 0 (S k)) = k :: rev (range 0 k).
Proof. unfold range; rewrite !Nat.sub_0_r, seq_S, rev_app_distr; reflexivity. Qed.

Lemma rev_range_last2 k : (2 <= k)%nat -> exists l, rev (range 0 k) = l ++ [1; 0]%nat /\ forall j, In j l -> (j < k)%nat.
Proof.
  induction k as [|k IH]; intros H; [lia|]. rewrite rev_range_S.
  destruct (Nat.eq_dec k 1) as [->|]; [exists []; split; [reflexivity|intros j []]|].
  destruct (IH ltac:(lia)) as (l & -> & Hl); exists (k :: l); split; [reflexivity|].
  intros j [<-|Hj]; [lia|specialize (Hl j Hj); lia].
Qed.

Lemma reduce_reduced n B0 st : Wf n B0 st -> (l_k st < n)%nat ->
  let st' := lll_reduce st in
  forall j, (j < l_k st)%nat -> (j < 2)%nat -> reduced (col (l_B st') (l_k st)) (gs_column (l_B st') j).
Proof.
  intros HW Hk st' j Hj Hj2. pose proof HW as (_ & _ & _ & H1 & _).
  assert (X : forall s i, Wf n B0 s -> (i < l_k st)%nat -> gs_column (l_B (lll_reduce1 (l_k st) s i)) j = gs_column (l_B s) j).
  { intros s i Hs Hi; apply gs_column_ext; intros t Ht.
    destruct (reduce1_spec n B0 (l_k st) s i Hs Hk Hi) as (_ & _ & C & _); apply C; lia. }
  unfold st', lll_reduce.
  destruct (Nat.eq_dec (l_k st) 1) as [E|E].
  - assert (j = 0%nat) as -> by lia. replace (rev (range 0 (l_k st))) with [0%nat] by (rewrite E; reflexivity). cbn [fold_left].
    rewrite X by (assumption || lia). apply (reduce1_reduced n B0); assumption || lia.
  - destruct (rev_range_last2 (l_k st)) as (l & -> & Hl); [lia|].
    rewrite !fold_left_app; cbn [fold_left].
    destruct (fold_reduce_spec n B0 (l_k st) l st HW Hk Hl) as (W1 & _ & _).
    set (s1 := fold_left (lll_reduce1 (l_k st)) l st) in *.
    destruct (reduce1_spec n B0 (l_k st) s1 1 W1 Hk ltac:(lia)) as (W2 & _ & _).
    set (s2 := lll_reduce1 (l_k st) s1 1) in *.
    destruct j as [|[|j]]; [| |lia].
    + rewrite X by (assumption || lia); apply (reduce1_reduced n B0); assumption || lia.
    + rewrite X by (assumption || lia). apply (reduced_stays n B0); [assumption|assumption|lia|reflexivity|].
      unfold s2; rewrite X by (assumption || lia). apply (reduce1_reduced n B0); assumption || lia.
Qed.

(** The exit invariant: columns before k are reduced against columns 0 and 1, and the
    first adjacent pair satisfies the Lovasz condition. *)
Definition Done (st : lll_state) : Prop :=
  (forall i j, (i < l_k st)%nat -> (j < i)%nat -> (j < 2)%nat -> reduced (col (l_B st) i) (gs_column (l_B st) j)) /\
  ((1 < l_k st)%nat -> vdot (col (l_B st) 0) (col (l_B st) 0) <> 0 ->
     3 / 4 * vdot (col (l_B st) 0) (col (l_B st) 0) < vdot (col (l_B st) 1) (col (l_B st) 1)).

Lemma gs1_norm n B : matrix n n B -> (2 <= n)%nat -> vdot (col B 0) (col B 0) <> 0 ->
  vdot (gs_column B 1) (gs_column B 1) =
  vdot (col B 1) (col B 1) - vdot (col B 1) (col B 0) ^ 2 / vdot (col B 0) (col B 0).
Proof.
  intros HB Hn N; rewrite gs_column_1; unfold proj, gs_coefficient.
  rewrite !vdot_sub_l, !vdot_scale_l, !vdot_sub_r, !vdot_scale_r
    by (rewrite !vscale_length, !(col_length n); assumption || lia).
  rewrite (vdot_comm (col B 0) (col B 1)); field; exact N.
Qed.

Lemma lovasz1 n B : matrix n n B -> (2 <= n)%nat -> vdot (col B 0) (col B 0) <> 0 ->
  let a := vdot (col B 0) (col B 0) in
  (3 / 4 - (vdot (col B 1) (gs_column B 0) / vdot (gs_column B 0) (gs_column B 0)) ^ 2) * vdot (gs_column B 0) (gs_column B 0)
    < vdot (gs_column B 1) (gs_column B 1) <-> 3 / 4 * a < vdot (col B 1) (col B 1).
Proof.
  intros HB Hn N a. rewrite (gs1_norm n) by assumption. rewrite gs_column_0; fold a; fold a in N.
  replace ((3 / 4 - (vdot (col B 1) (col B 0) / a) ^ 2) * a) with
    (3 / 4 * a - vdot (col B 1) (col B 0) ^ 2 / a) by (field; exact N).
  split; lra.
Qed.

Lemma turn_done n B0 st : Wf n B0 st -> (l_k st < n)%nat -> Done st -> Done (lll_turn (3 / 4) st).
Proof.
  intros HW Hk [D1 D2]. pose proof HW as (HB0 & _).
  destruct (reduce_spec n B0 st HW Hk) as ((HB & HC & HQ & H1 & HU) & K & Hcol).
  pose proof (reduce_reduced n B0 st HW Hk) as Hred; cbv zeta in Hred.
  pose proof HB as [LB _].
  unfold lll_turn; rewrite K in *. set (s := lll_reduce st) in *. set (k := l_k st) in *.
  assert (Hgs : forall j, (j < k)%nat -> gs_column (l_B s) j = gs_column (l_B st) j).
  { intros j Hj; apply gs_column_ext; intros t Ht; apply Hcol; lia. }
  destruct (Rltb _ _) eqn:T.
  - apply Rltb_true in T. split; cbn [l_k l_B].
    + intros i j Hi Hj Hj2. destruct (Nat.eq_dec i k) as [->|N]; [apply Hred; assumption|].
      rewrite Hcol, Hgs by lia. apply D1; lia.
    + intros _ N0. destruct (Nat.eq_dec k 1) as [E|E].
      * rewrite E in T; unfold mu in T; rewrite HQ in T; rewrite !col_gs in T by lia.
        apply (lovasz1 n) in T; [exact T|assumption|lia|exact N0].
      * rewrite !Hcol in * by lia. apply D2; [lia|exact N0].
  - split; cbn [l_k l_B].
    + intros i j Hi Hj Hj2.
      assert (C : forall t, (t < k - 1)%nat -> col (swap_cols (l_B s) k) t = col (l_B st) t).
      { intros t Ht; rewrite col_swap by lia. rewrite !(proj2 (Nat.eqb_neq _ _)) by lia. apply Hcol; lia. }
      destruct (Nat.eq_dec k 1) as [E|E]; [lia|].
      rewrite (C i) by lia. rewrite (gs_column_ext _ (l_B st)) by (intros; apply C; lia).
      apply D1; lia.
    + intros Hk2 N0. destruct (Nat.eq_dec k 1) as [E|E]; [lia|]. destruct (Nat.eq_dec k 2) as [E2|E2]; [lia|].
      rewrite !col_swap in * by lia. rewrite !(proj2 (Nat.eqb_neq _ _)) in * by lia.
      rewrite !Hcol in * by lia. apply D2; [lia|exact N0].
Qed.

Lemma reaches_done n B st : matrix n n B -> lll_reaches (3 / 4) B st -> Done st.
Proof.
  intros HB Rr; induction Rr as [|st Rr IHR H].
  - split; cbn [lll_init l_k]; [intros i j Hi Hj; lia|lia].
  - pose proof (reaches_wf n B _ st HB Rr) as W. apply (turn_done n B); [exact W| |exact IHR].
    destruct W as ([L _] & _); rewrite L in H; exact H.
Qed.

(** * Termination for two and three columns. *)
Definition d1 (B : list (list R)) : R := vdot (col B 0) (col B 0).
Definition d2 (B : list (list R)) : R :=
  vdot (col B 0) (col B 0) * vdot (col B 1) (col B 1) - vdot (col B 1) (col B 0) ^ 2.

Lemma turn_k1 n B0 st : Wf n B0 st -> (2 <= n)%nat -> l_k st = 1%nat -> d1 (l_B st) <> 0 ->
  let B := l_B st in let B' := l_B (lll_turn (3 / 4) st) in
  vdot (col B' 0) (col B' 0) + vdot (col B' 1) (col B' 1) <= vdot (col B 0) (col B 0) + vdot (col B 1) (col B 1) /\
  Rabs (vdot (col B' 1) (col B' 0)) <= Rabs (vdot (col B 1) (col B 0)) /\
  d2 B' = d2 B /\
  ((l_k (lll_turn (3 / 4) st) = 2%nat /\ d1 B' = d1 B) \/
   (l_k (lll_turn (3 / 4) st) = 1%nat /\ d1 B' <= 3 / 4 * d1 B)).
Proof.
  intros HW Hn K1 N0 B B'.
  assert (Hr : lll_reduce st = lll_reduce1 1 st 0) by (unfold lll_reduce; rewrite K1; reflexivity).
  destruct (reduce1_spec n B0 1 st 0 HW ltac:(lia) ltac:(lia)) as (W & K & C & z & Ez & Hz).
  unfold B', lll_turn; rewrite Hr; rewrite K, K1.
  set (s := lll_reduce1 1 st 0) in *.
  pose proof HW as (HB0 & _ & HQ0 & _). pose proof W as (HB & _ & HQ & _ & _). pose proof HB as [LB _]; pose proof HB0 as [LB0 _].
  assert (C0 : col (l_B s) 0 = col B 0) by (apply C; lia).
  set (a := vdot (col B 0) (col B 0)) in *. set (b := vdot (col B 1) (col B 0)) in *. set (c := vdot (col B 1) (col B 1)) in *.
  assert (Na : a <> 0) by exact N0.
  assert (Pa : 0 < a) by (pose proof (vdot_self_nonneg (col B 0)); fold a in H; lra).
  assert (Emu : mu st 1 0 = b / a).
  { unfold mu; rewrite HQ0, col_gs by lia; reflexivity. }
  assert (Eb : vdot (col (l_B s) 1) (col B 0) = b - IZR z * a).
  { rewrite Ez, vdot_sub_l, vdot_scale_l by (rewrite vscale_length, !(col_length n); assumption || lia); reflexivity. }
  assert (Ec : vdot (col (l_B s) 1) (col (l_B s) 1) = c - 2 * IZR z * b + IZR z * IZR z * a).
  { rewrite Ez, !vdot_sub_l, !vdot_sub_r, !vdot_scale_l, !vdot_scale_r by (rewrite vscale_length, !(col_length n); assumption || lia).
    rewrite (vdot_comm (col (l_B st) 0) (col (l_B st) 1)). unfold a, b, c, B; ring. }
  set (m := b / a) in *. assert (Em : b = m * a) by (unfold m; field; exact Na).
  assert (Hm : Rabs (m - IZR z) <= Rabs m).
  { rewrite Hz, Emu; match goal with |- context [if ?cnd then _ else _] => destruct cnd eqn:T end; [|cbv iota; replace (m - 0) with m by ring; lra].
    apply Rltb_true in T; pose proof (rint_near m); lra. }
  assert (Hc : vdot (col (l_B s) 1) (col (l_B s) 1) <= c).
  { rewrite Ec, Em. assert (S : (m - IZR z) * (m - IZR z) <= m * m).
    { rewrite <- (Rsqr_abs (m - IZR z)), <- (Rsqr_abs m) || idtac.
      pose proof (Rsqr_le_abs_1 (m - IZR z) m Hm) as Q; unfold Rsqr in Q; exact Q. }
    nra. }
  assert (Hb : Rabs (vdot (col (l_B s) 1) (col B 0)) <= Rabs b).
  { rewrite Eb, Em. replace (m * a - IZR z * a) with ((m - IZR z) * a) by ring.
    rewrite !Rabs_mult. apply Rmult_le_compat_r; [apply Rabs_pos|exact Hm]. }
  assert (Hd : a * vdot (col (l_B s) 1) (col (l_B s) 1) - vdot (col (l_B s) 1) (col B 0) ^ 2 = a * c - b ^ 2).
  { rewrite Ec, Eb; ring. }
  change (1 - 1)%nat with 0%nat.
  match goal with |- context [if ?cnd then _ else _] => destruct cnd eqn:T end; cbn [l_k l_B].
  - rewrite C0. fold a. split; [lra|split; [exact Hb|split; [unfold d2; rewrite C0; exact Hd|]]].
    left; split; [reflexivity|unfold d1; rewrite C0; reflexivity].
  - apply Rltb_false in T; apply Rle_not_lt in T.
    assert (E0 : col (swap_cols (l_B s) 1) 0 = col (l_B s) 1) by (rewrite col_swap by lia; reflexivity).
    assert (E1 : col (swap_cols (l_B s) 1) 1 = col (l_B s) 0) by (rewrite col_swap by lia; reflexivity).
    unfold d1, d2; rewrite E0, E1, C0. fold a.
    rewrite (vdot_comm (col B 0) (col (l_B s) 1)).
    split; [lra|split; [exact Hb|split; [transitivity (a * c - b ^ 2); [rewrite <- Hd; ring|reflexivity]|]]].
    right; split; [reflexivity|].
    unfold mu in T; rewrite HQ in T; rewrite !col_gs in T by lia.
    apply Rnot_lt_le; intros L; apply T. apply (lovasz1 n); [assumption|lia|rewrite C0; exact N0|].
    rewrite C0; exact L.
Qed.

Lemma turn_k2 n B0 st : Wf n B0 st -> (3 <= n)%nat -> l_k st = 2%nat -> d1 (l_B st) <> 0 -> d2 (l_B st) <> 0 ->
  let B := l_B st in let B' := l_B (lll_turn (3 / 4) st) in
  d1 B' = d1 B /\
  ((l_k (lll_turn (3 / 4) st) = 3%nat /\ d2 B' = d2 B) \/
   (l_k (lll_turn (3 / 4) st) = 1%nat /\ d2 B' <= 3 / 4 * d2 B)).
Proof.
  intros HW Hn K1 N1 N2 B B'.
  destruct (reduce_spec n B0 st HW ltac:(lia)) as (W & K & C).
  unfold B', lll_turn; rewrite K, K1 in *.
  set (s := lll_reduce st) in *.
  pose proof HW as (HB0 & _ & HQ0 & _). pose proof W as (HB & _ & HQ & _ & _). pose proof HB as [LB _]; pose proof HB0 as [LB0 _].
  assert (C0 : col (l_B s) 0 = col B 0) by (apply C; lia).
  assert (C1 : col (l_B s) 1 = col B 1) by (apply C; lia).
  change (2 - 1)%nat with 1%nat; change (Nat.max 1 1) with 1%nat.
  match goal with |- context [if ?cnd then _ else _] => destruct cnd eqn:T end; cbn [l_k l_B].
  - unfold d1, d2; rewrite C0, C1; auto.
  - apply Rltb_false in T.
    assert (E0 : col (swap_cols (l_B s) 2) 0 = col B 0) by (rewrite col_swap by lia; cbn; exact C0).
    assert (E1 : col (swap_cols (l_B s) 2) 1 = col (l_B s) 2) by (rewrite col_swap by lia; reflexivity).
    unfold d1, d2; rewrite E0, E1. split; [reflexivity|right; split; [reflexivity|]].
    unfold mu in T; rewrite HQ in T; rewrite !col_gs in T by lia.
    rewrite gs_column_2, gs_column_1, C0, C1 in T; cbv zeta in T.
    set (x := col B 0) in *; set (y := col B 1) in *; set (t := col (l_B s) 2) in *.
    assert (Lx : length x = n) by (apply col_length; assumption || lia).
    assert (Ly : length y = n) by (apply col_length; assumption || lia).
    assert (Lt : length t = n) by (apply col_length; assumption || lia).
    (* q = y - proj x y; w = t - proj x t *)
    set (q := vsub y (proj x y)) in *; set (w := vsub t (proj x t)) in *.
    assert (Lq : length q = n) by (unfold q; rewrite vsub_length; rewrite ?proj_length; lia).
    assert (Lw : length w = n) by (unfold w; rewrite vsub_length; rewrite ?proj_length; lia).
    change (vdot x x <> 0) in N1; change (vdot x x * vdot y y - vdot y x ^ 2 <> 0) in N2.
    set (a := vdot x x) in *. assert (Pa : 0 < a) by (pose proof (vdot_self_nonneg x); fold a in H; lra).
    set (b := vdot y x) in *; set (c := vdot y y) in *. set (g := vdot t x) in *. set (h := vdot t y) in *. set (f := vdot t t) in *.
    assert (Eqq : vdot q q = c - b ^ 2 / a).
    { unfold q, proj, gs_coefficient; rewrite !vdot_sub_l, !vdot_scale_l, !vdot_sub_r, !vdot_scale_r
        by (rewrite !vscale_length; congruence).
      rewrite (vdot_comm x y); unfold a, b, c; field; exact N1. }
    assert (Eww : vdot w w = f - g ^ 2 / a).
    { unfold w, proj, gs_coefficient; rewrite !vdot_sub_l, !vdot_scale_l, !vdot_sub_r, !vdot_scale_r
        by (rewrite !vscale_length; congruence).
      rewrite (vdot_comm x t); unfold a, g, f; field; exact N1. }
    assert (Ewy : vdot w y = h - b * g / a).
    { unfold w, proj, gs_coefficient; rewrite !vdot_sub_l, !vdot_scale_l by (rewrite !vscale_length; congruence).
      rewrite (vdot_comm x y); unfold a, b, g, h; field; exact N1. }
    assert (Etq : vdot t q = h - b * g / a).
    { unfold q, proj, gs_coefficient; rewrite !vdot_sub_r, !vdot_scale_r by (rewrite !vscale_length; congruence).
      unfold a, b, g, h; field; exact N1. }
    assert (Pq : 0 < vdot q q).
    { pose proof (vdot_self_nonneg q) as Hq. destruct (Req_dec (vdot q q) 0) as [E|E]; [|lra].
      exfalso; apply N2. rewrite Eqq in E. apply (Rmult_eq_compat_l a) in E.
      replace (a * (c - b ^ 2 / a)) with (a * c - b ^ 2) in E by (field; exact N1). rewrite E; ring. }
    assert (Pc : vdot q q <= c).
    { rewrite Eqq. assert (0 <= b ^ 2 / a); [|lra].
      apply Rmult_le_pos; [apply pow2_ge_0|left; apply Rinv_0_lt_compat, Pa]. }
    set (p := h - b * g / a) in *.
    (* |Q2|^2 = |w|^2 - p^2/c >= |w|^2 - p^2/|q|^2 *)
    assert (EQ2 : vdot (vsub w (proj y w)) (vsub w (proj y w)) = vdot w w - p ^ 2 / c).
    { unfold proj, gs_coefficient; rewrite !vdot_sub_l, !vdot_scale_l, !vdot_sub_r, !vdot_scale_r
        by (rewrite !vscale_length; congruence).
      rewrite (vdot_comm y w), Ewy. fold c. field; lra. }
    rewrite EQ2, Etq in T.
    replace ((3 / 4 - (p / vdot q q) ^ 2) * vdot q q) with (3 / 4 * vdot q q - p ^ 2 / vdot q q) in T by (field; lra).
    assert (I : p ^ 2 / c <= p ^ 2 / vdot q q).
    { apply Rmult_le_compat_l; [apply pow2_ge_0|]. apply Rinv_le_contravar; assumption. }
    assert (F : vdot w w <= 3 / 4 * vdot q q) by lra.
    rewrite Eww, Eqq in F. apply (Rmult_le_compat_l a) in F; [|lra].
    replace (a * (f - g ^ 2 / a)) with (a * f - g ^ 2) in F by (field; exact N1).
    replace (a * (3 / 4 * (c - b ^ 2 / a))) with (3 / 4 * (a * c - b ^ 2)) in F by (field; exact N1).
    exact F.
Qed.

Lemma loop_terminates n (Inv : lll_state -> Prop) (P : lll_state -> R) eps :
  0 < eps ->
  (forall st, Inv st -> length (l_B st) = n /\ (l_k st <= n)%nat /\ eps <= P st) ->
  (forall st, Inv st -> (l_k st < n)%nat -> Inv (lll_turn (3 / 4) st) /\
     ((l_k (lll_turn (3 / 4) st) = S (l_k st) /\ P (lll_turn (3 / 4) st) <= P st) \/
      P (lll_turn (3 / 4) st) <= 3 / 4 * P st)) ->
  forall st, Inv st -> exists fuel r, lll_loop (3 / 4) fuel st = Ok r.
Proof.
  intros He H1 H2.
  assert (G : forall m st, Inv st -> P st * (3 / 4) ^ m < eps -> exists fuel r, lll_loop (3 / 4) fuel st = Ok r).
  { induction m as [|m IH]; intros st HI HP.
    - destruct (H1 st HI) as (_ & _ & L); cbn in HP; lra.
    - remember (n - l_k st)%nat as d eqn:Ed. revert st Ed HI HP; induction d as [|d IHd]; intros st Ed HI HP.
      + destruct (H1 st HI) as (L & Lk & _). exists 0%nat, (l_B st, l_change st); cbn [lll_loop].
        rewrite (proj2 (Nat.ltb_ge _ _)) by lia; reflexivity.
      + destruct (H1 st HI) as (L & Lk & _). destruct (H2 st HI ltac:(lia)) as (HI' & Hc).
        assert (X : exists fuel r, lll_loop (3 / 4) fuel (lll_turn (3 / 4) st) = Ok r).
        { destruct Hc as [[K HP']|HP'].
          - apply IHd; [lia|exact HI'|]. eapply Rle_lt_trans; [|exact HP].
            apply Rmult_le_compat_r; [apply pow_le; lra|exact HP'].
          - apply IH; [exact HI'|]. eapply Rle_lt_trans; [|exact HP]. cbn [pow].
            rewrite <- Rmult_assoc. apply Rmult_le_compat_r; [apply pow_le; lra|lra]. }
        destruct X as (fuel & r & E); exists (S fuel), r; cbn [lll_loop].
        rewrite (proj2 (Nat.ltb_lt _ _)) by lia; exact E. }
  intros st HI. destruct (H1 st HI) as (_ & _ & LP).
  destruct (pow_lt_1_zero (3 / 4) ltac:(rewrite Rabs_right; lra) (eps / P st)) as (m & Hm).
  { apply Rdiv_lt_0_compat; lra. }
  apply (G m st HI). specialize (Hm m ltac:(lia)).
  rewrite Rabs_right in Hm by (apply Rle_ge, pow_le; lra).
  apply (Rmult_lt_compat_l (P st)) in Hm; [|lra].
  replace (P st * (eps / P st)) with eps in Hm by (field; lra). exact Hm.
Qed.

(** * Lower bounds from integrality. *)
Lemma int_sq_ge1 z : z <> 0%Z -> 1 <= IZR z ^ 2.
Proof. intros H; replace (IZR z ^ 2) with (IZR (z * z)) by (rewrite mult_IZR; ring). apply IZR_le; nia. Qed.

Lemma pow2_gt_0 x : x <> 0 -> 0 < x ^ 2.
Proof. intros H; pose proof (Rsqr_pos_lt x H) as P; unfold Rsqr in P; cbn; lra. Qed.
Lemma cs3 x y z p q r : (x * p + y * q + z * r) ^ 2 <= (x ^ 2 + y ^ 2 + z ^ 2) * (p ^ 2 + q ^ 2 + r ^ 2).
Proof. pose proof (pow2_ge_0 (x * q - y * p)); pose proof (pow2_ge_0 (x * r - z * p)); pose proof (pow2_ge_0 (y * r - z * q)); nra. Qed.

Definition det2 (B : list (list R)) : R := at2 0 B 0 0 * at2 0 B 1 1 - at2 0 B 0 1 * at2 0 B 1 0.
Definition det3 (B : list (list R)) : R :=
  let b := at2 0 B in
  b 0%nat 0%nat * (b 1%nat 1%nat * b 2%nat 2%nat - b 1%nat 2%nat * b 2%nat 1%nat)
  - b 0%nat 1%nat * (b 1%nat 0%nat * b 2%nat 2%nat - b 1%nat 2%nat * b 2%nat 0%nat)
  + b 0%nat 2%nat * (b 1%nat 0%nat * b 2%nat 1%nat - b 1%nat 1%nat * b 2%nat 0%nat).

Lemma independent_det2 B : independent 2 B -> det2 B <> 0.
Proof.
  intros H D; unfold det2 in D.
  set (a := at2 0 B 0 0) in *; set (b := at2 0 B 0 1) in *; set (c := at2 0 B 1 0) in *; set (d := at2 0 B 1 1) in *.
  assert (K : forall p q, (p * a + q * c = 0) -> (p * b + q * d = 0) -> p = 0 /\ q = 0).
  { intros p q E1 E2. pose proof (H (fun h => match h with 0%nat => p | _ => q end)) as X.
    assert (Y : forall r, (r < 2)%nat -> sumn 2 (fun h => match h with 0%nat => p | _ => q end * at2 0 B h r) = 0).
    { intros [|[|r]] Hr; [| |lia]; cbn [sumn]; [fold a c|fold b d]; lra. }
    specialize (X Y); split; [apply (X 0%nat); lia|apply (X 1%nat); lia]. }
  destruct (K d (- b)) as [Ed Eb]; [lra|ring|].
  destruct (K c (- a)) as [Ec Ea]; [ring|lra|].
  destruct (K 1 0) as [E _]; lra.
Qed.

Lemma independent_det3 B : independent 3 B -> det3 B <> 0.
Proof.
  intros H D; unfold det3 in D; cbv zeta in D.
  set (a0 := at2 0 B 0 0) in *; set (a1 := at2 0 B 0 1) in *; set (a2 := at2 0 B 0 2) in *.
  set (b0 := at2 0 B 1 0) in *; set (b1 := at2 0 B 1 1) in *; set (b2 := at2 0 B 1 2) in *.
  set (c0 := at2 0 B 2 0) in *; set (c1 := at2 0 B 2 1) in *; set (c2 := at2 0 B 2 2) in *.
  assert (K : forall p q s, p * a0 + q * b0 + s * c0 = 0 -> p * a1 + q * b1 + s * c1 = 0 ->
     p * a2 + q * b2 + s * c2 = 0 -> p = 0 /\ q = 0 /\ s = 0).
  { intros p q s E0 E1 E2. set (f := fun h : nat => match h with 0%nat => p | 1%nat => q | _ => s end).
    pose proof (H f) as X.
    assert (Y : forall r, (r < 3)%nat -> sumn 3 (fun h => f h * at2 0 B h r) = 0).
    { intros [|[|[|r]]] Hr; [| | |lia]; cbn [sumn f]; [fold a0 b0 c0|fold a1 b1 c1|fold a2 b2 c2]; lra. }
    specialize (X Y); split; [apply (X 0%nat); lia|split; [apply (X 1%nat); lia|apply (X 2%nat); lia]]. }
  assert (M0 : b1 * c2 - b2 * c1 = 0 /\ a2 * c1 - a1 * c2 = 0 /\ a1 * b2 - a2 * b1 = 0) by (apply K; lra || nra).
  assert (M1 : b2 * c0 - b0 * c2 = 0 /\ a0 * c2 - a2 * c0 = 0 /\ a2 * b0 - a0 * b2 = 0) by (apply K; lra || nra).
  assert (M2 : b0 * c1 - b1 * c0 = 0 /\ a1 * c0 - a0 * c1 = 0 /\ a0 * b1 - a1 * b0 = 0) by (apply K; lra || nra).
  destruct M0 as (M01 & M02 & M03); destruct M1 as (M11 & M12 & M13); destruct M2 as (M21 & M22 & M23).
  assert (A0 : b0 = 0 /\ - a0 = 0 /\ 0 = 0) by (apply (K b0 (- a0) 0); lra).
  assert (A1 : b1 = 0 /\ - a1 = 0 /\ 0 = 0) by (apply (K b1 (- a1) 0); lra).
  assert (A2 : b2 = 0 /\ - a2 = 0 /\ 0 = 0) by (apply (K b2 (- a2) 0); lra).
  destruct (K 1 0 0) as [E _]; lra.
Qed.

Lemma row_nonzero (u0 u1 : Z) (v0 v1 : Z) : (u0 * v0 + u1 * v1 = 1 -> u0 <> 0 \/ u1 <> 0)%Z.
Proof. intros H; destruct (Z.eq_dec u0 0) as [->|]; [|auto]. destruct (Z.eq_dec u1 0) as [->|]; auto. lia. Qed.

Lemma d1_lower2 B0 st : matrix 2 2 B0 -> Wf 2 B0 st -> det2 B0 <> 0 ->
  det2 B0 ^ 2 <= d1 (l_B st) * (inner 2 (col B0 0) (col B0 0) + inner 2 (col B0 1) (col B0 1)).
Proof.
  intros HB0 (HB & _ & _ & _ & u & v & _ & E2 & E3 & _) D.
  unfold d1; rewrite (vdot_inner 2) by (apply col_length; assumption || lia).
  unfold inner; cbn [sumn]; rewrite <- !at2_col, !E2 by lia; cbn [sumn].
  specialize (E3 0%nat 0%nat ltac:(lia) ltac:(lia)); cbn in E3.
  unfold det2 in *.
  set (a := at2 0 B0 0 0) in *; set (b := at2 0 B0 0 1) in *; set (c := at2 0 B0 1 0) in *; set (d := at2 0 B0 1 1) in *.
  assert (E4 : (u 0%nat 0%nat * v 0%nat 0%nat + u 0%nat 1%nat * v 1%nat 0%nat = 1)%Z) by lia.
  set (x := IZR (u 0%nat 0%nat)) in *; set (y := IZR (u 0%nat 1%nat)) in *.
  set (D0 := a * d - b * c) in *.
  assert (P : 0 <= D0 ^ 2) by apply pow2_ge_0.
  set (X := 0 + x * a + y * c); set (Y := 0 + x * b + y * d).
  assert (PX : 0 <= X ^ 2 + Y ^ 2) by (pose proof (pow2_ge_0 X); pose proof (pow2_ge_0 Y); lra).
  assert (PA : 0 <= a ^ 2 + b ^ 2) by (pose proof (pow2_ge_0 a); pose proof (pow2_ge_0 b); lra).
  assert (PC : 0 <= c ^ 2 + d ^ 2) by (pose proof (pow2_ge_0 c); pose proof (pow2_ge_0 d); lra).
  assert (CS : forall p q, (X * p - Y * q) ^ 2 <= (X ^ 2 + Y ^ 2) * (q ^ 2 + p ^ 2)).
  { intros p q; pose proof (pow2_ge_0 (X * q + Y * p)); nra. }
  replace ((0 + X * X + Y * Y) * (0 + a * a + b * b + (0 + c * c + d * d))) with
    ((X ^ 2 + Y ^ 2) * (a ^ 2 + b ^ 2) + (X ^ 2 + Y ^ 2) * (c ^ 2 + d ^ 2)) by ring.
  assert (S : x ^ 2 * D0 ^ 2 <= (X ^ 2 + Y ^ 2) * (c ^ 2 + d ^ 2)).
  { eapply Rle_trans; [|apply (CS d c)]. right; unfold X, Y, D0; ring. }
  assert (T : y ^ 2 * D0 ^ 2 <= (X ^ 2 + Y ^ 2) * (a ^ 2 + b ^ 2)).
  { eapply Rle_trans; [|apply (CS b a)]. right; unfold X, Y, D0; ring. }
  pose proof (Rmult_le_pos _ _ PX PA) as Q1; pose proof (Rmult_le_pos _ _ PX PC) as Q2.
  destruct (row_nonzero _ _ _ _ E4) as [Hu|Hu]; apply int_sq_ge1 in Hu; [fold x in Hu|fold y in Hu].
  - assert (D0 ^ 2 <= x ^ 2 * D0 ^ 2) by (apply (Rmult_le_compat_r (D0 ^ 2)) in Hu; [lra|exact P]); lra.
  - assert (D0 ^ 2 <= y ^ 2 * D0 ^ 2) by (apply (Rmult_le_compat_r (D0 ^ 2)) in Hu; [lra|exact P]); lra.
Qed.

(** Sum of squares of all entries and of all 2x2 minors of a 3x3 matrix. *)
Definition sq3 (B : list (list R)) : R :=
  sumn 3 (fun h => sumn 3 (fun r => at2 0 B h r ^ 2)).
Definition minors3 (B : list (list R)) : R :=
  let b := at2 0 B in
  sumn 3 (fun h => sumn 3 (fun r =>
    (b ((h + 1) mod 3)%nat ((r + 1) mod 3)%nat * b ((h + 2) mod 3)%nat ((r + 2) mod 3)%nat
     - b ((h + 1) mod 3)%nat ((r + 2) mod 3)%nat * b ((h + 2) mod 3)%nat ((r + 1) mod 3)%nat) ^ 2)).

Lemma lower3 B0 st : matrix 3 3 B0 -> Wf 3 B0 st ->
  det3 B0 ^ 2 <= d1 (l_B st) * minors3 B0 /\ det3 B0 ^ 2 <= d2 (l_B st) * sq3 B0.
Proof.
  intros HB0 (HB & _ & _ & _ & u & v & _ & E2 & E3 & _).
  unfold d1, d2; rewrite !(vdot_inner 3) by (apply col_length; assumption || lia).
  unfold inner; cbn [sumn]; rewrite <- !at2_col, !E2 by lia; cbn [sumn].
  pose proof (E3 0%nat 0%nat ltac:(lia) ltac:(lia)) as F00; pose proof (E3 0%nat 1%nat ltac:(lia) ltac:(lia)) as F01.
  pose proof (E3 1%nat 0%nat ltac:(lia) ltac:(lia)) as F10; pose proof (E3 1%nat 1%nat ltac:(lia) ltac:(lia)) as F11.
  clear E3 E2. cbn [sumnZ Nat.eqb] in F00, F01, F10, F11.
  unfold minors3, sq3, det3; cbn [sumn]; cbv zeta.
  change ((0 + 1) mod 3)%nat with 1%nat; change ((0 + 2) mod 3)%nat with 2%nat;
  change ((1 + 1) mod 3)%nat with 2%nat; change ((1 + 2) mod 3)%nat with 0%nat;
  change ((2 + 1) mod 3)%nat with 0%nat; change ((2 + 2) mod 3)%nat with 1%nat.
  set (a0 := at2 0 B0 0 0) in *; set (a1 := at2 0 B0 0 1) in *; set (a2 := at2 0 B0 0 2) in *.
  set (b0 := at2 0 B0 1 0) in *; set (b1 := at2 0 B0 1 1) in *; set (b2 := at2 0 B0 1 2) in *.
  set (c0 := at2 0 B0 2 0) in *; set (c1 := at2 0 B0 2 1) in *; set (c2 := at2 0 B0 2 2) in *.
  set (p0 := u 0%nat 0%nat) in *; set (p1 := u 0%nat 1%nat) in *; set (p2 := u 0%nat 2%nat) in *.
  set (q0 := u 1%nat 0%nat) in *; set (q1 := u 1%nat 1%nat) in *; set (q2 := u 1%nat 2%nat) in *.
  set (v00 := v 0%nat 0%nat) in *; set (v10 := v 1%nat 0%nat) in *; set (v20 := v 2%nat 0%nat) in *.
  set (v01 := v 0%nat 1%nat) in *; set (v11 := v 1%nat 1%nat) in *; set (v21 := v 2%nat 1%nat) in *.
  assert (Hp : p0 <> 0%Z \/ p1 <> 0%Z \/ p2 <> 0%Z).
  { destruct (Z.eq_dec p0 0) as [Z0|]; [|auto]; destruct (Z.eq_dec p1 0) as [Z1|]; [|auto];
    destruct (Z.eq_dec p2 0) as [Z2|]; [|auto]. rewrite Z0, Z1, Z2 in F00; lia. }
  assert (Hw : (p1 * q2 - p2 * q1)%Z <> 0%Z \/ (p2 * q0 - p0 * q2)%Z <> 0%Z \/ (p0 * q1 - p1 * q0)%Z <> 0%Z).
  { destruct (Z.eq_dec (p1 * q2 - p2 * q1) 0) as [Z0|]; [|auto]; destruct (Z.eq_dec (p2 * q0 - p0 * q2) 0) as [Z1|]; [|auto];
    destruct (Z.eq_dec (p0 * q1 - p1 * q0) 0) as [Z2|]; [|auto]. exfalso.
    assert (X : ((p1 * q2 - p2 * q1) * (v10 * v21 - v20 * v11) + (p2 * q0 - p0 * q2) * (v20 * v01 - v00 * v21)
       + (p0 * q1 - p1 * q0) * (v00 * v11 - v10 * v01) =
       (0 + p0 * v00 + p1 * v10 + p2 * v20) * (0 + q0 * v01 + q1 * v11 + q2 * v21)
       - (0 + p0 * v01 + p1 * v11 + p2 * v21) * (0 + q0 * v00 + q1 * v10 + q2 * v20))%Z) by ring.
    rewrite Z0, Z1, Z2, F00, F01, F10, F11 in X; lia. }
  clear F00 F01 F10 F11.
  set (D0 := a0 * (b1 * c2 - b2 * c1) - a1 * (b0 * c2 - b2 * c0) + a2 * (b0 * c1 - b1 * c0)) in *.
  assert (PD : 0 <= D0 ^ 2) by apply pow2_ge_0.
  set (r0 := 0 + IZR p0 * a0 + IZR p1 * b0 + IZR p2 * c0) in *.
  set (r1 := 0 + IZR p0 * a1 + IZR p1 * b1 + IZR p2 * c1) in *.
  set (r2 := 0 + IZR p0 * a2 + IZR p1 * b2 + IZR p2 * c2) in *.
  set (s0 := 0 + IZR q0 * a0 + IZR q1 * b0 + IZR q2 * c0) in *.
  set (s1 := 0 + IZR q0 * a1 + IZR q1 * b1 + IZR q2 * c1) in *.
  set (s2 := 0 + IZR q0 * a2 + IZR q1 * b2 + IZR q2 * c2) in *.
  assert (G : forall z x0 x1 x2 m0 m1 m2, z <> 0%Z -> IZR z * D0 = x0 * m0 + x1 * m1 + x2 * m2 ->
     D0 ^ 2 <= (x0 ^ 2 + x1 ^ 2 + x2 ^ 2) * (m0 ^ 2 + m1 ^ 2 + m2 ^ 2)).
  { intros z x0 x1 x2 m0 m1 m2 Hz E. eapply Rle_trans; [|apply cs3]. rewrite <- E.
    apply int_sq_ge1 in Hz. replace ((IZR z * D0) ^ 2) with (IZR z ^ 2 * D0 ^ 2) by ring. nra. }
  assert (Mon : forall x A B, 0 <= x -> A <= B -> x * A <= x * B) by (intros; apply Rmult_le_compat_l; assumption).
  pose proof (pow2_ge_0 a0); pose proof (pow2_ge_0 a1); pose proof (pow2_ge_0 a2);
  pose proof (pow2_ge_0 b0); pose proof (pow2_ge_0 b1); pose proof (pow2_ge_0 b2);
  pose proof (pow2_ge_0 c0); pose proof (pow2_ge_0 c1); pose proof (pow2_ge_0 c2).
  split.
  - replace (0 + r0 * r0 + r1 * r1 + r2 * r2) with (r0 ^ 2 + r1 ^ 2 + r2 ^ 2) by ring.
    assert (P1 : 0 <= r0 ^ 2 + r1 ^ 2 + r2 ^ 2).
    { pose proof (pow2_ge_0 r0); pose proof (pow2_ge_0 r1); pose proof (pow2_ge_0 r2); lra. }
    assert (S1 : forall A B C D E F G H I, 0 + (0 + A ^ 2 + B ^ 2 + C ^ 2) + (0 + D ^ 2 + E ^ 2 + F ^ 2) + (0 + G ^ 2 + H ^ 2 + I ^ 2) =
       (A ^ 2 + B ^ 2 + C ^ 2) + (D ^ 2 + E ^ 2 + F ^ 2) + (G ^ 2 + H ^ 2 + I ^ 2)) by (intros; ring).
    rewrite S1.
    assert (P3 : forall A B C, 0 <= A ^ 2 + B ^ 2 + C ^ 2).
    { intros A B C; pose proof (pow2_ge_0 A); pose proof (pow2_ge_0 B); pose proof (pow2_ge_0 C); lra. }
    destruct Hp as [Hz|[Hz|Hz]].
    + eapply Rle_trans; [apply (G p0 r0 r1 r2 (b1 * c2 - b2 * c1) (b2 * c0 - b0 * c2) (b0 * c1 - b1 * c0) Hz);
        unfold D0, r0, r1, r2; ring|].
      apply Mon; [exact P1|]. match goal with |- _ <= _ + (?A ^ 2 + ?B ^ 2 + ?C ^ 2) + (?D ^ 2 + ?E ^ 2 + ?F ^ 2) => pose proof (P3 A B C); pose proof (P3 D E F); lra end.
    + eapply Rle_trans; [apply (G p1 r0 r1 r2 (c1 * a2 - c2 * a1) (c2 * a0 - c0 * a2) (c0 * a1 - c1 * a0) Hz);
        unfold D0, r0, r1, r2; ring|].
      apply Mon; [exact P1|]. match goal with |- _ <= (?A ^ 2 + ?B ^ 2 + ?C ^ 2) + _ + (?D ^ 2 + ?E ^ 2 + ?F ^ 2) => pose proof (P3 A B C); pose proof (P3 D E F); lra end.
    + eapply Rle_trans; [apply (G p2 r0 r1 r2 (a1 * b2 - a2 * b1) (a2 * b0 - a0 * b2) (a0 * b1 - a1 * b0) Hz);
        unfold D0, r0, r1, r2; ring|].
      apply Mon; [exact P1|]. match goal with |- _ <= (?A ^ 2 + ?B ^ 2 + ?C ^ 2) + (?D ^ 2 + ?E ^ 2 + ?F ^ 2) + _ => pose proof (P3 A B C); pose proof (P3 D E F); lra end.
  - set (x0 := r1 * s2 - r2 * s1); set (x1 := r2 * s0 - r0 * s2); set (x2 := r0 * s1 - r1 * s0).
    replace ((0 + r0 * r0 + r1 * r1 + r2 * r2) * (0 + s0 * s0 + s1 * s1 + s2 * s2) - (0 + s0 * r0 + s1 * r1 + s2 * r2) ^ 2)
      with (x0 ^ 2 + x1 ^ 2 + x2 ^ 2) by (unfold x0, x1, x2; ring).
    assert (P1 : 0 <= x0 ^ 2 + x1 ^ 2 + x2 ^ 2).
    { pose proof (pow2_ge_0 x0); pose proof (pow2_ge_0 x1); pose proof (pow2_ge_0 x2); lra. }
    destruct Hw as [Hz|[Hz|Hz]].
    + eapply Rle_trans; [apply (G _ x0 x1 x2 a0 a1 a2 Hz)|apply Mon; [exact P1|lra]].
      rewrite minus_IZR, !mult_IZR; unfold D0, x0, x1, x2, r0, r1, r2, s0, s1, s2; ring.
    + eapply Rle_trans; [apply (G _ x0 x1 x2 b0 b1 b2 Hz)|apply Mon; [exact P1|lra]].
      rewrite minus_IZR, !mult_IZR; unfold D0, x0, x1, x2, r0, r1, r2, s0, s1, s2; ring.
    + eapply Rle_trans; [apply (G _ x0 x1 x2 c0 c1 c2 Hz)|apply Mon; [exact P1|lra]].
      rewrite minus_IZR, !mult_IZR; unfold D0, x0, x1, x2, r0, r1, r2, s0, s1, s2; ring.
Qed.

Lemma loop_inv (Inv : lll_state -> Prop) : 
  (forall st, Inv st -> (l_k st < length (l_B st))%nat -> Inv (lll_turn (3 / 4) st)) ->
  forall fuel st B' change, Inv st -> lll_loop (3 / 4) fuel st = Ok (B', change) ->
  exists st', Inv st' /\ l_B st' = B' /\ l_change st' = change /\ (length B' <= l_k st')%nat.
Proof.
  intros H fuel; induction fuel as [|fuel IH]; intros st B' change HI E; cbn [lll_loop] in E;
    destruct (Nat.ltb_spec (l_k st) (length (l_B st))) as [L|L]; try discriminate.
  - injection E as <- <-; exists st; auto.
  - apply (IH _ _ _ (H st HI L) E).
  - injection E as <- <-; exists st; auto.
Qed.

Definition energy2 (B : list (list R)) : R := vdot (col B 0) (col B 0) + vdot (col B 1) (col B 1).
Definition Inv2 (B0 : list (list R)) (st : lll_state) : Prop :=
  Wf 2 B0 st /\ (l_k st <= 2)%nat /\ energy2 (l_B st) <= energy2 B0 /\
  Rabs (vdot (col (l_B st) 1) (col (l_B st) 0)) <= Rabs (vdot (col B0 1) (col B0 0)).

Lemma d1_pos2 B0 st : matrix 2 2 B0 -> Wf 2 B0 st -> det2 B0 <> 0 -> 0 < energy2 B0 /\ det2 B0 ^ 2 / energy2 B0 <= d1 (l_B st).
Proof.
  intros HB0 W D. pose proof (d1_lower2 B0 st HB0 W D) as L.
  rewrite <- !(vdot_inner 2) in L by (apply col_length; assumption || lia). fold (energy2 B0) in L.
  assert (P : 0 < det2 B0 ^ 2) by (apply pow2_gt_0, D).
  assert (0 <= energy2 B0) by (unfold energy2; pose proof (vdot_self_nonneg (col B0 0)); pose proof (vdot_self_nonneg (col B0 1)); lra).
  assert (PE : 0 < energy2 B0) by (destruct (Req_dec (energy2 B0) 0) as [E|E]; [rewrite E in L; lra|lra]).
  split; [exact PE|]. apply Rmult_le_reg_r with (energy2 B0); [exact PE|].
  unfold Rdiv; rewrite Rmult_assoc, Rinv_l by lra; lra.
Qed.

Lemma Inv2_turn B0 st : matrix 2 2 B0 -> det2 B0 <> 0 -> Inv2 B0 st -> (l_k st < 2)%nat ->
  Inv2 B0 (lll_turn (3 / 4) st) /\
  ((l_k (lll_turn (3 / 4) st) = S (l_k st) /\ d1 (l_B (lll_turn (3 / 4) st)) <= d1 (l_B st)) \/
    d1 (l_B (lll_turn (3 / 4) st)) <= 3 / 4 * d1 (l_B st)).
Proof.
  intros HB0 D (W & K & En & Hb) Hk. pose proof W as (_ & _ & _ & K1 & _).
  assert (E1 : l_k st = 1%nat) by lia.
  destruct (d1_pos2 B0 st HB0 W D) as [PE Pd].
  assert (Pd' : 0 < d1 (l_B st)).
  { eapply Rlt_le_trans; [|exact Pd]. apply Rdiv_lt_0_compat; [apply pow2_gt_0, D|exact PE]. }
  pose proof (turn_k1 2 B0 st W ltac:(lia) E1 ltac:(lra)) as T; cbv zeta in T.
  destruct T as (T1 & T2 & T3 & T4).
  split.
  - split; [apply turn_wf; [exact W|lia]|]. unfold energy2 in *.
    split; [|split; lra]. destruct T4 as [[E _]|[E _]]; rewrite E; lia.
  - destruct T4 as [[E T4]|[E T4]]; [left; split; [lia|lra]|right; exact T4].
Qed.

Lemma Inv2_init B0 : matrix 2 2 B0 -> Inv2 B0 (lll_init B0).
Proof.
  intros H; split; [apply Wf_init, H|]. cbn [lll_init l_k l_B]; split; [lia|split; lra].
Qed.

Lemma lll2_terminates B0 : matrix 2 2 B0 -> det2 B0 <> 0 -> exists fuel r, lll fuel B0 = Ok r.
Proof.
  intros HB0 D. unfold lll.
  destruct (d1_pos2 B0 (lll_init B0) HB0 (Wf_init 2 B0 HB0) D) as [PE _].
  apply (loop_terminates 2 (Inv2 B0) (fun st => d1 (l_B st)) (det2 B0 ^ 2 / energy2 B0)).
  - apply Rdiv_lt_0_compat; [apply pow2_gt_0, D|exact PE].
  - intros st HI; pose proof HI as (W & K & _); pose proof W as ([L _] & _).
    split; [exact L|split; [exact K|]]. apply d1_pos2; assumption.
  - intros st HI Hk; apply Inv2_turn; assumption.
  - apply Inv2_init, HB0.
Qed.

Lemma pos3 B0 st : matrix 3 3 B0 -> Wf 3 B0 st -> det3 B0 <> 0 ->
  0 < minors3 B0 /\ 0 < sq3 B0 /\ det3 B0 ^ 2 / minors3 B0 <= d1 (l_B st) /\ det3 B0 ^ 2 / sq3 B0 <= d2 (l_B st).
Proof.
  intros HB0 W D. destruct (lower3 B0 st HB0 W) as [L1 L2].
  assert (P : 0 < det3 B0 ^ 2) by (apply pow2_gt_0, D).
  assert (N1 : 0 <= minors3 B0) by (unfold minors3; cbv zeta; apply sumn_nonneg; intros; apply sumn_nonneg; intros; apply pow2_ge_0).
  assert (N2 : 0 <= sq3 B0) by (unfold sq3; apply sumn_nonneg; intros; apply sumn_nonneg; intros; apply pow2_ge_0).
  assert (P1 : 0 < minors3 B0) by (destruct (Req_dec (minors3 B0) 0) as [E|E]; [rewrite E in L1; lra|lra]).
  assert (P2 : 0 < sq3 B0) by (destruct (Req_dec (sq3 B0) 0) as [E|E]; [rewrite E in L2; lra|lra]).
  split; [exact P1|split; [exact P2|split]].
  - apply Rmult_le_reg_r with (minors3 B0); [exact P1|]. unfold Rdiv; rewrite Rmult_assoc, Rinv_l by lra; lra.
  - apply Rmult_le_reg_r with (sq3 B0); [exact P2|]. unfold Rdiv; rewrite Rmult_assoc, Rinv_l by lra; lra.
Qed.

Lemma lll3_terminates B0 : matrix 3 3 B0 -> det3 B0 <> 0 -> exists fuel r, lll fuel B0 = Ok r.
Proof.
  intros HB0 D. unfold lll.
  destruct (pos3 B0 (lll_init B0) HB0 (Wf_init 3 B0 HB0) D) as (PM & PS & _).
  assert (P : 0 < det3 B0 ^ 2) by (apply pow2_gt_0, D).
  set (e1 := det3 B0 ^ 2 / minors3 B0); set (e2 := det3 B0 ^ 2 / sq3 B0).
  assert (Pe1 : 0 < e1) by (apply Rdiv_lt_0_compat; assumption).
  assert (Pe2 : 0 < e2) by (apply Rdiv_lt_0_compat; assumption).
  apply (loop_terminates 3 (fun st => Wf 3 B0 st /\ (l_k st <= 3)%nat) (fun st => d1 (l_B st) * d2 (l_B st)) (e1 * e2)).
  - apply Rmult_lt_0_compat; assumption.
  - intros st (W & K); pose proof W as ([L _] & _).
    destruct (pos3 B0 st HB0 W D) as (_ & _ & L1 & L2); fold e1 in L1; fold e2 in L2.
    split; [exact L|split; [exact K|]]. apply Rmult_le_compat; lra.
  - intros st (W & K) Hk. pose proof W as (_ & _ & _ & K1 & _).
    destruct (pos3 B0 st HB0 W D) as (_ & _ & L1 & L2); fold e1 in L1; fold e2 in L2.
    assert (W' : Wf 3 B0 (lll_turn (3 / 4) st)) by (apply turn_wf; assumption).
    assert (C : l_k st = 1%nat \/ l_k st = 2%nat) by lia; destruct C as [C|C].
    + pose proof (turn_k1 3 B0 st W ltac:(lia) C ltac:(lra)) as T; cbv zeta in T.
      destruct T as (_ & _ & T3 & T4). rewrite T3. destruct T4 as [[E T4]|[E T4]]; rewrite E.
      * split; [split; [exact W'|lia]|]. left; split; [lia|]. rewrite T4; lra.
      * split; [split; [exact W'|lia]|]. right. rewrite <- Rmult_assoc. apply Rmult_le_compat_r; lra.
    + pose proof (turn_k2 3 B0 st W ltac:(lia) C ltac:(lra) ltac:(lra)) as T; cbv zeta in T.
      destruct T as (T3 & T4). rewrite T3. destruct T4 as [[E T4]|[E T4]]; rewrite E.
      * split; [split; [exact W'|lia]|]. left; split; [lia|]. rewrite T4; lra.
      * split; [split; [exact W'|lia]|]. right.
        replace (3 / 4 * (d1 (l_B st) * d2 (l_B st))) with (d1 (l_B st) * (3 / 4 * d2 (l_B st))) by ring.
        apply Rmult_le_compat_l; lra.
  - split; [apply Wf_init, HB0|cbn; lia].
Qed.

(** * The code's quantities and the true orthogonalisation. *)
Lemma inner_comm n u v : inner n u v = inner n v u.
Proof. apply sumn_ext; intros; ring. Qed.
Lemma ortho_coef n B Q m : orthogonalisation n B Q m -> forall i j, (i < n)%nat -> (j < i)%nat ->
  inner n (nth i B []) (nth j Q []) = m i j * inner n (nth j Q []) (nth j Q []).
Proof.
  intros (HQ & O & E) i j Hi Hj. unfold inner at 1.
  rewrite (sumn_ext n _ (fun r => nth r (nth i Q []) 0 * nth r (nth j Q []) 0 +
      sumn i (fun t => m i t * (nth r (nth t Q []) 0 * nth r (nth j Q []) 0)))).
  - rewrite sumn_add, sumn_swap. fold (inner n (nth i Q []) (nth j Q [])).
    rewrite (O i j) by lia. rewrite (sumn_single i _ j Hj).
    + rewrite sumn_scal; fold (inner n (nth j Q []) (nth j Q [])); ring.
    + intros t Ht N. rewrite sumn_scal. fold (inner n (nth t Q []) (nth j Q [])). rewrite (O t j) by lia; ring.
  - intros r Hr. change (nth r (nth i B []) 0) with (at2 0 B i r). rewrite E by assumption.
    rewrite Rmult_plus_distr_r; unfold at2 at 1; f_equal. rewrite <- sumn_scal_r; apply sumn_ext; intros t Ht; unfold at2; ring.
Qed.
Lemma ortho_0 n B Q m : matrix n n B -> orthogonalisation n B Q m -> (1 <= n)%nat -> nth 0 Q [] = col B 0.
Proof.
  intros HB (HQ & O & E) Hn.
  assert (LQ : length (nth 0 Q []) = n) by (apply (col_length n Q 0 HQ); lia).
  assert (LB : length (col B 0) = n) by (apply (col_length n B 0 HB); lia).
  apply nth_ext with (d := 0) (d' := 0); [lia|]. intros r Hr.
  specialize (E 0%nat r ltac:(lia) ltac:(lia)); cbn [sumn] in E; unfold at2 in E; unfold col; lra.
Qed.
Lemma ortho_1 n B Q m : matrix n n B -> orthogonalisation n B Q m -> (2 <= n)%nat -> nth 1 Q [] = gs_column B 1.
Proof.
  intros HB HO Hn. pose proof (ortho_0 n B Q m HB HO ltac:(lia)) as E0.
  pose proof (ortho_coef n B Q m HO 1 0 ltac:(lia) ltac:(lia)) as C; rewrite E0 in C.
  destruct HO as (HQ & O & E).
  assert (L0 : length (col B 0) = n) by (apply col_length; assumption || lia).
  assert (L1 : length (col B 1) = n) by (apply col_length; assumption || lia).
  assert (LQ : length (nth 1 Q []) = n) by (apply (col_length n Q 1 HQ); lia).
  rewrite gs_column_1. assert (LG : length (vsub (col B 1) (proj (col B 0) (col B 1))) = n)
    by (rewrite vsub_length; rewrite ?proj_length; lia).
  apply nth_ext with (d := 0) (d' := 0); [lia|]. intros r Hr.
  specialize (E 1%nat r ltac:(lia) ltac:(lia)); cbn [sumn] in E; rewrite Rplus_0_l in E; unfold at2 in E.
  rewrite E0 in E. rewrite nth_vsub by (rewrite proj_length; lia). unfold proj, gs_coefficient; rewrite nth_vscale.
  change (nth 1 B []) with (col B 1) in *.
  rewrite !(vdot_inner n), C by assumption.
  destruct (Req_dec (inner n (col B 0) (col B 0)) 0) as [Z|N].
  - assert (Z' : nth r (col B 0) 0 = 0).
    { pose proof (sumn_zero_all n (fun r => nth r (col B 0) 0 * nth r (col B 0) 0)) as S.
      assert (G : nth r (col B 0) 0 * nth r (col B 0) 0 = 0) by (apply S; [intros; nra|exact Z|lia]). nra. }
    rewrite Z' in *; lra.
  - rewrite E; field; exact N.
Qed.

Lemma exit_reduced n B0 fuel B change : matrix n n B0 -> (2 <= n)%nat -> lll fuel B0 = Ok (B, change) ->
  forall Q m, orthogonalisation n B Q m ->
  (forall i j, (j < i)%nat -> (i < n)%nat -> (j < 2)%nat ->
     inner n (nth j Q []) (nth j Q []) <> 0 -> Rabs (m i j) <= 1 / 2) /\
  (inner n (nth 0 Q []) (nth 0 Q []) <> 0 ->
     (3 / 4 - m 1%nat 0%nat ^ 2) * inner n (nth 0 Q []) (nth 0 Q []) < inner n (nth 1 Q []) (nth 1 Q [])).
Proof.
  intros HB0 Hn E Q m HO.
  destruct (loop_reaches (3 / 4) B0 fuel (lll_init B0) B change (reach_init _ _) E) as (st & Rs & <- & _ & Hk).
  pose proof (reaches_wf n B0 _ st HB0 Rs) as (HB & _). pose proof HB as [LB _]. rewrite LB in Hk.
  destruct (reaches_done n B0 st HB0 Rs) as [D1 D2].
  pose proof HO as (HQ & _).
  assert (X : forall j, (j < 2)%nat -> nth j Q [] = gs_column (l_B st) j).
  { intros [|[|j]] Hj; [|apply (ortho_1 n _ _ m); assumption|lia]. rewrite gs_column_0; apply (ortho_0 n _ _ m); assumption || lia. }
  split.
  - intros i j Hj Hi Hj2 N. pose proof (D1 i j ltac:(lia) Hj Hj2) as Rd.
    pose proof (ortho_coef n _ Q m HO i j Hi Hj) as C.
    assert (Lq : length (gs_column (l_B st) j) = n) by (apply gs_column_length; assumption || lia).
    assert (Lc : length (col (l_B st) i) = n) by (apply col_length; assumption).
    rewrite X in * by exact Hj2. unfold reduced in Rd; rewrite !(vdot_inner n) in Rd by assumption.
    change (nth i (l_B st) []) with (col (l_B st) i) in C. rewrite C in Rd.
    set (g := inner n (gs_column (l_B st) j) (gs_column (l_B st) j)) in *.
    assert (Pg : 0 <= g) by (unfold g; rewrite <- (vdot_inner n) by assumption; apply vdot_self_nonneg).
    rewrite Rabs_mult, (Rabs_right g) in Rd by lra.
    apply Rmult_le_reg_r with g; lra.
  - intros N. rewrite !X in * by lia. rewrite gs_column_0 in *.
    assert (L0 : length (col (l_B st) 0) = n) by (apply col_length; assumption || lia).
    assert (L1 : length (col (l_B st) 1) = n) by (apply col_length; assumption || lia).
    assert (Lg : length (gs_column (l_B st) 1) = n) by (apply gs_column_length; assumption || lia).
    pose proof (ortho_coef n _ Q m HO 1 0 ltac:(lia) ltac:(lia)) as C. rewrite X, gs_column_0 in C by lia.
    change (nth 1 (l_B st) []) with (col (l_B st) 1) in C.
    rewrite <- !(vdot_inner n) in * by assumption.
    specialize (D2 ltac:(lia) N). rewrite (gs1_norm n) by assumption. rewrite C.
    set (a := vdot (col (l_B st) 0) (col (l_B st) 0)) in *.
    replace ((m 1%nat 0%nat * a) ^ 2 / a) with (m 1%nat 0%nat ^ 2 * a) by (field; exact N). lra.
Qed.

(** Entrywise form of the code's Gram-Schmidt: triangular with unit diagonal. *)
Lemma gs_fold_triangular n B i l : matrix n n B -> (i < n)%nat -> (forall j, In j l -> (j < i)%nat) ->
  forall v, length v = n ->
  exists t : nat -> R, length (fold_left (fun Ai j => vsub Ai (proj (col B j) Ai)) l v) = n /\
    forall r, (r < n)%nat ->
      nth r (fold_left (fun Ai j => vsub Ai (proj (col B j) Ai)) l v) 0 =
      nth r v 0 + sumn i (fun j => t j * at2 0 B j r).
Proof.
  intros HB Hi; induction l as [|j l IH]; intros Hl v Lv; cbn [fold_left].
  - exists (fun _ => 0); split; [exact Lv|]. intros r Hr; rewrite sumn_0 by (intros; ring); ring.
  - assert (Hj : (j < i)%nat) by (apply Hl; left; reflexivity).
    assert (Lj : length (col B j) = n) by (apply col_length; assumption || lia).
    destruct (IH (fun x Hx => Hl x (or_intror Hx)) (vsub v (proj (col B j) v))) as (t & Lt & Ht).
    { rewrite vsub_length; rewrite ?proj_length; lia. }
    set (c := gs_coefficient (col B j) v).
    exists (fun x => t x - (if (x =? j)%nat then c else 0)); split; [exact Lt|].
    intros r Hr; rewrite Ht, nth_vsub by (rewrite ?proj_length; lia || assumption).
    unfold proj; fold c; rewrite nth_vscale.
    rewrite (sumn_ext i (fun x => (t x - (if (x =? j)%nat then c else 0)) * at2 0 B x r)
       (fun x => t x * at2 0 B x r - (if (x =? j)%nat then c else 0) * at2 0 B x r)) by (intros; ring).
    rewrite sumn_sub, (sumn_single i (fun x => (if (x =? j)%nat then c else 0) * at2 0 B x r) j Hj).
    + rewrite Nat.eqb_refl; change (at2 0 B j r) with (nth r (col B j) 0); ring.
    + intros x Hx N; rewrite (proj2 (Nat.eqb_neq _ _) N); ring.
Qed.
