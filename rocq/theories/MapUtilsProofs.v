(** MapUtilsProofs.v -- lemmas about rotations and projections. *)
From Coq Require Import List ZArith Reals Lia Lra Psatz.
From Verif Require Import Base BaseProofs RealBase RealSum SpecEM SpecCircle CircleModel CircleProofs LLLModel SpecLLL LLLProofs ComplexBase MapUtilsModel SpecMapUtils.
Import ListNotations.
Local Open Scope R_scope.

(** * Vectors *)
Lemma vec_ext d (u v : list R) : length u = d -> length v = d -> (forall i, (i < d)%nat -> nth i u 0 = nth i v 0) -> u = v.
Proof. intros Hu Hv H. apply (nth_ext u v 0 0); [congruence|]. intros i Hi. apply H. lia. Qed.

Lemma apply_length d M x : length (apply d M x) = d.
Proof. unfold apply. rewrite map_length, seq_length. reflexivity. Qed.
Lemma nth_apply d M x i : (i < d)%nat -> nth i (apply d M x) 0 = sumn d (fun j => at2 0 M i j * nth j x 0).
Proof.
  intros H. unfold apply.
  rewrite (nth_indep _ 0 ((fun i => sumn d (fun j => at2 0 M i j * nth j x 0)) 0%nat)) by (rewrite map_length, seq_length; exact H).
  rewrite (map_nth (fun i => sumn d (fun j => at2 0 M i j * nth j x 0))), seq_nth by exact H. reflexivity.
Qed.
Lemma inner_ext d u v u' v' : (forall i, (i < d)%nat -> nth i u 0 = nth i u' 0) -> (forall i, (i < d)%nat -> nth i v 0 = nth i v' 0) ->
  inner d u v = inner d u' v'.
Proof. intros H1 H2. unfold inner. apply sumn_ext. intros i Hi. rewrite H1, H2 by exact Hi. reflexivity. Qed.
Lemma inner_nonneg d v : 0 <= inner d v v.
Proof. apply sumn_nonneg. intros. nra. Qed.
Lemma inner_self_0 d v : inner d v v = 0 -> forall i, (i < d)%nat -> nth i v 0 = 0.
Proof.
  intros H i Hi. unfold inner in H.
  pose proof (sumn_zero_all d _ (fun i _ => Rle_0_sqr (nth i v 0)) H i Hi) as E. cbn in E. unfold Rsqr in E. nra.
Qed.

Lemma matvec_apply d M x : matrix d d M -> length x = d -> matvec M x = apply d M x.
Proof.
  intros [HM Hrow] Hx. unfold matvec. apply (vec_ext d); [rewrite map_length; exact HM|apply apply_length|].
  intros i Hi. rewrite nth_apply by exact Hi.
  rewrite (nth_indep _ 0 ((fun row => vdot row x) [])) by (rewrite map_length; lia).
  rewrite (map_nth (fun row => vdot row x)).
  rewrite (vdot_inner d); [reflexivity| |exact Hx].
  apply (proj1 (Forall_forall _ _) Hrow). apply nth_In. lia.
Qed.

(** The square of a difference of x + s c + t b expressions. *)
Lemma inner_combo d (x x' b c : list R) s t s' t' f f' :
  (forall i, (i < d)%nat -> nth i f 0 = nth i x 0 + s * nth i c 0 + t * nth i b 0) ->
  (forall i, (i < d)%nat -> nth i f' 0 = nth i x' 0 + s' * nth i c 0 + t' * nth i b 0) ->
  inner d f f' = inner d x x' + s' * inner d c x + t' * inner d b x + s * inner d c x' + t * inner d b x'
    + s * s' * inner d c c + (s * t' + t * s') * inner d b c + t * t' * inner d b b.
Proof.
  intros H H'. unfold inner.
  rewrite <- !sumn_scal, <- !sumn_add. apply sumn_ext. intros i Hi. rewrite H, H' by exact Hi. ring.
Qed.

Lemma rotation_matrix d b c l be : matrix d d (rotation d b c l be).
Proof. apply matrix_mk2. Qed.
Lemma at2_eye d i j : (i < d)%nat -> (j < d)%nat -> at2 0 (eye d) i j = if (i =? j)%nat then 1 else 0.
Proof. intros. unfold eye. apply at2_mk2; assumption. Qed.
Lemma sumn_delta d i f : (i < d)%nat -> sumn d (fun j => (if (i =? j)%nat then 1 else 0) * f j) = f i.
Proof.
  intros H. rewrite (sumn_single d _ i H); [rewrite Nat.eqb_refl; ring|].
  intros j Hj Hne. destruct (Nat.eqb_spec i j); [congruence|ring].
Qed.
Lemma apply_eye d x : length x = d -> apply d (eye d) x = x.
Proof.
  intros Hx. apply (vec_ext d); [apply apply_length|exact Hx|]. intros i Hi. rewrite nth_apply by exact Hi.
  rewrite (sumn_ext d _ (fun j => (if (i =? j)%nat then 1 else 0) * nth j x 0)); [apply (sumn_delta d i (fun j => nth j x 0)); exact Hi|].
  intros j Hj. rewrite at2_eye by assumption. reflexivity.
Qed.
Lemma rotation_apply d b c l be x i : (i < d)%nat ->
  nth i (apply d (rotation d b c l be) x) 0 =
  nth i x 0 + (- (1 - l) * inner d c x - be * inner d b x) * nth i c 0 + (- (1 - l) * inner d b x + be * inner d c x) * nth i b 0.
Proof.
  intros Hi. rewrite nth_apply by exact Hi.
  rewrite (sumn_ext d _ (fun j => (if (i =? j)%nat then 1 else 0) * nth j x 0
     + ((- (1 - l) * nth i c 0 + be * nth i b 0) * (nth j c 0 * nth j x 0) + (- (1 - l) * nth i b 0 - be * nth i c 0) * (nth j b 0 * nth j x 0)))).
  - rewrite !sumn_add, !sumn_scal, (sumn_delta d i (fun j => nth j x 0)) by exact Hi.
    unfold inner. ring.
  - intros j Hj. unfold rotation. rewrite at2_mk2 by assumption. rewrite at2_eye by assumption. ring.
Qed.

Lemma nth_map_mul t w i : nth i (map (Rmult t) w) 0 = t * nth i w 0.
Proof. exact (nth_vscale t w i). Qed.
Lemma inner_scale_both d t w : inner d (map (Rmult t) w) (map (Rmult t) w) = t * t * inner d w w.
Proof. unfold inner. rewrite <- sumn_scal. apply sumn_ext. intros i _. rewrite !nth_map_mul. ring. Qed.
Lemma direction_length d v w : direction d v w -> length v = d.
Proof. intros [[Hw _] [t [_ ->]]]. rewrite map_length. exact Hw. Qed.
Lemma vnorm_inner d v : length v = d -> vnorm v = sqrt (inner d v v).
Proof. intros H. unfold vnorm. rewrite (vdot_inner d v v H H). reflexivity. Qed.

Lemma normalise_direction d v w : direction d v w -> normalise v = Some w.
Proof.
  intros H. pose proof (direction_length d v w H) as Hv. destruct H as [[Hw Huw] [t [Ht ->]]].
  unfold normalise. rewrite (vnorm_inner d _ Hv), inner_scale_both, Huw.
  replace (sqrt (t * t * 1)) with t by (rewrite Rmult_1_r, sqrt_square; lra).
  destruct (Reqb t 0) eqn:E; [apply Reqb_true in E; lra|].
  f_equal. rewrite map_map. rewrite <- (map_id w) at 2. apply map_ext. intros x. field. lra.
Qed.
Lemma normalise_zero d v : length v = d -> inner d v v = 0 -> normalise v = None.
Proof.
  intros Hv H. unfold normalise. rewrite (vnorm_inner d v Hv), H, sqrt_0.
  destruct (Reqb 0 0) eqn:E; [reflexivity|]. apply Reqb_false in E. lra.
Qed.
Lemma direction_exists d v : length v = d -> inner d v v <> 0 -> exists w, direction d v w.
Proof.
  intros Hv H. pose proof (inner_nonneg d v) as Hp. set (t := sqrt (inner d v v)).
  assert (Ht : 0 < t) by (apply sqrt_lt_R0; lra).
  assert (Htt : t * t = inner d v v) by (apply sqrt_sqrt; lra).
  exists (map (Rmult (/ t)) v). split; [split|].
  - rewrite map_length. exact Hv.
  - rewrite inner_scale_both, <- Htt. field. lra.
  - exists t. split; [exact Ht|]. rewrite map_map. rewrite <- (map_id v) at 1. apply map_ext. intros x. field. lra.
Qed.
Lemma standard_nth d i v j : standard d i v -> nth j v 0 = if (j <? d)%nat then (if (j =? i)%nat then 1 else 0) else 0.
Proof.
  intros [Hl H]. destruct (Nat.ltb_spec j d); [apply H; assumption|]. apply nth_overflow. lia.
Qed.
Lemma basis_standard d i : standard d i (basis d i).
Proof.
  split; [unfold basis, mk1; rewrite map_length, seq_length; reflexivity|].
  intros j Hj. unfold basis, mk1.
  rewrite (nth_indep _ 0 ((fun j => if (j =? i)%nat then 1 else 0) 0%nat)) by (rewrite map_length, seq_length; exact Hj).
  rewrite (map_nth (fun j => if (j =? i)%nat then 1 else 0)), seq_nth by exact Hj. reflexivity.
Qed.
Lemma standard_unique d i v w : standard d i v -> standard d i w -> v = w.
Proof. intros [Hv H] [Hw H']. apply (vec_ext d); auto. intros j Hj. rewrite H, H' by exact Hj. reflexivity. Qed.
Lemma standard_inner d i v x : standard d i v -> (i < d)%nat -> inner d v x = nth i x 0.
Proof.
  intros [Hl H] Hi. unfold inner. rewrite (sumn_ext d _ (fun j => (if (i =? j)%nat then 1 else 0) * nth j x 0)).
  - apply (sumn_delta d i (fun j => nth j x 0)). exact Hi.
  - intros j Hj. rewrite H by exact Hj. rewrite Nat.eqb_sym. reflexivity.
Qed.
Lemma standard_unit d i v : standard d i v -> (i < d)%nat -> unit_vector d v.
Proof.
  intros H Hi. split; [apply H|]. rewrite (standard_inner d i v v H Hi). destruct H as [_ H]. rewrite H by exact Hi.
  rewrite Nat.eqb_refl. reflexivity.
Qed.
Lemma unit_direction d v : unit_vector d v -> direction d v v.
Proof. intros H. split; [exact H|]. exists 1. split; [lra|]. rewrite <- (map_id v) at 1. apply map_ext. intros; ring. Qed.

(** * rotmat *)
Definition off_axis (d : nat) (ah bh : list R) : R := 1 - inner d ah bh * inner d ah bh.
Definition planar (d : nat) (ah bh : list R) : list R :=
  map (fun x => x / sqrt (off_axis d ah bh)) (vsub ah (vscale (inner d ah bh) bh)).

Lemma target_unit d b bh : (1 <= d)%nat -> target d b bh -> unit_vector d bh.
Proof. intros Hd [[_ H]|[_ [H _]]]; [apply (standard_unit d (d - 1)); [exact H|lia]|exact H]. Qed.

Lemma off_axis_norm d ah bh : unit_vector d ah -> unit_vector d bh ->
  inner d (vsub ah (vscale (inner d ah bh) bh)) (vsub ah (vscale (inner d ah bh) bh)) = off_axis d ah bh.
Proof.
  intros [Ha Hua] [Hb Hub].
  rewrite (inner_combo d ah ah bh ah 0 (- inner d ah bh) 0 (- inner d ah bh)).
  - rewrite Hub, Hua, (inner_comm d bh ah). unfold off_axis. ring.
  - intros i Hi. rewrite nth_vsub, nth_vscale by (rewrite vscale_length; congruence). ring.
  - intros i Hi. rewrite nth_vsub, nth_vscale by (rewrite vscale_length; congruence). ring.
Qed.
Lemma off_axis_nonneg d ah bh : unit_vector d ah -> unit_vector d bh -> 0 <= off_axis d ah bh.
Proof. intros H1 H2. rewrite <- (off_axis_norm d ah bh H1 H2). apply inner_nonneg. Qed.

Lemma rotmat_eq d a b ah bh : (1 <= d)%nat -> direction d a ah -> target d b bh ->
  rotmat a b = Ok (Some (if Rltb (sqrt (off_axis d ah bh)) (1 / 10 ^ 15) then eye d
    else rotation d bh (planar d ah bh) (inner d ah bh) (sqrt (off_axis d ah bh)))).
Proof.
  intros Hd Ha Hb. pose proof (direction_length d a ah Ha) as Hla. unfold rotmat. rewrite Hla.
  replace (d =? 0)%nat with false by (symmetry; apply Nat.eqb_neq; lia). rewrite Bool.andb_false_r. cbn [negb].
  assert (Hub := target_unit d b bh Hd Hb). assert (Hua := proj1 Ha).
  assert (Hdir : direction d (if (length b =? 0)%nat then basis d (d - 1) else b) bh).
  { destruct Hb as [[-> Hs]|[Hne Hdir]].
    - cbn. rewrite (standard_unique d _ _ _ (basis_standard d (d - 1)) Hs). apply unit_direction. exact Hub.
    - destruct b; [congruence|]. exact Hdir. }
  cbv zeta. rewrite (direction_length _ _ _ Hdir), Nat.eqb_refl.
  rewrite (normalise_direction _ _ _ Ha), (normalise_direction _ _ _ Hdir).
  destruct Hua as [Hlah Hua]. destruct Hub as [Hlbh Hub].
  rewrite (vdot_inner d bh ah Hlbh Hlah), (inner_comm d bh ah).
  rewrite (vnorm_inner d) by (rewrite vsub_length; [exact Hlah|rewrite vscale_length; congruence]).
  rewrite (off_axis_norm d ah bh) by (split; assumption).
  replace (1 - Rabs (inner d ah bh) ^ 2) with (off_axis d ah bh)
    by (unfold off_axis; rewrite pow2_abs; ring).
  destruct (Rltb _ _); reflexivity.
Qed.

Section Planar.
Variables (d : nat) (ah bh : list R).
Hypothesis Hua : unit_vector d ah.
Hypothesis Hub : unit_vector d bh.
Hypothesis Hoff : 0 < off_axis d ah bh.
Let l := inner d ah bh.
Let be := sqrt (off_axis d ah bh).
Let c := planar d ah bh.
Lemma be_pos : 0 < be. Proof. apply sqrt_lt_R0. exact Hoff. Qed.
Lemma be_sq : be * be = 1 - l * l. Proof. unfold be. rewrite sqrt_sqrt by lra. reflexivity. Qed.
Lemma planar_length : length c = d.
Proof. unfold c, planar. rewrite map_length, vsub_length; [apply Hua|]. rewrite vscale_length. destruct Hua, Hub. congruence. Qed.
Lemma nth_planar i : nth i c 0 = (nth i ah 0 - l * nth i bh 0) / be.
Proof.
  unfold c, planar. fold be. replace 0 with (0 / be) at 1 by (unfold Rdiv; ring).
  rewrite (map_nth (fun x => x / be)). rewrite nth_vsub, nth_vscale by (rewrite vscale_length; destruct Hua, Hub; congruence). reflexivity.
Qed.
Lemma inner_planar x : inner d c x = (inner d ah x - l * inner d bh x) / be.
Proof.
  unfold inner. unfold Rdiv. rewrite <- sumn_scal, <- sumn_sub, <- sumn_scal_r. apply sumn_ext. intros i Hi.
  rewrite nth_planar. unfold Rdiv. ring.
Qed.
Lemma planar_b : inner d bh c = 0.
Proof. rewrite inner_comm, inner_planar. destruct Hub as [_ ->]. fold l. pose proof be_pos. field. lra. Qed.
Lemma planar_a : inner d ah c = be.
Proof.
  rewrite inner_comm, inner_planar. destruct Hua as [_ ->]. rewrite (inner_comm d bh ah). fold l.
  pose proof be_pos. pose proof be_sq. apply (Rmult_eq_reg_r be); [|lra]. unfold Rdiv. rewrite Rmult_assoc, Rinv_l by lra. lra.
Qed.
Lemma planar_unit : inner d c c = 1.
Proof.
  rewrite inner_planar, planar_a, planar_b. pose proof be_pos. field. lra.
Qed.

Lemma rotation_isometry : isometry d (rotation d bh c l be).
Proof.
  split; [apply rotation_matrix|]. intros x y Hx Hy.
  rewrite (inner_combo d x y bh c _ _ _ _ _ _ (fun i Hi => rotation_apply d bh c l be x i Hi) (fun i Hi => rotation_apply d bh c l be y i Hi)).
  rewrite planar_unit, planar_b, (proj2 Hub).
  set (p := inner d c x). set (q := inner d bh x). set (p' := inner d c y). set (q' := inner d bh y).
  pose proof be_sq as E.
  replace (inner d x y) with (inner d x y + (be * be + l * l - 1) * (p * p' + q * q')) at 2 by (rewrite E; ring). ring.
Qed.
Lemma rotation_a : apply d (rotation d bh c l be) ah = bh.
Proof.
  apply (vec_ext d); [apply apply_length|apply Hub|]. intros i Hi. rewrite rotation_apply by exact Hi.
  rewrite (inner_comm d c ah), planar_a, (inner_comm d bh ah). fold l. rewrite nth_planar.
  pose proof be_pos. pose proof be_sq as E.
  replace (- (1 - l) * l + be * be) with (1 - l) by (rewrite E; ring). field. lra.
Qed.
Lemma rotation_b i : (i < d)%nat -> nth i (apply d (rotation d bh c l be) bh) 0 = 2 * l * nth i bh 0 - nth i ah 0.
Proof.
  intros Hi. rewrite rotation_apply by exact Hi. rewrite (inner_comm d c bh), planar_b, (proj2 Hub), nth_planar.
  pose proof be_pos. field. lra.
Qed.
Lemma rotation_fix x : length x = d -> inner d ah x = 0 -> inner d bh x = 0 -> apply d (rotation d bh c l be) x = x.
Proof.
  intros Hx H1 H2. apply (vec_ext d); [apply apply_length|exact Hx|]. intros i Hi. rewrite rotation_apply by exact Hi.
  rewrite inner_planar, H1, H2. unfold Rdiv. ring.
Qed.
End Planar.

Lemma eye_isometry d : isometry d (eye d).
Proof. split; [apply eye_matrix|]. intros x y Hx Hy. rewrite !apply_eye by assumption. reflexivity. Qed.
Lemma isometry_injective d M x y : isometry d M -> length x = d -> length y = d -> apply d M x = apply d M y -> x = y.
Proof.
  intros [HM H] Hx Hy E.
  assert (Hl : length (vsub x y) = d) by (rewrite vsub_length; congruence).
  pose proof (H (vsub x y) (vsub x y) Hl Hl) as K.
  assert (Z : inner d (apply d M (vsub x y)) (apply d M (vsub x y)) = 0).
  { unfold inner. apply sumn_0. intros i Hi.
    replace (nth i (apply d M (vsub x y)) 0) with (nth i (apply d M x) 0 - nth i (apply d M y) 0); [rewrite E; ring|].
    rewrite !nth_apply by exact Hi. rewrite <- sumn_sub. apply sumn_ext. intros j Hj. rewrite nth_vsub by congruence. ring. }
  rewrite Z in K. symmetry in K. apply (vec_ext d); auto. intros i Hi.
  pose proof (inner_self_0 d _ K i Hi) as E0. rewrite nth_vsub in E0 by congruence. lra.
Qed.

(** * The pole of a rotation towards the last axis *)
Definition pole_of (d : nat) (M : list (list R)) (v : list R) : Prop :=
  isometry d M /\ unit_vector d v /\ forall x, length x = d -> nth (d - 1) (apply d M x) 0 = inner d v x.

Lemma small_sqrt x : 0 <= x -> (sqrt x < 1 / 10 ^ 15 <-> x < 1 / 10 ^ 30).
Proof.
  intros Hx. replace (1 / 10 ^ 30) with ((1 / 10 ^ 15) * (1 / 10 ^ 15)) by (field; lra).
  pose proof (sqrt_pos x) as Hp. pose proof (sqrt_sqrt x Hx) as E.
  assert (H1 : 0 < 1 / 10 ^ 15) by (apply Rdiv_lt_0_compat; lra).
  split; intros H; nra.
Qed.

Lemma rotmat_pole d u uh : (1 <= d)%nat -> direction d u uh ->
  exists M v, rotmat u [] = Ok (Some M) /\ pole_of d M v /\
    (v = uh \/ (last_standard d v /\ off_axis d uh v < 1 / 10 ^ 30)).
Proof.
  intros Hd Hu. set (e := basis d (d - 1)). assert (He : last_standard d e) by apply basis_standard.
  assert (Hue : unit_vector d e) by (apply (standard_unit d (d - 1)); [exact He|lia]).
  assert (Haim : target d [] e) by (left; split; [reflexivity|exact He]).
  pose proof (off_axis_nonneg d uh e (proj1 Hu) Hue) as Hpos.
  rewrite (rotmat_eq d u [] uh e Hd Hu Haim).
  destruct (Rltb _ _) eqn:E.
  - exists (eye d), e. split; [reflexivity|]. split; [split; [apply eye_isometry|split; [exact Hue|]]|].
    + intros x Hx. rewrite apply_eye by exact Hx. symmetry. apply (standard_inner d (d - 1)); [exact He|lia].
    + right. split; [exact He|]. apply Rltb_true in E. apply small_sqrt in E; assumption.
  - apply Rltb_false in E.
    assert (Hoff : 0 < off_axis d uh e).
    { destruct (Req_dec (off_axis d uh e) 0) as [Z|Z]; [|lra]. rewrite Z, sqrt_0 in E.
      assert (0 < 1 / 10 ^ 15) by (apply Rdiv_lt_0_compat; lra). lra. }
    eexists _, uh. split; [reflexivity|]. split; [|left; reflexivity].
    pose proof (rotation_isometry d uh e (proj1 Hu) Hue Hoff) as Hiso.
    split; [exact Hiso|]. split; [exact (proj1 Hu)|]. intros x Hx.
    rewrite <- (standard_inner d (d - 1) e _ He) by lia.
    rewrite <- (rotation_a d uh e (proj1 Hu) Hue Hoff) at 1.
    apply Hiso; [apply Hu|exact Hx].
Qed.

Lemma last_nth (l : list R) : last l 0 = nth (length l - 1) l 0.
Proof.
  induction l as [|a l IH]; [reflexivity|]. destruct l as [|b l]; [reflexivity|].
  change (last (a :: b :: l) 0) with (last (b :: l) 0). rewrite IH. cbn [length].
  replace (S (S (length l)) - 1)%nat with (S (S (length l) - 1)) by lia. reflexivity.
Qed.
Lemma removelast_length (l : list R) : length (removelast l) = (length l - 1)%nat.
Proof.
  induction l as [|a l IH]; [reflexivity|]. destruct l as [|b l]; [reflexivity|].
  change (removelast (a :: b :: l)) with (a :: removelast (b :: l)). cbn [length] in *. rewrite IH. lia.
Qed.
Lemma nth_removelast (l : list R) i : (i < length l - 1)%nat -> nth i (removelast l) 0 = nth i l 0.
Proof.
  revert i. induction l as [|a l IH]; intros i Hi; [cbn in Hi; lia|]. destruct l as [|b l]; [cbn in Hi; lia|].
  change (removelast (a :: b :: l)) with (a :: removelast (b :: l)). destruct i; [reflexivity|].
  change (nth (S i) (a :: removelast (b :: l)) 0) with (nth i (removelast (b :: l)) 0).
  rewrite IH by (cbn [length] in *; lia). reflexivity.
Qed.
Lemma nth_map_div (l : list R) k i : nth i (map (fun y => y / k) l) 0 = nth i l 0 / k.
Proof. replace 0 with (0 / k) at 1 by (unfold Rdiv; ring). apply (map_nth (fun y => y / k)). Qed.
Lemma sumn_last d f : (1 <= d)%nat -> sumn d f = sumn (d - 1) f + f (d - 1)%nat.
Proof. intros H. destruct d; [lia|]. cbn [sumn]. replace (S d - 1)%nat with d by lia. reflexivity. Qed.

(** One projected point: all coordinates but the last one, over one plus the absolute value of
    the last one. *)
Definition shadow (d : nat) (M : list (list R)) (v x : list R) (s : R) (y : list R) : Prop :=
  length y = (d - 1)%nat /\ forall i, (i < d - 1)%nat ->
    nth i y 0 = s * nth i (apply d M x) 0 / (1 + Rabs (inner d v x)).

Lemma stereo_codim1_shadow d M v x : (1 <= d)%nat -> pole_of d M v -> length x = d ->
  shadow d M v x (if Rltb (inner d v x) 0 then -1 else 1) (stereo_codim1_point M x).
Proof.
  intros Hd [[HM Hiso] [Hv Hlast]] Hx. unfold stereo_codim1_point. rewrite (matvec_apply d) by assumption.
  pose proof (apply_length d M x) as Hl.
  rewrite (last_nth (apply d M x)), Hl, Hlast by exact Hx. destruct (Rltb _ _) eqn:E.
  - apply Rltb_true in E. split.
    + rewrite map_length, removelast_length, vscale_length, Hl. reflexivity.
    + intros i Hi. rewrite nth_map_div, nth_removelast by (rewrite vscale_length, Hl; exact Hi).
      rewrite last_nth, vscale_length, Hl, !nth_vscale, Hlast by exact Hx. rewrite Rabs_left by exact E.
      f_equal. ring.
  - apply Rltb_false in E. split.
    + rewrite map_length, removelast_length, Hl. reflexivity.
    + intros i Hi. rewrite nth_map_div, nth_removelast by (rewrite Hl; exact Hi).
      rewrite last_nth, Hl, Hlast by exact Hx. rewrite Rabs_pos_eq by exact E. f_equal. ring.
Qed.

Lemma inner_abs_le1 d u v : unit_vector d u -> unit_vector d v -> Rabs (inner d u v) <= 1.
Proof.
  intros Hu Hv. pose proof (off_axis_nonneg d u v Hu Hv) as H. unfold off_axis in H.
  apply Rabs_le. nra.
Qed.

Lemma shadow_norm d M v x s y : (1 <= d)%nat -> pole_of d M v -> unit_vector d x -> s * s = 1 ->
  shadow d M v x s y -> inner (d - 1) y y = (1 - Rabs (inner d v x)) / (1 + Rabs (inner d v x)).
Proof.
  intros Hd [[HM Hiso] [Hv Hlast]] [Hx Hux] Hs [Hy Hsh]. set (h := inner d v x) in *.
  assert (Hh : Rabs h <= 1) by (apply inner_abs_le1; [exact Hv|split; assumption]).
  pose proof (Rabs_pos h) as Hh0.
  assert (E : sumn (d - 1) (fun i => nth i (apply d M x) 0 * nth i (apply d M x) 0) = 1 - Rabs h * Rabs h).
  { pose proof (Hiso x x Hx Hx) as E. rewrite Hux in E. unfold inner in E. rewrite (sumn_last d) in E by exact Hd.
    rewrite Hlast in E by exact Hx. fold h in E. rewrite <- Rabs_mult, Rabs_pos_eq by nra. lra. }
  unfold inner. rewrite (sumn_ext (d - 1) _ (fun i => (/ (1 + Rabs h) * / (1 + Rabs h)) * (nth i (apply d M x) 0 * nth i (apply d M x) 0))).
  - rewrite sumn_scal, E. field. lra.
  - intros i Hi. rewrite Hsh by exact Hi. unfold Rdiv. transitivity ((s * s) * (nth i (apply d M x) 0 * nth i (apply d M x) 0 * (/ (1 + Rabs h) * / (1 + Rabs h)))); [ring|rewrite Hs; ring].
Qed.

Lemma ratio_inj a b : 0 <= a -> 0 <= b -> (1 - a) / (1 + a) = (1 - b) / (1 + b) -> a = b.
Proof.
  intros Ha Hb E. apply (f_equal (fun z => z * ((1 + a) * (1 + b)))) in E.
  replace ((1 - a) / (1 + a) * ((1 + a) * (1 + b))) with ((1 - a) * (1 + b)) in E by (field; lra).
  replace ((1 - b) / (1 + b) * ((1 + a) * (1 + b))) with ((1 - b) * (1 + a)) in E by (field; lra). lra.
Qed.

Lemma apply_scale d M t x : (forall i, (i < d)%nat -> nth i (apply d M (map (Rmult t) x)) 0 = t * nth i (apply d M x) 0).
Proof. intros i Hi. rewrite !nth_apply by exact Hi. rewrite <- sumn_scal. apply sumn_ext. intros j Hj. rewrite nth_map_mul. ring. Qed.
Lemma inner_scale_r d t u x : inner d u (map (Rmult t) x) = t * inner d u x.
Proof. unfold inner. rewrite <- sumn_scal. apply sumn_ext. intros j Hj. rewrite nth_map_mul. ring. Qed.

(** Two points with the same projection are equal up to sign (the signs s and s' being those of
    the flip, so that the flipped points have last coordinates h s and h' s'). *)
Lemma shadow_inj d M v x x' s s' y y' : (1 <= d)%nat -> pole_of d M v -> unit_vector d x -> unit_vector d x' ->
  s * s = 1 -> s' * s' = 1 -> shadow d M v x s y -> shadow d M v x' s' y' ->
  (Rabs (inner d v x) = Rabs (inner d v x') -> s * inner d v x = s' * inner d v x') ->
  y = y' -> map (Rmult s) x = map (Rmult s') x'.
Proof.
  intros Hd Hp Hx Hx' Hs Hs' Hy Hy' Hsig E.
  pose proof (shadow_norm _ _ _ _ _ _ Hd Hp Hx Hs Hy) as N. pose proof (shadow_norm _ _ _ _ _ _ Hd Hp Hx' Hs' Hy') as N'.
  rewrite E, N' in N.
  assert (Hh : Rabs (inner d v x') = Rabs (inner d v x)) by (apply ratio_inj; [apply Rabs_pos|apply Rabs_pos|exact N]).
  destruct Hp as [[HM Hiso] [Hv Hlast]]. destruct Hx as [Hx _], Hx' as [Hx' _].
  apply (isometry_injective d M); [split; assumption|rewrite map_length; exact Hx|rewrite map_length; exact Hx'|].
  apply (vec_ext d); [apply apply_length|apply apply_length|]. intros i Hi. rewrite !apply_scale by exact Hi.
  destruct (Nat.eq_dec i (d - 1)) as [->|Hne].
  - rewrite !Hlast by assumption. apply Hsig. symmetry. exact Hh.
  - destruct Hy as [_ Hy], Hy' as [_ Hy']. pose proof (Hy i ltac:(lia)) as A. pose proof (Hy' i ltac:(lia)) as B.
    rewrite E in A. rewrite A in B. rewrite Hh in B.
    pose proof (Rabs_pos (inner d v x)).
    apply (f_equal (fun z => z * (1 + Rabs (inner d v x)))) in B. unfold Rdiv in B. rewrite !Rmult_assoc, !Rinv_l in B by lra. lra.
Qed.

Lemma stereo_shadow d M v x : (1 <= d)%nat -> pole_of d M v -> length x = d -> inner d v x < 0 ->
  shadow d M v x 1 (stereo (matvec M x)).
Proof.
  intros Hd [[HM Hiso] [Hv Hlast]] Hx E. unfold stereo. rewrite (matvec_apply d) by assumption.
  pose proof (apply_length d M x) as Hl. split.
  - rewrite map_length, removelast_length, Hl. reflexivity.
  - intros i Hi. rewrite nth_map_div, nth_removelast by (rewrite Hl; exact Hi).
    rewrite last_nth, Hl, Hlast by exact Hx. rewrite Rabs_left by exact E. f_equal; ring.
Qed.
Lemma stereo_flip_shadow d M v x : (1 <= d)%nat -> pole_of d M v -> length x = d -> 0 <= inner d v x ->
  shadow d M v x 1 (stereo (flip_last (matvec M x))).
Proof.
  intros Hd [[HM Hiso] [Hv Hlast]] Hx E. unfold stereo, flip_last. rewrite (matvec_apply d) by assumption.
  pose proof (apply_length d M x) as Hl. rewrite last_last, removelast_last. split.
  - rewrite map_length, removelast_length, Hl. reflexivity.
  - intros i Hi. rewrite nth_map_div, nth_removelast by (rewrite Hl; exact Hi).
    rewrite last_nth, Hl, Hlast by exact Hx. rewrite Rabs_pos_eq by exact E. f_equal; ring.
Qed.
Lemma nth_zip_add (u v : list R) i : length u = length v -> nth i (map (fun p => fst p + snd p) (combine u v)) 0 = nth i u 0 + nth i v 0.
Proof.
  revert v i. induction u as [|a u IH]; intros [|b v] i H; cbn in H; try lia.
  - destruct i; cbn; ring.
  - destruct i; cbn; [reflexivity|]. apply IH. lia.
Qed.

(** A point of the two-disk picture: the second disk is moved by 5/2 along the first axis. *)
Lemma hemisphere_shadow n M v x : (2 <= n)%nat -> pole_of n M v -> length x = n ->
  let y := hemisphere_point M n x in
  length y = (n - 1)%nat /\
  (inner n v x < 0 -> shadow n M v x 1 y) /\
  (0 <= inner n v x -> exists y0, shadow n M v x 1 y0 /\ forall i, (i < n - 1)%nat -> nth i y 0 = nth i y0 0 + if (i =? 0)%nat then 5 / 2 else 0).
Proof.
  intros Hn Hp Hx y. assert (Hd : (1 <= n)%nat) by lia. subst y. unfold hemisphere_point.
  assert (HL : last (matvec M x) 0 = inner n v x).
  { destruct Hp as [[HM Hiso] [Hv Hlast]]. rewrite (matvec_apply n) by assumption. rewrite last_nth, apply_length. apply Hlast. exact Hx. }
  rewrite HL. destruct (Rltb (inner n v x) 0) eqn:E.
  - apply Rltb_true in E. pose proof (stereo_shadow n M v x Hd Hp Hx E) as Hs. split; [apply Hs|]. split; [intros _; exact Hs|lra].
  - apply Rltb_false in E. pose proof (stereo_flip_shadow n M v x Hd Hp Hx E) as Hs.
    assert (Hb : length (vscale (5 / 2) (basis (n - 1) 0)) = (n - 1)%nat) by (rewrite vscale_length; apply basis_standard).
    split; [|split; [lra|]].
    + rewrite map_length, combine_length, Hb, (proj1 Hs). lia.
    + intros _. eexists. split; [exact Hs|]. intros i Hi. rewrite nth_zip_add by (rewrite Hb; apply Hs).
      rewrite nth_vscale. rewrite (proj2 (basis_standard (n - 1) 0) i Hi). destruct (i =? 0)%nat; ring.
Qed.

Lemma shadow_coord d M v x s y i : (1 <= d)%nat -> pole_of d M v -> unit_vector d x -> s * s = 1 -> shadow d M v x s y ->
  (i < d - 1)%nat -> Rabs (nth i y 0) <= 1.
Proof.
  intros Hd Hp Hx Hs Hy Hi. pose proof (shadow_norm _ _ _ _ _ _ Hd Hp Hx Hs Hy) as N.
  pose proof (Rabs_pos (inner d v x)) as H0.
  assert (N1 : inner (d - 1) y y <= 1).
  { rewrite N. apply (Rmult_le_reg_r (1 + Rabs (inner d v x))); [lra|]. unfold Rdiv. rewrite Rmult_assoc, Rinv_l by lra. lra. }
  pose proof (sumn_ge (d - 1) (fun r => nth r y 0 * nth r y 0) i Hi (fun r _ => Rle_0_sqr (nth r y 0))) as G.
  cbn beta in G. fold (inner (d - 1) y y) in G. apply Rabs_le. nra.
Qed.

(** * eigh *)
Section Eigh.
Variables (d : nat) (pX U : list (list R)) (lam : nat -> R).
Hypothesis Hd : (1 <= d)%nat.
Hypothesis HX : forall x, In x pX -> length x = d.
Hypothesis HU : eigh_answer d (scatter d pX) U lam.
Let u0 := map (fun row => nth 0 row 0) U.
Lemma u0_length : length u0 = d.
Proof. unfold u0. rewrite map_length. apply HU. Qed.
Lemma nth_u0 k : (k < d)%nat -> nth k u0 0 = at2 0 U k 0.
Proof.
  intros Hk. unfold u0, at2. rewrite (nth_indep _ 0 ((fun row => nth 0 row 0) [])) by (rewrite map_length; destruct HU as [[-> _] _]; exact Hk).
  apply (map_nth (fun row => nth 0 row 0)).
Qed.
Lemma u0_unit : unit_vector d u0.
Proof.
  split; [apply u0_length|]. destruct HU as [_ [H _]]. specialize (H 0%nat 0%nat ltac:(lia) ltac:(lia)). cbn in H.
  rewrite <- H. unfold inner. apply sumn_ext. intros k Hk. rewrite !nth_u0 by exact Hk. reflexivity.
Qed.
Lemma spread_quadratic w : spread d pX w = sumn d (fun k => nth k w 0 * sumn d (fun l => at2 0 (scatter d pX) k l * nth l w 0)).
Proof.
  unfold spread. rewrite fold_sumn, map_length.
  rewrite (sumn_ext (length pX) _ (fun r => sumn d (fun k => sumn d (fun l => nth k w 0 * (at2 0 pX r k * at2 0 pX r l) * nth l w 0)))).
  - rewrite sumn_swap. apply sumn_ext. intros k Hk. rewrite sumn_swap. rewrite <- sumn_scal. apply sumn_ext. intros l Hl.
    unfold scatter. rewrite at2_mk2 by assumption. rewrite <- sumn_scal_r, <- sumn_scal. apply sumn_ext. intros r Hr. ring.
  - intros r Hr. rewrite (nth_indep _ 0 ((fun x => inner d w x ^ 2) [])) by (rewrite map_length; exact Hr).
    rewrite (map_nth (fun x => inner d w x ^ 2)). cbn beta. replace (inner d w (nth r pX []) ^ 2) with (inner d w (nth r pX []) * inner d w (nth r pX [])) by ring.
    unfold inner at 1. rewrite <- sumn_scal_r. apply sumn_ext. intros k Hk. unfold inner. rewrite <- sumn_scal. apply sumn_ext. intros l Hl.
    unfold at2. ring.
Qed.
Lemma spread_eigen w : spread d pX w = sumn d (fun i => lam i * (sumn d (fun k => at2 0 U k i * nth k w 0)) ^ 2).
Proof.
  destruct HU as [HM [Hort [Hcomp [Heig Hord]]]]. set (a := fun i => sumn d (fun k => at2 0 U k i * nth k w 0)).
  assert (Hw : forall l, (l < d)%nat -> nth l w 0 = sumn d (fun i => a i * at2 0 U l i)).
  { intros l Hl. unfold a. rewrite (sumn_ext d _ (fun i => sumn d (fun k => at2 0 U k i * nth k w 0 * at2 0 U l i))) by (intros; rewrite sumn_scal_r; reflexivity).
    rewrite sumn_swap. rewrite (sumn_ext d _ (fun k => (if (l =? k)%nat then 1 else 0) * nth k w 0)).
    - symmetry. apply (sumn_delta d l (fun k => nth k w 0)). exact Hl.
    - intros k Hk. rewrite <- (Hcomp l k) by assumption. rewrite <- sumn_scal_r. apply sumn_ext. intros i Hi. ring. }
  rewrite spread_quadratic.
  rewrite (sumn_ext d _ (fun k => sumn d (fun i => nth k w 0 * (a i * (lam i * at2 0 U k i))))).
  - rewrite sumn_swap. apply sumn_ext. intros i Hi. transitivity (lam i * a i * a i); [|unfold a; ring].
    unfold a at 3. rewrite <- sumn_scal. apply sumn_ext. intros k Hk. ring.
  - intros k Hk. rewrite sumn_scal. f_equal.
    rewrite (sumn_ext d _ (fun l => sumn d (fun i => at2 0 (scatter d pX) k l * (a i * at2 0 U l i)))).
    + rewrite sumn_swap. apply sumn_ext. intros i Hi. rewrite <- Heig by assumption. rewrite <- sumn_scal. apply sumn_ext. intros l Hl. ring.
    + intros l Hl. rewrite (Hw l Hl) at 1. rewrite <- sumn_scal. reflexivity.
Qed.
Lemma parseval w : sumn d (fun i => (sumn d (fun k => at2 0 U k i * nth k w 0)) ^ 2) = inner d w w.
Proof.
  destruct HU as [HM [Hort [Hcomp _]]].
  rewrite (sumn_ext d _ (fun i => sumn d (fun k => sumn d (fun l => nth k w 0 * (at2 0 U k i * at2 0 U l i) * nth l w 0)))).
  - rewrite sumn_swap. unfold inner. apply sumn_ext. intros k Hk. rewrite sumn_swap.
    rewrite (sumn_ext d _ (fun l => (if (k =? l)%nat then 1 else 0) * (nth k w 0 * nth l w 0))).
    + apply (sumn_delta d k (fun l => nth k w 0 * nth l w 0)). exact Hk.
    + intros l Hl. rewrite <- (Hcomp k l) by assumption. rewrite <- sumn_scal_r. apply sumn_ext. intros i Hi. ring.
  - intros i Hi. replace (sumn d (fun k => at2 0 U k i * nth k w 0) ^ 2) with (sumn d (fun k => at2 0 U k i * nth k w 0) * sumn d (fun k => at2 0 U k i * nth k w 0)) by ring.
    rewrite <- sumn_scal_r. apply sumn_ext. intros k Hk. rewrite <- sumn_scal. apply sumn_ext. intros l Hl. ring.
Qed.
Lemma u0_minimises w : unit_vector d w -> spread d pX u0 <= spread d pX w.
Proof.
  intros [Hw Huw]. destruct HU as [HM [Hort [Hcomp [Heig Hord]]]].
  assert (E0 : spread d pX u0 = lam 0%nat).
  { rewrite spread_eigen. rewrite (sumn_single d _ 0%nat ltac:(lia)).
    - rewrite (sumn_ext d _ (fun k => at2 0 U k 0 * at2 0 U k 0)) by (intros k Hk; rewrite nth_u0 by exact Hk; reflexivity).
      rewrite (Hort 0%nat 0%nat) by lia. cbn. ring.
    - intros i Hi Hne. rewrite (sumn_ext d _ (fun k => at2 0 U k i * at2 0 U k 0)) by (intros k Hk; rewrite nth_u0 by exact Hk; reflexivity).
      rewrite (Hort i 0%nat) by lia. destruct (Nat.eqb_spec i 0); [lia|]. ring. }
  rewrite E0, spread_eigen. rewrite <- (Rmult_1_r (lam 0%nat)), <- Huw, <- (parseval w), <- sumn_scal.
  apply sumn_le. intros i Hi. apply Rmult_le_compat_r; [nra|]. apply Hord. lia.
Qed.
End Eigh.

(** * Angles and the lens space *)
Lemma cabs_sq z : cabs z * cabs z = cabs2 z.
Proof. apply sqrt_sqrt. apply cabs2_nonneg. Qed.
Lemma cabs_0 z : cabs z = 0 -> z = c0.
Proof. intros H. apply cabs2_0. rewrite <- cabs_sq, H. ring. Qed.
Lemma polar z : z = cscale (cabs z) (cis (np_angle z)).
Proof.
  unfold np_angle. destruct (Reqb (cabs z) 0) eqn:E.
  - apply Reqb_true in E. rewrite E. apply cabs_0 in E. rewrite E. apply c_ext; cbn; ring.
  - apply Reqb_false in E. pose proof (sqrt_pos (cabs2 z)) as Hp. fold (cabs z) in Hp.
    assert (Hr : 0 < cabs z) by lra. pose proof (cabs_sq z) as Hsq. unfold cabs2 in Hsq.
    set (x := fst z / cabs z). set (y := snd z / cabs z).
    assert (Hxy : x * x + y * y = 1).
    { unfold x, y. replace (fst z / cabs z * (fst z / cabs z) + snd z / cabs z * (snd z / cabs z)) with ((fst z * fst z + snd z * snd z) / (cabs z * cabs z)) by (field; lra).
      rewrite Hsq. field. rewrite <- Hsq. nra. }
    assert (Hx : -1 <= x <= 1) by nra.
    assert (Ex : fst z = cabs z * x) by (unfold x; field; lra).
    assert (Ey : snd z = cabs z * y) by (unfold y; field; lra).
    assert (Hs : sin (acos x) = Rabs y).
    { rewrite sin_acos by exact Hx. replace (1 - x²) with (Rsqr y) by (unfold Rsqr; lra). apply sqrt_Rsqr_abs. }
    destruct (Rleb 0 (snd z)) eqn:S.
    + apply Rleb_true in S. apply c_ext; unfold cscale, cis; cbn [fst snd].
      * rewrite cos_acos by exact Hx. exact Ex.
      * rewrite Hs, Rabs_pos_eq; [exact Ey|]. unfold y. apply Rmult_le_pos; [exact S|]. left. apply Rinv_0_lt_compat. exact Hr.
    + apply Rleb_false in S. apply c_ext; unfold cscale, cis; cbn [fst snd].
      * rewrite cos_neg, cos_acos by exact Hx. exact Ex.
      * rewrite sin_neg, Hs, Rabs_left; [lra|]. unfold y. apply Rmult_lt_reg_r with (cabs z); [exact Hr|]. unfold Rdiv. rewrite Rmult_assoc, Rinv_l by lra. lra.
Qed.
Lemma cis_same a b : cis a = cis b <-> same_angle a b.
Proof.
  split.
  - intros H. apply cos_sin_same; [exact (f_equal fst H)|exact (f_equal snd H)].
  - intros [k E]. replace a with (b + 2 * IZR k * PI) by lra.
    unfold cis. rewrite cos_period_Z, sin_period_Z. reflexivity.
Qed.
Lemma cis_mod x : cis (np_mod x (2 * PI)) = cis x.
Proof. apply cis_same. exact (mod_two_pi_same x). Qed.
Lemma cabs2_cmul_cis z x : cabs2 (cmul z (cis x)) = cabs2 z.
Proof. rewrite cabs2_mul, cabs2_cis. ring. Qed.

Lemma lens_values q p1 p2 : (0 < q)%Z -> cabs2 p1 + cabs2 p2 = 1 ->
  exists (K : Z) (theta : R), 0 <= theta < 2 * PI / IZR q /\
    p1 = cscale (cabs p1) (cis (theta + 2 * PI / IZR q * IZR K)) /\
    (p1 = c0 -> K = 0%Z /\ theta = 0) /\
    lens_point q [p1; p2] =
      let w := cmul p2 (cis (- (2 * PI / IZR q * IZR K))) in
      [Some (fst w); Some (snd w); Some ((IZR q * theta / PI - 1) * cabs p1)].
Proof.
  intros Hq Hs. pose proof PI_RGT_0 as HPI.
  assert (Hq' : 0 < IZR q) by (apply (IZR_lt 0); exact Hq).
  set (dl := 2 * PI / IZR q). assert (Hdl : 0 < dl) by (apply Rdiv_lt_0_compat; lra).
  set (A := np_mod (np_angle p1) (2 * PI)). set (K := Int_part (A / dl)). set (theta := np_mod A dl).
  exists K, theta.
  assert (Ht : 0 <= theta < dl) by (apply np_mod_range; exact Hdl).
  assert (EA : A = theta + dl * IZR K) by (unfold theta, np_mod, K; ring).
  assert (EK : Int_part ((A - theta) / dl) = K).
  { rewrite EA. replace ((theta + dl * IZR K - theta) / dl) with (IZR K) by (field; lra). apply Int_part_eq. lra. }
  split; [exact Ht|]. split; [|split].
  - rewrite <- EA. unfold A. rewrite cis_mod. apply polar.
  - intros ->. assert (Z : A = 0).
    { unfold A, np_angle. replace (cabs c0) with 0 by (unfold cabs, cabs2; cbn; rewrite Rmult_0_l, Rplus_0_l, sqrt_0; reflexivity).
      destruct (Reqb 0 0) eqn:E; [|apply Reqb_false in E; lra]. apply np_mod_id. lra. }
    split; [unfold K; rewrite Z; replace (0 / dl) with 0 by (field; lra); apply Int_part_eq; cbn; lra|].
    unfold theta. rewrite Z. apply np_mod_id. lra.
  - unfold lens_point. cbn [nth]. fold A. fold dl. fold theta. rewrite EK. cbv zeta.
    assert (Hr : 1 - cabs p2 ^ 2 = cabs2 p1) by (replace (cabs p2 ^ 2) with (cabs2 p2) by (rewrite <- cabs_sq; ring); lra).
    rewrite Hr. pose proof (cabs2_nonneg p1) as H0. destruct (Rltb (cabs2 p1) 0) eqn:E; [apply Rltb_true in E; lra|].
    set (B := np_mod (np_angle p2) (2 * PI)).
    replace (B - 2 * IZR K * PI / IZR q) with (B + - (dl * IZR K)) by (unfold dl; field; lra).
    assert (W : cmul p2 (cis (- (dl * IZR K))) = cscale (cabs p2) (cis (B + - (dl * IZR K)))).
    { rewrite cis_add. rewrite (polar p2) at 1. unfold B. rewrite cis_mod. apply c_ext; cbn; ring. }
    rewrite W. unfold cscale. cbn [fst snd cis].
    replace (IZR q / PI * (theta - PI / IZR q) * sqrt (cabs2 p1)) with ((IZR q * theta / PI - 1) * cabs p1)
      by (unfold cabs; field; lra).
    reflexivity.
Qed.

(** Equal directions: the angles [theta] agree and the sectors [K] differ by a multiple of q. *)
Lemma sector_unique q t t' K K' : (0 < q)%Z -> 0 <= t < 2 * PI / IZR q -> 0 <= t' < 2 * PI / IZR q ->
  cis (t + 2 * PI / IZR q * IZR K) = cis (t' + 2 * PI / IZR q * IZR K') ->
  t = t' /\ exists m, (K = K' + q * m)%Z.
Proof.
  intros Hq Ht Ht' E. pose proof PI_RGT_0 as HPI. assert (Hq' : 0 < IZR q) by (apply (IZR_lt 0); exact Hq).
  apply cis_same in E. destruct E as [m E]. set (dl := 2 * PI / IZR q) in *.
  assert (Hdl : 0 < dl) by (apply Rdiv_lt_0_compat; lra).
  assert (E2 : 2 * PI = dl * IZR q) by (unfold dl; field; lra).
  assert (E3 : t - t' = IZR (K' - K + q * m) * dl).
  { rewrite plus_IZR, minus_IZR, mult_IZR.
    transitivity (2 * PI * IZR m - dl * IZR K + dl * IZR K'); [unfold two_pi in E; lra|rewrite E2; ring]. }
  assert (Htt : t = t') by (apply (mod_unique dl t t' _ Hdl Ht Ht' E3)).
  split; [exact Htt|]. exists m. subst t'. assert (Z : IZR (K' - K + q * m) = 0) by nra.
  apply (eq_IZR _ 0) in Z. lia.
Qed.
Lemma cis_full q K m : (0 < q)%Z -> cis (2 * PI / IZR q * IZR (K + q * m)) = cis (2 * PI / IZR q * IZR K).
Proof.
  intros Hq. assert (Hq' : 0 < IZR q) by (apply (IZR_lt 0); exact Hq).
  replace (2 * PI / IZR q * IZR (K + q * m)) with (2 * PI / IZR q * IZR K + 2 * PI * IZR m)
    by (rewrite plus_IZR, mult_IZR; field; lra).
  rewrite cis_add, cis_2PI. apply c_ext; cbn; ring.
Qed.

(** * The Hopf map *)
Lemma hopf_fibre z1 z2 w1 w2 : cabs2 z1 + cabs2 z2 = 1 -> cabs2 w1 + cabs2 w2 = 1 ->
  cmul z1 (conj z2) = cmul w1 (conj w2) -> cabs2 z1 - cabs2 z2 = cabs2 w1 - cabs2 w2 ->
  exists lam, cabs2 lam = 1 /\ w1 = cmul lam z1 /\ w2 = cmul lam z2.
Proof.
  intros Hz Hw E E3. set (lam := cadd (cmul w1 (conj z1)) (cmul w2 (conj z2))).
  assert (H1 : w1 = cmul lam z1).
  { transitivity (cadd (cscale (cabs2 z1) w1) (cmul w2 (cmul z1 (conj z2)))).
    - rewrite E. transitivity (cscale (cabs2 z1 + cabs2 w2) w1); [|unfold cscale, cmul, conj, cadd, cabs2; apply c_ext; cbn [fst snd]; ring].
      replace (cabs2 z1 + cabs2 w2) with 1 by lra. apply c_ext; cbn; ring.
    - unfold lam, cscale, cmul, conj, cadd, cabs2; apply c_ext; cbn [fst snd]; ring. }
  assert (H2 : w2 = cmul lam z2).
  { transitivity (cadd (cscale (cabs2 z2) w2) (cmul w1 (conj (cmul z1 (conj z2))))).
    - rewrite E. transitivity (cscale (cabs2 z2 + cabs2 w1) w2); [|unfold cscale, cmul, conj, cadd, cabs2; apply c_ext; cbn [fst snd]; ring].
      replace (cabs2 z2 + cabs2 w1) with 1 by lra. apply c_ext; cbn; ring.
    - unfold lam, cscale, cmul, conj, cadd, cabs2; apply c_ext; cbn [fst snd]; ring. }
  exists lam. split; [|split; assumption].
  rewrite H1, H2, !cabs2_mul, <- Rmult_plus_distr_l, Hz in Hw. lra.
Qed.
