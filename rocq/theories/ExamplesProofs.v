(** ExamplesProofs.v -- lemmas for the example data sets. *)
From Coq Require Import List ZArith Reals Lia Lra Psatz Permutation.
From Verif Require Import Base BaseProofs RealBase RealSum SpecEM LLLModel SpecLLL LLLProofs ComplexBase SpecMapUtils MapUtilsModel MapUtilsProofs GeometryModel SpecGeometry GeometryProofs ExamplesModel SpecExamples.
Import ListNotations.
Local Open Scope R_scope.

(** * Lists *)
Lemma mk1_length {A} n (f : nat -> A) : length (mk1 n f) = n.
Proof. unfold mk1. rewrite map_length. apply seq_length. Qed.
Lemma mk1_nth {A} n (f : nat -> A) d i : (i < n)%nat -> nth i (mk1 n f) d = f i.
Proof.
  intros H. unfold mk1. rewrite (nth_indep _ d (f 0%nat)) by (rewrite map_length, seq_length; exact H).
  rewrite map_nth, seq_nth by exact H. reflexivity.
Qed.
Lemma mk1_Forall {A} n (f : nat -> A) (P : A -> Prop) : (forall i, (i < n)%nat -> P (f i)) -> Forall P (mk1 n f).
Proof.
  intros H. apply Forall_forall. intros x Hx. apply in_map_iff in Hx. destruct Hx as [i [<- Hi]]. apply in_seq in Hi. apply H. lia.
Qed.
Lemma mk1_In {A} n (f : nat -> A) x : In x (mk1 n f) <-> exists i, (i < n)%nat /\ x = f i.
Proof.
  unfold mk1. rewrite in_map_iff. split.
  - intros [i [<- Hi]]. apply in_seq in Hi. exists i. split; [lia|reflexivity].
  - intros [i [Hi ->]]. exists i. split; [reflexivity|]. apply in_seq. lia.
Qed.
Lemma mk2_eq {A} n m (f : nat -> nat -> A) : mk2 n m f = mk1 n (fun i => mk1 m (f i)).
Proof. reflexivity. Qed.
Lemma in_rows_nth n k l i : (i < n)%nat -> nth i (in_rows n k l) [] = mk1 k (fun j => nth (i * k + j) l 0).
Proof. intros H. unfold in_rows. rewrite mk2_eq, mk1_nth by exact H. reflexivity. Qed.
Lemma concat_length {A} (L : list (list A)) k : Forall (fun l => length l = k) L -> length (concat L) = (length L * k)%nat.
Proof. induction 1 as [|l L Hl _ IH]; [reflexivity|]. cbn. rewrite app_length, Hl, IH. reflexivity. Qed.
Lemma concat_nth {A} (d : A) (L : list (list A)) k : Forall (fun l => length l = k) L -> forall i j, (i < length L)%nat -> (j < k)%nat ->
  nth (i * k + j) (concat L) d = nth j (nth i L []) d.
Proof.
  induction 1 as [|l L Hl _ IH]; intros i j Hi Hj; [cbn in Hi; lia|]. cbn [concat]. destruct i as [|i].
  - cbn [nth]. rewrite app_nth1 by lia. f_equal.
  - cbn [nth]. rewrite app_nth2 by lia. rewrite Hl. replace (S i * k + j - k)%nat with (i * k + j)%nat by lia.
    apply IH; [cbn in Hi; lia|exact Hj].
Qed.

(** * Angles *)
Lemma polar2 a b c : a ^ 2 + b ^ 2 = c ^ 2 -> exists t, 0 <= t < 2 * PI /\ a = c * cos t /\ b = c * sin t.
Proof.
  assert (Hpos : forall a b c, 0 <= c -> a ^ 2 + b ^ 2 = c ^ 2 -> exists t, 0 <= t < 2 * PI /\ a = c * cos t /\ b = c * sin t).
  { clear. intros a b c Hc H. pose proof (polar (a, b)) as P. assert (E : cabs (a, b) = c).
    { unfold cabs, cabs2. cbn [fst snd]. replace (a * a + b * b) with (c * c) by nra. apply sqrt_square. exact Hc. }
    rewrite E in P. unfold cscale, cis in P. cbn [fst snd] in P. injection P as Pa Pb.
    pose proof PI_RGT_0.
    assert (Hr : exists t, 0 <= t < 2 * PI /\ cos t = cos (np_angle (a, b)) /\ sin t = sin (np_angle (a, b))).
    { set (t := np_angle (a, b)). assert (Ht : - PI <= t <= PI).
      { unfold t, np_angle. repeat match goal with |- context [if ?x then _ else _] => destruct x end;
        pose proof (acos_bound (fst (a, b) / cabs (a, b))); lra. }
      destruct (Rlt_le_dec t 0) as [Hn|Hp].
      - exists (t + 2 * PI). split; [lra|]. replace (t + 2 * PI) with (t + 2 * INR 1 * PI) by (cbn; ring).
        rewrite cos_period, sin_period. auto.
      - exists t. split; [lra|auto]. }
    destruct Hr as [t [Ht [Hc1 Hs]]]. exists t. rewrite Hc1, Hs. auto. }
  intros H. destruct (Rle_lt_dec 0 c) as [Hc|Hc]; [apply Hpos; assumption|].
  destruct (Hpos (- a) (- b) (- c)) as [t [Ht [Ha Hb]]]; [lra|nra|]. exists t. split; [exact Ht|]. split; lra.
Qed.
Lemma cos2_sin2 t : cos t ^ 2 + sin t ^ 2 = 1.
Proof. pose proof (sin2_cos2 t) as H. unfold Rsqr in H. nra. Qed.

(** * Tori and Klein bottles *)
Lemma torus_point_on R0 r s t : on_torus R0 r (torus_point R0 r s t).
Proof.
  exists ((R0 + r * cos s) * cos t), ((R0 + r * cos s) * sin t), (r * sin s). split; [reflexivity|].
  pose proof (cos2_sin2 s) as Hs. pose proof (cos2_sin2 t) as Ht.
  replace (((R0 + r * cos s) * cos t) ^ 2 + ((R0 + r * cos s) * sin t) ^ 2) with ((R0 + r * cos s) ^ 2 * (cos t ^ 2 + sin t ^ 2)) by ring.
  rewrite Ht. replace ((r * sin s) ^ 2) with (r ^ 2 * (1 - cos s ^ 2)) by (rewrite <- Hs; ring). ring.
Qed.
Lemma torus_point_onto R0 r v : on_torus R0 r v ->
  exists s t, 0 <= s < 2 * PI /\ 0 <= t < 2 * PI /\ v = torus_point R0 r s t.
Proof.
  intros [x [y [z [-> H]]]]. set (rho := sqrt (x ^ 2 + y ^ 2)).
  assert (Hrho : rho ^ 2 = x ^ 2 + y ^ 2) by (unfold rho; rewrite pow2_sqrt; nra).
  assert (Ha : exists a, a ^ 2 = x ^ 2 + y ^ 2 /\ (a - R0) ^ 2 + z ^ 2 = r ^ 2).
  { assert (F : ((rho - R0) ^ 2 + z ^ 2 - r ^ 2) * ((- rho - R0) ^ 2 + z ^ 2 - r ^ 2) = 0).
    { replace (((rho - R0) ^ 2 + z ^ 2 - r ^ 2) * ((- rho - R0) ^ 2 + z ^ 2 - r ^ 2)) with ((rho ^ 2 + z ^ 2 + R0 ^ 2 - r ^ 2) ^ 2 - 4 * R0 ^ 2 * rho ^ 2) by ring.
      rewrite Hrho, H. ring. }
    apply Rmult_integral in F. destruct F as [F|F]; [exists rho|exists (- rho)]; split; nra. }
  destruct Ha as [a [Ha1 Ha2]].
  destruct (polar2 (a - R0) z r Ha2) as [s [Hs [E1 E2]]]. destruct (polar2 x y a ltac:(lra)) as [t [Ht [E3 E4]]].
  exists s, t. split; [exact Hs|]. split; [exact Ht|]. unfold torus_point. rewrite <- E1. replace (R0 + (a - R0)) with a by ring.
  rewrite <- E3, <- E4, <- E2. reflexivity.
Qed.
Lemma ring_torus R0 r x y z : Rabs r <= R0 ->
  (on_torus R0 r [x; y; z] <-> (sqrt (x ^ 2 + y ^ 2) - R0) ^ 2 + z ^ 2 = r ^ 2).
Proof.
  intros HR. set (rho := sqrt (x ^ 2 + y ^ 2)). assert (Hp : 0 <= rho) by apply sqrt_pos.
  assert (Hrho : rho ^ 2 = x ^ 2 + y ^ 2) by (unfold rho; rewrite pow2_sqrt; nra).
  assert (F : (x ^ 2 + y ^ 2 + z ^ 2 + R0 ^ 2 - r ^ 2) ^ 2 - 4 * R0 ^ 2 * (x ^ 2 + y ^ 2)
     = ((rho - R0) ^ 2 + z ^ 2 - r ^ 2) * ((- rho - R0) ^ 2 + z ^ 2 - r ^ 2)) by (rewrite <- Hrho; ring).
  assert (Hr : r ^ 2 <= R0 ^ 2) by (pose proof (Rabs_pos r); rewrite <- (pow2_abs r); nra).
  assert (HR0 : 0 <= R0) by (pose proof (Rabs_pos r); lra).
  split.
  - intros [x' [y' [z' [E H]]]]. injection E as <- <- <-. rewrite H in F. replace (4 * R0 ^ 2 * (x ^ 2 + y ^ 2) - 4 * R0 ^ 2 * (x ^ 2 + y ^ 2)) with 0 in F by ring.
    symmetry in F. apply Rmult_integral in F. destruct F as [F|F]; [lra|].
    assert (Hz : z ^ 2 = 0 /\ rho = 0 \/ R0 = 0) by (destruct (Req_dec R0 0) as [->|Hn]; [right; reflexivity|left; split; nra]).
    destruct Hz as [[Hz Hr0]|HR00]; [rewrite Hr0 in *; nra|rewrite HR00 in *; nra].
  - intros H. exists x, y, z. split; [reflexivity|]. rewrite H in F. replace (r ^ 2 - r ^ 2) with 0 in F by ring. rewrite Rmult_0_l in F. lra.
Qed.

Lemma half_angle phi : cos phi = cos (phi / 2) ^ 2 - sin (phi / 2) ^ 2 /\ sin phi = 2 * cos (phi / 2) * sin (phi / 2).
Proof.
  assert (E : phi = 2 * (phi / 2)) by field. split; [rewrite E at 1; rewrite cos_2a|rewrite E at 1; rewrite sin_2a]; ring.
Qed.
Lemma klein_point_on R0 r theta phi : on_klein R0 r (klein_point R0 r theta phi).
Proof.
  exists ((R0 + r * cos theta) * cos phi), ((R0 + r * cos theta) * sin phi), (r * sin theta * cos (phi / 2)), (r * sin theta * sin (phi / 2)), (R0 + r * cos theta).
  split; [reflexivity|]. pose proof (cos2_sin2 theta) as H1. pose proof (cos2_sin2 phi) as H2. pose proof (cos2_sin2 (phi / 2)) as H3.
  assert (Hq : (r * sin theta * cos (phi / 2)) ^ 2 + (r * sin theta * sin (phi / 2)) ^ 2 = (r * sin theta) ^ 2).
  { replace ((r * sin theta * cos (phi / 2)) ^ 2 + (r * sin theta * sin (phi / 2)) ^ 2) with ((r * sin theta) ^ 2 * (cos (phi / 2) ^ 2 + sin (phi / 2) ^ 2)) by ring. rewrite H3. ring. }
  destruct (half_angle phi) as [Hc Hs].
  split; [|split; [|split]].
  - replace (((R0 + r * cos theta) * cos phi) ^ 2 + ((R0 + r * cos theta) * sin phi) ^ 2) with ((R0 + r * cos theta) ^ 2 * (cos phi ^ 2 + sin phi ^ 2)) by ring. rewrite H2. ring.
  - rewrite Hq. replace ((R0 + r * cos theta - R0) ^ 2 + (r * sin theta) ^ 2) with (r ^ 2 * (cos theta ^ 2 + sin theta ^ 2)) by ring. rewrite H1. ring.
  - rewrite Hq, Hc. ring.
  - rewrite Hq, Hs. ring.
Qed.
Lemma half_plane z w : exists rho psi, 0 <= psi < PI /\ z = rho * cos psi /\ w = rho * sin psi.
Proof.
  destruct (polar2 z w (sqrt (z ^ 2 + w ^ 2))) as [t [Ht [E1 E2]]]; [rewrite pow2_sqrt; nra|].
  destruct (Rlt_le_dec t PI) as [H|H].
  - exists (sqrt (z ^ 2 + w ^ 2)), t. split; [lra|auto].
  - exists (- sqrt (z ^ 2 + w ^ 2)), (t - PI). split; [lra|].
    rewrite cos_minus, sin_minus, cos_PI, sin_PI. split; lra.
Qed.
Lemma klein_point_onto R0 r v : on_klein R0 r v ->
  exists theta phi, 0 <= theta < 2 * PI /\ 0 <= phi < 2 * PI /\ v = klein_point R0 r theta phi.
Proof.
  intros [x [y [z [w [a [-> [Ha [H1 [H2 H3]]]]]]]]].
  destruct (Req_dec (z ^ 2 + w ^ 2) 0) as [H0|Hn].
  - assert (Hz : z = 0) by nra. assert (Hw : w = 0) by nra. subst z w.
    destruct (polar2 (a - R0) 0 r ltac:(nra)) as [theta [Ht [E1 E2]]].
    destruct (polar2 x y a ltac:(lra)) as [phi [Hp [E3 E4]]].
    exists theta, phi. split; [exact Ht|]. split; [exact Hp|]. unfold klein_point. rewrite <- E1, <- E2.
    replace (R0 + (a - R0)) with a by ring. rewrite <- E3, <- E4, !Rmult_0_l. reflexivity.
  - destruct (half_plane z w) as [rho [psi [Hp [Ez Ew]]]].
    assert (Hq : z ^ 2 + w ^ 2 = rho ^ 2).
    { rewrite Ez, Ew. pose proof (cos2_sin2 psi) as Hc. replace ((rho * cos psi) ^ 2 + (rho * sin psi) ^ 2) with (rho ^ 2 * (cos psi ^ 2 + sin psi ^ 2)) by ring. rewrite Hc. ring. }
    rewrite Hq in *. destruct (polar2 (a - R0) rho r ltac:(lra)) as [theta [Ht [E1 E2]]].
    exists theta, (2 * psi). split; [exact Ht|]. split; [lra|]. unfold klein_point.
    replace (2 * psi / 2) with psi by field. rewrite <- E1, <- E2. replace (R0 + (a - R0)) with a by ring. rewrite <- Ez, <- Ew.
    destruct (half_angle (2 * psi)) as [Hc Hs]. replace (2 * psi / 2) with psi in * by field.
    assert (Ex : a * cos (2 * psi) = x).
    { apply (Rmult_eq_reg_l (rho ^ 2)); [|exact Hn]. rewrite Hc, <- H2, Ez, Ew. ring. }
    assert (Ey : a * sin (2 * psi) = y).
    { apply (Rmult_eq_reg_l (rho ^ 2)); [|exact Hn]. rewrite Hs, <- H3, Ez, Ew. ring. }
    rewrite Ex, Ey. reflexivity.
Qed.

(** * A generator reading an arbitrary stream *)
Definition stream_rng (f : nat -> R) : rng :=
  mkRng nat (fun _ => 0%nat) (fun k n => (map f (seq k n), (k + n)%nat)) (fun k n => (map f (seq k n), (k + n)%nat)).
Lemma stream_ok f : (forall k, 0 <= f k < 1) -> rng_ok (stream_rng f).
Proof.
  intros H st n. cbn. rewrite map_length, seq_length. split; [reflexivity|]. split; [|reflexivity].
  apply Forall_forall. intros u Hu. apply in_map_iff in Hu. destruct Hu as [k [<- _]]. apply H.
Qed.

(** * Normalisation and distances *)
Lemma normalise_nonzero d v : length v = d -> inner d v v <> 0 -> exists w, normalise v = Some w /\ direction d v w.
Proof.
  intros Hl Hn. pose proof (inner_nonneg d v) as Hp. set (t := sqrt (inner d v v)).
  assert (Ht : 0 < t) by (apply sqrt_lt_R0; lra). assert (Htt : t * t = inner d v v) by (apply sqrt_sqrt; exact Hp).
  assert (D : direction d v (map (Rmult (/ t)) v)).
  { split.
    - split; [rewrite map_length; exact Hl|]. rewrite inner_scale_both, <- Htt. field. lra.
    - exists t. split; [exact Ht|]. rewrite map_map. rewrite (map_ext _ (fun x => x)); [symmetry; apply map_id|]. intros x. field. lra. }
  exists (map (Rmult (/ t)) v). split; [apply (normalise_direction d); exact D|exact D].
Qed.
Lemma inner2 u v : inner 2 u v = nth 0 u 0 * nth 0 v 0 + nth 1 u 0 * nth 1 v 0.
Proof. unfold inner. cbn [sumn]. ring. Qed.
Lemma euclid2 u v : euclid 2 u v = sqrt ((nth 0 u 0 - nth 0 v 0) ^ 2 + (nth 1 u 0 - nth 1 v 0) ^ 2).
Proof. unfold euclid. cbn [sumn]. f_equal. ring. Qed.
Lemma vnorm_vsub2 x y : length x = 2%nat -> length y = 2%nat -> vnorm (vsub x y) = euclid 2 x y.
Proof.
  intros Hx Hy. destruct x as [|a [|b [|? ?]]]; try discriminate. destruct y as [|c [|e [|? ?]]]; try discriminate.
  rewrite euclid2. unfold vnorm, vsub, vdot. cbn. f_equal. ring.
Qed.

(** * The Moore space *)
Lemma rot_power theta k : mat2_power (rot_mat theta) k = rot_mat (INR k * theta).
Proof.
  induction k as [|k IH].
  - cbn [mat2_power INR]. unfold rot_mat. rewrite Rmult_0_l, cos_0, sin_0, Ropp_0. reflexivity.
  - cbn [mat2_power]. rewrite IH, S_INR. replace ((INR k + 1) * theta) with (theta + INR k * theta) by ring.
    unfold mat2_mul, rot_mat. rewrite cos_plus, sin_plus. apply (f_equal2 pair); apply (f_equal2 pair); ring.
Qed.
Lemma rot_apply theta v : mat2_apply (rot_mat theta) v = rotated theta v.
Proof. unfold mat2_apply, rot_mat, rotated. f_equal. ring. Qed.
Lemma fold_min l : forall x, In (fold_left Rmin l x) (x :: l) /\ forall y, In y (x :: l) -> fold_left Rmin l x <= y.
Proof.
  induction l as [|a l IH]; intros x; cbn [fold_left].
  - split; [left; reflexivity|]. intros y [<-|[]]. lra.
  - destruct (IH (Rmin x a)) as [H1 H2]. split.
    + destruct H1 as [E|H1]; [|right; right; exact H1]. rewrite <- E. unfold Rmin. destruct (Rle_dec x a); [left|right; left]; reflexivity.
    + intros y [<-|[<-|Hy]].
      * apply Rle_trans with (Rmin x a); [apply H2; left; reflexivity|apply Rmin_l].
      * apply Rle_trans with (Rmin x a); [apply H2; left; reflexivity|apply Rmin_r].
      * apply H2. right. exact Hy.
Qed.
Lemma moore_entry_spec q x y : (1 <= q)%Z -> length x = 2%nat -> length y = 2%nat -> inner 2 x x <> 0 ->
  exists d, moore_entry (rot_mat (2 * PI / IZR q)) q x y = Ok (Some d) /\ moore_distance q x y d.
Proof.
  intros Hq Hx Hy Hn. destruct (normalise_nonzero 2 x Hx Hn) as [b [Eb Db]].
  assert (Hb : length b = 2%nat) by apply Db.
  unfold moore_entry. rewrite Eb.
  set (f := fun i => vnorm (vsub (mat2_apply (mat2_power (rot_mat (2 * PI / IZR q)) i) b) y)).
  assert (Ef : forall i, f i = euclid 2 (rotated (INR i * (2 * PI / IZR q)) b) y).
  { intros i. unfold f. rewrite rot_power, rot_apply. apply vnorm_vsub2; [reflexivity|exact Hy]. }
  assert (Hm : exists m, min_list (map f (seq 0 (Z.to_nat q))) = Ok m /\ (exists i, (i < Z.to_nat q)%nat /\ m = f i) /\ forall i, (i < Z.to_nat q)%nat -> m <= f i).
  { destruct (Z.to_nat q) as [|k] eqn:Ek; [lia|]. cbn [seq map min_list]. eexists. split; [reflexivity|].
    change (f 0%nat :: map f (seq 1 k)) with (map f (seq 0 (S k))). 
    destruct (fold_min (map f (seq 1 k)) (f 0%nat)) as [H1 H2].
    change (f 0%nat :: map f (seq 1 k)) with (map f (seq 0 (S k))) in H1, H2. split.
    - apply in_map_iff in H1. destruct H1 as [i [E Hi]]. apply in_seq in Hi. exists i. split; [lia|symmetry; exact E].
    - intros i Hi. apply H2. apply in_map. apply in_seq. lia. }
  destruct Hm as [m [Em [[i0 [Hi0 Ei0]] Hle]]]. rewrite Em. cbn [bind]. eexists. split; [reflexivity|].
  rewrite (vnorm_vsub2 x y Hx Hy), (vnorm_vsub2 x b Hx Hb). split.
  - unfold Rmin. destruct (Rle_dec (euclid 2 x y) (euclid 2 x b + m)); [left; reflexivity|]. right. exists b, (Z.of_nat i0).
    split; [exact Db|]. split; [lia|]. rewrite <- INR_IZR_INZ, <- Ef, Ei0. reflexivity.
  - intros d' [->|[b' [i [Db' [Hi ->]]]]]; [apply Rmin_l|].
    apply Rle_trans with (euclid 2 x b + m); [apply Rmin_r|].
    assert (b' = b) by (apply normalise_direction in Db'; congruence). subst b'. apply Rplus_le_compat_l.
    specialize (Hle (Z.to_nat i) ltac:(lia)). rewrite Ef in Hle. rewrite INR_IZR_INZ, Z2Nat.id in Hle by lia. exact Hle.
Qed.
Lemma moore_distance_unique q x y d d' : moore_distance q x y d -> moore_distance q x y d' -> d = d'.
Proof. intros [H1 H2] [H3 H4]. apply Rle_antisym; auto. Qed.

Lemma cos_below a t : 0 <= a <= PI -> a <= t <= 2 * PI - a -> cos t <= cos a.
Proof.
  intros Ha Ht. destruct (Rle_lt_dec t PI) as [H|H]; [apply cos_decr_1; lra|].
  replace t with (- (2 * PI - t) + 2 * INR 1 * PI) by (cbn; ring). rewrite cos_period, cos_neg. apply cos_decr_1; lra.
Qed.
Lemma cos_below_strict a t : 0 <= a <= PI -> a < t < 2 * PI - a -> cos t < cos a.
Proof.
  intros Ha Ht. destruct (Rle_lt_dec t PI) as [H|H]; [apply cos_decreasing_1; lra|].
  replace t with (- (2 * PI - t) + 2 * INR 1 * PI) by (cbn; ring). rewrite cos_period, cos_neg. apply cos_decreasing_1; lra.
Qed.
Definition asym_y (q : Z) : list R := let al := 5 * (PI / (2 * IZR q)) in [- (1 / 2 * cos al); - (1 / 2 * sin al)].
Lemma moore_asymmetric q d1 d2 : (2 <= q)%Z ->
  moore_distance q [-1; 0] (asym_y q) d1 -> moore_distance q (asym_y q) [-1; 0] d2 -> d1 < d2.
Proof.
  intros Hq H1 H2. set (a := PI / (2 * IZR q)). pose proof PI_RGT_0 as HPI.
  assert (HqR : 2 <= IZR q) by (apply (IZR_le 2); exact Hq).
  assert (Ha : 0 < a <= PI / 4).
  { unfold a. split; [apply Rdiv_lt_0_compat; lra|]. apply Rmult_le_compat_l; [lra|]. apply Rinv_le_contravar; lra. }
  assert (Hbeta : 2 * PI / IZR q = 4 * a) by (unfold a; field; lra).
  assert (H2pi : 4 * a * IZR q = 2 * PI) by (unfold a; field; lra).
  set (L := sqrt (5 / 4 - cos a)). pose proof (COS_bound a) as Hca.
  assert (Hca1 : cos a < 1) by (rewrite <- cos_0; apply cos_decreasing_1; lra).
  assert (L1 : d1 <= L).
  { apply H1. right. exists [-1; 0], 1%Z. split; [apply unit_direction; split; [reflexivity|unfold inner; cbn; ring]|]. split; [lia|].
    rewrite (proj2 (euclid_zero 2 [-1; 0] [-1; 0] eq_refl eq_refl) eq_refl), Rplus_0_l.
    rewrite euclid2, Hbeta. unfold rotated, asym_y. cbv zeta. fold a. cbn [nth]. unfold L. f_equal.
    replace a with (5 * a - 4 * a) at 1 by ring. rewrite cos_minus.
    pose proof (cos2_sin2 (1 * (4 * a))) as Q1. pose proof (cos2_sin2 (5 * a)) as Q2. rewrite Rmult_1_l in *.
    transitivity ((cos (4 * a) ^ 2 + sin (4 * a) ^ 2) + (cos (5 * a) ^ 2 + sin (5 * a) ^ 2) / 4 - (cos (5 * a) * cos (4 * a) + sin (5 * a) * sin (4 * a))); [|field].
    rewrite Q1, Q2. field. }
  apply Rle_lt_trans with L; [exact L1|]. clear L1 H1 d1.
  assert (Hdir : direction 2 (asym_y q) [- cos (5 * a); - sin (5 * a)]).
  { split.
    - split; [reflexivity|]. rewrite inner2. cbn [nth]. pose proof (cos2_sin2 (5 * a)). nra.
    - exists (1 / 2). split; [lra|]. unfold asym_y. cbv zeta. fold a. cbn [map]. f_equal; [ring|f_equal; ring]. }
  destruct H2 as [[->|[b [i [Db [Hi ->]]]]] _].
  - rewrite euclid2. unfold asym_y. cbv zeta. fold a. cbn [nth]. unfold L. apply sqrt_lt_1.
    + lra.
    + pose proof (pow2_ge_0 (- (1 / 2 * cos (5 * a)) - -1)). pose proof (pow2_ge_0 (- (1 / 2 * sin (5 * a)) - 0)). lra.
    + assert (Hs : cos (5 * a) < cos a) by (apply cos_below_strict; lra). pose proof (cos2_sin2 (5 * a)). nra.
  - assert (b = [- cos (5 * a); - sin (5 * a)]) by (apply normalise_direction in Db; apply normalise_direction in Hdir; congruence). subst b. clear Db Hdir.
    set (t := 5 * a + IZR i * (4 * a)).
    assert (Hct : cos t <= cos a).
    { assert (HiR : 0 <= IZR i <= IZR q - 1).
      { split; [apply (IZR_le 0); lia|]. rewrite <- minus_IZR. apply IZR_le. lia. }
      destruct (Z.eq_dec i (q - 1)) as [->|Hne].
      - unfold t. rewrite minus_IZR. replace (5 * a + (IZR q - 1) * (4 * a)) with (a + 4 * a * IZR q) by ring. rewrite H2pi.
        replace (a + 2 * PI) with (a + 2 * INR 1 * PI) by (cbn; ring). rewrite cos_period. lra.
      - assert (HiR2 : IZR i <= IZR q - 2) by (rewrite <- minus_IZR; apply IZR_le; lia).
        apply cos_below; [lra|]. unfold t. split; [nra|]. nra. }
    rewrite !euclid2, Hbeta. unfold rotated, asym_y. cbv zeta. fold a. cbn [nth].
    replace ((- (1 / 2 * cos (5 * a)) - - cos (5 * a)) ^ 2 + (- (1 / 2 * sin (5 * a)) - - sin (5 * a)) ^ 2) with ((1 / 2) ^ 2 * (cos (5 * a) ^ 2 + sin (5 * a) ^ 2)) by field.
    rewrite cos2_sin2, Rmult_1_r, sqrt_pow2 by lra.
    assert (E2 : (cos (IZR i * (4 * a)) * - cos (5 * a) - sin (IZR i * (4 * a)) * - sin (5 * a) - -1) ^ 2 +
       (sin (IZR i * (4 * a)) * - cos (5 * a) + cos (IZR i * (4 * a)) * - sin (5 * a) - 0) ^ 2 = 2 - 2 * cos t).
    { assert (Ec : cos (IZR i * (4 * a)) * - cos (5 * a) - sin (IZR i * (4 * a)) * - sin (5 * a) = - cos t) by (unfold t; rewrite cos_plus; ring).
      assert (Es : sin (IZR i * (4 * a)) * - cos (5 * a) + cos (IZR i * (4 * a)) * - sin (5 * a) = - sin t) by (unfold t; rewrite sin_plus; ring).
      rewrite Ec, Es. pose proof (cos2_sin2 t). nra. }
    rewrite E2. set (S := sqrt (2 - 2 * cos t)).
    assert (HS : S * S = 2 - 2 * cos t) by (apply sqrt_sqrt; lra). assert (HSp : 0 <= S) by apply sqrt_pos.
    unfold L. assert (HLL : L * L = 5 / 4 - cos a) by (apply sqrt_sqrt; lra). assert (HLp : 0 <= L) by apply sqrt_pos. fold L.
    destruct (Rlt_le_dec L (1 / 2 + S)) as [H|H]; [exact H|]. exfalso.
    assert ((1 / 2 + S) * (1 / 2 + S) <= L * L) by (apply Rmult_le_compat; lra). nra.
Qed.
Lemma asym_y_facts q : inner 2 (asym_y q) (asym_y q) = 1 / 4.
Proof. rewrite inner2. unfold asym_y. cbn [nth]. pose proof (cos2_sin2 (5 * (PI / (2 * IZR q)))). nra. Qed.
