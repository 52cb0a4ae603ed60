(** PlotProofs.v -- lemmas about the plotting utilities. *)
From Coq Require Import List ZArith Reals Lia Lra Psatz.
From Verif Require Import Base BaseProofs RealBase RealSum SpecEM EMModel EMProofs LLLModel SpecLLL LLLProofs SpecMapUtils MapUtilsModel MapUtilsProofs GeometryModel SpecGeometry GeometryProofs ExamplesModel SpecExamples ExamplesProofs PlotModel SpecPlot.
Import ListNotations.
Local Open Scope R_scope.

Lemma Int_part_spec x k : IZR k <= x < IZR k + 1 -> Int_part x = k.
Proof.
  intros H. pose proof (base_Int_part x) as [H1 H2]. apply IZR_eq_of_close. apply Rabs_def1; lra.
Qed.
Lemma int_sqrt_square d : int_sqrt (d * d) = Z.of_nat d.
Proof.
  unfold int_sqrt. rewrite mult_INR, sqrt_square by apply pos_INR. apply Int_part_spec. rewrite <- INR_IZR_INZ. lra.
Qed.
Lemma int_sqrt_spec m : exists d, int_sqrt m = Z.of_nat d /\ (d * d <= m < (d + 1) * (d + 1))%nat.
Proof.
  exists (Nat.sqrt m). pose proof (Nat.sqrt_spec m (Nat.le_0_l m)) as [H1 H2]. rewrite <- Nat.add_1_r in H2. split; [|lia].
  unfold int_sqrt. apply Int_part_spec. rewrite <- INR_IZR_INZ.
  apply le_INR in H1. apply lt_INR in H2. rewrite !mult_INR in *. rewrite plus_INR in H2. cbn [INR] in H2.
  pose proof (pos_INR (Nat.sqrt m)). split.
  - rewrite <- (sqrt_square (INR (Nat.sqrt m))) by assumption. apply sqrt_le_1; [nra|nra|exact H1].
  - rewrite <- (sqrt_square (INR (Nat.sqrt m) + 1)) by lra. apply sqrt_lt_1; [apply pos_INR|nra|exact H2].
Qed.
Lemma ceil_sqrt_spec n : least_side n (Z.to_nat (ceil_sqrt n)).
Proof.
  unfold ceil_sqrt. pose proof (base_Int_part (- sqrt (INR n))) as [H1 H2]. pose proof (sqrt_pos (INR n)) as H3.
  pose proof (sqrt_sqrt (INR n) (pos_INR n)) as H4. set (s := sqrt (INR n)) in *. set (k := Int_part (- s)) in *.
  assert (Hk : (k <= 0)%Z) by (apply le_IZR; lra).
  set (g := Z.to_nat (- k)). assert (Hg : IZR (- k) = INR g) by (unfold g; rewrite INR_IZR_INZ, Z2Nat.id by lia; reflexivity).
  rewrite opp_IZR in Hg. split.
  - apply INR_le. rewrite mult_INR. nra.
  - intros h Hh. apply le_INR in Hh. rewrite mult_INR in Hh. pose proof (pos_INR h).
    assert (s <= INR h). { destruct (Rle_lt_dec s (INR h)); [assumption|]. nra. }
    assert (INR g < INR (h + 1)) by (rewrite plus_INR; cbn [INR]; lra). apply INR_lt in H5. lia.
Qed.
Lemma least_side_unique n g g' : least_side n g -> least_side n g' -> g = g'.
Proof. intros [H1 H2] [H3 H4]. specialize (H2 _ H3). specialize (H4 _ H1). lia. Qed.


Lemma nth_meshgrid (f : nat -> nat -> R) g k : (k < g * g)%nat -> nth k (concat (mk2 g g f)) 0 = f (k / g)%nat (k mod g)%nat.
Proof.
  intros H. assert (Hg : g <> 0%nat) by (intros ->; lia). pose proof (Nat.mod_upper_bound k g Hg).
  assert (Hq : (k / g < g)%nat) by (apply Nat.div_lt_upper_bound; lia).
  replace k with (k / g * g + k mod g)%nat at 1 by (rewrite Nat.mul_comm; symmetry; apply Nat.div_mod; exact Hg).
  rewrite (concat_nth 0 _ g); [|rewrite mk2_eq; apply mk1_Forall; intros; apply mk1_length|rewrite mk2_eq, mk1_length; exact Hq|assumption].
  rewrite mk2_eq, mk1_nth by exact Hq. apply mk1_nth. assumption.
Qed.
Lemma meshgrid_length (f : nat -> nat -> R) g : length (concat (mk2 g g f)) = (g * g)%nat.
Proof.
  rewrite (concat_length _ g); [rewrite mk2_eq, mk1_length; reflexivity|rewrite mk2_eq; apply mk1_Forall; intros; apply mk1_length].
Qed.
Lemma nth_firstn_lt {A} (l : list A) n k d : (k < n)%nat -> nth k (firstn n l) d = nth k l d.
Proof. revert n k. induction l as [|a l IH]; intros [|n] [|k] H; cbn; try reflexivity; try lia. apply IH. lia. Qed.

Lemma reshape_ok dim v : (0 <= dim)%Z -> Z.of_nat (length v) = (dim * dim)%Z ->
  exists patch, reshape_square dim v = Ok patch /\ picture (Z.to_nat dim) v patch.
Proof.
  intros H1 H2. unfold reshape_square. replace (0 <=? dim)%Z with true by (symmetry; apply Z.leb_le; exact H1).
  replace (Z.of_nat (length v) =? dim * dim)%Z with true by (symmetry; apply Z.eqb_eq; exact H2). cbn [andb].
  eexists. split; [reflexivity|]. split; [apply CircleProofs.matrix_mk2|]. intros i j Hi Hj. rewrite at2_mk2 by assumption. reflexivity.
Qed.
Lemma reshape_bad dim v : (dim < 0)%Z \/ Z.of_nat (length v) <> (dim * dim)%Z -> reshape_square dim v = Raise ValueError.
Proof.
  intros H. unfold reshape_square. destruct ((0 <=? dim)%Z && (Z.of_nat (length v) =? dim * dim)%Z)%bool eqn:E; [|reflexivity].
  apply andb_prop in E. destruct E as [E1 E2]. apply Z.leb_le in E1. apply Z.eqb_eq in E2. lia.
Qed.

Lemma extremes_of (l : list R) : l <> [] -> exists lo hi, np_min l = Ok lo /\ np_max l = Ok hi /\ extremes l lo hi.
Proof.
  intros H. destruct (np_min_ok l H) as [lo [E1 [I1 M1]]]. destruct (np_max_ok l H) as [hi [E2 [I2 M2]]].
  exists lo, hi. split; [exact E1|]. split; [exact E2|]. split; [exact I1|]. split; [exact I2|].
  apply Forall_forall. intros y Hy. split; [apply M1, Hy|apply M2, Hy].
Qed.

(** The loop, up to the first position that is missing. *)
Lemma imscatter_loop_ok X P dim lo hi : (0 <= dim)%Z ->
  forall len a, (a + len <= length P)%nat -> (a + len <= length X)%nat ->
  (forall k, (a <= k < a + len)%nat -> Z.of_nat (length (nth k P [])) = (dim * dim)%Z /\ exists x y, nth k X [] = [x; y]) ->
  exists images, imscatter_loop X P dim lo hi (seq a len) = (images, Ok tt) /\ length images = len /\
    forall k, (k < len)%nat -> exists patch x y, picture (Z.to_nat dim) (nth (a + k) P []) patch /\ nth (a + k) X [] = [x; y] /\
      nth k images Warning = Image patch x y lo hi.
Proof.
  intros Hd. induction len as [|len IH]; intros a HP HX H.
  - exists []. cbn. split; [reflexivity|]. split; [reflexivity|]. intros k Hk. lia.
  - destruct (IH (S a)) as [images [E [L N]]]; [lia|lia|intros k Hk; apply H; lia|].
    destruct (H a ltac:(lia)) as [Hl [x [y Hxy]]]. destruct (reshape_ok dim _ Hd Hl) as [patch [Ep Hp]].
    exists (Image patch x y lo hi :: images). split; [|split; [cbn; lia|]].
    + cbn [seq imscatter_loop]. rewrite E. unfold imscatter_step. rewrite Ep.
      rewrite (nth_error_nth' X [] (n := a)) by lia. rewrite Hxy. reflexivity.
    + intros [|k] Hk.
      * rewrite Nat.add_0_r. exists patch, x, y. auto.
      * destruct (N k ltac:(lia)) as [p' [x' [y' Hk']]]. exists p', x', y'. replace (a + S k)%nat with (S a + k)%nat by lia. exact Hk'.
Qed.
Lemma loop_app X P dim lo hi is is' : 
  imscatter_loop X P dim lo hi (is ++ is') = and_then (imscatter_loop X P dim lo hi is) (imscatter_loop X P dim lo hi is').
Proof.
  induction is as [|i is IH]; cbn [imscatter_loop app].
  - unfold nothing, and_then. cbn. destruct (imscatter_loop X P dim lo hi is'). reflexivity.
  - rewrite IH. destruct (imscatter_step X P dim lo hi i) as [r [[]|e]]; [|reflexivity].
    unfold and_then. cbn [fst snd]. destruct (imscatter_loop X P dim lo hi is) as [r' [[]|e]]; cbn [fst snd]; [rewrite app_assoc|]; reflexivity.
Qed.

Lemma linspace_ends a b n : (2 <= n)%nat -> nth 0 (linspace a b n) 0 = a /\ nth (n - 1) (linspace a b n) 0 = b.
Proof.
  intros H. unfold linspace. rewrite !mk1_nth by lia. replace (n =? 1)%nat with false by (symmetry; apply Nat.eqb_neq; lia).
  split; [cbn [INR]; ring|]. field. apply not_0_INR. lia.
Qed.
Lemma drawn_circle_closed cx : closed_polygon cx (drawn_circle cx).
Proof.
  split.
  - apply Forall_forall. intros p Hp. apply in_map_iff in Hp. destruct Hp as [t [<- _]]. exists (cos t + cx), (sin t). split; [reflexivity|].
    pose proof (sin2_cos2 t) as S. unfold Rsqr in S. replace (cos t + cx - cx) with (cos t) by ring. nra.
  - exists [1 + cx; 0]. destruct (linspace_ends 0 (2 * PI) 200 ltac:(lia)) as [H1 H2].
    assert (L : length (linspace 0 (2 * PI) 200) = 200%nat) by apply mk1_length.
    unfold drawn_circle. destruct (linspace 0 (2 * PI) 200) as [|t0 l] eqn:E; [discriminate|]. split.
    + cbn [nth] in H1. subst t0. cbn [map hd_error]. rewrite cos_0, sin_0. reflexivity.
    + rewrite <- E in *. assert (Hn : forall (l : list R) f, l <> [] -> last (map f l) ([] : list R) = f (last l 0)).
      { clear. induction l as [|a [|b l] IH]; intros f Hl; [congruence|reflexivity|]. change (last (map f (a :: b :: l)) []) with (last (map f (b :: l)) []). apply IH. discriminate. }
      rewrite Hn; [|rewrite E; discriminate]. rewrite last_nth, L, H2, cos_2PI, sin_2PI. reflexivity.
Qed.

Lemma Rabs_between x y : Rabs x <= y -> - y <= x <= y.
Proof. unfold Rabs. destruct (Rcase_abs x); lra. Qed.
Lemma rint_mono a b : a <= b -> (rint a <= rint b)%Z.
Proof.
  intros H. destruct (Z.le_gt_cases (rint a) (rint b)) as [L|L]; [exact L|exfalso].
  pose proof (rint_near a) as Ha. pose proof (rint_near b) as Hb. apply Rabs_between in Ha. apply Rabs_between in Hb.
  assert (Hz : IZR (rint b) + 1 <= IZR (rint a)) by (rewrite <- plus_IZR; apply IZR_le; lia).
  assert (a = b) by lra. subst b. lia.
Qed.
