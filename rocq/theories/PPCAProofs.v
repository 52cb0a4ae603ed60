(** PPCAProofs.v -- lemmas about EquivariantPCA.ppca. *)
From Verif Require Import Base BaseProofs SpecEM ComplexBase PPCAModel SpecPPCA.
Local Open Scope R_scope.

Notation point := (list (option C)).

(** The reductions that follow one another: at each stage the points are replaced by their
    normalized components along the first [k] eigenvectors. *)
Definition reduce (eigh : eigh_fn) (ks : list Z) (st : nat * list (list (option C))) : nat * list (list (option C)) :=
  fold_left (fun st k => one_step eigh k st) ks st.

(** At the stage reached after [pre], the components of row [b] along the [k] kept
    eigenvectors are all zero. *)
Definition vanishes0 (eigh : eigh_fn) (st : nat * list (list (option C))) (b : nat) (pre : list Z) (k : Z) : Prop :=
  let st' := reduce eigh pre st in
  forall u, In u (slice_to k (eigenvectors eigh (fst st') (snd st'))) ->
    cdot_nan (map (option_map conj) u) (nth b (snd st') []) = Some c0.

Definition scale (lam : C) (x : point) : point := map (option_map (cmul lam)) x.

Lemma rows_scale lams X : scale_rows lams X = map (fun p => scale (fst p) (snd p)) (combine lams X).
Proof. reflexivity. Qed.

Lemma csum_scale lam l : csum_nan (map (option_map (cmul lam)) l) = option_map (cmul lam) (csum_nan l).
Proof.
  unfold csum_nan; induction l as [|a l IH]; cbn [map fold_right].
  - cbn [option_map]; f_equal; ring.
  - rewrite IH. destruct a as [a|]; [|reflexivity]. destruct (fold_right _ _ l) as [s|]; cbn [option_map nan2]; [f_equal; ring|reflexivity].
Qed.
Lemma cdot_scale lam u x : cdot_nan u (scale lam x) = option_map (cmul lam) (cdot_nan u x).
Proof.
  unfold cdot_nan. rewrite <- csum_scale. f_equal. rewrite map_map. revert x; induction u as [|a u IH]; intros [|b x]; try reflexivity.
  cbn [scale map combine fst snd]. f_equal; [|apply IH]. destruct a, b; cbn; try reflexivity. f_equal; ring.
Qed.
Lemma rotate_scale U lam x : rotate U (scale lam x) = scale lam (rotate U x).
Proof. unfold rotate, scale at 2. rewrite map_map. apply map_ext; intros u; apply cdot_scale. Qed.
Lemma slice_scale k lam x : slice_to k (scale lam x) = scale lam (slice_to k x).
Proof. unfold slice_to, scale. rewrite map_length, !firstn_map. destruct (_ <? _)%Z; reflexivity. Qed.
Lemma norm2_scale lam x : cabs2 lam = 1 -> norm2_nan (scale lam x) = norm2_nan x.
Proof.
  intros H. unfold norm2_nan, scale; rewrite map_map. f_equal. apply map_ext. intros [z|]; [|reflexivity]. cbn [option_map].
  rewrite cabs2_mul, H, Rmult_1_l; reflexivity.
Qed.
Lemma normalize_scale lam x : cabs2 lam = 1 -> normalize (scale lam x) = scale lam (normalize x).
Proof.
  intros H. unfold normalize. rewrite norm2_scale by exact H. destruct (norm2_nan x) as [s|].
  - destruct (Reqb _ _); unfold scale; rewrite !map_map; apply map_ext; [reflexivity|]. intros [z|]; [|reflexivity].
    cbn [option_map]. f_equal. csolve.
  - unfold scale; rewrite !map_map; reflexivity.
Qed.
Definition unit_scalars (lams : list C) : Prop := Forall (fun l => cabs2 l = 1) lams.
Lemma nth_scale lam x i : nth i (scale lam x) None = option_map (cmul lam) (nth i x None).
Proof. exact (map_nth (option_map (cmul lam)) x None i). Qed.
Lemma gram_scale d lams X : length lams = length X -> unit_scalars lams -> gram_of d (scale_rows lams X) = gram_of d X.
Proof.
  intros L F. unfold gram_of.
  assert (E : forall i j, map (fun x : point => nan2 cmul (nth i x None) (option_map conj (nth j x None))) (scale_rows lams X) =
    map (fun x : point => nan2 cmul (nth i x None) (option_map conj (nth j x None))) X).
  { intros i j. revert X L; induction F as [|lam lams Hl F IH]; intros [|x X] L; try discriminate L; [reflexivity|].
    injection L as L. unfold scale_rows in *; cbn [combine map fst snd]. rewrite IH by exact L. f_equal.
    change (map (option_map (cmul lam)) x) with (scale lam x). rewrite !nth_scale. destruct (nth i x None) as [a|], (nth j x None) as [b|]; try reflexivity.
    cbn [option_map nan2]. f_equal. rewrite conj_mul. transitivity (cmul (cmul lam (conj lam)) (cmul a (conj b))); [ring|]. rewrite conj_unit by exact Hl. ring. }
  unfold mk2. unfold mk1. apply map_ext; intros i. apply map_ext; intros j. rewrite E; reflexivity.
Qed.
Lemma map_rows (h : point -> point) lams X : (forall lam x, In lam lams -> h (scale lam x) = scale lam (h x)) ->
  map h (scale_rows lams X) = scale_rows lams (map h X).
Proof.
  revert X; induction lams as [|lam lams IH]; intros [|x X] H; try reflexivity.
  unfold scale_rows; cbn [combine map fst snd]. f_equal; [apply H; left; reflexivity|]. apply IH; intros; apply H; right; assumption.
Qed.
Lemma scale_rows_length lams X : length lams = length X -> length (scale_rows lams X) = length X.
Proof. intros L; unfold scale_rows; rewrite map_length, combine_length; lia. Qed.

Lemma step_scale eigh k lams d X : length lams = length X -> unit_scalars lams ->
  one_step eigh k (d, scale_rows lams X) = (fst (one_step eigh k (d, X)), scale_rows lams (snd (one_step eigh k (d, X)))).
Proof.
  intros L F. unfold one_step; cbn [fst snd]. assert (E : eigenvectors eigh d (scale_rows lams X) = eigenvectors eigh d X).
  { unfold eigenvectors; rewrite gram_scale by assumption; reflexivity. }
  rewrite E. f_equal. apply map_rows. intros lam x Hl. unfold unit_scalars in F; rewrite Forall_forall in F.
  rewrite rotate_scale, slice_scale, normalize_scale by (apply F; exact Hl). reflexivity.
Qed.
Lemma step_length eigh k st : length (snd (one_step eigh k st)) = length (snd st).
Proof. unfold one_step; cbn [snd]; apply map_length. Qed.
Lemma halving_scale eigh total lams : unit_scalars lams -> forall fuel k d X, length lams = length X ->
  halving fuel eigh total k (d, scale_rows lams X) =
  match halving fuel eigh total k (d, X) with Ok st => Ok (fst st, scale_rows lams (snd st)) | Raise e => Raise e end.
Proof.
  intros F fuel; induction fuel as [|fuel IH]; intros k d X L; cbn [halving]; destruct (0 <? k)%Z; try reflexivity.
  rewrite step_scale by assumption. pose proof (step_length eigh (total + k) (d, X)) as SL. destruct (one_step eigh (total + k) (d, X)) as [d' X'].
  cbn [fst snd] in *. apply IH. congruence.
Qed.
Lemma halving_length eigh total : forall fuel k st st', halving fuel eigh total k st = Ok st' -> length (snd st') = length (snd st).
Proof.
  intros fuel; induction fuel as [|fuel IH]; intros k st st'; cbn [halving]; destruct (0 <? k)%Z; try discriminate.
  - intros E; injection E as <-; reflexivity.
  - intros E. rewrite (IH _ _ _ E). apply step_length.
  - intros E; injection E as <-; reflexivity.
Qed.

Lemma cabs_scale lam z : cabs2 lam = 1 -> cabs (cmul lam z) = cabs z.
Proof. intros H; unfold cabs; rewrite cabs2_mul, H, Rmult_1_l; reflexivity. Qed.
Lemma variance_scale U lams X : length lams = length X -> unit_scalars lams -> step_variance U (scale_rows lams X) = step_variance U X.
Proof.
  intros L F. unfold step_variance. f_equal. revert X L; induction F as [|lam lams Hl F IH]; intros [|x X] L; try discriminate L; [reflexivity|].
  injection L as L. unfold scale_rows in *; cbn [combine map fst snd]. rewrite IH by exact L. f_equal.
  change (map (option_map (cmul lam)) x) with (scale lam x). rewrite cdot_scale. destruct (cdot_nan _ x); [|reflexivity]. cbn [option_map].
  rewrite cabs_scale by exact Hl; reflexivity.
Qed.
Definition scale_state (lams : list C) (st : loop_state) : loop_state :=
  let '(d, X, XRet, variance) := st in (d, scale_rows lams X, option_map (scale_rows lams) XRet, variance).
Lemma turn_scale eigh n p i lams st : unit_scalars lams -> length lams = length (snd (fst (fst st))) ->
  one_by_one_turn eigh n p i (scale_state lams st) =
  match one_by_one_turn eigh n p i st with Ok st' => Ok (scale_state lams st') | Raise e => Raise e end.
Proof.
  intros F L. destruct st as [[[d X] XRet] variance]; cbn [fst snd] in L. unfold one_by_one_turn, scale_state.
  assert (E : eigenvectors eigh d (scale_rows lams X) = eigenvectors eigh d X).
  { unfold eigenvectors; rewrite gram_scale by assumption; reflexivity. }
  rewrite E, variance_scale by assumption.
  destruct (if (i <? length variance)%nat then _ else _) as [v|e]; cbn [bind]; [|reflexivity]. f_equal. f_equal. f_equal; [f_equal|].
  - apply map_rows. intros lam x Hl. unfold unit_scalars in F; rewrite Forall_forall in F.
    rewrite rotate_scale, slice_scale, normalize_scale by (apply F; exact Hl). reflexivity.
  - destruct (_ =? _)%Z; reflexivity.
Qed.
Lemma turn_length eigh n p i st st' : one_by_one_turn eigh n p i st = Ok st' -> length (snd (fst (fst st'))) = length (snd (fst (fst st))).
Proof.
  destruct st as [[[d X] XRet] variance]; unfold one_by_one_turn. destruct (if (i <? length variance)%nat then _ else _) as [v|e]; cbn [bind]; [|discriminate].
  intros E; injection E as <-; cbn [fst snd]; apply map_length.
Qed.
Lemma loop_scale eigh n p lams : unit_scalars lams -> forall is st, length lams = length (snd (fst (fst st))) ->
  for_in is (one_by_one_turn eigh n p) (scale_state lams st) =
  match for_in is (one_by_one_turn eigh n p) st with Ok st' => Ok (scale_state lams st') | Raise e => Raise e end.
Proof.
  intros F is; induction is as [|i is IH]; intros st L; cbn [for_in]; [reflexivity|].
  rewrite turn_scale by assumption. destruct (one_by_one_turn _ _ _ i st) as [st'|e] eqn:E; cbn [bind]; [|reflexivity].
  apply IH. rewrite (turn_length _ _ _ _ _ _ E). exact L.
Qed.

(** ** Shapes *)
Definition shaped (d : nat) (X : list point) : Prop := Forall (fun x => length x = d) X.
Lemma mk2_matrix {A} n m (f : nat -> nat -> A) : matrix n m (mk2 n m f).
Proof.
  unfold mk2; split; [rewrite map_length, seq_length; reflexivity|]. rewrite Forall_map. apply Forall_forall; intros; rewrite map_length, seq_length; reflexivity.
Qed.
Lemma eigen_matrix eigh d X : eigh_shape eigh -> matrix d d (eigenvectors eigh d X).
Proof.
  intros H; unfold eigenvectors. destruct (eigh _) as [U|] eqn:E; [|apply mk2_matrix].
  destruct (H d _ U (mk2_matrix _ _ _) E) as [L F]. split; [rewrite rev_length; exact L|apply Forall_rev; exact F].
Qed.
Lemma slice_length {A} k (l : list A) : (0 <= k)%Z -> length (slice_to k l) = Nat.min (Z.to_nat k) (length l).
Proof. intros H; unfold slice_to. destruct (Z.ltb_spec k 0); [lia|]. apply firstn_length. Qed.
Lemma slice_length1 {A} (l : list A) : length (slice_to (-1) l) = (length l - 1)%nat.
Proof. unfold slice_to. change (-1 <? 0)%Z with true; cbv iota. rewrite firstn_length; cbn; lia. Qed.
Lemma normalize_length y : length (normalize y) = length y.
Proof. unfold normalize. destruct (norm2_nan y); [destruct (Reqb _ _)|]; apply map_length. Qed.
Lemma slice_rotate k U x : slice_to k (rotate U x) = rotate (slice_to k U) x.
Proof. unfold slice_to, rotate. rewrite map_length, !firstn_map. destruct (_ <? _)%Z; reflexivity. Qed.
Lemma step_shaped eigh k st : shaped (fst (one_step eigh k st)) (snd (one_step eigh k st)).
Proof.
  unfold one_step, shaped; cbn [fst snd]. rewrite Forall_map; apply Forall_forall; intros x _.
  rewrite normalize_length, slice_rotate. apply map_length.
Qed.
Lemma step_dim eigh k st : eigh_shape eigh -> (0 <= k)%Z -> fst (one_step eigh k st) = Nat.min (Z.to_nat k) (fst st).
Proof. intros H Hk; unfold one_step; cbn [fst]. rewrite slice_length by exact Hk. destruct (eigen_matrix eigh (fst st) (snd st) H) as [-> _]; reflexivity. Qed.
Lemma step_dim1 eigh st : eigh_shape eigh -> fst (one_step eigh (-1) st) = (fst st - 1)%nat.
Proof. intros H; unfold one_step; cbn [fst]. rewrite slice_length1. destruct (eigen_matrix eigh (fst st) (snd st) H) as [-> _]; reflexivity. Qed.
Lemma halving_ok eigh total : eigh_shape eigh -> (0 <= total)%Z -> forall fuel k st, (Z.to_nat k <= fuel)%nat -> shaped (fst st) (snd st) ->
  (k <= 0 \/ total <= Z.of_nat (fst st))%Z ->
  exists st', halving fuel eigh total k st = Ok st' /\ shaped (fst st') (snd st') /\
    (k <= 0 -> st' = st)%Z /\ (total <= Z.of_nat (fst st) -> total <= Z.of_nat (fst st'))%Z.
Proof.
  intros H Ht fuel; induction fuel as [|fuel IH]; intros k st Hk Sh Hd; cbn [halving]; destruct (Z.ltb_spec 0 k) as [Hp|Hp].
  - lia.
  - exists st; auto.
  - assert (D : (k / 2 < k)%Z) by (apply Z.div_lt; lia). assert (D0 : (0 <= k / 2)%Z) by (apply Z.div_pos; lia).
    destruct (IH (k / 2)%Z (one_step eigh (total + k) st)) as (st' & E & S' & _ & T'); [lia|apply step_shaped|right; rewrite step_dim by (assumption || lia); lia|].
    exists st'; split; [exact E|]. split; [exact S'|]. split; [lia|]. intros _. apply T'. rewrite step_dim by (assumption || lia); lia.
  - exists st; auto.
Qed.

(** ** The loop of mode one-by-one *)
Definition iterate (eigh : eigh_fn) (st : nat * list point) (i : nat) : nat * list point := Nat.iter i (one_step eigh (-1)) st.
Lemma iterate_dim eigh st i : eigh_shape eigh -> fst (iterate eigh st i) = (fst st - i)%nat.
Proof. intros H; induction i as [|i IH]; [unfold iterate; cbn; lia|]. change (iterate eigh st (S i)) with (one_step eigh (-1) (iterate eigh st i)). rewrite step_dim1, IH by exact H; lia. Qed.
Lemma iterate_shaped eigh st i : shaped (fst st) (snd st) -> shaped (fst (iterate eigh st i)) (snd (iterate eigh st i)).
Proof. intros H; destruct i; [exact H|apply step_shaped]. Qed.
Lemma iterate_length eigh st i : length (snd (iterate eigh st i)) = length (snd st).
Proof. induction i as [|i IH]; [reflexivity|]. change (iterate eigh st (S i)) with (one_step eigh (-1) (iterate eigh st i)). rewrite step_length; exact IH. Qed.
Lemma loop_ok eigh n p cm : let st0 := (n, cm) in forall m, (m <= n - 1)%nat ->
  exists var, for_in (range 0 m) (one_by_one_turn eigh (Z.of_nat n) p) (n, cm, None, repeat (Some 0) (n - 1)) =
    Ok (fst (iterate eigh st0 m), snd (iterate eigh st0 m),
        (if ((0 <=? Z.of_nat n - p - 1) && (Z.of_nat n - p - 1 <? Z.of_nat m))%Z then Some (snd (iterate eigh st0 (Z.to_nat (Z.of_nat n - p - 1)))) else None), var) /\
    length var = (n - 1)%nat /\
    (forall j, (j < m)%nat -> nth_error var (n - 2 - j) = Some (step_variance (eigenvectors eigh (fst (iterate eigh st0 j)) (snd (iterate eigh st0 j))) (snd (iterate eigh st0 j)))).
Proof.
  intros st0 m; induction m as [|m IH]; intros Hm.
  - exists (repeat (Some 0) (n - 1)). split; [|split; [apply repeat_length|intros; lia]]. cbn [range Nat.sub seq for_in iterate Nat.iter st0 fst snd].
    destruct (0 <=? Z.of_nat n - p - 1)%Z eqn:E1; [|reflexivity]. apply Z.leb_le in E1. destruct (Z.ltb_spec (Z.of_nat n - p - 1) (Z.of_nat 0)); [lia|reflexivity].
  - destruct IH as (var & E & Lv & Hv); [lia|].
    assert (R : range 0 (S m) = range 0 m ++ [m]) by (unfold range; rewrite !Nat.sub_0_r, seq_S; reflexivity).
    rewrite R, for_in_app, E. cbn [bind for_in]. unfold one_by_one_turn at 1. rewrite Lv. destruct (Nat.ltb_spec m (n - 1)); [|lia].
    set (it := iterate eigh st0 m) in *.
    destruct (set_at_ok IndexError var (n - 1 - m - 1) (step_variance (eigenvectors eigh (fst it) (snd it)) (snd it)) ltac:(lia))
      as (var' & Es & L' & N1 & N2 & _). rewrite Es.
    cbn [bind]. exists var'. split; [|split].
    + f_equal. f_equal. f_equal.
      destruct (Z.eqb_spec (Z.of_nat m) (Z.of_nat n - p - 1)) as [Eq|Ne].
      * rewrite <- Eq. rewrite Nat2Z.id. destruct (Z.leb_spec 0 (Z.of_nat m)); [|lia]. destruct (Z.ltb_spec (Z.of_nat m) (Z.of_nat (S m))); [|lia]. reflexivity.
      * destruct (Z.leb_spec 0 (Z.of_nat n - p - 1)); [|reflexivity]. cbn [andb].
        destruct (Z.ltb_spec (Z.of_nat n - p - 1) (Z.of_nat m)), (Z.ltb_spec (Z.of_nat n - p - 1) (Z.of_nat (S m))); try lia; reflexivity.
    + lia.
    + intros j Hj. destruct (Nat.eq_dec j m) as [->|Ne].
      * replace (n - 2 - m)%nat with (n - 1 - m - 1)%nat by lia. exact N1.
      * rewrite N2 by lia. apply Hv; lia.
Qed.

(** ** Norms *)
Lemma norm2_some y s : norm2_nan y = Some s -> exists v, y = map Some v /\ s = sumn (length v) (fun k => cabs2 (nth k v c0)).
Proof.
  unfold norm2_nan. revert s; induction y as [|z y IH]; intros s; cbn [map fold_right].
  - intros E; injection E as <-. exists []; split; reflexivity.
  - destruct z as [z|]; [|discriminate]. cbn [option_map]. destruct (fold_right _ _ _) as [s'|]; [|discriminate]. cbn [nan2]. intros E; injection E as <-.
    destruct (IH s' eq_refl) as (v & -> & ->). exists (z :: v). split; [reflexivity|]. cbn [length]. rewrite sumn_first. reflexivity.
Qed.
Lemma norm2_finite v : norm2_nan (map Some v) = Some (sumn (length v) (fun k => cabs2 (nth k v c0))).
Proof.
  unfold norm2_nan; induction v as [|z v IH]; [reflexivity|]. cbn [map fold_right option_map]. rewrite IH. cbn [nan2 length]. rewrite sumn_first. reflexivity.
Qed.
Lemma normalize_finite v : let s := sumn (length v) (fun k => cabs2 (nth k v c0)) in
  normalize (map Some v) = if Req_EM_T s 0 then map (fun _ => None) v else map Some (map (cscale (/ sqrt s)) v).
Proof.
  intros s. unfold normalize. rewrite norm2_finite. fold s.
  assert (Hs : 0 <= s) by (apply sumn_nonneg; intros; apply cabs2_nonneg).
  destruct (Req_EM_T s 0) as [E|E].
  - rewrite E, sqrt_0. assert (Reqb 0 0 = true) as -> by (apply Reqb_true; reflexivity). rewrite map_map; reflexivity.
  - assert (Reqb (sqrt s) 0 = false) as ->.
    { apply Reqb_false. intros Q. apply sqrt_eq_0 in Q; [contradiction|exact Hs]. }
    rewrite !map_map; reflexivity.
Qed.
Lemma unit_normalized v : let s := sumn (length v) (fun k => cabs2 (nth k v c0)) in s <> 0 -> unit_point (map Some (map (cscale (/ sqrt s)) v)).
Proof.
  intros s Hs. exists (map (cscale (/ sqrt s)) v). split; [reflexivity|]. rewrite map_length.
  assert (H0 : 0 <= s) by (apply sumn_nonneg; intros; apply cabs2_nonneg).
  rewrite (sumn_ext _ _ (fun k => / s * cabs2 (nth k v c0))).
  - rewrite sumn_scal. fold s. field; exact Hs.
  - intros k Hk. rewrite (nth_indep _ c0 (cscale (/ sqrt s) c0)) by (rewrite map_length; exact Hk). rewrite map_nth, cabs2_scale. f_equal.
    rewrite <- Rinv_mult, sqrt_sqrt by exact H0. reflexivity.
Qed.
Lemma normalize_cases y : nan_point (normalize y) \/ unit_point (normalize y).
Proof.
  destruct (norm2_nan y) as [s|] eqn:E.
  - destruct (norm2_some y s E) as (v & -> & ->). rewrite normalize_finite. destruct (Req_EM_T _ 0) as [H|H].
    + left. apply Forall_map, Forall_forall; reflexivity.
    + right. apply unit_normalized; exact H.
  - left. unfold normalize. rewrite E. apply Forall_map, Forall_forall; reflexivity.
Qed.
Lemma cdot_none u x : nan_point x -> (1 <= length u)%nat -> (1 <= length x)%nat -> cdot_nan u x = None.
Proof.
  intros H Lu Lx. destruct u as [|a u]; [cbn in Lu; lia|]. destruct x as [|b x]; [cbn in Lx; lia|]. inversion H; subst.
  unfold cdot_nan, csum_nan; cbn [combine map fst snd fold_right]. destruct a; reflexivity.
Qed.
Lemma normalize_nan y : nan_point y -> nan_point (normalize y).
Proof.
  intros H. unfold normalize. destruct y as [|z y]; [cbn; destruct (Reqb _ _); constructor|]. inversion H; subst. cbn.
  constructor; [reflexivity|]. apply Forall_map, Forall_forall; reflexivity.
Qed.
Definition good (x : point) : Prop := nan_point x \/ unit_point x.
Lemma step_good eigh k st : Forall good (snd (one_step eigh k st)).
Proof. unfold one_step; cbn [snd]. rewrite Forall_map. apply Forall_forall; intros; apply normalize_cases. Qed.
Lemma firstn_In' {A} n (l : list A) x : In x (firstn n l) -> In x l.
Proof. intros H. rewrite <- (firstn_skipn n l). apply in_or_app; left; exact H. Qed.
Lemma slice_In {A} k (l : list A) x : In x (slice_to k l) -> In x l.
Proof. unfold slice_to. destruct (_ <? _)%Z; apply firstn_In'. Qed.
Lemma step_nan eigh k st x : eigh_shape eigh -> length x = fst st -> nan_point x ->
  nan_point (normalize (slice_to k (rotate (eigenvectors eigh (fst st) (snd st)) x))).
Proof.
  intros H Hl Hx. apply normalize_nan. rewrite slice_rotate. unfold rotate, nan_point. rewrite Forall_map. apply Forall_forall. intros u Hu.
  destruct (eigen_matrix eigh (fst st) (snd st) H) as [L F]. rewrite Forall_forall in F.
  apply slice_In in Hu. pose proof (F u Hu) as Lu. assert (1 <= fst st)%nat by (rewrite <- L; destruct (eigenvectors _ _ _); [contradiction|cbn; lia]).
  apply cdot_none; [exact Hx|rewrite map_length; lia|lia].
Qed.
(** Row [b] is NaN. *)
Definition nan_at (b : nat) (X : list point) : Prop := exists x, nth_error X b = Some x /\ nan_point x.
Lemma step_nan_at eigh k st b : eigh_shape eigh -> shaped (fst st) (snd st) -> nan_at b (snd st) -> nan_at b (snd (one_step eigh k st)).
Proof.
  intros H Sh (x & E & Hx). unfold one_step; cbn [snd]. eexists; split; [apply map_nth_error; exact E|]. apply step_nan; try assumption.
  unfold shaped in Sh; rewrite Forall_forall in Sh. apply Sh, (nth_error_In _ _ E).
Qed.
Lemma halving_nan eigh total b : eigh_shape eigh -> forall fuel k st st', shaped (fst st) (snd st) -> nan_at b (snd st) ->
  halving fuel eigh total k st = Ok st' -> nan_at b (snd st').
Proof.
  intros H fuel; induction fuel as [|fuel IH]; intros k st st' Sh Hn; cbn [halving]; destruct (0 <? k)%Z; try discriminate; intros E.
  - injection E as <-; exact Hn.
  - apply (IH _ _ _ (step_shaped _ _ _) (step_nan_at eigh _ st b H Sh Hn) E).
  - injection E as <-; exact Hn.
Qed.
Lemma halving_good eigh total : forall fuel k st st', Forall good (snd st) -> halving fuel eigh total k st = Ok st' -> Forall good (snd st').
Proof.
  intros fuel; induction fuel as [|fuel IH]; intros k st st' Hn; cbn [halving]; destruct (0 <? k)%Z; try discriminate; intros E.
  - injection E as <-; exact Hn.
  - apply (IH _ _ _ (step_good eigh _ st) E).
  - injection E as <-; exact Hn.
Qed.
Lemma iterate_nan eigh st i b : eigh_shape eigh -> shaped (fst st) (snd st) -> nan_at b (snd st) -> nan_at b (snd (iterate eigh st i)).
Proof.
  intros H Sh Hn. induction i as [|i IH]; [exact Hn|]. change (iterate eigh st (S i)) with (one_step eigh (-1) (iterate eigh st i)).
  apply step_nan_at; [exact H|apply iterate_shaped; exact Sh|exact IH].
Qed.
Lemma iterate_good eigh st i : Forall good (snd st) -> Forall good (snd (iterate eigh st i)).
Proof. intros Hn. destruct i as [|i]; [exact Hn|]. apply step_good. Qed.

(** ** Finite computations *)
Lemma csum_nan_finite (l : list C) : csum_nan (map Some l) = Some (csum (length l) (fun k => nth k l c0)).
Proof.
  induction l as [|z l IH]; [reflexivity|]. unfold csum_nan in *. cbn [map fold_right]. rewrite IH. cbn [nan2]. f_equal.
  unfold csum; cbn [length]. rewrite !sumn_first. reflexivity.
Qed.
Lemma csum_ext n f g : (forall i, (i < n)%nat -> f i = g i) -> csum n f = csum n g.
Proof. intros H; unfold csum; f_equal; apply sumn_ext; intros i Hi; rewrite (H i Hi); reflexivity. Qed.
Lemma cdot_finite (u v : list C) : length u = length v ->
  cdot_nan (map (option_map conj) (map Some u)) (map Some v) = Some (herm (length v) u v).
Proof.
  intros L. unfold cdot_nan, herm.
  replace (map (fun p => nan2 cmul (fst p) (snd p)) (combine (map (option_map conj) (map Some u)) (map Some v)))
    with (map Some (map (fun p => cmul (conj (fst p)) (snd p)) (combine u v))).
  - rewrite csum_nan_finite, map_length, combine_length, L, Nat.min_id. f_equal. apply csum_ext; intros k Hk.
    rewrite (nth_indep _ c0 (cmul (conj (fst (c0, c0))) (snd (c0, c0)))) by (rewrite map_length, combine_length; lia).
    rewrite (map_nth (fun p => cmul (conj (fst p)) (snd p))), combine_nth by exact L. reflexivity.
  - revert v L; induction u as [|a u IH]; intros [|b v] L; try discriminate L; [reflexivity|]. injection L as L.
    cbn [map combine fst snd option_map nan2]. f_equal. apply IH; exact L.
Qed.
Lemma rotate_finite d U v : matrix d d U -> length v = d ->
  rotate (map (map Some) U) (map Some v) = map Some (map (fun u => herm d u v) U).
Proof.
  intros [_ F] L. unfold rotate. rewrite !map_map. apply map_ext_in. intros u Hu. rewrite Forall_forall in F. rewrite cdot_finite by (rewrite (F u Hu); lia).
  rewrite L; reflexivity.
Qed.

Lemma csum_S n f : csum (S n) f = cadd (csum n f) (f n).
Proof. reflexivity. Qed.
Lemma csum_mul_l c n f : csum n (fun i => cmul c (f i)) = cmul c (csum n f).
Proof. induction n as [|n IH]; [apply c_ext; cbn; ring|]. rewrite !csum_S, IH. cbv beta. ring. Qed.
Lemma csum_mul_r c n f : csum n (fun i => cmul (f i) c) = cmul (csum n f) c.
Proof. induction n as [|n IH]; [apply c_ext; cbn; ring|]. rewrite !csum_S, IH. cbv beta. ring. Qed.
Lemma csum_conj n f : conj (csum n f) = csum n (fun i => conj (f i)).
Proof. induction n as [|n IH]; [apply c_ext; cbn; ring|]. rewrite !csum_S, <- IH. apply conj_add. Qed.
Lemma csum_swap n m (f : nat -> nat -> C) : csum n (fun i => csum m (f i)) = csum m (fun j => csum n (fun i => f i j)).
Proof. unfold csum; cbn [fst snd]. f_equal; apply sumn_swap. Qed.
Lemma csum_single n f k : (k < n)%nat -> (forall i, (i < n)%nat -> i <> k -> f i = c0) -> csum n f = f k.
Proof.
  intros Hk H. unfold csum. rewrite (sumn_single n (fun i => fst (f i)) k), (sumn_single n (fun i => snd (f i)) k); try exact Hk.
  - symmetry; apply surjective_pairing.
  - intros i Hi Hn; rewrite (H i Hi Hn); reflexivity.
  - intros i Hi Hn; rewrite (H i Hi Hn); reflexivity.
Qed.
Lemma csum_rev n f : csum n (fun i => f (n - 1 - i)%nat) = csum n f.
Proof.
  induction n as [|n IH]; [reflexivity|]. rewrite (csum_S n f).
  assert (E : csum (S n) (fun i => f (S n - 1 - i)%nat) = cadd (f n) (csum n (fun i => f (n - 1 - i)%nat))).
  { apply c_ext; unfold csum, cadd; cbn [fst snd]; rewrite sumn_first; (f_equal; [do 2 f_equal; lia|apply sumn_ext; intros i Hi; do 2 f_equal; lia]). }
  rewrite E, IH. ring.
Qed.
Lemma nth_rev_at {A} (l : list A) i d : (i < length l)%nat -> nth i (rev l) d = nth (length l - 1 - i) l d.
Proof. intros H. rewrite rev_nth by exact H. f_equal; lia. Qed.

(** A change of coordinates by a unitary matrix keeps Hermitian products. *)
Lemma unitary_isometry d U v w : unitary d U -> length v = d -> length w = d ->
  herm d (map (fun u => herm d u v) (rev U)) (map (fun u => herm d u w) (rev U)) = herm d v w.
Proof.
  intros ([L F] & _ & HU) Lv Lw. unfold herm at 1.
  transitivity (csum d (fun i => cmul (conj (herm d (nth i U []) v)) (herm d (nth i U []) w))).
  { rewrite <- (csum_rev d (fun i => cmul (conj (herm d (nth i U []) v)) (herm d (nth i U []) w))). apply csum_ext; intros i Hi.
    assert (E : forall v, nth i (map (fun u => herm d u v) (rev U)) c0 = herm d (nth (d - 1 - i) U []) v).
    { intros v'. rewrite (nth_indep _ c0 (herm d [] v')) by (rewrite map_length, rev_length; lia). rewrite (map_nth (fun u => herm d u v')). rewrite nth_rev_at, L by lia. reflexivity. }
    rewrite !E; reflexivity. }
  transitivity (csum d (fun i => csum d (fun k => csum d (fun l => cmul (cmul (conj (nth k v c0)) (nth l w c0)) (cmul (at2 c0 U i k) (conj (at2 c0 U i l))))))).
  { apply csum_ext; intros i Hi. unfold herm. rewrite csum_conj, <- csum_mul_r. apply csum_ext; intros k Hk. rewrite <- csum_mul_l. apply csum_ext; intros l Hl.
    rewrite conj_mul, conj_conj. unfold at2. ring. }
  rewrite csum_swap. unfold herm. apply csum_ext; intros k Hk. rewrite csum_swap.
  rewrite (csum_single d _ k Hk).
  - rewrite csum_mul_l, HU, Nat.eqb_refl by assumption. ring.
  - intros l Hl Hn. rewrite csum_mul_l, HU by assumption. rewrite (proj2 (Nat.eqb_neq k l)) by congruence. ring.
Qed.
Lemma herm_self n v : herm n v v = RtoC (sumn n (fun k => cabs2 (nth k v c0))).
Proof.
  unfold herm, csum, RtoC. f_equal.
  - apply sumn_ext; intros; unfold cmul, conj, cabs2; cbn [fst snd]; ring.
  - apply sumn_0; intros; unfold cmul, conj; cbn [fst snd]; ring.
Qed.
Lemma cscale_1 z : cscale 1 z = z.
Proof. csolve. Qed.

(** ** The three modes as sequences of reductions *)
Fixpoint halves (fuel : nat) (total k : Z) : list Z :=
  if (0 <? k)%Z then match fuel with 0%nat => [] | S fuel => (total + k)%Z :: halves fuel total (k / 2) end else [].
Lemma halving_reduce eigh total : forall fuel k st, (Z.to_nat k <= fuel)%nat -> halving fuel eigh total k st = Ok (reduce eigh (halves fuel total k) st).
Proof.
  induction fuel as [|fuel IH]; intros k st Hk; cbn [halving halves]; destruct (Z.ltb_spec 0 k) as [H|H]; try reflexivity; [lia|].
  assert (D : (k / 2 < k)%Z) by (apply Z.div_lt; lia). assert (D0 : (0 <= k / 2)%Z) by (apply Z.div_pos; lia).
  rewrite IH by lia. reflexivity.
Qed.
Lemma halves_above : forall fuel total k z, In z (halves fuel total k) -> (total < z <= total + k)%Z.
Proof.
  induction fuel as [|fuel IH]; intros total k z; cbn [halves]; destruct (Z.ltb_spec 0 k) as [H|H]; cbn [In]; try (intros []; fail).
  assert (D : (k / 2 < k)%Z) by (apply Z.div_lt; lia). intros [<-|Hz]; [lia|]. apply IH in Hz; lia.
Qed.
Lemma iterate_reduce eigh st i : iterate eigh st i = reduce eigh (repeat (-1)%Z i) st.
Proof.
  unfold reduce. induction i as [|i IH]; [reflexivity|]. change (iterate eigh st (S i)) with (one_step eigh (-1) (iterate eigh st i)). rewrite IH.
  replace (repeat (-1)%Z (S i)) with (repeat (-1)%Z i ++ [(-1)%Z]) by (symmetry; exact (repeat_cons i (-1)%Z)).
  rewrite fold_left_app. reflexivity.
Qed.
Lemma reduce_app eigh a b st : reduce eigh (a ++ b) st = reduce eigh b (reduce eigh a st).
Proof. apply fold_left_app. Qed.
Lemma reduce_shaped eigh ks : forall st, shaped (fst st) (snd st) -> shaped (fst (reduce eigh ks st)) (snd (reduce eigh ks st)).
Proof. induction ks as [|k ks IH]; intros st H; [exact H|]. apply IH, step_shaped. Qed.
Lemma reduce_length eigh ks : forall st, length (snd (reduce eigh ks st)) = length (snd st).
Proof. induction ks as [|k ks IH]; intros st; [reflexivity|]. transitivity (length (snd (one_step eigh k st))); [apply IH|apply step_length]. Qed.
Lemma reduce_nan eigh ks b : eigh_shape eigh -> forall st, shaped (fst st) (snd st) -> nan_at b (snd st) -> nan_at b (snd (reduce eigh ks st)).
Proof. intros H. induction ks as [|k ks IH]; intros st Sh N; [exact N|]. apply IH; [apply step_shaped|apply step_nan_at; assumption]. Qed.
Lemma reduce_good eigh ks : forall st, Forall good (snd st) -> Forall good (snd (reduce eigh ks st)).
Proof. induction ks as [|k ks IH]; intros st G; [exact G|]. apply IH, step_good. Qed.
Lemma reduce_dim eigh ks : eigh_shape eigh -> Forall (fun k => 0 <= k)%Z ks -> forall st,
  fst (reduce eigh ks st) = fold_left (fun d k => Nat.min (Z.to_nat k) d) ks (fst st).
Proof.
  intros H F; induction F as [|k ks Hk F IH]; intros st; [reflexivity|]. cbn [fold_left]. rewrite <- step_dim with (eigh := eigh) by assumption. apply IH.
Qed.
Lemma eigen_finite eigh d X : eigh_finite eigh -> exists V, eigenvectors eigh d X = map (map Some) V.
Proof.
  intros H. unfold eigenvectors. destruct (eigh (gram_of d X)) as [U|] eqn:E.
  - destruct (H _ _ E) as [V ->]. exists (rev V). rewrite map_rev; reflexivity.
  - exists (mk2 d d (fun i j => if (i =? j)%nat then c1 else c0)). unfold ceye, mk2. rewrite map_map. apply map_ext; intros i. rewrite map_map. reflexivity.
Qed.
Lemma slice_map {A B} (f : A -> B) k l : slice_to k (map f l) = map f (slice_to k l).
Proof. unfold slice_to. rewrite map_length, !firstn_map. destruct (k <? 0)%Z; reflexivity. Qed.
Lemma sum_abs2_zero (v : list C) : sumn (length v) (fun k => cabs2 (nth k v c0)) = 0 <-> Forall (fun z => z = c0) v.
Proof.
  induction v as [|z v IH]; cbn [length].
  - split; [constructor|reflexivity].
  - rewrite sumn_first. cbn [nth]. assert (N : 0 <= sumn (length v) (fun k => cabs2 (nth k v c0))) by (apply sumn_nonneg; intros; apply cabs2_nonneg).
    pose proof (cabs2_nonneg z). split.
    + intros E. constructor; [apply cabs2_0; lra|apply IH; lra].
    + intros F; inversion F as [|a b Ez Fv]; subst. replace (cabs2 c0) with 0 by (unfold cabs2, c0; cbn; ring). rewrite (proj2 IH Fv); ring.
Qed.
Lemma nan_not_unit x : nan_point x -> ~ unit_point x.
Proof.
  intros N (v & E & S). destruct v as [|z v]; [cbn in S; lra|]. rewrite E in N. inversion N; discriminate.
Qed.
Lemma step_row eigh k st b v : eigh_shape eigh -> eigh_finite eigh -> shaped (fst st) (snd st) -> nth_error (snd st) b = Some (map Some v) ->
  exists w, nth_error (snd (one_step eigh k st)) b = Some (normalize (map Some w)) /\
    (vanishes0 eigh st b [] k <-> Forall (fun z => z = c0) w).
Proof.
  intros H Hf Sh E. destruct (eigen_finite eigh (fst st) (snd st) Hf) as [V EV]. destruct (eigen_matrix eigh (fst st) (snd st) H) as [LV FV].
  assert (Lv : length v = fst st). { unfold shaped in Sh; rewrite Forall_forall in Sh. rewrite <- (Sh _ (nth_error_In _ _ E)), map_length; reflexivity. }
  assert (MV : Forall (fun u => length u = fst st) V).
  { rewrite EV in FV. rewrite Forall_map in FV. eapply Forall_impl; [|exact FV]. cbn; intros u Hu; rewrite map_length in Hu; exact Hu. }
  rewrite Forall_forall in MV.
  exists (map (fun u => herm (fst st) u v) (slice_to k V)).
  assert (Q : forall u, In u (slice_to k V) -> cdot_nan (map (option_map conj) (map Some u)) (map Some v) = Some (herm (fst st) u v)).
  { intros u Hu. rewrite cdot_finite by (rewrite (MV u (slice_In _ _ _ Hu)); lia). rewrite Lv; reflexivity. }
  split.
  - unfold one_step; cbn [snd]. erewrite map_nth_error by exact E. f_equal. f_equal. rewrite slice_rotate, EV, slice_map. unfold rotate. rewrite !map_map.
    apply map_ext_in. exact Q.
  - unfold vanishes0, reduce; cbn [fold_left]. rewrite EV, slice_map. rewrite (nth_error_nth _ _ [] E). rewrite Forall_map, Forall_forall. split.
    + intros Z u Hu. specialize (Z (map Some u) (in_map _ _ _ Hu)). rewrite Q in Z by exact Hu. congruence.
    + intros Z u' Hu'. apply in_map_iff in Hu'. destruct Hu' as (u & <- & Hu). rewrite Q, (Z u Hu) by exact Hu; reflexivity.
Qed.
Lemma reduce_unit eigh ks b : eigh_shape eigh -> eigh_finite eigh -> forall st x, shaped (fst st) (snd st) ->
  nth_error (snd st) b = Some x -> unit_point x ->
  (unit_point (nth b (snd (reduce eigh ks st)) []) <-> forall pre k post, ks = pre ++ k :: post -> ~ vanishes0 eigh st b pre k).
Proof.
  intros H Hf. induction ks as [|k ks IH]; intros st x Sh E Hx.
  - cbn [reduce fold_left]. rewrite (nth_error_nth _ _ [] E). split; [|intros _; exact Hx]. intros _ [|? ?] k post Q; discriminate Q.
  - pose proof Hx as (v & -> & _). destruct (step_row eigh k st b v H Hf Sh E) as (w & Ew & V). rewrite normalize_finite in Ew.
    change (reduce eigh (k :: ks) st) with (reduce eigh ks (one_step eigh k st)).
    destruct (Req_EM_T _ 0) as [Z|Z].
    + split.
      * intros U. exfalso. assert (N : nan_at b (snd (one_step eigh k st))). { eexists; split; [exact Ew|]. apply Forall_map, Forall_forall; reflexivity. }
        destruct (reduce_nan eigh ks b H _ (step_shaped eigh k st) N) as (y & Ey & Ny). rewrite (nth_error_nth _ _ [] Ey) in U. exact (nan_not_unit y Ny U).
      * intros U. exfalso. apply (U [] k ks eq_refl), V, sum_abs2_zero, Z.
    + rewrite (IH (one_step eigh k st) _ (step_shaped eigh k st) Ew (unit_normalized w Z)). split.
      * intros U [|k' pre] k'' post Q; injection Q as <- Q.
        -- intros F. apply Z, sum_abs2_zero, V, F.
        -- exact (U pre k'' post Q).
      * intros U pre k' post Q. apply (U (k :: pre) k' post). rewrite Q; reflexivity.
Qed.

(** ** Cauchy-Schwarz against a unit vector *)
Lemma csum_add n f g : csum n (fun i => cadd (f i) (g i)) = cadd (csum n f) (csum n g).
Proof. apply c_ext; unfold csum, cadd; cbn [fst snd]; apply sumn_add. Qed.
Lemma bessel1 n (u y : list C) : sumn n (fun k => cabs2 (nth k u c0)) = 1 ->
  cabs2 (herm n u y) <= sumn n (fun k => cabs2 (nth k y c0)).
Proof.
  intros Hu. set (h := herm n u y).
  assert (P : 0 <= sumn n (fun k => cabs2 (csub (nth k y c0) (cmul h (nth k u c0))))) by (apply sumn_nonneg; intros; apply cabs2_nonneg).
  assert (E : sumn n (fun k => cabs2 (csub (nth k y c0) (cmul h (nth k u c0)))) =
    sumn n (fun k => cabs2 (nth k y c0)) + cabs2 h * sumn n (fun k => cabs2 (nth k u c0)) - 2 * fst (cmul (conj h) (herm n u y))).
  { unfold herm. rewrite <- csum_mul_l. unfold csum; cbn [fst]. rewrite <- !sumn_scal, <- sumn_add, <- sumn_sub. apply sumn_ext; intros k Hk.
    unfold cabs2, csub, cadd, copp, cmul, conj; cbn [fst snd]. ring. }
  fold h in E. rewrite E, Hu in P. assert (Q : fst (cmul (conj h) h) = cabs2 h) by (unfold cabs2, cmul, conj; cbn [fst snd]; ring). rewrite Q in P. lra.
Qed.
Lemma cdot_finite_plain (u v : list C) : length u = length v ->
  cdot_nan (map Some u) (map Some v) = Some (csum (length v) (fun k => cmul (nth k u c0) (nth k v c0))).
Proof.
  intros L. replace (map Some u) with (map (option_map conj) (map Some (map conj u))).
  - rewrite cdot_finite by (rewrite map_length; exact L). f_equal. unfold herm. apply csum_ext; intros k Hk.
    rewrite (nth_indep _ c0 (conj c0)) by (rewrite map_length; lia). rewrite map_nth, conj_conj; reflexivity.
  - rewrite !map_map. apply map_ext; intros z; cbn [option_map]; rewrite conj_conj; reflexivity.
Qed.
Lemma sum_finite (l : list R) : fold_right (nan2 Rplus) (Some 0) (map Some l) = Some (fold_right Rplus 0 l).
Proof. induction l as [|x l IH]; [reflexivity|]. cbn [map fold_right]. rewrite IH; reflexivity. Qed.
