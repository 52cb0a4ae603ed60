(** PropPPCA.v -- C48 to C51 and C75: properties of EquivariantPCA.ppca. *)
From Verif Require Import Base BaseProofs RealBase RealSum SpecEM ComplexBase PPCAModel SpecPPCA PPCAProofs KyFan PPCAReductions.
Import ListNotations.
Local Open Scope R_scope.

(** C48.  ppca returns one row per point, with min(proj_dim+1, n_dim) columns, and n_dim-1
    variances; in mode one-by-one it fails unless 1 <= proj_dim < n_dim; other modes are rejected. *)
Theorem C48_shape : forall eigh cm n p m, eigh_shape eigh -> Forall (fun x => length x = n) cm -> accepted m n p ->
  exists var X, ppca eigh cm n p m = Ok (var, X) /\ length var = (n - 1)%nat /\ length X = length cm /\
    Forall (fun x => length x = Nat.min (Z.to_nat (p + 1)) n) X.
Proof.
  intros eigh cm n p m H Sh A. destruct (ppca_stages eigh cm n p m H A) as (var & E & Lv & Ch & D). set (ks := stages m n (Z.to_nat p)) in *.
  exists var, (snd (reduce eigh (map Z.of_nat ks) (n, cm))). split; [exact E|]. split; [exact Lv|]. split; [apply (reduce_length eigh _ (n, cm))|].
  pose proof (reduce_shaped eigh (map Z.of_nat ks) (n, cm) Sh) as R. unfold shaped in R. rewrite reduce_fst, D in R by assumption. exact R.
Qed.
Print Assumptions C48_shape.
Theorem C48_one_by_one_fails : forall eigh cm n p, (1 <= n)%nat -> (p <= 0 \/ Z.of_nat n <= p)%Z -> (0 <= p)%Z ->
  ppca eigh cm n p OneByOne = Raise AttributeError.
Proof.
  intros eigh cm n p Hn Hp H0. unfold ppca. assert (E1 : (1 <=? n)%nat = true) by (apply Nat.leb_le; exact Hn). rewrite E1. cbn [bind].
  destruct (loop_ok eigh n p cm (n - 1) (le_n _)) as (var & E & Lv & _). rewrite E. cbn [bind].
  destruct (Z.leb_spec 0 (Z.of_nat n - p - 1)); cbn [andb]; [|reflexivity].
  destruct (Z.ltb_spec (Z.of_nat n - p - 1) (Z.of_nat (n - 1))); [lia|reflexivity].
Qed.
Print Assumptions C48_one_by_one_fails.
Theorem C48_unknown_mode : forall eigh cm n p, ppca eigh cm n p OtherMode = Raise AssertionError.
Proof. reflexivity. Qed.
Print Assumptions C48_unknown_mode.

(** C49.  The rows are obtained by the reductions of the mode, one after the other: each replaces
    the points by their components along their first principal directions, normalized. *)
Theorem C49_reductions : forall eigh cm n p m, eigh_shape eigh -> Forall (fun x => length x = n) cm -> accepted m n p ->
  exists var X, ppca eigh cm n p m = Ok (var, X) /\ reductions eigh n (stages m n (Z.to_nat p)) cm X.
Proof.
  intros eigh cm n p m H Sh A. destruct (ppca_stages eigh cm n p m H A) as (var & E & _ & Ch & _).
  eexists var, _; split; [exact E|]. apply reductions_iff; try assumption. reflexivity.
Qed.
Print Assumptions C49_reductions.

(** Rows of the output are unit vectors or NaN; a row that is NaN stays NaN; a unit row gives a
    unit row exactly when its components in the kept dimensions are not all zero at any stage. *)
Theorem C49_on_sphere : forall eigh cm n p m, eigh_shape eigh -> eigh_finite eigh -> Forall (fun x => length x = n) cm -> accepted m n p ->
  exists var X, ppca eigh cm n p m = Ok (var, X) /\
    (Forall (fun x => nan_point x \/ unit_point x) cm -> Forall (fun x => nan_point x \/ unit_point x) X) /\
    (forall b, nan_point (nth b cm []) -> nan_point (nth b X [])) /\
    (forall b x, nth_error cm b = Some x -> unit_point x ->
       (unit_point (nth b X []) <->
        forall pre k post Y, stages m n (Z.to_nat p) = pre ++ k :: post -> reductions eigh n pre cm Y ->
          ~ vanishes eigh (last (n :: pre) 0%nat) k Y b)).
Proof.
  intros eigh cm n p m H Hf Sh A. destruct (ppca_stages eigh cm n p m H A) as (var & E & _ & Ch & _).
  set (ks := stages m n (Z.to_nat p)) in *. set (zs := map Z.of_nat ks) in *.
  exists var, (snd (reduce eigh zs (n, cm))). split; [exact E|]. split; [|split].
  - apply (reduce_good eigh zs (n, cm)).
  - intros b Hb. destruct (nth_error cm b) as [x|] eqn:Eb.
    + rewrite (nth_error_nth _ _ [] Eb) in Hb. destruct (reduce_nan eigh zs b H (n, cm) Sh) as (y & Ey & Ny); [exists x; split; assumption|].
      rewrite (nth_error_nth _ _ [] Ey); exact Ny.
    + apply nth_error_None in Eb. rewrite nth_overflow; [constructor|]. rewrite reduce_length; exact Eb.
  - intros b x Eb Hx. rewrite (reduce_unit eigh zs b H Hf (n, cm) x Sh Eb Hx).
    assert (V : forall pre k post Y, ks = pre ++ k :: post -> reductions eigh n pre cm Y ->
      (vanishes eigh (last (n :: pre) 0%nat) k Y b <-> vanishes0 eigh (n, cm) b (map Z.of_nat pre) (Z.of_nat k))).
    { intros pre k post Y Es HY. rewrite Es in Ch. apply chain_app in Ch as [C1 [C2 _]]. apply reductions_iff in HY; [|assumption..]. subst Y.
      pose proof (reduce_fst eigh pre H n cm C1) as F. pose proof (reduce_shaped eigh (map Z.of_nat pre) (n, cm) Sh) as Sh'. rewrite F in Sh'.
      destruct (nth_error (snd (reduce eigh (map Z.of_nat pre) (n, cm))) b) as [y|] eqn:Ey.
      2:{ apply nth_error_None in Ey. rewrite reduce_length in Ey. cbn [snd] in Ey. assert (b < length cm)%nat by (apply nth_error_Some; congruence). lia. }
      rewrite (vanishes_iff eigh _ k _ b y H Sh' C2 Ey). unfold vanishes0 at 2. rewrite F. reflexivity. }
    split.
    + intros U pre k post Y Es HY Va. apply (U (map Z.of_nat pre) (Z.of_nat k) (map Z.of_nat post)); [unfold zs; rewrite Es, map_app; reflexivity|].
      apply (V pre k post Y Es HY), Va.
    + intros U pre' k' post' Es'. apply map_eq_app in Es' as (pre & rest & Es & <- & Er). destruct rest as [|k post]; [discriminate|]. injection Er as <- <-.
      intros Va. assert (Ch' := Ch). rewrite Es in Ch'. apply chain_app in Ch' as [C1 _].
      assert (HY : reductions eigh n pre cm (snd (reduce eigh (map Z.of_nat pre) (n, cm)))) by (apply reductions_iff; [assumption..|reflexivity]).
      apply (U pre k post _ Es HY). apply (V pre k post _ Es HY), Va.
Qed.
Print Assumptions C49_on_sphere.

(** Mode direct: the row is the vector of Hermitian products with the first p+1 eigenvectors in
    decreasing order, divided by its norm. *)
Theorem C49_direct_formula : forall eigh cm n p G V b v, (1 <= n)%nat -> (0 <= p)%Z ->
  second_moments n cm G -> eigh G = Some (map (map Some) V) -> matrix n n V -> nth_error cm b = Some (map Some v) -> length v = n ->
  let w := map (fun u => herm n u v) (firstn (Z.to_nat (p + 1)) (rev V)) in
  let s := sumn (length w) (fun k => cabs2 (nth k w c0)) in
  exists var X, ppca eigh cm n p Direct = Ok (var, X) /\
    nth_error X b = Some (if Req_EM_T s 0 then map (fun _ => None) w else map (fun z => Some (cscale (/ sqrt s) z)) w).
Proof.
  intros eigh cm n p G V b v Hn Hp HG EV [LV FV] Eb Lv w s. apply second_moments_iff in HG; subst G. unfold ppca. assert (E1 : (1 <=? n)%nat = true) by (apply Nat.leb_le; exact Hn). rewrite E1. cbn [bind].
  eexists _, _. split; [reflexivity|]. unfold one_step; cbn [fst snd]. erewrite map_nth_error by exact Eb. f_equal.
  unfold eigenvectors. rewrite EV, <- map_rev. rewrite (rotate_finite n) by (split; [rewrite rev_length; exact LV|apply Forall_rev; exact FV] || exact Lv).
  rewrite slice_map. unfold slice_to. destruct (Z.ltb_spec (p + 1) 0); [lia|]. rewrite firstn_map. fold w. rewrite normalize_finite. fold s.
  destruct (Req_EM_T s 0); [reflexivity|]. rewrite map_map; reflexivity.
Qed.
Print Assumptions C49_direct_formula.

(** C50.  Multiplying the points by unit scalars multiplies the rows of the result by the same
    scalars and leaves the variance, or the failure, as it was. *)
Theorem C50_equivariant : forall eigh cm n p m lams, length lams = length cm -> Forall (fun l => cabs2 l = 1) lams ->
  ppca eigh (scale_rows lams cm) n p m =
  match ppca eigh cm n p m with Ok (var, X) => Ok (var, scale_rows lams X) | Raise e => Raise e end.
Proof.
  intros eigh cm n p m lams L F. unfold ppca. destruct m; cbn [bind]; destruct (1 <=? n)%nat; cbn [bind]; try reflexivity.
  - rewrite step_scale by assumption. reflexivity.
  - rewrite (halving_scale eigh (p + 1) lams F) by exact L.
    pose proof (halving_length eigh (p + 1) (Z.to_nat ((Z.of_nat n - (p + 1)) / 2)) ((Z.of_nat n - (p + 1)) / 2) (n, cm)) as HL.
    destruct (halving _ _ _ _ (n, cm)) as [[d X]|e]; cbn [bind fst snd]; [|reflexivity]. specialize (HL (d, X) eq_refl). cbn [snd] in HL.
    destruct (p + 1 <? Z.of_nat d)%Z; [|reflexivity]. rewrite step_scale by (assumption || congruence). reflexivity.
  - change (n, scale_rows lams cm, @None (list (list (option C))), repeat (Some 0) (n - 1))
      with (scale_state lams (n, cm, None, repeat (Some 0) (n - 1))).
    rewrite (loop_scale eigh _ _ lams F) by exact L.
    destruct (for_in _ _ _) as [[[[d X] XRet] var]|e]; cbn [bind]; [|reflexivity].
    unfold scale_state. destruct XRet; reflexivity.
Qed.
Print Assumptions C50_equivariant.

(** C51.  Documented: the variance captured by each dimension.  In modes direct and exponential
    the array is all zeros. *)
Theorem C51_direct_and_exponential_zero : forall eigh cm n p m var X, m = Direct \/ m = Exponential ->
  ppca eigh cm n p m = Ok (var, X) -> var = repeat (Some 0) (n - 1).
Proof.
  intros eigh cm n p m var X [-> | ->]; unfold ppca; destruct (1 <=? n)%nat; cbn [bind]; try discriminate.
  - intros E; injection E as <- _; reflexivity.
  - destruct (halving _ _ _ _ _); cbn [bind]; [|discriminate]. intros E; injection E as <- _; reflexivity.
Qed.
Print Assumptions C51_direct_and_exponential_zero.

(** In mode one-by-one the entry for the dimension dropped at stage [j] is the mean of the squared
    angles between the points and the hyperplane orthogonal to the conjugate of the dropped
    eigenvector [u]; for real eigenvectors, to [u] itself, which is what is documented. *)
Theorem C51_one_by_one : forall eigh cm n p j u Y, eigh_shape eigh -> Forall (fun x => length x = n) cm -> accepted OneByOne n p -> (j < n - 1)%nat ->
  reductions eigh n (map (fun i => n - i)%nat (seq 1 j)) cm (map (map Some) Y) -> (1 <= length Y)%nat ->
  Forall (fun y => length y = (n - j)%nat /\ sumn (n - j) (fun k => cabs2 (nth k y c0)) = 1) Y ->
  direction eigh (n - j) (map (map Some) Y) (n - j - 1) (map Some u) -> sumn (n - j) (fun k => cabs2 (nth k u c0)) = 1 ->
  exists var X, ppca eigh cm n p OneByOne = Ok (var, X) /\
    nth_error var (n - 2 - j) =
      Some (Some (fold_right Rplus 0 (map (fun y => (PI / 2 - acos (cabs (herm (n - j) (map conj u) y))) ^ 2) Y) / INR (length Y))).
Proof.
  intros eigh cm n p j u Y H Sh (Hn & Hp & Hm) Hj RY LY FY Du Hu.
  apply reductions_iff in RY; [|exact H|exact Sh|apply chain_one_by_one]. rewrite <- drop_one_by_one in RY by exact H.
  set (st := reduce eigh (repeat (-1)%Z j) (n, cm)) in *. assert (EY : snd st = map (map Some) Y) by (symmetry; exact RY). rewrite RY in Du.
  apply direction_iff in Du; [|exact H].
  assert (Eu : last (eigenvectors eigh (n - j) (snd st)) [] = map Some u).
  { destruct (eigen_matrix eigh (n - j) (snd st) H) as [LE _]. set (E := eigenvectors eigh (n - j) (snd st)) in *. rewrite <- (nth_error_nth _ _ [] Du).
    clear -LE Hj. assert (LE' : (n - j - 1 = length E - 1)%nat) by lia. rewrite LE'. clear. induction E as [|a [|b E] IH]; try reflexivity. cbn [last] in IH |- *. rewrite IH. cbn [length]. replace (S (S (length E)) - 1)%nat with (S (S (length E) - 1)) by lia. reflexivity. }
  clear RY. unfold ppca. assert (E1 : (1 <=? n)%nat = true) by (apply Nat.leb_le; exact Hn). rewrite E1. cbn [bind].
  destruct (loop_ok eigh n p cm (n - 1) (le_n _)) as (var & E & Lv & Ev). rewrite E. cbn [bind].
  destruct (Z.leb_spec 0 (Z.of_nat n - p - 1)); [|lia]. destruct (Z.ltb_spec (Z.of_nat n - p - 1) (Z.of_nat (n - 1))); [|lia]. cbn [andb].
  eexists _, _; split; [reflexivity|]. rewrite (Ev j Hj). f_equal. rewrite iterate_reduce. fold st.
  assert (D : fst st = (n - j)%nat) by (unfold st; rewrite <- iterate_reduce, iterate_dim by exact H; reflexivity). rewrite D.
  unfold step_variance. rewrite Eu, EY, map_map.
  assert (Lu : length u = (n - j)%nat).
  { pose proof (eigen_matrix eigh (n - j) (snd st) H) as [LE FE]. rewrite <- (map_length Some u), <- Eu. rewrite Forall_forall in FE. apply FE.
    destruct (eigenvectors eigh (n - j) (snd st)) as [|a l] eqn:EE; [cbn in LE; lia|]. rewrite (app_removelast_last [] (l := a :: l)) by discriminate. apply in_or_app; right; left; rewrite <- (app_removelast_last [] (l := a :: l)) by discriminate; reflexivity. }
  assert (Q : map (fun y => match cdot_nan (map Some u) (map Some y) with Some z => squared_angle (cabs z) | None => None end) Y =
    map Some (map (fun y => (PI / 2 - acos (cabs (herm (n - j) (map conj u) y))) ^ 2) Y)).
  { rewrite map_map. apply map_ext_in. intros y Hy. rewrite Forall_forall in FY. destruct (FY y Hy) as [Ly Sy].
    rewrite cdot_finite_plain by lia. rewrite Ly.
    assert (Eh : csum (n - j) (fun k => cmul (nth k u c0) (nth k y c0)) = herm (n - j) (map conj u) y).
    { unfold herm. apply csum_ext; intros k Hk. rewrite (nth_indep (map conj u) c0 (conj c0)) by (rewrite map_length; lia). rewrite map_nth, conj_conj; reflexivity. }
    rewrite Eh. unfold squared_angle. assert (B : cabs (herm (n - j) (map conj u) y) <= 1).
    { assert (B2 : cabs2 (herm (n - j) (map conj u) y) <= 1).
      { rewrite <- Sy. apply bessel1. rewrite <- Hu. apply sumn_ext; intros k Hk. rewrite (nth_indep (map conj u) c0 (conj c0)) by (rewrite map_length; lia). rewrite map_nth; apply cabs2_conj. }
      unfold cabs. rewrite <- sqrt_1. apply sqrt_le_1_alt; exact B2. }
    destruct (Rltb 1 (cabs (herm (n - j) (map conj u) y))) eqn:Q; [apply Rltb_true in Q; lra|reflexivity]. }
  rewrite Q. unfold mean_nan. rewrite sum_finite, !map_length. destruct (Nat.eqb_spec (length Y) 0); [lia|]. reflexivity.
Qed.
Print Assumptions C51_one_by_one.

Lemma conj_real (u : list C) : Forall (fun z => snd z = 0) u -> map conj u = u.
Proof.
  intros F. rewrite <- (map_id u) at 2. apply map_ext_in. intros z Hz. rewrite Forall_forall in F. specialize (F z Hz).
  apply c_ext; unfold conj; cbn [fst snd]; lra.
Qed.
Theorem C51_one_by_one_real : forall eigh cm n p j u Y, eigh_shape eigh -> Forall (fun x => length x = n) cm -> accepted OneByOne n p -> (j < n - 1)%nat ->
  reductions eigh n (map (fun i => n - i)%nat (seq 1 j)) cm (map (map Some) Y) -> (1 <= length Y)%nat ->
  Forall (fun y => length y = (n - j)%nat /\ sumn (n - j) (fun k => cabs2 (nth k y c0)) = 1) Y ->
  direction eigh (n - j) (map (map Some) Y) (n - j - 1) (map Some u) -> sumn (n - j) (fun k => cabs2 (nth k u c0)) = 1 ->
  Forall (fun z => snd z = 0) u ->
  exists var X, ppca eigh cm n p OneByOne = Ok (var, X) /\
    nth_error var (n - 2 - j) =
      Some (Some (fold_right Rplus 0 (map (fun y => (PI / 2 - acos (cabs (herm (n - j) u y))) ^ 2) Y) / INR (length Y))).
Proof.
  intros eigh cm n p j u Y H Sh A Hj EY LY FY Eu Hu Fu.
  destruct (C51_one_by_one eigh cm n p j u Y H Sh A Hj EY LY FY Eu Hu) as (var & X & E & N). rewrite (conj_real u Fu) in N. exists var, X; split; assumption.
Qed.
Print Assumptions C51_one_by_one_real.

(** Complex points: the reported number need not be the part of the variance lost.  Here the
    only point is orthogonal to the discarded eigenvector, nothing is lost, and pi^2/4 (the
    largest possible angle) is reported. *)
Definition h2 : R := / sqrt 2.
Definition spin_point : list C := [(h2, 0); (0, h2)].
Definition spin_vectors : list (list C) := [[(h2, 0); (0, - h2)]; [(h2, 0); (0, h2)]].
Definition spin_eigh : eigh_fn := fun G => if (length G =? 2)%nat then Some (map (map Some) spin_vectors) else None.
Definition spin_gram : list (list C) := [[(1 / 2, 0); (0, - (1 / 2))]; [(0, 1 / 2); (1 / 2, 0)]].
Lemma h2_sq : h2 * h2 = 1 / 2.
Proof. unfold h2. rewrite <- Rinv_mult, sqrt_sqrt by lra. lra. Qed.
Ltac spin := unfold herm, csum, cmul, cadd, conj, cscale, cabs2, csub, copp, at2, spin_vectors, spin_point, spin_gram, c0, c1, RtoC; cbn [nth fst snd sumn Nat.eqb fold_right map]; pose proof h2_sq.
Theorem C51_complex_refuted :
  second_moments 2 [map Some spin_point] (map (map Some) spin_gram) /\
  eigen_answer 2 spin_gram spin_vectors INR /\ unit_point (map Some spin_point) /\
  herm 2 (nth 0 spin_vectors []) spin_point = c0 /\
  ppca spin_eigh [map Some spin_point] 2 1 OneByOne = Ok ([Some ((PI / 2) ^ 2)], [map Some spin_point]).
Proof.
  split; [|split; [|split; [|split]]].
  - apply second_moments_iff. symmetry. unfold gram_of, mk2, csum_nan; cbn [seq map fold_right nth spin_point option_map nan2 spin_gram]. pose proof h2_sq.
    repeat (match goal with |- (_ :: _) = (_ :: _) => f_equal end); f_equal; apply c_ext; unfold cadd, cmul, conj, c0; cbn [fst snd]; nra.
  - split; [|split].
    + split; [split; [reflexivity|repeat constructor]|]. split.
      * intros [|[|i]] [|[|j]] Hi Hj; try lia; spin; apply c_ext; cbn [fst snd]; nra.
      * intros [|[|i]] [|[|j]] Hi Hj; try lia; spin; apply c_ext; cbn [fst snd]; nra.
    + intros [|[|i]] [|[|j]] Hi Hj; try lia; spin; apply c_ext; cbn [INR fst snd]; lra.
    + intros i j Hij. apply le_INR; lia.
  - exists spin_point. split; [reflexivity|]. spin. cbn [length]. spin. nra.
  - spin. apply c_ext; cbn [fst snd]; nra.
  - unfold ppca. cbn [Nat.leb bind Nat.sub repeat range seq for_in Z.of_nat]. unfold one_by_one_turn. 
    cbn [Nat.ltb Nat.leb length Nat.sub].
    assert (E : eigenvectors spin_eigh 2 [map Some spin_point] = map (map Some) (rev spin_vectors)) by reflexivity. rewrite E.
    assert (V : step_variance (map (map Some) (rev spin_vectors)) [map Some spin_point] = Some ((PI / 2) ^ 2)).
    { unfold step_variance. cbn [rev spin_vectors app map last spin_point]. unfold cdot_nan, csum_nan; cbn [combine map fst snd nan2 fold_right].
      assert (Z : cabs (cadd (cmul (h2, 0) (h2, 0)) (cadd (cmul (0, - h2) (0, h2)) c0)) = 1).
      { unfold cabs. rewrite <- sqrt_1. f_equal. spin. assert (h2 * h2 * (h2 * h2) = 1 / 4) by nra. nra. }
      rewrite Z. unfold squared_angle. destruct (Rltb 1 1) eqn:Q; [apply Rltb_true in Q; lra|]. unfold mean_nan; cbn [fold_right nan2 length Nat.eqb INR].
      f_equal. rewrite acos_1. field. }
    rewrite V. reflexivity.
Qed.
Print Assumptions C51_complex_refuted.

(** C75.  When no dimension is dropped and the eigenvectors are orthonormal, mode direct only
    changes the coordinates: Hermitian products of unit points are kept. *)
Theorem C75_full_dimension_isometry : forall eigh n cm G V b b' v w, (1 <= n)%nat ->
  second_moments n cm G -> eigh G = Some (map (map Some) V) -> unitary n V ->
  nth_error cm b = Some (map Some v) -> nth_error cm b' = Some (map Some w) -> length v = n -> length w = n ->
  herm n v v = c1 -> herm n w w = c1 ->
  exists var X x y, ppca eigh cm n (Z.of_nat n - 1) Direct = Ok (var, X) /\
    nth_error X b = Some (map Some x) /\ nth_error X b' = Some (map Some y) /\ length x = n /\ herm n x y = herm n v w.
Proof.
  intros eigh n cm G V b b' v w Hn HG EV UV Eb Eb' Lv Lw Hv Hw.
  assert (MV : matrix n n V) by apply UV.
  assert (T : forall z bz, nth_error cm bz = Some (map Some z) -> length z = n -> herm n z z = c1 ->
    exists var X, ppca eigh cm n (Z.of_nat n - 1) Direct = Ok (var, X) /\ nth_error X bz = Some (map Some (map (fun u => herm n u z) (rev V)))).
  { intros z bz Ez Lz Hz. destruct (C49_direct_formula eigh cm n (Z.of_nat n - 1) G V bz z Hn ltac:(lia) HG EV MV Ez Lz) as (var & X & E & N).
    exists var, X. split; [exact E|]. rewrite N. f_equal. replace (Z.to_nat (Z.of_nat n - 1 + 1)) with n by lia.
    assert (LV : length (rev V) = n) by (rewrite rev_length; apply MV). rewrite firstn_all2 by lia.
    set (x := map (fun u => herm n u z) (rev V)). assert (Lx : length x = n) by (unfold x; rewrite map_length; exact LV). rewrite Lx.
    pose proof (unitary_isometry n V z z UV Lz Lz) as I. fold x in I. rewrite Hz, herm_self in I. apply (f_equal fst) in I. cbn [fst RtoC c1] in I. rewrite I.
    destruct (Req_EM_T 1 0); [lra|]. apply map_ext; intros q. rewrite sqrt_1, Rinv_1, cscale_1; reflexivity. }
  destruct (T v b Eb Lv Hv) as (var & X & E & N). destruct (T w b' Eb' Lw Hw) as (var' & X' & E' & N').
  rewrite E in E'. injection E' as <- <-. exists var, X, (map (fun u => herm n u v) (rev V)), (map (fun u => herm n u w) (rev V)).
  split; [exact E|]. split; [exact N|]. split; [exact N'|]. split; [rewrite map_length, rev_length; apply MV|]. apply unitary_isometry; assumption.
Qed.
Print Assumptions C75_full_dimension_isometry.

(** C76.  Mode direct projects on the best linear subspace: the kept directions are orthonormal
    and no orthonormal family of as many vectors captures more of the points. *)
Theorem C76_direct_best_subspace : forall eigh n X G V lam p, (1 <= n)%nat -> (0 <= p)%Z -> (p + 1 <= Z.of_nat n)%Z ->
  Forall (fun x => length x = n) X ->
  second_moments n (map (map Some) X) (map (map Some) G) -> eigh (map (map Some) G) = Some (map (map Some) V) -> eigen_answer n G V lam ->
  exists var Y K, ppca eigh (map (map Some) X) n p Direct = Ok (var, Y) /\ length K = Z.to_nat (p + 1) /\ orthonormal_family n K /\
    (forall b x, nth_error X b = Some x -> let y := map (fun u => herm n u x) K in let s := sumn (length K) (fun j => cabs2 (nth j y c0)) in
       s <> 0 -> nth_error Y b = Some (map (fun z => Some (cscale (/ sqrt s) z)) y)) /\
    (forall W, length W = length K -> orthonormal_family n W -> captured n W X <= captured n K X).
Proof.
  intros eigh n X G V lam p Hn Hp Hpn FX HG EV A. assert (EG := HG). apply second_moments_iff in EG. symmetry in EG.
  assert (G = gramC n X).
  { rewrite (gram_finite n X FX) in EG. clear -EG. revert G EG. generalize (gramC n X) as H. induction H as [|r H IH]; intros [|s G] E; try discriminate E; [reflexivity|].
    cbn [map] in E. injection E as E1 E2. f_equal; [|apply IH; exact E2]. clear -E1. revert r E1. induction s as [|a s IH]; intros [|b r] E; try discriminate E; [reflexivity|]. injection E as -> E. f_equal; apply IH; exact E. }
  subst G. pose proof A as (U & _ & _). pose proof U as (MV & OV & _). pose proof MV as [LV _].
  set (K := firstn (Z.to_nat (p + 1)) (rev V)). assert (LK : length K = Z.to_nat (p + 1)) by (unfold K; rewrite firstn_length, rev_length; lia).
  assert (NK : forall i, (i < length K)%nat -> nth i K [] = nth (n - 1 - i) V []).
  { intros i Hi. unfold K. rewrite nth_firstn_lt by lia. rewrite nth_rev_at, LV by lia. reflexivity. }
  assert (E : exists var Y, ppca eigh (map (map Some) X) n p Direct = Ok (var, Y)).
  { unfold ppca. assert (E1 : (1 <=? n)%nat = true) by (apply Nat.leb_le; exact Hn). rewrite E1. eexists _, _; reflexivity. }
  destruct E as (var & Y & E). exists var, Y, K. split; [exact E|]. split; [exact LK|]. split; [|split].
  - intros i j Hi Hj. rewrite !NK by assumption. rewrite OV by lia.
    destruct (Nat.eqb_spec i j), (Nat.eqb_spec (n - 1 - i) (n - 1 - j)); try reflexivity; lia.
  - intros b x Eb y s Hs.
    destruct (C49_direct_formula eigh (map (map Some) X) n p _ V b x Hn Hp HG EV) as (var' & Y' & E' & N).
    + exact MV.
    + erewrite map_nth_error by exact Eb; reflexivity.
    + rewrite Forall_forall in FX. apply FX, (nth_error_In _ _ Eb).
    + rewrite E in E'. injection E' as <- <-. rewrite N. f_equal. fold K. fold y.
      assert (Ls : length y = length K) by (unfold y; apply map_length). rewrite Ls. fold s. destruct (Req_EM_T s 0); [contradiction|reflexivity].
  - intros W LW OW. rewrite !captured_energy, LW.
    rewrite (sumn_ext (length K) (fun j => energy n X (vec (nth j K []))) (fun j => energy n X (fun m => at2 c0 V (n - 1 - j) m))).
    + apply (ky_fan n X V lam (length K) (fun j => vec (nth j W [])) A); [lia|]. intros i j Hi Hj. apply OW; lia.
    + intros j Hj. rewrite NK by exact Hj. reflexivity.
Qed.
Print Assumptions C76_direct_best_subspace.

(** Non-vacuity: the point and the eigensolver of [C51_complex_refuted]. *)
Example ppca_nonvacuous :
  eigh_shape spin_eigh /\ eigh_finite spin_eigh /\ accepted Direct 2 0 /\ accepted OneByOne 2 1 /\ accepted Exponential 2 0 /\
  Forall (fun x => length x = 2%nat) [map Some spin_point] /\ unit_point (nth 0 [map Some spin_point] []) /\
  stages Direct 2 0 = [1%nat] /\ ~ vanishes spin_eigh 2 1 [map Some spin_point] 0 /\
  stages Exponential 10 1 = [6; 4; 3; 2]%nat /\ stages OneByOne 5 1 = [4; 3; 2]%nat /\
  spin_eigh (map (map Some) spin_gram) = Some (map (map Some) spin_vectors) /\
  herm 2 spin_point spin_point = c1 /\ orthonormal_family 2 [[c1; c0]] /\ captured 2 [[c1; c0]] [spin_point] = 1 / 2 /\
  (exists lam, cabs2 lam = 1 /\ lam <> c1).
Proof.
  split; [|split; [|split; [|split; [|split; [|split; [|split; [|split; [|split; [|split; [|split; [|split; [|split; [|split; [|split]]]]]]]]]]]]]].
  - intros d G U [L _]. unfold spin_eigh. destruct (Nat.eqb_spec (length G) 2) as [E|E]; [|discriminate]. intros Q; injection Q as <-.
    rewrite <- L, E. split; [reflexivity|repeat constructor].
  - intros G U. unfold spin_eigh. destruct (length G =? 2)%nat; [|discriminate]. intros Q; injection Q as <-. exists spin_vectors; reflexivity.
  - split; [lia|split; [lia|exact I]].
  - split; [lia|split; lia].
  - split; [lia|split; [lia|exact I]].
  - repeat constructor.
  - apply C51_complex_refuted.
  - reflexivity.
  - intros V. assert (D : direction spin_eigh 2 [map Some spin_point] 0 (map Some [(h2, 0); (0, h2)])).
    { split; [lia|]. exists (map (map Some) spin_gram). split; [apply C51_complex_refuted|reflexivity]. }
    destruct (V 0%nat _ ltac:(lia) D) as [W _]. specialize (W [(h2, 0); (0, h2)] spin_point eq_refl eq_refl). injection W as W _.
    cbn [nth map length spin_point] in W. revert W. spin. intros W. nra.
  - reflexivity.
  - reflexivity.
  - reflexivity.
  - spin. apply c_ext; cbn [fst snd]; nra.
  - intros i j Hi Hj. cbn [length] in *. replace i with 0%nat by lia. replace j with 0%nat by lia. spin. apply c_ext; cbn [fst snd]; ring.
  - unfold captured. cbn [map fold_right length]. spin. nra.
  - exists (-1, 0). split; [unfold cabs2; cbn [fst snd]; ring|]. intros E; injection E; lra.
Qed.
(** The hypotheses of [C51_one_by_one_real]: one point, an eigensolver that fails (so that the
    identity is used). *)
Example variance_nonvacuous : let eigh : eigh_fn := fun _ => None in let cm := [map Some [c0; c1]] in
  eigh_shape eigh /\ accepted OneByOne 2 1 /\ reductions eigh 2 (map (fun i => 2 - i)%nat (seq 1 0)) cm cm /\
  direction eigh (2 - 0) cm (2 - 0 - 1) (map Some [c0; c1]) /\ sumn 2 (fun k => cabs2 (nth k [c0; c1] c0)) = 1 /\
  Forall (fun z => snd z = 0) [c0; c1].
Proof.
  cbv zeta. split; [intros d G U _ E; discriminate E|]. split; [split; [lia|split; lia]|]. split; [constructor|]. split.
  { split; [lia|]. eexists; split; [apply second_moments_iff; reflexivity|]. split; [reflexivity|]. intros [|[|k]] Hk; [reflexivity|reflexivity|lia]. }
  split; [spin; ring|]. repeat constructor.
Qed.
