(** CircleProofs.v -- lemmas about np_mod, angles and CircleMapUtils. *)
From Verif Require Import Base BaseProofs RealSum EMModel SpecEM EMProofs CircleModel SpecCircle DeltaFacts RepairProofs.
Local Open Scope R_scope.

Lemma np_mod_range x y : 0 < y -> 0 <= np_mod x y < y.
Proof.
  intros H; unfold np_mod; destruct (base_Int_part (x / y)) as [H1 H2].
  set (k := Int_part (x / y)) in *.
  assert (E : x = y * (x / y)) by (field; lra).
  set (q := x / y) in *; rewrite E; split; nra.
Qed.
Lemma np_mod_cong x y : y <> 0 -> exists k, x - np_mod x y = IZR k * y.
Proof. intros H; exists (Int_part (x / y)); unfold np_mod; ring. Qed.

Lemma mod_unique y a b k : 0 < y -> 0 <= a < y -> 0 <= b < y -> a - b = IZR k * y -> a = b.
Proof.
  intros Hy Ha Hb E.
  assert (k = 0%Z); [|subst k; lra].
  assert (-1 < k < 1)%Z; [|lia].
  split; apply lt_IZR; apply Rmult_lt_reg_r with y; lra.
Qed.
Lemma np_mod_eq_iff x x' y : 0 < y -> (np_mod x y = np_mod x' y <-> exists k, x - x' = IZR k * y).
Proof.
  intros Hy; destruct (np_mod_cong x y) as (k & E); [lra|]; destruct (np_mod_cong x' y) as (k' & E'); [lra|].
  split.
  - intros H; exists (k - k')%Z; rewrite minus_IZR; lra.
  - intros (j & H); apply (mod_unique y _ _ (j - k + k')%Z Hy); try apply np_mod_range, Hy.
    rewrite plus_IZR, minus_IZR; lra.
Qed.
Lemma np_mod_id x y : 0 <= x < y -> np_mod x y = x.
Proof.
  intros H; destruct (np_mod_cong x y) as (k & E); [lra|].
  apply (mod_unique y _ _ (- k)%Z); [lra|apply np_mod_range; lra|exact H|rewrite opp_IZR; lra].
Qed.

Lemma two_pi_pos : 0 < two_pi.
Proof. unfold two_pi; pose proof PI_RGT_0; lra. Qed.
Lemma mod_two_pi_range x : on_circle (np_mod x two_pi).
Proof. apply np_mod_range, two_pi_pos. Qed.
Lemma mod_two_pi_same x : same_angle (np_mod x two_pi) x.
Proof.
  destruct (np_mod_cong x two_pi) as (k & E); [pose proof two_pi_pos; lra|].
  exists (- k)%Z; rewrite opp_IZR; fold two_pi; lra.
Qed.
Lemma mod_same_iff x y : np_mod x two_pi = np_mod y two_pi <-> same_angle x y.
Proof. apply np_mod_eq_iff, two_pi_pos. Qed.
Lemma same_refl x : same_angle x x.
Proof. exists 0%Z; lra. Qed.
Lemma same_sym x y : same_angle x y -> same_angle y x.
Proof. intros (k & E); exists (- k)%Z; rewrite opp_IZR; lra. Qed.
Lemma same_trans x y z : same_angle x y -> same_angle y z -> same_angle x z.
Proof. intros (k & E) (j & F); exists (k + j)%Z; rewrite plus_IZR; lra. Qed.
Lemma same_add a b c d : same_angle a b -> same_angle c d -> same_angle (a + c) (b + d).
Proof. intros (k & E) (j & F); exists (k + j)%Z; rewrite plus_IZR; lra. Qed.
Lemma same_scal n a b : same_angle a b -> same_angle (IZR n * a) (IZR n * b).
Proof. intros (k & E); exists (n * k)%Z; rewrite mult_IZR. rewrite <- Rmult_minus_distr_l, E; ring. Qed.
Lemma same_sumn n f g : (forall i, (i < n)%nat -> same_angle (f i) (g i)) -> same_angle (sumn n f) (sumn n g).
Proof. induction n; cbn; intros H; [apply same_refl|]. apply same_add; [apply IHn; intros; apply H; lia|apply H; lia]. Qed.
Lemma same_circle_eq x y : on_circle x -> on_circle y -> same_angle x y -> x = y.
Proof. intros H1 H2 (k & E); apply (mod_unique two_pi _ _ k two_pi_pos H1 H2 E). Qed.

Lemma NoDup_app_iff_snoc {A} (l : list A) x : NoDup l -> ~ In x l -> NoDup (l ++ [x]).
Proof.
  induction 1 as [|y l Hy ND IH]; intros Hx; cbn [app]; constructor.
  - intros []. - constructor.
  - intros H; apply in_app_or in H; destruct H as [H|[<-|[]]]; [contradiction|apply Hx; left; reflexivity].
  - apply IH; intros H; apply Hx; right; exact H.
Qed.

Lemma positions_filter {A} (P : A -> bool) (cm : list A) :
  exists sub', length sub' = length (filter P cm) /\ NoDup sub' /\
    (forall a, In a sub' <-> exists x, nth_error cm a = Some x /\ P x = true).
Proof.
  induction cm as [|x l (s & L & ND & H)] using rev_ind.
        - exists []; split; [reflexivity|split; [constructor|]]. intros a; split; [contradiction|].
          intros (x & E & _); destruct a; discriminate.
        - rewrite filter_app; cbn [filter].
          assert (Hl : forall a, In a s -> (a < length l)%nat).
          { intros a Ha; apply H in Ha; destruct Ha as (y & E & _); apply some_lt in E; exact E. }
          assert (Hsnoc : forall a y, nth_error (l ++ [x]) a = Some y <->
                     (nth_error l a = Some y \/ (a = length l /\ y = x))).
          { intros a y; destruct (Nat.lt_ge_cases a (length l)) as [G|G].
            - rewrite nth_error_app1 by exact G; intuition lia.
            - rewrite nth_error_app2 by exact G. assert (Q : nth_error l a = None) by (apply nth_error_None; lia).
              rewrite Q; destruct (a - length l)%nat as [|q] eqn:Eq; cbn [nth_error].
              + split; [intros E; injection E as ->; right; split; [lia|reflexivity]|].
                intros [E|[_ ->]]; [discriminate|reflexivity].
              + split; [intros E; destruct q; discriminate|]. intros [E|[E _]]; [discriminate|lia]. }
          destruct (P x) eqn:Px.
          + exists (s ++ [length l]); rewrite !app_length; cbn [length]; split; [lia|split].
            * apply NoDup_app_iff_snoc; [exact ND|]. intros G; apply Hl in G; lia.
            * intros a; rewrite in_app_iff, H; split.
              -- intros [(y & E & Py)|[<-|[]]]; [exists y; split; [apply Hsnoc; left; exact E|exact Py]|].
                 exists x; split; [apply Hsnoc; right; split; reflexivity|exact Px].
              -- intros (y & E & Py); apply Hsnoc in E; destruct E as [E|[-> ->]];
                   [left; exists y; split; assumption|right; left; reflexivity].
          + exists s; rewrite app_nil_r; split; [exact L|split; [exact ND|]].
            intros a; rewrite H; split.
            * intros (y & E & Py); exists y; split; [apply Hsnoc; left; exact E|exact Py].
            * intros (y & E & Py); apply Hsnoc in E; destruct E as [E|[_ ->]];
                [exists y; split; assumption|congruence].
Qed.

Lemma filter_none' {A} (f : A -> bool) l : (forall x, In x l -> f x = false) -> filter f l = [].
Proof.
  induction l as [|x l IH]; intros H; cbn [filter]; [reflexivity|].
  rewrite H by (left; reflexivity); apply IH; intros; apply H; right; assumption.
Qed.
Lemma map_repeat' {A B} (f : A -> B) x n : map f (repeat x n) = repeat (f x) n.
Proof. induction n; cbn; [reflexivity|f_equal; exact IHn]. Qed.

(** ** argmax *)
Lemma argmax_from_spec l : forall best pos i,
  let p := argmax_from best pos i l in
  (p = pos /\ (forall j x, nth_error l j = Some x -> (x <= best)%nat)) \/
  (exists j x, p = (i + j)%nat /\ nth_error l j = Some x /\ (best < x)%nat /\
     (forall j' x', nth_error l j' = Some x' -> (x' <= x)%nat) /\
     (forall j' x', (j' < j)%nat -> nth_error l j' = Some x' -> (x' < x)%nat)).
Proof.
  induction l as [|y l IH]; intros best pos i; cbn [argmax_from].
  - left; split; [reflexivity|intros [|j] x; discriminate].
  - destruct (Nat.ltb_spec best y) as [H|H].
    + destruct (IH y i (S i)) as [(E & F)|(j & x & E & N & B & F & G)]; cbv zeta in *.
      * right; exists 0%nat, y; rewrite E; split; [lia|]. split; [reflexivity|split; [exact H|]].
        split; [intros [|j'] x' Ex; cbn in Ex; [injection Ex as <-; lia|apply (F _ _ Ex)]|intros; lia].
      * right; exists (S j), x; rewrite E; split; [lia|]. split; [exact N|split; [lia|]]. split.
        -- intros [|j'] x' Ex; cbn in Ex; [injection Ex as <-; lia|apply (F _ _ Ex)].
        -- intros [|j'] x' Hj Ex; cbn in Ex; [injection Ex as <-; lia|apply (G j'); [lia|exact Ex]].
    + destruct (IH best pos (S i)) as [(E & F)|(j & x & E & N & B & F & G)]; cbv zeta in *.
      * left; split; [exact E|]. intros [|j'] x' Ex; cbn in Ex; [injection Ex as <-; exact H|apply (F _ _ Ex)].
      * right; exists (S j), x; rewrite E; split; [lia|]. split; [exact N|split; [lia|]]. split.
        -- intros [|j'] x' Ex; cbn in Ex; [injection Ex as <-; lia|apply (F _ _ Ex)].
        -- intros [|j'] x' Hj Ex; cbn in Ex; [injection Ex as <-; lia|apply (G j'); [lia|exact Ex]].
Qed.

Lemma np_argmax_ok l : l <> [] -> exists p x, np_argmax l = Ok p /\ nth_error l p = Some x /\
  (forall j y, nth_error l j = Some y -> (y <= x)%nat) /\
  (forall j y, (j < p)%nat -> nth_error l j = Some y -> (y < x)%nat).
Proof.
  destruct l as [|x l]; [congruence|]; intros _; cbn [np_argmax].
  destruct (argmax_from_spec l x 0 1) as [(E & F)|(j & y & E & N & B & F & G)]; cbv zeta in *.
  - exists 0%nat, x; rewrite E; split; [reflexivity|split; [reflexivity|split; [|intros; lia]]].
    intros [|j] y Ey; cbn in Ey; [injection Ey as <-; lia|apply (F _ _ Ey)].
  - exists (S j), y; rewrite E; split; [reflexivity|split; [exact N|split]].
    + intros [|j'] y' Ey; cbn in Ey; [injection Ey as <-; lia|apply (F _ _ Ey)].
    + intros [|j'] y' Hj Ey; cbn in Ey; [injection Ey as <-; lia|apply (G j'); [lia|exact Ey]].
Qed.

(** ** linear combinations *)
Lemma dot_nan_some u (xs : list R) : length u = length xs ->
  dot_nan u (map Some xs) = Some (sumn (length xs) (fun j => nth j u 0 * nth j xs 0)).
Proof.
  revert xs; induction u as [|a u IH]; intros [|x xs] L; try discriminate L; [reflexivity|].
  injection L as L; unfold dot_nan in *; cbn [map combine fold_right option_map fst snd length].
  rewrite (IH xs L); cbn [add_nan]; rewrite sumn_first; cbn [nth]; reflexivity.
Qed.
Lemma dot_nan_none u v : length u = length v -> In None v -> dot_nan u v = None.
Proof.
  revert v; induction u as [|a u IH]; intros [|x v] L; try discriminate L; [contradiction|].
  injection L as L; unfold dot_nan in *; cbn [map combine fold_right option_map fst snd].
  intros [->|H]; [reflexivity|]. rewrite (IH v L H); destruct x; reflexivity.
Qed.

Lemma all_some {A} (v : list (option A)) : (exists xs, v = map Some xs) \/ In None v.
Proof.
  induction v as [|[x|] v IH]; [left; exists []; reflexivity| |right; left; reflexivity].
  destruct IH as [(xs & ->)|H]; [left; exists (x :: xs); reflexivity|right; right; exact H].
Qed.

Lemma entry_nth {A} (M : list (list A)) n m i j d : matrix n m M -> (i < n)%nat -> (j < m)%nat ->
  entry M i j (nth j (nth i M []) d).
Proof.
  intros HM Hi Hj; destruct (matrix_entry n m M i j HM Hi Hj) as (x & row & E1 & E2).
  exists row; split; [exact E1|]. rewrite (nth_error_nth _ _ _ E1), E2; f_equal; symmetry.
  apply nth_error_nth, E2.
Qed.

Lemma entry_at2 {A} (M : list (list A)) i j x d : entry M i j x -> at2 d M i j = x.
Proof. intros (row & E1 & E2); unfold at2; rewrite (nth_error_nth _ _ _ E1); apply nth_error_nth, E2. Qed.
Lemma at2_entry {A} (M : list (list A)) n m i j d : matrix n m M -> (i < n)%nat -> (j < m)%nat ->
  entry M i j (at2 d M i j).
Proof. apply entry_nth. Qed.

Lemma matrix_mk2 {A} n m (f : nat -> nat -> A) : matrix n m (mk2 n m f).
Proof.
  split; [apply length_mk2|]. unfold mk2; apply Forall_map, Forall_forall; intros.
  rewrite map_length, seq_length; reflexivity.
Qed.
Lemma matrix_ext {A} n m (M N : list (list A)) (d : A) : matrix n m M -> matrix n m N ->
  (forall i j, (i < n)%nat -> (j < m)%nat -> at2 d M i j = at2 d N i j) -> M = N.
Proof.
  intros HM HN H; apply (list_eq_nth M N).
  { destruct HM, HN; congruence. }
  intros i Hi; assert (Hi' : (i < n)%nat) by (destruct HM; lia).
  destruct (nth_error M i) as [r|] eqn:E1; [|apply nth_error_None in E1; destruct HM; lia].
  destruct (nth_error N i) as [r'|] eqn:E2; [|apply nth_error_None in E2; destruct HN; lia].
  pose proof (matrix_row _ _ _ _ _ HM E1) as L1; pose proof (matrix_row _ _ _ _ _ HN E2) as L2.
  f_equal; apply (nth_ext r r' d d); [congruence|]. intros j Hj.
  specialize (H i j Hi' ltac:(lia)); unfold at2 in H.
  rewrite (nth_error_nth _ _ _ E1), (nth_error_nth _ _ _ E2) in H; exact H.
Qed.

Definition real_mat (M : list (list Z)) : list (list R) := map (map IZR) M.
Lemma real_mat_matrix n m M : matrix n m M -> matrix n m (real_mat M).
Proof.
  intros [L F]; split; [unfold real_mat; rewrite map_length; exact L|].
  apply Forall_map; eapply Forall_impl; [|exact F]; cbn beta; intros; rewrite map_length; assumption.
Qed.
Lemma nth_map_IZR j l : nth j (map IZR l) 0 = IZR (nth j l 0%Z).
Proof. rewrite <- (map_nth IZR); reflexivity. Qed.
Lemma at2_real_mat M i j : at2 0 (real_mat M) i j = IZR (at2 0%Z M i j).
Proof.
  unfold at2, real_mat. change (@nil R) with (map IZR []).
  rewrite (map_nth (map IZR)); apply nth_map_IZR.
Qed.

(** The entries of the result of [linear_combination]. *)
Lemma lincomb_entry rows A k l n i b row : matrix k n A -> matrix l k rows ->
  nth_error rows i = Some row -> (b < n)%nat ->
  let out := map (map mod_nan) (mat_maps rows A n) in
  ((exists xs, length xs = k /\ (forall j, (j < k)%nat -> entry A j b (Some (nth j xs 0))) /\
      entry out i b (Some (np_mod (sumn k (fun j => nth j row 0 * nth j xs 0)) two_pi))) \/
   ((exists j, (j < k)%nat /\ entry A j b None) /\ entry out i b None)).
Proof.
  intros HA HR Er Hb out.
  pose proof (matrix_row _ _ _ _ _ HR Er) as Lr.
  assert (Eo : forall v, v = mod_nan (dot_nan row (map (fun cm => nth b cm None) A)) -> entry out i b v).
  { intros v ->; unfold entry, out, mat_maps; rewrite !nth_error_map, Er; cbn [option_map].
    eexists; split; [reflexivity|]. rewrite nth_error_map, nth_error_map_seq by exact Hb; reflexivity. }
  destruct HA as [LA FA].
  destruct (all_some (map (fun cm => nth b cm None) A)) as [(xs & E)|Hn].
  - left; exists xs; assert (Lx : length xs = k).
    { apply (f_equal (@length _)) in E; rewrite !map_length in E; congruence. }
    split; [exact Lx|split].
    + intros j Hj; destruct (matrix_entry k n A j b (conj LA FA) Hj Hb) as (x & r & E1 & E2).
      exists r; split; [exact E1|]; rewrite E2.
      apply (f_equal (fun v => nth_error v j)) in E; rewrite !nth_error_map, E1 in E; cbn [option_map] in E.
      rewrite (nth_error_nth' xs 0) in E by lia; cbn [option_map] in E; injection E as E.
      rewrite (nth_error_nth _ _ _ E2) in E; congruence.
    + apply Eo; rewrite E, dot_nan_some by congruence; rewrite Lx; reflexivity.
  - right; split.
    + apply In_nth_error in Hn; destruct Hn as (j & Ej); rewrite nth_error_map in Ej.
      destruct (nth_error A j) as [r|] eqn:E1; [|discriminate]; cbn in Ej; injection Ej as Ej.
      exists j; split; [apply some_lt in E1; lia|]. exists r; split; [exact E1|].
      rewrite <- Ej; apply nth_error_nth'; rewrite (matrix_row _ _ _ _ _ (conj LA FA) E1); exact Hb.
    + apply Eo; rewrite dot_nan_none; [reflexivity|rewrite map_length; congruence|exact Hn].
Qed.

Lemma lincomb_shape rows A n k l : matrix l k rows -> matrix k n A ->
  matrix l n (map (map mod_nan) (mat_maps rows A n)).
Proof.
  intros [L F] HA; unfold mat_maps; split; [rewrite !map_length; exact L|].
  apply Forall_map, Forall_map, Forall_forall; intros; rewrite !map_length, seq_length; reflexivity.
Qed.

Lemma shape1_A k n (A : list (list (option R))) : matrix k n A -> (1 <= k)%nat -> length (hd [] A) = n.
Proof. intros [L F] H; destruct A as [|r A]; [cbn in L; lia|]. inversion F; subst; reflexivity. Qed.

Lemma lincomb_ok rows A k l n : matrix k n A -> matrix l k rows -> (1 <= k)%nat -> (1 <= l)%nat ->
  linear_combination A (Coeffs2 rows) = Ok (Maps2 (map (map mod_nan) (mat_maps rows A n))).
Proof.
  intros HA HR Hk Hl; unfold linear_combination.
  rewrite (shape1_A k n A HA Hk); destruct HA as [LA FA].
  rewrite (proj2 (Nat.eqb_neq (length A) 0)) by lia; cbn [negb].
  assert (Lr : length (hd [] rows) = k).
  { destruct HR as [L F]; destruct rows; [cbn in L; lia|]; inversion F; assumption. }
  rewrite Lr, LA, Nat.eqb_refl; reflexivity.
Qed.

(** ** sines *)
Lemma cos_sin_same a b : cos a = cos b -> sin a = sin b -> same_angle a b.
Proof.
  intros Hc Hs.
  assert (H : cos (a - b) = 1).
  { rewrite cos_minus, Hc, Hs; pose proof (sin2_cos2 b) as E; unfold Rsqr in E; lra. }
  assert (S0 : sin ((a - b) / 2) = 0).
  { replace (a - b) with (2 * ((a - b) / 2)) in H by field; rewrite cos_2a_sin in H.
    assert (G : sin ((a - b) / 2) * sin ((a - b) / 2) = 0) by lra.
    apply Rmult_integral in G; tauto. }
  apply sin_eq_0_0 in S0; destruct S0 as (k & E); exists k; lra.
Qed.
Lemma sin_sq x : (sin x) ^ 2 = (1 - cos (2 * x)) / 2.
Proof. rewrite cos_2a_sin; field. Qed.
Lemma sin_period_Z x k : sin (x + 2 * IZR k * PI) = sin x.
Proof.
  destruct (Z_le_gt_dec 0 k) as [H|H].
  - rewrite <- (Z2Nat.id k H), <- INR_IZR_INZ; apply sin_period.
  - rewrite <- (sin_period (x + 2 * IZR k * PI) (Z.to_nat (- k))).
    rewrite INR_IZR_INZ, Z2Nat.id, opp_IZR by lia; f_equal; ring.
Qed.
Lemma cos_period_Z x k : cos (x + 2 * IZR k * PI) = cos x.
Proof.
  destruct (Z_le_gt_dec 0 k) as [H|H].
  - rewrite <- (Z2Nat.id k H), <- INR_IZR_INZ; apply cos_period.
  - rewrite <- (cos_period (x + 2 * IZR k * PI) (Z.to_nat (- k))).
    rewrite INR_IZR_INZ, Z2Nat.id, opp_IZR by lia; f_equal; ring.
Qed.

Definition sq3 : R := sqrt 3.
Lemma sinebow_values x : let a := 2 * PI * (x / two_pi + 1 / 2) in
  sinebow1 x = [(1 + cos a) / 2; (1 - (cos a / 2 - sq3 / 2 * sin a)) / 2;
                (1 - (cos a / 2 + sq3 / 2 * sin a)) / 2].
Proof.
  intros a; unfold sinebow1; set (h := np_mod (x / two_pi + 1 / 2) 1).
  destruct (np_mod_cong (x / two_pi + 1 / 2) 1) as (k & E); [lra|]; fold h in E.
  assert (C : cos (2 * PI * h) = cos a /\ sin (2 * PI * h) = sin a).
  { replace a with (2 * PI * h + 2 * IZR k * PI) by (unfold a; replace (x / two_pi + 1 / 2) with (h + IZR k) by lra; ring).
    rewrite cos_period_Z, sin_period_Z; split; reflexivity. }
  destruct C as [C S].
  unfold sinebow_f; rewrite !sin_sq.
  replace (2 * (PI * (3 / 6 - h))) with (PI - 2 * PI * h) by field.
  replace (2 * (PI * (5 / 6 - h))) with (2 * PI - (PI / 3 + 2 * PI * h)) by field.
  replace (2 * (PI * (7 / 6 - h))) with (2 * PI + (PI / 3 - 2 * PI * h)) by field.
  assert (E1 : cos (PI - 2 * PI * h) = - cos a).
  { rewrite cos_minus, cos_PI, sin_PI, C; ring. }
  assert (E2 : cos (2 * PI - (PI / 3 + 2 * PI * h)) = cos a / 2 - sq3 / 2 * sin a).
  { rewrite cos_minus, cos_2PI, sin_2PI, cos_plus, cos_PI3, sin_PI3, C, S; unfold sq3; field. }
  assert (E3 : cos (2 * PI + (PI / 3 - 2 * PI * h)) = cos a / 2 + sq3 / 2 * sin a).
  { rewrite cos_plus, cos_2PI, sin_2PI, cos_minus, cos_PI3, sin_PI3, C, S; unfold sq3; field. }
  rewrite E1, E2, E3; f_equal; lra.
Qed.

(** ** level sets *)
(** [triangle (x mod 2)] is the distance to the nearest even integer. *)
Lemma tri_le x m : triangle (np_mod x 2) <= Rabs (x - 2 * IZR m).
Proof.
  destruct (np_mod_cong x 2) as (k & E); [lra|]; pose proof (np_mod_range x 2 ltac:(lra)) as Rg.
  set (y := np_mod x 2) in *; unfold triangle.
  replace (x - 2 * IZR m) with (y + IZR (k - m) * 2) by (rewrite minus_IZR; lra).
  destruct (Z_le_gt_dec 0 (k - m)) as [H|H].
  - apply IZR_le in H. rewrite Rabs_right by lra. destruct (Rltb y 1) eqn:F; [lra|apply Rltb_false in F; lra].
  - assert (H' : (k - m <= -1)%Z) by lia; apply IZR_le in H'.
    rewrite Rabs_left1 by lra. destruct (Rltb y 1) eqn:F; [apply Rltb_true in F; lra|lra].
Qed.
Lemma tri_ex x : exists m, triangle (np_mod x 2) = Rabs (x - 2 * IZR m).
Proof.
  destruct (np_mod_cong x 2) as (k & E); [lra|]; pose proof (np_mod_range x 2 ltac:(lra)) as Rg.
  set (y := np_mod x 2) in *; unfold triangle; destruct (Rltb y 1) eqn:F.
  - exists k; rewrite Rabs_right by lra; lra.
  - exists (k + 1)%Z; rewrite plus_IZR, Rabs_left1 by lra; lra.
Qed.
Lemma tri_lip x y : Rabs (triangle (np_mod x 2) - triangle (np_mod y 2)) <= Rabs (x - y).
Proof.
  destruct (tri_ex x) as (m & Em); destruct (tri_ex y) as (m' & Em').
  pose proof (tri_le y m); pose proof (tri_le x m').
  pose proof (Rabs_triang (y - x) (x - 2 * IZR m)); pose proof (Rabs_triang (x - y) (y - 2 * IZR m')).
  pose proof (Rabs_minus_sym x y).
  replace (y - x + (x - 2 * IZR m)) with (y - 2 * IZR m) in * by ring.
  replace (x - y + (y - 2 * IZR m')) with (x - 2 * IZR m') in * by ring.
  apply Rabs_le; split; lra.
Qed.
Lemma tri_continuous : continuity (fun x => triangle (np_mod x 2)).
Proof.
  intros x eps He; exists eps; split; [exact He|]; intros y [_ Hy].
  unfold dist in *; cbn in *; unfold R_dist in *. eapply Rle_lt_trans; [apply tri_lip|exact Hy].
Qed.
Lemma sigmoid_continuous k : continuity (sigmoid k).
Proof.
  unfold sigmoid; intros x; apply derivable_continuous_pt.
  apply derivable_pt_div; [reg|reg|]. pose proof (exp_pos (- ((x - 1 / 2) * 2) / k)); lra.
Qed.
Lemma sigmoid_range k x : 0 < sigmoid k x < 1.
Proof.
  unfold sigmoid; set (e := exp _); assert (0 < e) by apply exp_pos.
  split; [apply Rdiv_lt_0_compat; lra|]. apply Rmult_lt_reg_r with (1 + e); [lra|].
  unfold Rdiv; rewrite Rmult_assoc, Rinv_l by lra; lra.
Qed.

Lemma Int_part_eq x k : IZR k <= x < IZR k + 1 -> Int_part x = k.
Proof.
  intros H; destruct (base_Int_part x) as [H1 H2].
  assert (Int_part x - 1 < k < Int_part x + 1)%Z; [|lia].
  split; apply lt_IZR; rewrite ?minus_IZR, ?plus_IZR; lra.
Qed.
Lemma mod_IZR_2 k : np_mod (IZR k) 2 = IZR (k mod 2).
Proof.
  pose proof (Z.mod_pos_bound k 2 ltac:(lia)) as Hb; destruct Hb as [B1 B2].
  apply IZR_le in B1; apply IZR_lt in B2.
  rewrite <- (np_mod_id (IZR (k mod 2)) 2) by lra.
  apply np_mod_eq_iff; [lra|]. exists (k / 2)%Z. rewrite <- minus_IZR, <- mult_IZR; f_equal.
  pose proof (Z.div_mod k 2 ltac:(lia)); lia.
Qed.
