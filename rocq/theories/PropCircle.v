(** PropCircle.v -- theorems C53-C57: CircleMapUtils. *)
From Verif Require Import Base BaseProofs RealSum EMModel SpecEM EMProofs CircleModel SpecCircle
  CircleProofs DeltaFacts RepairProofs.
Local Open Scope R_scope.

(** C53: rotation offsets. *)
Theorem C53_offset :
  (forall circle_map off, Forall2 (fun x y => on_circle y /\ same_angle y (x + off * (2 * PI)))
     circle_map (offset circle_map off)) /\
  (forall circle_map a b, offset (offset circle_map a) b = offset circle_map (a + b)) /\
  (forall circle_map (k : Z), Forall on_circle circle_map -> offset circle_map (IZR k) = circle_map) /\
  (forall circle_map a b, length circle_map <> 0%nat ->
     (offset circle_map a = offset circle_map b <-> exists k : Z, a - b = IZR k)).
Proof.
  pose proof two_pi_pos as P; split; [|split; [|split]].
  - intros cm off; induction cm; cbn [offset map]; constructor; [|exact IHcm].
    split; [apply mod_two_pi_range|apply mod_two_pi_same].
  - intros cm a b; unfold offset; rewrite map_map; apply map_ext; intros x; apply mod_same_iff.
    destruct (mod_two_pi_same (x + a * two_pi)) as (k & E); exists k; fold two_pi in E |- *; lra.
  - intros cm k F; unfold offset; rewrite <- (map_id cm) at 2; apply map_ext_in; intros x Hx.
    rewrite Forall_forall in F; rewrite <- (np_mod_id x two_pi) at 2 by (apply F, Hx).
    apply mod_same_iff; exists k; fold two_pi; lra.
  - intros cm a b Hl; split.
    + destruct cm as [|x cm]; [cbn in Hl; congruence|]; intros E; injection E as E _.
      apply mod_same_iff in E; destruct E as (k & E); exists k; fold two_pi in E.
      apply Rmult_eq_reg_r with two_pi; lra.
    + intros (k & E); apply map_ext; intros x; apply mod_same_iff; exists k; fold two_pi.
      rewrite <- E; ring.
Qed.
Print Assumptions C53_offset.

Example C53_nonvacuous : Forall on_circle [0; PI; PI / 2] /\
  offset [0; PI / 2] (1 / 2) = [PI; 3 * (PI / 2)].
Proof.
  pose proof PI_RGT_0; split.
  - repeat apply Forall_cons; try apply Forall_nil; split; lra.
  - unfold offset, two_pi; cbn [map]; rewrite !np_mod_id by lra; f_equal; [lra|f_equal; lra].
Qed.

(** C54: centering.  The bins are 50 equal intervals between the least and the greatest
    value (numpy's convention); [tick k] is the left end of bin [k]. *)
Theorem C54_center :
  forall circle_map lo hi, In lo circle_map -> In hi circle_map -> lo < hi ->
  (forall x, In x circle_map -> lo <= x <= hi) ->
  let tick k := lo + INR k * ((hi - lo) / 50) in
  let in_bin k x := tick k <= x /\ (x < tick (k + 1)%nat \/ (k = 49%nat /\ x = hi)) in
  exists k result,
    center circle_map = Ok result /\ (k < 50)%nat /\
    (* bin k is the first fullest one *)
    (forall count, (forall i, (i < 50)%nat -> exists sub, length sub = count i /\ NoDup sub /\
        (forall a, In a sub <-> exists x, nth_error circle_map a = Some x /\ in_bin i x)) ->
      forall i, (i < 50)%nat -> (count i <= count k)%nat /\ ((i < k)%nat -> (count i < count k)%nat)) /\
    (* one common rotation, which sends its left end to pi *)
    Forall2 (fun x y => on_circle y /\ same_angle y (x + (PI - tick k))) circle_map result /\
    (forall a, nth_error circle_map a = Some (tick k) -> nth_error result a = Some PI).
Proof.
  intros cm lo hi Hlo Hhi Hlt Hb tick in_bin.
  assert (Er : histogram_range cm = (lo, hi)).
  { destruct cm as [|x r]; [contradiction|]; unfold histogram_range.
    destruct (fold_min_spec r x) as (M1 & M2 & M3); destruct (fold_max_spec r x) as (N1 & N2 & N3).
    assert (Emin : fold_left Rmin r x = lo).
    { apply Rle_antisym; [destruct Hlo as [<-|Hlo]; [exact M1|apply M2, Hlo]|].
      destruct M3 as [->|M3]; apply Hb; [left; reflexivity|right; exact M3]. }
    assert (Emax : fold_left Rmax r x = hi).
    { apply Rle_antisym; [|destruct Hhi as [<-|Hhi]; [exact N1|apply N2, Hhi]].
      destruct N3 as [->|N3]; apply Hb; [left; reflexivity|right; exact N3]. }
    rewrite Emin, Emax, (proj2 (Reqb_false lo hi)) by lra; reflexivity. }
  assert (E50 : INR 50 = 50) by (rewrite INR_IZR_INZ; reflexivity).
  assert (Et : forall i, histogram_tick cm 50 i = tick i).
  { intros i; unfold histogram_tick; rewrite Er, E50; reflexivity. }
  assert (T50 : tick 50%nat = hi) by (unfold tick; rewrite E50; field).
  unfold center, np_histogram.
  destruct (np_argmax_ok (map (histogram_count cm 50) (seq 0 50))) as (k & v & Ek & Nk & Hmax & Hfirst).
  { discriminate. }
  rewrite Ek; cbn [bind].
  assert (Hk : (k < 50)%nat).
  { apply some_lt in Nk; rewrite map_length, seq_length in Nk; exact Nk. }
  unfold get; rewrite nth_error_map_seq by lia; cbn [bind]; rewrite Et.
  rewrite nth_error_map_seq in Nk by exact Hk; injection Nk as <-.
  exists k; eexists; split; [reflexivity|]. split; [exact Hk|]. split; [|split].
  - intros count Hc.
    assert (Ec : forall i, (i < 50)%nat -> count i = histogram_count cm 50 i).
    { intros i Hi; destruct (Hc i Hi) as (sub & <- & ND & Hs); unfold histogram_count.
      set (P := fun x => Rleb (histogram_tick cm 50 i) x &&
        (if (i =? 50 - 1)%nat then Rleb x (histogram_tick cm 50 (i + 1))
         else Rltb x (histogram_tick cm 50 (i + 1)))).
      assert (HP : forall x, In x cm -> (P x = true <-> in_bin i x)).
      { intros x Hx; specialize (Hb x Hx); unfold P, in_bin; rewrite !Et, andb_true_iff, Rleb_true.
        destruct (Nat.eqb_spec i (50 - 1)) as [->|Hn].
        - rewrite Rleb_true; change (50 - 1)%nat with 49%nat; change (49 + 1)%nat with 50%nat; rewrite T50.
          split; [intros [G1 G2]; split; [exact G1|]|intros [G1 G2]; split; [exact G1|lra]].
          destruct (Req_dec x hi); [right; split; [reflexivity|assumption]|left; lra].
        - rewrite Rltb_true; split; [tauto|]. intros [G1 [G2|[G2 _]]]; [tauto|lia]. }
      (* number of positions = number of filtered values *)
      assert (Q : exists sub', length sub' = length (filter P cm) /\ NoDup sub' /\
        (forall a, In a sub' <-> exists x, nth_error cm a = Some x /\ P x = true)).
      { apply positions_filter. }
      destruct Q as (sub' & L' & ND' & Hs'); fold P; rewrite <- L'.
      assert (G : forall a, In a sub <-> In a sub').
      { intros a; rewrite Hs, Hs'; split; intros (x & E & Hx); exists x; (split; [exact E|]);
          apply (HP x (nth_error_In _ _ E)), Hx. }
      apply Nat.le_antisymm; apply NoDup_incl_length; try assumption; intros a; apply G. }
    intros i Hi; rewrite !Ec by assumption; split.
    + apply (Hmax i); rewrite nth_error_map_seq by exact Hi; reflexivity.
    + intros Hik; apply (Hfirst i); [exact Hik|]; rewrite nth_error_map_seq by exact Hi; reflexivity.
  - clear -cm; induction cm as [|x l IH]; cbn [map]; constructor; [|exact IH].
    split; [apply mod_two_pi_range|]. eapply same_trans; [apply mod_two_pi_same|].
    exists 0%Z; lra.
  - intros a Ea; rewrite nth_error_map, Ea; cbn [option_map]; f_equal.
    pose proof PI_RGT_0; replace (tick k - tick k + PI) with PI by ring.
    apply np_mod_id; unfold two_pi; lra.
Qed.
Print Assumptions C54_center.

(** The remaining inputs: all points equal (all sent to pi), and no points. *)
Theorem C54_center_degenerate :
  center [] = Ok [] /\
  forall x n, center (repeat x (S n)) = Ok (repeat PI (S n)).
Proof.
  split.
  - unfold center, np_histogram.
    destruct (np_argmax_ok (map (histogram_count [] 50) (seq 0 50))) as (k & v & Ek & Nk & _); [discriminate|].
    rewrite Ek; cbn [bind].
    assert (Hk : (k < 50)%nat) by (apply some_lt in Nk; rewrite map_length, seq_length in Nk; exact Nk).
    unfold get; rewrite nth_error_map_seq by lia; reflexivity.
  - intros x n; set (cm := repeat x (S n)).
    assert (Er : histogram_range cm = (x - 1 / 2, x + 1 / 2)).
    { unfold histogram_range, cm; cbn [repeat].
      destruct (fold_min_spec (repeat x n) x) as (_ & _ & M3).
      destruct (fold_max_spec (repeat x n) x) as (_ & _ & N3).
      assert (Emin : fold_left Rmin (repeat x n) x = x) by (destruct M3 as [M3|M3]; [exact M3|apply repeat_spec in M3; exact M3]).
      assert (Emax : fold_left Rmax (repeat x n) x = x) by (destruct N3 as [N3|N3]; [exact N3|apply repeat_spec in N3; exact N3]).
      rewrite Emin, Emax, (proj2 (Reqb_true x x) eq_refl); reflexivity. }
    assert (Et : forall i, histogram_tick cm 50 i = x - 1 / 2 + INR i / 50).
    { intros i; unfold histogram_tick; rewrite Er; rewrite (INR_IZR_INZ 50); field_simplify; reflexivity || lra. }
    assert (Ec : forall i, (i < 50)%nat -> i <> 25%nat -> histogram_count cm 50 i = 0%nat).
    { intros i Hi Hn; unfold histogram_count.
      rewrite (filter_none' _ cm); [reflexivity|]. intros y Hy; apply repeat_spec in Hy; subst y.
      rewrite !Et. assert (C : (i < 25)%nat \/ (25 < i)%nat) by lia; destruct C as [C|C].
      - apply andb_false_iff; right. assert (Hi' : INR (i + 1) <= INR 25) by (apply le_INR; lia).
        rewrite (INR_IZR_INZ 25) in Hi'; cbn [Z.of_nat Pos.of_succ_nat Pos.succ] in Hi'.
        rewrite (proj2 (Nat.eqb_neq i (50 - 1))) by lia. apply Rltb_false; lra.
      - apply andb_false_iff; left; apply Rleb_false; assert (Hi' : INR 26 <= INR i) by (apply le_INR; lia).
        rewrite (INR_IZR_INZ 26) in Hi'; cbn [Z.of_nat Pos.of_succ_nat Pos.succ] in Hi'; lra. }
    assert (E25 : (1 <= histogram_count cm 50 25)%nat).
    { unfold histogram_count. assert (In x (filter (fun y =>
        Rleb (histogram_tick cm 50 25) y &&
        (if (25 =? 50 - 1)%nat then Rleb y (histogram_tick cm 50 (25 + 1))
         else Rltb y (histogram_tick cm 50 (25 + 1)))) cm)) as H.
      { apply filter_In; split; [left; reflexivity|]. rewrite !Et; change (25 =? 50 - 1)%nat with false; cbv iota.
        change (25 + 1)%nat with 26%nat; rewrite (INR_IZR_INZ 25), (INR_IZR_INZ 26); cbn [Z.of_nat Pos.of_succ_nat Pos.succ].
        apply andb_true_iff; split; [apply Rleb_true; lra|apply Rltb_true; lra]. }
      destruct (filter _ cm); [contradiction|cbn; lia]. }
    unfold center, np_histogram.
    destruct (np_argmax_ok (map (histogram_count cm 50) (seq 0 50))) as (k & v & Ek & Nk & Hmax & _); [discriminate|].
    rewrite Ek; cbn [bind].
    assert (Hk : (k < 50)%nat) by (apply some_lt in Nk; rewrite map_length, seq_length in Nk; exact Nk).
    rewrite nth_error_map_seq in Nk by exact Hk; injection Nk as <-.
    assert (k = 25%nat) as ->.
    { destruct (Nat.eq_dec k 25) as [E|E]; [exact E|exfalso].
      pose proof (Hmax 25%nat (histogram_count cm 50 25)) as H.
      rewrite nth_error_map_seq in H by lia; specialize (H eq_refl); rewrite (Ec k Hk E) in H; lia. }
    unfold get; rewrite nth_error_map_seq by lia; cbn [bind]; rewrite Et.
    f_equal; unfold cm; rewrite map_repeat'; f_equal.
    rewrite (INR_IZR_INZ 25); cbn [Z.of_nat Pos.of_succ_nat Pos.succ].
    replace (x - (x - 1 / 2 + 25 / 50) + PI) with PI by field.
    pose proof PI_RGT_0; apply np_mod_id; unfold two_pi; lra.
Qed.
Print Assumptions C54_center_degenerate.

Example C54_nonvacuous : In 0 [0; 1; 3] /\ In 3 [0; 1; 3] /\ 0 < 3 /\
  (forall x, In x [0; 1; 3] -> 0 <= x <= 3).
Proof.
  split; [left; reflexivity|split; [right; right; left; reflexivity|split; [lra|]]].
  intros x [<-|[<-|[<-|[]]]]; lra.
Qed.

(** C55: integer linear combinations. *)
Theorem C55_linear_combination :
  forall M A l k n, matrix l k M -> matrix k n A -> (1 <= l)%nat -> (1 <= k)%nat ->
  exists out, linear_combination A (Coeffs2 (map (map IZR) M)) = Ok (Maps2 out) /\ matrix l n out /\
    (forall i b, (i < l)%nat -> (b < n)%nat ->
       (* NaN exactly where one of the given maps is NaN *)
       ((exists j, entry A j b None) -> entry out i b None) /\
       (* the combination as a point of the circle, otherwise *)
       (forall x, (forall j, (j < k)%nat -> entry A j b (Some (x j))) ->
          exists y, entry out i b (Some y) /\ on_circle y /\
            same_angle y (sumn k (fun j => IZR (at2 0%Z M i j) * x j)))).
Proof.
  intros M A l k n HM HA Hl Hk.
  pose proof (real_mat_matrix l k M HM) as HR; fold (real_mat M).
  eexists; split; [apply (lincomb_ok (real_mat M) A k l n HA HR Hk Hl)|].
  split; [apply (lincomb_shape _ _ _ k l HR HA)|].
  intros i b Hi Hb.
  destruct (nth_error (real_mat M) i) as [row|] eqn:Er; [|apply nth_error_None in Er; destruct HR; lia].
  assert (Erow : forall j, nth j row 0 = IZR (at2 0%Z M i j)).
  { intros j; rewrite <- at2_real_mat; unfold at2; rewrite (nth_error_nth _ _ _ Er); reflexivity. }
  destruct (lincomb_entry (real_mat M) A k l n i b row HA HR Er Hb) as [(xs & Lx & Hx & He)|[(j & Hj & Hn) He]].
  - split.
    + intros (j & Hn); pose proof (entry_bounds _ _ _ _ _ _ HA Hn) as [Hj _].
      pose proof (entry_unique _ _ _ _ _ Hn (Hx j Hj)); discriminate.
    + intros x H; eexists; split; [exact He|split; [apply mod_two_pi_range|]].
      eapply same_trans; [apply mod_two_pi_same|].
      rewrite (sumn_ext k _ (fun j => IZR (at2 0%Z M i j) * x j)); [apply same_refl|].
      intros j Hj; rewrite Erow; f_equal.
      pose proof (entry_unique _ _ _ _ _ (H j Hj) (Hx j Hj)) as E; injection E as ->; reflexivity.
  - split; [intros _; exact He|]. intros x H; pose proof (entry_unique _ _ _ _ _ Hn (H j Hj)); discriminate.
Qed.
Print Assumptions C55_linear_combination.

(** Functoriality and identity. *)
Theorem C55_functorial :
  forall M N A m l k n, matrix m l M -> matrix l k N -> matrix k n A ->
  (1 <= m)%nat -> (1 <= l)%nat -> (1 <= k)%nat ->
  exists out, linear_combination A (Coeffs2 (map (map IZR) N)) = Ok (Maps2 out) /\
    linear_combination out (Coeffs2 (map (map IZR) M)) =
    linear_combination A (Coeffs2 (map (map IZR) (zmat_mul m l M N k))).
Proof.
  intros M N A m l k n HM HN HA Hm Hl Hk.
  assert (HP : matrix m k (zmat_mul m l M N k)) by apply matrix_mk2.
  destruct (C55_linear_combination N A l k n HN HA Hl Hk) as (out & Eo & Ho & H1).
  destruct (C55_linear_combination M out m l n HM Ho Hm Hl) as (o2 & Eo2 & Ho2 & H2).
  destruct (C55_linear_combination _ A m k n HP HA Hm Hk) as (o3 & Eo3 & Ho3 & H3).
  exists out; split; [exact Eo|]. rewrite Eo2, Eo3; do 2 f_equal.
  apply (matrix_ext m n _ _ None Ho2 Ho3); intros i b Hi Hb.
  destruct (H2 i b Hi Hb) as [H2n H2s]; destruct (H3 i b Hi Hb) as [H3n H3s].
  destruct (all_some (map (fun cm => nth b cm None) A)) as [(xs & E)|Hn].
  - assert (Hx : forall j, (j < k)%nat -> entry A j b (Some (nth j xs 0))).
    { intros j Hj; destruct (matrix_entry k n A j b HA Hj Hb) as (x & r & E1 & E2).
      exists r; split; [exact E1|]; rewrite E2.
      apply (f_equal (fun v => nth_error v j)) in E; rewrite !nth_error_map, E1 in E; cbn [option_map] in E.
      destruct (nth_error xs j) as [z|] eqn:Ez; [|discriminate]; cbn [option_map] in E; injection E as E.
      rewrite (nth_error_nth _ _ _ E2) in E; rewrite (nth_error_nth _ _ _ Ez); congruence. }
    assert (G : exists ys, forall h, (h < l)%nat -> entry out h b (Some (ys h)) /\
              same_angle (ys h) (sumn k (fun j => IZR (at2 0%Z N h j) * nth j xs 0))).
    { exists (fun h => match at2 None out h b with Some y => y | None => 0 end).
      intros h Hh; destruct (H1 h b Hh Hb) as [_ H1s]; destruct (H1s _ Hx) as (y & Ey & _ & Sy).
      rewrite (entry_at2 _ _ _ _ None Ey); split; assumption. }
    destruct G as (ys & G).
    destruct (H2s ys) as (y & Ey & Cy & Sy); [intros j Hj; apply G, Hj|].
    destruct (H3s _ Hx) as (z & Ez & Cz & Sz).
    rewrite (entry_at2 _ _ _ _ None Ey), (entry_at2 _ _ _ _ None Ez); f_equal.
    apply (same_circle_eq y z Cy Cz). eapply same_trans; [exact Sy|]. eapply same_trans; [|apply same_sym, Sz].
    eapply same_trans; [apply same_sumn; intros h Hh; apply same_scal, (G h Hh)|].
    rewrite (sumn_ext l _ (fun h => sumn k (fun j => IZR (at2 0%Z M i h) * (IZR (at2 0%Z N h j) * nth j xs 0))))
      by (intros; rewrite sumn_scal; reflexivity).
    rewrite sumn_swap.
    rewrite (sumn_ext k _ (fun j => IZR (at2 0%Z (zmat_mul m l M N k) i j) * nth j xs 0)); [apply same_refl|].
    intros j Hj; unfold zmat_mul; rewrite at2_mk2 by assumption.
    rewrite sumnZ_IZR, <- sumn_scal_r; apply sumn_ext; intros; rewrite mult_IZR; ring.
  - assert (Hn' : exists j, entry A j b None).
    { apply In_nth_error in Hn; destruct Hn as (j & Ej); rewrite nth_error_map in Ej.
      destruct (nth_error A j) as [r|] eqn:E1; [|discriminate]; cbn in Ej; injection Ej as Ej.
      exists j, r; split; [exact E1|]. rewrite <- Ej; apply nth_error_nth'.
      rewrite (matrix_row _ _ _ _ _ HA E1); exact Hb. }
    rewrite (entry_at2 _ _ _ _ None (H3n Hn')); apply entry_at2, H2n.
    exists 0%nat; destruct (H1 0%nat b ltac:(lia) Hb) as [H1n _]; apply H1n, Hn'.
Qed.
Print Assumptions C55_functorial.

Theorem C55_identity :
  forall A k n, matrix k n A -> (1 <= k)%nat -> (forall i b x, entry A i b (Some x) -> on_circle x) ->
  (* the maps are undefined at the same points *)
  (forall i j b, entry A i b None -> (j < k)%nat -> entry A j b None) ->
  linear_combination A (Coeffs2 (map (map IZR) (zmat_id k))) = Ok (Maps2 A).
Proof.
  intros A k n HA Hk Hc Hn.
  assert (HI : matrix k k (zmat_id k)) by apply matrix_mk2.
  destruct (C55_linear_combination _ A k k n HI HA Hk Hk) as (out & Eo & Ho & H); rewrite Eo; do 2 f_equal.
  apply (matrix_ext k n _ _ None Ho HA); intros i b Hi Hb; destruct (H i b Hi Hb) as [H0 H1].
  destruct (matrix_entry k n A i b HA Hi Hb) as ([y0|] & Ey0).
  2:{ pose proof (H0 (ex_intro _ i Ey0)) as Eo'. rewrite (entry_at2 _ _ _ _ None Eo'), (entry_at2 _ _ _ _ None Ey0); reflexivity. }
  set (x := fun j => match at2 None A j b with Some y => y | None => 0 end).
  assert (Hx : forall j, (j < k)%nat -> entry A j b (Some (x j))).
  { intros j Hj; destruct (matrix_entry k n A j b HA Hj Hb) as ([y|] & E).
    - unfold x; rewrite (entry_at2 _ _ _ _ None E); exact E.
    - exfalso. pose proof (entry_unique _ _ _ _ _ Ey0 (Hn j i b E Hi)); discriminate. }
  destruct (H1 x Hx) as (y & Ey & Cy & Sy).
  rewrite (entry_at2 _ _ _ _ None Ey), (entry_at2 _ _ _ _ None (Hx i Hi)); f_equal.
  apply (same_circle_eq _ _ Cy (Hc _ _ _ (Hx i Hi))).
  eapply same_trans; [exact Sy|]. rewrite (sumn_single k _ i Hi).
  - unfold zmat_id; rewrite at2_mk2, Nat.eqb_refl by assumption; exists 0%Z; lra.
  - intros j Hj Hji; unfold zmat_id; rewrite at2_mk2 by assumption.
    rewrite (proj2 (Nat.eqb_neq i j)) by congruence; lra.
Qed.
Print Assumptions C55_identity.

(** Independence of representatives, one-dimensional coefficients and shape errors. *)
Theorem C55_representatives :
  forall M A B l k n, matrix l k M -> matrix k n A -> matrix k n B -> (1 <= l)%nat -> (1 <= k)%nat ->
  (forall i b, (i < k)%nat -> (b < n)%nat -> exists x y, entry A i b (Some x) /\ entry B i b (Some y) /\ same_angle x y) ->
  linear_combination A (Coeffs2 (map (map IZR) M)) = linear_combination B (Coeffs2 (map (map IZR) M)).
Proof.
  intros M A B l k n HM HA HB Hl Hk HAB.
  destruct (C55_linear_combination M A l k n HM HA Hl Hk) as (o1 & E1 & Ho1 & H1).
  destruct (C55_linear_combination M B l k n HM HB Hl Hk) as (o2 & E2 & Ho2 & H2).
  rewrite E1, E2; do 2 f_equal; apply (matrix_ext l n _ _ None Ho1 Ho2); intros i b Hi Hb.
  destruct (H1 i b Hi Hb) as [_ S1]; destruct (H2 i b Hi Hb) as [_ S2].
  set (val := fun (C : list (list (option R))) j => match at2 None C j b with Some y => y | None => 0 end).
  assert (G : forall j, (j < k)%nat -> entry A j b (Some (val A j)) /\ entry B j b (Some (val B j)) /\ same_angle (val A j) (val B j)).
  { intros j Hj; destruct (HAB j b Hj Hb) as (x & y & Ex & Ey & S).
    unfold val; rewrite (entry_at2 _ _ _ _ None Ex), (entry_at2 _ _ _ _ None Ey); tauto. }
  destruct (S1 (val A)) as (y & Ey & Cy & Sy); [intros j Hj; apply G, Hj|].
  destruct (S2 (val B)) as (z & Ez & Cz & Sz); [intros j Hj; apply G, Hj|].
  rewrite (entry_at2 _ _ _ _ None Ey), (entry_at2 _ _ _ _ None Ez); f_equal.
  apply (same_circle_eq _ _ Cy Cz); eapply same_trans; [exact Sy|]. eapply same_trans; [|apply same_sym, Sz].
  apply same_sumn; intros j Hj; apply same_scal, G, Hj.
Qed.
Print Assumptions C55_representatives.

Theorem C55_one_row_and_errors :
  (forall row A k n, matrix k n A -> (1 <= k)%nat -> length row = k -> exists out,
     linear_combination A (Coeffs2 [row]) = Ok (Maps2 [out]) /\
     linear_combination A (Coeffs1 row) = Ok (Maps1 out)) /\
  (forall row A, length A <> length row -> linear_combination A (Coeffs1 row) = Raise AssertionError) /\
  (forall row rows A, length A <> length row ->
     linear_combination A (Coeffs2 (row :: rows)) = Raise AssertionError) /\
  (forall A, linear_combination A CoeffsOther = Raise AssertionError) /\
  (forall c, linear_combination [] c = Raise AssertionError).
Proof.
  split; [|split; [|split; [|split]]].
  - intros row A k n HA Hk L; unfold linear_combination; destruct HA as [LA _].
    rewrite (proj2 (Nat.eqb_neq (length A) 0)) by lia; cbn [negb hd]; rewrite L, LA, Nat.eqb_refl.
    cbn; eexists; split; reflexivity.
  - intros row A H; unfold linear_combination.
    destruct (negb _); [|reflexivity]. rewrite (proj2 (Nat.eqb_neq _ _) H); reflexivity.
  - intros row rows A H; unfold linear_combination.
    destruct (negb _); [|reflexivity]. cbn [hd]; rewrite (proj2 (Nat.eqb_neq _ _) H); reflexivity.
  - intros A; unfold linear_combination; destruct (negb _); reflexivity.
  - reflexivity.
Qed.
Print Assumptions C55_one_row_and_errors.

Example C55_nonvacuous :
  matrix 2 2 [[1; -1]; [0; 1]]%Z /\ matrix 2 2 [[Some 1; Some 2]; [Some 3; None]] /\
  zmat_mul 2 2 [[1; -1]; [0; 1]]%Z [[1; 1]; [0; 1]]%Z 2 = zmat_id 2.
Proof. split; [split; [reflexivity|repeat constructor]|split; [split; [reflexivity|repeat constructor]|reflexivity]]. Qed.

(** C56: sinebow colours. *)
Theorem C56_sinebow :
  (forall x, exists r g b, to_sinebow [x] = [[r; g; b]] /\
     0 <= r <= 1 /\ 0 <= g <= 1 /\ 0 <= b <= 1 /\ r + g + b = 3 / 2) /\
  (forall x y, to_sinebow [x] = to_sinebow [y] <-> same_angle x y) /\
  (forall l, to_sinebow l = flat_map (fun x => to_sinebow [x]) l).
Proof.
  split; [|split].
  - intros x; unfold to_sinebow; cbn [map].
    pose proof (sinebow_values x) as V; cbv zeta in V.
    assert (B : forall y, 0 <= sinebow_f y <= 1).
    { intros y; unfold sinebow_f; pose proof (SIN_bound (PI * y)); nra. }
    unfold sinebow1 in *; cbv zeta in *.
    eexists; eexists; eexists; split; [reflexivity|]. split; [apply B|split; [apply B|split; [apply B|]]].
    injection V as -> -> ->; field.
  - intros x y; unfold to_sinebow; cbn [map]; rewrite !sinebow_values.
    set (a := 2 * PI * (x / two_pi + 1 / 2)); set (b := 2 * PI * (y / two_pi + 1 / 2)).
    pose proof PI_RGT_0 as P.
    assert (D : a - b = x - y) by (unfold a, b, two_pi; field; lra).
    split.
    + intros E; injection E as E1 E2 E3.
      assert (C : cos a = cos b) by lra.
      assert (S : sin a = sin b).
      { assert (Q : 0 < sq3) by (apply sqrt_lt_R0; lra).
        apply Rmult_eq_reg_l with sq3; [|lra]; lra. }
      destruct (cos_sin_same a b C S) as (k & E); exists k; lra.
    + intros (k & E). assert (Ea : a = b + 2 * IZR k * PI) by lra.
      rewrite Ea, cos_period_Z, sin_period_Z; reflexivity.
  - intros l; induction l as [|x l IH]; [reflexivity|]. cbn [to_sinebow map flat_map app] in *.
    f_equal; exact IH.
Qed.
Print Assumptions C56_sinebow.

(** C57: level set colouring. *)
Theorem C57_levelset_rejects :
  forall l s, levelset_coloring l PyOther s = Raise AssertionError /\
  forall n, (n < 1)%Z -> levelset_coloring l (PyInt n) s = Raise AssertionError.
Proof.
  intros l s; split; [reflexivity|]. intros n Hn; unfold levelset_coloring.
  rewrite (proj2 (Z.ltb_ge 0 n)) by lia; reflexivity.
Qed.
Print Assumptions C57_levelset_rejects.

Theorem C57_levelset_sharp :
  forall n, (1 <= n)%Z -> exists f, (forall l, levelset_coloring l (PyInt n) 0 = Ok (map f l)) /\
    (* the circle is cut into 2n equal arcs, coloured 0 and 1 alternately *)
    (forall x j, IZR j * (2 * PI / IZR (2 * n)) <= x < IZR (j + 1) * (2 * PI / IZR (2 * n)) ->
       f x = if Z.even j then 0 else 1) /\
    (forall x y, same_angle x y -> f x = f y).
Proof.
  intros n Hn; unfold levelset_coloring; rewrite (proj2 (Z.ltb_lt 0 n)) by lia.
  rewrite (proj2 (Reqb_true 0 0) eq_refl).
  pose proof PI_RGT_0 as P.
  assert (Hn' : 0 < IZR (n * 2)) by (apply IZR_lt; lia).
  assert (Sharp : forall x j, IZR j * (2 * PI / IZR (2 * n)) <= x < IZR (j + 1) * (2 * PI / IZR (2 * n)) ->
     np_mod (IZR (Int_part (x / two_pi * IZR (n * 2)))) 2 = if Z.even j then 0 else 1).
  { intros x j Hj; replace (2 * n)%Z with (n * 2)%Z in Hj by lia.
    set (N := IZR (n * 2)) in *; rewrite plus_IZR in Hj.
    rewrite (Int_part_eq _ j), mod_IZR_2.
    - rewrite Zmod_even; destruct (Z.even j); reflexivity.
    - assert (Ex : x = (x / two_pi * N) * (2 * PI / N)) by (unfold two_pi; field; lra).
      set (q := x / two_pi * N) in *; rewrite Ex in Hj.
      assert (Q : 0 < 2 * PI / N) by (apply Rdiv_lt_0_compat; lra).
      destruct Hj as [J1 J2]; split; [apply Rmult_le_reg_r with (1 := Q); exact J1|].
      apply Rmult_lt_reg_r with (1 := Q); exact J2. }
  eexists; split; [intros l; rewrite map_map; reflexivity|]. split; [exact Sharp|].
  intros x y (k & E); cbn beta.
  assert (Ec : x / two_pi * IZR (n * 2) = y / two_pi * IZR (n * 2) + IZR (k * (n * 2))).
  { rewrite (mult_IZR k (n * 2)); replace x with (y + IZR k * (2 * PI)) by lra; unfold two_pi; field; lra. }
  rewrite Ec. set (c := y / two_pi * IZR (n * 2)).
  rewrite (Int_part_eq (c + IZR (k * (n * 2))) (Int_part c + k * (n * 2))).
  - apply np_mod_eq_iff; [lra|]. exists (k * n)%Z.
    rewrite plus_IZR, !mult_IZR; ring.
  - rewrite plus_IZR; destruct (base_Int_part c); lra.
Qed.
Print Assumptions C57_levelset_sharp.

Theorem C57_levelset_smooth :
  forall n s, (1 <= n)%Z -> s <> 0 -> exists f,
    (forall l, levelset_coloring l (PyInt n) s = Ok (map f l)) /\
    (forall x, 0 < f x < 1) /\
    (forall x y, same_angle x y -> f x = f y) /\
    continuity f /\
    (* extreme at the ends of every arc *)
    (forall j, f (IZR j * (2 * PI / IZR (2 * n))) =
       if Z.even j then 1 / (1 + exp (1 / s)) else 1 / (1 + exp (- 1 / s))).
Proof.
  intros n s Hn Hs; unfold levelset_coloring; rewrite (proj2 (Z.ltb_lt 0 n)) by lia.
  rewrite (proj2 (Reqb_false s 0)) by exact Hs.
  pose proof PI_RGT_0 as P.
  assert (Hn' : 0 < IZR (n * 2)) by (apply IZR_lt; lia).
  eexists; split; [intros l; rewrite map_map; reflexivity|]. cbn beta. split; [|split; [|split]].
  - intros x; apply sigmoid_range.
  - intros x y (k & E); do 2 f_equal; apply np_mod_eq_iff; [lra|]. exists (k * n)%Z.
    replace x with (y + IZR k * (2 * PI)) by lra; rewrite !mult_IZR; unfold two_pi; field; lra.
  - assert (C1 : continuity (fun x => x / two_pi * IZR (n * 2))).
    { intros x; apply derivable_continuous_pt; reg. }
    apply (continuity_comp _ _ (continuity_comp _ _ C1 tri_continuous) (sigmoid_continuous s)).
  - intros j. replace (IZR j * (2 * PI / IZR (2 * n)) / two_pi * IZR (n * 2)) with (IZR j)
      by (replace (2 * n)%Z with (n * 2)%Z by lia; unfold two_pi; field; lra).
    rewrite mod_IZR_2, Zmod_even; unfold triangle, sigmoid; destruct (Z.even j).
    + rewrite (proj2 (Rltb_true 0 1)) by lra. do 3 f_equal; field; exact Hs.
    + rewrite (proj2 (Rltb_false 1 1)) by lra. do 3 f_equal; field; exact Hs.
Qed.
Print Assumptions C57_levelset_smooth.
