(** ComplexProjProofs.v -- lemmas about ComplexProjectiveCoords. *)
From Coq Require Import Permutation Sorted.
From Verif Require Import Base BaseProofs CombinatorialModel SpecSimplex CombinatorialProofs DeltaModel SpecRips RipsProofs DeltaProofs DeltaFacts
  RealBase CohomologyModel SpecCohomology CohomologyProofs LLLModel LLLProofs EMModel SpecEM EMProofs PropEM CircleProofs RealSum
  ToroidalModel SpecToroidal RepairModel ComplexBase PPCAModel SpecPPCA PPCAProofs PropPPCA ClassMapModel SpecClassMap ClassMapProofs
  ComplexProjModel SpecComplexProj.
Import ListNotations.
Local Open Scope R_scope.

(** ** Alternating extensions *)
Definition sg (i j : nat) : Z := match Nat.compare i j with Lt => 1 | Eq => 0 | Gt => -1 end%Z.
Lemma sg_lt i j : (i < j)%nat -> sg i j = 1%Z.
Proof. intros H; unfold sg; rewrite (proj2 (Nat.compare_lt_iff i j) H); reflexivity. Qed.
Lemma sg_opp i j : sg j i = (- sg i j)%Z.
Proof. unfold sg. rewrite (Nat.compare_antisym i j). destruct (Nat.compare i j); reflexivity. Qed.
Lemma sg_same i : sg i i = 0%Z.
Proof. unfold sg. rewrite Nat.compare_refl; reflexivity. Qed.
Definition lo3 i j k := Nat.min i (Nat.min j k).
Definition hi3 i j k := Nat.max i (Nat.max j k).
Definition mid3 i j k := (i + j + k - lo3 i j k - hi3 i j k)%nat.
Definition alt3 (c : list Z) (i j k : nat) : Z :=
  (sg i j * sg j k * sg i k * nth (rank [lo3 i j k; mid3 i j k; hi3 i j k]) c 0)%Z.
Definition alt2 (g : list R) (i j : nat) : R := IZR (sg i j) * nth (rank [Nat.min i j; Nat.max i j]) g 0.
Lemma sorted3 i j k : (i < j)%nat -> (j < k)%nat -> lo3 i j k = i /\ mid3 i j k = j /\ hi3 i j k = k.
Proof. unfold mid3, lo3, hi3; lia. Qed.
Lemma alt3_sorted c i j k : (i < j)%nat -> (j < k)%nat -> alt3 c i j k = nth (rank [i; j; k]) c 0%Z.
Proof. intros H1 H2. unfold alt3. destruct (sorted3 i j k H1 H2) as (-> & -> & ->). rewrite !sg_lt by lia. lia. Qed.
Lemma alt3_swap1 c i j k : alt3 c j i k = (- alt3 c i j k)%Z.
Proof.
  unfold alt3. rewrite (sg_opp i j). replace (lo3 j i k) with (lo3 i j k) by (unfold lo3; lia). replace (hi3 j i k) with (hi3 i j k) by (unfold hi3; lia).
  replace (mid3 j i k) with (mid3 i j k) by (unfold mid3, lo3, hi3; lia). ring.
Qed.
Lemma alt3_swap2 c i j k : alt3 c i k j = (- alt3 c i j k)%Z.
Proof.
  unfold alt3. rewrite (sg_opp j k). replace (lo3 i k j) with (lo3 i j k) by (unfold lo3; lia). replace (hi3 i k j) with (hi3 i j k) by (unfold hi3; lia).
  replace (mid3 i k j) with (mid3 i j k) by (unfold mid3, lo3, hi3; lia). ring.
Qed.
Lemma alt2_sorted g i j : (i < j)%nat -> alt2 g i j = nth (rank [i; j]) g 0.
Proof. intros H; unfold alt2. rewrite sg_lt, Nat.min_l, Nat.max_r by lia. ring. Qed.
Lemma alt2_swap g i j : alt2 g j i = - alt2 g i j.
Proof. unfold alt2. rewrite (sg_opp i j), opp_IZR, (Nat.min_comm j i), (Nat.max_comm j i). ring. Qed.

(** ** The tensors *)
Lemma upd2_same m i j x : upd2 m i j x i j = x.
Proof. unfold upd2. rewrite !Nat.eqb_refl; reflexivity. Qed.
Lemma upd2_other m i j x a b : (a <> i \/ b <> j)%nat -> upd2 m i j x a b = m a b.
Proof. intros H; unfold upd2. destruct (Nat.eqb_spec a i), (Nat.eqb_spec b j); try reflexivity; lia. Qed.
Lemma upd3_same m i j k x : upd3 m i j k x i j k = x.
Proof. unfold upd3. rewrite !Nat.eqb_refl; reflexivity. Qed.
Lemma upd3_other m i j k x a b c : (a <> i \/ b <> j \/ c <> k)%nat -> upd3 m i j k x a b c = m a b c.
Proof. intros H; unfold upd3. destruct (Nat.eqb_spec a i), (Nat.eqb_spec b j), (Nat.eqb_spec c k); try reflexivity; lia. Qed.

Section Tensors.
Context (dm : list (list R)) (t : R) (N Dm : nat).
Hypothesis Hsq : square dm.
Notation n := (length dm).
Hypothesis HN : (n <= N)%nat.
Hypothesis HD : (2 <= Dm)%nat.
Notation T := (combinatorial_number_system_table N Dm).
Notation rl := (rl Rltb dm t).

Lemma tensor1_ok g : length g = comb n 2 ->
  exists m, one_cocycle_to_tensor g dm t T = Ok m /\ (forall i, m i i = 0) /\
    (forall i j, (i < j < n)%nat -> close Rltb dm t i j -> m i j = nth (rank [i; j]) g 0 /\ m j i = - nth (rank [i; j]) g 0).
Proof.
  intros L. unfold one_cocycle_to_tensor. rewrite (for_edges_ok Rltb dm t Hsq (fun i j res => flat_index <- combinatorial_number_system_d1_forward i j T ;;
        val <- get MemoryUnsafe g flat_index ;; Ok (upd2 (upd2 res i j val) j i (- val)))).
  destruct (for_in_inv (rl 1) (on2 (fun i j res => flat_index <- combinatorial_number_system_d1_forward i j T ;;
        val <- get MemoryUnsafe g flat_index ;; Ok (upd2 (upd2 res i j val) j i (- val))))
    (fun pre m => (forall i, m i i = 0) /\ forall i j, (i < j)%nat -> In [i; j] pre -> m i j = nth (rank [i; j]) g 0 /\ m j i = - nth (rank [i; j]) g 0) (fun _ _ => 0)) as (m & E & I1 & I2).
  - split; [reflexivity|]. intros i j _ [].
  - intros pre s post m E [I1 I2]. assert (Hs : In s (RipsProofs.rl Rltb dm t 1)) by (rewrite E; apply in_or_app; right; left; reflexivity).
    apply rl_rips in Hs. destruct Hs as [Hs _]. pose proof Hs as (Ls & _). destruct s as [|i [|j [|? ?]]]; try discriminate Ls.
    pose proof (rank_lt_d _ _ _ Hs) as R. apply simplex2 in Hs. cbn [on2]. rewrite (d1_ok dm N Dm HN) by lia. cbn [bind]. rewrite (get_ok _ g _ 0) by lia. cbn [bind].
    eexists; split; [reflexivity|]. split.
    + intros a. rewrite !upd2_other by lia. apply I1.
    + intros a b Hab I. destruct (Nat.eq_dec a i) as [->|Na]; [destruct (Nat.eq_dec b j) as [->|Nb]|].
      * rewrite (upd2_other _ j i) by lia. rewrite !upd2_same. split; reflexivity.
      * rewrite !upd2_other by lia. apply in_app_or in I. destruct I as [I|[I|[]]]; [apply I2; assumption|]. congruence.
      * rewrite !upd2_other by lia. apply in_app_or in I. destruct I as [I|[I|[]]]; [apply I2; assumption|]. congruence.
  - exists m. split; [exact E|]. split; [exact I1|]. intros i j Hij C. apply I2; [lia|]. apply rips1; assumption.
Qed.

Lemma tensor2_ok c : length c = comb n 3 ->
  exists m, two_cocycle_to_tensor c dm t T = Ok m /\ (forall i j k, (i = j \/ j = k \/ i = k)%nat -> m i j k = 0) /\
    (forall i j k, (i < j < k)%nat -> (k < n)%nat -> rips Rltb dm t 2 [i; j; k] ->
       let v := nth (rank [i; j; k]) c 0 in
       m i j k = v /\ m j k i = v /\ m k i j = v /\ m i k j = - v /\ m j i k = - v /\ m k j i = - v).
Proof.
  intros L. unfold two_cocycle_to_tensor. rewrite for_triangles_ok by exact Hsq.
  match goal with |- context [for_in _ ?bd _] => set (body := bd) end.
  destruct (for_in_inv (rl 2) body
    (fun pre m => (forall i j k, (i = j \/ j = k \/ i = k)%nat -> m i j k = 0) /\ forall i j k, (i < j < k)%nat -> In [i; j; k] pre -> 
       let v := nth (rank [i; j; k]) c 0 in
       m i j k = v /\ m j k i = v /\ m k i j = v /\ m i k j = - v /\ m j i k = - v /\ m k j i = - v) (fun _ _ _ => 0)) as (m & E & I1 & I2).
  - split; [reflexivity|]. intros i j k _ [].
  - intros pre s post m E [I1 I2]. assert (Hs : In s (RipsProofs.rl Rltb dm t 2)) by (rewrite E; apply in_or_app; right; left; reflexivity).
    apply rl_rips in Hs. destruct Hs as [Hs _]. pose proof Hs as (Ls & _). destruct s as [|i [|j [|k [|? ?]]]]; try discriminate Ls.
    pose proof (rank_lt_d _ _ _ Hs) as R. apply simplex3 in Hs. unfold body. cbn [on3]. rewrite (d2_ok dm N Dm HN) by lia. cbn [bind]. rewrite (get_ok _ c _ 0) by lia. cbn [bind].
    eexists; split; [reflexivity|]. split.
    + intros x y z H. rewrite !upd3_other by lia. apply I1, H.
    + intros x y z Hxyz I. destruct (list_eq_dec Nat.eq_dec [x; y; z] [i; j; k]) as [Q|Q].
      * injection Q as -> -> ->. cbv zeta.
        repeat split; repeat first [apply upd3_same|rewrite upd3_other by lia].
      * assert (O : (x <> i \/ y <> j \/ z <> k)%nat).
        { destruct (Nat.eq_dec x i); [|tauto]. destruct (Nat.eq_dec y j); [|tauto]. destruct (Nat.eq_dec z k); [|tauto]. subst; congruence. }
        rewrite !upd3_other by lia. apply in_app_or in I. destruct I as [I|[I|[]]]; [apply I2; assumption|]. congruence.
  - exists m. split; [exact E|]. split; [exact I1|]. intros i j k Hijk Hk C. apply I2; [lia|]. apply rl_rips; assumption.
Qed.
End Tensors.

Lemma near_close dm t i j : near dm t i j -> close Rltb dm t i j.
Proof. intros (x & (row & E1 & E2) & L). exists row, x. split; [exact E1|]. split; [exact E2|]. apply Rltb_true, L. Qed.
Lemma near_sym dm t i j : (forall i j x, entry dm i j x -> entry dm j i x) -> near dm t i j -> near dm t j i.
Proof. intros Sy (x & E & L). exists x; split; [apply Sy, E|exact L]. Qed.

(** The tensor of the harmonic representative. *)
Lemma harmonic_tensor dm t N Dm n vec (g : list R) junk :
  square dm -> length dm = n -> (n <= N)%nat -> (2 <= Dm)%nat -> (Z.of_nat n <= 2345)%Z -> length vec = comb n 3 -> @length R g = comb n 2 ->
  (forall i j x, entry dm i j x -> entry dm j i x) ->
  let T := combinatorial_number_system_table N Dm in
  forall M, make_delta1 Rltb junk dm t T = Ok M ->
  exists d m1 m2, matvec (K := Rring) M g = Ok d /\ one_cocycle_to_tensor g dm t T = Ok m1 /\
    two_cocycle_to_tensor (vsub (map IZR vec) d) dm t T = Ok m2 /\
    (forall i j, (i < n)%nat -> (j < n)%nat -> near dm t i j -> m1 i j = alt2 g i j) /\
    forall i j k, (i < n)%nat -> (j < n)%nat -> (k < n)%nat -> near dm t i j -> near dm t j k -> near dm t i k ->
      m2 i j k = IZR (alt3 vec i j k) - (alt2 g i j + alt2 g j k - alt2 g i k).
Proof.
  intros Hsq Hn HN HD Hb Lv Lg Sy T M EM. subst n.
  unfold T in EM. rewrite (delta1_ok Rltb junk dm t N Dm Hsq HN HD (tri_fit _ Hb)) in EM. injection EM as EM.
  destruct (delta1_apply Rltb dm t N Dm HN Rring M g (eq_sym EM) HD Lg) as (d & Ed & Ld & Hd).
  destruct (tensor1_ok dm t N Dm Hsq HN HD g Lg) as (m1 & E1 & D1 & V1).
  assert (Lh : length (vsub (map IZR vec) d) = comb (length dm) 3) by (unfold vsub; rewrite map_length, combine_length, map_length; change (@length (Rring) d) with (@length R d) in *; lia).
  destruct (tensor2_ok dm t N Dm Hsq HN HD _ Lh) as (m2 & E2 & D2 & V2).
  exists d, m1, m2. split; [exact Ed|]. split; [exact E1|]. split; [exact E2|].
  assert (A2d : forall i, alt2 g i i = 0) by (intros i; pose proof (alt2_swap g i i); lra).
  split.
  - intros i j Hi Hj Nr. destruct (Nat.lt_trichotomy i j) as [L|[->|L]].
    + destruct (V1 i j ltac:(lia) (near_close _ _ _ _ Nr)) as [-> _]. rewrite alt2_sorted by exact L; reflexivity.
    + rewrite D1, A2d; reflexivity.
    + destruct (V1 j i ltac:(lia) (near_close _ _ _ _ (near_sym _ _ _ _ Sy Nr))) as [_ ->]. rewrite alt2_swap, alt2_sorted by exact L; reflexivity.
  - assert (S : forall i j k, (i < j < k)%nat -> (k < length dm)%nat -> near dm t i j -> near dm t j k -> near dm t i k ->
      let v := IZR (alt3 vec i j k) - (alt2 g i j + alt2 g j k - alt2 g i k) in
      m2 i j k = v /\ m2 j k i = v /\ m2 k i j = v /\ m2 i k j = - v /\ m2 j i k = - v /\ m2 k j i = - v).
    { intros i j k H Hk N1 N2 N3.
      assert (Sx : simplex (length dm) 2 [i; j; k]) by (apply simplex3; lia).
      assert (Rp : rips Rltb dm t 2 [i; j; k]).
      { split; [exact Sx|]. repeat constructor; apply near_close; assumption. }
      destruct (tri_faces _ _ _ _ Sx) as (S1 & S2 & S3).
      assert (VA : forall a b, simplex (length dm) 1 [a; b] -> value_at T g [a; b] (alt2 g a b)).
      { intros a b Sab. apply (value_at_rank dm N Dm HN g 1); [lia|exact Sab|]. pose proof (rank_lt_d _ _ _ Sab). apply simplex2 in Sab. rewrite alt2_sorted by lia. apply nth_error_nth'. lia. }
      destruct (Hd i j k _ _ _ Sx (VA _ _ S1) (VA _ _ S2) (VA _ _ S3)) as [HR _]. specialize (HR Rp).
      apply (value_at_rank dm N Dm HN d 2) in HR; [|lia|exact Sx].
      pose proof (V2 i j k H Hk Rp) as V. assert (Ev : nth (rank [i; j; k]) (vsub (map IZR vec) d) 0 = IZR (alt3 vec i j k) - (alt2 g i j + alt2 g j k - alt2 g i k)).
      { rewrite nth_vsub by (rewrite map_length; change (@length (Rring) d) with (@length R d) in *; lia). change 0 with (IZR 0%Z) at 1. rewrite map_nth, alt3_sorted by lia.
        rewrite (nth_error_nth _ _ 0 HR). reflexivity. }
      rewrite Ev in V. exact V. }
    intros i j k Hi Hj Hk N1 N2 N3.
    pose proof (near_sym _ _ _ _ Sy N1) as N1'. pose proof (near_sym _ _ _ _ Sy N2) as N2'. pose proof (near_sym _ _ _ _ Sy N3) as N3'.
    assert (A3 : forall a b c, (a = b \/ b = c \/ a = c)%nat -> alt3 vec a b c = 0%Z).
    { intros a b c H. unfold alt3. destruct H as [ -> |[ -> | -> ]]; rewrite sg_same; ring. }
    destruct (Nat.eq_dec i j) as [->|Q1]; [rewrite D2, A3 by lia; rewrite A2d; ring|].
    destruct (Nat.eq_dec j k) as [->|Q2]; [rewrite D2, A3 by lia; rewrite A2d; ring|].
    destruct (Nat.eq_dec i k) as [->|Q3]; [rewrite D2, A3 by lia; rewrite (alt2_swap g j k), A2d; ring|].
    destruct (Nat.lt_ge_cases i j), (Nat.lt_ge_cases j k), (Nat.lt_ge_cases i k); try lia.
    + destruct (S i j k) as (W & _); auto; lia.
    + destruct (S i k j) as (_ & _ & _ & W & _ & _); auto; [lia|]. rewrite W, (alt3_swap2 vec i j k), opp_IZR, (alt2_swap g j k). ring.
    + destruct (S k i j) as (_ & W & _); auto; [lia|]. rewrite W, (alt3_swap1 vec i k j), (alt3_swap2 vec i j k), !opp_IZR, (alt2_swap g i k), (alt2_swap g j k). ring.
    + destruct (S j i k) as (_ & _ & _ & _ & W & _); auto; [lia|]. rewrite W, (alt3_swap1 vec i j k), opp_IZR, (alt2_swap g i j). ring.
    + destruct (S j k i) as (_ & _ & W & _); auto; [lia|]. rewrite W, (alt3_swap2 vec j i k), (alt3_swap1 vec i j k), !opp_IZR, (alt2_swap g i j), (alt2_swap g i k). ring.
    + destruct (S k j i) as (_ & _ & _ & _ & _ & W); auto; [lia|]. rewrite W, (alt3_swap1 vec j k i), (alt3_swap2 vec j i k), (alt3_swap1 vec i j k), !opp_IZR, (alt2_swap g i j), (alt2_swap g i k), (alt2_swap g j k). ring.
Qed.

(** ** The cocycle condition for arguments in any order *)
Lemma sort4 (P : nat -> nat -> nat -> nat -> Prop) :
  (forall i j k l, P j i k l -> P i j k l) -> (forall i j k l, P i k j l -> P i j k l) -> (forall i j k l, P i j l k -> P i j k l) ->
  (forall i j k l, (i <= j <= k)%nat -> (k <= l)%nat -> P i j k l) -> forall i j k l, P i j k l.
Proof.
  intros S1 S2 S3 B.
  assert (A3 : forall i j k l, (i <= j <= k)%nat -> P i j k l).
  { intros i j k l H. destruct (Nat.le_gt_cases k l); [apply B; lia|]. apply S3. destruct (Nat.le_gt_cases j l); [apply B; lia|].
    apply S2. destruct (Nat.le_gt_cases i l); [apply B; lia|]. apply S1, B; lia. }
  assert (A2 : forall i j k l, (i <= j)%nat -> P i j k l).
  { intros i j k l H. destruct (Nat.le_gt_cases j k); [apply A3; lia|]. apply S2. destruct (Nat.le_gt_cases i k); [apply A3; lia|]. apply S1, A3; lia. }
  intros i j k l. destruct (Nat.le_gt_cases i j); [apply A2; lia|]. apply S1, A2; lia.
Qed.
Definition cob3 (c : list Z) (i j k l : nat) : Z := (alt3 c j k l - alt3 c i k l + alt3 c i j l - alt3 c i j k)%Z.
Lemma alt3_repeat c a b d : (a = b \/ b = d \/ a = d)%nat -> alt3 c a b d = 0%Z.
Proof. intros H. unfold alt3. destruct H as [ -> |[ -> | -> ]]; rewrite sg_same; ring. Qed.
Lemma cocycle_any dm t N Dm vec (B : nat -> Prop) : let T := combinatorial_number_system_table N Dm in
  (length dm <= N)%nat -> (3 <= Dm)%nat -> length vec = comb (length dm) 3 -> two_cocycle Rltb dm t T vec ->
  (forall i, B i -> (i < length dm)%nat) -> (forall i j, B i -> B j -> near dm t i j) ->
  forall i j k l, B i -> B j -> B k -> B l -> cob3 vec i j k l = 0%Z.
Proof.
  intros T HN HD L HC HB HE. apply (sort4 (fun i j k l => B i -> B j -> B k -> B l -> cob3 vec i j k l = 0%Z)).
  - intros i j k l IH Bi Bj Bk Bl. specialize (IH Bj Bi Bk Bl). unfold cob3 in *. rewrite (alt3_swap1 vec i j k), (alt3_swap1 vec i j l) in IH. lia.
  - intros i j k l IH Bi Bj Bk Bl. specialize (IH Bi Bk Bj Bl). unfold cob3 in *. rewrite (alt3_swap1 vec j k l), (alt3_swap2 vec i j k) in IH. lia.
  - intros i j k l IH Bi Bj Bk Bl. specialize (IH Bi Bj Bl Bk). unfold cob3 in *. rewrite (alt3_swap2 vec j k l), (alt3_swap2 vec i k l) in IH. lia.
  - intros i j k l H1 H2 Bi Bj Bk Bl.
    destruct (Nat.eq_dec i j) as [->|Q1]; [unfold cob3; rewrite (alt3_repeat vec j j k), (alt3_repeat vec j j l) by lia; lia|].
    destruct (Nat.eq_dec j k) as [->|Q2]; [unfold cob3; rewrite (alt3_repeat vec k k l), (alt3_repeat vec i k k) by lia; lia|].
    destruct (Nat.eq_dec k l) as [->|Q3]; [unfold cob3; rewrite (alt3_repeat vec j l l), (alt3_repeat vec i l l) by lia; lia|].
    pose proof (HB l Bl) as Ll. assert (Sx : simplex (length dm) 3 [i; j; k; l]) by (apply simplex4; lia).
    assert (Rp : rips Rltb dm t 3 [i; j; k; l]) by (split; [exact Sx|]; repeat constructor; apply near_close, HE; assumption).
    destruct (tet_faces _ _ _ _ _ Sx) as (S1 & S2 & S3 & S4).
    assert (VA : forall a b d, simplex (length dm) 2 [a; b; d] -> value_at T vec [a; b; d] (alt3 vec a b d)).
    { intros a b d Sab. apply (value_at_rank dm N Dm HN vec 2); [lia|exact Sab|]. pose proof (rank_lt_d _ _ _ Sab). apply simplex3 in Sab. rewrite alt3_sorted by lia. apply nth_error_nth'. lia. }
    pose proof (HC i j k l _ _ _ _ Rp (VA _ _ _ S1) (VA _ _ _ S2) (VA _ _ _ S3) (VA _ _ _ S4)). unfold cob3. lia.
Qed.

(** ** The class map *)
Lemma fold_phase (F : nat -> R) n : forall k x, fold_left (fun x t => add_nan x (Some (F t))) (seq k n) (Some x) = Some (x + sumn n (fun t => F (k + t)%nat)).
Proof.
  induction n as [|n IH]; intros k x; cbn [seq fold_left]; [rewrite Rplus_0_r; reflexivity|]. cbn [add_nan]. rewrite IH, sumn_first, Nat.add_0_r. f_equal.
  rewrite Rplus_assoc. f_equal. f_equal. apply sumn_ext; intros t _; f_equal; lia.
Qed.
Lemma fold_left_ext {A B} (f g : A -> B -> A) l : (forall a b, In b l -> f a b = g a b) -> forall a, fold_left f l a = fold_left g l a.
Proof. induction l as [|b l IH]; intros H a; [reflexivity|]. cbn [fold_left]. rewrite H by (left; reflexivity). apply IH. intros; apply H; right; assumption. Qed.

Lemma sparse_integrate2_ok e r t f n N Nt Dm vec g h nu eta :
  let dm := em_dist_land_land e in let T := combinatorial_number_system_table Nt Dm in
  matrix n n dm -> matrix n N (em_dist_land_data e) -> em_metric e -> (1 <= n)%nat -> 2 * r <= t ->
  (forall i b d, entry (em_dist_land_data e) i b d -> 0 <= d) -> (forall d, 0 <= d < r -> 0 < f d r) ->
  one_cocycle_to_tensor g dm t T = Ok nu -> two_cocycle_to_tensor h dm t T = Ok eta ->
  (forall i j, (i < n)%nat -> (j < n)%nat -> near dm t i j -> nu i j = alt2 g i j) ->
  (forall i j k, (i < n)%nat -> (j < n)%nat -> (k < n)%nat -> near dm t i j -> near dm t j k -> near dm t i k ->
      eta i j k = IZR (alt3 vec i j k) - (alt2 g i j + alt2 g j k - alt2 g i k)) ->
  sparse_integrate2 h g (fst (get_covering_partition e r f)) (snd (get_covering_partition e r f)) dm t T =
  Ok (if numba_freezes N n then weights_class_map e r f n N
      else phase_class_map e r f n N (alt3 vec) (alt2 g) (fun b => nth b (snd (get_covering_partition e r f)) 0%nat)).
Proof.
  intros dm T ML MD Me Hn Ht Hp Hf E1 E2 H1 H2.
  destruct (partition_facts e r f n N MD Hn Hp Hf) as ([LV FV] & LB & CC & W).
  unfold sparse_integrate2. rewrite E1, E2. cbn [bind]. assert (Ldm : length dm = n) by apply (proj1 ML). rewrite Ldm.
  set (varphi := fst (get_covering_partition e r f)) in *. set (ball := snd (get_covering_partition e r f)) in *.
  assert (Lh : length (hd [] varphi) = N). { destruct varphi as [|row l]; [cbn in LV; lia|]. inversion FV; assumption. }
  rewrite Lh, LV. unfold range. rewrite !Nat.sub_0_r.
  assert (G : (if numba_freezes N n then weights_class_map e r f n N else phase_class_map e r f n N (alt3 vec) (alt2 g) (fun b => nth b ball 0%nat)) =
    map (fun b => map (fun i => match weight e r f i b with
       | Some w => if numba_freezes N n then Some (sqrt w, 0) else Some (cscale (sqrt w) (cis (2 * PI * mean_phase e r f n (alt3 vec) (alt2 g) (nth b ball 0%nat) b i)))
       | None => None end) (seq 0 n)) (seq 0 N)).
  { destruct (numba_freezes N n); reflexivity. }
  rewrite G. apply map_res_ok. intros b Hb. apply in_seq in Hb. rewrite (get_ok _ ball b 0%nat) by lia. cbn [bind]. f_equal.
  apply map_ext_in. intros i Hi. apply in_seq in Hi. assert (EW : forall t0, (t0 < n)%nat -> at2 None varphi t0 b = weight e r f t0 b) by (intros t0 Ht0; symmetry; apply (weight_model e r f n N MD Hn); lia). rewrite (EW i) by lia.
  destruct (W b ltac:(lia)) as [W1 W2]. destruct (CC b ltac:(lia)) as [Hlt HB]. destruct (in_ball_dec e n N r b MD) as [[i0 Hi0]|H].
  - destruct (W1 (ex_intro _ i0 Hi0)) as (w & Sw & Hw). specialize (HB (ex_intro _ i0 Hi0)). destruct (Hw i ltac:(lia)) as (Ew & P & Q). rewrite Ew.
    assert (Es : sqrt_nan (Some (w i)) = Some (sqrt (w i))). { unfold sqrt_nan. destruct (Rltb (w i) 0) eqn:Q0; [apply Rltb_true in Q0; lra|reflexivity]. }
    unfold exp_times. rewrite Es. destruct (numba_freezes N n).
    + rewrite Rmult_0_r, cis_0. f_equal. unfold cscale, c1; cbn [fst snd]. f_equal; ring.
    + assert (Ep : phase nu eta varphi n (nth b ball 0%nat) b i = Some (nu i (nth b ball 0%nat) + sumn n (fun t => w t * eta i (nth b ball 0%nat) t))).
      { unfold phase, range. rewrite Nat.sub_0_r. rewrite (fold_left_ext _ (fun x t0 => add_nan x (Some (w t0 * eta i (nth b ball 0%nat) t0)))).
        - rewrite fold_phase. reflexivity.
        - intros a t0 Ht0. apply in_seq in Ht0. rewrite (EW t0) by lia. destruct (Hw t0 ltac:(lia)) as (-> & _). reflexivity. }
      rewrite Ep. f_equal. destruct (Req_dec (w i) 0) as [Z|Z]; [rewrite Z, sqrt_0; csolve|].
      assert (Bi : in_ball (em_dist_land_data e) r i b) by (apply Q; lra).
      assert (Near : forall a c, in_ball (em_dist_land_data e) r a b -> in_ball (em_dist_land_data e) r c b -> near dm t a c) by (intros a c; apply (balls_near e n N r t b a c ML MD Me Ht)).
      f_equal. f_equal. f_equal. rewrite (H1 i (nth b ball 0%nat)) by (try lia; apply Near; assumption). unfold mean_phase.
      rewrite <- (Rmult_1_r (alt2 g i (nth b ball 0%nat))), <- Sw, <- sumn_scal, <- sumn_add. apply sumn_ext. intros t0 Ht0. unfold weight0. fold (weight e r f t0 b).
      destruct (Hw t0 Ht0) as (-> & P0 & Q0). destruct (Req_dec (w t0) 0) as [Z0|Z0]; [rewrite Z0; ring|].
      assert (Bt : in_ball (em_dist_land_data e) r t0 b) by (apply Q0; lra).
      rewrite (H2 i (nth b ball 0%nat) t0) by (try lia; apply Near; assumption). ring.
  - rewrite (W2 H i) by lia. unfold exp_times. cbn [sqrt_nan]. destruct (if numba_freezes N n then Some 0 else _); reflexivity.
Qed.

(** ** Values of the dense vector *)
Lemma three_perm (i j k : Z) vs : Permutation [i; j; k] vs ->
  vs = [i; j; k] \/ vs = [j; k; i] \/ vs = [k; i; j] \/ vs = [i; k; j] \/ vs = [j; i; k] \/ vs = [k; j; i].
Proof.
  intros P. pose proof (Permutation_length P) as L. destruct vs as [|a [|b [|d [|? ?]]]]; try discriminate L.
  assert (Ia : In a [i; j; k]) by (eapply Permutation_in; [apply Permutation_sym; exact P|left; reflexivity]).
  assert (T2 : forall x y u v : Z, Permutation [x; y] [u; v] -> (u = x /\ v = y) \/ (u = y /\ v = x)).
  { intros x y u v Q. apply Permutation_length_2_inv in Q. destruct Q as [Q|Q]; injection Q; auto. }
  destruct Ia as [<-|[<-|[<-|[]]]].
  - apply Permutation_cons_inv in P. destruct (T2 _ _ _ _ P) as [[-> ->]|[-> ->]]; tauto.
  - apply (Permutation_trans (perm_swap i j [k])) in P. apply Permutation_cons_inv in P. destruct (T2 _ _ _ _ P) as [[-> ->]|[-> ->]]; tauto.
  - assert (Q : Permutation [k; i; j] [k; b; d]) by (eapply Permutation_trans; [|exact P]; eapply Permutation_trans; [apply perm_swap|]; apply perm_skip, perm_swap).
    apply Permutation_cons_inv in Q. destruct (T2 _ _ _ _ Q) as [[-> ->]|[-> ->]]; tauto.
Qed.
Lemma perm3_dec (i j k : Z) vs : {Permutation [i; j; k] vs} + {~ Permutation [i; j; k] vs}.
Proof.
  destruct (in_dec (list_eq_dec Z.eq_dec) vs [[i; j; k]; [j; k; i]; [k; i; j]; [i; k; j]; [j; i; k]; [k; j; i]]) as [I|I].
  - left. pose proof (Permutation_refl [i; j; k]) as Q.
    destruct I as [<-|[<-|[<-|[<-|[<-|[<-|[]]]]]]].
    + exact Q.
    + eapply Permutation_trans; [apply perm_swap|apply perm_skip, perm_swap].
    + apply Permutation_sym. eapply Permutation_trans; [apply perm_swap|apply perm_skip, perm_swap].
    + apply perm_skip, perm_swap.
    + apply perm_swap.
    + change [k; j; i] with (rev [i; j; k]). apply Permutation_rev.
  - right. intros P. apply I. apply three_perm in P. cbn [In]. intuition.
Qed.
Lemma orientation3 (i j k : Z) : (i < j < k)%Z ->
  orientation [i; j; k] = 1%Z /\ orientation [j; k; i] = 1%Z /\ orientation [k; i; j] = 1%Z /\
  orientation [i; k; j] = (-1)%Z /\ orientation [j; i; k] = (-1)%Z /\ orientation [k; j; i] = (-1)%Z.
Proof.
  intros H. unfold orientation, inversions, filter.
  repeat match goal with |- context [(?a <? ?b)%Z] => first [rewrite (proj2 (Z.ltb_lt a b)) by lia|rewrite (proj2 (Z.ltb_ge a b)) by lia] end.
  repeat split; reflexivity.
Qed.
Lemma vector_values argsort N Dm n c vec : (n <= N)%nat -> (2 <= Dm)%nat -> (forall l, is_argsort Z.le 0%Z l (argsort l)) ->
  simplex_cocycle n 2 c -> sparse_cocycle_to_vector argsort c (combinatorial_number_system_table N Dm) n = Ok vec ->
  length vec = comb n 3 /\ forall a, triangle_values c n a -> forall i j k, (i < n)%nat -> (j < n)%nat -> (k < n)%nat -> a i j k = alt3 vec i j k.
Proof.
  intros HN HD A (Hd & F & O) E. assert (F' : Forall (fun row => length (fst row) = 3%nat /\ NoDup (fst row) /\ Forall (fun u => (0 <= u < Z.of_nat n)%Z) (fst row)) (c_rows c)) by exact F.
  destruct (sparse_to_vector_ok argsort n 2 c N Dm HN HD Hd F A) as (vec' & E' & L & H). rewrite E in E'; injection E' as <-. split; [exact L|].
  intros a (A1 & A2 & V & Z0).
  assert (Zr : forall i j k, (i = j \/ j = k \/ i = k)%nat -> a i j k = 0%Z).
  { intros i j k Q. pose proof (A1 i j k) as Q1. pose proof (A2 i j k) as Q2. destruct Q as [ -> |[ -> | -> ]]; try lia.
    pose proof (A1 k j k). pose proof (A2 j k k). lia. }
  assert (S : forall i j k, (i < j < k)%nat -> (k < n)%nat -> a i j k = alt3 vec i j k).
  { intros i j k Hijk Hk. assert (Sx : simplex n 2 [i; j; k]) by (apply simplex3; lia). destruct (H [i; j; k] Sx) as [H1 H2]. rewrite alt3_sorted by lia.
    destruct (Exists_dec (fun row : list Z * Z => Permutation [Z.of_nat i; Z.of_nat j; Z.of_nat k] (fst row)) (c_rows c)) as [X|X].
    { intros row. apply perm3_dec. }
    - apply Exists_exists in X. destruct X as ([vs v] & I & P). cbn [fst] in P. pose proof I as I0. apply in_split in I. destruct I as (pre & post & Ep).
      assert (Np : forall row, In row post -> ~ Permutation (map Z.of_nat [i; j; k]) (fst row)).
      { intros row Ir Q. rewrite Ep in O. clear -O Ir Q P. induction pre as [|x pre IH]; [|inversion O; subst; apply IH; assumption].
        cbn [app] in O. inversion O as [|? ? F0 _]; subst. rewrite Forall_forall in F0. apply (F0 row Ir). cbn [fst map] in *.
        eapply Permutation_trans; [apply Permutation_sym; exact P|exact Q]. }
      rewrite (nth_error_nth _ _ 0%Z (H1 pre vs v post Ep P Np)).
      destruct (orientation3 (Z.of_nat i) (Z.of_nat j) (Z.of_nat k) ltac:(lia)) as (O1 & O2 & O3 & O4 & O5 & O6).
      destruct (three_perm _ _ _ _ P) as [Q|[Q|[Q|[Q|[Q|Q]]]]]; subst vs; apply V in I0; rewrite ?O1, ?O2, ?O3, ?O4, ?O5, ?O6.
      + lia.
      + pose proof (A2 j i k). pose proof (A1 i j k). lia.
      + pose proof (A1 i k j). pose proof (A2 i j k). lia.
      + pose proof (A2 i j k). lia.
      + pose proof (A1 i j k). lia.
      + pose proof (A1 j k i). pose proof (A2 j i k). pose proof (A1 i j k). lia.
    - rewrite (nth_error_nth _ _ 0%Z (H2 ltac:(intros row Ir Q; apply X, Exists_exists; exists row; split; [exact Ir|exact Q]))).
      apply Z0; try lia. intros vs v I P. apply X, Exists_exists. exists (vs, v). split; [exact I|exact P]. }
  intros i j k Hi Hj Hk.
  destruct (Nat.eq_dec i j) as [->|Q1]; [rewrite Zr, alt3_repeat by lia; reflexivity|].
  destruct (Nat.eq_dec j k) as [->|Q2]; [rewrite Zr, alt3_repeat by lia; reflexivity|].
  destruct (Nat.eq_dec i k) as [->|Q3]; [rewrite Zr, alt3_repeat by lia; reflexivity|].
  destruct (Nat.lt_ge_cases i j), (Nat.lt_ge_cases j k), (Nat.lt_ge_cases i k); try lia.
  - apply S; lia.
  - pose proof (S i k j ltac:(lia) ltac:(lia)). pose proof (A2 i j k). pose proof (alt3_swap2 vec i j k). lia.
  - pose proof (S k i j ltac:(lia) ltac:(lia)). pose proof (A1 i k j). pose proof (A2 i j k). pose proof (alt3_swap1 vec i k j). pose proof (alt3_swap2 vec i j k). lia.
  - pose proof (S j i k ltac:(lia) ltac:(lia)). pose proof (A1 i j k). pose proof (alt3_swap1 vec i j k). lia.
  - pose proof (S j k i ltac:(lia) ltac:(lia)). pose proof (A2 j i k). pose proof (A1 i j k). pose proof (alt3_swap2 vec j i k). pose proof (alt3_swap1 vec i j k). lia.
  - pose proof (S k j i ltac:(lia) ltac:(lia)). pose proof (A1 j k i). pose proof (A2 j i k). pose proof (A1 i j k). pose proof (alt3_swap1 vec j k i). pose proof (alt3_swap2 vec j i k). pose proof (alt3_swap1 vec i j k). lia.
Qed.
