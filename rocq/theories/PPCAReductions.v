(** PPCAReductions.v -- the steps of the model are the reductions of SpecPPCA. *)
From Verif Require Import Base BaseProofs RealBase RealSum SpecEM ComplexBase PPCAModel SpecPPCA PPCAProofs KyFan.
Import ListNotations.
Local Open Scope R_scope.

Lemma csum_first n f : csum (S n) f = cadd (f 0%nat) (csum n (fun i => f (S i))).
Proof. unfold csum, cadd; cbn [fst snd]. rewrite !sumn_first. reflexivity. Qed.
Lemma none_or_finite {A} (l : list (option A)) : In None l \/ exists v, l = map Some v.
Proof.
  induction l as [|[a|] l IH]; [right; exists []; reflexivity| |left; left; reflexivity].
  destruct IH as [H|[v ->]]; [left; right; exact H|right; exists (a :: v); reflexivity].
Qed.
Lemma finite_not_none {A} (v : list A) : ~ In None (map Some v).
Proof. intros H. apply in_map_iff in H as (a & E & _). discriminate. Qed.
Lemma map_Some_inj {A} (u v : list A) : map Some u = map Some v -> u = v.
Proof. revert v; induction u as [|a u IH]; intros [|b v] E; try discriminate; [reflexivity|]. injection E as -> E. f_equal; apply IH, E. Qed.

Lemma seq_at d k : (k < d)%nat -> nth_error (seq 0 d) k = Some k.
Proof. intros Hk; rewrite (nth_error_nth' _ 0%nat) by (rewrite seq_length; exact Hk); rewrite seq_nth by exact Hk; reflexivity. Qed.

(** ** Second moments *)
Lemma gram_entry d X i j : (i < d)%nat -> (j < d)%nat ->
  entry (gram_of d X) i j (csum_nan (map (fun x => nan2 cmul (nth i x None) (option_map conj (nth j x None))) X)).
Proof.
  intros Hi Hj. unfold gram_of, mk2.
  eexists; split; [rewrite nth_error_map, seq_at by exact Hi; reflexivity|]. rewrite nth_error_map, seq_at by exact Hj; reflexivity.
Qed.
Lemma csum_none l : In None l -> csum_nan l = None.
Proof.
  unfold csum_nan. induction l as [|a l IH]; [intros []|]. cbn [fold_right]. intros [->|H]; [reflexivity|]. rewrite (IH H). destruct a; reflexivity.
Qed.
Lemma second_moments_gram d X : second_moments d X (gram_of d X).
Proof.
  split; [apply mk2_matrix|]. intros i j Hi Hj. pose proof (gram_entry d X i j Hi Hj) as E. split.
  - intros (x & Ix & Hx). rewrite csum_none in E; [exact E|]. apply in_map_iff. exists x. split; [|exact Ix].
    destruct Hx as [-> | ->]; [reflexivity|]. destruct (nth i x None); reflexivity.
  - intros y z H. enough (Q : csum_nan (map (fun x => nan2 cmul (nth i x None) (option_map conj (nth j x None))) X) = Some (csum (length X) (fun b => cmul (y b) (conj (z b)))))
      by (rewrite Q in E; exact E). clear E. revert y z H. induction X as [|x X IH]; intros y z H; [reflexivity|].
    destruct (H 0%nat x eq_refl) as [H1 H2]. cbn [map length]. unfold csum_nan in *. cbn [fold_right]. rewrite H1, H2. cbn [option_map nan2].
    rewrite (IH (fun b => y (S b)) (fun b => z (S b))) by (intros b x' Eb; apply (H (S b) x' Eb)). cbn [nan2]. rewrite csum_first. reflexivity.
Qed.
Lemma entry_fun {A} (G : list (list A)) i j x y : entry G i j x -> entry G i j y -> x = y.
Proof. intros (r & E1 & E2) (r' & E3 & E4). congruence. Qed.
Lemma matrix_ext {A} n m (G H : list (list A)) : matrix n m G -> matrix n m H ->
  (forall i j x, (i < n)%nat -> (j < m)%nat -> entry G i j x -> entry H i j x) -> G = H.
Proof.
  intros [L1 F1] [L2 F2] E. rewrite Forall_forall in F1, F2. apply (nth_ext _ _ [] []); [congruence|]. intros i Hi.
  destruct (nth_error G i) as [r|] eqn:Er; [|apply nth_error_None in Er; lia]. destruct (nth_error H i) as [r'|] eqn:Er'; [|apply nth_error_None in Er'; lia].
  rewrite (nth_error_nth _ _ [] Er), (nth_error_nth _ _ [] Er'). pose proof (F1 r (nth_error_In _ _ Er)) as Lr. pose proof (F2 r' (nth_error_In _ _ Er')) as Lr'.
  destruct r as [|x0 r0]; [destruct r'; [reflexivity|cbn in *; lia]|].
  apply (nth_ext _ _ x0 x0); [congruence|]. intros j Hj. destruct (E i j (nth j (x0 :: r0) x0) ltac:(lia) ltac:(lia)) as (r1 & Q1 & Q2).
  - exists (x0 :: r0). split; [exact Er|apply nth_error_nth'; exact Hj].
  - rewrite Er' in Q1; injection Q1 as <-. symmetry. apply nth_error_nth; exact Q2.
Qed.
Lemma second_moments_iff d X G : second_moments d X G <-> G = gram_of d X.
Proof.
  split; [|intros ->; apply second_moments_gram]. intros [M H]. destruct (second_moments_gram d X) as [M' H'].
  apply (matrix_ext d d G (gram_of d X) M M'). intros i j x Hi Hj E. destruct (H i j Hi Hj) as [H1 H2]. destruct (H' i j Hi Hj) as [H1' H2'].
  assert (D : (exists x, In x X /\ (nth i x None = None \/ nth j x None = None)) \/
    exists y z : nat -> C, forall b x, nth_error X b = Some x -> nth i x None = Some (y b) /\ nth j x None = Some (z b)).
  { clear. induction X as [|x X [(x' & I & Q)|(y & z & Q)]].
    - right. exists (fun _ => c0), (fun _ => c0). intros [|b] x Hb; discriminate Hb.
    - left. exists x'. split; [right; exact I|exact Q].
    - destruct (nth i x None) as [u|] eqn:E1; [|left; exists x; split; [left; reflexivity|left; exact E1]].
      destruct (nth j x None) as [v|] eqn:E2; [|left; exists x; split; [left; reflexivity|right; exact E2]].
      right. exists (fun b => match b with 0%nat => u | S b => y b end), (fun b => match b with 0%nat => v | S b => z b end).
      intros [|b] x' Hb; cbn in Hb; [injection Hb as <-; split; assumption|apply Q, Hb]. }
  destruct D as [D|(y & z & D)].
  - rewrite (entry_fun _ _ _ _ _ E (H1 D)). exact (H1' D).
  - rewrite (entry_fun _ _ _ _ _ E (H2 y z D)). exact (H2' y z D).
Qed.

(** ** Directions, components, norms *)
Lemma direction_iff eigh d X j u : eigh_shape eigh -> (direction eigh d X j u <-> nth_error (eigenvectors eigh d X) j = Some u).
Proof.
  intros He. unfold direction. split.
  - intros (Hj & G & HG & H). apply second_moments_iff in HG; subst G. unfold eigenvectors. destruct (eigh (gram_of d X)) as [U|] eqn:E.
    + destruct (He d _ _ (mk2_matrix d d _) E) as [LU _]. rewrite (nth_error_nth' (rev U) []) by (rewrite rev_length; lia).
      rewrite nth_rev_at, LU by lia. rewrite (nth_error_nth _ _ [] H). reflexivity.
    + destruct H as [Lu Hu]. unfold ceye, mk2. rewrite nth_error_map, seq_at by exact Hj. cbn [option_map]. f_equal.
      apply (nth_ext _ _ None None); [rewrite map_length, seq_length; congruence|]. intros k Hk. rewrite map_length, seq_length in Hk.
      rewrite (nth_error_nth _ _ None (Hu k Hk)). apply nth_error_nth. rewrite nth_error_map, seq_at by exact Hk. cbn [option_map]. rewrite Nat.eqb_sym. reflexivity.
  - intros H. destruct (eigen_matrix eigh d X He) as [LE _]. assert (Hj : (j < d)%nat) by (rewrite <- LE; apply nth_error_Some; congruence).
    split; [exact Hj|]. exists (gram_of d X). split; [apply second_moments_gram|]. unfold eigenvectors in H. destruct (eigh (gram_of d X)) as [U|] eqn:E.
    + destruct (He d _ _ (mk2_matrix d d _) E) as [LU _]. rewrite (nth_error_nth' (rev U) []) in H by (rewrite rev_length; lia). rewrite nth_rev_at, LU in H by lia. injection H as <-.
      apply nth_error_nth'. lia.
    + unfold ceye, mk2 in H. rewrite nth_error_map, seq_at in H by exact Hj. cbn [option_map] in H. injection H as <-.
      split; [rewrite map_length, seq_length; reflexivity|]. intros k Hk. rewrite nth_error_map, seq_at by exact Hk.
      cbn [option_map]. rewrite Nat.eqb_sym. reflexivity.
Qed.
Lemma cdot_in_none u x : length u = length x -> In None u \/ In None x -> cdot_nan (map (option_map conj) u) x = None.
Proof.
  intros L H. unfold cdot_nan. apply csum_none. revert x L H. induction u as [|a u IH]; intros [|b x] L H; try discriminate L; [destruct H as [[]|[]]|].
  cbn [map combine fst snd]. destruct H as [[->|H]|[->|H]]; [left; reflexivity|right; apply IH; [injection L; auto|left; exact H]|left; destruct a; reflexivity|right; apply IH; [injection L; auto|right; exact H]].
Qed.
Lemma component_iff u x z : length u = length x -> (component u x z <-> z = cdot_nan (map (option_map conj) u) x).
Proof.
  intros L. assert (K : component u x (cdot_nan (map (option_map conj) u) x)).
  { split; [|apply cdot_in_none; exact L]. intros u' x' -> ->. rewrite !map_length in *. apply cdot_finite. exact L. }
  split; [|intros ->; exact K]. intros [H1 H2]. destruct K as [K1 K2].
  destruct (none_or_finite u) as [N|[u' Eu]]; [rewrite (H2 (or_introl N)), (K2 (or_introl N)); reflexivity|].
  destruct (none_or_finite x) as [N|[x' Ex]]; [rewrite (H2 (or_intror N)), (K2 (or_intror N)); reflexivity|].
  rewrite (H1 u' x' Eu Ex), (K1 u' x' Eu Ex). reflexivity.
Qed.
Lemma nan_points x y : nan_point x -> nan_point y -> length x = length y -> x = y.
Proof.
  intros F. revert y. induction F as [|a x Ha F IH]; intros [|b y] G L; try discriminate L; [reflexivity|]. inversion G as [|c d Hb G' E]; subst. f_equal. apply IH; [exact G'|injection L; auto].
Qed.
Lemma normalized_iff y z : normalized y z <-> z = normalize y.
Proof.
  assert (K : normalized y (normalize y)).
  { split; [apply normalize_length|]. split.
    - intros N. unfold normalize. assert (E : norm2_nan y = None). { destruct (norm2_nan y) as [s|] eqn:E; [|reflexivity]. destruct (norm2_some y s E) as (v & -> & _). exfalso; exact (finite_not_none v N). }
      rewrite E. apply Forall_map, Forall_forall; reflexivity.
    - intros v -> s. rewrite normalize_finite. fold s. destruct (Req_EM_T s 0) as [E|E]; split; intros H; try contradiction; [|reflexivity].
      apply Forall_map, Forall_forall; reflexivity. }
  split; [|intros ->; exact K]. intros (L & N & F). destruct K as (L' & N' & F').
  destruct (none_or_finite y) as [Hn|[v ->]]; [apply nan_points; [exact (N Hn)|exact (N' Hn)|congruence]|].
  destruct (F v eq_refl) as [A B]. destruct (F' v eq_refl) as [A' B'].
  destruct (Req_EM_T (sumn (length v) (fun k => cabs2 (nth k v c0))) 0) as [E|E]; [apply nan_points; [exact (A E)|exact (A' E)|congruence]|].
  rewrite (B E), (B' E). reflexivity.
Qed.

(** ** Reductions *)
Lemma forall2_map {A B} (P : A -> B -> Prop) (Q : A -> Prop) (f : A -> B) X Z : Forall Q X -> (forall x z, Q x -> (P x z <-> z = f x)) ->
  (Forall2 P X Z <-> Z = map f X).
Proof.
  intros F H. split.
  - intros G. induction G as [|x z X Z Hx G IH]; [reflexivity|]. inversion F as [|a b Hq F']; subst. cbn [map]. f_equal; [apply H; assumption|apply IH, F'].
  - intros ->. induction F as [|x X Hx F IH]; constructor; [apply H; [exact Hx|reflexivity]|exact IH].
Qed.
Lemma eigen_len eigh d X j u : eigh_shape eigh -> nth_error (eigenvectors eigh d X) j = Some u -> length u = d.
Proof. intros He E. destruct (eigen_matrix eigh d X He) as [_ F]. rewrite Forall_forall in F. apply F, (nth_error_In _ _ E). Qed.
Lemma reduction_iff eigh d k X Z : eigh_shape eigh -> shaped d X -> (k <= d)%nat ->
  (reduction eigh d k X Z <-> Z = snd (one_step eigh (Z.of_nat k) (d, X))).
Proof.
  intros He Sh Hk. unfold reduction, one_step; cbn [fst snd]. set (U := eigenvectors eigh d X). destruct (eigen_matrix eigh d X He) as [LU _]. fold U in LU.
  assert (Sl : slice_to (Z.of_nat k) U = firstn k U) by (unfold slice_to; destruct (Z.ltb_spec (Z.of_nat k) 0); [lia|rewrite Nat2Z.id; reflexivity]).
  assert (Ly : length (firstn k U) = k) by (rewrite firstn_length; lia).
  assert (One : forall x z, length x = d -> ((exists y, normalized y z /\ length y = k /\
     forall j u, (j < k)%nat -> direction eigh d X j u -> exists c, nth_error y j = Some c /\ component u x c) <-> z = normalize (slice_to (Z.of_nat k) (rotate U x)))).
  { intros x z Lx. rewrite slice_rotate, Sl. split.
    - intros (y & Ny & L & H). apply normalized_iff in Ny. subst z. f_equal. unfold rotate. apply (nth_ext _ _ None None); [rewrite map_length; congruence|].
      intros j Hj. destruct (nth_error U j) as [u|] eqn:Eu; [|apply nth_error_None in Eu; lia].
      destruct (H j u ltac:(lia)) as (c & Ec & Cc); [apply direction_iff; assumption|]. rewrite (nth_error_nth _ _ None Ec). apply component_iff in Cc; [|rewrite (eigen_len _ _ _ _ _ He Eu); congruence]. subst c.
      symmetry. apply nth_error_nth. rewrite nth_error_map. rewrite (nth_error_nth' (firstn k U) []) by lia. rewrite nth_firstn_lt by lia. rewrite (nth_error_nth _ _ [] Eu). reflexivity.
    - intros ->. exists (rotate (firstn k U) x). split; [apply normalized_iff; reflexivity|]. split; [unfold rotate; rewrite map_length; exact Ly|].
      intros j u Hj Hd. apply direction_iff in Hd; [|exact He]. exists (cdot_nan (map (option_map conj) u) x). split; [|apply component_iff; [rewrite (eigen_len _ _ _ _ _ He Hd); congruence|reflexivity]].
      unfold rotate. rewrite nth_error_map. rewrite (nth_error_nth' (firstn k U) []) by lia. rewrite nth_firstn_lt by lia. fold U in Hd. rewrite (nth_error_nth _ _ [] Hd). reflexivity. }
  apply forall2_map with (Q := fun x => length x = d); [exact Sh|exact One].
Qed.

(** Chains: [ks] decreases from [d]. *)
Fixpoint chain (d : nat) (ks : list nat) : Prop := match ks with [] => True | k :: ks => (k <= d)%nat /\ chain k ks end.
Lemma step_fst eigh k d X : eigh_shape eigh -> (k <= d)%nat -> fst (one_step eigh (Z.of_nat k) (d, X)) = k.
Proof. intros He Hk. rewrite step_dim by (exact He || lia). cbn [fst]. lia. Qed.
Lemma reductions_iff eigh ks : eigh_shape eigh -> forall d X Z, shaped d X -> chain d ks ->
  (reductions eigh d ks X Z <-> Z = snd (reduce eigh (map Z.of_nat ks) (d, X))).
Proof.
  intros He. induction ks as [|k ks IH]; intros d X Z Sh Hc.
  - split; [intros H; inversion H; reflexivity|intros ->; constructor].
  - destruct Hc as [Hk Hc]. cbn [map]. change (reduce eigh (Z.of_nat k :: map Z.of_nat ks) (d, X)) with (reduce eigh (map Z.of_nat ks) (one_step eigh (Z.of_nat k) (d, X))).
    pose proof (step_fst eigh k d X He Hk) as F. pose proof (step_shaped eigh (Z.of_nat k) (d, X)) as Sh'. rewrite F in Sh'.
    rewrite (surjective_pairing (one_step eigh (Z.of_nat k) (d, X))), F. split.
    + intros H; inversion H as [|d' k' ks' X' Y Z' H1 H2]; subst. apply reduction_iff in H1; [|assumption..]. subst Y. apply IH; assumption.
    + intros H. apply red_step with (Y := snd (one_step eigh (Z.of_nat k) (d, X))); [apply reduction_iff; try assumption; reflexivity|]. apply IH; assumption.
Qed.
Lemma reduce_fst eigh ks : eigh_shape eigh -> forall d X, chain d ks -> fst (reduce eigh (map Z.of_nat ks) (d, X)) = last (d :: ks) 0%nat.
Proof.
  intros He. induction ks as [|k ks IH]; intros d X Hc; [reflexivity|]. destruct Hc as [Hk Hc]. cbn [map].
  change (reduce eigh (Z.of_nat k :: map Z.of_nat ks) (d, X)) with (reduce eigh (map Z.of_nat ks) (one_step eigh (Z.of_nat k) (d, X))).
  rewrite (surjective_pairing (one_step eigh (Z.of_nat k) (d, X))), step_fst by assumption. rewrite IH by exact Hc. reflexivity.
Qed.
Lemma chain_app d a : forall b, chain d (a ++ b) <-> chain d a /\ chain (last (d :: a) 0%nat) b.
Proof.
  revert d; induction a as [|k a IH]; intros d b; [cbn; tauto|]. cbn [app chain]. rewrite IH. change (last (d :: k :: a) 0%nat) with (last (k :: a) 0%nat). tauto.
Qed.
Lemma vanishes_iff eigh d k X b x : eigh_shape eigh -> shaped d X -> (k <= d)%nat -> nth_error X b = Some x ->
  (vanishes eigh d k X b <-> vanishes0 eigh (d, X) b [] (Z.of_nat k)).
Proof.
  intros He Sh Hk Eb. unfold vanishes, vanishes0, reduce; cbn [fold_left fst snd]. rewrite (nth_error_nth _ _ [] Eb).
  assert (Lx : length x = d) by (unfold shaped in Sh; rewrite Forall_forall in Sh; apply Sh, (nth_error_In _ _ Eb)).
  destruct (eigen_matrix eigh d X He) as [LU _].
  assert (Sl : slice_to (Z.of_nat k) (eigenvectors eigh d X) = firstn k (eigenvectors eigh d X)) by (unfold slice_to; destruct (Z.ltb_spec (Z.of_nat k) 0); [lia|rewrite Nat2Z.id; reflexivity]).
  rewrite Sl. split.
  - intros H u Hu. apply In_nth_error in Hu as (j & Ej). assert (Hj : (j < k)%nat) by (assert (j < length (firstn k (eigenvectors eigh d X)))%nat by (apply nth_error_Some; congruence); rewrite firstn_length in *; lia).
    assert (Eu : nth_error (eigenvectors eigh d X) j = Some u).
    { rewrite (nth_error_nth' _ []) by lia. rewrite <- (nth_firstn_lt _ _ k) by exact Hj. rewrite (nth_error_nth _ _ [] Ej). reflexivity. }
    symmetry. apply component_iff; [rewrite (eigen_len _ _ _ _ _ He Eu); congruence|]. apply (H j u Hj), direction_iff; assumption.
  - intros H j u Hj Hd. apply direction_iff in Hd; [|exact He]. apply component_iff; [rewrite (eigen_len _ _ _ _ _ He Hd); congruence|]. symmetry. apply H.
    apply (nth_error_In _ j). rewrite (nth_error_nth' _ []) by (rewrite firstn_length; lia). rewrite nth_firstn_lt by exact Hj. rewrite (nth_error_nth _ _ [] Hd). reflexivity.
Qed.

(** ** The stages of the three modes *)
Lemma slice_min {A} k (l : list A) : slice_to (Z.of_nat k) l = slice_to (Z.of_nat (Nat.min k (length l))) l.
Proof.
  unfold slice_to. destruct (Z.ltb_spec (Z.of_nat k) 0); [lia|]. destruct (Z.ltb_spec (Z.of_nat (Nat.min k (length l))) 0); [lia|]. rewrite !Nat2Z.id.
  destruct (Nat.le_gt_cases k (length l)); [rewrite Nat.min_l by assumption; reflexivity|]. rewrite Nat.min_r, firstn_all by lia. apply firstn_all2; lia.
Qed.
Lemma step_min eigh k d X : eigh_shape eigh -> one_step eigh (Z.of_nat k) (d, X) = one_step eigh (Z.of_nat (Nat.min k d)) (d, X).
Proof.
  intros He. unfold one_step; cbn [fst snd]. destruct (eigen_matrix eigh d X He) as [LU _]. f_equal.
  - rewrite slice_min, LU. reflexivity.
  - apply map_ext. intros x. f_equal.
    assert (Lr : length (rotate (eigenvectors eigh d X) x) = d) by (unfold rotate; rewrite map_length; exact LU). rewrite (slice_min k), Lr. reflexivity.
Qed.
Lemma step_minus_one eigh d X : eigh_shape eigh -> one_step eigh (-1) (d, X) = one_step eigh (Z.of_nat (d - 1)) (d, X).
Proof.
  intros He. destruct (eigen_matrix eigh d X He) as [LU _].
  assert (Q : forall A (l : list A), length l = d -> slice_to (-1) l = slice_to (Z.of_nat (d - 1)) l).
  { intros A l Ll. unfold slice_to. change (-1 <? 0)%Z with true. cbv iota. destruct (Z.ltb_spec (Z.of_nat (d - 1)) 0); [lia|]. rewrite Nat2Z.id, Ll. f_equal. }
  unfold one_step; cbn [fst snd]. rewrite (Q _ _ LU). f_equal. apply map_ext. intros x. f_equal. apply Q. unfold rotate. rewrite map_length. exact LU.
Qed.
Lemma halves_list : forall fuel t k, (k <= fuel)%nat ->
  halves fuel (Z.of_nat t) (Z.of_nat (k / 2)) = map Z.of_nat (map (fun i => t + k / 2 ^ i)%nat (seq 1 (Nat.log2 k))).
Proof.
  induction fuel as [|fuel IH]; intros t k Hk.
  - replace k with 0%nat by lia. reflexivity.
  - assert (D : (k / 2 <= k)%nat) by (apply Nat.div_le_upper_bound; lia).
    cbn [halves]. destruct (Z.ltb_spec 0 (Z.of_nat (k / 2))) as [P|P].
    + assert (K2 : (2 <= k)%nat). { destruct k as [|[|k]]; cbn in P; lia. }
      assert (D2 : (k / 2 < k)%nat) by (apply Nat.div_lt; lia).
      rewrite <- Nat2Z.inj_add. replace (Z.of_nat (k / 2) / 2)%Z with (Z.of_nat (k / 2 / 2)) by (rewrite div_Zdiv by lia; reflexivity).
      rewrite IH by lia.
      assert (LG : Nat.log2 k = S (Nat.log2 (k / 2))).
      { pose proof (Nat.div_mod k 2 ltac:(lia)) as DM. pose proof (Nat.mod_upper_bound k 2 ltac:(lia)) as MB.
        destruct (Nat.eq_dec (k mod 2) 0) as [E|E].
        - rewrite DM at 1. rewrite E, Nat.add_0_r. apply Nat.log2_double. lia.
        - rewrite DM at 1. replace (k mod 2)%nat with 1%nat by lia. apply Nat.log2_succ_double. lia. }
      rewrite LG. cbn [seq map]. rewrite Nat.pow_1_r. f_equal. rewrite <- (seq_shift (Nat.log2 (k / 2)) 1), !map_map. apply map_ext. intros i.
      rewrite Nat.div_div by (try lia; apply Nat.pow_nonzero; lia). rewrite <- Nat.pow_succ_r'. reflexivity.
    + assert (k < 2)%nat. { destruct k as [|[|k]]; try lia. exfalso. assert (1 <= S (S k) / 2)%nat by (apply Nat.div_le_lower_bound; lia). lia. }
      destruct k as [|[|k]]; [reflexivity|reflexivity|lia].
Qed.
Lemma halves_more : forall f1 f2 t k, (Z.to_nat k <= f1)%nat -> (Z.to_nat k <= f2)%nat -> halves f1 t k = halves f2 t k.
Proof.
  induction f1 as [|f1 IH]; intros f2 t k H1 H2; cbn [halves].
  - destruct f2; cbn [halves]; destruct (Z.ltb_spec 0 k); reflexivity || lia.
  - destruct f2 as [|f2]; cbn [halves]; destruct (Z.ltb_spec 0 k); try (reflexivity || lia).
    assert (0 <= k / 2 < k)%Z by (split; [apply Z.div_pos|apply Z.div_lt]; lia). f_equal. apply IH; lia.
Qed.
Lemma drop_one_by_one eigh n cm : eigh_shape eigh -> forall i,
  reduce eigh (repeat (-1)%Z i) (n, cm) = reduce eigh (map Z.of_nat (map (fun i => n - i)%nat (seq 1 i))) (n, cm).
Proof.
  intros He. induction i as [|i IH]; [reflexivity|].
  replace (repeat (-1)%Z (S i)) with (repeat (-1)%Z i ++ [(-1)%Z]) by (symmetry; exact (repeat_cons i (-1)%Z)).
  rewrite seq_S, !map_app, !reduce_app, <- IH. cbn [map]. set (st := reduce eigh (repeat (-1)%Z i) (n, cm)).
  assert (F : fst st = (n - i)%nat) by (unfold st; rewrite <- iterate_reduce, iterate_dim by exact He; reflexivity).
  unfold reduce; cbn [fold_left]. rewrite (surjective_pairing st), F, step_minus_one by exact He. do 2 f_equal. lia.
Qed.
Lemma chain_one_by_one n : forall i, chain n (map (fun i => n - i)%nat (seq 1 i)) /\ last (n :: map (fun i => n - i)%nat (seq 1 i)) 0%nat = (n - i)%nat.
Proof.
  induction i as [|i [IH1 IH2]]; [split; [exact I|cbn; lia]|]. rewrite seq_S, map_app. cbn [map]. split.
  - apply chain_app. split; [exact IH1|]. rewrite IH2. cbn [chain]. split; [lia|exact I].
  - rewrite app_comm_cons, last_last. lia.
Qed.
Lemma chain_halves t k d : forall m a, (t + k / 2 ^ a <= d)%nat -> chain d (map (fun i => t + k / 2 ^ i)%nat (seq (S a) m)).
Proof.
  intros m a. revert d a; induction m as [|m IH]; intros d a H; [exact I|]. cbn [seq map chain].
  assert (Q : (k / 2 ^ S a <= k / 2 ^ a)%nat). { apply Nat.div_le_compat_l. rewrite Nat.pow_succ_r'. assert (2 ^ a <> 0)%nat by (apply Nat.pow_nonzero; lia). lia. }
  split; [lia|]. apply IH. lia.
Qed.
Lemma last_above t (l : list nat) d : (t <= d)%nat -> Forall (fun k => t <= k)%nat l -> (t <= last (d :: l) 0%nat)%nat.
Proof. intros H F. revert d H. induction F as [|k l Hk F IH]; intros d H; [exact H|]. change (last (d :: k :: l) 0%nat) with (last (k :: l) 0%nat). apply IH, Hk. Qed.
Lemma last_strict t (l : list nat) d : (t < d)%nat -> Forall (fun k => t < k)%nat l -> (t < last (d :: l) 0%nat)%nat.
Proof. intros H F. revert d H. induction F as [|k l Hk F IH]; intros d H; [exact H|]. change (last (d :: k :: l) 0%nat) with (last (k :: l) 0%nat). apply IH, Hk. Qed.

Lemma ppca_stages eigh cm n p m : eigh_shape eigh -> accepted m n p ->
  let ks := stages m n (Z.to_nat p) in
  exists var, ppca eigh cm n p m = Ok (var, snd (reduce eigh (map Z.of_nat ks) (n, cm))) /\ length var = (n - 1)%nat /\
    chain n ks /\ last (n :: ks) 0%nat = Nat.min (Z.to_nat (p + 1)) n.
Proof.
  intros He (Hn & Hp & Hm). unfold ppca. assert (E1 : (1 <=? n)%nat = true) by (apply Nat.leb_le; exact Hn). rewrite E1.
  set (q := Z.to_nat p). assert (Eq : (p + 1)%Z = Z.of_nat (q + 1)) by (unfold q; lia). rewrite !Eq, Nat2Z.id.
  destruct m; try contradiction; cbn [bind stages].
  - exists (repeat (Some 0) (n - 1)). rewrite step_min by exact He. split; [reflexivity|]. split; [apply repeat_length|]. split; [cbn [chain]; split; [lia|exact I]|]. cbn [last]. reflexivity.
  - exists (repeat (Some 0) (n - 1)). rewrite halving_reduce by lia. cbn [bind].
    destruct (Nat.leb_spec n (q + 1)) as [Q|Q].
    + set (k := ((Z.of_nat n - Z.of_nat (q + 1)) / 2)%Z). assert (Ek : (k < 1)%Z) by (apply Z.div_lt_upper_bound; lia).
      assert (Eh : halves (Z.to_nat k) (Z.of_nat (q + 1)) k = []) by (destruct (Z.to_nat k) eqn:Z; cbn [halves]; destruct (Z.ltb_spec 0 k); try reflexivity; lia).
      rewrite Eh. cbn [map reduce fold_left fst snd]. destruct (Z.ltb_spec (Z.of_nat (q + 1)) (Z.of_nat n)); [lia|]. split; [reflexivity|]. split; [apply repeat_length|]. split; [exact I|]. cbn [last]. lia.
    + set (e := (n - (q + 1))%nat). assert (Ee : (Z.of_nat n - Z.of_nat (q + 1))%Z = Z.of_nat e) by (unfold e; lia). rewrite Ee.
      replace (Z.of_nat e / 2)%Z with (Z.of_nat (e / 2)) by (rewrite div_Zdiv by lia; reflexivity). rewrite Nat2Z.id.
      assert (D : (e / 2 <= e)%nat) by (apply Nat.div_le_upper_bound; lia).
      rewrite (halves_more (e / 2) e) by lia. rewrite halves_list by lia. set (hs := map (fun i => (q + 1 + e / 2 ^ i)%nat) (seq 1 (Nat.log2 e))).
      assert (Ch : chain n hs) by (apply (chain_halves (q + 1) e n (Nat.log2 e) 0); cbn [Nat.pow]; rewrite Nat.div_1_r; unfold e; lia).
      assert (Ab : Forall (fun k => q + 1 < k)%nat hs).
      { apply Forall_map, Forall_forall. intros i Hi. apply in_seq in Hi. assert (1 <= e / 2 ^ i)%nat; [|lia]. apply Nat.div_le_lower_bound; [apply Nat.pow_nonzero; lia|].
        rewrite Nat.mul_1_r. apply Nat.le_trans with (2 ^ Nat.log2 e)%nat; [apply Nat.pow_le_mono_r; lia|]. apply Nat.log2_spec. unfold e; lia. }
      rewrite reduce_fst by assumption. pose proof (last_strict (q + 1) hs n Q Ab) as La.
      destruct (Z.ltb_spec (Z.of_nat (q + 1)) (Z.of_nat (last (n :: hs) 0%nat))); [|lia].
      rewrite map_app, reduce_app. split; [reflexivity|]. split; [apply repeat_length|]. split.
      * apply chain_app. split; [exact Ch|]. cbn [chain]. split; [lia|exact I].
      * rewrite app_comm_cons, last_last. lia.
  - destruct (loop_ok eigh n p cm (n - 1) (le_n _)) as (var & E & Lv & _). rewrite E. cbn [bind].
    destruct (Z.leb_spec 0 (Z.of_nat n - p - 1)); [|lia]. destruct (Z.ltb_spec (Z.of_nat n - p - 1) (Z.of_nat (n - 1))); [|lia]. cbn [andb].
    exists var. replace (Z.to_nat (Z.of_nat n - p - 1)) with (n - (q + 1))%nat by (unfold q; lia).
    rewrite iterate_reduce, drop_one_by_one by exact He. split; [reflexivity|]. split; [exact Lv|]. destruct (chain_one_by_one n (n - (q + 1))) as [C1 C2]. split; [exact C1|]. rewrite C2. unfold q in *; lia.
Qed.
