(** CombinatorialProofs.v -- lemmas about CombinatorialModel.v. *)
From Coq Require Import Sorted.
From Verif Require Import Base BaseProofs CombinatorialModel SpecSimplex.

(** ** Binomials *)
Lemma comb_S n k : comb (S n) (S k) = comb n k + comb n (S k).
Proof. reflexivity. Qed.

Lemma comb_0_r n : comb n 0 = 1.
Proof. destruct n; reflexivity. Qed.

Lemma comb_lt n k : n < k -> comb n k = 0.
Proof.
  revert k; induction n as [|n IH]; intros [|k] H; try lia; [reflexivity|].
  rewrite comb_S, !IH by lia; reflexivity.
Qed.

Lemma comb_mono n m k : n <= m -> comb n k <= comb m k.
Proof.
  intros H; induction H as [|m H IH]; [lia|].
  destruct k as [|k]; [rewrite !comb_0_r; lia|]. rewrite comb_S; lia.
Qed.

Lemma comb_1 n : comb n 1 = n.
Proof. induction n as [|n IH]; [reflexivity|]; rewrite comb_S, comb_0_r, IH; lia. Qed.

Lemma comb_fact n k : k <= n -> comb n k * (fact k * fact (n - k)) = fact n.
Proof.
  revert k; induction n as [|n IH]; intros [|k] H; try lia; try reflexivity.
  - rewrite comb_0_r, Nat.sub_0_r; cbn [fact]; lia.
  - rewrite comb_S. replace (S n - S k) with (n - k) by lia.
    destruct (Nat.eq_dec k n) as [->|N].
    + rewrite (comb_lt n (S n)) by lia.
      specialize (IH n (le_n _)). rewrite Nat.sub_diag in *.
      rewrite Nat.add_0_r.
      assert (F : fact (S n) = S n * fact n) by reflexivity.
      rewrite F at 1. rewrite F. nia.
    + pose proof (IH k ltac:(lia)) as H1. pose proof (IH (S k) ltac:(lia)) as H2.
      replace (n - k) with (S (n - S k)) in * by lia.
      set (m := n - S k) in *.
      assert (F1 : fact (S k) = S k * fact k) by reflexivity.
      assert (F2 : fact (S m) = S m * fact m) by reflexivity.
      assert (F3 : fact (S n) = S n * fact n) by reflexivity.
      assert (En : S n = S k + S m) by (unfold m; lia).
      rewrite F3, En.
      rewrite Nat.mul_add_distr_r.
      assert (A : comb n k * (fact (S k) * fact (S m)) = S k * fact n).
      { rewrite <- H1, F1; ring. }
      assert (B : comb n (S k) * (fact (S k) * fact (S m)) = S m * fact n).
      { rewrite <- H2, F2; ring. }
      rewrite A, B; ring.
Qed.

Lemma comb_is_binomial n k : is_binomial n k (comb n k).
Proof.
  unfold is_binomial; destruct (Nat.le_gt_cases k n) as [H|H].
  - left; split; [exact H | apply comb_fact; exact H].
  - right; split; [exact H | apply comb_lt; exact H].
Qed.

(** ** The lookup table *)
Lemma get_table err N D i :
  get err (combinatorial_number_system_table N D) i =
  if i <=? N then Ok (map (comb i) (seq 0 (D + 2))) else Raise err.
Proof.
  unfold combinatorial_number_system_table, get; rewrite !range_0.
  destruct (Nat.leb_spec i N) as [H|H].
  - rewrite nth_error_map_seq by lia; reflexivity.
  - rewrite (proj2 (nth_error_None _ _)); [reflexivity|].
    rewrite map_length, seq_length; lia.
Qed.

Lemma lookup_table_spec err N D i l :
  lookup err (combinatorial_number_system_table N D) i l =
  if (i <=? N) && (l <=? D + 1) then Ok (comb i l) else Raise err.
Proof.
  unfold lookup; rewrite get_table.
  destruct (Nat.leb_spec i N) as [Hi|Hi]; cbn [bind andb]; [|reflexivity].
  unfold get; destruct (Nat.leb_spec l (D + 1)) as [Hl|Hl].
  - rewrite nth_error_map_seq by lia; reflexivity.
  - rewrite (proj2 (nth_error_None _ _)); [reflexivity|].
    rewrite map_length, seq_length; lia.
Qed.

Lemma lookup_ok err N D i l : i <= N -> l <= D + 1 ->
  lookup err (combinatorial_number_system_table N D) i l = Ok (comb i l).
Proof.
  intros Hi Hl; rewrite lookup_table_spec.
  rewrite (proj2 (Nat.leb_le _ _) Hi), (proj2 (Nat.leb_le _ _) Hl); reflexivity.
Qed.

(** ** The number of a simplex *)

(** Mathematical value of the loop: sum of comb (s_l) (l + 1 + k). *)
Fixpoint rank_from (k : nat) (s : list nat) : nat :=
  match s with
  | [] => 0
  | v :: r => comb v (S k) + rank_from (S k) r
  end.
Definition rank := rank_from 0.

Lemma rank_from_app k s t : rank_from k (s ++ t) = rank_from k s + rank_from (k + length s) t.
Proof.
  revert k; induction s as [|v s IH]; intros k; cbn [app rank_from length].
  - rewrite Nat.add_0_r; reflexivity.
  - rewrite IH; replace (S k + length s) with (k + S (length s)) by lia; lia.
Qed.

Lemma rank_snoc s v : rank (s ++ [v]) = rank s + comb v (S (length s)).
Proof. unfold rank; rewrite rank_from_app; cbn [rank_from Nat.add]; lia. Qed.

Lemma forward_loop N D (s : list nat) :
  Forall (fun v => v <= N) s -> length s <= D + 1 ->
  combinatorial_number_system_forward s (combinatorial_number_system_table N D) = Ok (rank s).
Proof.
  intros Hv Hl; unfold combinatorial_number_system_forward; rewrite range_0.
  assert (G : forall pre post acc, s = pre ++ post ->
    for_in (seq (length pre) (length post))
      (fun l res => v <- get MemoryUnsafe s l ;;
         x <- lookup MemoryUnsafe (combinatorial_number_system_table N D) v (l + 1) ;;
         Ok (res + x)) acc = Ok (acc + rank_from (length pre) post)).
  { intros pre post; revert pre; induction post as [|v post IH]; intros pre acc E;
      cbn [length seq for_in rank_from].
    - f_equal; lia.
    - assert (Hg : get MemoryUnsafe s (length pre) = Ok v).
      { unfold get; rewrite E, nth_error_app2, Nat.sub_diag by lia; reflexivity. }
      rewrite Hg; cbn [bind].
      assert (In v s) by (rewrite E; apply in_or_app; right; left; reflexivity).
      rewrite Forall_forall in Hv.
      rewrite lookup_ok; [|apply Hv; assumption|].
      2:{ apply (f_equal (@length nat)) in E; rewrite app_length in E; cbn [length] in E; lia. }
      cbn [bind].
      specialize (IH (pre ++ [v]) (acc + comb v (length pre + 1))).
      rewrite app_length in IH; cbn [length] in IH.
      replace (length pre + 1) with (S (length pre)) in * by lia.
      rewrite IH by (rewrite <- app_assoc; exact E).
      f_equal; lia. }
  exact (G [] s 0 eq_refl).
Qed.

(** Splitting off the largest vertex. *)
Lemma sorted_snoc_inv (s : list nat) v :
  StronglySorted lt (s ++ [v]) -> StronglySorted lt s /\ Forall (fun u => u < v) s.
Proof.
  induction s as [|a s IH]; cbn [app]; intros H; [split; constructor|].
  apply StronglySorted_inv in H; destruct H as [H1 H2].
  destruct (IH H1) as [H3 H4].
  rewrite Forall_app in H2; destruct H2 as [H5 H6].
  split; constructor; try assumption. inversion H6; assumption.
Qed.

Lemma sorted_snoc (s : list nat) v :
  StronglySorted lt s -> Forall (fun u => u < v) s -> StronglySorted lt (s ++ [v]).
Proof.
  induction s as [|a s IH]; cbn [app]; intros H F; [repeat constructor|].
  apply StronglySorted_inv in H; destruct H as [H1 H2]; inversion F; subst.
  constructor; [apply IH; assumption|]. apply Forall_app; split; [assumption|].
  constructor; [assumption|constructor].
Qed.

Lemma rank_lt (s : list nat) : forall n,
  StronglySorted lt s -> Forall (fun v => v < n) s -> rank s < comb n (length s).
Proof.
  induction s as [|v s IH] using rev_ind; intros n Hs Hn.
  - cbn [length]; rewrite comb_0_r; cbn; lia.
  - destruct (sorted_snoc_inv _ _ Hs) as [Hs' Hv].
    rewrite rank_snoc, app_length; cbn [length]; rewrite Nat.add_1_r.
    apply Forall_app in Hn; destruct Hn as [_ Hn]; inversion Hn; subst.
    specialize (IH v Hs' Hv).
    pose proof (comb_mono (S v) n (S (length s)) ltac:(lia)) as M.
    rewrite comb_S in M; lia.
Qed.

Lemma lex_lt_irrefl s : ~ lex_lt s s.
Proof.
  induction s as [|x s IH]; intros H; inversion H; subst; [lia|]. apply IH; assumption.
Qed.

Lemma lex_total : forall s t, length s = length t -> lex_lt s t \/ s = t \/ lex_lt t s.
Proof.
  induction s as [|x s IH]; intros [|y t] H; cbn in H; try lia; [right; left; reflexivity|].
  destruct (lt_eq_lt_dec x y) as [[L| ->]|G].
  - left; constructor; exact L.
  - destruct (IH t) as [L|[->|G]]; [lia| | | ].
    + left; constructor; exact L.
    + right; left; reflexivity.
    + right; right; constructor; exact G.
  - right; right; constructor; exact G.
Qed.

Lemma rank_colex : forall s t, length s = length t ->
  StronglySorted lt s -> StronglySorted lt t -> colex_lt s t -> rank s < rank t.
Proof.
  induction s as [|v s IH] using rev_ind; intros t L Hs Ht C.
  - destruct t; [|discriminate L]. inversion C.
  - destruct t as [|w t _] using rev_ind.
    { rewrite app_length in L; cbn in L; lia. }
    rewrite !app_length in L; cbn [length] in L.
    unfold colex_lt in C; rewrite !rev_app_distr in C; cbn [rev app] in C.
    destruct (sorted_snoc_inv _ _ Hs) as [Hs' Hv], (sorted_snoc_inv _ _ Ht) as [Ht' Hw].
    rewrite !rank_snoc. assert (E : length s = length t) by lia. rewrite <- E.
    inversion C as [x y a b Hxy|x a b Hab]; subst.
    + pose proof (rank_lt s v Hs' Hv) as R.
      pose proof (comb_mono (S v) w (S (length s)) ltac:(lia)) as M.
      rewrite comb_S in M; lia.
    + apply Nat.add_lt_mono_r; apply IH; try assumption.
Qed.

Lemma rank_colex_iff s t : length s = length t ->
  StronglySorted lt s -> StronglySorted lt t -> (rank s < rank t <-> colex_lt s t).
Proof.
  intros L Hs Ht; split; [|apply rank_colex; assumption].
  intros R; destruct (lex_total (rev s) (rev t)) as [C|[E|C]].
  - rewrite !rev_length; exact L.
  - exact C.
  - apply (f_equal (@rev nat)) in E; rewrite !rev_involutive in E; subst; lia.
  - pose proof (rank_colex t s (eq_sym L) Ht Hs C); lia.
Qed.

Lemma rank_inj s t : length s = length t ->
  StronglySorted lt s -> StronglySorted lt t -> rank s = rank t -> s = t.
Proof.
  intros L Hs Ht E; destruct (lex_total (rev s) (rev t)) as [C|[E'|C]].
  - rewrite !rev_length; exact L.
  - pose proof (rank_colex s t L Hs Ht C); lia.
  - rewrite <- (rev_involutive s), E', rev_involutive; reflexivity.
  - pose proof (rank_colex t s (eq_sym L) Ht Hs C); lia.
Qed.

(** Every number below [comb n k] is the number of a [k]-subset of [0..n-1]. *)
Lemma rank_surj : forall n k r, r < comb n k ->
  exists s, length s = k /\ StronglySorted lt s /\ Forall (fun v => v < n) s /\ rank s = r.
Proof.
  induction n as [|n IH]; intros [|k] r H.
  - exists []; repeat split; try constructor. cbn in *; lia.
  - cbn in H; lia.
  - exists []; repeat split; try constructor. rewrite comb_0_r in H; cbn; lia.
  - rewrite comb_S in H. destruct (Nat.lt_ge_cases r (comb n (S k))) as [L|G].
    + destruct (IH (S k) r L) as (s & E & S1 & S2 & R); exists s; repeat split; try assumption.
      apply Forall_impl with (2 := S2); intros; lia.
    + destruct (IH k (r - comb n (S k)) ltac:(lia)) as (s & E & S1 & S2 & R).
      exists (s ++ [n]); repeat split.
      * rewrite app_length; cbn; lia.
      * apply sorted_snoc; assumption.
      * apply Forall_app; split; [apply Forall_impl with (2 := S2); intros; lia|repeat constructor].
      * rewrite rank_snoc, R, E; lia.
Qed.

(** ** Statements used by the property file *)
Section Table.
  Variables (N D : nat).
  Let T := combinatorial_number_system_table N D.

  Lemma number_of_simplices_ok n d : n <= N -> d <= D ->
    number_of_simplices_of_dimension d n T = Ok (comb n (S d)).
  Proof.
    intros Hn Hd; unfold number_of_simplices_of_dimension, T.
    rewrite lookup_ok by lia; rewrite Nat.add_1_r; reflexivity.
  Qed.

  Lemma forward_ok n d s : n <= N -> d <= D -> simplex n d s ->
    combinatorial_number_system_forward s T = Ok (rank s).
  Proof.
    intros Hn Hd (L & _ & F); apply forward_loop; [|lia].
    apply Forall_impl with (2 := F); intros; lia.
  Qed.

  Lemma forward_bijection n d : n <= N -> d <= D ->
    exists total,
      number_of_simplices_of_dimension d n T = Ok total /\
      (forall s, simplex n d s ->
         exists k, combinatorial_number_system_forward s T = Ok k /\ k < total) /\
      (forall s t, simplex n d s -> simplex n d t ->
         combinatorial_number_system_forward s T = combinatorial_number_system_forward t T -> s = t) /\
      (forall k, k < total ->
         exists s, simplex n d s /\ combinatorial_number_system_forward s T = Ok k).
  Proof.
    intros Hn Hd; exists (comb n (S d)); split; [apply number_of_simplices_ok; assumption|].
    split; [|split].
    - intros s Hs; exists (rank s); split; [apply (forward_ok n d); assumption|].
      destruct Hs as (L & S1 & F); rewrite <- L; apply rank_lt; assumption.
    - intros s t Hs Ht; rewrite (forward_ok n d s), (forward_ok n d t) by assumption.
      intros E; injection E as E; destruct Hs as (L & S1 & F), Ht as (L' & S1' & F').
      apply rank_inj; congruence || assumption.
    - intros k Hk; destruct (rank_surj n (S d) k Hk) as (s & L & S1 & F & R).
      exists s; split; [repeat split; assumption|].
      rewrite <- R; apply (forward_ok n d); try assumption; repeat split; assumption.
  Qed.
End Table.

Lemma forward_stable N D N' D' n d s :
  n <= N -> n <= N' -> d <= D -> d <= D' -> simplex n d s ->
  combinatorial_number_system_forward s (combinatorial_number_system_table N D) =
  combinatorial_number_system_forward s (combinatorial_number_system_table N' D').
Proof.
  intros; rewrite (forward_ok N D n d), (forward_ok N' D' n d) by assumption; reflexivity.
Qed.

Lemma forward_colex N D n d s t ks kt :
  n <= N -> d <= D -> simplex n d s -> simplex n d t ->
  combinatorial_number_system_forward s (combinatorial_number_system_table N D) = Ok ks ->
  combinatorial_number_system_forward t (combinatorial_number_system_table N D) = Ok kt ->
  (ks < kt <-> colex_lt s t).
Proof.
  intros Hn Hd Hs Ht; rewrite (forward_ok N D n d s), (forward_ok N D n d t) by assumption.
  intros E1 E2; injection E1 as <-; injection E2 as <-.
  destruct Hs as (L & S1 & F), Ht as (L' & S1' & F').
  apply rank_colex_iff; congruence || assumption.
Qed.

Lemma d1_generic v0 v1 T :
  combinatorial_number_system_d1_forward v0 v1 T = combinatorial_number_system_forward [v0; v1] T.
Proof.
  unfold combinatorial_number_system_d1_forward, combinatorial_number_system_forward.
  rewrite range_0; cbn [length seq for_in].
  change (get MemoryUnsafe [v0; v1] 0) with (@Ok nat v0).
  change (get MemoryUnsafe [v0; v1] 1) with (@Ok nat v1).
  cbn [bind Nat.add].
  destruct (lookup MemoryUnsafe T v0 1); cbn [bind]; [|reflexivity].
  destruct (lookup MemoryUnsafe T v1 2); reflexivity.
Qed.

Lemma d2_generic v0 v1 v2 T :
  combinatorial_number_system_d2_forward v0 v1 v2 T =
  combinatorial_number_system_forward [v0; v1; v2] T.
Proof.
  unfold combinatorial_number_system_d2_forward, combinatorial_number_system_forward.
  rewrite range_0; cbn [length seq for_in].
  change (get MemoryUnsafe [v0; v1; v2] 0) with (@Ok nat v0).
  change (get MemoryUnsafe [v0; v1; v2] 1) with (@Ok nat v1).
  change (get MemoryUnsafe [v0; v1; v2] 2) with (@Ok nat v2).
  cbn [bind Nat.add].
  destruct (lookup MemoryUnsafe T v0 1); cbn [bind]; [|reflexivity].
  destruct (lookup MemoryUnsafe T v1 2); cbn [bind]; [|reflexivity].
  destruct (lookup MemoryUnsafe T v2 3); reflexivity.
Qed.

(** ** Sizes *)
Lemma comb_2 n : (2 * Z.of_nat (comb n 2) = Z.of_nat n * (Z.of_nat n - 1))%Z.
Proof.
  induction n as [|n IH]; [reflexivity|]. rewrite comb_S, comb_1, Nat2Z.inj_add, Nat2Z.inj_succ; nia.
Qed.

Lemma comb_3 n :
  (6 * Z.of_nat (comb n 3) = Z.of_nat n * (Z.of_nat n - 1) * (Z.of_nat n - 2))%Z.
Proof.
  induction n as [|n IH]; [reflexivity|].
  rewrite comb_S, Nat2Z.inj_add, Nat2Z.inj_succ. pose proof (comb_2 n); nia.
Qed.

Lemma comb_4 n :
  (24 * Z.of_nat (comb n 4) =
   Z.of_nat n * (Z.of_nat n - 1) * (Z.of_nat n - 2) * (Z.of_nat n - 3))%Z.
Proof.
  induction n as [|n IH]; [reflexivity|].
  rewrite comb_S, Nat2Z.inj_add, Nat2Z.inj_succ. pose proof (comb_3 n); nia.
Qed.

Lemma n_edges_comb n : (n * (n - 1)) / 2 = comb n 2.
Proof.
  symmetry; apply Nat.div_unique with (r := 0); [lia|].
  pose proof (comb_2 n) as H.
  destruct n as [|n]; [reflexivity|]. replace (S n - 1) with n by lia. lia.
Qed.

Lemma table_fits_int64 n k : (Z.of_nat n <= 100000)%Z -> k <= 4 ->
  (Z.of_nat (comb n k) < 2 ^ 63)%Z.
Proof.
  intros Hn Hk.
  assert (H2 := comb_2 n). assert (H3 := comb_3 n). assert (H4 := comb_4 n).
  assert (H1 := comb_1 n).
  set (z := Z.of_nat n) in *. assert (0 <= z)%Z by lia.
  assert (z * z <= 100000 * 100000)%Z by (apply Z.mul_le_mono_nonneg; lia).
  change (2 ^ 63)%Z with 9223372036854775808%Z.
  destruct k as [|[|[|[|[|k]]]]]; try lia.
  - rewrite comb_0_r; lia.
  - destruct (Z.leb_spec z 2) as [L|G].
    + assert (z = 0 \/ z = 1 \/ z = 2)%Z as [E|[E|E]] by lia; rewrite E in H3; lia.
    + assert (z * (z - 1) * (z - 2) <= (100000 * 100000) * 100000)%Z.
      { apply Z.mul_le_mono_nonneg; try nia. }
      lia.
  - destruct (Z.leb_spec z 3) as [L|G].
    + assert (z = 0 \/ z = 1 \/ z = 2 \/ z = 3)%Z as [E|[E|[E|E]]] by lia; rewrite E in H4; lia.
    + assert (z * (z - 1) * (z - 2) * (z - 3) <= ((100000 * 100000) * 100000) * 100000)%Z.
      { apply Z.mul_le_mono_nonneg; try nia. }
      lia.
Qed.

Lemma triangles_fit_int32 n : (Z.of_nat n <= 2345)%Z -> (Z.of_nat (comb n 3) <= 2 ^ 31)%Z.
Proof.
  intros Hn.
  assert (M : comb n 3 <= comb (Z.to_nat 2345) 3) by (apply comb_mono; lia).
  pose proof (comb_3 (Z.to_nat 2345)) as H; rewrite Z2Nat.id in H by lia.
  change (2 ^ 31)%Z with 2147483648%Z; lia.
Qed.

Lemma triangles_overflow_int32 :
  exists s k N, simplex N 2 s /\ (Z.of_nat N = 2346)%Z /\
    combinatorial_number_system_forward s (combinatorial_number_system_table N 2) = Ok k /\
    (2 ^ 31 <= Z.of_nat k)%Z.
Proof.
  set (N := Z.to_nat 2346).
  assert (EN : Z.of_nat N = 2346%Z) by (apply Z2Nat.id; lia).
  assert (HC : (Z.of_nat (comb N 3) = 2149201880)%Z).
  { pose proof (comb_3 N) as H; rewrite EN in H; lia. }
  assert (Hr : comb N 3 - 1 < comb N 3) by lia.
  destruct (rank_surj N 3 _ Hr) as (s & L & S1 & F & R).
  exists s, (comb N 3 - 1), N. split; [repeat split; assumption|]. split; [exact EN|].
  split; [rewrite <- R; apply (forward_ok N 2 N 2); [lia|lia|repeat split; assumption]|].
  change (2 ^ 31)%Z with 2147483648%Z; lia.
Qed.
