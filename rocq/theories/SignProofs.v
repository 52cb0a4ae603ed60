(** SignProofs.v -- inversions, orientation signs and permutations of lists. *)
From Coq Require Import List Arith ZArith Lia Bool Permutation Sorted.
From Verif Require Import SpecCohomology.
Import ListNotations.

Definition cnt (x : Z) (l : list Z) : nat := length (filter (fun y => Z.ltb y x) l).

Lemma cnt_perm x l l' : Permutation l l' -> cnt x l = cnt x l'.
Proof.
  unfold cnt; induction 1 as [|a l l' H IH|a b l|l m r H1 IH1 H2 IH2]; cbn [filter];
    try reflexivity.
  - destruct (Z.ltb a x); cbn [length]; rewrite IH; reflexivity.
  - destruct (Z.ltb a x), (Z.ltb b x); reflexivity.
  - congruence.
Qed.

Lemma inversions_cons x l : inversions (x :: l) = cnt x l + inversions l.
Proof. reflexivity. Qed.

Lemma sign_of_add a b : sign_of (a + b) = (sign_of a * sign_of b)%Z.
Proof.
  unfold sign_of; rewrite Nat.even_add.
  destruct (Nat.even a), (Nat.even b); reflexivity.
Qed.

Lemma sign_of_S a : sign_of (S a) = (- sign_of a)%Z.
Proof. change (S a) with (1 + a); rewrite sign_of_add; cbn [sign_of Nat.even]; lia. Qed.

Lemma sign_of_sq a : (sign_of a * sign_of a = 1)%Z.
Proof. unfold sign_of; destruct (Nat.even a); reflexivity. Qed.

Lemma sign_of_cases a : sign_of a = 1%Z \/ sign_of a = (-1)%Z.
Proof. unfold sign_of; destruct (Nat.even a); auto. Qed.

Lemma inversions_app_perm a l l' : Permutation l l' ->
  inversions (a ++ l) + inversions l' = inversions (a ++ l') + inversions l.
Proof.
  intros H; induction a as [|x a IH]; cbn [app]; [lia|].
  rewrite !inversions_cons, (cnt_perm x (a ++ l) (a ++ l')); [lia|].
  apply Permutation_app_head; exact H.
Qed.

Lemma inversions_swap_head x y b : (y < x)%Z ->
  inversions (x :: y :: b) = S (inversions (y :: x :: b)).
Proof.
  intros H; rewrite !inversions_cons; unfold cnt; cbn [filter].
  assert (Z.ltb y x = true) as -> by (apply Z.ltb_lt; lia).
  assert (Z.ltb x y = false) as -> by (apply Z.ltb_ge; lia).
  cbn [length]; lia.
Qed.

Lemma inversions_swap a x y b : (y < x)%Z ->
  inversions (a ++ x :: y :: b) = S (inversions (a ++ y :: x :: b)).
Proof.
  intros H; pose proof (inversions_swap_head x y b H).
  pose proof (inversions_app_perm a (x :: y :: b) (y :: x :: b) (perm_swap y x b)); lia.
Qed.

Lemma orientation_swap a x y b : x <> y ->
  orientation (a ++ x :: y :: b) = (- orientation (a ++ y :: x :: b))%Z.
Proof.
  intros H; unfold orientation; destruct (Z.lt_total x y) as [L|[E|G]]; [|lia|].
  - rewrite (inversions_swap a y x b L), sign_of_S; lia.
  - rewrite (inversions_swap a x y b G), sign_of_S; lia.
Qed.

(** A list of naturals is either increasing or has an adjacent descent. *)
Lemma descent (l : list nat) : NoDup l ->
  StronglySorted lt l \/ exists a x y b, l = a ++ x :: y :: b /\ y < x.
Proof.
  induction l as [|x l IH]; intros N; [left; constructor|].
  inversion N as [|? ? Nx Nl]; subst; destruct (IH Nl) as [S1|(a & u & v & b & E & L)].
  - destruct l as [|y l]; [left; repeat constructor|].
    destruct (Nat.lt_trichotomy x y) as [H|[H|H]].
    + left; constructor; [exact S1|].
      apply StronglySorted_inv in S1; destruct S1 as [_ F]; constructor; [exact H|].
      apply Forall_impl with (2 := F); intros; lia.
    + exfalso; apply Nx; left; congruence.
    + right; exists [], x, y, l; auto.
  - right; exists (x :: a), u, v, b; split; [rewrite E; reflexivity|exact L].
Qed.

Lemma sorted_perm_seq (p : list nat) n :
  Permutation p (seq 0 n) -> StronglySorted lt p -> p = seq 0 n.
Proof.
  assert (G : forall p q : list nat, Permutation p q ->
     StronglySorted lt p -> StronglySorted lt q -> p = q).
  { induction p0 as [|x p0 IH]; intros q H S1 S2.
    - apply Permutation_nil in H; subst; reflexivity.
    - destruct q as [|y q]; [symmetry in H; apply Permutation_nil in H; discriminate|].
      apply StronglySorted_inv in S1; destruct S1 as [S1 F1].
      apply StronglySorted_inv in S2; destruct S2 as [S2 F2].
      assert (x = y).
      { assert (Hx : In x (y :: q)) by (apply (Permutation_in _ H); left; reflexivity).
        assert (Hy : In y (x :: p0)) by (apply (Permutation_in _ (Permutation_sym H)); left; reflexivity).
        destruct Hx as [Hx|Hx]; [congruence|]. destruct Hy as [Hy|Hy]; [congruence|].
        rewrite Forall_forall in F1, F2; specialize (F1 y Hy); specialize (F2 x Hx); lia. }
      subst y; f_equal; apply IH; try assumption; apply Permutation_cons_inv with x; exact H. }
  intros H S1; apply G; try assumption.
  clear; generalize 0; induction n as [|n IH]; intros s; cbn [seq]; constructor; [apply IH|].
  apply Forall_forall; intros x Hx; apply in_seq in Hx; lia.
Qed.

(** Induction principle for permutations of [0..n-1]: sorted, or one adjacent swap
    away from a permutation with fewer inversions. *)
Lemma perm_bubble_ind n (P : list nat -> Prop) :
  P (seq 0 n) ->
  (forall a x y b, y < x -> Permutation (a ++ x :: y :: b) (seq 0 n) ->
     P (a ++ y :: x :: b) -> P (a ++ x :: y :: b)) ->
  forall p, Permutation p (seq 0 n) -> P p.
Proof.
  intros H0 HS p.
  remember (inversions (map Z.of_nat p)) as k eqn:Ek; revert p Ek.
  induction k as [k IH] using lt_wf_ind; intros p Ek Hp.
  assert (Np : NoDup p).
  { apply (Permutation_NoDup (Permutation_sym Hp)), seq_NoDup. }
  destruct (descent p Np) as [S1|(a & x & y & b & E & L)].
  - rewrite (sorted_perm_seq p n Hp S1); exact H0.
  - subst p; apply HS; [exact L|exact Hp|].
    assert (I : inversions (map Z.of_nat (a ++ x :: y :: b)) =
                S (inversions (map Z.of_nat (a ++ y :: x :: b)))).
    { rewrite !map_app; cbn [map]; apply inversions_swap; lia. }
    eapply (IH (inversions (map Z.of_nat (a ++ y :: x :: b)))); [lia|reflexivity|].
    rewrite <- Hp; apply Permutation_app_head, perm_swap.
Qed.

Lemma map_nth_seq {A} (l : list A) d : map (fun i => nth i l d) (seq 0 (length l)) = l.
Proof.
  induction l as [|x l IH]; [reflexivity|].
  cbn [length seq map nth]; f_equal; rewrite <- seq_shift, map_map; exact IH.
Qed.

(** Reordering a tuple of distinct values by [p] multiplies its orientation by the
    orientation of [p]. *)
Lemma orientation_reorder (l : list Z) (d : Z) p : NoDup l ->
  Permutation p (seq 0 (length l)) ->
  orientation (map (fun i => nth i l d) p) =
  (orientation l * orientation (map Z.of_nat p))%Z.
Proof.
  intros N; revert p.
  refine (perm_bubble_ind (length l) (fun p => orientation (map (fun i => nth i l d) p) =
    (orientation l * orientation (map Z.of_nat p))%Z) _ _).
  - rewrite map_nth_seq.
    assert (orientation (map Z.of_nat (seq 0 (length l))) = 1%Z) as ->; [|lia].
    unfold orientation; generalize (length l); intros n.
    assert (inversions (map Z.of_nat (seq 0 n)) = 0) as ->; [|reflexivity].
    assert (K : forall s, inversions (map Z.of_nat (seq s n)) = 0); [|apply K].
    induction n as [|n IH]; intros s; cbn [seq map]; [reflexivity|].
    rewrite inversions_cons, IH, Nat.add_0_r; unfold cnt.
    assert (G : forall m t, s < t ->
       filter (fun y => Z.ltb y (Z.of_nat s)) (map Z.of_nat (seq t m)) = []).
    { induction m as [|m IHm]; intros t Ht; cbn [seq map filter]; [reflexivity|].
      assert (Z.ltb (Z.of_nat t) (Z.of_nat s) = false) as -> by (apply Z.ltb_ge; lia).
      apply IHm; lia. }
    rewrite G by lia; reflexivity.
  - intros a x y b L Hp IH.
    rewrite !map_app in *; cbn [map] in *.
    rewrite orientation_swap, IH.
    + rewrite (orientation_swap (map Z.of_nat a) (Z.of_nat x)) by lia; lia.
    + assert (Hx : In x (seq 0 (length l))).
      { apply (Permutation_in _ Hp), in_or_app; right; left; reflexivity. }
      assert (Hy : In y (seq 0 (length l))).
      { apply (Permutation_in _ Hp), in_or_app; right; right; left; reflexivity. }
      apply in_seq in Hx; apply in_seq in Hy.
      intros E; rewrite (NoDup_nth l d) in N. assert (x = y) by (apply N; lia || exact E); lia.
Qed.

Lemma sorted_no_inversions (l : list Z) : StronglySorted Z.le l -> inversions l = 0.
Proof.
  induction 1 as [|x l S1 IH F]; [reflexivity|].
  rewrite inversions_cons, IH, Nat.add_0_r; unfold cnt; clear S1 IH.
  induction F as [|y l H F IH]; cbn [filter]; [reflexivity|].
  assert (Z.ltb y x = false) as -> by (apply Z.ltb_ge; lia); exact IH.
Qed.

Lemma orientation_argsort (l : list Z) p : NoDup l -> is_argsort Z.le 0%Z l p ->
  orientation (map Z.of_nat p) = orientation l.
Proof.
  intros N [Hp S1]; pose proof (orientation_reorder l 0%Z p N Hp) as H.
  assert (E : orientation (map (fun i => nth i l 0%Z) p) = 1%Z).
  { unfold orientation; rewrite sorted_no_inversions by exact S1; reflexivity. }
  rewrite E in H; unfold orientation in *.
  destruct (sign_of_cases (inversions l)) as [A|A], (sign_of_cases (inversions (map Z.of_nat p))) as [B|B];
    rewrite A, B in *; lia.
Qed.
