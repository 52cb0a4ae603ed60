(** KyFan.v -- among all orthonormal families of k vectors, the eigenvectors of the k largest
    eigenvalues of the Gram matrix carry the largest part of the points. *)
From Verif Require Import Base BaseProofs RealBase RealSum SpecEM ComplexBase PPCAModel SpecPPCA PPCAProofs.
Import ListNotations.
Local Open Scope R_scope.

Definition hf (n : nat) (f g : nat -> C) : C := csum n (fun k => cmul (conj (f k)) (g k)).
Definition nf (n : nat) (f : nat -> C) : R := sumn n (fun k => cabs2 (f k)).
Definition vec (v : list C) : nat -> C := fun k => nth k v c0.
Definition orthonormal (n m : nat) (w : nat -> nat -> C) : Prop :=
  forall i j, (i < m)%nat -> (j < m)%nat -> hf n (w i) (w j) = if (i =? j)%nat then c1 else c0.

Lemma hf_self n f : hf n f f = RtoC (nf n f).
Proof.
  unfold hf, nf, csum, RtoC. f_equal.
  - apply sumn_ext; intros; unfold cmul, conj, cabs2; cbn [fst snd]; ring.
  - apply sumn_0; intros; unfold cmul, conj; cbn [fst snd]; ring.
Qed.
Lemma hf_conj n f g : conj (hf n f g) = hf n g f.
Proof. unfold hf. rewrite csum_conj. apply csum_ext; intros. rewrite conj_mul, conj_conj. ring. Qed.
Lemma cabs2_hf_sym n f g : cabs2 (hf n f g) = cabs2 (hf n g f).
Proof. rewrite <- hf_conj, cabs2_conj; reflexivity. Qed.
Lemma hf_sub_scaled n f g h c : hf n f (fun k => csub (g k) (cmul c (h k))) = csub (hf n f g) (cmul c (hf n f h)).
Proof.
  unfold hf. replace (csub (csum n (fun k => cmul (conj (f k)) (g k))) (cmul c (csum n (fun k => cmul (conj (f k)) (h k)))))
    with (cadd (csum n (fun k => cmul (conj (f k)) (g k))) (cmul (copp c) (csum n (fun k => cmul (conj (f k)) (h k))))) by ring.
  rewrite <- csum_mul_l, <- csum_add. apply csum_ext; intros; ring.
Qed.
Lemma nf_sub n u w : nf n w = 1 -> let h := hf n w u in nf n (fun k => csub (u k) (cmul h (w k))) = nf n u - cabs2 h.
Proof.
  intros Hw h.
  assert (E : nf n (fun k => csub (u k) (cmul h (w k))) = nf n u + cabs2 h * nf n w - 2 * fst (cmul (conj h) (hf n w u))).
  { unfold nf, hf. rewrite <- csum_mul_l. unfold csum; cbn [fst]. rewrite <- !sumn_scal, <- sumn_add, <- sumn_sub. apply sumn_ext; intros k Hk.
    unfold cabs2, csub, cadd, copp, cmul, conj; cbn [fst snd]. ring. }
  rewrite E, Hw. fold h. unfold cabs2, cmul, conj; cbn [fst snd]. ring.
Qed.
Lemma bessel n : forall m w u, orthonormal n m w -> sumn m (fun j => cabs2 (hf n (w j) u)) <= nf n u.
Proof.
  induction m as [|m IH]; intros w u O; cbn [sumn].
  - apply sumn_nonneg; intros; apply cabs2_nonneg.
  - assert (N : nf n (w m) = 1).
    { pose proof (O m m (Nat.lt_succ_diag_r m) (Nat.lt_succ_diag_r m)) as Q. rewrite Nat.eqb_refl, hf_self in Q. apply (f_equal fst) in Q. exact Q. }
    set (h := hf n (w m) u). pose proof (nf_sub n u (w m) N) as S. cbv zeta in S. fold h in S.
    assert (B : sumn m (fun j => cabs2 (hf n (w j) (fun k => csub (u k) (cmul h (w m k))))) <= nf n u - cabs2 h).
    { rewrite <- S. apply IH. intros i j Hi Hj; apply O; lia. }
    rewrite (sumn_ext m _ (fun j => cabs2 (hf n (w j) u))) in B.
    + lra.
    + intros j Hj. rewrite hf_sub_scaled. rewrite O by lia. rewrite (proj2 (Nat.eqb_neq j m)) by lia. f_equal. ring.
Qed.

(** Summing against eigenvalues. *)
Lemma weighted n k (lam c : nat -> R) : (k <= n)%nat -> (forall i j, (i <= j < n)%nat -> lam i <= lam j) ->
  (forall i, (i < n)%nat -> 0 <= c i <= 1) -> sumn n c = INR k ->
  sumn n (fun i => lam i * c i) <= sumn k (fun i => lam (n - 1 - i)%nat).
Proof.
  intros Hk Hl Hc Sc. destruct k as [|k].
  { cbn [sumn]. assert (Z : forall i, (i < n)%nat -> c i = 0) by (apply sumn_zero_all; [intros i Hi; apply Hc; exact Hi|exact Sc]).
    rewrite sumn_0; [lra|]. intros i Hi; rewrite Z by exact Hi; ring. }
  set (m := (n - S k)%nat). assert (En : n = (m + S k)%nat) by lia.
  assert (R : sumn (S k) (fun i => lam (n - 1 - i)%nat) = sumn (S k) (fun i => lam (m + i)%nat)).
  { transitivity (fst (csum (S k) (fun i => RtoC (lam (n - 1 - i)%nat)))); [reflexivity|].
    rewrite <- (csum_rev (S k)). unfold csum; cbn [fst RtoC]. apply sumn_ext; intros i Hi. f_equal; lia. }
  rewrite R. rewrite En at 1. rewrite sumn_split. set (t := lam m).
  assert (A : sumn m (fun i => lam i * c i) <= t * sumn m c).
  { rewrite <- sumn_scal. apply sumn_le; intros i Hi. apply Rmult_le_compat_r; [apply Hc; lia|]. apply Hl; lia. }
  assert (B : sumn (S k) (fun i => lam (m + i)%nat * c (m + i)%nat) - sumn (S k) (fun i => lam (m + i)%nat) <= t * (sumn (S k) (fun i => c (m + i)%nat) - INR (S k))).
  { assert (K : INR (S k) = sumn (S k) (fun _ => 1)). { clear. induction (S k) as [|j IH]; [reflexivity|]. rewrite S_INR, IH; reflexivity. }
    rewrite K, <- !sumn_sub, <- sumn_scal. apply sumn_le; intros i Hi. pose proof (Hl m (m + i)%nat ltac:(lia)). pose proof (Hc (m + i)%nat ltac:(lia)). unfold t. nra. }
  assert (T : sumn m c + sumn (S k) (fun i => c (m + i)%nat) = INR (S k)) by (rewrite <- sumn_split, <- En; exact Sc).
  nra.
Qed.

(** The finite Gram matrix of points and its energy along a vector. *)
Definition gramC (d : nat) (X : list (list C)) : list (list C) :=
  mk2 d d (fun i j => fold_right cadd c0 (map (fun x => cmul (nth i x c0) (conj (nth j x c0))) X)).
Definition energy (d : nat) (X : list (list C)) (w : nat -> C) : R := fold_right Rplus 0 (map (fun x => cabs2 (hf d w (vec x))) X).
Lemma gramC_at d X i j : (i < d)%nat -> (j < d)%nat -> at2 c0 (gramC d X) i j = fold_right cadd c0 (map (fun x => cmul (nth i x c0) (conj (nth j x c0))) X).
Proof. intros Hi Hj. unfold gramC. rewrite at2_mk2 by assumption. reflexivity. Qed.
Lemma csum_zero n : csum n (fun _ => c0) = c0.
Proof. apply c_ext; unfold csum; cbn [fst snd c0]; apply sumn_0; reflexivity. Qed.
Lemma energy_gram d X w : RtoC (energy d X w) = csum d (fun k => csum d (fun l => cmul (cmul (conj (w k)) (at2 c0 (gramC d X) k l)) (w l))).
Proof.
  transitivity (csum d (fun k => csum d (fun l => cmul (cmul (conj (w k)) (fold_right cadd c0 (map (fun x => cmul (nth k x c0) (conj (nth l x c0))) X))) (w l)))).
  2: { apply csum_ext; intros k Hk. apply csum_ext; intros l Hl. rewrite gramC_at by assumption; reflexivity. }
  unfold energy. induction X as [|x X IH]; cbn [map fold_right].
  - symmetry. transitivity (csum d (fun k => csum d (fun l => c0))); [apply csum_ext; intros; apply csum_ext; intros; ring|].
    transitivity (csum d (fun _ => c0)); [apply csum_ext; intros; apply csum_zero|apply csum_zero].
  - transitivity (cadd (RtoC (cabs2 (hf d w (vec x)))) (RtoC (fold_right Rplus 0 (map (fun x => cabs2 (hf d w (vec x))) X)))); [csolve|].
    rewrite IH. rewrite <- cmul_conj. unfold hf at 1. rewrite <- csum_mul_r, <- csum_add. apply csum_ext; intros k Hk.
    rewrite hf_conj. unfold hf. rewrite <- csum_mul_l, <- csum_add. apply csum_ext; intros l Hl. unfold vec. ring.
Qed.
Lemma spectral d G V lam : eigen_answer d G V lam -> forall k l, (k < d)%nat -> (l < d)%nat ->
  at2 c0 G k l = csum d (fun i => cscale (lam i) (cmul (at2 c0 V i k) (conj (at2 c0 V i l)))).
Proof.
  intros ((_ & _ & U) & E & _) k l Hk Hl.
  transitivity (csum d (fun m => cmul (at2 c0 G k m) (csum d (fun i => cmul (at2 c0 V i m) (conj (at2 c0 V i l)))))).
  { rewrite (csum_single d _ l Hl).
    - rewrite U, Nat.eqb_refl by assumption. ring.
    - intros m Hm Hn. rewrite U by assumption. rewrite (proj2 (Nat.eqb_neq m l)) by exact Hn. ring. }
  transitivity (csum d (fun i => cmul (csum d (fun m => cmul (at2 c0 G k m) (at2 c0 V i m))) (conj (at2 c0 V i l)))).
  { transitivity (csum d (fun m => csum d (fun i => cmul (cmul (at2 c0 G k m) (at2 c0 V i m)) (conj (at2 c0 V i l))))).
    - apply csum_ext; intros m Hm. rewrite <- csum_mul_l. apply csum_ext; intros i Hi. ring.
    - rewrite csum_swap. apply csum_ext; intros i Hi. apply csum_mul_r. }
  apply csum_ext; intros i Hi. rewrite E by assumption. csolve.
Qed.
Lemma energy_spectral d X V lam w : eigen_answer d (gramC d X) V lam ->
  energy d X w = sumn d (fun i => lam i * cabs2 (hf d (fun k => at2 c0 V i k) w)).
Proof.
  intros H. pose proof (energy_gram d X w) as E.
  assert (Q : csum d (fun k => csum d (fun l => cmul (cmul (conj (w k)) (at2 c0 (gramC d X) k l)) (w l))) =
    csum d (fun i => RtoC (lam i * cabs2 (hf d (fun k => at2 c0 V i k) w)))).
  { transitivity (csum d (fun k => csum d (fun l => csum d (fun i => cmul (RtoC (lam i)) (cmul (cmul (conj (w k)) (at2 c0 V i k)) (cmul (conj (at2 c0 V i l)) (w l))))))).
    - apply csum_ext; intros k Hk. apply csum_ext; intros l Hl. rewrite (spectral d _ V lam H) by assumption. rewrite <- csum_mul_l, <- csum_mul_r. apply csum_ext; intros i Hi. csolve.
    - transitivity (csum d (fun k => csum d (fun i => csum d (fun l => cmul (RtoC (lam i)) (cmul (cmul (conj (w k)) (at2 c0 V i k)) (cmul (conj (at2 c0 V i l)) (w l))))))).
      { apply csum_ext; intros k Hk. apply csum_swap. }
      rewrite csum_swap. apply csum_ext; intros i Hi.
      transitivity (csum d (fun k => cmul (RtoC (lam i)) (cmul (cmul (conj (w k)) (at2 c0 V i k)) (hf d (fun k => at2 c0 V i k) w)))).
      { apply csum_ext; intros k Hk. unfold hf. rewrite <- !csum_mul_l. reflexivity. }
      rewrite csum_mul_l, csum_mul_r. change (csum d (fun k => cmul (conj (w k)) (at2 c0 V i k))) with (hf d w (fun k => at2 c0 V i k)).
      rewrite <- hf_conj. set (z := hf d (fun k => at2 c0 V i k) w). unfold cabs2; csolve. }
  rewrite Q in E. apply (f_equal fst) in E. exact E.
Qed.
Lemma parseval d V w : unitary d V -> sumn d (fun i => cabs2 (hf d (fun k => at2 c0 V i k) w)) = nf d w.
Proof.
  intros U. set (v := map w (seq 0 d)).
  assert (Lv : length v = d) by (unfold v; rewrite map_length, seq_length; reflexivity).
  assert (Ev : forall k, (k < d)%nat -> nth k v c0 = w k). { intros k Hk. unfold v. rewrite (nth_indep _ c0 (w 0%nat)) by (rewrite map_length, seq_length; exact Hk). rewrite map_nth, seq_nth by lia. reflexivity. }
  pose proof (unitary_isometry d V v v U Lv Lv) as I. rewrite !herm_self in I. apply (f_equal fst) in I. cbn [fst RtoC] in I.
  assert (LV : length V = d) by apply U.
  transitivity (sumn d (fun k => cabs2 (nth k (map (fun u => herm d u v) (rev V)) c0))).
  - transitivity (fst (csum d (fun i => RtoC (cabs2 (hf d (fun k => at2 c0 V i k) w))))); [reflexivity|]. rewrite <- (csum_rev d). unfold csum; cbn [fst RtoC]. apply sumn_ext; intros i Hi.
    rewrite (nth_indep _ c0 (herm d [] v)) by (rewrite map_length, rev_length; lia). rewrite (map_nth (fun u => herm d u v)), nth_rev_at, LV by lia.
    f_equal. unfold hf, herm. apply csum_ext; intros k Hk. rewrite Ev by exact Hk. reflexivity.
  - rewrite I. apply sumn_ext; intros k Hk. rewrite Ev by exact Hk; reflexivity.
Qed.
Lemma ky_fan d X V lam k w : eigen_answer d (gramC d X) V lam -> (k <= d)%nat -> orthonormal d k w ->
  sumn k (fun j => energy d X (w j)) <= sumn k (fun j => energy d X (fun m => at2 c0 V (d - 1 - j) m)).
Proof.
  intros H Hk O. pose proof H as (U & _ & Hl).
  assert (EL : forall i, (i < d)%nat -> energy d X (fun m => at2 c0 V i m) = lam i).
  { intros i Hi. rewrite (energy_spectral d X V lam _ H). rewrite (sumn_single d _ i Hi).
    - destruct U as (_ & U & _). specialize (U i i Hi Hi). rewrite Nat.eqb_refl in U. change (herm d (nth i V []) (nth i V [])) with (hf d (fun m => at2 c0 V i m) (fun m => at2 c0 V i m)) in U.
      rewrite U. unfold cabs2, c1; cbn [fst snd]; ring.
    - intros j Hj Hn. destruct U as (_ & U & _). specialize (U j i Hj Hi). rewrite (proj2 (Nat.eqb_neq j i)) in U by exact Hn.
      change (herm d (nth j V []) (nth i V [])) with (hf d (fun m => at2 c0 V j m) (fun m => at2 c0 V i m)) in U.
      rewrite U. unfold cabs2, c0; cbn [fst snd]; ring. }
  rewrite (sumn_ext k (fun j => energy d X (fun m => at2 c0 V (d - 1 - j) m)) (fun j => lam (d - 1 - j)%nat)) by (intros j Hj; apply EL; lia).
  rewrite (sumn_ext k (fun j => energy d X (w j)) (fun j => sumn d (fun i => lam i * cabs2 (hf d (fun m => at2 c0 V i m) (w j))))) by (intros j Hj; apply energy_spectral; exact H).
  rewrite sumn_swap. rewrite (sumn_ext d _ (fun i => lam i * sumn k (fun j => cabs2 (hf d (fun m => at2 c0 V i m) (w j))))) by (intros i Hi; apply sumn_scal).
  apply weighted; [exact Hk|exact Hl| |].
  - intros i Hi. split; [apply sumn_nonneg; intros; apply cabs2_nonneg|].
    rewrite (sumn_ext k _ (fun j => cabs2 (hf d (w j) (fun m => at2 c0 V i m)))) by (intros j Hj; apply cabs2_hf_sym).
    pose proof (bessel d k w (fun m => at2 c0 V i m) O) as B.
    destruct U as (_ & U & _). specialize (U i i Hi Hi). rewrite Nat.eqb_refl in U. change (herm d (nth i V []) (nth i V [])) with (hf d (fun m => at2 c0 V i m) (fun m => at2 c0 V i m)) in U.
    rewrite hf_self in U. apply (f_equal fst) in U. cbn [fst RtoC c1] in U. lra.
  - rewrite sumn_swap. rewrite (sumn_ext k _ (fun _ => 1)).
    + clear. induction k as [|k IH]; [reflexivity|]. rewrite S_INR. cbn [sumn]. rewrite IH; reflexivity.
    + intros j Hj. rewrite parseval by exact U. pose proof (O j j Hj Hj) as Q. rewrite Nat.eqb_refl, hf_self in Q. apply (f_equal fst) in Q. exact Q.
Qed.
Lemma gram_finite n X : Forall (fun x => length x = n) X -> gram_of n (map (map Some) X) = map (map Some) (gramC n X).
Proof.
  intros F. unfold gram_of, gramC, mk2. rewrite map_map. apply map_ext_in; intros i Hi. rewrite map_map. apply map_ext_in; intros j Hj.
  apply in_seq in Hi, Hj. induction F as [|x X Lx F IH]; [reflexivity|]. cbn [map]. unfold csum_nan in *. cbn [fold_right]. rewrite IH.
  rewrite !(nth_indep (map Some x) None (Some c0)) by (rewrite map_length; lia). rewrite !map_nth. reflexivity.
Qed.
Lemma captured_energy n W X : captured n W X = sumn (length W) (fun j => energy n X (vec (nth j W []))).
Proof.
  unfold captured, energy. induction X as [|x X IH]; cbn [map fold_right].
  - symmetry; apply sumn_0; reflexivity.
  - rewrite IH, <- sumn_add. reflexivity.
Qed.
Lemma nth_firstn_lt {A} (l : list A) d : forall k i, (i < k)%nat -> nth i (firstn k l) d = nth i l d.
Proof. induction l as [|x l IH]; intros [|k] [|i] H; try lia; cbn [firstn nth]; try reflexivity. apply IH; lia. Qed.
