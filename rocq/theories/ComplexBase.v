(** ComplexBase.v -- complex numbers as pairs of reals, and complex numbers with NaN. *)
From Coq Require Import Ring.
From Verif Require Export Base RealBase RealSum.
Local Open Scope R_scope.

Definition C : Type := (R * R)%type.
Definition c0 : C := (0, 0).
Definition c1 : C := (1, 0).
Definition RtoC (x : R) : C := (x, 0).
Definition cadd (z w : C) : C := (fst z + fst w, snd z + snd w).
Definition copp (z : C) : C := (- fst z, - snd z).
Definition csub (z w : C) : C := cadd z (copp w).
Definition cmul (z w : C) : C := (fst z * fst w - snd z * snd w, fst z * snd w + snd z * fst w).
Definition conj (z : C) : C := (fst z, - snd z).
Definition cscale (a : R) (z : C) : C := (a * fst z, a * snd z).
(** |z|^2 and |z|. *)
Definition cabs2 (z : C) : R := fst z * fst z + snd z * snd z.
Definition cabs (z : C) : R := sqrt (cabs2 z).
(** exp(i x) *)
Definition cis (x : R) : C := (cos x, sin x).

Lemma c_ext (z w : C) : fst z = fst w -> snd z = snd w -> z = w.
Proof. destruct z, w; cbn; intros; subst; reflexivity. Qed.
Ltac csolve := intros; apply c_ext; unfold cabs2, cscale, csub, cmul, cadd, copp, conj, RtoC, c0, c1; cbn [fst snd]; ring.

Lemma C_ring : ring_theory c0 c1 cadd cmul csub copp eq.
Proof. constructor; csolve. Qed.
Add Ring C_ring_inst : C_ring.

Lemma conj_mul z w : conj (cmul z w) = cmul (conj z) (conj w). Proof. csolve. Qed.
Lemma conj_add z w : conj (cadd z w) = cadd (conj z) (conj w). Proof. csolve. Qed.
Lemma conj_conj z : conj (conj z) = z. Proof. csolve. Qed.
Lemma conj_0 : conj c0 = c0. Proof. csolve. Qed.
Lemma conj_1 : conj c1 = c1. Proof. csolve. Qed.
Lemma cabs2_mul z w : cabs2 (cmul z w) = cabs2 z * cabs2 w.
Proof. unfold cabs2, cmul; cbn [fst snd]; ring. Qed.
Lemma cabs2_conj z : cabs2 (conj z) = cabs2 z.
Proof. unfold cabs2, conj; cbn [fst snd]; ring. Qed.
Lemma cabs2_scale a z : cabs2 (cscale a z) = a * a * cabs2 z.
Proof. unfold cabs2, cscale; cbn [fst snd]; ring. Qed.
Lemma cabs2_nonneg z : 0 <= cabs2 z.
Proof. unfold cabs2; nra. Qed.
Lemma cabs2_0 z : cabs2 z = 0 -> z = c0.
Proof. unfold cabs2; intros; apply c_ext; cbn [fst snd c0]; nra. Qed.
Lemma cmul_conj z : cmul z (conj z) = RtoC (cabs2 z).
Proof. unfold cabs2; csolve. Qed.
Lemma conj_unit z : cabs2 z = 1 -> cmul z (conj z) = c1.
Proof. intros H; rewrite cmul_conj, H; reflexivity. Qed.
Lemma cabs2_cis x : cabs2 (cis x) = 1.
Proof. unfold cabs2, cis; cbn [fst snd]. pose proof (sin2_cos2 x) as H. unfold Rsqr in H; lra. Qed.
Lemma cis_add x y : cis (x + y) = cmul (cis x) (cis y).
Proof. apply c_ext; unfold cis, cmul; cbn [fst snd]; [apply cos_plus|rewrite sin_plus; ring]. Qed.
Lemma cis_0 : cis 0 = c1.
Proof. apply c_ext; unfold cis, c1; cbn [fst snd]; [apply cos_0|apply sin_0]. Qed.
Lemma cis_opp x : cis (- x) = conj (cis x).
Proof. apply c_ext; unfold cis, conj; cbn [fst snd]; [apply cos_neg|apply sin_neg]. Qed.
Lemma cis_2PI_nat (k : nat) : cis (2 * PI * INR k) = c1.
Proof.
  apply c_ext; unfold cis, c1; cbn [fst snd].
  - replace (2 * PI * INR k) with (0 + 2 * INR k * PI) by ring. rewrite cos_period; apply cos_0.
  - replace (2 * PI * INR k) with (0 + 2 * INR k * PI) by ring. rewrite sin_period; apply sin_0.
Qed.
Lemma cis_2PI (k : Z) : cis (2 * PI * IZR k) = c1.
Proof.
  destruct (Z_le_gt_dec 0 k) as [H|H].
  - replace k with (Z.of_nat (Z.to_nat k)) by lia. rewrite <- INR_IZR_INZ; apply cis_2PI_nat.
  - replace (2 * PI * IZR k) with (- (2 * PI * INR (Z.to_nat (- k)))).
    + rewrite cis_opp, cis_2PI_nat; apply conj_1.
    + rewrite INR_IZR_INZ, Z2Nat.id, opp_IZR by lia; ring.
Qed.

(** ** Complex numbers with NaN *)
Definition nan2 {A} (f : A -> A -> A) (x y : option A) : option A :=
  match x, y with Some a, Some b => Some (f a b) | _, _ => None end.
Definition csum_nan (l : list (option C)) : option C := fold_right (nan2 cadd) (Some c0) l.
(** [u . v] (no conjugation). *)
Definition cdot_nan (u v : list (option C)) : option C :=
  csum_nan (map (fun p => nan2 cmul (fst p) (snd p)) (combine u v)).
