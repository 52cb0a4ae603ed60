(** RealSum.v -- finite sums of reals (specification notation) and their algebra. *)
From Coq Require Import List Arith Lia ZArith.
From Coq Require Export Reals Lra.
Import ListNotations.
Local Open Scope R_scope.

(** f 0 + ... + f (n-1). *)
Fixpoint sumn (n : nat) (f : nat -> R) : R :=
  match n with 0%nat => 0 | S m => sumn m f + f m end.
Fixpoint sumnZ (n : nat) (f : nat -> Z) : Z :=
  match n with 0%nat => 0%Z | S m => (sumnZ m f + f m)%Z end.

Lemma sumn_ext n f g : (forall i, (i < n)%nat -> f i = g i) -> sumn n f = sumn n g.
Proof. induction n; cbn; intros H; [reflexivity|]. rewrite IHn by (intros; apply H; lia). rewrite H by lia; reflexivity. Qed.
Lemma sumn_0 n f : (forall i, (i < n)%nat -> f i = 0) -> sumn n f = 0.
Proof. induction n; cbn; intros H; [reflexivity|]. rewrite IHn by (intros; apply H; lia). rewrite H by lia; lra. Qed.
Lemma sumn_add n f g : sumn n (fun i => f i + g i) = sumn n f + sumn n g.
Proof. induction n; cbn; [lra|rewrite IHn; lra]. Qed.
Lemma sumn_sub n f g : sumn n (fun i => f i - g i) = sumn n f - sumn n g.
Proof. induction n; cbn; [lra|rewrite IHn; lra]. Qed.
Lemma sumn_scal n c f : sumn n (fun i => c * f i) = c * sumn n f.
Proof. induction n; cbn; [lra|rewrite IHn; lra]. Qed.
Lemma sumn_scal_r n c f : sumn n (fun i => f i * c) = sumn n f * c.
Proof. induction n; cbn; [lra|rewrite IHn; lra]. Qed.
Lemma sumn_opp n f : sumn n (fun i => - f i) = - sumn n f.
Proof. induction n; cbn; [lra|rewrite IHn; lra]. Qed.
Lemma sumn_swap n m (f : nat -> nat -> R) :
  sumn n (fun i => sumn m (fun j => f i j)) = sumn m (fun j => sumn n (fun i => f i j)).
Proof. induction n; cbn; [symmetry; apply sumn_0; reflexivity|rewrite IHn, sumn_add; reflexivity]. Qed.
Lemma sumn_nonneg n f : (forall i, (i < n)%nat -> 0 <= f i) -> 0 <= sumn n f.
Proof. induction n; cbn; intros H; [lra|]. pose proof (H n ltac:(lia)); pose proof (IHn ltac:(intros; apply H; lia)); lra. Qed.
Lemma sumn_le n f g : (forall i, (i < n)%nat -> f i <= g i) -> sumn n f <= sumn n g.
Proof. induction n; cbn; intros H; [lra|]. pose proof (H n ltac:(lia)); pose proof (IHn ltac:(intros; apply H; lia)); lra. Qed.
Lemma sumn_single n f k : (k < n)%nat -> (forall i, (i < n)%nat -> i <> k -> f i = 0) -> sumn n f = f k.
Proof.
  induction n; cbn; intros Hk H; [lia|]. destruct (Nat.eq_dec k n) as [->|Hn].
  - rewrite sumn_0 by (intros; apply H; lia); lra.
  - rewrite IHn by (lia || (intros; apply H; lia)). rewrite (H n) by lia; lra.
Qed.
Lemma sumn_ge n f k : (k < n)%nat -> (forall i, (i < n)%nat -> 0 <= f i) -> f k <= sumn n f.
Proof.
  induction n; cbn; intros Hk H; [lia|]. destruct (Nat.eq_dec k n) as [->|Hn].
  - pose proof (sumn_nonneg n f ltac:(intros; apply H; lia)); lra.
  - pose proof (IHn ltac:(lia) ltac:(intros; apply H; lia)); pose proof (H n ltac:(lia)); lra.
Qed.
Lemma sumn_zero_all n f : (forall i, (i < n)%nat -> 0 <= f i) -> sumn n f = 0 -> forall i, (i < n)%nat -> f i = 0.
Proof. intros H E i Hi; pose proof (sumn_ge n f i Hi H); pose proof (H i Hi); lra. Qed.
Lemma sumn_split n m f : sumn (n + m) f = sumn n f + sumn m (fun i => f (n + i)%nat).
Proof. induction m; cbn; [rewrite Nat.add_0_r; lra|rewrite Nat.add_succ_r; cbn; rewrite IHm; lra]. Qed.
Lemma sumn_first n f : sumn (S n) f = f 0%nat + sumn n (fun i => f (S i)).
Proof. change (S n) with (1 + n)%nat; rewrite sumn_split; cbn; lra. Qed.

Lemma sumnZ_IZR n f : IZR (sumnZ n f) = sumn n (fun i => IZR (f i)).
Proof. induction n; cbn; [reflexivity|rewrite plus_IZR, IHn; reflexivity]. Qed.
Lemma sumnZ_ext n f g : (forall i, (i < n)%nat -> f i = g i) -> sumnZ n f = sumnZ n g.
Proof. induction n; cbn; intros H; [reflexivity|]. rewrite IHn by (intros; apply H; lia). rewrite H by lia; reflexivity. Qed.
Lemma sumnZ_0 n f : (forall i, (i < n)%nat -> f i = 0%Z) -> sumnZ n f = 0%Z.
Proof. induction n; cbn; intros H; [reflexivity|]. rewrite IHn by (intros; apply H; lia). rewrite H by lia; lia. Qed.

Lemma fold_sumn (l : list R) : fold_right Rplus 0 l = sumn (length l) (fun i => nth i l 0).
Proof.
  induction l as [|x l IH]; [reflexivity|].
  cbn [length fold_right]; rewrite sumn_first, IH; reflexivity.
Qed.
Lemma fold_map_seq n (f : nat -> R) : fold_right Rplus 0 (map f (seq 0 n)) = sumn n f.
Proof.
  rewrite fold_sumn, map_length, seq_length; apply sumn_ext; intros i Hi.
  rewrite (nth_indep _ 0 (f 0%nat)) by (rewrite map_length, seq_length; exact Hi).
  rewrite map_nth, seq_nth by exact Hi; reflexivity.
Qed.
