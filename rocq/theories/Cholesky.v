(** Cholesky.v -- symmetric positive definite matrices have Cholesky factors, and only they do:
    an exact model of np.linalg.cholesky exists, so the contract used for it can be met. *)
From Coq Require Import Lia Lra.
From Verif Require Import Base BaseProofs RealBase RealSum SpecEM SpecCircle CircleProofs SpecToroidal ToroidalModel.
Local Open Scope R_scope.

Definition quad (k : nat) (g : nat -> nat -> R) (c : nat -> R) : R := sumn k (fun i => sumn k (fun j => c i * c j * g i j)).
Lemma quad_first k g c : quad (S k) g c =
  c 0%nat ^ 2 * g 0%nat 0%nat + c 0%nat * sumn k (fun j => c (S j) * g 0%nat (S j)) + c 0%nat * sumn k (fun i => c (S i) * g (S i) 0%nat)
  + quad k (fun i j => g (S i) (S j)) (fun i => c (S i)).
Proof.
  unfold quad. rewrite sumn_first. rewrite (sumn_first k (fun j => c 0%nat * c j * g 0%nat j)).
  rewrite (sumn_ext k (fun j => c 0%nat * c (S j) * g 0%nat (S j)) (fun j => c 0%nat * (c (S j) * g 0%nat (S j)))) by (intros; ring).
  rewrite sumn_scal. rewrite (sumn_ext k (fun i => sumn (S k) (fun j => c (S i) * c j * g (S i) j))
    (fun i => c 0%nat * (c (S i) * g (S i) 0%nat) + sumn k (fun j => c (S i) * c (S j) * g (S i) (S j)))).
  - rewrite sumn_add, sumn_scal. ring.
  - intros i _. rewrite sumn_first. ring.
Qed.
Definition posdef (k : nat) (g : nat -> nat -> R) : Prop :=
  (forall i j, (i < k)%nat -> (j < k)%nat -> g i j = g j i) /\ forall c, (exists h, (h < k)%nat /\ c h <> 0) -> 0 < quad k g c.
Lemma schur_quad k g c : g 0%nat 0%nat <> 0 -> (forall i j, (i < S k)%nat -> (j < S k)%nat -> g i j = g j i) ->
  quad k (fun i j => g (S i) (S j) - g (S i) 0%nat * g 0%nat (S j) / g 0%nat 0%nat) c =
  quad (S k) g (fun i => match i with O => - sumn k (fun j => c j * g 0%nat (S j)) / g 0%nat 0%nat | S i => c i end).
Proof.
  intros N Sy. rewrite quad_first. set (a := g 0%nat 0%nat) in *.
  rewrite (sumn_ext k (fun i => c i * g (S i) 0%nat) (fun i => c i * g 0%nat (S i))) by (intros i Hi; rewrite (Sy (S i) 0%nat) by lia; reflexivity).
  set (s := sumn k (fun j => c j * g 0%nat (S j))).
  assert (E : quad k (fun i j => g (S i) (S j) - g (S i) 0%nat * g 0%nat (S j) / a) c = quad k (fun i j => g (S i) (S j)) c - s * s / a).
  { unfold quad. rewrite (sumn_ext k _ (fun i => sumn k (fun j => c i * c j * g (S i) (S j)) - (c i * g 0%nat (S i)) * (s / a))).
    - rewrite sumn_sub, sumn_scal_r. fold s. unfold Rdiv; ring.
    - intros i Hi. rewrite (sumn_ext k _ (fun j => c i * c j * g (S i) (S j) - (c i * g 0%nat (S i) / a) * (c j * g 0%nat (S j)))).
      + rewrite sumn_sub, sumn_scal. fold s. unfold Rdiv; ring.
      + intros j Hj. rewrite (Sy (S i) 0%nat) by lia. unfold Rdiv; ring. }
  rewrite E. change (quad k (fun i j => g (S i) (S j)) (fun i => c i)) with (quad k (fun i j => g (S i) (S j)) c). field. exact N.
Qed.
Lemma posdef_corner k g : posdef (S k) g -> 0 < g 0%nat 0%nat.
Proof.
  intros [_ P]. specialize (P (fun i => match i with O => 1 | _ => 0 end)). rewrite quad_first in P. unfold quad in P.
  rewrite !(sumn_0 k) in P; [assert (0 < 1 ^ 2 * g 0%nat 0%nat + 1 * 0 + 1 * 0 + 0); [apply P; exists 0%nat; split; [lia|lra]|lra]|..];
    intros i Hi; try ring; apply sumn_0; intros; ring.
Qed.
Lemma posdef_schur k g : posdef (S k) g -> posdef k (fun i j => g (S i) (S j) - g (S i) 0%nat * g 0%nat (S j) / g 0%nat 0%nat).
Proof.
  intros P. pose proof (posdef_corner k g P) as A. destruct P as [Sy P]. split.
  - intros i j Hi Hj. rewrite (Sy (S i) (S j)), (Sy (S i) 0%nat), (Sy 0%nat (S j)) by lia. unfold Rdiv; ring.
  - intros c (h & Hh & N). rewrite schur_quad by (lra || exact Sy). apply P. exists (S h). split; [lia|exact N].
Qed.
(** The factorisation, row by row; [None] if a pivot is not positive. *)
Fixpoint chol (k : nat) (g : nat -> nat -> R) : option (nat -> nat -> R) :=
  match k with
  | O => Some (fun _ _ => 0)
  | S k =>
      if Rlt_dec 0 (g 0%nat 0%nat) then
        match chol k (fun i j => g (S i) (S j) - g (S i) 0%nat * g 0%nat (S j) / g 0%nat 0%nat) with
        | Some l => Some (fun i j => match i, j with
            | O, O => sqrt (g 0%nat 0%nat) | S i, O => g (S i) 0%nat / sqrt (g 0%nat 0%nat) | O, S _ => 0 | S i, S j => l i j end)
        | None => None
        end
      else None
  end.
Lemma chol_sound k : forall g l, (forall i j, (i < k)%nat -> (j < k)%nat -> g i j = g j i) -> chol k g = Some l ->
  (forall i j, (i < j)%nat -> l i j = 0) /\ (forall i, (i < k)%nat -> 0 < l i i) /\
  forall i j, (i < k)%nat -> (j < k)%nat -> g i j = sumn k (fun h => l i h * l j h).
Proof.
  induction k as [|k IH]; intros g l0 Sy E; cbn [chol] in E.
  - injection E as <-. split; [reflexivity|]. split; intros; lia.
  - destruct (Rlt_dec 0 (g 0%nat 0%nat)) as [A|]; [|discriminate]. destruct (chol k _) as [l|] eqn:El; [|discriminate]. injection E as <-.
    destruct (fun S => IH _ l S El) as (U & D & E).
    { intros i j Hi Hj. rewrite (Sy (S i) (S j)), (Sy (S i) 0%nat), (Sy 0%nat (S j)) by lia. unfold Rdiv; ring. }
    set (a := g 0%nat 0%nat) in *. pose proof (sqrt_lt_R0 a A) as Sa. pose proof (sqrt_sqrt a ltac:(lra)) as Ss.
    split; [|split].
    + intros [|i] [|j] H; try lia; [reflexivity|]. apply U; lia.
    + intros [|i] H; [exact Sa|apply D; lia].
    + intros i j Hi Hj. rewrite sumn_first. destruct i as [|i], j as [|j].
      * rewrite sumn_0 by (intros; ring). rewrite Ss. unfold a; ring.
      * rewrite sumn_0 by (intros; ring). rewrite (Sy 0%nat (S j)) by lia. field; lra.
      * rewrite sumn_0 by (intros; ring). field; lra.
      * rewrite <- E by lia. rewrite (Sy (S j) 0%nat) by lia. fold a.
        replace (g (S i) 0%nat / sqrt a * (g 0%nat (S j) / sqrt a)) with (g (S i) 0%nat * g 0%nat (S j) / (sqrt a * sqrt a)) by (field; lra).
        rewrite Ss. ring.
Qed.
Lemma chol_complete k : forall g, posdef k g -> exists l, chol k g = Some l.
Proof.
  induction k as [|k IH]; intros g P; cbn [chol]; [eexists; reflexivity|].
  destruct (Rlt_dec 0 (g 0%nat 0%nat)) as [A|N]; [|elim N; apply (posdef_corner k g P)].
  destruct (IH _ (posdef_schur k g P)) as (l & ->). eexists; reflexivity.
Qed.
Lemma quad_factor k m (g : nat -> nat -> R) l c : (forall i j, (i < k)%nat -> (j < k)%nat -> g i j = sumn m (fun h => l i h * l j h)) ->
  quad k g c = sumn m (fun h => sumn k (fun i => c i * l i h) ^ 2).
Proof.
  intros E. unfold quad.
  rewrite (sumn_ext k _ (fun i => sumn m (fun h => c i * l i h * sumn k (fun j => c j * l j h)))).
  - rewrite sumn_swap. apply sumn_ext; intros h Hh. rewrite sumn_scal_r. ring.
  - intros i Hi. rewrite (sumn_ext k _ (fun j => sumn m (fun h => (c i * l i h) * (c j * l j h)))).
    + rewrite sumn_swap. apply sumn_ext; intros h Hh. rewrite sumn_scal. reflexivity.
    + intros j Hj. rewrite E by assumption. rewrite <- sumn_scal. apply sumn_ext; intros; ring.
Qed.

(** A triangular factor with positive diagonal makes the matrix positive definite. *)
Lemma factor_posdef k m g l : (forall i j, (i < k)%nat -> (j < k)%nat -> g i j = sumn m (fun h => l i h * l j h)) ->
  (forall c, (forall h, (h < m)%nat -> sumn k (fun i => c i * l i h) = 0) -> forall i, (i < k)%nat -> c i = 0) ->
  posdef k g.
Proof.
  intros E I. split.
  - intros i j Hi Hj. rewrite !E by assumption. apply sumn_ext; intros; ring.
  - intros c (h & Hh & N). rewrite (quad_factor k m g l c E).
    assert (P : forall h, (h < m)%nat -> 0 <= sumn k (fun i => c i * l i h) ^ 2) by (intros; apply pow2_ge_0).
    destruct (Rle_lt_or_eq_dec 0 _ (sumn_nonneg m _ P)) as [L|Z]; [exact L|]. exfalso. apply N. apply (I c); [|exact Hh].
    intros h' Hh'. symmetry in Z. pose proof (sumn_zero_all m _ P Z h' Hh') as Q. cbn beta in Q. apply Rsqr_0_uniq. unfold Rsqr. lra.
Qed.
Lemma triangular_columns k (l : nat -> nat -> R) c : (forall i j, (i < j < k)%nat -> l i j = 0) -> (forall i, (i < k)%nat -> 0 < l i i) ->
  (forall h, (h < k)%nat -> sumn k (fun i => c i * l i h) = 0) -> forall i, (i < k)%nat -> c i = 0.
Proof.
  intros U D H. assert (G : forall d h, (d <= k)%nat -> (k - d <= h < k)%nat -> c h = 0).
  { induction d as [|d IH]; intros h Hd Hh; [lia|]. destruct (Nat.eq_dec h (k - S d)) as [->|N]; [|apply IH; lia].
    set (q := (k - S d)%nat) in *. assert (Hk : (q < k)%nat) by (unfold q; lia). specialize (H q Hk). rewrite (sumn_single k _ q Hk) in H.
    - specialize (D q Hk). apply Rmult_integral in H as [H|H]; [exact H|lra].
    - intros i Hi N. destruct (Nat.lt_ge_cases i q) as [L|G]; [rewrite U by lia; ring|]. rewrite IH by lia. ring. }
  intros h Hh. apply (G k h); lia.
Qed.

(** np.linalg.cholesky in exact arithmetic: only the lower triangle is read. *)
Definition exact_chol (G : list (list R)) : res (list (list R)) :=
  match chol (length G) (fun i j => at2 0 G (Nat.max i j) (Nat.min i j)) with
  | Some l => Ok (mk2 (length G) (length G) l)
  | None => Raise LinAlgError
  end.
Lemma lower_symmetric k G i j : symmetric k G -> (i < k)%nat -> (j < k)%nat -> at2 0 G (Nat.max i j) (Nat.min i j) = at2 0 G i j.
Proof.
  intros S Hi Hj. destruct (Nat.le_ge_cases i j).
  - rewrite Nat.max_r, Nat.min_l by assumption. apply S; assumption.
  - rewrite Nat.max_l, Nat.min_r by assumption. reflexivity.
Qed.
Lemma exact_chol_sound ext : x_cholesky ext = exact_chol -> sound_cholesky ext.
Proof.
  intros Ex k G L [LG _] E. rewrite Ex in E. unfold exact_chol in E. rewrite LG in E. destruct (chol k _) as [l|] eqn:El; [|discriminate]. injection E as <-.
  split; [apply matrix_mk2|]. intros S. destruct (fun S => chol_sound k _ l S El) as (U & D & F).
  { intros i j _ _. rewrite Nat.max_comm, Nat.min_comm. reflexivity. }
  split; [|split].
  - intros i j H. rewrite at2_mk2 by lia. apply U; lia.
  - intros i H. rewrite at2_mk2 by lia. apply D, H.
  - intros i j Hi Hj. rewrite <- (lower_symmetric k G i j S Hi Hj), F by assumption. apply sumn_ext; intros h Hh. rewrite !at2_mk2 by lia. reflexivity.
Qed.
Lemma posdef_spec k G : symmetric k G -> (posdef k (fun i j => at2 0 G (Nat.max i j) (Nat.min i j)) <-> positive_definite k G).
Proof.
  intros S. assert (Q : forall c, quad k (fun i j => at2 0 G (Nat.max i j) (Nat.min i j)) c = sumn k (fun i => sumn k (fun j => c i * c j * at2 0 G i j))).
  { intros c. apply sumn_ext; intros i Hi. apply sumn_ext; intros j Hj. rewrite (lower_symmetric k G) by assumption. reflexivity. }
  split.
  - intros [_ P] c Hc. rewrite <- Q. apply P, Hc.
  - intros P. split; [intros i j _ _; rewrite Nat.max_comm, Nat.min_comm; reflexivity|]. intros c Hc. rewrite Q. apply P, Hc.
Qed.
Lemma exact_chol_exact ext : x_cholesky ext = exact_chol -> exact_cholesky ext.
Proof.
  intros Ex k G [LG FG] S. split.
  - intros P. apply (posdef_spec k G S) in P. destruct (chol_complete k _ P) as (l & El). rewrite Ex. unfold exact_chol. rewrite LG, El. eexists; reflexivity.
  - intros N. rewrite Ex. destruct (exact_chol G) as [L|err] eqn:E.
    + exfalso. apply N. rewrite <- Ex in E. destruct (exact_chol_sound ext Ex k G L (conj LG FG) E) as [_ H]. destruct (H S) as (U & D & F).
      apply (posdef_spec k G S). apply (factor_posdef k k _ (fun i j => at2 0 L i j)).
      * intros i j Hi Hj. rewrite (lower_symmetric k G) by assumption. apply F; assumption.
      * intros c. apply triangular_columns; assumption.
    + unfold exact_chol in E. destruct (chol _ _); congruence.
Qed.
