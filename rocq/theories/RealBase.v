(** RealBase.v -- floats as exact reals: rounding and comparisons.  Nothing here models
    a particular line of /repo; floats are idealised as real numbers throughout. *)
From Coq Require Export Reals Lra Psatz.
From Coq Require Import Ring_theory.
From Verif Require Import Base DeltaModel.

Definition Rltb (x y : R) : bool := if Rlt_dec x y then true else false.
Definition Rleb (x y : R) : bool := if Rle_dec x y then true else false.
Definition Reqb (x y : R) : bool := if Req_EM_T x y then true else false.

Definition Rring : ring := mkRing R 0%R 1%R Rplus Rmult Rminus Ropp RTheory.

(** [np.rint] and Python's [round]: nearest integer, ties to even. *)
Definition rint (x : R) : Z :=
  let f := Int_part x in
  let d := (x - IZR f)%R in
  if Rltb d (1 / 2) then f
  else if Rltb (1 / 2) d then (f + 1)%Z
  else if Z.even f then f else (f + 1)%Z.

Lemma Rltb_true x y : Rltb x y = true <-> (x < y)%R.
Proof. unfold Rltb; destruct (Rlt_dec x y); split; intros; try discriminate; try tauto; auto. Qed.
Lemma Rltb_false x y : Rltb x y = false <-> (y <= x)%R.
Proof. unfold Rltb; destruct (Rlt_dec x y); split; intros; try discriminate; try lra; auto. Qed.
Lemma Rleb_true x y : Rleb x y = true <-> (x <= y)%R.
Proof. unfold Rleb; destruct (Rle_dec x y); split; intros; try discriminate; try tauto; auto. Qed.
Lemma Rleb_false x y : Rleb x y = false <-> (y < x)%R.
Proof. unfold Rleb; destruct (Rle_dec x y); split; intros; try discriminate; try lra; auto. Qed.
Lemma Reqb_true x y : Reqb x y = true <-> x = y.
Proof. unfold Reqb; destruct (Req_EM_T x y); split; intros; try discriminate; try tauto; auto. Qed.
Lemma Reqb_false x y : Reqb x y = false <-> x <> y.
Proof. unfold Reqb; destruct (Req_EM_T x y); split; intros; try discriminate; try tauto; auto. Qed.

Lemma rint_near x : (Rabs (x - IZR (rint x)) <= 1 / 2)%R.
Proof.
  unfold rint; pose proof (base_Int_part x) as [H1 H2]; set (f := Int_part x) in *.
  destruct (Rltb _ _) eqn:E1.
  - apply Rltb_true in E1; apply Rabs_le; lra.
  - apply Rltb_false in E1. destruct (Rltb (1 / 2) _) eqn:E2.
    + apply Rltb_true in E2; rewrite plus_IZR; apply Rabs_le; lra.
    + apply Rltb_false in E2; destruct (Z.even f); rewrite ?plus_IZR; apply Rabs_le; lra.
Qed.

Lemma IZR_eq_of_close (a b : Z) : (Rabs (IZR a - IZR b) < 1)%R -> a = b.
Proof.
  rewrite <- minus_IZR; intros H.
  assert (-1 < a - b < 1)%Z; [|lia].
  apply Rabs_def2 in H; destruct H as [H1 H2]; split; apply lt_IZR; lra.
Qed.

Lemma rint_unique x k : (Rabs (x - IZR k) < 1 / 2)%R -> rint x = k.
Proof.
  intros H; apply IZR_eq_of_close; pose proof (rint_near x) as H1.
  replace (IZR (rint x) - IZR k)%R with ((x - IZR k) - (x - IZR (rint x)))%R by ring.
  pose proof (Rabs_triang (x - IZR k) (- (x - IZR (rint x)))) as T; rewrite Rabs_Ropp in T.
  unfold Rminus at 1; lra.
Qed.

Lemma rint_IZR k : rint (IZR k) = k.
Proof. apply rint_unique; rewrite Rminus_diag_eq by reflexivity; rewrite Rabs_R0; lra. Qed.

Lemma rofZ_Z z : rofZ (K := Zring) z = z.
Proof.
  assert (H : forall p, Pos.iter (Z.add 1) 0%Z p = Zpos p).
  { intros p; induction p using Pos.peano_ind; [reflexivity|].
    rewrite Pos.iter_succ, IHp; lia. }
  destruct z; cbn; rewrite ?H; reflexivity.
Qed.
Lemma rofZ_R z : rofZ (K := Rring) z = IZR z.
Proof.
  assert (H : forall p, Pos.iter (Rplus 1) 0%R p = IZR (Zpos p)).
  { intros p; induction p using Pos.peano_ind; [cbn; lra|].
    rewrite Pos.iter_succ, IHp, Pos2Z.inj_succ, succ_IZR; lra. }
  destruct z; cbn; rewrite ?H; [reflexivity..|rewrite <- opp_IZR; reflexivity].
Qed.
