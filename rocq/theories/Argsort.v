(** Argsort.v -- a concrete (stable, insertion) argsort meeting the contract of
    numpy.argsort; used to show that theorems about an arbitrary argsort apply. *)
From Coq Require Import List Arith ZArith Lia Bool Permutation Sorted.
From Verif Require Import SpecCohomology.
Import ListNotations.

Section Argsort.
Context {A : Type} (leb : A -> A -> bool) (d : A).
Hypothesis leb_total : forall x y, leb x y = true \/ leb y x = true.
Hypothesis leb_trans : forall x y z, leb x y = true -> leb y z = true -> leb x z = true.

Fixpoint insert_pos (l : list A) (i : nat) (p : list nat) : list nat :=
  match p with
  | [] => [i]
  | j :: r => if leb (nth i l d) (nth j l d) then i :: p else j :: insert_pos l i r
  end.

Definition argsort_ins (l : list A) : list nat :=
  fold_right (insert_pos l) [] (seq 0 (length l)).

Lemma insert_perm l i p : Permutation (insert_pos l i p) (i :: p).
Proof.
  induction p as [|j p IH]; cbn [insert_pos]; [reflexivity|].
  destruct (leb _ _); [reflexivity|]. rewrite IH; apply perm_swap.
Qed.

Lemma insert_sorted l i p :
  StronglySorted (fun x y => leb x y = true) (map (fun k => nth k l d) p) ->
  StronglySorted (fun x y => leb x y = true) (map (fun k => nth k l d) (insert_pos l i p)).
Proof.
  induction p as [|j p IH]; cbn [insert_pos map]; intros H.
  - repeat constructor.
  - pose proof H as H0; apply StronglySorted_inv in H; destruct H as [H1 F].
    destruct (leb (nth i l d) (nth j l d)) eqn:E; cbn [map].
    + constructor; [exact H0|]. constructor; [exact E|].
      apply Forall_impl with (2 := F); intros x Hx; eapply leb_trans; eassumption.
    + assert (E' : leb (nth j l d) (nth i l d) = true) by (destruct (leb_total (nth i l d) (nth j l d)); congruence).
      constructor; [apply IH; exact H1|].
      apply Forall_map. apply Forall_forall; intros k Hk.
      apply (Permutation_in _ (insert_perm l i p)) in Hk; destruct Hk as [<-|Hk]; [exact E'|].
      rewrite Forall_map, Forall_forall in F; apply F, Hk.
Qed.

Lemma argsort_ins_ok l : is_argsort (fun x y => leb x y = true) d l (argsort_ins l).
Proof.
  unfold is_argsort, argsort_ins; split.
  - induction (seq 0 (length l)) as [|i s IH]; cbn [fold_right]; [reflexivity|].
    rewrite insert_perm, IH; reflexivity.
  - induction (seq 0 (length l)) as [|i s IH]; cbn [fold_right map]; [constructor|].
    apply insert_sorted, IH.
Qed.
End Argsort.

Definition argsort_Z : list Z -> list nat := argsort_ins Z.leb 0%Z.
Lemma argsort_Z_ok l : is_argsort Z.le 0%Z l (argsort_Z l).
Proof.
  destruct (argsort_ins_ok Z.leb 0%Z) with (l := l) as [P S].
  - intros; destruct (Z.leb_spec x y), (Z.leb_spec y x); auto; lia.
  - intros x y z; rewrite !Z.leb_le; lia.
  - split; [exact P|]. unfold argsort_Z.
    induction S as [|x r S IH F]; constructor; [exact IH|].
    apply Forall_impl with (2 := F); intros; apply Z.leb_le; assumption.
Qed.
