(** CallFacts.v -- how calls of get_coordinates change the stored cocycles: lemmas on the in-place lift
    in any degree. *)
From Coq Require Import Reals List ZArith Lia Bool String.
From Verif Require Import Base BaseProofs RealBase EMModel SpecEM CohomologyModel SpecCohomology CohomologyProofs ToroidalModel SpecToroidal ToroidalProofs ToroidalFacts ComplexBase PPCAModel ClassMapModel ComplexProjModel SpecCalls.
Import ListNotations.
Local Open Scope list_scope.
Local Notation length := List.length.

(** [c'] is [c] or its lift. *)
Definition maybe_lifted (p : Z) (c c' : cocycle) : Prop := c' = c \/ c' = lift_to_integer_cocycle p c.
Definition store_lifted (p : Z) (s s' : list (list cocycle)) : Prop := Forall2 (Forall2 (maybe_lifted p)) s s'.
Definition em_lifted (e e' : em) : Prop := same_data e e' /\ store_lifted (em_prime e) (em_cocycles e) (em_cocycles e').

Lemma lift_twice p c : (2 <= p)%Z -> Forall (fun row => (0 <= snd row < p)%Z) (c_rows c) ->
  lift_to_integer_cocycle p (lift_to_integer_cocycle p c) = lift_to_integer_cocycle p c.
Proof. intros Hp F. exact (iter_lift_field p 1 c Hp F). Qed.

Lemma f2_len {A B} (Q : A -> B -> Prop) l l' : Forall2 Q l l' -> length l' = length l.
Proof. induction 1; cbn; congruence. Qed.
Lemma f2_get {A B} (Q : A -> B -> Prop) err l l' i : Forall2 Q l l' ->
  (exists a b, get err l i = Ok a /\ get err l' i = Ok b /\ In a l /\ Q a b) \/ (get err l i = Raise err /\ get err l' i = Raise err).
Proof.
  intros F. unfold get. revert i. induction F as [|a b l l' H F IH]; intros i; [right; destruct i; split; reflexivity|].
  destruct i as [|i]; cbn; [left; exists a, b; repeat split; auto|].
  destruct (IH i) as [(a' & b' & E1 & E2 & I & H')|[E1 E2]]; [left; exists a', b'; repeat split; auto|right; split; assumption].
Qed.
Lemma f2_np_get {A B} (Q : A -> B -> Prop) l l' k : Forall2 Q l l' ->
  (exists a b, np_get l k = Ok a /\ np_get l' k = Ok b /\ In a l /\ Q a b) \/ (np_get l k = Raise IndexError /\ np_get l' k = Raise IndexError).
Proof.
  intros F. unfold np_get. rewrite (f2_len _ _ _ F).
  destruct ((0 <=? k)%Z && (k <? Z.of_nat (length l))%Z); [apply (f2_get Q), F|].
  destruct ((- Z.of_nat (length l) <=? k)%Z && (k <? 0)%Z); [apply (f2_get Q), F|right; split; reflexivity].
Qed.
(** Replacing an element by one that is related to the element it replaces. *)
Lemma f2_replace {A} (Q : A -> A -> Prop) l l' i a b : Forall2 Q l l' -> nth_error l i = Some a -> Q a b -> Forall2 Q l (firstn i l' ++ b :: skipn (S i) l').
Proof.
  intros F; revert i. induction F as [|x y l l' H F IH]; intros i Ea Hb; [destruct i; discriminate|].
  destruct i as [|i]; cbn in *; [injection Ea as ->; constructor; assumption|constructor; [exact H|apply IH; assumption]].
Qed.
Lemma f2_set_at {A} (Q : A -> A -> Prop) err l l' i a b : Forall2 Q l l' -> get err l i = Ok a -> Q a b ->
  exists l2, set_at err l' i b = Ok l2 /\ Forall2 Q l l2.
Proof.
  intros F Ea Hb. unfold get in Ea. destruct (nth_error l i) eqn:E; [|discriminate]. injection Ea as ->.
  unfold set_at. assert (L : (i < length l)%nat) by (apply nth_error_Some; congruence). rewrite (f2_len _ _ _ F), (proj2 (Nat.ltb_lt _ _) L).
  eexists; split; [reflexivity|]. apply (f2_replace Q l l' i a b F E Hb).
Qed.
Lemma f2_np_set {A} (Q : A -> A -> Prop) l l' k a b : Forall2 Q l l' -> np_get l k = Ok a -> Q a b ->
  exists l2, np_set l' k b = Ok l2 /\ Forall2 Q l l2.
Proof.
  intros F Ea Hb. unfold np_get in Ea. unfold np_set. rewrite (f2_len _ _ _ F).
  destruct ((0 <=? k)%Z && (k <? Z.of_nat (length l))%Z); [apply (f2_set_at Q IndexError l l' _ a b F Ea Hb)|].
  destruct ((- Z.of_nat (length l) <=? k)%Z && (k <? 0)%Z); [apply (f2_set_at Q IndexError l l' _ a b F Ea Hb)|discriminate].
Qed.

Lemma maybe_lifted_refl p c : maybe_lifted p c c. Proof. left; reflexivity. Qed.
Lemma store_refl p s : store_lifted p s s.
Proof. apply Forall2_refl'; intros l; apply Forall2_refl'; intros c; apply maybe_lifted_refl. Qed.
Lemma em_lifted_refl e : em_lifted e e.
Proof. split; [repeat split|apply store_refl]. Qed.

(** Reading a class: the same lifetime or error, and the stored cocycle up to the lift. *)
Lemma rep_lifted e e' k dim : em_lifted e e' ->
  (exists b d c c', get_representative_cocycle e k dim = Ok (b, d, c) /\ get_representative_cocycle e' k dim = Ok (b, d, c') /\
     maybe_lifted (em_prime e) c c' /\ exists cs, In cs (em_cocycles e) /\ In c cs) \/
  (exists err, get_representative_cocycle e k dim = Raise err /\ get_representative_cocycle e' k dim = Raise err).
Proof.
  intros ((A1 & A2 & _) & S). unfold get_representative_cocycle. destruct k as [k|]; [|right; eexists; split; reflexivity]. rewrite A2.
  destruct (np_get (em_dgms e) dim) as [dgm|err]; cbn [bind]; [|right; eexists; split; reflexivity].
  destruct (f2_np_get _ _ _ dim S) as [(cs & cs' & E1 & E2 & I & F)|[E1 E2]]; rewrite E1, E2; cbn [bind]; [|right; eexists; split; reflexivity].
  destruct (np_get dgm k) as [bd|err]; cbn [bind]; [|right; eexists; split; reflexivity].
  destruct (f2_np_get _ _ _ k F) as [(c & c' & E3 & E4 & I' & Q)|[E3 E4]]; rewrite E3, E4; cbn [bind]; [|right; eexists; split; reflexivity].
  left. exists (fst bd), (snd bd), c, c'. repeat split; try assumption. exists cs; split; assumption.
Qed.

(** Lifting a class that was read succeeds, and keeps the relation. *)
Lemma lift_lifted e e' k dim b d c : (2 <= em_prime e)%Z -> field_store e -> em_lifted e e' -> get_representative_cocycle e k dim = Ok (b, d, c) ->
  exists e2, lift_stored dim k e' = Ok e2 /\ em_lifted e e2 /\ same_data e' e2 /\ em_rips_threshold e2 = em_rips_threshold e' /\ em_r_cover e2 = em_r_cover e'.
Proof.
  intros Hp HF ((A1 & A2 & A3 & A4 & A5 & A6 & A7) & S) E. unfold get_representative_cocycle in E. destruct k as [k|]; [|discriminate].
  destruct (np_get (em_dgms e) dim) as [dgm|]; [|discriminate]. cbn [bind] in E. unfold lift_stored.
  destruct (f2_np_get _ _ _ dim S) as [(cs & cs' & E1 & E2 & I & F)|[E1 E2]]; rewrite E1 in E; [|discriminate]. cbn [bind] in E. rewrite E2. cbn [bind].
  destruct (np_get dgm k) as [bd|]; [|discriminate]. cbn [bind] in E.
  destruct (f2_np_get _ _ _ k F) as [(c0 & c' & E3 & E4 & I' & Q)|[E3 E4]]; rewrite E3 in E; [|discriminate]. cbn [bind] in E. injection E as _ _ ->. rewrite E4. cbn [bind].
  assert (FC : Forall (fun row => (0 <= snd row < em_prime e)%Z) (c_rows c)) by (apply Forall_forall; intros row Hr; apply (HF cs c row I I' Hr)).
  assert (Q' : maybe_lifted (em_prime e) c (lift_to_integer_cocycle (em_prime e') c')).
  { right. rewrite A1. destruct Q as [-> | ->]; [reflexivity|apply lift_twice; assumption]. }
  destruct (f2_np_set _ cs cs' k c _ F E3 Q') as (cs2 & E5 & F2). rewrite E5. cbn [bind].
  destruct (f2_np_set _ (em_cocycles e) (em_cocycles e') dim cs cs2 S E1 F2) as (s2 & E6 & S2). rewrite E6. cbn [bind].
  eexists. split; [reflexivity|]. repeat split; try (cbn; assumption); cbn; congruence.
Qed.

Lemma lift_maybe p c c' : (2 <= p)%Z -> Forall (fun row => (0 <= snd row < p)%Z) (c_rows c) -> maybe_lifted p c c' ->
  lift_to_integer_cocycle p c' = lift_to_integer_cocycle p c.
Proof. intros Hp F [-> | ->]; [reflexivity|apply lift_twice; assumption]. Qed.
