(** BaseProofs.v -- facts about the loop and array primitives of Base.v. *)
From Verif Require Import Base.

Lemma for_in_app {A S} (l1 l2 : list A) (body : A -> S -> res S) s :
  for_in (l1 ++ l2) body s = bind (for_in l1 body s) (for_in l2 body).
Proof.
  revert s; induction l1 as [|x l1 IH]; intros s; cbn [app for_in]; [reflexivity|].
  destruct (body x s) as [s'|e]; cbn [bind]; [apply IH | reflexivity].
Qed.

Lemma for_in_ext {A S} (l : list A) (f g : A -> S -> res S) s :
  (forall x t, In x l -> f x t = g x t) -> for_in l f s = for_in l g s.
Proof.
  revert s; induction l as [|x l IH]; intros s H; cbn [for_in]; [reflexivity|].
  rewrite H by (left; reflexivity).
  destruct (g x s) as [s'|e]; cbn [bind]; [|reflexivity].
  apply IH; intros; apply H; right; assumption.
Qed.

Lemma for_in_flat_map {A B S} (l : list A) (h : A -> list B) (body : B -> S -> res S) s :
  for_in (flat_map h l) body s = for_in l (fun x => for_in (h x) body) s.
Proof.
  revert s; induction l as [|x l IH]; intros s; cbn [flat_map for_in]; [reflexivity|].
  rewrite for_in_app. destruct (for_in (h x) body s); cbn [bind]; [apply IH|reflexivity].
Qed.

Lemma for_in_filter {A S} (l : list A) (p : A -> bool) (body : A -> S -> res S) s :
  for_in (filter p l) body s = for_in l (fun x t => if p x then body x t else Ok t) s.
Proof.
  revert s; induction l as [|x l IH]; intros s; cbn [filter for_in]; [reflexivity|].
  destruct (p x); cbn [for_in bind]; [|apply IH].
  destruct (body x s); cbn [bind]; [apply IH|reflexivity].
Qed.

Lemma for_in_map {A B S} (l : list A) (h : A -> B) (body : B -> S -> res S) s :
  for_in (map h l) body s = for_in l (fun x => body (h x)) s.
Proof.
  revert s; induction l as [|x l IH]; intros s; cbn [map for_in]; [reflexivity|].
  destruct (body (h x) s); cbn [bind]; [apply IH|reflexivity].
Qed.

(** Invariant rule for loops that never raise. *)
Lemma for_in_inv {A S} (l : list A) (body : A -> S -> res S) (I : list A -> S -> Prop) s :
  I [] s ->
  (forall pre x post s, l = pre ++ x :: post -> I pre s ->
     exists s', body x s = Ok s' /\ I (pre ++ [x]) s') ->
  exists s', for_in l body s = Ok s' /\ I l s'.
Proof.
  intros H0 Hs.
  assert (G : forall post pre s, l = pre ++ post -> I pre s ->
             exists s', for_in post body s = Ok s' /\ I l s').
  { induction post as [|x post IH]; intros pre t E HI.
    - exists t; split; [reflexivity|]. rewrite app_nil_r in E; subst; assumption.
    - destruct (Hs pre x post t E HI) as (t' & Eb & HI').
      cbn [for_in]; rewrite Eb; cbn [bind].
      apply (IH (pre ++ [x])); [rewrite <- app_assoc; exact E | exact HI']. }
  exact (G l [] s eq_refl H0).
Qed.

Lemma range_0 n : range 0 n = seq 0 n.
Proof. unfold range; rewrite Nat.sub_0_r; reflexivity. Qed.

Lemma in_range a b x : In x (range a b) <-> a <= x < b.
Proof. unfold range; rewrite in_seq; lia. Qed.

Lemma nth_error_seq a n i : i < n -> nth_error (seq a n) i = Some (a + i).
Proof.
  revert a i; induction n as [|n IH]; intros a i H; [lia|].
  destruct i as [|i]; cbn [seq nth_error]; [f_equal; lia|].
  rewrite IH by lia; f_equal; lia.
Qed.

Lemma nth_error_map_seq {A} (f : nat -> A) n i :
  i < n -> nth_error (map f (seq 0 n)) i = Some (f i).
Proof. intros H; rewrite nth_error_map, nth_error_seq by assumption; reflexivity. Qed.

Lemma length_mk1 {A} n (f : nat -> A) : length (mk1 n f) = n.
Proof. unfold mk1; rewrite map_length, seq_length; reflexivity. Qed.

Lemma nth_mk1 {A} n (f : nat -> A) i d : i < n -> nth i (mk1 n f) d = f i.
Proof.
  intros H; unfold mk1; rewrite (nth_indep _ d (f 0)) by (rewrite map_length, seq_length; exact H).
  rewrite map_nth, seq_nth by exact H; reflexivity.
Qed.

Lemma mk1_ext {A} n (f g : nat -> A) : (forall i, i < n -> f i = g i) -> mk1 n f = mk1 n g.
Proof.
  intros H; unfold mk1; apply map_ext_in; intros i Hi; apply H; apply in_seq in Hi; lia.
Qed.

Lemma length_mk2 {A} n m (f : nat -> nat -> A) : length (mk2 n m f) = n.
Proof. unfold mk2; rewrite map_length, seq_length; reflexivity. Qed.

Lemma nth_mk2_row {A} n m (f : nat -> nat -> A) i :
  i < n -> nth i (mk2 n m f) [] = mk1 m (f i).
Proof. intros H; exact (nth_mk1 n (fun i => map (fun j => f i j) (seq 0 m)) i [] H). Qed.

Lemma at2_mk2 {A} n m (f : nat -> nat -> A) i j d :
  i < n -> j < m -> at2 d (mk2 n m f) i j = f i j.
Proof.
  intros Hi Hj; unfold at2; rewrite nth_mk2_row by exact Hi; apply nth_mk1; exact Hj.
Qed.

Lemma mk2_ext {A} n m (f g : nat -> nat -> A) :
  (forall i j, i < n -> j < m -> f i j = g i j) -> mk2 n m f = mk2 n m g.
Proof.
  intros H; unfold mk2; apply map_ext_in; intros i Hi; apply map_ext_in; intros j Hj.
  apply in_seq in Hi; apply in_seq in Hj; apply H; lia.
Qed.

Lemma mk2_rows {A} n m (f : nat -> nat -> A) :
  Forall (fun r => length r = m) (mk2 n m f).
Proof.
  apply Forall_forall; intros r Hr; unfold mk2 in Hr; apply in_map_iff in Hr.
  destruct Hr as (i & <- & _); rewrite map_length, seq_length; reflexivity.
Qed.

(** A list of rows is determined by its shape and entries. *)
Lemma list_mk1 {A} (l : list A) d : l = mk1 (length l) (fun i => nth i l d).
Proof.
  apply nth_ext with (d := d) (d' := d); [rewrite length_mk1; reflexivity|].
  intros i Hi; rewrite nth_mk1 by exact Hi; reflexivity.
Qed.

Lemma get_ok {A} err (l : list A) i d : i < length l -> get err l i = Ok (nth i l d).
Proof.
  intros H; unfold get; rewrite (nth_error_nth' l d H); reflexivity.
Qed.

Lemma Ok_inj {A} (x y : A) : Ok x = Ok y -> x = y.
Proof. congruence. Qed.

Lemma length_cons {A} (x : A) l : length (x :: l) = S (length l).
Proof. reflexivity. Qed.

Lemma set_at_length {A} err (l l' : list A) i x :
  set_at err l i x = Ok l' -> length l' = length l.
Proof.
  unfold set_at; destruct (Nat.ltb_spec i (length l)) as [H|H]; [|discriminate].
  intros E; apply Ok_inj in E; subst l'; rewrite app_length, length_cons, firstn_length, skipn_length; lia.
Qed.

Lemma set_at_ok {A} err (l : list A) i x : i < length l ->
  exists l', set_at err l i x = Ok l' /\ length l' = length l /\
    nth_error l' i = Some x /\ (forall j, j <> i -> nth_error l' j = nth_error l j) /\
    firstn i l' = firstn i l.
Proof.
  intros H; unfold set_at; destruct (Nat.ltb_spec i (length l)) as [_|H']; [|lia].
  eexists; split; [reflexivity|].
  assert (Hf : length (firstn i l) = i) by (rewrite firstn_length; lia).
  repeat split.
  - rewrite app_length, length_cons, firstn_length, skipn_length; lia.
  - rewrite nth_error_app2, Hf, Nat.sub_diag by lia; reflexivity.
  - intros j Hj; destruct (Nat.lt_ge_cases j i) as [L|G].
    + rewrite nth_error_app1 by lia.
      rewrite <- (firstn_skipn i l) at 2. rewrite nth_error_app1 by lia; reflexivity.
    + rewrite nth_error_app2, Hf by lia.
      destruct (j - i) as [|m] eqn:E; [lia|]; cbn [nth_error].
      rewrite <- (firstn_skipn (S i) l) at 2.
      rewrite nth_error_app2 by (rewrite firstn_length; lia).
      f_equal; rewrite firstn_length; lia.
  - rewrite firstn_app, Hf, Nat.sub_diag; cbn [firstn]; rewrite app_nil_r.
    rewrite firstn_firstn, Nat.min_id; reflexivity.
Qed.

Lemma map_res_ok {A B} (f : A -> res B) (g : A -> B) l :
  (forall x, In x l -> f x = Ok (g x)) -> map_res f l = Ok (map g l).
Proof.
  induction l as [|x l IH]; intros H; cbn [map_res map]; [reflexivity|].
  rewrite H by (left; reflexivity); cbn [bind].
  rewrite IH by (intros; apply H; right; assumption); reflexivity.
Qed.

Lemma map_res_length {A B} (f : A -> res B) l r :
  map_res f l = Ok r -> length r = length l.
Proof.
  revert r; induction l as [|x l IH]; intros r; cbn [map_res].
  - intros E; injection E as <-; reflexivity.
  - destruct (f x); cbn [bind]; [|discriminate].
    destruct (map_res f l) as [r'|]; cbn [bind]; [|discriminate].
    intros E; injection E as <-; cbn [length]; f_equal; apply IH; reflexivity.
Qed.

Lemma map_res_nth {A B} (f : A -> res B) l r i x :
  map_res f l = Ok r -> nth_error l i = Some x ->
  exists y, nth_error r i = Some y /\ f x = Ok y.
Proof.
  revert r i; induction l as [|a l IH]; intros r i; cbn [map_res].
  - intros _ H; destruct i; discriminate H.
  - destruct (f a) as [y|] eqn:Fa; cbn [bind]; [|discriminate].
    destruct (map_res f l) as [r'|]; cbn [bind]; [|discriminate].
    intros E; injection E as <-; destruct i as [|i]; cbn [nth_error]; intros H.
    + injection H as <-; exists y; split; [reflexivity|exact Fa].
    + apply IH; [reflexivity|exact H].
Qed.
