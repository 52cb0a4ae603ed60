(** GraphExample.v -- objects for examples: landmarks are the vertices of a graph, at distance 1
    along edges and 2 otherwise, all classes live from 1 to 2; and a solver of integer programs
    that meets all contracts. *)
From Coq Require Import Sorted Permutation Relations Cantor.
From Verif Require Import Base BaseProofs CombinatorialModel SpecSimplex CombinatorialProofs Argsort
  DeltaModel SpecRips RipsProofs DeltaProofs DeltaFacts RealBase RealSum SpecRepair RepairModel RepairProofs
  EMModel SpecEM EMProofs CircleModel SpecCircle CircleProofs
  CohomologyModel SpecCohomology CohomologyProofs ToroidalModel SpecToroidal ToroidalProofs ToroidalFacts.
Local Open Scope R_scope.

Definition adj (E : list (nat * nat)) (i j : nat) : bool :=
  existsb (fun e => ((fst e =? i) && (snd e =? j) || (fst e =? j) && (snd e =? i))%nat) E.
Definition graph_dist (E : list (nat * nat)) (i j : nat) : R := if (i =? j)%nat then 0 else if adj E i j then 1 else 2.
Definition graph (n : nat) (E : list (nat * nat)) (p : Z) (cs : list cocycle) : tor :=
  let dm := mk2 n n (graph_dist E) in
  mkTor (mkEM p [[]; repeat (1, 2) (length cs)] (map Z.of_nat (seq 0 n)) n dm 0 dm [[]; cs] None None)
    (combinatorial_number_system_table n 2) None None None.
(** The cocycle with the given values on edges. *)
Definition edges_cocycle (l : list (nat * nat * Z)) : cocycle :=
  mkCocycle 1 (map (fun e => ([Z.of_nat (fst (fst e)); Z.of_nat (snd (fst e))], snd e)) l).

Section Graph.
Variables (n : nat) (E : list (nat * nat)) (p : Z) (cs : list cocycle).
Notation dm := (mk2 n n (graph_dist E)).
Lemma adj_sym i j : adj E i j = adj E j i.
Proof. unfold adj. induction E as [|e l IH]; cbn [existsb]; [reflexivity|]. rewrite IH. f_equal. apply orb_comm. Qed.
Lemma dist_sym i j : graph_dist E i j = graph_dist E j i.
Proof. unfold graph_dist. rewrite Nat.eqb_sym, adj_sym. reflexivity. Qed.
Lemma graph_entry i j d : entry dm i j d <-> (i < n)%nat /\ (j < n)%nat /\ d = graph_dist E i j.
Proof.
  split.
  - intros (row & E1 & E2). unfold mk2 in E1. rewrite nth_error_map in E1. destruct (nth_error (seq 0 n) i) as [i'|] eqn:Ei; [|discriminate]. injection E1 as <-.
    rewrite nth_error_map in E2. destruct (nth_error (seq 0 n) j) as [j'|] eqn:Ej; [|discriminate]. injection E2 as <-.
    assert (Hi : (i < n)%nat) by (rewrite <- (seq_length n 0); apply nth_error_Some; congruence).
    assert (Hj : (j < n)%nat) by (rewrite <- (seq_length n 0); apply nth_error_Some; congruence).
    apply nth_error_nth with (d := 0%nat) in Ei, Ej. rewrite seq_nth in Ei, Ej by assumption. subst. auto.
  - intros (Hi & Hj & ->). exists (mk1 n (graph_dist E i)). split.
    + rewrite <- (nth_mk2_row n n) by exact Hi. apply nth_error_nth'. rewrite length_mk2. exact Hi.
    + rewrite <- (nth_mk1 n (graph_dist E i) j 0 Hj). apply nth_error_nth'. unfold mk1. rewrite map_length, seq_length. exact Hj.
Qed.
Lemma graph_consistent : (1 <= n <= 2345)%nat -> (2 <= p)%Z -> Forall (edge_cocycle n) cs -> consistent (graph n E p cs) n n.
Proof.
  intros Hn Hp F. pose proof (matrix_mk2 n n (graph_dist E)) as M.
  constructor; cbn [graph t_em t_table em_n_landmarks em_dist_land_land em_dist_land_data em_prime em_dgms em_cocycles]; try assumption; try reflexivity.
  - intros i b d H. apply graph_entry in H as (_ & _ & ->). unfold graph_dist. destruct (i =? b)%nat, (adj E i b); lra.
  - exists n. split; [lia|reflexivity].
  - exists (repeat (1, 2) (length cs)), cs. do 2 (split; [reflexivity|]). split; [symmetry; apply repeat_length|exact F].
Qed.
Lemma graph_metric : metric (graph n E p cs).
Proof.
  split; cbn [graph t_em em_dist_land_land em_dist_land_data].
  - intros i j d H. apply graph_entry in H as (Hi & Hj & ->). apply graph_entry. rewrite dist_sym. auto.
  - intros i j b d d1 d2 H H1 H2. apply graph_entry in H as (Hi & Hj & ->). apply graph_entry in H1 as (_ & Hb & ->). apply graph_entry in H2 as (_ & _ & ->).
    unfold graph_dist. destruct (Nat.eqb_spec i j), (Nat.eqb_spec i b), (Nat.eqb_spec j b); try lia; subst;
      try rewrite (adj_sym j b) in *; repeat match goal with |- context [adj E ?u ?v] => destruct (adj E u v) eqn:? end; try lra; congruence.
Qed.
Lemma graph_class k c : nth_error cs k = Some c -> class_of (graph n E p cs) (PyInt (Z.of_nat k)) 1 2 c.
Proof.
  intros H. assert (Hk : (k < length cs)%nat) by (apply nth_error_Some; congruence). apply em_class1.
  rewrite (rep_ok (t_em (graph n E p cs)) (repeat (1, 2) (length cs)) cs _ eq_refl eq_refl ltac:(symmetry; apply repeat_length)).
  assert (Ep : class_pos (length cs) (PyInt (Z.of_nat k)) = Some k).
  { unfold class_pos, pos. destruct (Z.leb_spec 0 (Z.of_nat k)); [|lia]. destruct (Z.ltb_spec (Z.of_nat k) (Z.of_nat (length cs))); [|lia]. cbn [andb]. rewrite Nat2Z.id. reflexivity. }
  rewrite Ep. f_equal. f_equal; [|apply nth_error_nth, H].
  assert (Hr : forall m k d, (k < m)%nat -> nth k (repeat (1, 2) m) d = (1, 2)).
  { clear. induction m as [|m IH]; intros [|k] d Hk; cbn; try lia; [reflexivity|]. apply IH; lia. }
  apply Hr, Hk.
Qed.
Lemma graph_close t i j : 1 < t <= 2 -> i <> j -> (close Rltb dm t i j <-> (i < n)%nat /\ (j < n)%nat /\ adj E i j = true).
Proof.
  intros Ht Hij. split.
  - intros (row & d & E1 & E2 & L). apply Rltb_true in L. destruct (proj1 (graph_entry i j d)) as (Hi & Hj & ->); [exists row; auto|].
    unfold graph_dist in L. destruct (Nat.eqb_spec i j); [contradiction|]. destruct (adj E i j); [auto|lra].
  - intros (Hi & Hj & A). destruct (proj2 (graph_entry i j 1)) as (row & E1 & E2).
    { split; [exact Hi|]. split; [exact Hj|]. unfold graph_dist. rewrite A. destruct (Nat.eqb_spec i j); [contradiction|reflexivity]. }
    exists row, 1. split; [exact E1|]. split; [exact E2|]. apply Rltb_true; lra.
Qed.
(** The triangles of the complex are the cliques of the graph. *)
Definition cliques : list (nat * nat * nat) :=
  filter (fun s => (fst (fst s) <? snd (fst s))%nat && (snd (fst s) <? snd s)%nat && adj E (fst (fst s)) (snd (fst s)) && adj E (snd (fst s)) (snd s) && adj E (fst (fst s)) (snd s))
    (list_prod (list_prod (seq 0 n) (seq 0 n)) (seq 0 n)).
Lemma graph_triangle t i j k : 1 < t <= 2 -> (rips Rltb dm t 2 [i; j; k] <-> In (i, j, k) cliques).
Proof.
  intros Ht. unfold cliques. rewrite filter_In, !in_prod_iff, !in_seq. cbn [fst snd]. rewrite !andb_true_iff, !Nat.ltb_lt. split.
  - intros Hr. destruct (rips_triangle _ _ _ _ _ Hr) as [H1 H2]. rewrite length_mk2 in H2. destruct Hr as [_ Hd].
    inversion Hd as [|? ? F1 F2]; subst. inversion F2 as [|? ? F3 _]; subst. rewrite Forall_forall in F1, F3.
    pose proof (F1 j (or_introl eq_refl)) as C1. pose proof (F1 k (or_intror (or_introl eq_refl))) as C2. pose proof (F3 k (or_introl eq_refl)) as C3.
    apply graph_close in C1, C2, C3; try assumption; try lia. intuition lia.
  - intros (((H1 & H2) & H3) & (((H4 & H5) & A1) & A2) & A3). split.
    + split; [reflexivity|]. rewrite length_mk2. split; repeat constructor; lia.
    + repeat constructor; apply graph_close; try assumption; lia || (repeat split; try lia; assumption).
Qed.
(** A cochain is a cocycle if a computation over the cliques says so. *)
Lemma graph_cocycle t (P : Z -> Prop) (Pb : Z -> bool) eta : 1 < t <= 2 -> (forall v, Pb v = true -> P v) ->
  forallb (fun s => Pb (eta (fst (fst s)) (snd (fst s)) + eta (snd (fst s)) (snd s) - eta (fst (fst s)) (snd s))%Z) cliques = true ->
  cocycle_on dm t P eta.
Proof.
  intros Ht HP H i j k Hr. apply (graph_triangle t i j k Ht) in Hr. rewrite forallb_forall in H. apply HP, (H _ Hr).
Qed.
End Graph.

(** ** A sound and complete solver: try all integer vectors *)
Definition int_of_nat (m : nat) : Z := let (a, b) := of_nat m in (Z.of_nat a - Z.of_nat b)%Z.
Fixpoint int_vector (m : nat) (code : nat) : list Z :=
  match m with O => [] | S m => let (a, b) := of_nat code in int_of_nat a :: int_vector m b end.
Lemma int_vector_length m : forall code, length (int_vector m code) = m.
Proof. induction m as [|m IH]; intros code; [reflexivity|]. cbn [int_vector]. destruct (of_nat code) as [a b]. cbn [length]. rewrite IH; reflexivity. Qed.
Lemma int_vector_onto v : exists code, int_vector (length v) code = v.
Proof.
  induction v as [|z v [code IH]]; [exists 0%nat; reflexivity|].
  exists (to_nat (to_nat (Z.to_nat z, Z.to_nat (- z)), code)). cbn [length int_vector]. rewrite cancel_of_to. f_equal; [|exact IH].
  unfold int_of_nat. rewrite cancel_of_to. lia.
Qed.
Definition solves (M : sparse) (y k : list Z) : bool :=
  match matvec (K := Zring) M k with Ok w => if list_eq_dec Z.eq_dec w y then true else false | Raise _ => false end.
Definition exhaustive_milp : milp_solver := fun M y =>
  match ClassicalDedekindReals.sig_forall_dec (fun code => solves M y (int_vector (s_cols M) code) = false) (fun code => bool_dec _ _) with
  | inleft (exist _ code _) => Some (map IZR (int_vector (s_cols M) code))
  | inright _ => None
  end.

Lemma exhaustive_complete : complete_milp exhaustive_milp.
Proof.
  intros M y k H L E. unfold exhaustive_milp in H. destruct (ClassicalDedekindReals.sig_forall_dec _ _) as [[code _]|N]; [discriminate|].
  destruct (int_vector_onto k) as [code Ec]. specialize (N code). rewrite <- L, Ec in N. unfold solves in N. rewrite E in N.
  destruct (list_eq_dec Z.eq_dec y y) as [|Ny]; [discriminate|apply Ny; reflexivity].
Qed.
Lemma exhaustive_sound : sound_milp 0 0 exhaustive_milp.
Proof.
  intros M y x H. unfold exhaustive_milp in H. destruct (ClassicalDedekindReals.sig_forall_dec _ _) as [[code Hc]|]; [|discriminate]. injection H as <-.
  set (k := int_vector (s_cols M) code) in *. assert (Lk : length k = s_cols M) by apply int_vector_length.
  unfold solves in Hc. destruct (matvec (K := Zring) M k) as [w|] eqn:Ew; [|contradiction]. destruct (list_eq_dec Z.eq_dec w y) as [->|]; [|contradiction]. clear Hc.
  split; [rewrite map_length; exact Lk|]. split.
  - apply Forall_forall. intros v Hv. apply in_map_iff in Hv as (z & <- & _). exists z. rewrite Rminus_diag_eq, Rabs_R0 by reflexivity. lra.
  - assert (Lx : length (map IZR k) = s_cols M) by (rewrite map_length; exact Lk).
    destruct (matvec_ok (K := Rring) M (map IZR k) Lx) as (u & Eu & Lu & Hu). destruct (matvec_ok (K := Zring) M k Lk) as (w & Ew' & Lw & Hw).
    rewrite Ew in Ew'. apply Ok_inj in Ew'. subst w. exists u. split; [exact Eu|]. apply Forall2_nth_error. split; [exact (eq_trans Lu (eq_sym Lw))|].
    intros r a b Ea Eb. change (carrier Rring) with R in *; change (carrier Zring) with Z in *.
    assert (Hr : (r < s_rows M)%nat) by (rewrite <- Lu; apply nth_error_Some; rewrite Ea; discriminate). rewrite Hu in Ea by exact Hr. rewrite Hw in Eb by exact Hr. injection Ea as <-. injection Eb as <-.
    pose proof (row_val_near (filter (fun e => (fst (fst e) =? r)%nat) (s_entries M)) (map IZR k) k 0) as Q. rewrite Rmult_0_r in Q. apply Q.
    intros c. rewrite nth_map_IZR. rewrite Rminus_diag_eq, Rabs_R0 by reflexivity. lra.
Qed.
