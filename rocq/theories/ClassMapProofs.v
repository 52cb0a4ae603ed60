(** ClassMapProofs.v -- lemmas about the class maps of ProjectiveCoords and LensCoords. *)
From Coq Require Import Permutation.
From Verif Require Import Base BaseProofs CohomologyModel CohomologyProofs EMModel SpecEM EMProofs PropEM CircleProofs RealSum
  ComplexBase PPCAModel SpecPPCA PPCAProofs ClassMapModel SpecClassMap.
Import ListNotations.
Local Open Scope R_scope.

(** ** Powers *)
Lemma cinv_unit z : cabs2 z = 1 -> cinv z = conj z.
Proof. intros H; unfold cinv; rewrite H, Rinv_1; csolve. Qed.
Lemma cpow_add z n m : cpow z (n + m) = cmul (cpow z n) (cpow z m).
Proof. induction n as [|n IH]; cbn [cpow Nat.add]; [ring|rewrite IH; ring]. Qed.
Lemma cpow_unit_inv z n : cabs2 z = 1 -> cmul (cpow z n) (cpow (conj z) n) = c1.
Proof.
  intros H. induction n as [|n IH]; cbn [cpow]; [ring|].
  transitivity (cmul (cmul z (conj z)) (cmul (cpow z n) (cpow (conj z) n))); [ring|]. rewrite IH, conj_unit by exact H. ring.
Qed.
Lemma cpowZ_nat z n : cpowZ z (Z.of_nat n) = cpow z n.
Proof. unfold cpowZ. destruct (Z.ltb_spec (Z.of_nat n) 0); [lia|]. rewrite Nat2Z.id; reflexivity. Qed.
Lemma cpowZ_neg z n : cabs2 z = 1 -> cpowZ z (- Z.of_nat n) = cpow (conj z) n.
Proof.
  intros H. unfold cpowZ. destruct (Z.ltb_spec (- Z.of_nat n) 0) as [L|L].
  - rewrite cinv_unit by exact H. f_equal; lia.
  - assert (n = 0%nat) as -> by lia. reflexivity.
Qed.
Lemma cpowZ_succ z v : cabs2 z = 1 -> cpowZ z (v + 1) = cmul z (cpowZ z v).
Proof.
  intros H. destruct (Z_lt_le_dec v 0) as [L|L].
  - replace v with (- Z.of_nat (S (Z.to_nat (- v - 1))))%Z by lia. set (n := Z.to_nat (- v - 1)).
    replace (- Z.of_nat (S n) + 1)%Z with (- Z.of_nat n)%Z by lia. rewrite !cpowZ_neg by exact H. cbn [cpow].
    transitivity (cmul (cmul z (conj z)) (cpow (conj z) n)); [rewrite conj_unit by exact H; ring|ring].
  - replace v with (Z.of_nat (Z.to_nat v)) by lia. replace (Z.of_nat (Z.to_nat v) + 1)%Z with (Z.of_nat (S (Z.to_nat v))) by lia.
    rewrite !cpowZ_nat. reflexivity.
Qed.
Lemma cpowZ_pred z v : cabs2 z = 1 -> cpowZ z (v - 1) = cmul (conj z) (cpowZ z v).
Proof.
  intros H. pose proof (cpowZ_succ z (v - 1) H) as E. replace (v - 1 + 1)%Z with v in E by lia. rewrite E.
  transitivity (cmul (cmul z (conj z)) (cpowZ z (v - 1))); [rewrite conj_unit by exact H; ring|ring].
Qed.
Lemma cpowZ_add z a b : cabs2 z = 1 -> cpowZ z (a + b) = cmul (cpowZ z a) (cpowZ z b).
Proof.
  intros H. revert a. apply Z.bi_induction.
  - intros x y ->; tauto.
  - cbn [Z.add]. change (cpowZ z 0) with c1. ring.
  - intros a; replace (Z.succ a + b)%Z with (a + b + 1)%Z by lia; replace (Z.succ a) with (a + 1)%Z by lia. rewrite !cpowZ_succ by exact H.
    split; intros E; [rewrite E; ring|]. transitivity (cmul (conj z) (cmul z (cpowZ z (a + b)))).
    + transitivity (cmul (cmul z (conj z)) (cpowZ z (a + b))); [rewrite conj_unit by exact H; ring|ring].
    + rewrite E. transitivity (cmul (cmul z (conj z)) (cmul (cpowZ z a) (cpowZ z b))); [ring|rewrite conj_unit by exact H; ring].
Qed.
Lemma cpowZ_opp z a : cabs2 z = 1 -> cmul (cpowZ z a) (cpowZ z (- a)) = c1.
Proof. intros H. rewrite <- cpowZ_add, Z.add_opp_diag_r by exact H. reflexivity. Qed.
Lemma cabs2_cpow z n : cabs2 z = 1 -> cabs2 (cpow z n) = 1.
Proof. intros H; induction n as [|n IH]; cbn [cpow]; [unfold cabs2, c1; cbn; ring|rewrite cabs2_mul, H, IH; ring]. Qed.
Lemma cabs2_cpowZ z v : cabs2 z = 1 -> cabs2 (cpowZ z v) = 1.
Proof.
  intros H. unfold cpowZ. destruct (v <? 0)%Z; apply cabs2_cpow; [rewrite cinv_unit, cabs2_conj by exact H|]; exact H.
Qed.
Lemma cpowZ_mul z a b : cabs2 z = 1 -> cpowZ (cpowZ z a) b = cpowZ z (a * b).
Proof.
  intros H. pose proof (cabs2_cpowZ z a H) as Ha. revert b. apply Z.bi_induction.
  - intros x y ->; tauto.
  - rewrite Z.mul_0_r; reflexivity.
  - intros b. replace (Z.succ b) with (b + 1)%Z by lia. rewrite cpowZ_succ by exact Ha. replace (a * (b + 1))%Z with (a + a * b)%Z by lia.
    rewrite cpowZ_add by exact H. split; intros E; [rewrite E; reflexivity|].
    assert (Q : forall x y, cmul (cpowZ z a) x = cmul (cpowZ z a) y -> x = y).
    { intros x y Exy. transitivity (cmul (cpowZ z (- a)) (cmul (cpowZ z a) x)); [transitivity (cmul (cmul (cpowZ z a) (cpowZ z (- a))) x); [rewrite cpowZ_opp by exact H; ring|ring]|].
      rewrite Exy. transitivity (cmul (cmul (cpowZ z a) (cpowZ z (- a))) y); [ring|rewrite cpowZ_opp by exact H; ring]. }
    apply Q; exact E.
Qed.
Lemma cpowZ_1 v : cpowZ c1 v = c1.
Proof.
  assert (P : forall n, cpow c1 n = c1) by (induction n as [|n IH]; cbn [cpow]; [reflexivity|rewrite IH; ring]).
  assert (I : cinv c1 = c1) by (rewrite cinv_unit; [apply conj_1|unfold cabs2, c1; cbn; ring]).
  unfold cpowZ. rewrite I. destruct (v <? 0)%Z; apply P.
Qed.
Lemma cpowZ_divide z p a b : cabs2 z = 1 -> cpowZ z p = c1 -> (p | a - b)%Z -> cpowZ z a = cpowZ z b.
Proof.
  intros H Hp [q E]. replace a with (b + p * q)%Z by lia. rewrite cpowZ_add, <- cpowZ_mul, Hp, cpowZ_1 by exact H. ring.
Qed.
Lemma cpow_cis x n : cpow (cis x) n = cis (INR n * x).
Proof.
  induction n as [|n IH]; [cbn [cpow]; rewrite Rmult_0_l, cis_0; reflexivity|]. cbn [cpow]. rewrite IH, S_INR, <- cis_add. f_equal; ring.
Qed.
Lemma cpowZ_cis x v : cpowZ (cis x) v = cis (IZR v * x).
Proof.
  destruct (Z_lt_le_dec v 0) as [L|L].
  - replace v with (- Z.of_nat (Z.to_nat (- v)))%Z by lia. rewrite cpowZ_neg by apply cabs2_cis. rewrite <- cis_opp, cpow_cis, opp_IZR, <- INR_IZR_INZ. f_equal; ring.
  - replace v with (Z.of_nat (Z.to_nat v)) by lia. rewrite cpowZ_nat, cpow_cis, <- INR_IZR_INZ. reflexivity.
Qed.
Lemma lens_root_unit p : cabs2 (lens_root p) = 1.
Proof. apply cabs2_cis. Qed.
Lemma lens_root_order p : (1 <= p)%Z -> cpowZ (lens_root p) p = c1.
Proof.
  intros Hp. unfold lens_root. rewrite cpowZ_cis. replace (IZR p * (2 * PI / IZR p)) with (2 * PI * IZR 1).
  - apply cis_2PI.
  - field. apply not_0_IZR; lia.
Qed.
Lemma minus_one_unit : cabs2 minus_one = 1.
Proof. unfold cabs2, minus_one; cbn [fst snd]; ring. Qed.
Lemma minus_one_order : cpowZ minus_one 2 = c1.
Proof. change (cpowZ minus_one 2) with (cmul minus_one (cmul minus_one c1)). unfold minus_one; csolve. Qed.

(** ** Writing into a matrix *)
Lemma set2_ok {A} n (M : list (list A)) i j x d : matrix n n M -> (0 <= i < Z.of_nat n)%Z -> (0 <= j < Z.of_nat n)%Z ->
  exists M', set2 M i j x = Ok M' /\ matrix n n M' /\ at2 d M' (Z.to_nat i) (Z.to_nat j) = x /\
    (forall a b, (a <> Z.to_nat i \/ b <> Z.to_nat j) -> at2 d M' a b = at2 d M a b).
Proof.
  intros [L F] Hi Hj. unfold set2. rewrite (np_get_ok M i []) by lia. cbn [bind].
  set (row := nth (Z.to_nat i) M []). assert (Lr : length row = n) by (rewrite Forall_forall in F; apply F, nth_In; lia).
  rewrite np_set_ok by lia. destruct (set_at_ok IndexError row (Z.to_nat j) x ltac:(lia)) as (row' & -> & L1 & N1 & O1 & _). cbn [bind].
  rewrite np_set_ok by lia. destruct (set_at_ok IndexError M (Z.to_nat i) row' ltac:(lia)) as (M' & -> & L2 & N2 & O2 & _).
  exists M'. split; [reflexivity|]. split; [|split].
  - split; [lia|]. apply Forall_forall; intros r Hr. apply In_nth_error in Hr. destruct Hr as [k Hk].
    destruct (Nat.eq_dec k (Z.to_nat i)) as [->|Ne]; [rewrite N2 in Hk; injection Hk as <-; lia|].
    rewrite O2 in Hk by exact Ne. rewrite Forall_forall in F; apply F, (nth_error_In _ _ Hk).
  - unfold at2. rewrite (nth_error_nth _ _ [] N2), (nth_error_nth _ _ d N1); reflexivity.
  - intros a b H. unfold at2. destruct (Nat.eq_dec a (Z.to_nat i)) as [->|Ne].
    + rewrite (nth_error_nth _ _ [] N2). fold row. destruct H as [H|H]; [congruence|].
      specialize (O1 b H). destruct (nth_error row b) as [y|] eqn:E.
      * rewrite (nth_error_nth _ _ d O1), (nth_error_nth _ _ d E); reflexivity.
      * apply nth_error_None in O1, E. rewrite !nth_overflow by assumption; reflexivity.
    + specialize (O2 a Ne). destruct (nth_error M a) as [y|] eqn:E.
      * rewrite (nth_error_nth _ _ [] O2), (nth_error_nth _ _ [] E); reflexivity.
      * apply nth_error_None in O2, E. rewrite !(nth_overflow _ []) by assumption; reflexivity.
Qed.
Definition in_range (n : nat) (v : Z) : Prop := (0 <= v < Z.of_nat n)%Z.
Lemma write_all {A} n d (body : Z * Z * A -> list (list A) -> res (list (list A))) :
  (forall u v x M, body (u, v, x) M = set2 M u v x) ->
  forall (l : list (Z * Z * A)) M, matrix n n M -> Forall (fun e => in_range n (fst (fst e)) /\ in_range n (snd (fst e))) l ->
  exists M', for_in l body M = Ok M' /\ matrix n n M' /\
    forall i j, (exists x, In (Z.of_nat i, Z.of_nat j, x) l /\ at2 d M' i j = x) \/
                ((forall x, ~ In (Z.of_nat i, Z.of_nat j, x) l) /\ at2 d M' i j = at2 d M i j).
Proof.
  intros Hb l. induction l as [|[[u v] x] l IH]; intros M HM F; cbn [for_in].
  - exists M. split; [reflexivity|]. split; [exact HM|]. intros i j; right; split; [tauto|reflexivity].
  - inversion F as [|? ? [Hu Hv] F']; subst. cbn [fst snd] in *. rewrite Hb. destruct (set2_ok n M u v x d HM Hu Hv) as (M1 & -> & HM1 & E1 & O1). cbn [bind].
    destruct (IH M1 HM1 F') as (M' & E & HM' & H). exists M'. split; [exact E|]. split; [exact HM'|]. intros i j.
    destruct (H i j) as [(y & Hy & Ey)|[Hn Ey]].
    + left; exists y; split; [right; exact Hy|exact Ey].
    + destruct (Z.eq_dec (Z.of_nat i) u) as [Eu|Nu]; [destruct (Z.eq_dec (Z.of_nat j) v) as [Ev|Nv]|].
      * left; exists x; split; [left; congruence|]. rewrite Ey. replace i with (Z.to_nat u) by lia. replace j with (Z.to_nat v) by lia. exact E1.
      * right. split; [intros y [Q|Q]; [congruence|exact (Hn y Q)]|]. rewrite Ey. apply O1. right. intros Q; apply Nv; unfold in_range in Hv; lia.
      * right. split; [intros y [Q|Q]; [congruence|exact (Hn y Q)]|]. rewrite Ey. apply O1. left. intros Q; apply Nu; unfold in_range in Hu; lia.
Qed.

(** ** The matrix of transition constants *)
Definition row_of (c : cocycle) (u v : Z) : option (list Z * Z) :=
  find (fun row => if list_eq_dec Z.eq_dec (fst row) [u; v] then true else false) (c_rows c).
Lemma row_of_some c u v row : row_of c u v = Some row -> In row (c_rows c) /\ fst row = [u; v].
Proof. intros E; apply find_some in E. destruct E as [I E]; split; [exact I|]. destruct (list_eq_dec Z.eq_dec (fst row) [u; v]); [assumption|discriminate]. Qed.
Lemma row_of_none c u v w : row_of c u v = None -> ~ In ([u; v], w) (c_rows c).
Proof. intros E I. pose proof (find_none _ _ E _ I) as Q. cbn [fst] in Q. destruct (list_eq_dec Z.eq_dec [u; v] [u; v]); congruence. Qed.
Definition eta_of (c : cocycle) (i j : nat) : Z :=
  match row_of c (Z.of_nat i) (Z.of_nat j) with
  | Some row => snd row
  | None => match row_of c (Z.of_nat j) (Z.of_nat i) with Some row => (- snd row)%Z | None => 0%Z end
  end.
Lemma rows_distinct n d c r r' : simplex_cocycle n d c -> In r (c_rows c) -> In r' (c_rows c) -> Permutation (fst r) (fst r') -> r = r'.
Proof.
  intros (_ & _ & F) H H' P. destruct (ForallOrdPairs_In F r r' H H') as [E|[E|E]]; [exact E|contradiction|]. exfalso; apply E, Permutation_sym, P.
Qed.
Lemma not_both n c u v w w' : simplex_cocycle n 1 c -> In ([u; v], w) (c_rows c) -> In ([v; u], w') (c_rows c) -> False.
Proof.
  intros S H H'. assert (E : ([u; v], w) = ([v; u], w')) by (apply (rows_distinct n 1 c _ _ S H H'); apply perm_swap).
  injection E as E _ _. subst v. destruct S as (_ & F & _). rewrite Forall_forall in F. destruct (F _ H) as (_ & N & _). cbn [fst] in N. inversion N as [|? ? Q _]; apply Q; left; reflexivity.
Qed.
Lemma eta_values n c : simplex_cocycle n 1 c -> edge_values c n (eta_of c).
Proof.
  intros S. split; [|split].
  - intros i j. unfold eta_of. destruct (row_of c (Z.of_nat i) (Z.of_nat j)) as [[vs w]|] eqn:E1; destruct (row_of c (Z.of_nat j) (Z.of_nat i)) as [[vs' w']|] eqn:E2; cbn [snd]; try lia.
    apply row_of_some in E1, E2. cbn [fst] in E1, E2. destruct E1 as [I1 ->], E2 as [I2 ->]. exfalso; exact (not_both n c _ _ _ _ S I1 I2).
  - intros i j v _ _ I. unfold eta_of. destruct (row_of c (Z.of_nat i) (Z.of_nat j)) as [row|] eqn:E.
    + apply row_of_some in E. destruct E as [I' E]. assert (Q : row = ([Z.of_nat i; Z.of_nat j], v)) by (apply (rows_distinct n 1 c _ _ S I' I); cbn [fst]; rewrite E; apply Permutation_refl).
      rewrite Q; reflexivity.
    + exfalso; exact (row_of_none _ _ _ _ E I).
  - intros i j _ _ H1 H2. unfold eta_of. destruct (row_of c (Z.of_nat i) (Z.of_nat j)) as [[vs w]|] eqn:E1.
    + apply row_of_some in E1. destruct E1 as [I E]. cbn [fst] in E; subst vs. exfalso; exact (H1 w I).
    + destruct (row_of c (Z.of_nat j) (Z.of_nat i)) as [[vs w]|] eqn:E2; [|reflexivity].
      apply row_of_some in E2. destruct E2 as [I E]. cbn [fst] in E; subst vs. exfalso; exact (H2 w I).
Qed.
Lemma edge_values_unique c n eta eta' : edge_values c n eta -> edge_values c n eta' -> forall i j, (i < n)%nat -> (j < n)%nat -> eta i j = eta' i j.
Proof.
  intros (A & V & Z0) (A' & V' & Z0') i j Hi Hj.
  destruct (row_of c (Z.of_nat i) (Z.of_nat j)) as [[vs w]|] eqn:E1.
  - apply row_of_some in E1. destruct E1 as [I E]. cbn [fst] in E; subst vs. rewrite (V i j w), (V' i j w) by assumption; reflexivity.
  - destruct (row_of c (Z.of_nat j) (Z.of_nat i)) as [[vs w]|] eqn:E2.
    + apply row_of_some in E2. destruct E2 as [I E]. cbn [fst] in E; subst vs. rewrite (A j i), (A' j i), (V j i w), (V' j i w) by assumption; reflexivity.
    + rewrite Z0, Z0'; try assumption; try reflexivity; intros w; apply row_of_none; assumption.
Qed.
Definition edges_of (c : cocycle) : list (Z * Z * Z) := map (fun row => (nth 0 (fst row) 0%Z, nth 1 (fst row) 0%Z, snd row)) (c_rows c).
Lemma edges_ok n c : simplex_cocycle n 1 c -> map_res edge_row (c_rows c) = Ok (edges_of c).
Proof.
  intros (_ & F & _). apply map_res_ok. intros [vs w] I. rewrite Forall_forall in F. destruct (F _ I) as (L & _). cbn [fst snd] in *.
  destruct vs as [|u [|v [|? ?]]]; try discriminate L. reflexivity.
Qed.
Lemma edges_in n c u v w : simplex_cocycle n 1 c -> (In (u, v, w) (edges_of c) <-> In ([u; v], w) (c_rows c)).
Proof.
  intros (_ & F & _). unfold edges_of. rewrite in_map_iff. rewrite Forall_forall in F. split.
  - intros ([vs x] & E & I). destruct (F _ I) as (L & _). cbn [fst snd] in *. destruct vs as [|a [|b [|? ?]]]; try discriminate L. cbn [nth] in E. injection E as <- <- <-. exact I.
  - intros I. exists ([u; v], w). split; [reflexivity|exact I].
Qed.
Lemma edges_range n c : simplex_cocycle n 1 c -> forall u v w, In (u, v, w) (edges_of c) -> in_range n u /\ in_range n v.
Proof.
  intros S u v w I. apply (edges_in n c u v w S) in I. destruct S as (_ & F & _). rewrite Forall_forall in F. destruct (F _ I) as (_ & _ & R). cbn [fst] in R.
  inversion R as [|? ? R1 R']; subst. inversion R' as [|? ? R2 _]; subst. split; assumption.
Qed.
Lemma cocycle_matrix_ok n c root power ipower : simplex_cocycle n 1 c -> cabs2 root = 1 ->
  (forall row, In row (c_rows c) -> power (snd row) = Ok (cpowZ root (snd row))) -> (forall k, ipower k = cpowZ root (- k)) ->
  exists M, cocycle_matrix power ipower n c = Ok M /\ matrix n n M /\
    forall i j, (i < n)%nat -> (j < n)%nat -> at2 c0 M i j = cpowZ root (eta_of c i j).
Proof.
  intros S Hr Hp Hi. unfold cocycle_matrix. rewrite (edges_ok n c S). cbn [bind].
  assert (Ep : map_res (fun r => power (snd r)) (edges_of c) = Ok (map (fun r => cpowZ root (snd r)) (edges_of c))).
  { apply map_res_ok. intros [[u v] w] I. apply (edges_in n c u v w S) in I. exact (Hp _ I). }
  rewrite Ep. cbn [bind].
  set (l1 := map (fun r => (fst (fst r), snd (fst r), cpowZ root (snd r))) (edges_of c)).
  set (l2 := map (fun r => (snd (fst r), fst (fst r), cpowZ root (- snd r))) (edges_of c)).
  assert (B1 : forall M0, for_in (combine (edges_of c) (map (fun r => cpowZ root (snd r)) (edges_of c))) (fun rv m => let '(u, v, _, x) := rv in set2 m u v x) M0 =
    for_in l1 (fun e m => let '(u, v, x) := e in set2 m u v x) M0).
  { unfold l1. clear. induction (edges_of c) as [|[[u v] w] l IH]; intros M0; [reflexivity|]. cbn [combine map for_in fst snd]. destruct (set2 M0 u v (cpowZ root w)); cbn [bind]; [apply IH|reflexivity]. }
  assert (B2 : forall M0, for_in (edges_of c) (fun r m => let '(u, v, k) := r in set2 m v u (ipower k)) M0 =
    for_in l2 (fun e m => let '(u, v, x) := e in set2 m u v x) M0).
  { unfold l2. clear -Hi. induction (edges_of c) as [|[[u v] w] l IH]; intros M0; [reflexivity|]. cbn [map for_in fst snd]. rewrite Hi. destruct (set2 M0 v u (cpowZ root (- w))); cbn [bind]; [apply IH|reflexivity]. }
  rewrite B1. destruct (write_all n c0 (fun e m => let '(u, v, x) := e in set2 m u v x) (fun _ _ _ _ => eq_refl) l1 (mk2 n n (fun _ _ => c1)) (mk2_matrix n n _)) as (M1 & -> & HM1 & V1).
  { unfold l1. apply Forall_map, Forall_forall. intros [[u v] w] I. exact (edges_range n c S u v w I). }
  cbn [bind]. rewrite B2. destruct (write_all n c0 (fun e m => let '(u, v, x) := e in set2 m u v x) (fun _ _ _ _ => eq_refl) l2 M1 HM1) as (M2 & -> & HM2 & V2).
  { unfold l2. apply Forall_map, Forall_forall. intros [[u v] w] I. cbn [fst snd]. destruct (edges_range n c S u v w I); split; assumption. }
  exists M2. split; [reflexivity|]. split; [exact HM2|]. intros i j Hin Hjn.
  destruct (eta_values n c S) as (A & V & Z0).
  destruct (V2 i j) as [(x & I & Ex)|[N2 E2]].
  - rewrite Ex. unfold l2 in I. apply in_map_iff in I. destruct I as ([[u v] w] & E & I). cbn [fst snd] in E. injection E as Ev Eu <-.
    apply (edges_in n c u v w S) in I. subst u v. rewrite A, (V j i w) by assumption. reflexivity.
  - rewrite E2. destruct (V1 i j) as [(x & I & Ex)|[N1 E1]].
    + rewrite Ex. unfold l1 in I. apply in_map_iff in I. destruct I as ([[u v] w] & E & I). cbn [fst snd] in E. injection E as Eu Ev <-.
      apply (edges_in n c u v w S) in I. subst u v. rewrite (V i j w) by assumption. reflexivity.
    + rewrite E1, at2_mk2 by assumption. rewrite Z0; try assumption; [reflexivity| |].
      * intros w I. apply (edges_in n c _ _ _ S) in I. apply (N1 (cpowZ root w)). unfold l1. apply in_map_iff. exists (Z.of_nat i, Z.of_nat j, w). split; [reflexivity|exact I].
      * intros w I. apply (edges_in n c _ _ _ S) in I. apply (N2 (cpowZ root (- w))). unfold l2. apply in_map_iff. exists (Z.of_nat j, Z.of_nat i, w). split; [reflexivity|exact I].
Qed.

(** ** The class map *)
Lemma total_sumn (w : list R) : total w = sumn (length w) (fun i => nth i w 0).
Proof. unfold total. induction w as [|x w IH]; [reflexivity|]. cbn [fold_right length]. rewrite sumn_first, IH. reflexivity. Qed.
Lemma in_ball_lt e n N r i b : matrix n N (em_dist_land_data e) -> in_ball (em_dist_land_data e) r i b -> (i < n)%nat.
Proof. intros M (d & E & _). exact (proj1 (entry_bounds _ _ _ _ _ _ M E)). Qed.
Lemma in_ball_dec e n N r b : matrix n N (em_dist_land_data e) ->
  {i | in_ball (em_dist_land_data e) r i b} + {forall i, ~ in_ball (em_dist_land_data e) r i b}.
Proof.
  intros M. assert (D : forall i, {in_ball (em_dist_land_data e) r i b} + {~ in_ball (em_dist_land_data e) r i b}).
  { intros i. destruct (nth_error (em_dist_land_data e) i) as [row|] eqn:E1.
    - destruct (nth_error row b) as [d|] eqn:E2.
      + destruct (Rlt_dec d r) as [L|L].
        * left; exists d; split; [exists row; split; assumption|exact L].
        * right; intros (d' & (row' & F1 & F2) & Hd). rewrite E1 in F1; injection F1 as <-. rewrite E2 in F2; injection F2 as <-. contradiction.
      + right; intros (d' & (row' & F1 & F2) & Hd). rewrite E1 in F1; injection F1 as <-. congruence.
    - right; intros (d' & (row' & F1 & F2) & Hd). congruence. }
  assert (S : forall m, {i | in_ball (em_dist_land_data e) r i b} + {forall i, (i < m)%nat -> ~ in_ball (em_dist_land_data e) r i b}).
  { induction m as [|m [IH|IH]]; [right; intros; lia|left; exact IH|]. destruct (D m) as [H|H]; [left; exists m; exact H|].
    right. intros i Hi. destruct (Nat.eq_dec i m) as [->|Ne]; [exact H|apply IH; lia]. }
  destruct (S n) as [H|H]; [left; exact H|right]. intros i Hi. exact (H i (in_ball_lt e n N r i b M Hi) Hi).
Qed.
Definition weight (e : em) (r : R) (f : R -> R -> R) (t b : nat) : option R := unity_weight (em_dist_land_data e) r f t b.
Lemma weight_model e r f n N : matrix n N (em_dist_land_data e) -> (1 <= n)%nat -> forall t b, (t < n)%nat -> (b < N)%nat ->
  weight e r f t b = at2 None (fst (get_covering_partition e r f)) t b.
Proof. intros M Hn t b Ht Hb. symmetry. apply entry_at2. apply (partition_weight e r f n N M Hn t b Ht Hb). Qed.
Lemma partition_facts e r f n N : matrix n N (em_dist_land_data e) -> (1 <= n)%nat ->
  (forall i b d, entry (em_dist_land_data e) i b d -> 0 <= d) -> (forall d, 0 <= d < r -> 0 < f d r) ->
  matrix n N (fst (get_covering_partition e r f)) /\ length (snd (get_covering_partition e r f)) = N /\
  covering_choice e r n N (fun b => nth b (snd (get_covering_partition e r f)) 0%nat) /\
  forall b, (b < N)%nat ->
    ((exists i, in_ball (em_dist_land_data e) r i b) ->
       exists w : nat -> R, sumn n w = 1 /\ forall t, (t < n)%nat -> weight e r f t b = Some (w t) /\ 0 <= w t /\ (0 < w t <-> in_ball (em_dist_land_data e) r t b)) /\
    ((forall i, ~ in_ball (em_dist_land_data e) r i b) -> forall t, (t < n)%nat -> weight e r f t b = None).
Proof.
  intros M Hn Hp Hf. pose proof (C28_partition_of_unity e r f n N M Hn Hp Hf) as P.
  pose proof (weight_model e r f n N M Hn) as EW.
  destruct (get_covering_partition e r f) as [varphi ball]. cbn [fst snd]. cbv zeta in P. destruct P as (MV & LB & P).
  split; [exact MV|]. split; [exact LB|]. split.
  - intros b Hb. destruct (P b Hb) as [P1 P2]. destruct (in_ball_dec e n N r b M) as [[i Hi]|H].
    + destruct (P1 (ex_intro _ i Hi)) as (_ & k & Ek & Hk & _). rewrite (nth_error_nth _ _ 0%nat Ek). split; [exact (in_ball_lt _ _ _ _ _ _ M Hk)|intros _; exact Hk].
    + destruct (P2 H) as (_ & Ek). rewrite (nth_error_nth _ _ 0%nat Ek). split; [lia|]. intros [i Hi]; exfalso; exact (H i Hi).
  - intros b Hb. destruct (P b Hb) as [P1 P2]. split.
    + intros Hc. destruct (P1 Hc) as ((w & Lw & Tw & Hw & _) & _). exists (fun t => nth t w 0). split; [rewrite <- Tw, total_sumn, Lw; reflexivity|].
      intros t Ht. destruct (nth_error w t) as [x|] eqn:E; [|apply nth_error_None in E; lia]. rewrite (nth_error_nth _ _ 0 E).
      destruct (Hw t x E) as (H1 & H2 & H3). split; [rewrite (EW t b Ht Hb); apply entry_at2; exact H1|]. split; assumption.
    + intros H t Ht. destruct (P2 H) as (Q & _). rewrite (EW t b Ht Hb). apply entry_at2, Q, Ht.
Qed.
Lemma map_combine_seq {A B D} (f : A * B -> D) l1 l2 d1 d2 n : length l1 = n -> length l2 = n ->
  map f (combine l1 l2) = map (fun t => f (nth t l1 d1, nth t l2 d2)) (seq 0 n).
Proof.
  revert l2 n; induction l1 as [|a l1 IH]; intros [|b l2] [|n] H1 H2; try discriminate; [reflexivity|]. injection H1 as H1. injection H2 as H2.
  cbn [combine map seq nth]. f_equal. rewrite <- seq_shift, map_map. rewrite (IH l2 n H1 H2). apply map_ext; reflexivity.
Qed.
Lemma class_map_ok e r f n N root eta M : matrix n N (em_dist_land_data e) -> (1 <= n)%nat ->
  (forall i b d, entry (em_dist_land_data e) i b d -> 0 <= d) -> (forall d, 0 <= d < r -> 0 < f d r) ->
  matrix n n M -> (forall i j, (i < n)%nat -> (j < n)%nat -> at2 c0 M i j = cpowZ root (eta i j)) ->
  class_map_of (fst (get_covering_partition e r f)) (snd (get_covering_partition e r f)) M =
  Ok (root_class_map e r f n N root eta (fun b => nth b (snd (get_covering_partition e r f)) 0%nat)).
Proof.
  intros HM Hn Hp Hf [LM FM] HE. destruct (partition_facts e r f n N HM Hn Hp Hf) as ([LV FV] & LB & CC & W).
  set (varphi := fst (get_covering_partition e r f)) in *. set (ball := snd (get_covering_partition e r f)) in *.
  unfold class_map_of, root_class_map, mk2. rewrite LB. unfold range. rewrite Nat.sub_0_r. apply map_res_ok. intros b Hb. apply in_seq in Hb.
  rewrite (get_ok _ ball b 0%nat) by lia. cbn [bind]. destruct (CC b ltac:(lia)) as [Hlt _]. rewrite (get_ok _ M (nth b ball 0%nat) []) by lia. cbn [bind].
  rewrite Forall_forall in FM. assert (Lr : length (nth (nth b ball 0%nat) M []) = n) by (apply FM, nth_In; lia). rewrite Lr, LV, Nat.eqb_refl. f_equal.
  rewrite (map_combine_seq _ varphi _ [] c0 n LV Lr). apply map_ext_in. intros t Ht. apply in_seq in Ht. cbn [fst snd].
  change (nth t (nth (nth b ball 0%nat) M []) c0) with (at2 c0 M (nth b ball 0%nat) t). rewrite HE by lia.
  change (nth b (nth t varphi []) None) with (at2 None varphi t b). unfold varphi at 1. rewrite <- (weight_model e r f n N HM Hn t b) by lia. fold (weight e r f t b).
  destruct (W b ltac:(lia)) as [W1 W2]. destruct (in_ball_dec e n N r b HM) as [[i Hi]|H].
  - destruct (W1 (ex_intro _ i Hi)) as (w & _ & Hw). destruct (Hw t ltac:(lia)) as (-> & H0 & _). unfold sqrt_nan.
    destruct (Rltb (w t) 0) eqn:Q; [apply Rltb_true in Q; lra|reflexivity].
  - rewrite (W2 H t) by lia. reflexivity.
Qed.

Definition near (ll : list (list R)) (t : R) (i j : nat) : Prop := exists x, entry ll i j x /\ x < t.
Lemma triangle_mod p c ll n t eta : edge_values c n eta -> edge_cocycle_mod p c ll n t -> (forall i j x, entry ll i j x -> entry ll j i x) ->
  forall i j k, (i < n)%nat -> (j < n)%nat -> (k < n)%nat -> near ll t i j -> near ll t j k -> near ll t i k ->
  (p | eta i j + eta j k - eta i k)%Z.
Proof.
  intros V H Sy i j k Hi Hj Hk (x & Ex & Lx) (y & Ey & Ly) (z & Ez & Lz). pose proof V as (A & _ & _).
  assert (S : forall a b c' x y z, (a < b < c')%nat -> (c' < n)%nat -> entry ll a b x -> entry ll b c' y -> entry ll a c' z -> x < t -> y < t -> z < t ->
    exists q, (eta a b + eta b c' - eta a c' = q * p)%Z).
  { intros a b c' x' y' z' L1 L2 E1 E2 E3 M1 M2 M3. destruct (H eta a b c' x' y' z' V L1 L2 E1 E2 E3 M1 M2 M3) as [q Q]. exists q; exact Q. }
  assert (D : forall a, eta a a = 0%Z) by (intros a; pose proof (A a a); lia).
  pose proof (A i j). pose proof (A j k). pose proof (A i k).
  destruct (Nat.eq_dec i j) as [->|N1]; [exists 0%Z; rewrite D; lia|]. destruct (Nat.eq_dec j k) as [->|N2]; [exists 0%Z; rewrite D; lia|].
  destruct (Nat.eq_dec i k) as [->|N3]; [exists 0%Z; rewrite D; lia|].
  destruct (Nat.lt_ge_cases i j), (Nat.lt_ge_cases j k), (Nat.lt_ge_cases i k); try lia.
  - destruct (S i j k x y z) as [q Q]; auto; try lia. exists q; lia.
  - destruct (S i k j z y x) as [q Q]; auto; try lia. exists (- q)%Z; lia.
  - destruct (S k i j z x y) as [q Q]; auto; try lia. exists q; lia.
  - destruct (S j i k x z y) as [q Q]; auto; try lia. exists (- q)%Z; lia.
  - destruct (S j k i y z x) as [q Q]; auto; try lia. exists q; lia.
  - destruct (S k j i y x z) as [q Q]; auto; try lia. exists (- q)%Z; lia.
Qed.
Lemma balls_near e n N r t b i j : matrix n n (em_dist_land_land e) -> matrix n N (em_dist_land_data e) -> em_metric e -> 2 * r <= t ->
  in_ball (em_dist_land_data e) r i b -> in_ball (em_dist_land_data e) r j b -> near (em_dist_land_land e) t i j.
Proof.
  intros ML MD [_ T] Ht Hi Hj. pose proof (in_ball_lt e n N r i b MD Hi). pose proof (in_ball_lt e n N r j b MD Hj).
  destruct Hi as (d1 & E1 & L1), Hj as (d2 & E2 & L2). destruct (matrix_entry n n _ i j ML) as [x Ex]; try assumption.
  exists x. split; [exact Ex|]. pose proof (T i j b x d1 d2 Ex E1 E2). lra.
Qed.
Lemma mk2_row {A} n m (f : nat -> nat -> A) i : (i < n)%nat -> nth_error (mk2 n m f) i = Some (map (f i) (seq 0 m)).
Proof.
  intros H. unfold mk2. erewrite map_nth_error; [reflexivity|]. rewrite (nth_error_nth' (seq 0 n) 0%nat) by (rewrite seq_length; exact H). rewrite seq_nth by exact H. reflexivity.
Qed.
Lemma unit_row n (w : nat -> R) (z : nat -> C) : sumn n w = 1 -> (forall t, (t < n)%nat -> 0 <= w t) -> (forall t, (t < n)%nat -> cabs2 (z t) = 1) ->
  unit_point (map (fun t => Some (cscale (sqrt (w t)) (z t))) (seq 0 n)).
Proof.
  intros S P U. exists (map (fun t => cscale (sqrt (w t)) (z t)) (seq 0 n)). split; [rewrite map_map; reflexivity|]. rewrite map_length, seq_length, <- S.
  apply sumn_ext; intros t Ht. rewrite (nth_indep _ c0 (cscale (sqrt (w 0%nat)) (z 0%nat))) by (rewrite map_length, seq_length; exact Ht).
  rewrite (map_nth (fun t => cscale (sqrt (w t)) (z t))), seq_nth by exact Ht. cbn [Nat.add]. rewrite cabs2_scale, sqrt_sqrt, U by (auto; apply P; exact Ht). ring.
Qed.
Lemma root_rows e r f n N root eta ball : cabs2 root = 1 -> matrix n N (em_dist_land_data e) -> (1 <= n)%nat ->
  (forall i b d, entry (em_dist_land_data e) i b d -> 0 <= d) -> (forall d, 0 <= d < r -> 0 < f d r) ->
  forall b, (b < N)%nat ->
  ((exists i, in_ball (em_dist_land_data e) r i b) -> unit_point (nth b (root_class_map e r f n N root eta ball) [])) /\
  ((forall i, ~ in_ball (em_dist_land_data e) r i b) -> nan_point (nth b (root_class_map e r f n N root eta ball) [])).
Proof.
  intros Hr HM Hn Hp Hf b Hb. destruct (partition_facts e r f n N HM Hn Hp Hf) as (_ & _ & _ & W). destruct (W b Hb) as [W1 W2].
  unfold root_class_map. rewrite (nth_error_nth _ _ [] (mk2_row N n _ b Hb)). split.
  - intros Hc. destruct (W1 Hc) as (w & S & Hw).
    rewrite (map_ext_in _ (fun t => Some (cscale (sqrt (w t)) (cpowZ root (eta (ball b) t))))).
    + apply unit_row; [exact S|intros t Ht; apply Hw; exact Ht|intros; apply cabs2_cpowZ; exact Hr].
    + intros t Ht. apply in_seq in Ht. destruct (Hw t ltac:(lia)) as (E & _). unfold weight in E. rewrite E; reflexivity.
  - intros Hc. apply Forall_map, Forall_forall. intros t Ht. apply in_seq in Ht. specialize (W2 Hc t ltac:(lia)). unfold weight in W2. rewrite W2; reflexivity.
Qed.
Lemma scale_mk2 N n (lam : nat -> C) (F : nat -> nat -> option C) :
  scale_rows (map lam (seq 0 N)) (mk2 N n F) = mk2 N n (fun b t => option_map (cmul (lam b)) (F b t)).
Proof.
  unfold scale_rows, mk2. generalize (seq 0 N) as l. induction l as [|b l IH]; [reflexivity|]. cbn [map combine fst snd]. rewrite IH, map_map. reflexivity.
Qed.
Lemma root_change e r f n N root p eta ball ball' : cabs2 root = 1 -> cpowZ root p = c1 ->
  matrix n n (em_dist_land_land e) -> matrix n N (em_dist_land_data e) -> (1 <= n)%nat ->
  (forall i b d, entry (em_dist_land_data e) i b d -> 0 <= d) -> (forall d, 0 <= d < r -> 0 < f d r) ->
  (forall b i j t, in_ball (em_dist_land_data e) r i b -> in_ball (em_dist_land_data e) r j b -> in_ball (em_dist_land_data e) r t b ->
     (p | eta i j + eta j t - eta i t)%Z) ->
  covering_choice e r n N ball -> covering_choice e r n N ball' ->
  root_class_map e r f n N root eta ball' = scale_rows (map (fun b => cpowZ root (eta (ball' b) (ball b))) (seq 0 N)) (root_class_map e r f n N root eta ball).
Proof.
  intros Hr Ho ML HM Hn Hp Hf T C C'. unfold root_class_map. rewrite scale_mk2. apply mk2_ext. intros b t Hb Ht.
  destruct (partition_facts e r f n N HM Hn Hp Hf) as (_ & _ & _ & W). destruct (W b Hb) as [W1 W2].
  destruct (in_ball_dec e n N r b HM) as [[i Hi]|H].
  - destruct (W1 (ex_intro _ i Hi)) as (w & _ & Hw). destruct (Hw t Ht) as (E & P & Q). unfold weight in E. rewrite E. cbn [option_map]. f_equal.
    destruct (C b Hb) as [_ K]. destruct (C' b Hb) as [_ K']. specialize (K (ex_intro _ i Hi)). specialize (K' (ex_intro _ i Hi)).
    destruct (Req_dec (w t) 0) as [Z|Z].
    + rewrite Z, sqrt_0. csolve.
    + assert (B : in_ball (em_dist_land_data e) r t b) by (apply Q; lra). pose proof (T b _ _ _ K' K B) as D.
      rewrite (cpowZ_divide root p (eta (ball' b) t) (eta (ball' b) (ball b) + eta (ball b) t)); [|exact Hr|exact Ho|].
      * rewrite cpowZ_add by exact Hr. csolve.
      * destruct D as [q D]. exists (- q)%Z. lia.
  - specialize (W2 H t Ht). unfold weight in W2. rewrite W2. reflexivity.
Qed.

(** ** Selecting a class *)
Lemma np_get_nat {A} (l : list A) d x : nth_error l d = Some x -> np_get l (Z.of_nat d) = Ok x.
Proof.
  intros E. assert (d < length l)%nat by (apply nth_error_Some; congruence). rewrite (np_get_ok l (Z.of_nat d) x) by lia. rewrite Nat2Z.id, (nth_error_nth _ _ x E); reflexivity.
Qed.
Lemma np_get_in {A} (l : list A) k x : np_get l k = Ok x -> In x l.
Proof.
  unfold np_get. destruct (_ && _)%bool; [|destruct (_ && _)%bool; [|discriminate]]; unfold get; destruct (nth_error _ _) eqn:E; try discriminate; intros Q; injection Q as <-; exact (nth_error_In _ _ E).
Qed.
Lemma class_simplex e n N d k birth death c : em_consistent e n N d -> em_class e d k birth death c -> simplex_cocycle n d c.
Proof.
  intros Hc Hk. destruct (ec_classes _ _ _ _ Hc) as (dgm & cs & E1 & E2 & _ & F). apply em_class_ok in Hk. unfold get_representative_cocycle in Hk. destruct k as [k|]; [|discriminate].
  rewrite (np_get_nat _ _ _ E1), (np_get_nat _ _ _ E2) in Hk. cbn [bind] in Hk. destruct (np_get dgm k); cbn [bind] in Hk; [|discriminate].
  destruct (np_get cs k) as [c'|] eqn:E; cbn [bind] in Hk; [|discriminate]. injection Hk as _ _ <-. rewrite Forall_forall in F. apply F, (np_get_in _ _ _ E).
Qed.

Lemma radius_ok e perc birth death sr : start_of birth sr <= death ->
  let t := (1 - perc) * start_of birth sr + perc * death in
  get_cover_radius e perc birth death sr = (with_radius e (t / 2) t, Ok (t / 2, t)).
Proof.
  intros H t. unfold get_cover_radius. fold (start_of birth sr). destruct (Rltb death (start_of birth sr)) eqn:E; [apply Rltb_true in E; lra|]. reflexivity.
Qed.
Lemma radius_fail e perc birth death sr : death < start_of birth sr ->
  get_cover_radius e perc birth death sr = (e, Raise ClassTooShort).
Proof.
  intros H. unfold get_cover_radius. fold (start_of birth sr). destruct (Rltb death (start_of birth sr)) eqn:E; [reflexivity|apply Rltb_false in E; lra].
Qed.
