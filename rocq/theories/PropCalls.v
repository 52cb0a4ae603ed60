(** PropCalls.v -- C99: repeated calls of ProjectiveCoords, LensCoords and ComplexProjectiveCoords are
    independent of each other. *)
From Coq Require Import Reals List ZArith Lia Lra Bool String.
From Verif Require Import Base BaseProofs RealBase EMModel SpecEM EMProofs CohomologyModel SpecCohomology CohomologyProofs ToroidalModel SpecToroidal ToroidalProofs ToroidalFacts
  ComplexBase PPCAModel ClassMapModel SpecClassMap PropClassMap ComplexProjModel SpecComplexProj PropComplexProj SpecCalls CallFacts.
Import ListNotations.
Local Open Scope R_scope.
Local Open Scope list_scope.
Local Notation length := List.length.

(** The same data and cocycles: only radius, threshold and variance may differ. *)
Definition same_classes (e e' : em) : Prop := same_data e e' /\ em_cocycles e' = em_cocycles e.
Lemma classes_radius e e' perc b d sr : same_data e e' ->
  same_data (fst (get_cover_radius e perc b d sr)) (fst (get_cover_radius e' perc b d sr)) /\ snd (get_cover_radius e' perc b d sr) = snd (get_cover_radius e perc b d sr).
Proof. intros (A1 & A2 & A3 & A4 & A5 & A6 & A7). unfold get_cover_radius. destruct (Rltb d _); cbn; repeat split; assumption. Qed.
Lemma classes_after e perc b d sr : same_classes e (fst (get_cover_radius e perc b d sr)).
Proof. unfold get_cover_radius. destruct (Rltb d _); cbn; repeat split. Qed.
Lemma classes_trans e1 e2 e3 : same_classes e1 e2 -> same_classes e2 e3 -> same_classes e1 e3.
Proof. intros [A A'] [B B']. split; [eapply same_data_trans; eassumption|congruence]. Qed.
Lemma classes_rep e e' k dim : same_classes e e' -> get_representative_cocycle e' k dim = get_representative_cocycle e k dim.
Proof. intros ((A1 & A2 & _) & A8). unfold get_representative_cocycle. rewrite ?A1, ?A2, ?A8. reflexivity. Qed.

Lemma root_keeps eigh power inverse_power y perc k dim f sr m :
  same_classes (p_em y) (p_em (fst (root_get_coordinates eigh power inverse_power y perc k dim f sr m))).
Proof.
  unfold root_get_coordinates. destruct (get_representative_cocycle _ _ _) as [[[b d] c]|err]; [|repeat split].
  pose proof (classes_after (p_em y) perc b d sr) as Q. destruct (get_cover_radius (p_em y) perc b d sr) as [e r]. cbn [fst] in Q.
  match goal with |- context [match ?q with Ok _ => _ | Raise _ => _ end] => destruct q as [[v X]|err] end; exact Q.
Qed.
Lemma root_again eigh power inverse_power x y perc k dim f sr m : same_classes (p_em x) (p_em y) ->
  let fresh := root_get_coordinates eigh power inverse_power x perc k dim f sr m in
  let again := root_get_coordinates eigh power inverse_power y perc k dim f sr m in
  snd again = snd fresh /\ ((exists X, snd fresh = Ok X) -> p_variance (fst again) = p_variance (fst fresh)).
Proof.
  intros H. unfold root_get_coordinates. rewrite (classes_rep _ _ k 1 H).
  destruct (get_representative_cocycle _ _ _) as [[[b d] c]|err]; [|split; [reflexivity|intros (X & E); discriminate E]].
  destruct (classes_radius _ _ perc b d sr (proj1 H)) as [Q1 Q2].
  destruct (get_cover_radius (p_em x) perc b d sr) as [e r]. destruct (get_cover_radius (p_em y) perc b d sr) as [e' r']. cbn [fst snd] in Q1, Q2. subst r'.
  destruct Q1 as (A1 & A2 & A3 & A4 & A5 & A6 & A7). unfold root_coordinates, get_covering_partition. cbv zeta. rewrite A4, A5.
  match goal with |- context [match ?q with Ok _ => _ | Raise _ => _ end] => destruct q as [[v X]|err] end; split; try reflexivity. intros (X & E); discriminate E.
Qed.

(** ProjectiveCoords: every call returns or raises what it does on the fresh object and stores the same
    variance; the classes are never changed. *)
Theorem C99_projective_calls : forall x y, projective_history x y ->
  (forall deg k birth death c, em_class (p_em y) deg k birth death c <-> em_class (p_em x) deg k birth death c) /\
  forall eigh perc k dim f sr m,
  let fresh := projective_get_coordinates eigh x perc k dim f sr m in
  let again := projective_get_coordinates eigh y perc k dim f sr m in
  snd again = snd fresh /\ ((exists X, snd fresh = Ok X) -> p_variance (fst again) = p_variance (fst fresh)).
Proof.
  intros x y H. assert (S : same_classes (p_em x) (p_em y)).
  { induction H as [|y eigh perc k dim f sr m H IH]; [repeat split|]. eapply classes_trans; [exact IH|apply root_keeps]. }
  split.
  - intros deg k b d c. destruct S as ((_ & A2 & _) & A8). unfold em_class. rewrite A2, A8. reflexivity.
  - intros eigh perc k dim f sr m. apply root_again, S.
Qed.
Print Assumptions C99_projective_calls.

(** LensCoords. *)
Theorem C99_lens_calls : forall x y, lens_history x y ->
  (forall deg k birth death c, em_class (p_em y) deg k birth death c <-> em_class (p_em x) deg k birth death c) /\
  forall eigh perc k dim f sr m,
  let fresh := lens_get_coordinates eigh x perc k dim f sr m in
  let again := lens_get_coordinates eigh y perc k dim f sr m in
  snd again = snd fresh /\ ((exists X, snd fresh = Ok X) -> p_variance (fst again) = p_variance (fst fresh)).
Proof.
  intros x y H. assert (S : same_classes (p_em x) (p_em y)).
  { induction H as [|y eigh perc k dim f sr m H IH]; [repeat split|]. eapply classes_trans; [exact IH|apply root_keeps]. }
  split.
  - intros deg k b d c. destruct S as ((_ & A2 & _) & A8). unfold em_class. rewrite A2, A8. reflexivity.
  - intros eigh perc k dim f sr m. unfold lens_get_coordinates. assert (P : em_prime (p_em y) = em_prime (p_em x)) by (destruct S as ((-> & _) & _); reflexivity).
    rewrite P. apply root_again, S.
Qed.
Print Assumptions C99_lens_calls.

(** ComplexProjectiveCoords overwrites the class it uses by its integer lift. *)
Lemma radius_lifted e e' perc b d sr : em_lifted e e' -> em_lifted e (fst (get_cover_radius e' perc b d sr)).
Proof. intros [A S]. unfold get_cover_radius. destruct (Rltb d _); cbn; (split; [exact A|exact S]). Qed.
Lemma lift_other dim k e e2 : lift_stored dim k e = Ok e2 -> dim = 2%Z -> forall deg, deg <> 2%nat -> nth_error (em_cocycles e2) deg = nth_error (em_cocycles e) deg.
Proof.
  intros E -> deg Hd. unfold lift_stored in E. destruct k as [k|]; [|discriminate].
  destruct (np_get (em_cocycles e) 2) as [cs|]; [|discriminate]. cbn [bind] in E. destruct (np_get cs k) as [c|]; [|discriminate]. cbn [bind] in E.
  destruct (np_set cs k _) as [cs'|]; [|discriminate]. cbn [bind] in E. destruct (np_set (em_cocycles e) 2 cs') as [s|] eqn:Es; [|discriminate]. injection E as <-. cbn [em_cocycles].
  unfold np_set in Es. cbn [Z.leb Z.compare andb] in Es. destruct (Z.ltb_spec 2 (Z.of_nat (length (em_cocycles e)))) as [L|L].
  - unfold set_at in Es. destruct (Nat.ltb_spec (Z.to_nat 2) (length (em_cocycles e))) as [L'|L']; [|discriminate]. injection Es as <-. change (Z.to_nat 2) with 2%nat in *.
    destruct (em_cocycles e) as [|a [|b [|c0 r]]]; cbn [length] in L'; try lia. cbn [firstn skipn app]. destruct deg as [|[|[|deg]]]; [reflexivity|reflexivity|lia|reflexivity].
  - rewrite Bool.andb_false_r in Es. discriminate.
Qed.
Lemma complex_keeps ext eigh globals x y perc k dim f sr check m : (2 <= em_prime (cp_em x))%Z -> field_store (cp_em x) ->
  em_lifted (cp_em x) (cp_em y) -> cp_table y = cp_table x -> (forall deg, deg <> 2%nat -> nth_error (em_cocycles (cp_em y)) deg = nth_error (em_cocycles (cp_em x)) deg) ->
  let y' := fst (complexprojective_get_coordinates ext eigh globals y perc k dim f sr check m) in
  em_lifted (cp_em x) (cp_em y') /\ cp_table y' = cp_table x /\ (forall deg, deg <> 2%nat -> nth_error (em_cocycles (cp_em y')) deg = nth_error (em_cocycles (cp_em x)) deg).
Proof.
  intros Hp HF A T O. unfold complexprojective_get_coordinates.
  destruct (rep_lifted (cp_em x) (cp_em y) k 2 A) as [(b & d & c & c' & E1 & E2 & Q & cs & I1 & I2)|(err & E1 & E2)]; rewrite E2; [|split; [exact A|split; [exact T|exact O]]].
  pose proof (radius_lifted _ _ perc b d sr A) as A1.
  assert (O1 : em_cocycles (fst (get_cover_radius (cp_em y) perc b d sr)) = em_cocycles (cp_em y)) by (unfold get_cover_radius; destruct (Rltb d _); reflexivity).
  destruct (get_cover_radius (cp_em y) perc b d sr) as [e1 rt]. cbn [fst] in A1, O1. cbv zeta.
  assert (G1 : forall v, let y' := mkCProj e1 (cp_table y) v in em_lifted (cp_em x) (cp_em y') /\ cp_table y' = cp_table x /\ (forall deg, deg <> 2%nat -> nth_error (em_cocycles (cp_em y')) deg = nth_error (em_cocycles (cp_em x)) deg)).
  { intros v. cbn. rewrite O1. split; [exact A1|split; [exact T|exact O]]. }
  destruct rt as [[r t]|err]; [|apply G1]. destruct (get_covering_partition e1 r f) as [varphi ball]. destruct (make_delta1 _ _ _ _ _) as [delta1|err]; [|apply G1].
  destruct (lift_lifted (cp_em x) e1 k 2 b d c Hp HF A1 E1) as (e2 & E3 & A2 & _). rewrite E3.
  assert (G2 : forall v, let y' := mkCProj e2 (cp_table y) v in em_lifted (cp_em x) (cp_em y') /\ cp_table y' = cp_table x /\ (forall deg, deg <> 2%nat -> nth_error (em_cocycles (cp_em y')) deg = nth_error (em_cocycles (cp_em x)) deg)).
  { intros v. cbn. split; [exact A2|]. split; [exact T|]. intros deg Hd. rewrite (lift_other _ _ _ _ E3 eq_refl deg Hd), O1. apply O, Hd. }
  destruct (complex_coordinates _ _ _ _ _ _ _ _ _ _ _ _ _ _) as [[v X]|err]; apply G2.
Qed.

(** ComplexProjectiveCoords: the same; a call may replace the stored class by its integer lift, which
    later calls do not notice. *)
Theorem C99_complex_projective_calls : forall x y, (2 <= em_prime (cp_em x))%Z -> field_store (cp_em x) -> complex_history x y ->
  (forall deg k birth death c', em_class (cp_em y) deg k birth death c' ->
     exists c, em_class (cp_em x) deg k birth death c /\ (c' = c \/ deg = 2%nat /\ integer_lift (em_prime (cp_em x)) c c')) /\
  forall ext eigh globals perc k dim f sr check m,
  let fresh := complexprojective_get_coordinates ext eigh globals x perc k dim f sr check m in
  let again := complexprojective_get_coordinates ext eigh globals y perc k dim f sr check m in
  snd again = snd fresh /\ ((exists X, snd fresh = Ok X) -> cp_variance (fst again) = cp_variance (fst fresh)).
Proof.
  intros x y Hp HF H.
  assert (S : em_lifted (cp_em x) (cp_em y) /\ cp_table y = cp_table x /\ (forall deg, deg <> 2%nat -> nth_error (em_cocycles (cp_em y)) deg = nth_error (em_cocycles (cp_em x)) deg)).
  { induction H as [|y ext eigh globals perc k dim f sr check m H (I1 & I2 & I3)]; [split; [apply em_lifted_refl|split; reflexivity]|]. apply complex_keeps; assumption. }
  destruct S as (A & T & O). split.
  - intros deg k b d c' Hc. assert (Hc0 := Hc). apply em_class_ok in Hc. destruct (rep_lifted (cp_em x) (cp_em y) k (Z.of_nat deg) A) as [(b0 & d0 & c & c0 & E1 & E2 & Q & _)|(err & E1 & E2)]; [|congruence].
    rewrite E2 in Hc. injection Hc as -> -> ->. exists c. assert (Hx : em_class (cp_em x) deg k b d c) by (apply em_class_ok; exact E1). split; [exact Hx|].
    destruct (Nat.eq_dec deg 2) as [-> |Hd]; [destruct Q as [Q|Q]; [left; exact Q|right; split; [reflexivity|apply integer_lift_ok; exact Q]]|left].
    destruct Hc0 as (z & dgm & cs & -> & D1 & D2 & D3 & D4). assert (Hy : em_class (cp_em x) deg (PyInt z) b d c').
    { exists z, dgm, cs. destruct A as ((_ & A2 & _) & _). rewrite A2 in D1. rewrite (O deg Hd) in D2. repeat split; assumption. }
    apply em_class_ok in Hy. congruence.
  - intros ext eigh globals perc k dim f sr check m. unfold complexprojective_get_coordinates.
    destruct (rep_lifted (cp_em x) (cp_em y) k 2 A) as [(b & d & c & c' & E1 & E2 & Q & cs & I1 & I2)|(err & E1 & E2)]; rewrite E1, E2; [|split; [reflexivity|intros (X & E); discriminate E]].
    assert (FC : Forall (fun row => (0 <= snd row < em_prime (cp_em x))%Z) (c_rows c)) by (apply Forall_forall; intros row Hr; apply (HF cs c row I1 I2 Hr)).
    pose proof (radius_lifted _ _ perc b d sr A) as A1. pose proof (radius_lifted _ _ perc b d sr (em_lifted_refl (cp_em x))) as A0.
    destruct (classes_radius _ _ perc b d sr (proj1 A)) as [Q1 Q2].
    destruct (get_cover_radius (cp_em x) perc b d sr) as [e1 rt]. destruct (get_cover_radius (cp_em y) perc b d sr) as [e1' rt']. cbn [fst snd] in *. subst rt'. cbv zeta.
    destruct rt as [[r t]|err]; [|split; [reflexivity|intros (X & E); discriminate E]].
    pose proof Q1 as (B1 & B2 & B3 & B4 & B5 & B6 & B7). unfold get_covering_partition. rewrite B5, B7, T. cbv zeta.
    destruct (make_delta1 _ _ _ _ _) as [delta1|err]; [|split; [reflexivity|intros (X & E); discriminate E]].
    destruct (lift_lifted (cp_em x) e1 k 2 b d c Hp HF A0 E1) as (e2 & E3 & A2 & S2 & _). destruct (lift_lifted (cp_em x) e1' k 2 b d c Hp HF A1 E1) as (e2' & E3' & A2' & S2' & _). rewrite E3, E3'.
    assert (L : lift_to_integer_cocycle (em_prime e2') c' = lift_to_integer_cocycle (em_prime e2) c).
    { destruct A2 as ((-> & _) & _). destruct A2' as ((-> & _) & _). apply lift_maybe; assumption. }
    rewrite L. destruct A2 as ((C1 & C2 & C3 & C4 & C5 & C6 & C7) & _). destruct A2' as ((D1 & D2 & D3 & D4 & D5 & D6 & D7) & _).
    unfold complex_coordinates. rewrite C1, C4, C7, D1, D4, D7.
    match goal with |- context [match ?q with Ok _ => _ | Raise _ => _ end] => destruct q as [[v X]|err] end; split; try reflexivity. intros (X & E); discriminate E.
Qed.
Print Assumptions C99_complex_projective_calls.

(** ** Attributes, also after a call that raises *)
Lemma attributes_ok {V A} e (v : V) deg k perc sr e' v' (result : res A) :
  match get_representative_cocycle e k (Z.of_nat deg) with
  | Raise err => e' = e /\ result = Raise err
  | Ok (birth, death, _) =>
      (forall err, snd (get_cover_radius e perc birth death sr) = Raise err -> e' = e /\ result = Raise err) /\
      em_rips_threshold e' = em_rips_threshold (fst (get_cover_radius e perc birth death sr)) /\ em_r_cover e' = em_r_cover (fst (get_cover_radius e perc birth death sr))
  end -> ((exists err, result = Raise err) -> v' = v) ->
  attributes_after (fun start death t r => t = (1 - perc) * start + perc * death /\ r = t / 2) deg e v k sr e' v' result.
Proof.
  intros H Hv. split; [|split; [|exact Hv]].
  - intros Hn. destruct (get_representative_cocycle e k (Z.of_nat deg)) as [[[b d] c]|err] eqn:E; [exfalso; apply (Hn b d c), em_class_ok, E|].
    destruct H as [-> ->]. split; [exists err; reflexivity|reflexivity].
  - intros b d c Hc start. apply em_class_ok in Hc. rewrite Hc in H. destruct H as (H1 & H2 & H3). unfold get_cover_radius in *. fold start in H1, H2, H3. split; intros Hs.
    + rewrite (proj2 (Rltb_true d start) Hs) in H1. destruct (H1 ClassTooShort eq_refl) as [-> ->]. split; reflexivity.
    + rewrite (proj2 (Rltb_false d start) ltac:(lra)) in H2, H3. cbn in H2, H3. do 2 eexists. split; [exact H2|]. split; [exact H3|]. split; reflexivity.
Qed.

Lemma root_attributes eigh power inverse_power x perc k dim f sr m : let out := root_get_coordinates eigh power inverse_power x perc k dim f sr m in
  attributes_after (fun start death t r => t = (1 - perc) * start + perc * death /\ r = t / 2) 1 (p_em x) (p_variance x) k sr (p_em (fst out)) (p_variance (fst out)) (snd out).
Proof.
  intros out. apply attributes_ok.
  - unfold out, root_get_coordinates. change (Z.of_nat 1) with 1%Z. destruct (get_representative_cocycle _ _ _) as [[[b d] c]|err]; [|split; reflexivity].
    unfold get_cover_radius. destruct (Rltb d _); cbv zeta; cbn [bind fst snd].
    + split; [intros err E; injection E as <-; split; reflexivity|split; reflexivity].
    + split; [intros err E; discriminate E|]. match goal with |- context [match ?q with Ok _ => _ | Raise _ => _ end] => destruct q as [[v X]|err] end; split; reflexivity.
  - unfold out, root_get_coordinates. destruct (get_representative_cocycle _ _ _) as [[[b d] c]|err]; [|reflexivity].
    destruct (get_cover_radius _ _ _ _ _) as [e r]. match goal with |- context [match ?q with Ok _ => _ | Raise _ => _ end] => destruct q as [[v X]|err] end; [intros (err & E); discriminate E|reflexivity].
Qed.

(** Threshold, radius and variance after every call of the three classes, also one that raises; an
    invalid index and an empty range change nothing. *)
Theorem C99_attributes : forall eigh perc k dim f sr m,
  let chosen := fun start death t r => t = (1 - perc) * start + perc * death /\ r = t / 2 in
  (forall x, let out := projective_get_coordinates eigh x perc k dim f sr m in
     attributes_after chosen 1 (p_em x) (p_variance x) k sr (p_em (fst out)) (p_variance (fst out)) (snd out)) /\
  (forall x, let out := lens_get_coordinates eigh x perc k dim f sr m in
     attributes_after chosen 1 (p_em x) (p_variance x) k sr (p_em (fst out)) (p_variance (fst out)) (snd out)) /\
  (forall x ext globals check, let out := complexprojective_get_coordinates ext eigh globals x perc k dim f sr check m in
     attributes_after chosen 2 (cp_em x) (cp_variance x) k sr (cp_em (fst out)) (cp_variance (fst out)) (snd out)).
Proof.
  intros eigh perc k dim f sr m chosen. split; [intros x; apply root_attributes|]. split; [intros x; apply root_attributes|].
  intros x ext globals check out. apply attributes_ok.
  - unfold out, complexprojective_get_coordinates. change (Z.of_nat 2) with 2%Z. destruct (get_representative_cocycle _ _ _) as [[[b d] c]|err]; [|split; reflexivity].
    unfold get_cover_radius. destruct (Rltb d _); cbv zeta; cbn [bind fst snd].
    + split; [intros err E; injection E as <-; split; reflexivity|split; reflexivity].
    + split; [intros err E; discriminate E|].
      destruct (get_covering_partition _ _ _) as [varphi ball]. destruct (make_delta1 _ _ _ _ _) as [delta1|err]; [|split; reflexivity].
      match goal with |- context [lift_stored 2 k ?e1] => destruct (lift_stored 2 k e1) as [e2|err] eqn:EL end; [|split; reflexivity].
      assert (G : em_rips_threshold e2 = Some ((1 - perc) * (if sr then 2 * b else b) + perc * d) /\ em_r_cover e2 = Some (((1 - perc) * (if sr then 2 * b else b) + perc * d) / 2)).
      { unfold lift_stored in EL. destruct k as [k|]; [|discriminate]. do 4 (match type of EL with bind ?q _ = _ => destruct q; [cbn [bind] in EL|discriminate] end). injection EL as <-. split; reflexivity. }
      match goal with |- context [match ?q with Ok _ => _ | Raise _ => _ end] => destruct q as [[v X]|err] end; exact G.
  - unfold out, complexprojective_get_coordinates. destruct (get_representative_cocycle _ _ _) as [[[b d] c]|err]; [|reflexivity].
    destruct (get_cover_radius _ _ _ _ _) as [e1 [[r t]|err]]; [|reflexivity]. cbv zeta.
    destruct (get_covering_partition _ _ _) as [varphi ball]. destruct (make_delta1 _ _ _ _ _) as [delta1|err]; [|reflexivity].
    destruct (lift_stored 2 k e1) as [e2|err]; [|reflexivity].
    match goal with |- context [match ?q with Ok _ => _ | Raise _ => _ end] => destruct q as [[v X]|err] end; [intros (err & E); discriminate E|reflexivity].
Qed.
Print Assumptions C99_attributes.

(** ** Instances *)
(** The circle of C45 after a call, and after a call that raises. *)
Example C99_lens_case eigh : let x := PropClassMap.ring 3 1 in
  let y := fst (lens_get_coordinates eigh (fst (lens_get_coordinates eigh x (1 / 2) (PyInt 0) 2 pu_linear false Exponential)) (1 / 2) PyOther 2 pu_linear false Exponential) in
  lens_history x y /\ p_em y <> p_em x /\ em_class (p_em x) 1 (PyInt 0) 1 2 (ring_cocycle 1).
Proof.
  intros x y. split; [apply lens_call, lens_call, lens_start|]. split.
  - unfold y. unfold lens_get_coordinates at 1, root_get_coordinates at 1. cbn [get_representative_cocycle fst].
    unfold lens_get_coordinates, root_get_coordinates. assert (E : get_representative_cocycle (p_em x) (PyInt 0) 1 = Ok (1, 2, ring_cocycle 1)) by reflexivity. rewrite E.
    unfold get_cover_radius. rewrite (proj2 (Rltb_false 2 1) ltac:(lra)). cbv zeta.
    match goal with |- context [match ?q with Ok _ => _ | Raise _ => _ end] => destruct q as [[v X]|err] end; cbn; discriminate.
  - apply em_class1. reflexivity.
Qed.
(** The octahedron, whose class has the value 2 mod 3, before and after a call with any routines. *)
Example C99_complex_case ext eigh globals : let x := octa 2 in
  let y := fst (complexprojective_get_coordinates ext eigh globals x (1 / 2) (PyInt 0) 1 pu_linear false true Exponential) in
  (2 <= em_prime (cp_em x))%Z /\ field_store (cp_em x) /\ complex_history x y /\ em_class (cp_em x) 2 (PyInt 0) 1 2 (octa_cocycle 2) /\
  integer_lift 3 (octa_cocycle 2) (octa_cocycle (-1)).
Proof.
  intros x y. split; [cbn; lia|]. split.
  { intros cs c row [<-|[<-|[<-|[]]]] Hc; try contradiction. destruct Hc as [<-|[]]. intros [<-|[]]. cbn. lia. }
  split; [apply complex_call, complex_start|]. split; [apply octa_class|apply integer_lift_ok; reflexivity].
Qed.
(** The threshold and the radius are stored whatever PPCA does; an index that does not exist changes nothing. *)
Example C99_attributes_case eigh dim m : let x := PropClassMap.ring 3 1 in
  let y := fst (lens_get_coordinates eigh x (1 / 2) (PyInt 0) dim pu_linear false m) in
  em_rips_threshold (p_em x) = None /\ em_rips_threshold (p_em y) = Some (3 / 2) /\ em_r_cover (p_em y) = Some (3 / 4) /\
  p_em (fst (lens_get_coordinates eigh x (1 / 2) (PyInt 5) dim pu_linear false m)) = p_em x.
Proof.
  intros x y. split; [reflexivity|].
  destruct (C99_attributes eigh (1 / 2) (PyInt 0) dim pu_linear false m) as (_ & H & _). destruct (H x) as (_ & H1 & _). cbv zeta in H1.
  assert (Hc : em_class (p_em x) 1 (PyInt 0) 1 2 (ring_cocycle 1)) by (apply em_class1; reflexivity).
  destruct (proj2 (H1 1 2 _ Hc) ltac:(lra)) as (t & r & T1 & T2 & -> & ->). fold y in T1, T2. split; [rewrite T1; f_equal; lra|]. split; [rewrite T2; f_equal; lra|].
  destruct (C99_attributes eigh (1 / 2) (PyInt 5) dim pu_linear false m) as (_ & H' & _). destruct (H' x) as (H2 & _). apply H2.
  intros b d c Hb. apply em_class1 in Hb. cbv in Hb. discriminate.
Qed.
