(** PropGluing.v -- C85: nearby points are drawn nearby, up to the gluing of the boundary. *)
From Coq Require Import List ZArith Reals Lia Lra Psatz.
From Verif Require Import Base BaseProofs RealBase RealSum SpecEM LLLModel SpecLLL LLLProofs SpecMapUtils MapUtilsModel MapUtilsProofs GluingProofs.
From Verif Require PropMapUtils.
Import ListNotations.
Local Open Scope R_scope.

(** get_stereo_proj_codim1: squared distances in the picture are at most twice those on the sphere,
    when the boundary of the disk is glued antipodally; the gluing is needed only for points on
    different sides of the equator. *)
Theorem C85_projective : forall eigh d pX u uh, (1 <= d)%nat -> direction d u uh -> Forall (unit_vector d) pX ->
  exists S v, get_stereo_proj_codim1 eigh d pX u = Ok (Some S) /\ unit_vector d v /\
    (v = uh \/ (last_standard d v /\ 1 - inner d uh v * inner d uh v < 1 / 10 ^ 30)) /\
    forall b b', (b < length pX)%nat -> (b' < length pX)%nat ->
      let x := nth b pX [] in let x' := nth b' pX [] in
      let y := nth b S [] in let y' := nth b' S [] in
      (0 < inner d v x * inner d v x' -> dist2 (d - 1) y y' <= 2 * dist2 d x x') /\
      (inner d v x * inner d v x' < 0 -> dist2 (d - 1) y (negated y') <= 2 * dist2 d x x') /\
      (inner d v x * inner d v x' = 0 -> dist2 (d - 1) y y' <= 2 * dist2 d x x' \/ dist2 (d - 1) y (negated y') <= 2 * dist2 d x x').
Proof.
  intros eigh d pX u uh Hd Hu HX. destruct (rotmat_pole d u uh Hd Hu) as [M [v [EM [Hp Hv]]]].
  pose proof (direction_length d u uh Hu) as Hlu.
  exists (map (stereo_codim1_point M) pX), v. split.
  { unfold get_stereo_proj_codim1. replace (length u =? 0)%nat with false by (symmetry; apply Nat.eqb_neq; lia). cbn [bind].
    rewrite EM. cbn [bind]. rewrite Hlu, Nat.eqb_refl. reflexivity. }
  split; [apply Hp|]. split; [exact Hv|].
  assert (Hx : forall b, (b < length pX)%nat -> unit_vector d (nth b pX [])).
  { intros b Hb. apply (proj1 (Forall_forall _ _) HX). apply nth_In. exact Hb. }
  assert (Hsh : forall b, (b < length pX)%nat -> shadow d M v (nth b pX []) (if Rltb (inner d v (nth b pX [])) 0 then -1 else 1) (nth b (map (stereo_codim1_point M) pX) [])).
  { intros b Hb. rewrite (nth_indep (map (stereo_codim1_point M) pX) [] (stereo_codim1_point M [])) by (rewrite map_length; exact Hb). rewrite map_nth.
    apply stereo_codim1_shadow; [exact Hd|exact Hp|apply Hx; exact Hb]. }
  assert (Hng : forall x s y, shadow d M v x s y -> shadow d M v x (- s) (negated y)).
  { intros x s y [L H]. split; [unfold negated; rewrite map_length; exact L|]. intros i Hi. unfold negated.
    rewrite (nth_indep _ 0 (- 0)) by (rewrite map_length, L; exact Hi). rewrite map_nth, H by exact Hi. unfold Rdiv. ring. }
  intros b b' Hb Hb' x x' y y'. pose proof (Hsh b Hb) as S1. pose proof (Hsh b' Hb') as S2. fold x y in S1. fold x' y' in S2.
  pose proof (Hng _ _ _ S2) as S3. pose proof (Hx b Hb) as Hx1. pose proof (Hx b' Hb') as Hx2. fold x in Hx1. fold x' in Hx2.
  set (h := inner d v x) in *. set (h' := inner d v x') in *. clearbody h h'.
  destruct (Rltb h 0) eqn:E1; destruct (Rltb h' 0) eqn:E2; try (apply Rltb_true in E1); try (apply Rltb_false in E1); try (apply Rltb_true in E2); try (apply Rltb_false in E2).
  - assert (K : dist2 (d - 1) y y' <= 2 * dist2 d x x') by (apply (shadow_lipschitz d M v x x' (-1) y y' Hd Hp Hx1 Hx2 ltac:(ring) S1 S2)).
    split; [intros _; exact K|]. split; [nra|intros _; left; exact K].
  - assert (K : dist2 (d - 1) y (negated y') <= 2 * dist2 d x x') by (apply (shadow_lipschitz d M v x x' (-1) y (negated y') Hd Hp Hx1 Hx2 ltac:(ring) S1 S3)).
    split; [nra|]. split; [intros _; exact K|intros _; right; exact K].
  - replace (- -1) with 1 in S3 by ring.
    assert (K : dist2 (d - 1) y (negated y') <= 2 * dist2 d x x') by (apply (shadow_lipschitz d M v x x' 1 y (negated y') Hd Hp Hx1 Hx2 ltac:(ring) S1 S3)).
    split; [nra|]. split; [intros _; exact K|intros _; right; exact K].
  - assert (K : dist2 (d - 1) y y' <= 2 * dist2 d x x') by (apply (shadow_lipschitz d M v x x' 1 y y' Hd Hp Hx1 Hx2 ltac:(ring) S1 S2)).
    split; [intros _; exact K|]. split; [nra|intros _; left; exact K].
Qed.
Print Assumptions C85_projective.

(** stereographic_projection_hemispheres: the same with the boundary point p of one disk glued to
    p + (5/2, 0, ...) of the other. *)
Theorem C85_hemispheres : forall n X center ch, (2 <= n)%nat ->
  (center = None /\ last_standard n ch \/ exists c, center = Some c /\ direction n c ch) ->
  Forall (unit_vector n) X ->
  exists S v, stereographic_projection_hemispheres n X center = Ok S /\ unit_vector n v /\
    (v = ch \/ (last_standard n v /\ 1 - inner n ch v * inner n ch v < 1 / 10 ^ 30)) /\
    exists S0, length S0 = length X /\
      (forall b, (b < length X)%nat -> length (nth b S0 []) = (n - 1)%nat /\ length (nth b S []) = (n - 1)%nat /\
         forall i, (i < n - 1)%nat ->
         nth i (nth b S []) 0 = nth i (nth b S0 []) 0 + (if (i =? 0)%nat then if Rlt_dec (inner n v (nth b X [])) 0 then 0 else 5 / 2 else 0)) /\
      forall b b', (b < length X)%nat -> (b' < length X)%nat ->
        dist2 (n - 1) (nth b S0 []) (nth b' S0 []) <= 2 * dist2 n (nth b X []) (nth b' X []).
Proof.
  intros n X center ch Hn Hc HX.
  set (cv := match center with None => basis n (n - 1) | Some c => c end).
  assert (Hcv : direction n cv ch).
  { destruct Hc as [[-> Hs]|[c [-> Hd]]]; [|exact Hd]. unfold cv. rewrite (standard_unique n _ _ _ (basis_standard n (n - 1)) Hs).
    apply unit_direction. apply (standard_unit n (n - 1)); [exact Hs|lia]. }
  destruct (rotmat_pole n cv ch ltac:(lia) Hcv) as [M [v [EM [Hp Hv]]]].
  exists (map (hemisphere_point M n) X), v. split.
  { unfold stereographic_projection_hemispheres.
    assert (E : (match center with None => guard (negb (n =? 0)%nat) else IndexError ;; Ok (basis n (n - 1)) | Some c => Ok c end) = Ok cv).
    { unfold cv. destruct center; [reflexivity|]. replace (n =? 0)%nat with false by (symmetry; apply Nat.eqb_neq; lia). reflexivity. }
    rewrite E. cbn [bind]. rewrite EM. cbn [bind]. rewrite (direction_length _ _ _ Hcv), Nat.eqb_refl.
    apply Nat.leb_le in Hn. rewrite Hn. reflexivity. }
  split; [apply Hp|]. split; [exact Hv|].
  assert (Hx : forall b, (b < length X)%nat -> unit_vector n (nth b X [])).
  { intros b Hb. apply (proj1 (Forall_forall _ _) HX). apply nth_In. exact Hb. }
  set (base := fun x => map (fun i => nth i (apply n M x) 0 / (1 + Rabs (inner n v x))) (seq 0 (n - 1))).
  assert (Hbase : forall x, shadow n M v x 1 (base x)).
  { intros x. split; [unfold base; rewrite map_length, seq_length; reflexivity|]. intros i Hi. unfold base.
    rewrite (nth_indep _ 0 (nth 0 (apply n M x) 0 / (1 + Rabs (inner n v x)))) by (rewrite map_length, seq_length; exact Hi).
    rewrite (map_nth (fun i => nth i (apply n M x) 0 / (1 + Rabs (inner n v x)))), seq_nth by exact Hi. cbn [plus]. rewrite Rmult_1_l. reflexivity. }
  assert (Hb0 : forall b, (b < length X)%nat -> nth b (map base X) [] = base (nth b X [])).
  { intros b Hb. rewrite (nth_indep _ [] (base [])) by (rewrite map_length; exact Hb). apply map_nth. }
  exists (map base X). split; [apply map_length|]. split.
  - intros b Hb. rewrite Hb0 by exact Hb. rewrite (nth_indep (map (hemisphere_point M n) X) [] (hemisphere_point M n [])) by (rewrite map_length; exact Hb). rewrite map_nth.
    destruct (Hbase (nth b X [])) as [L0 N0]. destruct (hemisphere_shadow n M v (nth b X []) Hn Hp (proj1 (Hx b Hb))) as [L [H1 H2]].
    split; [exact L0|]. split; [exact L|]. intros i Hi. rewrite (N0 i Hi).
    destruct (Rlt_dec (inner n v (nth b X [])) 0) as [E|E].
    + destruct (H1 E) as [_ N]. rewrite (N i Hi). destruct (i =? 0)%nat; ring.
    + destruct (H2 ltac:(lra)) as [y0 [[_ N] Ny]]. rewrite (Ny i Hi), (N i Hi). reflexivity.
  - intros b b' Hb Hb'. rewrite !Hb0 by assumption. apply (shadow_lipschitz n M v _ _ 1 _ _ ltac:(lia) Hp (Hx b Hb) (Hx b' Hb') ltac:(ring) (Hbase _) (Hbase _)).
Qed.
Print Assumptions C85_hemispheres.

Example C85_met : direction 3 [0; 2; 0] [0; 1; 0] /\ last_standard 3 [0; 0; 1] /\
  Forall (unit_vector 3) [[3 / 5; 4 / 5; 0]; [- (3 / 5); 0; - (4 / 5)]; [0; 0; 1]].
Proof. destruct PropMapUtils.C62_met as [H1 [H2 H3]]. auto. Qed.
