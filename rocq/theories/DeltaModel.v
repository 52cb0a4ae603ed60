(** DeltaModel.v -- model of the coboundary matrices (dreimac/utils.py:315-629), the
    cocycle tests (toroidalcoords.py:311-352, complexprojectivecoords.py:314-355) and
    the inner product matrix (toroidalcoords.py:231-274).

    The jitted loops write into preallocated buffers; a write or read outside is
    [MemoryUnsafe].  int32 buffers wrap.  Distances are an arbitrary type [D] with a
    boolean strict order [ltD] (floats without NaN, integers, reals). *)
From Coq Require Import Ring_theory.
From Verif Require Import Base CombinatorialModel.

(** numpy int32 storage. *)
Definition wrap32 (x : Z) : Z := ((x + 2 ^ 31) mod 2 ^ 32 - 2 ^ 31)%Z.
Definition wrap64 (x : Z) : Z := ((x + 2 ^ 63) mod 2 ^ 64 - 2 ^ 63)%Z.

(** The three buffers [rows], [columns], [values] and the counter [n_entries]. *)
Record buffers := mkBuf {
  b_rows : list Z; b_cols : list Z; b_vals : list Z; b_n : nat
}.

(** [np.empty]: arbitrary initial content [junk]. *)
Definition np_empty (junk : nat -> Z) (n : nat) : list Z := mk1 n junk.
Definition empty_buffers (junk : nat -> Z) (max_n_entries : nat) : buffers :=
  mkBuf (np_empty junk max_n_entries) (np_empty junk max_n_entries) (np_empty junk max_n_entries) 0.

(** [rows[n_entries] = r; columns[n_entries] = c; values[n_entries] = v; n_entries += 1];
    [wrap] is the conversion to the buffers' integer type. *)
Definition emit (wrap : Z -> Z) (r c : nat) (v : Z) (b : buffers) : res buffers :=
  rows <- set_at MemoryUnsafe (b_rows b) (b_n b) (wrap (Z.of_nat r)) ;;
  cols <- set_at MemoryUnsafe (b_cols b) (b_n b) (wrap (Z.of_nat c)) ;;
  vals <- set_at MemoryUnsafe (b_vals b) (b_n b) v ;;
  Ok (mkBuf rows cols vals (b_n b + 1)).

(** scipy.sparse.csr_array((values, (rows, columns)), shape): indices outside the shape
    are a ValueError; entries with equal indices are summed (by [matvec] below). *)
Record sparse := mkSparse {
  s_rows : nat; s_cols : nat; s_entries : list (nat * nat * Z)
}.

Definition to_index (bound : nat) (x : Z) : res nat :=
  if (0 <=? x)%Z && (x <? Z.of_nat bound)%Z then Ok (Z.to_nat x) else Raise ValueError.

Definition csr_array (b : buffers) (n m : nat) : res sparse :=
  entries <- map_res (fun e =>
      r <- to_index n (fst (fst e)) ;;
      c <- to_index m (snd (fst e)) ;;
      Ok (r, c, snd e))
    (combine (combine (firstn (b_n b) (b_rows b)) (firstn (b_n b) (b_cols b))) (firstn (b_n b) (b_vals b))) ;;
  Ok (mkSparse n m entries).

(** Coefficients of vectors: any commutative ring (in use: Z for cocycles, R for
    real cochains). *)
Record ring := mkRing {
  carrier :> Type;
  r0 : carrier; r1 : carrier;
  radd : carrier -> carrier -> carrier; rmul : carrier -> carrier -> carrier;
  rsub : carrier -> carrier -> carrier; ropp : carrier -> carrier;
  rth : ring_theory r0 r1 radd rmul rsub ropp eq
}.
Arguments r0 {_}. Arguments r1 {_}. Arguments radd {_}. Arguments rmul {_}.
Arguments rsub {_}. Arguments ropp {_}.

(** Integer matrix values as ring elements (the matrices only hold small integers). *)
Definition rofZ {K : ring} (z : Z) : K :=
  match z with
  | Z0 => r0
  | Zpos p => Pos.iter (radd r1) r0 p
  | Zneg p => ropp (Pos.iter (radd r1) r0 p)
  end.

Definition rsum {K : ring} (l : list K) : K := fold_right radd r0 l.

(** [M @ v]; scipy raises ValueError on a dimension mismatch. *)
Definition matvec {K : ring} (M : sparse) (v : list K) : res (list K) :=
  if length v =? s_cols M then
    Ok (mk1 (s_rows M) (fun r =>
      rsum (map (fun e => rmul (rofZ (snd e)) (nth (snd (fst e)) v r0))
                (filter (fun e => fst (fst e) =? r) (s_entries M)))))
  else Raise ValueError.

Definition Zring : ring := mkRing Z 0%Z 1%Z Z.add Z.mul Z.sub Z.opp (InitialRing.Zth).

(** [a and b] on conditions whose evaluation may fail. *)
Definition and_then (a b : res bool) : res bool := x <- a ;; if x then b else Ok false.

Section Rips.
Context {D : Type} (ltD : D -> D -> bool).

(** [dist_mat[i, j] < threshold] in jitted code. *)
Definition below (dist_mat : list (list D)) (threshold : D) (i j : nat) : res bool :=
  row <- get MemoryUnsafe dist_mat i ;;
  x <- get MemoryUnsafe row j ;;
  Ok (ltD x threshold).

(** utils.py:315-360 [make_delta0]. *)
Definition make_delta0 (junk : nat -> Z) (dist_mat : list (list D)) (threshold : D)
    (lookup_table : list (list nat)) : res sparse :=
  let n_points := length dist_mat in
  let n_edges := (n_points * (n_points - 1)) / 2 in
  let max_n_entries := 2 * n_edges in
  b <- for_in (range 0 n_points) (fun i =>
         for_in (range (i + 1) n_points) (fun j b =>
           c <- below dist_mat threshold i j ;;
           if c then
             row_index <- combinatorial_number_system_d1_forward i j lookup_table ;;
             b <- emit wrap32 row_index i 1%Z b ;;
             emit wrap32 row_index j (-1)%Z b
           else Ok b))
       (empty_buffers junk max_n_entries) ;;
  csr_array b n_edges n_points.

(** The three nested loops shared by utils.py:384-423 (make_delta1), utils.py:472-513
    (make_delta1_compact) and toroidalcoords.py:321-351 (_is_one_cocycle). *)
Definition for_triangles {S} (dist_mat : list (list D)) (threshold : D)
    (body : nat -> nat -> nat -> S -> res S) : S -> res S :=
  let n_points := length dist_mat in
  for_in (range 0 n_points) (fun i =>
    for_in (range (i + 1) n_points) (fun j s =>
      c <- below dist_mat threshold i j ;;
      if c then
        for_in (range (j + 1) n_points) (fun k s =>
          c <- and_then (below dist_mat threshold i k) (below dist_mat threshold j k) ;;
          if c then body i j k s else Ok s) s
      else Ok s)).

(** utils.py:362-438 [make_delta1]. *)
Definition make_delta1 (junk : nat -> Z) (dist_mat : list (list D)) (threshold : D)
    (lookup_table : list (list nat)) : res sparse :=
  let n_points := length dist_mat in
  let n_edges := (n_points * (n_points - 1)) / 2 in
  n_faces <- number_of_simplices_of_dimension 2 n_points lookup_table ;;
  let max_n_entries := 3 * n_faces in
  b <- for_triangles dist_mat threshold (fun i j k b =>
         row_index <- combinatorial_number_system_d2_forward i j k lookup_table ;;
         column_index_ij <- combinatorial_number_system_d1_forward i j lookup_table ;;
         column_index_jk <- combinatorial_number_system_d1_forward j k lookup_table ;;
         column_index_ik <- combinatorial_number_system_d1_forward i k lookup_table ;;
         b <- emit wrap32 row_index column_index_ij 1%Z b ;;
         b <- emit wrap32 row_index column_index_jk 1%Z b ;;
         emit wrap32 row_index column_index_ik (-1)%Z b)
       (empty_buffers junk max_n_entries) ;;
  csr_array b n_faces n_edges.

(** utils.py:440-528 [make_delta1_compact]. *)
Definition make_delta1_compact (junk : nat -> Z) (dist_mat : list (list D)) (threshold : D)
    (lookup_table : list (list nat)) : res sparse :=
  let n_points := length dist_mat in
  let n_edges := (n_points * (n_points - 1)) / 2 in
  n_faces <- number_of_simplices_of_dimension 2 n_points lookup_table ;;
  let max_n_entries := 3 * n_faces in
  st <- for_triangles dist_mat threshold (fun i j k st =>
         let row_index := snd st in
         column_index_ij <- combinatorial_number_system_d1_forward i j lookup_table ;;
         column_index_jk <- combinatorial_number_system_d1_forward j k lookup_table ;;
         column_index_ik <- combinatorial_number_system_d1_forward i k lookup_table ;;
         b <- emit wrap32 row_index column_index_ij 1%Z (fst st) ;;
         b <- emit wrap32 row_index column_index_jk 1%Z b ;;
         b <- emit wrap32 row_index column_index_ik (-1)%Z b ;;
         Ok (b, snd st + 1))
       (empty_buffers junk max_n_entries, 0) ;;
  csr_array (fst st) (snd st) n_edges.

(** The four nested loops shared by utils.py:558-614 (make_delta2_compact) and
    complexprojectivecoords.py:323-354 (_is_two_cocycle). *)
Definition for_tetrahedra {S} (dist_mat : list (list D)) (threshold : D)
    (body : nat -> nat -> nat -> nat -> S -> res S) : S -> res S :=
  let n_points := length dist_mat in
  for_triangles dist_mat threshold (fun i j k =>
    for_in (range (k + 1) n_points) (fun l s =>
      c <- and_then (and_then (below dist_mat threshold i l) (below dist_mat threshold j l))
                    (below dist_mat threshold k l) ;;
      if c then body i j k l s else Ok s)).

(** utils.py:530-629 [make_delta2_compact]. *)
Definition make_delta2_compact (junk : nat -> Z) (dist_mat : list (list D)) (threshold : D)
    (lookup_table : list (list nat)) : res sparse :=
  let n_points := length dist_mat in
  n_faces <- number_of_simplices_of_dimension 2 n_points lookup_table ;;
  n_three_simplices <- number_of_simplices_of_dimension 3 n_points lookup_table ;;
  let max_n_entries := 4 * n_three_simplices in
  st <- for_tetrahedra dist_mat threshold (fun i j k l st =>
         let row_index := snd st in
         column_index_ijk <- combinatorial_number_system_d2_forward i j k lookup_table ;;
         column_index_ijl <- combinatorial_number_system_d2_forward i j l lookup_table ;;
         column_index_ikl <- combinatorial_number_system_d2_forward i k l lookup_table ;;
         column_index_jkl <- combinatorial_number_system_d2_forward j k l lookup_table ;;
         b <- emit wrap32 row_index column_index_ijk 1%Z (fst st) ;;
         b <- emit wrap32 row_index column_index_ijl (-1)%Z b ;;
         b <- emit wrap32 row_index column_index_ikl 1%Z b ;;
         b <- emit wrap32 row_index column_index_jkl (-1)%Z b ;;
         Ok (b, snd st + 1))
       (empty_buffers junk max_n_entries, 0) ;;
  csr_array (fst st) (snd st) n_faces.

(** toroidalcoords.py:231-274 [_make_inner_product]: int64 index buffers; both
    returned matrices ([WSqrt] is a copy of [W]). *)
Definition make_inner_product (junk : nat -> Z) (dist_mat : list (list D)) (threshold : D)
    (lookup_table : list (list nat)) : res (sparse * sparse) :=
  let n_points := length dist_mat in
  let n_edges := (n_points * (n_points - 1)) / 2 in
  let max_n_entries := n_edges in
  b <- for_in (range 0 n_points) (fun i =>
         for_in (range (i + 1) n_points) (fun j b =>
           c <- below dist_mat threshold i j ;;
           if c then
             row_index <- combinatorial_number_system_d1_forward i j lookup_table ;;
             emit wrap64 row_index row_index 1%Z b
           else Ok b))
       (empty_buffers junk max_n_entries) ;;
  W <- csr_array b n_edges n_edges ;;
  Ok (W, W).

(** toroidalcoords.py:311-352 [_is_one_cocycle] (jitted): the boolean and
    [first_failure], where [None] is np.inf and [min] uses [ltD]. *)
Definition dist_at (dist_mat : list (list D)) (i j : nat) : res D :=
  row <- get MemoryUnsafe dist_mat i ;; get MemoryUnsafe row j.

Definition min_opt (a : option D) (x : D) : option D :=
  match a with None => Some x | Some y => Some (if ltD x y then x else y) end.

Definition is_one_cocycle (cochain : list Z) (dist_mat : list (list D)) (threshold : D)
    (lookup_table : list (list nat)) : res (bool * option D) :=
  for_triangles dist_mat threshold (fun i j k st =>
      index_ij <- combinatorial_number_system_d1_forward i j lookup_table ;;
      index_jk <- combinatorial_number_system_d1_forward j k lookup_table ;;
      index_ik <- combinatorial_number_system_d1_forward i k lookup_table ;;
      c_ij <- get MemoryUnsafe cochain index_ij ;;
      c_jk <- get MemoryUnsafe cochain index_jk ;;
      c_ik <- get MemoryUnsafe cochain index_ik ;;
      if negb (c_ij + c_jk - c_ik =? 0)%Z then
        d_ij <- dist_at dist_mat i j ;;
        d_jk <- dist_at dist_mat j k ;;
        d_ik <- dist_at dist_mat i k ;;
        Ok (false, min_opt (min_opt (min_opt (snd st) d_ij) d_jk) d_ik)
      else Ok st)
    (true, None).

(** complexprojectivecoords.py:314-355 [_is_two_cocycle] (jitted). *)
Definition is_two_cocycle (cochain : list Z) (dist_mat : list (list D)) (threshold : D)
    (lookup_table : list (list nat)) : res bool :=
  for_tetrahedra dist_mat threshold (fun i j k l is_cocycle =>
      index_ijk <- combinatorial_number_system_d2_forward i j k lookup_table ;;
      index_ijl <- combinatorial_number_system_d2_forward i j l lookup_table ;;
      index_ikl <- combinatorial_number_system_d2_forward i k l lookup_table ;;
      index_jkl <- combinatorial_number_system_d2_forward j k l lookup_table ;;
      c_ijk <- get MemoryUnsafe cochain index_ijk ;;
      c_ijl <- get MemoryUnsafe cochain index_ijl ;;
      c_ikl <- get MemoryUnsafe cochain index_ikl ;;
      c_jkl <- get MemoryUnsafe cochain index_jkl ;;
      if negb (c_ijk - c_ijl + c_ikl - c_jkl =? 0)%Z then Ok false else Ok is_cocycle)
    true.
End Rips.
