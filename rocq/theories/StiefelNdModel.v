(** The methods of geoopt/manifolds/stiefel.py on tensors with any batch axes (tensors of
    MatNdModel). *)
From mathcomp Require Import all_ssreflect all_algebra.
From Verif Require NdModel StiefelModel.
From Verif Require Import MatNdModel.
Import GRing.Theory Num.Theory.
Local Open Scope ring_scope.
Set Implicit Arguments. Unset Strict Implicit. Unset Printing Implicit Defensive.

Section Stiefel.
  Variable F : realFieldType.
  Notation mt := (mt F).
  Notation gt := (gt F).
  (** External routines, applied by torch to every matrix: reduced QR and SVD (the two
      outer factors) of a matrix with at least as many rows as columns, torch.matrix_exp. *)
  Variable qr : forall n p, 'M[F]_(n, p) -> 'M[F]_(n, p) * 'M[F]_p.
  Variable svd : forall n p, 'M[F]_(n, p) -> 'M[F]_(n, p) * 'M[F]_p.
  Variable expm : forall m, 'M[F]_m -> 'M[F]_m.

  (** Simplified: more columns than rows (excluded by _check_shape, 49-63) is [None]. *)
  Definition two_factors (f : forall n p, 'M[F]_(n, p) -> 'M[F]_(n, p) * 'M[F]_p) (t : mt) : option (mt * mt) :=
    let n := nrow t in let p := ncol t in
    if (p <= n)%N then
      Some (Mt (bsh t) n p (fun ix => entry (f n p (to_mx n p t ix)).1),
            Mt (bsh t) p p (fun ix => entry (f n p (to_mx n p t ix)).2))
    else None.

  (** 65-74 _check_point_on_manifold *)
  Definition check_point_nd (atol rtol : F) (x : mt) : option bool :=
    let? xtx := mm (tr x) x in
    let? xtx := add_diag (ncol x) (-1) xtx in
    Some (allclose0_nd atol rtol xtx).
  (** 76-83 _check_vector_on_tangent *)
  Definition check_vector_nd (atol rtol : F) (x u : mt) : option bool :=
    let? a := mm (tr u) x in
    let? b := mm (tr x) u in
    let? diff := pt2 +%R a b in
    Some (allclose0_nd atol rtol diff).
  (** 85-87 projx *)
  Definition projx_nd (x : mt) : option mt :=
    let? UV := two_factors svd x in mm UV.1 UV.2.
  (** 110-112 random_naive, from the draw of size [size] (after _check_shape) *)
  Definition random_nd (draw : mt) : option mt :=
    if StiefelModel.check_shape (nrow draw) (ncol draw) then
      let? QR := two_factors qr draw in Some QR.1
    else None.
  (** 116-138 origin for a size with batch shape [b] *)
  Definition origin_nd (b : seq nat) (n p : nat) : option mt :=
    if StiefelModel.check_shape n p then add_diag p 1 (Mt b n p (fun _ _ _ => 0)) else None.

  (** * CanonicalStiefel *)
  (** 152-154 *)
  Definition amat_nd (x u : mt) : option mt :=
    let? a := mm u (tr x) in
    let? b := mm x (tr u) in
    pt2 (fun a b => a - b) a b.
  (** 156-173 *)
  Definition canonical_inner_nd (x u : mt) (v : option mt) (keepdim : bool) : option gt :=
    let? xtu := mm (tr x) u in
    let? xtv_v := (if v is Some v then let? xtv := mm (tr x) v in Some (xtv, v) else Some (xtu, u)) in
    let? uv := pt2 *%R u xtv_v.2 in
    let? ww := pt2 *%R xtv_v.1 xtu in
    gpt2 (fun a b => a - b) (sum2 keepdim uv) (gpt1 ( *%R 2%:R^-1) (sum2 keepdim ww)).
  (** 175-183 *)
  Definition transp_follow_one_nd (x v u : mt) : option mt :=
    let? a := amat_nd x u in
    let? av := mm (pt1 ( *%R 2%:R^-1) a) v in
    let? rhs := pt2 +%R v av in
    let? lhs := (if nrow a == nrow x then add_diag (nrow a) 1 (pt1 ( *%R (- 2%:R^-1)) a) else None) in
    solve lhs rhs.
  (** 185-190 transp_follow_retr = transp_follow_expmap *)
  Definition transp_follow_retr_nd (x u v : mt) : option mt := transp_follow_one_nd x v u.
  (** 192-202 retr_transp = expmap_transp.  [view(x.shape[:-1] + (2, p))] keeps the entries in
      row-major order; here it keeps the row and splits the column, and reads the batch axes
      of the result in the batch shape of x; [unbind(-2)] takes the two halves. *)
  Definition view_batch (s : seq nat) (t : mt) : mt :=
    Mt s (nrow t) (ncol t) (fun ix => rd t (NdModel.unravel (bsh t) (NdModel.ravel s 0%N ix))).
  Definition columns (from len : nat) (t : mt) : mt :=
    Mt (bsh t) (nrow t) len (fun ix i j => rd t ix i (from + j)).
  Definition elements (s : seq nat) (n p : nat) : nat := (NdModel.numel s * (n * p))%N.
  Definition retr_transp_nd (x u v : mt) : option (mt * mt) :=
    let? xvs := cat_cols x v in
    let? q := transp_follow_one_nd x xvs u in
    if elements (bsh x) (nrow x) (2 * ncol x) == elements (bsh q) (nrow q) (ncol q) then
      let q := view_batch (bsh x) q in
      Some (columns 0 (ncol x) q, columns (ncol x) (ncol x) q)
    else None.
  (** 204-207 proju = egrad2rgrad *)
  Definition canonical_proju_nd (x u : mt) : option mt :=
    let? xut := mm x (tr u) in
    let? xutx := mm xut x in
    pt2 (fun a b => a - b) u xutx.
  (** 209-212 retr = expmap *)
  Definition canonical_retr_nd (x u : mt) : option mt := transp_follow_one_nd x x u.

  (** * EuclideanStiefel *)
  (** 226-229 proju = egrad2rgrad *)
  Definition euclidean_proju_nd (x u : mt) : option mt :=
    let? xtu := mm (tr x) u in
    let? s := sym_nd xtu in
    let? xs := mm x s in
    pt2 (fun a b => a - b) u xs.
  (** 231-232 transp *)
  Definition euclidean_transp_nd (x y v : mt) : option mt := euclidean_proju_nd y v.
  (** 234-239 inner *)
  Definition euclidean_inner_nd (x u : mt) (v : option mt) (keepdim : bool) : option gt :=
    let v := if v is Some v then v else u in
    let? uv := pt2 *%R u v in Some (sum2 keepdim uv).
  (** 241-245 retr; [q *= unflip[..., None, :]] *)
  Definition euclidean_retr_nd (x u : mt) : option mt :=
    let? xu := pt2 +%R x u in
    let? QR := two_factors qr xu in
    let d := gpt1 (fun r => Num.sg (Num.sg r + 2%:R^-1)) (extract_diag_nd QR.2) in
    let row := Mt (behead (gsh d)) 1 (head 1%N (gsh d))
                  (fun ix _ j => grd d (fun a => if a is a'.+1 then ix a' else j)) in
    pt2 *%R QR.1 row.
  (** 247-256 expmap *)
  Definition euclidean_expmap_nd (x u : mt) : option mt :=
    let? xtu := mm (tr x) u in
    let? utu := mm (tr u) u in
    let? eye := add_diag (nrow utu) 1 (zeros_like utu) in
    let? logw := block_matrix_nd [:: [:: xtu; pt1 -%R utu]; [:: eye; xtu]] in
    let? w := each expm logw in
    let? e := each expm (pt1 -%R xtu) in
    let? z := cat_rows e (zeros_like utu) in
    let? xu := cat_cols x u in
    let? y := mm xu w in
    mm y z.
End Stiefel.
