(** C122: the linalg helpers and the methods of Stiefel on tensors with any batch axes act on
    each matrix of the batch. *)
From mathcomp Require Import all_ssreflect all_algebra.
From Verif Require NdModel StereoNdSpec.
From Verif Require Import StiefelModel StiefelSpec MatNdModel MatNdSpec StiefelNdModel.
From Verif Require Import StiefelNdInst.
Import GRing.Theory Num.Theory.
Local Open Scope ring_scope.

(** One 3 x 2 matrix, and batches of four and of five times four: they broadcast. *)
Example C122_cases (F : realFieldType) :
  let x : mt F := Mt [::] 3 2 (fun _ i j => (i == j)%:R) in
  let u : mt F := Mt [:: 4; 1]%N 3 2 (fun ix i j => (ix 0%N + i * j)%:R) in
  let v : mt F := Mt [:: 4; 5]%N 3 2 (fun ix i j => (ix 1%N + i + j)%:R) in
  has_shape x [::] 3 2 /\ has_shape u [:: 4; 1]%N 3 2 /\ has_shape v [:: 4; 5]%N 3 2 /\
  bshape [::] [:: 4; 1]%N = Some [:: 4; 1]%N /\ bshape [:: 4; 1]%N [:: 4; 5]%N = Some [:: 4; 5]%N /\
  (forall ix, on_stiefel (to_mx 3 2 x ix)) /\ to_mx 3 2 u (fun _ => 1%N) <> to_mx 3 2 u (fun _ => 2%N).
Proof.
  do 5 (split; first by []); split.
  - move=> ix; apply/matrixP=> i j; rewrite !mxE !big_ord_recl big_ord0 !mxE addr0.
    case: i => [[|[|i]] // Hi]; case: j => [[|[|j]] // Hj]; by rewrite /rd /= ?mulr0 ?mul0r ?mulr1 ?addr0 ?add0r.
  - move/matrixP/(_ ord0 ord0); rewrite !mxE /rd /= => /eqP. by rewrite eqr_nat.
Qed.

Theorem C122_sym : forall (F : realFieldType) n, each1 (@sym_nd F) (@sym F n).
Proof. exact i_sym. Qed.
Print Assumptions C122_sym.

(** keepdim keeps one axis of size 1 *)
Theorem C122_trace : forall (F : realFieldType) (t : mt F) b n keepdim, has_shape t b n n ->
  gsh (trace_nd keepdim t) = (if keepdim then 1%N :: b else b) /\
  forall ix, grd (trace_nd keepdim t) ix = \tr (to_mx n n t (if keepdim then fun a => ix a.+1 else ix)).
Proof. exact i_trace. Qed.
Print Assumptions C122_trace.

Theorem C122_extract_diag : forall (F : realFieldType) (t : mt F) b n p, has_shape t b n p ->
  gsh (extract_diag_nd t) = minn n p :: b /\
  forall (ix : index) (i : 'I_n) (j : 'I_p), ix 0%N = i -> ix 0%N = j ->
    grd (extract_diag_nd t) ix = to_mx n p t (fun a => ix a.+1) i j.
Proof. exact i_diag. Qed.
Print Assumptions C122_extract_diag.

Theorem C122_block_matrix : forall (F : realFieldType) (A B C D : mt F) b n1 n2 p1 p2,
  has_shape A b n1 p1 -> has_shape B b n1 p2 -> has_shape C b n2 p1 -> has_shape D b n2 p2 ->
  gives (block_matrix_nd [:: [:: A; B]; [:: C; D]]) b
    (fun ix => block_mx (to_mx n1 p1 A ix) (to_mx n1 p2 B ix) (to_mx n2 p1 C ix) (to_mx n2 p2 D ix)).
Proof. exact i_block. Qed.
Print Assumptions C122_block_matrix.

Theorem C122_check_point : forall (F : realFieldType) (atol rtol : F) x b n p, has_shape x b n p ->
  gives_check (check_point_nd atol rtol x) b
    (fun ix => StiefelModel.check_point atol rtol (to_mx n p x ix)).
Proof. exact i_check_point. Qed.
Print Assumptions C122_check_point.

Theorem C122_check_vector : forall (F : realFieldType) (atol rtol : F) x u n p bx bu b,
  has_shape x bx n p -> has_shape u bu n p -> bshape bx bu = Some b ->
  gives_check (check_vector_nd atol rtol x u) b
    (fun ix => StiefelModel.check_vector atol rtol (to_mx n p x ix) (to_mx n p u ix)).
Proof. exact i_check_vector. Qed.
Print Assumptions C122_check_vector.

Theorem C122_projx : forall (F : realFieldType) svd n p, (p <= n)%N ->
  each1 (projx_nd svd) (fun m : 'M[F]_(n, p) => StiefelModel.projx (svd n p m).1 (svd n p m).2).
Proof. exact i_projx. Qed.
Print Assumptions C122_projx.

Theorem C122_random : forall (F : realFieldType) qr n p, (p <= n)%N ->
  each1 (random_nd qr) (fun m : 'M[F]_(n, p) => (qr n p m).1).
Proof. exact i_random. Qed.
Print Assumptions C122_random.

Theorem C122_origin : forall (F : realFieldType) b n p, (p <= n)%N ->
  gives (origin_nd F b n p) b (fun _ => StiefelModel.origin F n p).
Proof. exact i_origin. Qed.
Print Assumptions C122_origin.

(** more columns than rows *)
Theorem C122_wrong_shape : forall (F : realFieldType) qr (x : mt F) b n p, (n < p)%N -> has_shape x b n p ->
  random_nd qr x = None /\ origin_nd F b n p = None.
Proof. exact i_wrong_shape. Qed.
Print Assumptions C122_wrong_shape.

(** CanonicalStiefel *)
Theorem C122_canonical_proju : forall (F : realFieldType) n p, each2 (@canonical_proju_nd F) (@canonical_proju F n p).
Proof. exact i_cproju. Qed.
Print Assumptions C122_canonical_proju.

Theorem C122_canonical_retr : forall (F : realFieldType) n p, each2 (@canonical_retr_nd F) (@canonical_retr F n p).
Proof. exact i_cretr. Qed.
Print Assumptions C122_canonical_retr.

Theorem C122_transp_follow : forall (F : realFieldType) n p,
  each3 (@transp_follow_retr_nd F) (@transp_follow_retr F n p).
Proof. exact i_cfollow. Qed.
Print Assumptions C122_transp_follow.

Theorem C122_canonical_inner : forall (F : realFieldType) keepdim (x u v : mt F) n p bx bu bv b1 b,
  has_shape x bx n p -> has_shape u bu n p -> has_shape v bv n p ->
  bshape bx bu = Some b1 -> bshape b1 bv = Some b ->
  gives_scalar (canonical_inner_nd x u (Some v) keepdim) b keepdim
    (fun ix => canonical_inner (to_mx n p x ix) (to_mx n p u ix) (to_mx n p v ix)).
Proof. exact i_cinner. Qed.
Print Assumptions C122_canonical_inner.

Theorem C122_canonical_inner_self : forall (F : realFieldType) keepdim (x u : mt F) n p bx bu b,
  has_shape x bx n p -> has_shape u bu n p -> bshape bx bu = Some b ->
  gives_scalar (canonical_inner_nd x u None keepdim) b keepdim
    (fun ix => canonical_inner (to_mx n p x ix) (to_mx n p u ix) (to_mx n p u ix)).
Proof. exact i_cinner1. Qed.
Print Assumptions C122_canonical_inner_self.

(** retr_transp needs v with the batch of x, and u without further batch axes *)
Theorem C122_retr_transp : forall (F : realFieldType) (x u v : mt F) n p bx bu,
  has_shape x bx n p -> has_shape u bu n p -> has_shape v bx n p -> bshape bx bu = Some bx ->
  exists y w, retr_transp_nd x u v = Some (y, w) /\ has_shape y bx n p /\ has_shape w bx n p /\
    forall ix, StereoNdSpec.inside bx ix ->
      (to_mx n p y ix, to_mx n p w ix) =
      StiefelModel.retr_transp (to_mx n p x ix) (to_mx n p u ix) (to_mx n p v ix).
Proof. exact i_retr_transp. Qed.
Print Assumptions C122_retr_transp.

Theorem C122_retr_transp_vector_batch_refuted : forall (F : realFieldType) (x u v : mt F), bsh x <> bsh v ->
  retr_transp_nd x u v = None.
Proof. exact i_retr_transp_cat. Qed.
Print Assumptions C122_retr_transp_vector_batch_refuted.

Theorem C122_retr_transp_broadcast_refuted : forall (F : realFieldType) (x u v : mt F) n p bx bu b,
  (0 < n)%N -> (0 < p)%N -> has_shape x bx n p -> has_shape u bu n p -> has_shape v bx n p ->
  bshape bx bu = Some b -> NdModel.numel b <> NdModel.numel bx ->
  retr_transp_nd x u v = None /\ (exists y, canonical_retr_nd x u = Some y) /\
  (exists w, transp_follow_retr_nd x u v = Some w).
Proof. exact i_retr_transp_refuted. Qed.
Print Assumptions C122_retr_transp_broadcast_refuted.

(** EuclideanStiefel *)
Theorem C122_euclidean_proju : forall (F : realFieldType) n p, each2 (@euclidean_proju_nd F) (@euclidean_proju F n p).
Proof. exact i_eproju. Qed.
Print Assumptions C122_euclidean_proju.

(** transp(x, y, v) does not look at x *)
Theorem C122_euclidean_transp : forall (F : realFieldType) n p x0 (m0 : 'M[F]_(n, p)),
  each2 (euclidean_transp_nd x0) (euclidean_transp m0).
Proof. exact i_etransp. Qed.
Print Assumptions C122_euclidean_transp.

Theorem C122_euclidean_inner : forall (F : realFieldType) keepdim (x u v : mt F) n p bu bv b,
  has_shape u bu n p -> has_shape v bv n p -> bshape bu bv = Some b ->
  gives_scalar (euclidean_inner_nd x u (Some v) keepdim) b keepdim
    (fun ix => frob (to_mx n p u ix) (to_mx n p v ix)).
Proof. exact i_einner. Qed.
Print Assumptions C122_euclidean_inner.

Theorem C122_euclidean_inner_self : forall (F : realFieldType) keepdim (x u : mt F) n p bu,
  has_shape u bu n p ->
  gives_scalar (euclidean_inner_nd x u None keepdim) bu keepdim
    (fun ix => frob (to_mx n p u ix) (to_mx n p u ix)).
Proof. exact i_einner1. Qed.
Print Assumptions C122_euclidean_inner_self.

Theorem C122_euclidean_retr : forall (F : realFieldType) qr n p, (p <= n)%N ->
  each2 (euclidean_retr_nd qr)
    (fun x u : 'M[F]_(n, p) => euclidean_retr (qr n p (x + u)).1 (qr n p (x + u)).2).
Proof. exact i_eretr. Qed.
Print Assumptions C122_euclidean_retr.

(** expmap needs x and u with the same batch axes *)
Theorem C122_euclidean_expmap : forall (F : realFieldType) expm (x u : mt F) n p b,
  has_shape x b n p -> has_shape u b n p ->
  gives (euclidean_expmap_nd expm x u) b
    (fun ix => euclidean_expmap expm (to_mx n p x ix) (to_mx n p u ix)).
Proof. exact i_eexp. Qed.
Print Assumptions C122_euclidean_expmap.

Theorem C122_expmap_broadcast_refuted : forall (F : realFieldType) qr expm (x u : mt F) n p bx bu b, (p <= n)%N ->
  has_shape x bx n p -> has_shape u bu n p -> bshape bx bu = Some b -> bx <> bu ->
  (exists r, euclidean_retr_nd qr x u = Some r) /\ euclidean_expmap_nd expm x u = None.
Proof. exact i_eexp_refuted. Qed.
Print Assumptions C122_expmap_broadcast_refuted.

(** batches that do not broadcast raise *)
Theorem C122_raises : forall (F : realFieldType) n p,
  raises2 (@canonical_proju_nd F) n p /\ raises2 (@canonical_retr_nd F) n p /\
  raises2 (@euclidean_proju_nd F) n p /\ (forall qr, raises2 (@euclidean_retr_nd F qr) n p).
Proof. exact i_raises. Qed.
Print Assumptions C122_raises.

(** a whole batch of points stays on the manifold *)
Theorem C122_retr_on_manifold : forall (F : realFieldType) (x u : mt F) n p bx bu b,
  has_shape x bx n p -> has_shape u bu n p -> bshape bx bu = Some b ->
  (forall ix, on_stiefel (to_mx n p x ix)) ->
  exists y, canonical_retr_nd x u = Some y /\ has_shape y b n p /\
    (forall ix, on_stiefel (to_mx n p y ix)) /\ forall rtol, check_point_nd 0 rtol y = Some true.
Proof. exact i_retr_batch. Qed.
Print Assumptions C122_retr_on_manifold.
