(** The statements of C122, from StiefelNdProofs. *)
From mathcomp Require Import all_ssreflect all_algebra.
From Verif Require NdModel StereoNdSpec NdProofs.
From Verif Require Import StiefelModel StiefelSpec StiefelProofs MatNdModel MatNdShape MatNdSpec MatNdProofs StiefelNdModel StiefelNdProofs.
Import GRing.Theory Num.Theory.
Local Open Scope ring_scope.
Set Implicit Arguments. Unset Strict Implicit. Unset Printing Implicit Defensive.

Section Inst.
  Variable F : realFieldType.
  Notation mt := (mt F).

  Lemma shape2 bx by_ b : bshape bx by_ = Some b ->
    exists T, compat T bx /\ compat T by_ /\ b = join bx by_.
  Proof. by move/bshape_is_join => [E [A B]]; exists (fun c => List.nth c b 1%N). Qed.
  Lemma shape3 bx by_ bz b1 b : bshape bx by_ = Some b1 -> bshape b1 bz = Some b ->
    exists T, compat T bx /\ compat T by_ /\ compat T bz /\ b = join (join bx by_) bz.
  Proof.
    move=> /bshape_is_join [E [A B]] /bshape_is_join [E' [A' B']]; exists (fun c => List.nth c b 1%N).
    by split; [apply: compat_trans A A'|split; [apply: compat_trans B A'|split=> //; rewrite -E]].
  Qed.
  Lemma shape1 b : exists T, compat T b.
  Proof. by exists (fun c => List.nth c b 1%N); apply: compat_self. Qed.

  (** ** linalg *)
  Lemma i_sym n : each1 (@sym_nd F) (@sym F n).
  Proof.
    move=> x b X; have [T C] := shape1 b; have [r E R] := gm_sym (gm_of X C); exact: gives_gm E R _.
  Qed.
  Lemma i_trace (t : mt) b n keep : has_shape t b n n ->
    gsh (trace_nd keep t) = (if keep then 1%N :: b else b) /\
    forall ix, grd (trace_nd keep t) ix = \tr (to_mx n n t (if keep then fun a => ix a.+1 else ix)).
  Proof.
    case=> [B [N P]]; rewrite /trace_nd N P B minnn; split=> // ix.
    rewrite /grd /mxtrace; apply: eq_bigr => k _; rewrite mxE /rd B.
    congr (ent t _ _ _); case: keep => /=; [exact: norm_under1|exact: NdProofs.norm_idem].
  Qed.
  Lemma i_diag (t : mt) b n p : has_shape t b n p ->
    gsh (extract_diag_nd t) = minn n p :: b /\
    forall (ix : index) (i : 'I_n) (j : 'I_p), ix 0%N = i -> ix 0%N = j ->
      grd (extract_diag_nd t) ix = to_mx n p t (fun a => ix a.+1) i j.
  Proof.
    case=> [B [N P]]; rewrite /extract_diag_nd N P B; split=> // ix i j I J.
    rewrite mxE /grd /=.
    have Z : norm_index (minn n p :: b) ix 0%N = i.
      rewrite /NdModel.norm_index /=; case: PeanoNat.Nat.eqb_spec => // M1.
      have : (i < minn n p)%N by rewrite leq_min ltn_ord -I J ltn_ord.
      by rewrite M1; case: (nat_of_ord i).
    have IJ : nat_of_ord j = i by rewrite -I -J.
    by rewrite Z IJ /rd B N P norm_under1.
  Qed.
  Lemma i_block A B C D b n1 n2 p1 p2 : has_shape A b n1 p1 -> has_shape B b n1 p2 ->
    has_shape C b n2 p1 -> has_shape D b n2 p2 ->
    gives (block_matrix_nd [:: [:: A; B]; [:: C; D]] : option mt) b
      (fun ix => block_mx (to_mx n1 p1 A ix) (to_mx n1 p2 B ix) (to_mx n2 p1 C ix) (to_mx n2 p2 D ix)).
  Proof.
    move=> HA HB HC HD; have [T K] := shape1 b.
    have [r E R] := gm_block (gm_of HA K) (gm_of HB K) (gm_of HC K) (gm_of HD K); exact: gives_gm E R _.
  Qed.

  (** ** Stiefel *)
  Lemma i_check_point atol rtol x b n p : has_shape x b n p ->
    gives_check (check_point_nd atol rtol x) b (fun ix => StiefelModel.check_point atol rtol (to_mx n p x ix : 'M[F]_(n, p))).
  Proof.
    move=> X; have [T C] := shape1 b; have G := gm_of X C; rewrite /check_point_nd.
    have [a -> A] := gm_mm (gm_tr G) G; rewrite join_same in A; rewrite (gm_p G).
    have [d -> D] := gm_add_diag (-1) A; eexists; split; first by [].
    rewrite (allclose0P _ _ D); split=> H ix I; have := H ix I; rewrite /StiefelModel.check_point;
      by have -> : (-1)%:M = - 1%:M :> 'M[F]_p by rewrite raddfN.
  Qed.
  Lemma i_check_vector atol rtol x u n p bx bu b : has_shape x bx n p -> has_shape u bu n p -> bshape bx bu = Some b ->
    gives_check (check_vector_nd atol rtol x u) b
      (fun ix => StiefelModel.check_vector atol rtol (to_mx n p x ix : 'M[F]_(n, p)) (to_mx n p u ix)).
  Proof.
    move=> X U B; have [T [CX [CU Eb]]] := shape2 B; have G := gm_of X CX; have H := gm_of U CU; rewrite /check_vector_nd.
    have [a -> A] := gm_mm (gm_tr H) G; have [c -> C] := gm_mm (gm_tr G) H.
    have [d -> D] := gm_pt2 +%R A C; eexists; split; first by [].
    have Q : join (join bu bx) (join bx bu) = b by rewrite Eb; clear -CX CU; jsolve.
    rewrite Q in D; rewrite (allclose0P _ _ D).
    have W (m m' : 'M[F]_p) : \matrix_(i, j) (m i j + m' i j) = m + m' by apply/matrixP=> i j; rewrite !mxE.
    by split=> K ix I; have := K ix I; rewrite W.
  Qed.
  Lemma i_projx svd n p : (p <= n)%N ->
    each1 (projx_nd svd) (fun m : 'M[F]_(n, p) => StiefelModel.projx (svd n p m).1 (svd n p m).2).
  Proof.
    move=> L x b X; have [T C] := shape1 b; have [r E R] := gm_projx svd (gm_of X C) L; exact: gives_gm E R _.
  Qed.
  Lemma i_random qr n p : (p <= n)%N -> each1 (random_nd qr) (fun m : 'M[F]_(n, p) => (qr n p m).1).
  Proof.
    move=> L x b X; have [T C] := shape1 b; rewrite /random_nd.
    have [q [r [-> [Q R]]]] := gm_two qr (gm_of X C) L; case: X => [_ [-> ->]]; rewrite /check_shape L.
    by apply: gives_gm Q _.
  Qed.
  Lemma i_origin b n p : (p <= n)%N -> gives (origin_nd F b n p) b (fun _ => StiefelModel.origin F n p).
  Proof.
    move=> L; rewrite /origin_nd /check_shape L /add_diag /= L leqnn; eexists; split; first by [].
    split=> // ix; apply/matrixP=> i j; rewrite !mxE rdM !one_ord /= add0r.
    by case: eqP => //= ->; rewrite ltn_ord.
  Qed.
  Lemma i_wrong_shape qr (x : mt) b n p : (n < p)%N -> has_shape x b n p -> random_nd qr x = None /\ origin_nd F b n p = None.
  Proof.
    move=> L [B [N P]]; rewrite /random_nd /origin_nd /check_shape N P leqNgt L /=. by [].
  Qed.
  Lemma i_cproju n p : each2 (@canonical_proju_nd F) (@canonical_proju F n p).
  Proof.
    move=> x u bx bu b X U B; have [T [CX [CU ->]]] := shape2 B.
    have [r E R] := gm_cproju (gm_of X CX) (gm_of U CU); exact: gives_gm E R _.
  Qed.
  Lemma i_eproju n p : each2 (@euclidean_proju_nd F) (@euclidean_proju F n p).
  Proof.
    move=> x u bx bu b X U B; have [T [CX [CU ->]]] := shape2 B.
    have [r E R] := gm_eproju (gm_of X CX) (gm_of U CU); exact: gives_gm E R _.
  Qed.
  Lemma i_etransp n p x0 (m0 : 'M[F]_(n, p)) : each2 (euclidean_transp_nd x0) (euclidean_transp m0).
  Proof. exact: i_eproju. Qed.
  Lemma i_cretr n p : each2 (@canonical_retr_nd F) (@canonical_retr F n p).
  Proof.
    move=> x u bx bu b X U B; have [T [CX [CU ->]]] := shape2 B.
    have [r E R] := gm_follow (gm_of X CX) (gm_of U CU) (gm_of X CX); apply: gives_gm E R _.
    clear -CX CU; jsolve.
  Qed.
  Lemma i_cfollow n p : each3 (@transp_follow_retr_nd F) (@transp_follow_retr F n p).
  Proof.
    move=> x u v bx bu bv b1 b X U V B B'; have [T [CX [CU [CV ->]]]] := shape3 B B'.
    have [r E R] := gm_follow (gm_of X CX) (gm_of U CU) (gm_of V CV); exact: gives_gm E R _.
  Qed.
  Lemma i_cinner keep x u v n p bx bu bv b1 b : has_shape x bx n p -> has_shape u bu n p -> has_shape v bv n p ->
    bshape bx bu = Some b1 -> bshape b1 bv = Some b ->
    gives_scalar (canonical_inner_nd x u (Some v) keep) b keep
      (fun ix => canonical_inner (to_mx n p x ix : 'M[F]_(n, p)) (to_mx n p u ix) (to_mx n p v ix)).
  Proof.
    move=> X U V B B'; have [T [CX [CU [CV ->]]]] := shape3 B B'.
    have [r E R] := gs_cinner keep (gm_of X CX) (gm_of U CU) (gm_of V CV); exact: gives_gs E R _.
  Qed.
  Lemma i_cinner1 keep x u n p bx bu b : has_shape x bx n p -> has_shape u bu n p -> bshape bx bu = Some b ->
    gives_scalar (canonical_inner_nd x u None keep) b keep
      (fun ix => canonical_inner (to_mx n p x ix : 'M[F]_(n, p)) (to_mx n p u ix) (to_mx n p u ix)).
  Proof.
    move=> X U B; rewrite cinner_none; apply: (i_cinner keep X U U B).
    by move/bshape_is_join: B => [-> [CX CU]]; rewrite (bshape_join _ _ _ (compat_join _ _ _ CX CU) CU) join_assoc join_same.
  Qed.
  Lemma i_einner keep x u v n p bu bv b : has_shape u bu n p -> has_shape v bv n p -> bshape bu bv = Some b ->
    gives_scalar (euclidean_inner_nd x u (Some v) keep) b keep
      (fun ix => frob (to_mx n p u ix : 'M[F]_(n, p)) (to_mx n p v ix)).
  Proof.
    move=> U V B; have [T [CU [CV ->]]] := shape2 B.
    have [r E R] := gs_einner keep x (gm_of U CU) (gm_of V CV); exact: gives_gs E R _.
  Qed.
  Lemma i_einner1 keep x u n p bu : has_shape u bu n p ->
    gives_scalar (euclidean_inner_nd x u None keep) bu keep
      (fun ix => frob (to_mx n p u ix : 'M[F]_(n, p)) (to_mx n p u ix)).
  Proof. move=> U; exact: (i_einner keep x U U (NdProofs.bs_self bu)). Qed.
  Lemma i_eretr qr n p : (p <= n)%N -> each2 (euclidean_retr_nd qr)
    (fun x u : 'M[F]_(n, p) => euclidean_retr (qr n p (x + u)).1 (qr n p (x + u)).2).
  Proof.
    move=> L x u bx bu b X U B; have [T [CX [CU ->]]] := shape2 B.
    have [r E R] := gm_eretr qr (gm_of X CX) (gm_of U CU) L; exact: gives_gm E R _.
  Qed.
  Lemma i_eexp expm x u n p b : has_shape x b n p -> has_shape u b n p ->
    gives (euclidean_expmap_nd expm x u) b
      (fun ix => euclidean_expmap expm (to_mx n p x ix : 'M[F]_(n, p)) (to_mx n p u ix)).
  Proof.
    move=> X U; have [T C] := shape1 b.
    have [r E R] := gm_eexp expm (gm_of X C) (gm_of U C); exact: gives_gm E R _.
  Qed.
  Lemma i_eexp_raises expm (x u : mt) : bsh x <> bsh u -> euclidean_expmap_nd expm x u = None.
  Proof.
    move=> /eqP H; rewrite /euclidean_expmap_nd; case: (mm _ _) => // a; case: (mm _ _) => // c.
    case: (add_diag _ _ _) => // e; case: (block_matrix_nd _) => // l; case: (each _ _) => // w; case: (each _ _) => // m.
    by case: (cat_rows _ _) => // z; rewrite /cat_cols (negPf H).
  Qed.
  Lemma i_eexp_refuted qr expm (x u : mt) n p bx bu b : (p <= n)%N -> has_shape x bx n p -> has_shape u bu n p ->
    bshape bx bu = Some b -> bx <> bu ->
    (exists r, euclidean_retr_nd qr x u = Some r) /\ euclidean_expmap_nd expm x u = None.
  Proof.
    move=> L X U B N; split; first by have [r [E _]] := i_eretr qr L X U B; exists r.
    by apply: i_eexp_raises; case: X => -> _; case: U => -> _.
  Qed.

  (** retr_transp *)
  Lemma i_retr_transp x u v n p bx bu : has_shape x bx n p -> has_shape u bu n p -> has_shape v bx n p ->
    bshape bx bu = Some bx ->
    exists y w, retr_transp_nd x u v = Some (y, w) /\ has_shape y bx n p /\ has_shape w bx n p /\
      forall ix, StereoNdSpec.inside bx ix ->
        (to_mx n p y ix, to_mx n p w ix) = StiefelModel.retr_transp (to_mx n p x ix : 'M[F]_(n, p)) (to_mx n p u ix) (to_mx n p v ix).
  Proof.
    move=> X U V B; have [T [CX [CU Eb]]] := shape2 B.
    have G := gm_of X CX; have H := gm_of U CU; have K := gm_of V CX; rewrite /retr_transp_nd.
    have [xv -> XV] := gm_cat_cols G K; have [q -> Q] := gm_follow G H XV.
    rewrite -Eb join_same in Q.
    rewrite (gm_b G) (gm_n G) (gm_p G) (gm_b Q) (gm_n Q) (gm_p Q) mul2n addnn eqxx.
    do 2 eexists; split; first by []. split; first by rewrite /has_shape /= (gm_n Q).
    split; first by rewrite /has_shape /= (gm_n Q).
    move=> ix I; rewrite /retr_transp.
    set Y := transp_follow_one _ _ _.
    have R (i : 'I_n) (j : 'I_(p + p)) : rd (view_batch bx q) (norm_index bx ix) i j = Y i j.
      rewrite /Y -(gm_at Q) mxE /view_batch rdM (gm_n Q) (gm_p Q) !one_ord.
      rewrite /rd (gm_b Q) NdProofs.norm_idem; congr (ent q _ _ _).
      exact: norm_view.
    congr (_, _); apply/matrixP=> i j; rewrite [LHS]mxE [RHS]mxE.
    - rewrite -R -[LHS]/(rd (view_batch bx q) (norm_index bx ix) (one_or (nrow q) i) (0 + one_or p j)).
      by rewrite (gm_n Q) !one_ord.
    - rewrite -R -[LHS]/(rd (view_batch bx q) (norm_index bx ix) (one_or (nrow q) i) (p + one_or p j)).
      by rewrite (gm_n Q) !one_ord.
  Qed.
  Lemma i_retr_transp_cat (x u v : mt) : bsh x <> bsh v -> retr_transp_nd x u v = None.
  Proof. by move=> /eqP H; rewrite /retr_transp_nd /cat_cols (negPf H). Qed.
  Lemma i_retr_transp_refuted (x u v : mt) n p bx bu b : (0 < n)%N -> (0 < p)%N ->
    has_shape x bx n p -> has_shape u bu n p -> has_shape v bx n p ->
    bshape bx bu = Some b -> NdModel.numel b <> NdModel.numel bx ->
    retr_transp_nd x u v = None /\ (exists y, canonical_retr_nd x u = Some y) /\
    (exists w, transp_follow_retr_nd x u v = Some w).
  Proof.
    move=> n0 p0 X U V B N.
    split; last first.
      split; first by have [r [E _]] := i_cretr X U B; exists r.
      have B' : bshape b bx = Some b by exact: NdProofs.bs_lower_l B.
      by have [r [E _]] := i_cfollow X U V B B'; exists r.
    have [T [CX [CU Eb]]] := shape2 B.
    have G := gm_of X CX; have H := gm_of U CU; have K := gm_of V CX; rewrite /retr_transp_nd.
    have [xv -> XV] := gm_cat_cols G K; have [q -> Q] := gm_follow G H XV.
    have Ebb : join (join bx bu) bx = b by rewrite Eb; clear -CX CU; jsolve.
    rewrite (gm_b G) (gm_n G) (gm_p G) (gm_b Q) (gm_n Q) (gm_p Q) Ebb mul2n addnn /elements.
    rewrite eqn_pmul2r ?muln_gt0 ?n0 ?double_gt0 //.
    by case: eqP => // E; case: N.
  Qed.

  (** ** Batches that do not broadcast *)
  Lemma mm_none (x y : mt) : bshape (bsh x) (bsh y) = None -> mm x y = None.
  Proof. by rewrite /mm => ->; case: eqP. Qed.
  Lemma bs_none bx bu : bshape bx bu = None -> bshape bu bx = None.
  Proof. by move=> H; case E: (bshape bu bx) => [s|] //; rewrite (NdProofs.bs_comm _ _ _ E) in H. Qed.
  Lemma pt2_none h (x y : mt) : bshape (bsh x) (bsh y) = None -> pt2 h x y = None.
  Proof. by rewrite /pt2 => ->. Qed.
  Lemma i_raises n p : raises2 (@canonical_proju_nd F) n p /\ raises2 (@canonical_retr_nd F) n p /\
    raises2 (@euclidean_proju_nd F) n p /\ (forall qr, raises2 (@euclidean_retr_nd F qr) n p).
  Proof.
    split; [|split; [|split]] => [|||qr] x u bx bu [X [_ _]] [U [_ _]] H.
    - by rewrite /canonical_proju_nd mm_none //= X U.
    - by rewrite /canonical_retr_nd /transp_follow_one_nd /amat_nd mm_none //= X U bs_none.
    - by rewrite /euclidean_proju_nd mm_none //= X U.
    - by rewrite /euclidean_retr_nd pt2_none // X U.
  Qed.

  (** ** Whole batches stay on the manifold *)
  Lemma i_retr_batch x u n p bx bu b : has_shape x bx n p -> has_shape u bu n p -> bshape bx bu = Some b ->
    (forall ix, on_stiefel (to_mx n p x ix : 'M[F]_(n, p))) ->
    exists y, canonical_retr_nd x u = Some y /\ has_shape y b n p /\ (forall ix, on_stiefel (to_mx n p y ix)) /\
      forall rtol, check_point_nd 0 rtol y = Some true.
  Proof.
    move=> X U B S; have [y [E [Y A]]] := i_cretr X U B; exists y; split=> //; split=> //.
    have W : forall ix, on_stiefel (to_mx n p y ix) by move=> ix; rewrite A; apply: retr_on; apply: S.
    split=> // rtol; have [ok [-> O]] := i_check_point 0 rtol Y; congr Some; apply/O => ix _.
    by apply/check_point_exact.
  Qed.
End Inst.
