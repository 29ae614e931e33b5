(** The methods of Stiefel act on every matrix of a batch. *)
From mathcomp Require Import all_ssreflect all_algebra.
From Verif Require NdModel StereoNdSpec NdProofs.
From Verif Require Import StiefelModel StiefelProofs MatNdModel MatNdShape MatNdSpec MatNdProofs StiefelNdModel.
Import GRing.Theory Num.Theory.
Local Open Scope ring_scope.
Set Implicit Arguments. Unset Strict Implicit. Unset Printing Implicit Defensive.

Section Proofs.
  Variable F : realFieldType.
  Variable T : nat -> nat.
  Variables n p : nat.
  Notation gm := (gm T).

  Lemma gm_two h t J (f : index -> 'M[F]_(n, p)) : gm t J f -> (p <= n)%N ->
    exists q r, two_factors h t = Some (q, r) /\ gm q J (fun ix => (h n p (f ix)).1) /\
      gm r J (fun ix => (h n p (f ix)).2).
  Proof.
    move=> G L; case: (G) => B N P C A; rewrite /two_factors N P L; do 2 eexists; split; first by [].
    split; split=> //= ix; apply/matrixP=> i j; rewrite !mxE rdM !one_ord entryE to_norm A //.
  Qed.
  Lemma gm_amat x u J K (f g : index -> 'M[F]_(n, p)) : gm x J f -> gm u K g ->
    exists2 r, amat_nd x u = Some r & gm r (join J K) (fun ix => amat (f ix) (g ix)).
  Proof.
    move=> X U; rewrite /amat_nd.
    have [a -> A] := gm_mm U (gm_tr X); have [b -> B] := gm_mm X (gm_tr U).
    have [r E R] := gm_pt2 (fun a b => a - b) A B; exists r => //.
    apply: gm_ext (gm_cast R _) _; last by move=> ix; apply/matrixP=> i j; rewrite !mxE.
    have C := gm_T X; have D := gm_T U; clear -C D; jsolve.
  Qed.
  Lemma gm_follow x v u J K L q (f g : index -> 'M[F]_(n, p)) (h : index -> 'M[F]_(n, q)) : gm x J f -> gm u K g -> gm v L h ->
    exists2 r, transp_follow_one_nd x v u = Some r & gm r (join (join J K) L) (fun ix => transp_follow_one (f ix) (h ix) (g ix)).
  Proof.
    move=> X U V; rewrite /transp_follow_one_nd.
    have [a -> A] := gm_amat X U; have [av -> B] := gm_mm (gm_pt1 ( *%R 2%:R^-1) A) V.
    have [rhs -> R] := gm_pt2 +%R V B.
    rewrite (gm_n A) (gm_n X) eqxx; have [l -> Lh] := gm_add_diag 1 (gm_pt1 ( *%R (- 2%:R^-1)) A).
    have Lh' : gm l (join J K) (fun ix => cayley_lhs (f ix) (g ix)).
      by apply: gm_ext Lh _ => ix; apply/matrixP=> i j; rewrite !mxE mulNr addrC.
    have [r E S] := gm_solve Lh' R (fun ix => lhs_unit (f ix) (g ix)); exists r => //.
    apply: gm_ext (gm_cast S _) _.
      have C := gm_T X; have D := gm_T U; have M := gm_T V; clear -C D M; jsolve.
    move=> ix; rewrite /transp_follow_one; congr (_ *m _); rewrite /cayley_rhs.
    apply/matrixP=> i j; rewrite !mxE; congr (_ + _); rewrite mulr_sumr.
    by apply: eq_bigr => k _; rewrite !mxE mulrA.
  Qed.
  Lemma gm_cproju x u J K (f g : index -> 'M[F]_(n, p)) : gm x J f -> gm u K g ->
    exists2 r, canonical_proju_nd x u = Some r & gm r (join J K) (fun ix => canonical_proju (f ix) (g ix)).
  Proof.
    move=> X U; rewrite /canonical_proju_nd.
    have [a -> A] := gm_mm X (gm_tr U); have [b -> B] := gm_mm A X.
    have [r E R] := gm_pt2 (fun a b => a - b) U B; exists r => //.
    apply: gm_ext (gm_cast R _) _; last by move=> ix; apply/matrixP=> i j; rewrite !mxE.
    have C := gm_T X; have D := gm_T U; clear -C D; jsolve.
  Qed.
  Lemma gm_eproju x u J K (f g : index -> 'M[F]_(n, p)) : gm x J f -> gm u K g ->
    exists2 r, euclidean_proju_nd x u = Some r & gm r (join J K) (fun ix => euclidean_proju (f ix) (g ix)).
  Proof.
    move=> X U; rewrite /euclidean_proju_nd.
    have [a -> A] := gm_mm (gm_tr X) U; have [s -> S] := gm_sym A; have [b -> B] := gm_mm X S.
    have [r E R] := gm_pt2 (fun a b => a - b) U B; exists r => //.
    apply: gm_ext (gm_cast R _) _; last by move=> ix; apply/matrixP=> i j; rewrite !mxE.
    have C := gm_T X; have D := gm_T U; clear -C D; jsolve.
  Qed.
  Lemma gs_cinner keep x u v J K L (f g h : index -> 'M[F]_(n, p)) : gm x J f -> gm u K g -> gm v L h ->
    exists2 r, canonical_inner_nd x u (Some v) keep = Some r &
      gs T keep r (join (join J K) L) (fun ix => canonical_inner (f ix) (g ix) (h ix)).
  Proof.
    move=> X U V; rewrite /canonical_inner_nd.
    have [a -> A] := gm_mm (gm_tr X) U; have [b -> B] := gm_mm (gm_tr X) V => /=.
    have [c -> C] := gm_pt2 *%R U V; have [d -> D] := gm_pt2 *%R B A.
    have [r E R] := gs_pt2 (fun a b => a - b) (gs_sum2 keep C) (gs_pt1 ( *%R 2%:R^-1) (gs_sum2 keep D)); exists r => //.
    have Q : join (join K L) (join (join J L) (join J K)) = join (join J K) L.
      have CJ := gm_T X; have CK := gm_T U; have CL := gm_T V; clear -CJ CK CL; jsolve.
    rewrite Q in R; apply: gs_ext R _ => ix; rewrite /canonical_inner /frob.
    congr (_ - _ * _); apply: eq_bigr => i _; apply: eq_bigr => j _; by rewrite !mxE.
  Qed.
  Lemma cinner_none keep (x u : mt F) : canonical_inner_nd x u None keep = canonical_inner_nd x u (Some u) keep.
  Proof. by rewrite /canonical_inner_nd; case: (mm (tr x) u) => [a|//]. Qed.
  Lemma gs_einner keep x u v K L (g h : index -> 'M[F]_(n, p)) : gm u K g -> gm v L h ->
    exists2 r, euclidean_inner_nd x u (Some v) keep = Some r &
      gs T keep r (join K L) (fun ix => frob (g ix) (h ix)).
  Proof.
    move=> U V; rewrite /euclidean_inner_nd; have [c -> C] := gm_pt2 *%R U V; eexists; first by [].
    apply: gs_ext (gs_sum2 keep C) _ => ix; rewrite /frob.
    by apply: eq_bigr => i _; apply: eq_bigr => j _; rewrite !mxE.
  Qed.
  Lemma gm_eretr qr x u J K (f g : index -> 'M[F]_(n, p)) : gm x J f -> gm u K g -> (p <= n)%N ->
    exists2 r, euclidean_retr_nd qr x u = Some r &
      gm r (join J K) (fun ix => let qr := qr n p (f ix + g ix) in euclidean_retr qr.1 qr.2).
  Proof.
    move=> X U L; rewrite /euclidean_retr_nd; have [s -> S] := gm_pt2 +%R X U.
    have [q [r [-> [Q R]]]] := gm_two qr S L => /=.
    rewrite (gm_b R) (gm_n R) (gm_p R) minnn /pt2 /= (gm_b Q) (gm_n Q) (gm_p Q) NdProofs.bs_self NdProofs.bdim_1r NdProofs.bdim_same.
    eexists; first by []. split=> //=; first exact: gm_T R.
    move=> ix; apply/matrixP=> i j; rewrite !mxE rdM !one_ord (gmE_n _ _ _ Q).
    have E : f ix + g ix = \matrix_(i, j) (f ix i j + g ix i j) by apply/matrixP=> a b; rewrite !mxE.
    rewrite E; congr (_ * _).
    rewrite !NdProofs.norm_idem -(gmE _ _ _ R); congr (Num.sg (Num.sg _ + _)).
    have Z w : norm_index (p :: join J K) (fun a => if a is a'.+1 then w a' else nat_of_ord j) 0%N = j.
      rewrite /NdModel.norm_index /=; case: PeanoNat.Nat.eqb_spec => // P1.
      by move: (ltn_ord j); rewrite {2}P1; case: (nat_of_ord j).
    rewrite !Z /rd (gm_b R); congr (ent r _ _ _).
    by rewrite norm_under1 /= NdProofs.norm_idem.
  Qed.
  Lemma gm_eexp expm x u J (f g : index -> 'M[F]_(n, p)) : gm x J f -> gm u J g ->
    exists2 r, euclidean_expmap_nd expm x u = Some r & gm r J (fun ix => euclidean_expmap expm (f ix) (g ix)).
  Proof.
    move=> X U; rewrite /euclidean_expmap_nd.
    have [a -> A] := gm_mm (gm_tr X) U; have [b -> B] := gm_mm (gm_tr U) U.
    rewrite join_same in A; rewrite join_same in B.
    have Z := gm_zeros B; rewrite (gm_n B); have [e -> E] := gm_add_diag 1 Z.
    have [l -> Lw] := gm_block A (gm_pt1 -%R B) E A.
    have [w -> W] := gm_each expm Lw; have [m -> M] := gm_each expm (gm_pt1 -%R A).
    have [z -> Zz] := gm_cat_rows M Z; have [xu -> XU] := gm_cat_cols X U.
    have [y -> Y] := gm_mm XU W; have [r R G] := gm_mm Y Zz; exists r => //.
    rewrite !join_same in G; apply: gm_ext G _ => ix; rewrite /euclidean_expmap.
    have N (c : 'M[F]_p) : map_mx -%R c = - c by apply/matrixP=> i j; rewrite !mxE.
    by rewrite !N add0r.
  Qed.
  Lemma gm_projx svd x J (f : index -> 'M[F]_(n, p)) : gm x J f -> (p <= n)%N ->
    exists2 r, projx_nd svd x = Some r & gm r J (fun ix => let uv := svd n p (f ix) in projx uv.1 uv.2).
  Proof.
    move=> X L; rewrite /projx_nd; have [q [r [-> [Q R]]]] := gm_two svd X L => /=.
    have [z E Z] := gm_mm Q R; rewrite join_same in Z; by exists z.
  Qed.
End Proofs.
