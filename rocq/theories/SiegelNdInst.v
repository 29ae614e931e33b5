(** The statements of C125, from SiegelNdProofs. *)
From mathcomp Require Import all_ssreflect all_algebra.
From mathcomp.real_closed Require Import complex.
From Verif Require NdModel StereoNdSpec NdProofs StereoNdProofs SpdModel.
From Verif Require Import MatNdModel MatNdShape MatNdSpec MatNdProofs StiefelNdInst SpdNdModel SpdNdProofs SpdNdInst SiegelModel.
From Verif Require Import SiegelNdModel SiegelNdSpec SiegelNdProofs SiegelNdProofs2 SiegelNdProofs3.
Import GRing.Theory Num.Theory.
Local Open Scope ring_scope.
Local Open Scope complex_scope.
Set Implicit Arguments. Unset Strict Implicit. Unset Printing Implicit Defensive.

Section Inst.
  Variable F : rcfType.
  Notation C := F[i].
  Notation CF := (ComplexField.complex_fieldType F).
  Variable eigh : forall n, 'M[F]_n -> 'rV[F]_n * 'M[F]_n.
  Variable eigvalsh : forall n, 'M[F]_n -> 'rV[F]_n.
  Variable eigvalsh_c : forall n, 'M[C]_n -> 'rV[F]_n.
  Variable eighU : forall n, 'M[F]_n -> 'rV[F]_n * 'M[F]_n.
  Variable matrix_exp : forall n, 'M[F]_n -> 'M[F]_n.
  Variable log : F -> F.
  Variable p : precision.
  Implicit Types (x z u : mt CF).

  Lemma to_l n z J I ix : bsh z = J -> to_mx n n z (norm_index (join J I) ix) = to_mx n n z ix.
  Proof. by move=> <-; apply/matrixP=> i j; rewrite !mxE /rd norm_l. Qed.
  Lemma to_r T n z J I ix : compat T J -> compat T I -> bsh z = I -> to_mx n n z (norm_index (join J I) ix) = to_mx n n z ix.
  Proof. by move=> A B E; rewrite (join_comm T) //; exact: to_l. Qed.

  Lemma q_part T n o J (f : index -> res 'M[CF]_n) : (forall ix, f (norm_index J ix) = f ix) ->
    part T o J f -> gives_or_raises o J f.
  Proof.
    move=> E [A B]; split.
    - move=> H; have [|r [Er [[Rb Rn Rp _ _] V]]] := A; first by move=> ix I; rewrite -E; exact: H.
      by exists r; split=> //; split=> // ix I; exact: V (inside_ins I).
    - by move=> [ix [e [I Ef]]]; exact: B (inside_ins I) Ef.
  Qed.
  Lemma q_scal (K : fieldType) (o : option (gt K)) J sh at_ f : (forall ix, f (norm_index J ix) = f ix) ->
    pscal o J sh at_ f -> scalars_or_raises o J sh at_ f.
  Proof.
    move=> E [A B]; split.
    - move=> H; have [|r [Er Sr V]] := A; first by move=> ix I; have [a Ea] := H _ I; rewrite -E Ea.
      by exists r; split=> //; split=> // ix I; exact: V (inside_ins I).
    - by move=> [ix [e [I Ef]]]; apply: B (inside_ins I) _; rewrite Ef.
  Qed.

  (** ** csym_math *)
  Lemma q_takagi n z b : has_shape z b n n -> exists e s, takagi_eig_nd eigh z = Some (e, s) /\
    gsh e = n :: b /\ has_shape s b n n /\ forall ix,
      to_mx n n s ix = (takagi_eig eigh (to_mx n n z ix)).2 /\
      forall j : 'I_n, grd e (at_last j ix) = (takagi_eig eigh (to_mx n n z ix)).1 ord0 j.
  Proof.
    move=> X; have [T Cb] := shape1 b; have [e [s [E [Ge Gs]]]] := g_takagi eigh (gm_of X Cb); exists e, s; split=> //.
    split; first exact: gv_b Ge. case: (Gs) => Sb Sn Sp _ A; split=> //; move=> ix; split; first exact: A.
    by move=> j; rewrite (gv_grd _ _ Ge).
  Qed.
  Lemma q_takagi_vals n z b : has_shape z b n n -> exists e, takagi_eigvals_nd eigvalsh z = Some e /\
    gsh e = n :: b /\ forall ix (j : 'I_n), grd e (at_last j ix) = takagi_eigvals eigvalsh (to_mx n n z ix) ord0 j.
  Proof.
    move=> X; have [T Cb] := shape1 b; have [e E Ge] := g_takagi_vals eigvalsh (gm_of X Cb); exists e; split=> //.
    split; first exact: gv_b Ge. by move=> ix j; rewrite (gv_grd _ _ Ge).
  Qed.
  Lemma q_cayley n z b : has_shape z b n n ->
    gives_or_raises (cayley_transform_nd z) b (fun ix => cayley_transform (to_mx n n z ix)) /\
    gives_or_raises (inverse_cayley_transform_nd z) b (fun ix => inverse_cayley_transform (to_mx n n z ix)).
  Proof.
    move=> X; have [T Cb] := shape1 b; have G := gm_of X Cb; have E ix : to_mx n n z (norm_index b ix) = to_mx n n z ix by case: X => <- _; exact: to_norm.
    by split; [apply: q_part (g_cayley G)|apply: q_part (g_inv_cayley G)] => ix; rewrite E.
  Qed.
  Lemma q_pcp n : each1 (positive_conjugate_projection_nd eigh p) (@positive_conjugate_projection F eigh p n).
  Proof. by move=> x b X; have [T Cb] := shape1 b; have [r E R] := g_pcp eigh p (gm_of X Cb); exact: gives_gm E R _. Qed.

  (** ** methods *)
  Lemma q_uh_projx n : each1 (uh_projx_nd eigh p) (@uh_projx F eigh p n).
  Proof. by move=> x b X; have [T Cb] := shape1 b; have [r E R] := g_uh_projx eigh p (gm_of X Cb); exact: gives_gm E R _. Qed.
  Lemma q_bd_projx n : each1 (bd_projx_nd eigh p) (@bd_projx F eigh p n).
  Proof. by move=> x b X; have [T Cb] := shape1 b; have [r E R] := g_bd_projx eigh p (gm_of X Cb); exact: gives_gm E R _. Qed.
  Lemma q_uh_rgrad n : each2 (@uh_egrad2rgrad_nd F) (@uh_egrad2rgrad F n).
  Proof.
    move=> x u bx bu b X U B; have [T [CX [CU ->]]] := shape2 B.
    have [r E R] := g_uh_rgrad (gm_of X CX) (gm_of U CU); exact: gives_gm E R _.
  Qed.
  Lemma q_bd_rgrad n : each2 (@bd_egrad2rgrad_nd F) (@bd_egrad2rgrad F n).
  Proof.
    move=> x u bx bu b X U B; have [T [CX [CU ->]]] := shape2 B.
    have [r E R] := g_bd_rgrad (gm_of X CX) (gm_of U CU); exact: gives_gm E R _.
  Qed.
  Lemma q_uh_retr n : each2 (uh_retr_nd eigh p) (@uh_retr F eigh p n).
  Proof.
    move=> x u bx bu b X U B; have [T [CX [CU ->]]] := shape2 B; rewrite /uh_retr_nd.
    have [s -> S] := g_add (gm_of X CX) (gm_of U CU); have [r E R] := g_uh_projx eigh p S; exact: gives_gm E R _.
  Qed.
  Lemma q_bd_retr n : each2 (bd_retr_nd eigh p) (@bd_retr F eigh p n).
  Proof.
    move=> x u bx bu b X U B; have [T [CX [CU ->]]] := shape2 B; rewrite /bd_retr_nd.
    have [s -> S] := g_add (gm_of X CX) (gm_of U CU); have [r E R] := g_bd_projx eigh p S; exact: gives_gm E R _.
  Qed.
  Lemma q_uh_random n : each1 (uh_random_nd matrix_exp) (@uh_random F matrix_exp n).
  Proof. by move=> x b X; have [T Cb] := shape1 b; have [r E R] := g_uh_random matrix_exp (gm_of X Cb); exact: gives_gm E R _. Qed.
  Lemma q_bd_random n z b : has_shape z b n n ->
    gives_or_raises (bd_random_nd matrix_exp z) b (fun ix => bd_random matrix_exp (to_mx n n z ix)).
  Proof.
    move=> X; have [T Cb] := shape1 b; have G := gm_of X Cb; rewrite /bd_random_nd.
    have [r -> R] := g_uh_random matrix_exp G; apply: q_part (g_inv_cayley R) => ix.
    by case: X => <- _; rewrite to_norm.
  Qed.
  Lemma q_dist m keep n z1 z2 b1 b2 b ix0 : has_shape z1 b1 n n -> has_shape z2 b2 n n -> bshape b1 b2 = Some b -> inside b ix0 ->
    scalars_or_raises (uh_dist_nd eigvalsh eighU log p m z1 z2 keep) b (result_shape m b) (result_at m)
      (fun ix => uh_dist eigvalsh eighU log p m (to_mx n n z1 ix) (to_mx n n z2 ix)).
  Proof.
    move=> X Y B; have [T [CX [CY ->]]] := shape2 B => I0.
    apply: q_scal (g_dist eigvalsh eighU log p (gm_of X CX) (gm_of Y CY) m keep (inside_ins I0)) => ix.
    by rewrite to_l ?(to_r _ _ CX CY) //; [case: Y|case: X].
  Qed.
  Lemma q_bd_dist m keep n z1 z2 b1 b2 b ix0 : has_shape z1 b1 n n -> has_shape z2 b2 n n -> bshape b1 b2 = Some b -> inside b ix0 ->
    scalars_or_raises (bd_dist_nd eigvalsh eighU log p m z1 z2 keep) b (result_shape m b) (result_at m)
      (fun ix => bd_dist eigvalsh eighU log p m (to_mx n n z1 ix) (to_mx n n z2 ix)).
  Proof.
    move=> X Y B; have [T [CX [CY ->]]] := shape2 B => I0.
    apply: q_scal (g_bd_dist eigvalsh eighU log p m keep (gm_of X CX) (gm_of Y CY) I0) => ix.
    by rewrite to_l ?(to_r _ _ CX CY) //; [case: Y|case: X].
  Qed.
  Lemma q_inner keep n z u v bz bu bv b1 b ix0 : has_shape z bz n n -> has_shape u bu n n -> has_shape v bv n n ->
    bshape bz bu = Some b1 -> bshape b1 bv = Some b -> inside b ix0 ->
    scalars_or_raises (uh_inner_nd z u (Some v) keep) b (if keep then 1%N :: b else b) (if keep then drop_last else id)
      (fun ix => uh_inner (to_mx n n z ix) (to_mx n n u ix) (to_mx n n v ix)) /\
    scalars_or_raises (bd_inner_nd z u (Some v) keep) b (if keep then 1%N :: b else b) (if keep then drop_last else id)
      (fun ix => bd_inner (to_mx n n z ix) (to_mx n n u ix) (to_mx n n v ix)).
  Proof.
    move=> X U V B B'; have [T [CX [CU [CV ->]]]] := shape3 B B' => I0.
    have -> : (if keep then drop_last else id) = under1 keep by case: keep.
    have E ix : [/\ to_mx n n z (norm_index (join (join bz bu) bv) ix) = to_mx n n z ix,
      to_mx n n u (norm_index (join (join bz bu) bv) ix) = to_mx n n u ix & to_mx n n v (norm_index (join (join bz bu) bv) ix) = to_mx n n v ix].
      case: (X) => Xb _; case: (U) => Ub _; case: (V) => Vb _; split.
      - by rewrite join_assoc to_l.
      - by rewrite (join_comm T bz) // join_assoc to_l.
      - by apply: to_r CV _ => //; exact: compat_join.
    by split; [apply: q_scal (g_uh_inner (gm_of X CX) (gm_of U CU) (gm_of V CV) keep I0)|
      apply: q_scal (g_bd_inner (gm_of X CX) (gm_of U CU) (gm_of V CV) keep I0)] => ix; have [-> -> ->] := E ix.
  Qed.
  (** ** checks *)
  Lemma q_uh_check atol rtol n z b : has_shape z b n n ->
    gives_check (uh_check_point_nd eigvalsh atol rtol z) b (fun ix => uh_check_point eigvalsh atol rtol (to_mx n n z ix)).
  Proof. by move=> X; have [T Cb] := shape1 b; have [ok E V] := g_uh_check eigvalsh (gm_of X Cb) atol rtol; exists ok. Qed.
  Lemma q_bd_check atol rtol n z b : has_shape z b n n ->
    gives_check (bd_check_point_nd eigvalsh_c atol rtol z) b (fun ix => bd_check_point eigvalsh_c atol rtol (to_mx n n z ix)).
  Proof. by move=> X; have [T Cb] := shape1 b; have [ok E V] := g_bd_check eigvalsh_c (gm_of X Cb) atol rtol; exists ok. Qed.
  Lemma q_check_vector atol rtol n x u (m : 'M[CF]_n) b : has_shape u b n n ->
    gives_check (check_vector_nd atol rtol x u) b (fun ix => check_vector atol rtol m (to_mx n n u ix)).
  Proof.
    case=> [B [N P]]; rewrite /check_vector_nd N P eqxx; eexists; split; first by [].
    by rewrite B positionsP // => ix; rewrite -B to_norm.
  Qed.
  (** ** batches that do not broadcast *)
  Lemma bs_none x y : bshape (bsh x) (bsh y) = None -> forall h, pt2 h x y = None.
  Proof. by rewrite /pt2 => ->. Qed.
  Lemma q_mmm_none (K : fieldType) (a c : mt K) b : bshape (bsh a) (bsh b) = None -> mmm a b c = None.
  Proof. by rewrite /mmm /mm => ->; case: ifP. Qed.
  Lemma bshape_sym_none s t : bshape s t = None -> bshape t s = None.
  Proof.
    elim: s t => [|a s IH] [|b t] //=; have -> : NdModel.bdim b a = NdModel.bdim a b.
      rewrite /NdModel.bdim PeanoNat.Nat.eqb_sym; case: PeanoNat.Nat.eqb_spec => [->|N] //.
      by case: PeanoNat.Nat.eqb_spec => [E|_] //; case: PeanoNat.Nat.eqb_spec => [E'|_] //; case: N; rewrite E E'.
    by case: (NdModel.bdim _ _) => //= d; case E: (bshape s t) => [r|] // _; rewrite IH.
  Qed.
  Lemma q_none n z u bz bu : has_shape z bz n n -> has_shape u bu n n -> bshape bz bu = None ->
    [/\ uh_egrad2rgrad_nd z u = None, bd_egrad2rgrad_nd z u = None, uh_retr_nd eigh p z u = None & bd_retr_nd eigh p z u = None] /\
    forall m keep, uh_dist_nd eigvalsh eighU log p m z u keep = None /\ bd_dist_nd eigvalsh eighU log p m z u keep = None.
  Proof.
    move=> X U B; have [T Cz] := shape1 bz; have G := gm_of X Cz.
    case: (X) => Xb _; case: (U) => Ub _; split.
    - split.
      + by rewrite /uh_egrad2rgrad_nd q_mmm_none //= Xb Ub.
      + rewrite /bd_egrad2rgrad_nd; have [a -> A] := g_idmzz G; by rewrite q_mmm_none //= (gm_b A) Ub.
      + by rewrite /uh_retr_nd bs_none // Xb Ub.
      + by rewrite /bd_retr_nd bs_none // Xb Ub.
    - have D w1 w2 m keep : bsh w1 = bz -> nrow w1 = n -> ncol w1 = n -> bsh w2 = bu -> siegel_dist_nd eigvalsh eighU log p m w1 w2 keep = None.
        move=> E1 N1 P1 E2; have W : has_shape w1 bz n n by split.
        rewrite /siegel_dist_nd /crossratio_nd /sym_inv_sqrtm1_nd.
        have [s -> S] := g_funcm eighU (@SpdModel.pow_mhalf F) (g_imag (gm_of W Cz)).
        by rewrite /cpt2 /= E1 E2 bshape_sym_none.
      move=> m keep; case: X => [_ [N P]]; split; first exact: D.
      rewrite /bd_dist_nd; case E1: (cayley_transform_nd z) => [w1|] //; case E2: (cayley_transform_nd u) => [w2|] //.
      have [W1 _] := part_some (g_cayley G) E1.
      have [T' Cu] := shape1 bu; have [W2 _] := part_some (g_cayley (gm_of U Cu)) E2.
      by case: W1 => ? ? ? _ _; case: W2 => ? _ _ _ _; exact: D.
  Qed.
  (** ** shapes and origins *)
  Lemma q_shape t rank m keep b : metric_get F t rank = Ok m -> rev (result_shape m b) = dist_shape t keep (rev b).
  Proof.
    rewrite /dist_shape; case: t => /=.
    - by move=> [<-].
    - by move=> [<-]; rewrite /= rev_cons.
    - by move=> [<-]; rewrite /= rev_cons.
    - case: rank => // r; case: ifP => // _ [<-]; rewrite /= rev_cons; case: b => [|a b] //=; by rewrite rev_cons; case: (rev b).
    - case: rank => // r; case: ifP => // _ [<-]; rewrite /= rev_cons; case: b => [|a b] //=; by rewrite rev_cons; case: (rev b).
  Qed.
  Lemma q_bd_origin n b : gives (@bd_origin_nd F (rev b ++ [:: n; n])) b (fun _ => bd_origin F n).
  Proof.
    rewrite /bd_origin_nd rev_cat revK /=; eexists; split; first by []. split=> // ix.
    by apply/matrixP=> i j; rewrite !mxE.
  Qed.
  Lemma q_bd_zeros n p0 b : exists t, @bd_origin_nd F (rev b ++ [:: n; p0]) = Some t /\ has_shape t b n p0 /\
    forall ix, to_mx n p0 t ix = 0.
  Proof.
    rewrite /bd_origin_nd rev_cat revK /=; eexists; split; first by []. split=> // ix.
    by apply/matrixP=> i j; rewrite !mxE.
  Qed.
  Lemma q_uh_origin n : gives (@uh_origin_nd F [:: n; n]) [::] (fun _ => uh_origin F n).
  Proof.
    rewrite /uh_origin_nd /= /to_complex_nd /cpt2 /= !NdProofs.bdim_same; eexists; split; first by []. split=> // ix.
    apply/matrixP=> i j; rewrite !mxE rdM !one_ord /rd /= ?one_ord -val_eqE; by case: eqP.
  Qed.
End Inst.

Lemma siegel_nd_cases (F : rcfType) :
  let z : mt (ComplexField.complex_fieldType F) := Mt [::] 1 1 (fun _ i j => 0 +i* 1) in
  let u : mt (ComplexField.complex_fieldType F) := Mt [:: 4; 1]%N 1 1 (fun ix i j => (ix 0%N)%:R) in
  let v : mt (ComplexField.complex_fieldType F) := Mt [:: 4; 5]%N 1 1 (fun ix i j => (ix 1%N)%:R) in
  has_shape z [::] 1 1 /\ has_shape u [:: 4; 1]%N 1 1 /\ has_shape v [:: 4; 5]%N 1 1 /\
  bshape [::] [:: 4; 1]%N = Some [:: 4; 1]%N /\ bshape [:: 4; 1]%N [:: 4; 5]%N = Some [:: 4; 5]%N /\
  inside [:: 4; 5]%N (fun _ => 0%N) /\ bshape [:: 4; 5]%N [:: 3]%N = None /\
  (forall ix, inverse_cayley_transform (to_mx 1 1 z ix) = Ok 0) /\
  (forall ix, uh_inner (to_mx 1 1 z ix) 1%:M 1%:M = Ok 1) /\
  (forall ix, uh_inner (to_mx 1 1 u ix) 1%:M 1%:M = Raises LinAlgError).
Proof.
  move=> z u v; do 5 (split; first by []). split; first by move=> [|[|[|a]]] /= _; apply/ltP.
  split; first by []. split; [|split].
  - move=> ix; rewrite /inverse_cayley_transform /inverse.
    have -> : multiply_by_i (identity_like (to_mx 1 1 z ix)) = const_mx (0 +i* 1) :> 'M[F[i]]_1.
      by apply/matrixP=> i j; rewrite !mxE !ord1 /= oppr0.
    have -> : to_mx 1 1 z ix = const_mx (0 +i* 1) :> 'M[F[i]]_1 by apply/matrixP=> i j; rewrite !mxE.
    have -> : const_mx (0 +i* 1) + const_mx (0 +i* 1) \in @unitmx [comUnitRingType of F[i]] 1.
      rewrite unitmxE det_mx11 !mxE unitfE eq_complex /= addr0 (_ : (1 + 1 : F) = 2%:R) ?pnatr_eq0 ?andbF //.
    by rewrite subrr /= mul0mx.
  - move=> ix; rewrite /uh_inner /inverse.
    have -> : imag_of (to_mx 1 1 z ix) = 1%:M by apply/matrixP=> i j; rewrite !mxE !ord1.
    rewrite unitmx1 /= invmx1; congr Ok.
    have -> : as_complex (1%:M : 'M[F]_1) = 1%:M by apply/matrixP=> i j; rewrite !mxE !ord1.
    have -> : SiegelModel.conj (1%:M : 'M[F[i]]_1) = 1%:M by apply/matrixP=> i j; rewrite !mxE !ord1 /= oppr0.
    by rewrite !mul1mx mxtrace1.
  - move=> ix; rewrite /uh_inner /inverse.
    have -> : imag_of (to_mx 1 1 u ix) = 0.
      apply/matrixP=> i j; rewrite !mxE /u /rd /=.
      by elim: (NdModel.norm_index _ _ _) => //= k IH; rewrite -addn1 natrD raddfD /= IH addr0.
    by rewrite unitmxE det_mx11 mxE unitr0.
Qed.
