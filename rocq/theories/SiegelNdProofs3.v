(** Inner products, distances and checks of the Siegel manifolds on batches. *)
From mathcomp Require Import all_ssreflect all_algebra.
From mathcomp.real_closed Require Import complex.
From Verif Require NdModel StereoNdSpec NdProofs StereoNdProofs SpdModel.
From Verif Require Import MatNdModel MatNdShape MatNdSpec MatNdProofs SpdNdModel SpdNdProofs SpdNdInst SiegelModel SiegelNdModel SiegelNdSpec SiegelNdProofs SiegelNdProofs2.
Import GRing.Theory Num.Theory.
Local Open Scope ring_scope.
Local Open Scope complex_scope.
Set Implicit Arguments. Unset Strict Implicit. Unset Printing Implicit Defensive.

Section Siegel.
  Variable T : nat -> nat.
  Variable F : rcfType.
  Variable n : nat.
  Notation C := F[i].
  Notation CF := (ComplexField.complex_fieldType F).
  Variable eigh : forall n, 'M[F]_n -> 'rV[F]_n * 'M[F]_n.
  Variable eigvalsh : forall n, 'M[F]_n -> 'rV[F]_n.
  Variable eigvalsh_c : forall n, 'M[C]_n -> 'rV[F]_n.
  Variable eighU : forall n, 'M[F]_n -> 'rV[F]_n * 'M[F]_n.
  Variable log : F -> F.
  Variable p : precision.
  Notation gm := (gm T).

  Definition pscal (K : fieldType) (o : option (gt K)) J sh (at_ : index -> index) (f : index -> res K) : Prop :=
    ((forall ix, ins J ix -> is_ok (f ix)) ->
      exists r, [/\ o = Some r, gsh r = sh & forall ix, ins J (at_ ix) -> f (at_ ix) = Ok (grd r ix)]) /\
    (forall ix, ins J ix -> ~~ is_ok (f ix) -> o = None).
  Lemma ok_ex A (r : res A) : is_ok r -> exists a, r = Ok a.
  Proof. by case: r => // a; exists a. Qed.

  (** ** The vector-valued distance *)
  Definition rowlog (v : 'rV[F]_n) : 'rV[F]_n := map_mx (fun e => log ((1 + e) / Num.max (EPS F p) (1 - e))) v.
  Lemma vvd_ok (v : 'rV[F]_n) : is_ok (vvd_of log p v) -> vvd_of log p v = Ok (seq_of (rowlog v)).
  Proof.
    rewrite /vvd_of; do 2 case: ifP => // _; move=> _; congr Ok; rewrite /seq_of; apply: eq_map => i; by rewrite mxE.
  Qed.
  Lemma g_vvd (e : gt F) J (f : index -> 'rV[F]_n) : gv T e J f ->
    ((forall ix, ins J ix -> is_ok (vvd_of log p (f ix))) -> exists2 r, vvd_nd log p e = Some r & gv T r J (fun ix => rowlog (f ix))) /\
    (forall ix, ins J ix -> ~~ is_ok (vvd_of log p (f ix)) -> vvd_nd log p e = None).
  Proof.
    move=> G; split.
    - move=> H; rewrite /vvd_nd.
      have -> : all_entries (fun e => 0 - EPS F p <= e) e.
        by apply/(g_all_entries _ G) => ix I; have := H ix I; rewrite /vvd_of; case: ifP => // /negPn.
      have -> : all_entries (fun e => e <= 101%:R / 100%:R) e.
        by apply/(g_all_entries _ G) => ix I; have := H ix I; rewrite /vvd_of; case: ifP => // _; case: ifP => // /negPn.
      have B : bshape (gsh e) (gsh e) = Some (gsh e) by rewrite (bshape_join _ _ _ (compat_self _) (compat_self _)) join_same.
      rewrite [~~ true]/=; case Eq: (gpt2 _ _ _) => [q|]; last by move: Eq; rewrite /gpt2 /= B.
      have Sq : gsh q = gsh e by move: (gsh_gpt2 Eq); rewrite [gsh (gpt1 _ _)]/= [gsh (gpt1 _ _)]/= B => -[].
      eexists; first by []. case: (G) => Gb Gc Ga; split=> //; first by rewrite -Gb -Sq.
      by move=> ix j I; rewrite mxE -(Ga ix j I) grd_gpt1 (grd_gpt2 _ Eq) Sq !grd_gpt1 !grd_norm.
    - move=> ix I; rewrite /vvd_of /vvd_nd; case: ifP => [/negP A _|/negbFE _].
        by case: ifP => // /negbFE /(g_all_entries _ G) H; case: A; exact: H.
      case: ifP => [/negP A _|//]; case: ifP => // _; case: ifP => // /negbFE /(g_all_entries _ G) H; by case: A; exact: H.
  Qed.

  (** ** Distances *)
  Lemma part_some o J (f : index -> res 'M[CF]_n) r : part T o J f -> o = Some r ->
    gm r J (to_mx n n r) /\ forall ix, ins J ix -> f ix = Ok (to_mx n n r ix).
  Proof.
    move=> [A B] E; have H : forall ix, ins J ix -> exists m, f ix = Ok m.
      by move=> ix I; case Ef: (f ix) => [m|e]; [exists m|rewrite (B ix e I Ef) in E].
    by have [r' [Er R]] := A H; rewrite E in Er; case: Er => ->.
  Qed.
  Section Two.
    Variables (z1 z2 : mt CF) (J I : seq nat) (f g : index -> 'M[CF]_n).
    Hypotheses (Z1 : gm z1 J f) (Z2 : gm z2 I g).
    Let C1 := gm_T Z1.
    Let C2 := gm_T Z2.
    Lemma g_crossratio : part T (crossratio_nd eighU z1 z2) (join J I) (fun ix => crossratio eighU (f ix) (g ix)).
    Proof.
      rewrite /crossratio_nd /sym_inv_sqrtm1_nd; have [s -> S] := g_funcm eighU (@SpdModel.pow_mhalf F) (g_imag Z1).
      have [d -> D] := g_cpt2 (M := CF) (fun a b => a - b%:C) Z2 (g_real Z1).
      have Sc := g_as_complex S; have [z3 -> Z3] := g_mmm Sc D Sc.
      have Q : join (join J (join I J)) J = join J I by have A := C1; have B := C2; clear -A B; jsolve.
      rewrite Q in Z3; have := g_inv_cayley Z3.
      have E ix : inverse_cayley_transform (as_complex (SpdModel.sym_funcm eighU (@SpdModel.pow_mhalf F) (imag_of (f ix)))
          *m (\matrix_(i, j) (g ix i j - (real_of (f ix) i j)%:C)) *m as_complex (SpdModel.sym_funcm eighU (@SpdModel.pow_mhalf F) (imag_of (f ix))))
          = crossratio eighU (f ix) (g ix).
        rewrite /crossratio /SpdModel.sym_inv_sqrtm1; congr (inverse_cayley_transform (_ *m _ *m _)).
        by apply/matrixP=> i j; rewrite !mxE.
      case=> A B; split=> [H|ix e Ii]; last by rewrite -E; exact: B.
      have [|r [Er [Gr Vr]]] := A _; first by move=> ix Ii; rewrite E; exact: H.
      by exists r; split=> //; split=> // ix Ii; rewrite -E Vr.
    Qed.
    Lemma g_dist m keep ix0 : ins (join J I) ix0 ->
      pscal (siegel_dist_nd eigvalsh eighU log p m z1 z2 keep) (join J I) (result_shape m (join J I)) (result_at m)
        (fun ix => siegel_dist eigvalsh eighU log p m (f ix) (g ix)).
    Proof.
      move=> I0; have P := g_crossratio; rewrite /siegel_dist_nd; split.
      - move=> H; have [|w [Ew [W V]]] := P.1.
          move=> ix Ii; have := H ix Ii; rewrite /siegel_dist; case: (crossratio _ _ _) => // a _; by exists a.
        rewrite Ew; have [e -> E] := g_takagi_vals eigvalsh W.
        have Hv ix : ins (join J I) ix -> is_ok (vvd_of log p (takagi_eigvals eigvalsh (to_mx n n w ix))).
          by move=> Ii; have := H ix Ii; rewrite /siegel_dist V //=; case: (vvd_of _ _ _).
        have [v -> Gv] := (g_vvd E).1 Hv.
        have Hm ix : is_ok (compute_metric m (seq_of (rowlog (takagi_eigvals eigvalsh (to_mx n n w ix))))).
          rewrite (metric_ok m _ (rowlog (takagi_eigvals eigvalsh (to_mx n n w ix0)))).
          by have := H ix0 I0; rewrite /siegel_dist V //= vvd_ok ?Hv.
        have [r [Er Sr Rr]] := (g_metric m Gv).1 Hm; exists r; split=> // ix Ii.
        by rewrite -Rr /siegel_dist V //= vvd_ok ?Hv.
      - move=> ix Ii H; case Ew: (crossratio_nd eighU z1 z2) => [w|] //; have [W V] := part_some P Ew.
        have [e -> E] := g_takagi_vals eigvalsh W.
        case Ev: (vvd_nd log p e) => [v|] //.
        have Hv k : ins (join J I) k -> is_ok (vvd_of log p (takagi_eigvals eigvalsh (to_mx n n w k))).
          by move=> Ik; apply/negPn/negP => Nk; rewrite ((g_vvd E).2 k Ik Nk) in Ev.
        have [v' Ev' Gv] := (g_vvd E).1 Hv; move: Ev'; rewrite Ev => -[Evv]; rewrite -{}Evv in Gv.
        apply: ((g_metric m Gv).2 ix); by move: H; rewrite /siegel_dist V //= vvd_ok ?Hv.
    Qed.
  End Two.
  Lemma g_bd_dist m keep z1 z2 J I (f g : index -> 'M[CF]_n) ix0 : gm z1 J f -> gm z2 I g -> inside (join J I) ix0 ->
    pscal (bd_dist_nd eigvalsh eighU log p m z1 z2 keep) (join J I) (result_shape m (join J I)) (result_at m)
      (fun ix => bd_dist eigvalsh eighU log p m (f ix) (g ix)).
  Proof.
    move=> Z1 Z2 I0; have CJ := gm_T Z1; have CI := gm_T Z2; rewrite /bd_dist_nd.
    have P1 := g_cayley Z1; have P2 := g_cayley Z2; have J0 := inside_ins I0; split.
    - move=> H; have [|w1 [E1 [W1 V1]]] := P1.1.
        move=> q Iq; have [ix Ii Eix] := ins_lift I0 Iq; have := H ix (inside_ins Ii).
        rewrite /bd_dist (gm_norm Z1 Eix); case: (cayley_transform _) => // a _; by exists a.
      have [|w2 [E2 [W2 V2]]] := P2.1.
        move=> q Iq; have [ix Ii Eix] := ins_lift_r CJ CI I0 Iq; have := H ix (inside_ins Ii).
        rewrite /bd_dist (gm_norm Z2 Eix); case: (cayley_transform (f ix)) => // a0; case: (cayley_transform _) => // a _; by exists a.
      have [D _] := g_dist W1 W2 m false J0; rewrite E1 E2.
      have Q ix : ins (join J I) ix -> bd_dist eigvalsh eighU log p m (f ix) (g ix) = siegel_dist eigvalsh eighU log p m (to_mx n n w1 ix) (to_mx n n w2 ix).
        by move=> Ii; rewrite /bd_dist V1 ?V2 //; [exact: ins_r CJ CI Ii|exact: ins_l Ii].
      have [|r [Er Sr Rr]] := D; first by move=> ix Ii; rewrite -Q ?H.
      by exists r; split=> // ix Ii; rewrite Q // Rr.
    - move=> ix Ii H; case E1: (cayley_transform_nd z1) => [w1|] //; case E2: (cayley_transform_nd z2) => [w2|] //.
      have [W1 V1] := part_some P1 E1; have [W2 V2] := part_some P2 E2.
      have [_ D] := g_dist W1 W2 m false J0; apply: (D ix Ii).
      by move: H; rewrite /bd_dist V1 ?V2 //; [exact: ins_r CJ CI Ii|exact: ins_l Ii].
  Qed.

  (** ** Inner products *)
  Definition under1 (keep : bool) (ix : index) : index := if keep then drop_last ix else ix.
  Lemma g_trace1 (K : fieldType) keep (t : mt K) J (f : index -> 'M[K]_n) : gm t J f ->
    gsh (trace_nd keep t) = (if keep then 1%N :: J else J) /\ forall ix, grd (trace_nd keep t) ix = \tr (f (under1 keep ix)).
  Proof.
    move=> G; case: (G) => B N P Cc A; rewrite /trace_nd N P B minnn; split=> // ix.
    rewrite /grd /=; apply: eq_bigr => k _; rewrite -(gmE _ _ _ G) /rd B; congr (ent t _ _ _).
    case: keep => /=; [exact: (norm_under1 1%N)|exact: NdProofs.norm_idem].
  Qed.
  Section Three.
    Variables (z u v : mt CF) (J I L : seq nat) (f g h : index -> 'M[CF]_n).
    Hypotheses (Z : gm z J f) (U : gm u I g) (V : gm v L h).
    Let CZ := gm_T Z.
    Let CU := gm_T U.
    Let CV := gm_T V.
    Let JI : join (join J I) J = join J I.
    Proof. have A := CZ; have B := CU; clear -A B; jsolve. Qed.
    Let b := join (join J I) L.
    Let lift q ix0 : inside b ix0 -> ins J q -> exists2 ix, inside b ix & norm_index J ix = norm_index J q.
    Proof. rewrite /b join_assoc; exact: ins_lift. Qed.
    Let low ix : ins b ix -> ins J ix.
    Proof. rewrite /b join_assoc; exact: ins_l. Qed.
    Lemma g_uh_inner keep ix0 : inside b ix0 ->
      pscal (uh_inner_nd z u (Some v) keep) b (if keep then 1%N :: b else b) (under1 keep)
        (fun ix => uh_inner (f ix) (g ix) (h ix)).
    Proof.
      move=> I0; rewrite /uh_inner_nd; have Y := g_imag Z; split.
      - move=> H; have Un q : ins J q -> imag_of (f q) \in unitmx.
          move=> Iq; have [ix Ii E] := lift I0 Iq; have := H ix (inside_ins Ii).
          by rewrite /uh_inner (gm_norm Z E) /inverse; case: ifP.
        have [i -> Iv] := g_inv Y Un; have Ic := g_as_complex Iv.
        have [a -> A] := g_mmm Ic U Ic; rewrite JI in A; have [r -> R] := gm_mm A (g_conj V).
        have [S E] := g_trace1 keep R; eexists; split; [by []|exact: S|].
        by move=> ix /low Ii; rewrite E /uh_inner /inverse Un.
      - move=> ix Ii; rewrite /uh_inner /inverse; case: ifP => //= /negbT N _.
        by rewrite (g_inv_none Y (low Ii) N).
    Qed.
    Lemma g_bd_inner keep ix0 : inside b ix0 ->
      pscal (bd_inner_nd z u (Some v) keep) b (if keep then 1%N :: b else b) (under1 keep)
        (fun ix => bd_inner (f ix) (g ix) (h ix)).
    Proof.
      move=> I0; rewrite /bd_inner_nd; have [i -> Id] := g_ident Z; have Cz := g_conj Z.
      have [a -> A] := gm_mm Cz Z; have [d -> D] := g_sub Id A; rewrite !join_same in D.
      have [a' Ea' A'] := gm_mm Z Cz; have [d' Ed' D'] := g_sub Id A'; rewrite !join_same in D'; split.
      - move=> H; have Un q : ins J q -> identity_like (f q) - SiegelModel.conj (f q) *m f q \in unitmx.
          move=> Iq; have [ix Ii E] := lift I0 Iq; have := H ix (inside_ins Ii).
          by rewrite /bd_inner (gm_norm Z E) /inverse; case: ifP.
        have Un' q : ins J q -> identity_like (f q) - f q *m SiegelModel.conj (f q) \in unitmx.
          move=> Iq; have [ix Ii E] := lift I0 Iq; have := H ix (inside_ins Ii).
          by rewrite /bd_inner (gm_norm Z E) /inverse; case: ifP => //= _; case: ifP.
        have [i1 -> Iv1] := g_inv D Un; rewrite Ea' Ed'; have [i2 -> Iv2] := g_inv D' Un'.
        have [m -> M] := g_mmm Iv1 U Iv2; rewrite JI in M; have [r -> R] := gm_mm M (g_conj V).
        have [S E] := g_trace1 keep R; eexists; split; [by []|exact: S|].
        by move=> ix /low Ii; rewrite E /bd_inner /inverse Un //= Un'.
      - move=> ix Ii; rewrite /bd_inner /inverse; case: ifP => [_|/negbT N _] /=; last by rewrite (g_inv_none D (low Ii) N).
        case: ifP => //= /negbT N _; rewrite Ea' Ed' (g_inv_none D' (low Ii) N); by case: (inverse_nd _).
    Qed.
  End Three.

  (** ** Checks *)
  Section Checks.
    Variables (z : mt CF) (J : seq nat) (f : index -> 'M[CF]_n).
    Hypothesis Z : gm z J f.
    Lemma g_allclose atol rtol (x : mt F) (k : index -> 'M[F]_n) : gm x J k ->
      exists2 ok, allclose_tr atol rtol x = Some ok &
        (ok <-> forall ix, inside J ix -> SpdModel.mx_allclose atol rtol (k ix) (k ix)^T).
    Proof.
      case=> B N P Cc A; rewrite /allclose_tr N P eqxx; eexists; first by [].
      rewrite B positionsP; last by move=> ix; rewrite -B to_norm.
      by split=> H ix I; [rewrite -A|rewrite A]; exact: H.
    Qed.
    Lemma g_symmetric atol rtol : exists2 ok, is_complex_symmetric_nd atol rtol z = Some ok &
      (ok <-> forall ix, inside J ix -> is_complex_symmetric atol rtol (f ix)).
    Proof.
      rewrite /is_complex_symmetric_nd; have [a -> A] := g_allclose atol rtol (g_real Z).
      have [b -> B] := g_allclose atol rtol (g_imag Z); case: a A => A /=.
      - exists b => //; rewrite B; split=> H ix I; last by have /andP[] := H ix I.
        by rewrite /is_complex_symmetric H // andbT; exact: (A.1 isT).
      - exists false => //; split=> // H; apply/A => ix I; by have /andP[] := H ix I.
    Qed.
    Lemma ins_all (h : 'M[CF]_n -> bool) : (forall ix, ins J ix -> h (f ix)) <-> (forall ix, inside J ix -> h (f ix)).
    Proof.
      split=> H ix I; first exact: H (inside_ins I).
      by rewrite (gm_norm Z (esym (NdProofs.norm_idem J ix))); exact: H.
    Qed.
    Lemma g_uh_check atol rtol : exists2 ok, uh_check_point_nd eigvalsh atol rtol z = Some ok &
      (ok <-> forall ix, inside J ix -> uh_check_point eigvalsh atol rtol (f ix)).
    Proof.
      rewrite /uh_check_point_nd; have [s -> S] := g_symmetric atol rtol; case: s S => S /=.
      - have [e -> E] := g_vals eigvalsh (g_imag Z); eexists; first by [].
        rewrite (g_all_entries _ E) (ins_all (fun m => [forall j, 0 < eigvalsh (imag_of m) ord0 j])).
        split=> H ix I; have Si := S.1 isT ix I; have := H ix I; by rewrite /uh_check_point Si.
      - exists false => //; split=> // H; apply/S => ix I; have := H ix I; rewrite /uh_check_point; by case: ifP => // /negPn.
    Qed.
    Lemma g_bd_check atol rtol : exists2 ok, bd_check_point_nd eigvalsh_c atol rtol z = Some ok &
      (ok <-> forall ix, inside J ix -> bd_check_point eigvalsh_c atol rtol (f ix)).
    Proof.
      rewrite /bd_check_point_nd; have [s -> S] := g_symmetric atol rtol; case: s S => S /=.
      - have [d -> D] := g_idmzz Z; have [e -> E] := g_vals eigvalsh_c D; eexists; first by [].
        rewrite (g_all_entries _ E) (ins_all (fun m => [forall j, 0 < eigvalsh_c (bd_id_minus_conj_z_z m) ord0 j])).
        split=> H ix I; have Si := S.1 isT ix I; have := H ix I; by rewrite /bd_check_point Si.
      - exists false => //; split=> // H; apply/S => ix I; have := H ix I; rewrite /bd_check_point; by case: ifP => // /negPn.
    Qed.
  End Checks.
End Siegel.
