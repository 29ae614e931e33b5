(** Lemmas for the Siegel spaces: dist and inner in the bounded domain. *)
From mathcomp Require Import all_ssreflect all_algebra.
From mathcomp.real_closed Require Import complex.
From Verif Require Import FieldTac SpdModel SpdSpec SpdProofs SpdProofs2 SiegelModel SiegelSpec SiegelProofs SiegelProofs2 SiegelProofs3 SiegelProofs4 SiegelProofs5 SiegelProofs6 SiegelProofs7.
Import GRing.Theory Order.Theory Num.Theory.
Local Open Scope ring_scope.
Local Open Scope complex_scope.
Set Implicit Arguments. Unset Strict Implicit. Unset Printing Implicit Defensive.

Section Core.
  Variables (K : fieldType) (n : nat).
  Implicit Types a b : 'M[K]_n.
  Lemma kinvM a b : a \in unitmx -> b \in unitmx -> invmx (a *m b) = invmx b *m invmx a.
  Proof.
    move=> A B; have U : a *m b \in unitmx by rewrite unitmx_mul A.
    by apply: (can_inj (mulKmx U)); rewrite mulmxV // mulmxA mulmxK // mulmxV.
  Qed.
  Lemma conj_core (w tw bw aw X Y z1 z2 y1 y2 : 'M[K]_n) :
    w \in unitmx -> tw \in unitmx -> bw \in unitmx -> aw \in unitmx -> tw *m bw = 1%:M -> aw *m w = 1%:M ->
    invmx tw = bw -> invmx bw = tw -> invmx aw = w -> invmx w = aw -> X \in unitmx -> Y \in unitmx ->
    char_poly ((w *m z2 *m tw - w *m z1 *m tw) *m invmx (bw *m X *m tw) *m
      (bw *m y2 *m aw - bw *m y1 *m aw) *m invmx (w *m Y *m aw)) =
    char_poly ((z2 - z1) *m invmx X *m (y2 - y1) *m invmx Y).
  Proof.
    move=> Uw UT Ubw Uaw T W itw ibw iaw iw U Ub.
    rewrite (kinvM (a := bw *m X)) ?unitmx_mul ?Ubw ?U // (kinvM (a := bw)) // (kinvM (a := w *m Y)) ?unitmx_mul ?Uw ?Ub //.
    rewrite (kinvM (a := w)) // itw ibw iaw iw -!mulmxBl -!mulmxBr -[RHS](char_conj _ Uw) iw; congr char_poly.
    move: (invmx X) (invmx Y) (z2 - z1) (y2 - y1) => X' Y' d e.
    have K1 a : a *m tw *m bw = a by rewrite -mulmxA T mulmx1.
    have K2 a : a *m aw *m w = a by rewrite -mulmxA W mulmx1.
    by rewrite !mulmxA !K1 !K2.
  Qed.
End Core.

Section Bd.
  Variable F : rcfType.
  Notation C := F[i].
  Implicit Types n : nat.
  Add Field CKf8 : (fth (CK F)).
  Ltac mr := apply/matrixP => ? ?; rewrite !mxE; f_goal (CK F); ring.

  Lemma one_minus_unit n (z1 z2 : 'M[C]_n) : in_bounded_domain z1 -> in_bounded_domain z2 ->
    1%:M - bar z1 *m z2 \in unitmx.
  Proof.
    move=> B1 B2; have U1 := bd_unit B1; have U2 := bd_unit B2.
    have := diff_unit (cay_uh B1) (cay_uh B2); rewrite (cay_sum U1 U2) scale_unit ?ti_neq0 //.
    by rewrite !unitmx_mul => /andP[/andP[_ ->]].
  Qed.
  Lemma cr_cay n (z1 z2 : 'M[C]_n) : in_bounded_domain z1 -> in_bounded_domain z2 ->
    cr (cay z1) (cay z2) =
    invmx (1%:M - z1) *m ((z2 - z1) *m invmx (1%:M - bar z1 *m z2)) *m (1%:M - bar z1).
  Proof.
    move=> B1 B2; have U1 := bd_unit B1; have U2 := bd_unit B2; have U := one_minus_unit B1 B2.
    have V1 : 1%:M - bar z1 \in unitmx by rewrite -bar1 -barB bar_unit.
    rewrite /cr cay_diff // cay_sum // invmxZ' ?ti_neq0 ?unitmx_mul ?unitmx_inv ?V1 ?U ?U2 //.
    rewrite -scalemxAl -scalemxAr scalerA mulfV ?ti_neq0 // scale1r.
    rewrite !invM ?unitmx_mul ?unitmx_inv ?V1 ?U ?U2 // !invmxK !mulmxA.
    by rewrite mulmxKV.
  Qed.
  Lemma crs_cay n (z1 z2 : 'M[C]_n) : in_bounded_domain z1 -> in_bounded_domain z2 ->
    char_poly (crs (cay z1) (cay z2)) = char_poly (bd_cross_ratio z2 z1).
  Proof.
    move=> B1 B2; have U1 := bd_unit B1.
    have V1 : 1%:M - bar z1 \in unitmx by rewrite -bar1 -barB bar_unit.
    rewrite /crs cr_cay // !barM !bar_inv !barB !barM !barK !bar1 !mulmxA mulmxK //.
    rewrite -[RHS](char_conj _ (p := invmx (1%:M - z1))) ?unitmx_inv // invmxK /bd_cross_ratio.
    by rewrite !mulmxA.
  Qed.
  Lemma unitary_unit n (w : 'M[C]_n) : unitary w -> w \in unitmx.
  Proof. by move=> H; case: (mulmx1_unit H). Qed.
  Lemma unitary_bd n (w z : 'M[C]_n) : unitary w -> in_bounded_domain z -> in_bounded_domain (w *m z *m w^T).
  Proof.
    move=> W [S H]; split; first by rewrite /csymmetric !trmx_mul trmxK S mulmxA.
    have W' : bar w *m w^T = 1%:M.
      by have := mulmx1C W => /(congr1 (@bar F n n)); rewrite barM bar1 adjE bar_tr barK.
    have T : w^T *m bar w = 1%:M by exact: mulmx1C.
    have -> : 1%:M - bar (w *m z *m w^T) *m (w *m z *m w^T) = adj (w^T) *m (1%:M - bar z *m z) *m w^T.
      have Bw : bar (w^T) = adj w by rewrite bar_tr adjE.
      have -> : adj w^T = bar w by rewrite adjE bar_tr trmxK.
      rewrite mulmxBr mulmxBl mulmx1 W' !barM Bw; congr (_ - _); rewrite !mulmxA; congr (_ *m _ *m _).
      by rewrite -[_ *m adj w *m w]mulmxA W mulmx1.
    by apply: hpos_congr => //; rewrite unitmx_tr unitary_unit.
  Qed.
  Lemma bcr_unitary n (w z1 z2 : 'M[C]_n) : unitary w -> in_bounded_domain z1 -> in_bounded_domain z2 ->
    char_poly (bd_cross_ratio (w *m z2 *m w^T) (w *m z1 *m w^T)) = char_poly (bd_cross_ratio z2 z1).
  Proof.
    move=> W B1 B2; have U := one_minus_unit B1 B2.
    have Ub : 1%:M - z1 *m bar z2 \in unitmx by rewrite -[z1]barK -barM -[1%:M]bar1 -barB bar_unit.
    have Ww : w *m adj w = 1%:M by exact: mulmx1C.
    have W' : bar w *m w^T = 1%:M.
      by have := Ww => /(congr1 (@bar F n n)); rewrite barM bar1 adjE bar_tr barK.
    have T : w^T *m bar w = 1%:M by exact: mulmx1C.
    have iw : invmx w = adj w.
      by apply: (can_inj (mulKmx (unitary_unit W))); rewrite mulmxV ?unitary_unit.
    have Uw := unitary_unit W.
    have itw : invmx w^T = bar w.
      have UT : w^T \in unitmx by rewrite unitmx_tr.
      by apply: (can_inj (mulKmx UT)); rewrite mulmxV // T.
    have ibw : invmx (bar w) = w^T by rewrite -itw invmxK.
    have iaw : invmx (adj w) = w by rewrite -iw invmxK.
    have Bw : bar (w^T) = adj w by rewrite bar_tr adjE.
    have E1 : 1%:M - bar (w *m z1 *m w^T) *m (w *m z2 *m w^T) = bar w *m (1%:M - bar z1 *m z2) *m w^T.
      rewrite mulmxBr mulmxBl mulmx1 W' !barM Bw; congr (_ - _); rewrite !mulmxA; congr (_ *m _ *m _).
      by rewrite -[_ *m adj w *m w]mulmxA W mulmx1.
    have E2 : 1%:M - (w *m z1 *m w^T) *m bar (w *m z2 *m w^T) = w *m (1%:M - z1 *m bar z2) *m adj w.
      rewrite mulmxBr mulmxBl mulmx1 Ww !barM Bw; congr (_ - _); rewrite !mulmxA; congr (_ *m _ *m _).
      by rewrite -[_ *m w^T *m bar w]mulmxA T mulmx1.
    have UT : w^T \in unitmx by rewrite unitmx_tr.
    have Ubw : bar w \in unitmx by rewrite bar_unit.
    have Uaw : adj w \in unitmx by rewrite adj_unit.
    rewrite /bd_cross_ratio E1 E2 !barM Bw; clear E1 E2 Bw B1 B2; rewrite /unitary in W.
    have E := conj_core z1 z2 (bar z1) (bar z2) Uw UT Ubw Uaw T W itw ibw iaw iw U Ub.
    exact E.
  Qed.
  Lemma bcr_origin n (z : 'M[C]_n) : bd_cross_ratio z 0 = z *m bar z.
  Proof.
    have B0 : bar (0 : 'M[C]_n) = 0 by apply/matrixP => i j; rewrite !mxE conjc0.
    by rewrite /bd_cross_ratio B0 !subr0 mul0mx mul0mx subr0 invmx1 !mulmx1.
  Qed.
  Lemma bd0 n : in_bounded_domain (0 : 'M[C]_n).
  Proof.
    split; first by rewrite /csymmetric trmx0.
    by rewrite mulmx0 subr0 -ac1; apply: hpos_ac; exact: pos_def1.
  Qed.

  Variables (exp log : F -> F) (p : precision).
  Variable eigvalsh : forall n, 'M[F]_n -> 'rV[F]_n.
  Variable eighU : forall n, 'M[F]_n -> 'rV[F]_n * 'M[F]_n.
  Hypothesis EV : eigvalsh_ok eigvalsh.
  Hypothesis EU : eigh_ok eighU.
  Local Notation sdist := (siegel_dist eigvalsh eighU log p).
  Local Notation bdist := (bd_dist eigvalsh eighU log p).
  Local Notation vd := (vector_dist log (EPS F p)).
  Lemma bd_dist_cay n m (z1 z2 : 'M[C]_n) : in_bounded_domain z1 -> in_bounded_domain z2 ->
    exists x1 x2, [/\ cayley_transform z1 = Ok x1, cayley_transform z2 = Ok x2,
      in_upper_half x1, in_upper_half x2 & bdist m z1 z2 = sdist m x1 x2].
  Proof.
    move=> B1 B2; exists (cay z1), (cay z2).
    by rewrite /bd_dist !cayE !bd_unit //=; split=> //; exact: cay_uh.
  Qed.
  Lemma bd_distE n m (z1 z2 : 'M[C]_n) : in_bounded_domain z1 -> in_bounded_domain z2 ->
    bdist m z1 z2 = sdist m (cay z1) (cay z2).
  Proof. by move=> B1 B2; rewrite /bd_dist !cayE !bd_unit. Qed.
  Lemma uh_dist_icay n m (x1 x2 : 'M[C]_n) : in_upper_half x1 -> in_upper_half x2 ->
    exists z1 z2, [/\ inverse_cayley_transform x1 = Ok z1, inverse_cayley_transform x2 = Ok z2,
      in_bounded_domain z1, in_bounded_domain z2 & bdist m z1 z2 = sdist m x1 x2].
  Proof.
    move=> H1 H2; exists (icay x1), (icay x2).
    have U1 := uh_plus_unit H1; have U2 := uh_plus_unit H2.
    rewrite !icayE U1 U2; split=> //; try exact: icay_bd.
    by rewrite bd_distE ?cay_icay //; exact: icay_bd.
  Qed.
  Lemma bd_dist_cross n (z1 z2 : 'M[C]_n) : in_bounded_domain z1 -> in_bounded_domain z2 ->
    exists s : 'rV[F]_n, root_spectrum (bd_cross_ratio z2 z1) s /\ forall m, bdist m z1 z2 = compute_metric m (vd s).
  Proof.
    move=> B1 B2; have [s [[A R E] _ D]] := dist_key log p EV EU (cay_uh B1) (cay_uh B2); exists s; split.
      by split; [exact: A | exact: R | exact (etrans (esym (crs_cay B1 B2)) E)].
    by move=> m; rewrite bd_distE.
  Qed.
  Lemma bd_dist_char n m (z1 z2 w1 w2 : 'M[C]_n) :
    in_bounded_domain z1 -> in_bounded_domain z2 -> in_bounded_domain w1 -> in_bounded_domain w2 ->
    char_poly (bd_cross_ratio z2 z1) = char_poly (bd_cross_ratio w2 w1) -> bdist m z1 z2 = bdist m w1 w2.
  Proof.
    move=> A B D E H; rewrite (bd_distE m A B) (bd_distE m D E).
    apply: (dist_char _ _ EV EU); [exact: cay_uh|exact: cay_uh|exact: cay_uh|exact: cay_uh|].
    exact (etrans (crs_cay A B) (etrans H (esym (crs_cay D E)))).
  Qed.
  Lemma bd_dist_unitary n m (w z1 z2 : 'M[C]_n) : unitary w -> in_bounded_domain z1 -> in_bounded_domain z2 ->
    bdist m (w *m z1 *m w^T) (w *m z2 *m w^T) = bdist m z1 z2.
  Proof.
    move=> W B1 B2; apply: bd_dist_char; [exact: unitary_bd|exact: unitary_bd|exact: B1|exact: B2|exact: bcr_unitary].
  Qed.
  Lemma bd_dist_sym n m (z1 z2 : 'M[C]_n) : in_bounded_domain z1 -> in_bounded_domain z2 ->
    bdist m z1 z2 = bdist m z2 z1.
  Proof. by move=> B1 B2; rewrite (bd_distE m B1 B2) (bd_distE m B2 B1); apply: (dist_sym _ _ EV EU); exact: cay_uh. Qed.
  Lemma bd_dist_origin n m (z : 'M[C]_n) : in_bounded_domain z ->
    bdist m (bd_origin F n) z = compute_metric m (vd (takagi_eigvals eigvalsh z)).
  Proof.
    move=> B; have [s [S ->]] := bd_dist_cross (bd0 n) B; congr (compute_metric _ (vd _)).
    apply: (root_unique S); rewrite bcr_origin.
    by have [A R E _] := takagi_range EV B; split; [exact: A|exact: R|exact: E].
  Qed.
  Hypothesis EL : explog exp log.
  Lemma cay_inj n (z1 z2 : 'M[C]_n) : in_bounded_domain z1 -> in_bounded_domain z2 -> cay z1 = cay z2 -> z1 = z2.
  Proof. by move=> B1 B2 E; rewrite -(icay_cay (bd_unit B1)) E icay_cay // bd_unit. Qed.
  Lemma bd_definite n t m (z1 z2 : 'M[C]_n) : (0 < n)%N -> metric_get F t (Some n) = Ok m ->
    in_bounded_domain z1 -> in_bounded_domain z2 ->
    exists2 d, bdist m z1 z2 = Ok d & 0 <= d /\ (d = 0 <-> z1 = z2).
  Proof.
    move=> n0 M B1 B2; rewrite bd_distE //.
    have [d -> [d0 H]] := dist_definite p EV EU EL n0 M (cay_uh B1) (cay_uh B2).
    exists d => //; split=> //; rewrite H; split; [exact: cay_inj | by move=> ->].
  Qed.
End Bd.
