(** Lemmas: gradient steps on the Siegel spaces. *)
From mathcomp Require Import all_ssreflect all_algebra.
From mathcomp.real_closed Require Import complex.
From Verif Require Import FieldTac Spectral StiefelProofs SpdModel SpdSpec SpdProofs SiegelModel SiegelSpec
  SiegelProofs SiegelProofs2 SiegelProofs3 SiegelProofs4 SiegelProofs6 SiegelProofs9 SiegelProofs11 SiegelProofs12 SiegelProofs13 SiegelProofs14
  SiegelDescentSpec.
Import Order.TTheory GRing.Theory Num.Theory.
Local Open Scope ring_scope.
Local Open Scope complex_scope.
Set Implicit Arguments. Unset Strict Implicit. Unset Printing Implicit Defensive.

Section Open.
  Variable F : rcfType.
  (** positive definiteness is kept under small symmetric changes *)
  Lemma pos_def_open n (y v : 'M[F]_n) : pos_def y -> symmetric v ->
    exists2 T, 0 < T & forall t, 0 < t -> t < T -> pos_def (y + t *: v).
  Proof.
    move=> Y V. have [i [s R]] := roots_exist Y.
    have [e [w [W E]]] := spectral (r_symmetric R V). have WW := mulmx1C W.
    set K := 1 + \sum_j e ord0 j ^+ 2.
    have Sj j : e ord0 j ^+ 2 <= \sum_j e ord0 j ^+ 2.
      rewrite (bigD1 j) //= ler_addl. apply: sumr_ge0 => l _. exact: sqr_ge0.
    have K0 : 0 < K by rewrite ltr_spaddl ?ltr01 // sumr_ge0 // => j _; exact: sqr_ge0.
    exists K^-1; first by rewrite invr_gt0. move=> t t0 tK.
    have -> : y + t *: v = s *m (w *m diag_mx (const_mx 1 + t *: e) *m w^T) *m s.
      have -> : diag_mx (const_mx 1 + t *: e) = 1%:M + t *: diag_mx e by rewrite linearD linearZ /= diag_const_mx.
      rewrite (mulmxDr w) mulmx1 (mulmxDl _ _ w^T) WW (mulmxDr s) (mulmxDl _ _ s) mulmx1 (r_ss R).
      congr (_ + _). rewrite -[w *m (_ *: _)]scalemxAr -[_ *: _ *m w^T]scalemxAl -[s *m (_ *: _)]scalemxAr -scalemxAl.
      by rewrite -E (r_cancel R).
    apply: (s_pos R). apply: diag_pos_conj => // j. rewrite !mxE.
    have tK1 : t * K < 1 by rewrite -ltr_pdivl_mulr // mul1r.
    have a1 : `|t * e ord0 j| < 1.
      apply: le_lt_trans tK1. rewrite normrM gtr0_norm // ler_pmul2l //.
      apply: (@le_trans _ _ (1 + e ord0 j ^+ 2)); last by rewrite ler_add2l.
      rewrite -[e ord0 j ^+ 2]ger0_norm ?sqr_ge0 // normrX. set a := `|_|. have a0 : 0 <= a by exact: normr_ge0.
      case: (lerP a 1) => a1; first by apply: ler_paddr => //; exact: exprn_ge0.
      apply: ler_paddl; first exact: ler01. rewrite expr2 -[X in X <= _]mulr1. apply: ler_wpmul2l => //. exact: ltW.
    move: a1. rewrite ltr_norml => /andP[A _]. by rewrite -ltr_subl_addl sub0r.
  Qed.
  Lemma pos_def_open2 n (y v w : 'M[F]_n) : pos_def y -> symmetric v -> symmetric w ->
    exists2 T, 0 < T & forall t, 0 < t -> t < T -> pos_def (y + t *: v + t ^+ 2 *: w).
  Proof.
    move=> Y V W. have h0 : (0 : F) < 2%:R^-1 by rewrite invr_gt0 ltr0n.
    have Y2 := pos_defZ h0 Y.
    have [T1 T10 H1] := pos_def_open Y2 V. have [T2 T20 H2] := pos_def_open Y2 W.
    exists (Num.min 1 (Num.min T1 T2)); first by rewrite !lt_minr ltr01 T10 T20.
    move=> t t0. rewrite !lt_minr => /andP[t1 /andP[tT1 tT2]].
    have -> : y + t *: v + t ^+ 2 *: w = (2%:R^-1 *: y + t *: v) + (2%:R^-1 *: y + t ^+ 2 *: w).
      rewrite addrACA addrA -scalerDl half_half scale1r. done.
    apply: pos_defD; first exact: H1. apply: pos_def_semi. apply: H2; first exact: exprn_gt0.
    apply: le_lt_trans tT2. rewrite expr2 -[X in _ <= X]mul1r. apply: ler_wpmul2r; exact: ltW.
  Qed.
End Open.

Section Line.
  Variable F : rcfType.
  Notation C := F[i].
  Variable n : nat.
  Implicit Types z g a h : 'M[C]_n.
  Lemma sqlen_ge0 h : 0 <= sqlen h.
  Proof. by apply: sumr_ge0 => i _; apply: sumr_ge0 => j _; rewrite addr_ge0 ?sqr_ge0. Qed.
  Lemma Re_scale (t : F) (c : C) : complex.Re (t%:C * c) = t * complex.Re c.
  Proof. by case: c => a b /=; rewrite mul0r subr0. Qed.
  Lemma Im_scale (t : F) (c : C) : complex.Im (t%:C * c) = t * complex.Im c.
  Proof. by case: c => a b /=; rewrite mul0r addr0. Qed.
  Lemma sqlen_scale (t : F) a : sqlen (t%:C *: a) = t ^+ 2 * sqlen a.
  Proof.
    rewrite /sqlen mulr_sumr. apply: eq_bigr => i _. rewrite mulr_sumr. apply: eq_bigr => j _.
    by rewrite mxE Re_scale Im_scale !exprMn mulrDr.
  Qed.
  Lemma conjc_scale (t : F) (c : C) : conjc (t%:C * c) = t%:C * conjc c.
  Proof. by case: c => a b; apply/eqP; rewrite eq_complex /= !mul0r !subr0 !addr0 mulrN !eqxx. Qed.
  Lemma pairing_scale (t : F) g a : complex.Re (pairing g (t%:C *: a)) = t * complex.Re (pairing g a).
  Proof.
    rewrite -Re_scale; congr complex.Re. rewrite /pairing mulr_sumr. apply: eq_bigr => i _. rewrite mulr_sumr.
    apply: eq_bigr => j _. by rewrite mxE conjc_scale mulrCA.
  Qed.
  Lemma pairingNr g a : complex.Re (pairing g (- a)) = - complex.Re (pairing g a).
  Proof.
    have -> : pairing g (- a) = - pairing g a; last by rewrite raddfN.
    rewrite /pairing -sumrN. apply: eq_bigr => i _. rewrite -sumrN. apply: eq_bigr => j _.
    by rewrite mxE rmorphN mulrN.
  Qed.
  (** a straight line against the gradient *)
  Lemma line_descent f z g a (c : F -> 'M[C]_n) T : c_differentiable f z g -> complex.Re (pairing g a) < 0 -> 0 < T ->
    (forall t, 0 < t -> t < T -> c t = z + t%:C *: a) -> c_decreases f z c.
  Proof.
    move=> D ga T0 E. set s := - complex.Re (pairing g a). have s0 : 0 < s by rewrite oppr_gt0.
    set M := sqlen a + 1. have M0 : 0 < M by rewrite ltr_spaddr ?ltr01 // sqlen_ge0.
    have two : (0 : F) < 2%:R by rewrite ltr0n.
    set eps := (s / 2%:R) ^+ 2 / M. have e0 : 0 < eps by rewrite divr_gt0 // exprn_gt0 // divr_gt0.
    have [del d0 Hd] := D _ e0. set t2 := del / M. have t20 : 0 < t2 by rewrite divr_gt0.
    exists (Num.min (Num.min 1 T) t2); first by rewrite !lt_minr ltr01 T0 t20.
    move=> t t0. rewrite !lt_minr => /andP[/andP[t1 tT] tt2]. rewrite E //.
    have hM : sqlen (t%:C *: a) <= t ^+ 2 * M.
      rewrite sqlen_scale ler_pmul2l ?exprn_gt0 //. by rewrite ler_addl ler01.
    have hd : sqlen (t%:C *: a) < del.
      apply: (le_lt_trans hM). rewrite -ltr_pdivl_mulr //. apply: le_lt_trans tt2.
      rewrite expr2 -[X in _ <= X]mul1r. apply: ler_wpmul2r; exact: ltW.
    have := Hd _ hd. rewrite pairing_scale. set e := f _ - f z - _ => He.
    have e4 : `|e| <= s / 2%:R * t.
      rewrite -(@ler_pexpn2r _ 2) // ?nnegrE ?normr_ge0 //; last by rewrite mulr_ge0 ?ltW // divr_gt0.
      rewrite -normrX ger0_norm ?sqr_ge0 //. apply: (le_trans He).
      apply: (le_trans (ler_wpmul2l (ltW e0) hM)).
      by rewrite /eps [(_ * t) ^+ 2]exprMn [t ^+ 2 * M]mulrC mulrA divfK // gt_eqF.
    have -> : f (z + t%:C *: a) = f z + (e - t * s).
      by rewrite /e /s mulrN opprK subrK [RHS]addrC subrK.
    rewrite gtr_addl subr_lt0. apply: (le_lt_trans (le_trans (ler_norm _) e4)).
    by rewrite mulrC ltr_pmul2l // gtr_pmulr // invf_lt1 // ltr1n.
  Qed.
End Line.

Section Upper.
  Variable F : rcfType.
  Notation C := F[i].
  Variable eigh : forall n, 'M[F]_n -> 'rV[F]_n * 'M[F]_n.
  Hypothesis EO : eigh_asc_ok eigh.
  Variables (p : precision) (n : nat).
  Implicit Types z g u : 'M[C]_n.
  Lemma im_scale (t : F) u : im_part (t%:C *: u) = t *: im_part u.
  Proof. by apply/matrixP => i j; rewrite !mxE Im_scale. Qed.
  Lemma csym_line z (t : F) u : csymmetric z -> csymmetric u -> csymmetric (z + t%:C *: u).
  Proof. by move=> Z U; rewrite /csymmetric linearD linearZ /= Z U. Qed.

  Lemma uh_descent f z g : csymmetric z -> pos_def (im_part z - (EPS F p)%:M) -> c_differentiable f z g ->
    uh_egrad2rgrad z g != 0 ->
    c_decreases f z (fun t => uh_retr eigh p z (- (t%:C *: uh_egrad2rgrad z g))).
  Proof.
    move=> S P D R0.
    have UH : in_upper_half z.
      split=> //. rewrite -[im_part z](subrK (EPS F p)%:M). apply: pos_defD => //. apply: pos_def_semi.
      have -> : (EPS F p)%:M = EPS F p *: 1%:M :> 'M[F]_n by rewrite scale_scalar_mx mulr1.
      apply: pos_defZ; [exact: EPS_gt0|exact: pos_def1].
    have Sr := uh_grad_sym z g.
    have Gr : complex.Re (pairing g (- uh_egrad2rgrad z g)) < 0.
      have [a E a0] := uh_inner_pos UH Sr R0. rewrite (uh_gradient g UH Sr) in E. case: E => E.
      rewrite pairingNr E oppr_lt0. by move: a0; rewrite ltcE /= => /andP[_].
    move: (uh_egrad2rgrad z g) R0 Sr Gr => r R0 Sr Gr.
    have Vs : symmetric (- im_part r) by rewrite /symmetric linearN /= (im_sym Sr).
    have [T T0 H] := pos_def_open P Vs.
    apply: (@line_descent _ _ f z g (- r) _ T) => // t t0 tT.
    rewrite scalerN /uh_retr. apply/(uh_projx_fix EO). split.
      by rewrite -scalerN; apply: csym_line => //; rewrite /csymmetric linearN /= Sr.
    apply: pos_def_semi. have := H _ t0 tT.
    by rewrite scalerN -im_scale im_D im_N addrAC.
  Qed.
End Upper.

Section Bounded.
  Variable F : rcfType.
  Notation C := F[i].
  Variable eigh : forall n, 'M[F]_n -> 'rV[F]_n * 'M[F]_n.
  Hypothesis EO : eigh_asc_ok eigh.
  Variables (p : precision) (n : nat).
  Implicit Types z g u h : 'M[C]_n.
  Lemma bd_factor z : in_bounded_domain z -> exists2 s, s \in unitmx & 1%:M - bar z *m z = adj s *m s.
  Proof.
    move=> B; have [U U' E _ _] := bd_A B.
    have UH := cay_uh B; have Uz := bd_unit B; case: (B) => S H; have IM := im_cay S Uz; case: UH => _ P.
    have [i' [s' R]] := roots_exist P.
    set A := 1%:M - bar z *m z in U E IM *. set L := 1%:M - z in Uz IM.
    pose T := invmx L *m as_complex i'.
    have UiL : invmx L \in unitmx by rewrite unitmx_inv.
    have UaL : adj (invmx L) \in unitmx by rewrite adj_unit.
    have EA : invmx A = T *m adj T.
      have K : invmx (as_complex (im_part (cay z))) = as_complex i' *m as_complex i' by rewrite -ac_inv (r_inv R) acM.
      have : invmx (as_complex (im_part (cay z))) = invmx (invmx L) *m (invmx A *m invmx (adj (invmx L))).
        by rewrite IM invM ?invM ?unitmx_mul ?UaL ?U.
      rewrite K => /(congr1 (fun x => invmx L *m x *m adj (invmx L))).
      rewrite !mulmxA mulmxV // mul1mx mulmxKV // => <-.
      by rewrite /T adjM ac_adj (r_iT R) !mulmxA.
    have Ti : T \in unitmx by rewrite unitmx_mul UiL ac_unit (r_iU R).
    exists (invmx T); first by rewrite unitmx_inv.
    rewrite adj_inv -[A]invmxK EA invM ?adj_unit //.
  Qed.
  Lemma trace_adj u h : \tr (u *m adj h) = pairing u h.
  Proof.
    rewrite /mxtrace /pairing; apply: eq_bigr => i _; rewrite mxE; apply: eq_bigr => j _. by rewrite mxE.
  Qed.
  Lemma bd_slope z g : in_bounded_domain z -> csymmetric g -> bd_egrad2rgrad z g != 0 ->
    0 < pairing g (bd_egrad2rgrad z g).
  Proof.
    move=> B G R0. have [s Us E] := bd_factor B. case: (B) => S _. have H := bd_herm S.
    have g0 : g != 0.
      apply: contra R0 => /eqP ->. by rewrite /bd_egrad2rgrad mulmx0 mul0mx /csym trmx0 addr0 scaler0.
    rewrite -tr_pair; last exact: bd_grad_sym.
    have -> : bar (bd_egrad2rgrad z g) = csym (bar ((1%:M - bar z *m z) *m g *m (1%:M - bar z *m z))).
      rewrite /bd_egrad2rgrad /csym barZ barD bar_tr. congr (_ *: _).
      by rewrite -[conjc _]/((conjc_rmorphism F) _) fmorphV rmorph_nat.
    rewrite mxtrace_mulC tr_csym //.
    set a := 1%:M - bar z *m z in E H *.
    have -> : \tr (bar (a *m g *m a) *m g) = \tr ((s *m g *m adj s) *m adj (s *m g *m adj s)).
      have -> : bar (a *m g *m a) = (adj (a *m g *m a))^T by rewrite adjE trmxK.
      rewrite -mxtrace_tr trmx_mul trmxK G !adjM adjK H E. move: (adj s) (adj g) => as' ag.
      by rewrite -!mulmxA [RHS]mxtrace_mulC -!mulmxA.
    rewrite trace_adj. apply: pairing_pos. apply: contra g0 => /eqP Z. apply/eqP.
    have := congr1 (fun w => invmx s *m w *m invmx (adj s)) Z.
    by rewrite !mulmxA mulVmx // mul1mx mulmxK ?adj_unit // mulmx0 mul0mx.
  Qed.
  (** Hermitian matrices through real ones of twice the size *)
  Lemma real2_pos h : adj h = h -> hpos_def h -> pos_def (real2 h).
  Proof.
    move=> H P. split; first exact: real2_sym. move=> w w0.
    set v : 'cV[C]_n := to_complex (lsubmx w)^T (rsubmx w)^T.
    have W : w = row_mx (re_part v)^T (im_part v)^T by rewrite /v re_to im_to !trmxK hsubmxK.
    have : 0 < hform h v.
      apply: P. apply/negP => /eqP V0. apply: w0. rewrite W V0.
      by apply/matrixP => i j; rewrite !mxE; case: splitP => k _; rewrite !mxE.
    by rewrite (hform_real2 v H) -W ltcR.
  Qed.
  Lemma real2_semi h : adj h = h -> pos_def (real2 h) -> hpos_semidef h.
  Proof.
    move=> H P v. rewrite -/(hform h v) (hform_real2 v H) lecR. exact: (proj2 (pos_def_semi P)).
  Qed.
  Lemma re_scale (t : F) u : re_part (t%:C *: u) = t *: re_part u.
  Proof. by apply/matrixP => i j; rewrite !mxE Re_scale. Qed.
  Lemma real2_lin h u (t : F) : real2 (h + t%:C *: u) = real2 h + t *: real2 u.
  Proof.
    rewrite /real2 re_D im_D re_scale im_scale scale_block_mx add_block_mx opprD scalerN. done.
  Qed.
  Lemma bd_open z r : csymmetric z -> csymmetric r -> hpos_def (((1 - EPS F p) ^+ 2)%:C%:M - bar z *m z) ->
    exists2 T, 0 < T & forall t, 0 < t -> t < T -> bd_projx eigh p (z - t%:C *: r) = z - t%:C *: r.
  Proof.
    move=> Z R P. set c := ((1 - EPS F p) ^+ 2)%:C in P *.
    have cr : adj (c%:M : 'M[C]_n) = c%:M.
      apply/matrixP => i j; rewrite !mxE eq_sym. by case: eqP => _; rewrite ?mulr0n ?mulr1n /c /= ?oppr0.
    have H (w : 'M[C]_n) : csymmetric w -> adj (c%:M - bar w *m w) = c%:M - bar w *m w.
      by move=> W; rewrite adjB cr adjM (bar_sym W) adjK.
    set N := bar r *m z + bar z *m r. set Q := - (bar r *m r).
    have HN : adj N = N by rewrite /N adjD !adjM (bar_sym Z) (bar_sym R) !adjK addrC.
    have HQ : adj Q = Q.
      have -> : Q = 0 - bar r *m r by rewrite sub0r. by rewrite adjB adj0 adjM (bar_sym R) adjK.
    have [T T0 HT] := pos_def_open2 (real2_pos (H _ Z) P) (real2_sym HN) (real2_sym HQ).
    exists T => // t t0 tT.
    have W : csymmetric (z - t%:C *: r) by rewrite -scalerN; apply: csym_line => //; rewrite /csymmetric linearN /= R.
    apply/(bd_projx_fix EO). split=> //. apply: real2_semi; first exact: H.
    have -> : c%:M - bar (z - t%:C *: r) *m (z - t%:C *: r) = (c%:M - bar z *m z) + t%:C *: N + (t ^+ 2)%:C *: Q.
      have -> : bar (z - t%:C *: r) = bar z - t%:C *: bar r.
        by rewrite barB barZ; congr (_ - _ *: _); apply/eqP; rewrite eq_complex /= oppr0 !eqxx.
      rewrite mulmxBl !mulmxBr -!scalemxAl -!scalemxAr scalerA /N /Q scalerDr scalerN.
      have -> : (t ^+ 2)%:C = t%:C * t%:C :> C by rewrite expr2 rmorphM.
      move: (bar z *m z) (bar z *m r) (bar r *m z) (bar r *m r) => a b d e.
      rewrite !opprB -!addrA; congr (_ + _). rewrite [RHS]addrCA; congr (_ + _).
      by rewrite addrCA [RHS]addrCA; congr (_ + _); rewrite addrC.
    rewrite !real2_lin. exact: HT.
  Qed.
  Lemma bd_bound_in z : csymmetric z -> hpos_def (((1 - EPS F p) ^+ 2)%:C%:M - bar z *m z) -> in_bounded_domain z.
  Proof.
    move=> S P. have <- : bd_projx eigh p z = z; last exact: (bd_projx_in EO).
    apply/(bd_projx_fix EO); split=> // v. case: (eqVneq v 0) => [->|v0]; last exact: ltW (P v v0).
    by rewrite mulmx0 mxE.
  Qed.
  Lemma bd_descent f z g : csymmetric z -> hpos_def (((1 - EPS F p) ^+ 2)%:C%:M - bar z *m z) -> csymmetric g ->
    c_differentiable f z g -> bd_egrad2rgrad z g != 0 ->
    c_decreases f z (fun t => bd_retr eigh p z (- (t%:C *: bd_egrad2rgrad z g))).
  Proof.
    move=> Z P G D R0. set r := bd_egrad2rgrad z g in R0 *. have R : csymmetric r by exact: bd_grad_sym.
    have [T T0 E] := bd_open Z R P.
    apply: (line_descent (a := - r) D _ T0).
      rewrite pairingNr. have := bd_slope (bd_bound_in Z P) G R0. rewrite -/r ltcE /= => /andP [_ q]. by rewrite oppr_lt0.
    move=> t t0 tT. rewrite scalerN. exact: E.
  Qed.
End Bounded.

(** ** A gradient that is not symmetric *)
Section Refute.
  Variable F : rcfType.
  Notation C := F[i].
  Add Field FfD : (fth F).
  Variable eigh : forall n, 'M[F]_n -> 'rV[F]_n * 'M[F]_n.
  Hypothesis EO : eigh_asc_ok eigh.
  Variable p : precision.
  Notation r x := (Complex (x : F) 0).
  Notation im x := (Complex 0 (x : F)).
  Notation q4 := (4%:R^-1 : F).
  Definition Gb : 'M[C]_2 := mx2 (im 1) (r (- 2%:R)) (r 2%:R) 0.
  Lemma n16 : ((1 + 1) * ((1 + 1) * ((1 + 1) * (1 + 1))) : F) <> 0.
  Proof. by have := @nz F 15; rewrite (_ : 16%:R = (1 + 1) * ((1 + 1) * ((1 + 1) * (1 + 1)))) // -[16%N]/(2 * (2 * (2 * 2)))%N !natrM. Qed.
  Ltac nzs := repeat match goal with |- _ /\ _ => split end; first [exact n16|exact (@nz F 1)|exact (@nz F 2)|exact (@n4 F)|exact (@n5 F)|exact (@n8 F)|exact (@n25 F)].
  Lemma Rb : bd_egrad2rgrad (Zb F) Gb = mx2 (im (- q4)) 0 0 (im (- (11%:R / 16%:R))).
  Proof.
    rewrite /bd_egrad2rgrad /bd_id_minus_conj_z_z /identity_like -/(bar _) AZ /Gb !mul2 /csym tr2 add2 scale2.
    apply: mx2_congr; apply: ceq; rewrite /=; f_goal F; field; nzs.
  Qed.
  Lemma Gb_slope : complex.Re (pairing Gb (bd_egrad2rgrad (Zb F) Gb)) = - q4.
  Proof.
    rewrite Rb /pairing !big_ord_recl !big_ord0 !mxE /=. f_goal F; field; nzs.
  Qed.
  Lemma Zb_room : hpos_def (((1 - EPS F p) ^+ 2)%:C%:M - bar (Zb F) *m Zb F).
  Proof.
    set c := (1 - EPS F p) ^+ 2.
    have c34 : 3%:R / 4%:R <= c.
      have e : EPS F p <= 8%:R^-1.
        case: (p); rewrite /= ler_pdivr_mulr ?exprn_gt0 ?ltr0n // mulrC ler_pdivl_mulr ?ltr0n // -natrX -?natrM ?mul1r ler_nat //.
      rewrite /c. have : 7%:R / 8%:R <= 1 - EPS F p.
        rewrite ler_subr_addr -ler_subr_addl. apply: le_trans e _. rewrite le_eqVlt; apply/orP; left; apply/eqP.
        f_goal F; field; nzs.
      move=> h. have h0 : 0 <= 7%:R / 8%:R :> F by rewrite divr_ge0 ?ler0n.
      apply: le_trans (ler_pmul h0 h0 h h).
      rewrite mulrACA -invfM -!natrM ler_pdivr_mulr ?ltr0n // mulrAC ler_pdivl_mulr ?ltr0n // -!natrM ler_nat //.
    have -> : c%:C%:M - bar (Zb F) *m Zb F = (c - 3%:R / 4%:R)%:C *: 1%:M
        + q4%:C *: (adj (mx2 1 (im (- 1)) 0 1) *m 1%:M *m mx2 1 (im (- 1)) 0 1).
      rewrite mulmx1 /Zb bar2 adj2 !mul2 scale2 one2 scale2 opp2.
      have -> : c%:C%:M = mx2 c%:C 0 0 c%:C by apply: mx2P; rewrite !mxE ?mulr1n.
      rewrite !add2. move: c c34 => c _. apply: mx2_congr; apply: ceq; rewrite /=; f_goal F; field; nzs.
    have I : @hpos_def F 2 1%:M by rewrite -ac1; apply: hpos_ac; exact: pos_def1.
    move=> v v0. rewrite -/(hform _ v) hformD !hformZ. apply: ltr_paddl.
      apply: mulr_ge0; first by rewrite lecR subr_ge0. exact: ltW (I v v0).
    apply: mulr_gt0; first by rewrite ltcR invr_gt0 ltr0n.
    apply: (hpos_congr _ I) => //.
    have [//] : mx2 1 (im (- 1)) 0 1 \in unitmx /\ invmx (mx2 1 (im (- 1)) 0 1) = mx2 1 (im 1) 0 1.
    apply: inv_of; rewrite mul2 one2. apply: mx2_congr; apply: ceq; rewrite /=; f_goal F; field; nzs.
  Qed.
  Lemma pairingNl n (g h : 'M[C]_n) : pairing (- g) h = - pairing g h.
  Proof.
    rewrite /pairing -sumrN. apply: eq_bigr => i _. rewrite -sumrN. apply: eq_bigr => j _. by rewrite mxE mulNr.
  Qed.
  Lemma c_diffN n (f : 'M[C]_n -> F) z g : c_differentiable f z g -> c_differentiable (fun y => - f y) z (- g).
  Proof.
    move=> D e e0. have [d d0 H] := D e e0. exists d => // h hd.
    have -> : - f (z + h) - - f z - complex.Re (pairing (- g) h) = - (f (z + h) - f z - complex.Re (pairing g h)).
      have -> : complex.Re (pairing (- g) h) = - complex.Re (pairing g h) by rewrite pairingNl; case: (pairing g h).
      by rewrite !opprD !opprK.
    by rewrite sqrrN; exact: H.
  Qed.
  Lemma pairing_diff n (g z : 'M[C]_n) : c_differentiable (fun y => complex.Re (pairing g y)) z g.
  Proof.
    move=> e e0. exists 1; first exact: ltr01. move=> h _.
    have -> : pairing g (z + h) = pairing g z + pairing g h.
      rewrite /pairing -big_split. apply: eq_bigr => i _. rewrite -big_split. apply: eq_bigr => j _.
      by rewrite mxE rmorphD mulrDr.
    rewrite raddfD /= addrAC addrK subrr expr0n /=. apply: mulr_ge0; [exact: ltW|exact: sqlen_ge0].
  Qed.
  Lemma bd_ascent : exists z g : 'M[C]_2, [/\ csymmetric z, hpos_def (((1 - EPS F p) ^+ 2)%:C%:M - bar z *m z),
    exists f, c_differentiable f z g, bd_egrad2rgrad z g != 0 &
    forall f, c_differentiable f z g ->
      c_increases f z (fun t => bd_retr eigh p z (- (t%:C *: bd_egrad2rgrad z g)))].
  Proof.
    exists (Zb F), Gb. have Z := Zb_sym F. have P := Zb_room.
    split=> //; first by exists (fun y => complex.Re (pairing Gb y)); exact: pairing_diff.
      rewrite Rb. apply/negP => /eqP /matrixP /(_ 0 0). rewrite !mxE => -[] /eqP. by rewrite oppr_eq0 invr_eq0 pnatr_eq0.
    move=> f D. have R := bd_grad_sym (Zb F) Gb.
    have [T T0 E] := bd_open EO Z R P.
    have [] := line_descent (a := - bd_egrad2rgrad (Zb F) Gb)
      (c := fun t => bd_retr eigh p (Zb F) (- (t%:C *: bd_egrad2rgrad (Zb F) Gb))) (c_diffN D) _ T0.
    - rewrite pairingNr pairingNl. have := Gb_slope. case: (pairing _ _) => x y /= ->.
      by rewrite opprK oppr_lt0 invr_gt0 ltr0n.
    - move=> t t0 tT. rewrite scalerN. exact: E.
    move=> d d0 H. exists d => // t t0 td. have := H t t0 td. by rewrite ltr_opp2.
  Qed.
End Refute.

Section Cases.
  Variable F : rcfType.
  Notation C := F[i].
  Variable p : precision.
  Add Field FfDc : (fth F).
  Lemma uh_case : let z := uh_origin F 2 in let g := mx2 (1 : C) 0 (Complex 0 1) 0 in
    [/\ csymmetric z, pos_def (im_part z - (EPS F p)%:M), c_differentiable (fun y => complex.Re (pairing g y)) z g &
      uh_egrad2rgrad z g != 0].
  Proof.
    move=> z g. have [[S _] _] := origins_in F 2. split=> //.
    - rewrite /z /uh_origin im_to.
      have -> : 1%:M - (EPS F p)%:M = (1 - EPS F p) *: 1%:M :> 'M[F]_2 by rewrite scale_scalar_mx mulr1 raddfB.
      apply: pos_defZ; [by rewrite subr_gt0 EPS_lt1|exact: pos_def1].
    - exact: pairing_diff.
    apply/negP => /eqP /matrixP /(_ 0 0).
    have -> : uh_egrad2rgrad z g = csym (to_complex (real_of g) (imag_of g)).
      rewrite /uh_egrad2rgrad (_ : imag_of z = 1%:M) ?mul1mx ?mulmx1 //. exact: im_to.
    rewrite /csym /to_complex /real_of /imag_of /re_part /im_part !mxE /=.
    have -> : Complex (1 : F) 0 = 1 by []. move/eqP. by rewrite -mulr2n mulVf ?oner_eq0 ?pnatr_eq0.
  Qed.
  Lemma bd_case : let z := Zb F in let g := E11 F in
    [/\ csymmetric z, hpos_def (((1 - EPS F p) ^+ 2)%:C%:M - bar z *m z), csymmetric g,
      c_differentiable (fun y => complex.Re (pairing g y)) z g & bd_egrad2rgrad z g != 0].
  Proof.
    move=> z g. split; [exact: Zb_sym|exact: Zb_room|by rewrite /csymmetric /g /E11 tr2|exact: pairing_diff|].
    apply/negP => /eqP E. have := grad_wit F. rewrite -/g -/z E.
    have [U I] := AZ_inv F; have [U' I'] := AZ'_inv F.
    rewrite bd_innerE // mulmx0 !mul0mx mxtrace0 => -[] /eqP. by rewrite eq_sym mulf_eq0 invr_eq0 !pnatr_eq0.
  Qed.
End Cases.
