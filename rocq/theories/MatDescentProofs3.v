(** Descent on the SPD manifold. *)
From mathcomp Require Import all_ssreflect all_algebra.
From Verif Require Import Spectral StiefelModel StiefelSpec StiefelProofs SpdModel SpdSpec SpdProofs SpdProofs2
  MatDescentSpec MatDescentProofs MatDescentProofs2.
Import Order.TTheory GRing.Theory Num.Theory.
Local Open Scope ring_scope.
Set Implicit Arguments. Unset Strict Implicit. Unset Printing Implicit Defensive.

Section Spd.
  Variable F : rcfType.
  Variable n : nat.
  Implicit Types x g u : 'M[F]_n.
  Lemma spd_slope x g : pos_def x -> egrad2rgrad x g <> 0 -> pairing g (- egrad2rgrad x g) < 0.
  Proof.
    move=> X R0. rewrite pairingC pairingNl pairingC oppr_lt0 -froE.
    rewrite -(rgrad_gradient g X (rgrad_tangent x g)). apply: inner_pos => //. exact: rgrad_tangent.
  Qed.
  Lemma spd_retr_descent f x g : pos_def x -> differentiable f x g -> egrad2rgrad x g <> 0 ->
    decreases f x (fun t => retr x (- t *: egrad2rgrad x g)).
  Proof.
    move=> X D R0. have S := rgrad_tangent x g. have G := spd_slope X R0.
    move: (egrad2rgrad x g) R0 S G => r R0 S G.
    set b := 2%:R^-1 *: (r *m invmx x *m r).
    apply: (@descent _ _ _ f x g (- r) _ (pairing b b) 1) => // t t0 _. exists b => //.
    rewrite retr_formula //; last by rewrite /symmetric linearZ /= S.
    rewrite scalerN -scaleNr. congr (_ + _). rewrite -!scalemxAl -scalemxAr /b !scalerA. congr (_ *: _).
    by rewrite -mulrA mulrNN -expr2 mulrC.
  Qed.

  (** exp(-t m) to second order, along a diagonalisation of m *)
  Lemma conj_norm (w : 'M[F]_n) (be ga : 'rV[F]_n) : (forall j, `|be ord0 j| <= ga ord0 j) ->
    pairing (w *m diag_mx be *m w^T) (w *m diag_mx be *m w^T) <=
    \sum_i \sum_j ga ord0 i * (w^T *m w) i j ^+ 2 * ga ord0 j.
  Proof.
    move=> H.
    have -> : pairing (w *m diag_mx be *m w^T) (w *m diag_mx be *m w^T) =
      \sum_i \sum_j be ord0 i * (w^T *m w) i j ^+ 2 * be ord0 j.
      rewrite /pairing !trmx_mul trmxK tr_diag_mx.
      have [G GE] : exists G, G = w^T *m w by exists (w^T *m w).
      have GT : G^T = G by rewrite GE trmx_mul trmxK.
      have -> : \tr (w *m (diag_mx be *m w^T) *m (w *m diag_mx be *m w^T)) =
                \tr ((diag_mx be *m G) *m (diag_mx be *m G)).
        by rewrite -!mulmxA [LHS]mxtrace_mulC -!mulmxA ?(mulmxA w^T) -?GE -?mulmxA.
      rewrite -GE. apply: eq_bigr => i _. rewrite mxE. apply: eq_bigr => j _. rewrite !mul_diag_mx !mxE.
      by rewrite -{2}GT mxE expr2 !mulrA (mulrAC _ (be _ j)).
    apply: ler_sum => i _. apply: ler_sum => j _.
    apply: (le_trans (ler_norm _)). rewrite normrM [`|_ * _ ^+ 2|]normrM [`|_ ^+ 2|]ger0_norm ?sqr_ge0 //.
    apply: ler_pmul => //.
    - by apply: mulr_ge0; rewrite ?sqr_ge0.
    - by apply: ler_wpmul2r; rewrite ?sqr_ge0.
  Qed.

  Lemma spd_expmap_descent eigh exp log mexp f x g : eigh_ok eigh -> explog exp log -> matrix_exp_ok exp mexp ->
    second_order exp ->
    pos_def x -> differentiable f x g -> egrad2rgrad x g <> 0 ->
    decreases f x (fun t => expmap eigh mexp x (- t *: egrad2rgrad x g)).
  Proof.
    move=> EO EL MX [C E2] X D R0. have S := rgrad_tangent x g. have Gr := spd_slope X R0.
    move: (egrad2rgrad x g) R0 S Gr => r R0 S Gr.
    have [i [s [Es [R _]]]] := sqrtm2 EO X.
    have [e [v [V Ev]]] := spectral (r_symmetric R S).
    have VV := mulmx1C V.
    set K := 1 + \sum_j e ord0 j ^+ 2.
    have Sj j : e ord0 j ^+ 2 <= \sum_j e ord0 j ^+ 2.
      rewrite (bigD1 j) //= ler_addl. apply: sumr_ge0 => l _. exact: sqr_ge0.
    have K0 : 0 < K by rewrite ltr_spaddl ?ltr01 // sumr_ge0 // => j _; exact: sqr_ge0.
    set w := s *m v.
    set B := \sum_i \sum_j (C * e ord0 i ^+ 2) * (w^T *m w) i j ^+ 2 * (C * e ord0 j ^+ 2).
    apply: (@descent _ _ _ f x g (- r) _ B K^-1) => //; first by rewrite invr_gt0.
    move=> t t0 tK.
    set be := \row_j ((t ^+ 2)^-1 * (exp (- t * e ord0 j) - 1 - (- t * e ord0 j))).
    exists (w *m diag_mx be *m w^T); last first.
      have -> : B = \sum_i \sum_j (\row_j (C * e ord0 j ^+ 2)) ord0 i * (w^T *m w) i j ^+ 2 * (\row_j (C * e ord0 j ^+ 2)) ord0 j.
        by apply: eq_bigr => a _; apply: eq_bigr => b _; rewrite [(\row_j _) ord0 a]mxE [(\row_j _) ord0 b]mxE.
      apply: conj_norm => j. rewrite !mxE normrM.
      have y1 : `|- t * e ord0 j| <= 1.
        rewrite normrM normrN gtr0_norm //. apply: (@le_trans _ _ (t * K)).
          rewrite ler_pmul2l //. apply: (@le_trans _ _ (1 + e ord0 j ^+ 2)); last by rewrite ler_add2l.
          rewrite -[e ord0 j ^+ 2]ger0_norm ?sqr_ge0 // normrX. set a := `|_|. have a0 : 0 <= a by exact: normr_ge0.
          case: (lerP a 1) => a1; first by apply: ler_paddr => //; exact: exprn_ge0.
          apply: ler_paddl; first exact: ler01. rewrite expr2 -[X in X <= _]mulr1. apply: ler_wpmul2l => //. exact: ltW.
        by rewrite -ler_pdivl_mulr // mul1r ltW.
      have := E2 _ y1. set z := `|exp _ - _ - _| => Hz.
      rewrite gtr0_norm ?invr_gt0 ?exprn_gt0 // ler_pdivr_mull ?exprn_gt0 //.
      by apply: (le_trans Hz); rewrite exprMn sqrrN mulrCA.
    rewrite /expmap Es /sym_expm -scalemxAr -scalemxAl Ev.
    have -> : - t *: (v *m diag_mx e *m v^T) = v *m diag_mx (- t *: e) *m v^T.
      by rewrite [diag_mx (_ *: _)]linearZ /= -scalemxAr -scalemxAl.
    rewrite MX //.
    have -> : map_mx exp (- t *: e) = const_mx 1 + (- t) *: e + t ^+ 2 *: be.
      apply/matrixP => a b. have -> : a = ord0 by rewrite [LHS]ord1. rewrite !mxE mulrA mulfV ?mul1r ?expf_eq0 ?gt_eqF //.
      set y := - t * _. by rewrite -(addrA (exp y)) -opprD [RHS]addrC subrK.
    have -> : diag_mx (const_mx 1 + - t *: e + t ^+ 2 *: be) = 1%:M + - t *: diag_mx e + t ^+ 2 *: diag_mx be.
      by rewrite !linearD !linearZ /= diag_const_mx.
    rewrite (mulmxDr v) (mulmxDr v) mulmx1 !(mulmxDl _ _ v^T) VV !(mulmxDr s) !(mulmxDl _ _ s) mulmx1 (r_ss R).
    congr (_ + _ + _).
    - have Cr := r_cancel R r. rewrite Ev in Cr. rewrite -[v *m (_ *: _)]scalemxAr -[_ *: _ *m v^T]scalemxAl.
      by rewrite -[s *m (_ *: _)]scalemxAr -scalemxAl Cr scalerN scaleNr.
    - rewrite -[v *m (_ *: _)]scalemxAr -[_ *: _ *m v^T]scalemxAl -[s *m (_ *: _)]scalemxAr -scalemxAl.
      by rewrite /w trmx_mul (r_sT R) !mulmxA.
  Qed.
End Spd.
