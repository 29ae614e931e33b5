(** Spectral theorem for symmetric matrices over a real closed field, and
    uniqueness of functions of symmetric matrices.  Supporting mathematics only; no
    part of the code is modelled here. *)
From mathcomp Require Import all_ssreflect all_algebra.
From mathcomp.real_closed Require Import complex.
From Verif Require Import StiefelModel StiefelSpec StiefelProofs.
Import Order.TTheory GRing.Theory Num.Theory.
Local Open Scope ring_scope.
Set Implicit Arguments. Unset Strict Implicit. Unset Printing Implicit Defensive.

Section Spectral.
  Variable F : rcfType.
  Implicit Types n : nat.

  Lemma row_sq n (v : 'rV[F]_n) : v *m v^T = (pairing v^T v^T)%:M.
  Proof. by rewrite /pairing trmxK [v *m v^T]mx11_scalar mxtrace_scalar. Qed.

  (** A symmetric matrix has a real eigenvector. *)
  Lemma real_eigen n (x : 'M[F]_n.+1) : x^T = x ->
    exists a (u : 'rV[F]_n.+1), u != 0 /\ u *m x = a *: u.
  Proof.
    move=> S. pose X := map_mx (real_complex F) x.
    have [z Hz] : exists z : F[i], root (char_poly X) z.
      by apply/closed_rootP; rewrite size_char_poly.
    move: Hz. rewrite -eigenvalue_root_char => /eigenvalueP [v Hv v0].
    pose p := map_mx (@complex.Re F) v. pose q := map_mx (@complex.Im F) v. case: z Hv => a b Hv.
    have vE i j : v i j = Complex (p i j) (q i j) by rewrite !mxE; case: (v i j).
    have HE : forall i j, (v *m X) i j = Complex ((p *m x) i j) ((q *m x) i j).
      move=> i j. rewrite !mxE. rewrite (eq_bigr (fun k => Complex (p i k * x k j) (q i k * x k j))).
        elim/big_rec3: _ => //= k y1 y2 y3 _ ->. done.
      move=> k _. rewrite vE [X k j]mxE. transitivity (Complex (p i k * x k j - q i k * 0) (p i k * 0 + q i k * x k j)); first by [].
      by rewrite !mulr0 subr0 add0r.
    have Hp : p *m x = a *: p - b *: q.
      apply/matrixP => i j. have := HE i j. rewrite Hv mxE vE => -[<- _]. by rewrite !mxE.
    have Hq : q *m x = b *: p + a *: q.
      apply/matrixP => i j. have := HE i j. rewrite Hv mxE vE => -[_ <-]. by rewrite !mxE addrC.
    have b0 : b = 0.
      have E : p *m x *m q^T = (q *m x *m p^T)^T by rewrite !trmx_mul trmxK S mulmxA.
      move: E. rewrite Hp Hq mulmxBl mulmxDl -!scalemxAl linearD !linearZ /= !trmx_mul !trmxK => /eqP.
      rewrite scalerN [_ + a *: _]addrC (inj_eq (addrI _)) eq_sym -addr_eq0 => /eqP E.
      move: E. rewrite -scalerDr => /eqP. rewrite scaler_eq0 => /orP [/eqP //|].
      rewrite !row_sq -raddfD /= => /eqP/(congr1 (fun m : 'M_1 => m ord0 ord0)). rewrite !mxE eqxx mulr1n => /eqP.
      rewrite paddr_eq0 ?pairing_ge0 // => /andP [/eqP/pairing_eq0 P /eqP/pairing_eq0 Q].
      case/negP: v0. apply/eqP/matrixP => i j. rewrite vE -(trmxK p) -(trmxK q) P Q !mxE. done.
    subst b.
    case: (eqVneq p 0) => P.
    - exists a, q. split.
      + apply: contraNneq v0 => Q. apply/eqP/matrixP => i j. by rewrite vE P Q !mxE.
      + by rewrite Hq scale0r add0r.
    - exists a, p. split=> //. by rewrite Hp scale0r subr0.
  Qed.

  (** Householder reflection with given unit first row. *)
  Lemma complete n (u : 'rV[F]_n.+1) : u *m u^T = 1%:M ->
    exists Q : 'M[F]_n.+1, Q *m Q^T = 1%:M /\ row ord0 Q = u.
  Proof.
    move=> U. pose e : 'rV[F]_n.+1 := delta_mx ord0 ord0. have [w wE] : exists w, w = u - e by exists (u - e).
    have ee : e *m e^T = 1%:M.
      by rewrite /e trmx_delta mul_delta_mx; apply/matrixP => i j; rewrite !mxE !ord1.
    case: (eqVneq w 0) => W.
      exists 1%:M. rewrite mul1mx trmx1. split=> //.
      rewrite row1. apply/eqP. by rewrite eq_sym -subr_eq0 -/e -wE W.
    pose s := pairing w^T w^T. have s0 : s != 0.
      apply: contraNneq W => H. apply/eqP. rewrite -[w]trmxK. by rewrite (pairing_eq0 H) trmx0.
    have sE : w *m w^T = s%:M by exact: row_sq.
    pose H := 1%:M - (2%:R / s) *: (w^T *m w).
    have HT : H^T = H by rewrite /H linearB linearZ /= trmx1 trmx_mul trmxK.
    have WW : (w^T *m w) *m (w^T *m w) = s *: (w^T *m w).
      by rewrite mulmxA -(mulmxA _ w) sE mul_mx_scalar scalemxAl.
    exists H. rewrite HT. split.
      rewrite /H mulmxBl mul1mx -scalemxAl mulmxBr mulmx1 -scalemxAr WW.
      set q := w^T *m w. rewrite -addrA -[RHS]addr0; congr (_ + _). rewrite scalerBr !scalerA.
      have E : 2%:R / s * (2%:R / s) * s = 2%:R / s + 2%:R / s.
        by rewrite -(mulrA (2%:R / s)) (divfK s0) mulr_natr mulr2n.
      rewrite E.
      by rewrite scalerDl opprB addrK addNr.
    have rE : row ord0 H = e - (2%:R / s * (w ord0 ord0)) *: w.
      rewrite /H linearB linearZ /= row1 -/e row_mul. congr (_ - _). rewrite -[in RHS]scalerA. congr (_ *: _).
      by rewrite [row _ _]mx11_scalar mul_scalar_mx !mxE.
    have uw : w ord0 ord0 = - (s / 2%:R).
      have E : s%:M = w *m w^T by rewrite sE.
      have : s%:M = (2%:R * (1 - u ord0 ord0))%:M :> 'M[F]_1.
        rewrite E wE linearB /= mulmxBl !mulmxBr U ee.
        have A : u *m e^T = (u ord0 ord0)%:M.
          rewrite /e trmx_delta. apply/matrixP => i j. rewrite !ord1 !mxE (bigD1 ord0) //= big1 ?mxE ?eqxx ?mulr1n ?mulr1 ?addr0 //.
          move=> k k0. by rewrite mxE (negbTE k0) mulr0.
        have B : e *m u^T = (u ord0 ord0)%:M by rewrite -[LHS]trmxK trmx_mul trmxK A tr_scalar_mx.
        rewrite A B -!raddfB /=. congr (_%:M). by rewrite opprB mulr_natl mulr2n.
      move/(congr1 (fun m : 'M_1 => m ord0 ord0)). rewrite !mxE eqxx !mulr1n => ->.
      rewrite mulrC mulKf ?two_neq0 // opprB. by rewrite wE /e !mxE.
    rewrite rE uw mulrN scaleNr opprK. rewrite mulrA divfK // divff ?two_neq0 // scale1r wE addrC subrK. done.
  Qed.

  (** * Spectral theorem *)
  Theorem spectral n (x : 'M[F]_n) : x^T = x ->
    exists e (v : 'M[F]_n), v^T *m v = 1%:M /\ x = v *m diag_mx e *m v^T.
  Proof.
    elim: n x => [|n IH] x S.
      exists 0, 1%:M. by split; [rewrite trmx1 mul1mx | apply/matrixP => -[]].
    have [a [u [u0 Eu]]] := real_eigen S.
    pose s := pairing u^T u^T. 
    have s0 : 0 < s.
      rewrite lt_def pairing_ge0 andbT. apply: contraNneq u0 => H. by rewrite -[u]trmxK (pairing_eq0 H) trmx0.
    pose w := (Num.sqrt s)^-1 *: u. 
    have W : w *m w^T = 1%:M.
      rewrite /w linearZ /= -scalemxAl -scalemxAr row_sq -/s scalerA -invfM -expr2 sqr_sqrtr ?(ltW s0) //.
      by rewrite scale_scalar_mx mulVf ?gt_eqF.
    have Ew : w *m x = a *: w by rewrite /w -scalemxAl Eu !scalerA mulrC.
    have [Q [QQ Q0]] := complete W.
    have QQ' : Q^T *m Q = 1%:M by exact: mulmx1C.
    have [y yD] : exists y : 'M[F]_n.+1, y = Q *m x *m Q^T by exists (Q *m x *m Q^T).
    have yS : y^T = y by rewrite yD !trmx_mul trmxK S mulmxA.
    have y0 : row ord0 y = a *: delta_mx ord0 ord0.
      rewrite yD -mulmxA row_mul Q0 mulmxA Ew -scalemxAl. congr (_ *: _).
      by rewrite -Q0 -row_mul QQ row1.
    pose z : 'M[F]_n := drsubmx (y : 'M_(1 + n)).
    have zS : z^T = z by rewrite /z trmx_drsub yS.
    have yE : y = block_mx a%:M 0 0 z :> 'M_(1 + n).
      have ur : ursubmx (y : 'M_(1+n)) = 0.
        apply/matrixP => i j. rewrite !mxE. have := congr1 (fun r : 'rV_n.+1 => r ord0 (rshift 1 j)) y0.
        rewrite !mxE /= mulr0 => <-. congr (y _ _). by apply/val_inj; rewrite /= ord1.
      rewrite -[LHS](@submxK _ 1 n 1 n y). congr block_mx => //.
      - apply/matrixP => i j. rewrite !ord1 !mxE eqxx mulr1n. have := congr1 (fun r : 'rV_n.+1 => r ord0 ord0) y0.
        rewrite !mxE /= mulr1 => <-. by congr (y _ _); apply/val_inj.
      - rewrite -[LHS]trmxK trmx_dlsub yS ur trmx0. done.
    have [e' [v' [V E]]] := IH z zS.
    pose e : 'rV[F]_n.+1 := row_mx (a%:M : 'M_1) e' : 'M_(1, 1 + n).
    pose b : 'M[F]_n.+1 := block_mx (1%:M : 'M_1) 0 0 v' : 'M_(1 + n).
    have BE : b^T *m b = 1%:M.
      rewrite /b (@tr_block_mx _ 1 n 1 n) (@mulmx_block _ 1 n 1 n 1 n) !trmx0 !trmx1 !(mulmx0, mul0mx, mul1mx, mulmx1, addr0, add0r) V.
      by rewrite -scalar_mx_block.
    exists e, (Q^T *m b). split.
      by rewrite trmx_mul trmxK mulmxA -(mulmxA _ Q) QQ mulmx1.
    have DE : diag_mx e = block_mx a%:M 0 0 (diag_mx e') :> 'M_(1 + n).
      transitivity (block_mx (diag_mx (a%:M : 'rV_1)) 0 0 (diag_mx e') : 'M_(1 + n)); first exact: diag_mx_row.
      congr block_mx. apply/matrixP => i j. by rewrite !ord1 !mxE.
    have YE : y = b *m diag_mx e *m b^T.
      rewrite DE /b (@tr_block_mx _ 1 n 1 n) !(@mulmx_block _ 1 n 1 n 1 n) !trmx0 !trmx1.
      by rewrite !(mulmx0, mul0mx, mul1mx, mulmx1, addr0, add0r) -E -yE.
    rewrite trmx_mul trmxK !mulmxA -!(mulmxA Q^T) -YE yD !mulmxA QQ' mul1mx -mulmxA QQ' mulmx1. done.
  Qed.
End Spectral.
