(** Lemmas for the Stiefel manifold. *)
From mathcomp Require Import all_ssreflect all_algebra.
From Verif Require Import StiefelModel StiefelSpec.
Import Order.TTheory GRing.Theory Num.Theory.
Local Open Scope ring_scope.
Set Implicit Arguments. Unset Strict Implicit. Unset Printing Implicit Defensive.

Section Lemmas.
  Variable F : realFieldType.
  Implicit Types n p q : nat.

  Lemma two_neq0 : (2%:R : F) != 0. Proof. by rewrite pnatr_eq0. Qed.
  Lemma half_half : 2%:R^-1 + 2%:R^-1 = 1 :> F.
  Proof. by rewrite -mulr2n -[LHS]mulr_natr mulVf ?two_neq0. Qed.

  Lemma frobE n p (a b : 'M[F]_(n, p)) : frob a b = pairing a b.
  Proof.
    rewrite /frob /pairing /mxtrace exchange_big /=. apply: eq_bigr => j _. rewrite mxE.
    by apply: eq_bigr => i _; rewrite mxE.
  Qed.
  Lemma pairingC n p (a b : 'M[F]_(n, p)) : pairing a b = pairing b a.
  Proof. by rewrite /pairing -mxtrace_tr trmx_mul trmxK. Qed.
  Lemma pairing_ge0 n p (a : 'M[F]_(n, p)) : 0 <= pairing a a.
  Proof. rewrite -frobE. by apply: sumr_ge0 => i _; apply: sumr_ge0 => j _; rewrite -expr2 sqr_ge0. Qed.
  Lemma pairing_eq0 n p (a : 'M[F]_(n, p)) : pairing a a = 0 -> a = 0.
  Proof.
    rewrite -frobE => /eqP. rewrite psumr_eq0; last by move=> i _; apply: sumr_ge0 => j _; rewrite -expr2 sqr_ge0.
    move/allP => H. apply/matrixP => i j. rewrite mxE.
    have := H i (mem_index_enum _). rewrite /= psumr_eq0; last by move=> k _; rewrite -expr2 sqr_ge0.
    move/allP => H'. have := H' j (mem_index_enum _). by rewrite /= -expr2 sqrf_eq0 => /eqP.
  Qed.
  Lemma pairingDl n p (a b c : 'M[F]_(n, p)) : pairing (a + b) c = pairing a c + pairing b c.
  Proof. by rewrite /pairing linearD mulmxDl linearD. Qed.
  Lemma pairingZl n p k (a c : 'M[F]_(n, p)) : pairing (k *: a) c = k * pairing a c.
  Proof. by rewrite /pairing linearZ /= -scalemxAl linearZ. Qed.
  Lemma pairingNl n p (a c : 'M[F]_(n, p)) : pairing (- a) c = - pairing a c.
  Proof. by rewrite /pairing linearN mulNmx linearN. Qed.
  Lemma pairingBl n p (a b c : 'M[F]_(n, p)) : pairing (a - b) c = pairing a c - pairing b c.
  Proof. by rewrite pairingDl pairingNl. Qed.
  Lemma pairingDr n p (a b c : 'M[F]_(n, p)) : pairing c (a + b) = pairing c a + pairing c b.
  Proof. by rewrite !(pairingC c) pairingDl. Qed.
  Lemma pairingBr n p (a b c : 'M[F]_(n, p)) : pairing c (a - b) = pairing c a - pairing c b.
  Proof. by rewrite !(pairingC c) pairingBl. Qed.
  Lemma pairing_mull n p q (a : 'M[F]_(n, p)) (b : 'M[F]_(p, q)) c : pairing (a *m b) c = pairing b (a^T *m c).
  Proof. by rewrite /pairing trmx_mul mulmxA. Qed.

  Lemma canonicalE n p (x u v : 'M[F]_(n, p)) : canonical_inner x u v = canonical x u v.
  Proof.
    rewrite /canonical_inner /canonical !frobE. rewrite mulmxBr mulmx1 mulmxBl linearB /=. congr (_ - _).
    rewrite -scalemxAr -scalemxAl linearZ /=. congr (_ * _).
    by rewrite pairingC /pairing trmx_mul trmxK !mulmxA.
  Qed.

  (** skew-symmetric matrices *)
  Definition skew n (a : 'M[F]_n) : Prop := a^T = - a.
  Lemma skew_row n (a : 'M[F]_n) (v : 'rV[F]_n) : skew a -> v *m a *m v^T = 0.
  Proof.
    move=> S. have E : v *m a *m v^T = - (v *m a *m v^T).
      have T : (v *m a *m v^T)^T = v *m a *m v^T by apply/matrixP => i j; rewrite mxE !ord1.
      by rewrite -{1}T !trmx_mul trmxK S mulNmx mulmxN mulmxA.
    have : (v *m a *m v^T) *+ 2 = 0 by rewrite mulr2n {1}E addNr.
    move/eqP. rewrite -scaler_nat scaler_eq0 (negbTE two_neq0) /= => /eqP. done.
  Qed.
  Lemma row_norm0 n (v : 'rV[F]_n) : v *m v^T = 0 -> v = 0.
  Proof.
    move=> H. suff E : v^T = 0 by rewrite -(trmxK v) E trmx0.
    apply: pairing_eq0. by rewrite /pairing trmxK H mxtrace0.
  Qed.
  Lemma skew_unit n (a : 'M[F]_n) : skew a -> 1%:M - a \in unitmx.
  Proof.
    move=> S. rewrite -row_free_unit. rewrite -kermx_eq0. apply/eqP/row_matrixP => i. rewrite row0.
    set v := row i _. apply: row_norm0.
    have E : v *m (1%:M - a) = 0 by rewrite -row_mul mulmx_ker row0.
    have : v *m (1%:M - a) *m v^T = 0 by rewrite E mul0mx.
    by rewrite mulmxBr mulmx1 mulmxBl skew_row // subr0.
  Qed.
  Lemma skew_unitD n (a : 'M[F]_n) : skew a -> 1%:M + a \in unitmx.
  Proof. move=> S. have := @skew_unit n (- a). rewrite opprK. apply. by rewrite /skew linearN /= S. Qed.

  (** Cayley transform of a skew matrix *)
  Definition cay n (a : 'M[F]_n) : 'M[F]_n := invmx (1%:M - a) *m (1%:M + a).
  Lemma comm_1B n (a : 'M[F]_n) : (1%:M - a) *m (1%:M + a) = (1%:M + a) *m (1%:M - a).
  Proof. by rewrite mulmxBl mulmxDl !mul1mx mulmxDr mulmxBr mulmx1 opprD !addrA addrK subrK. Qed.
  Lemma inv_comm n (a b : 'M[F]_n) : a \in unitmx -> a *m b = b *m a -> invmx a *m b = b *m invmx a.
  Proof.
    move=> U C. by rewrite -[LHS]mulmx1 -(mulmxV U) mulmxA -(mulmxA _ b a) -C mulmxA mulVmx // mul1mx.
  Qed.
  Lemma cay_ortho n (a : 'M[F]_n) : skew a -> (cay a)^T *m cay a = 1%:M.
  Proof.
    move=> S. have U := skew_unit S. have V := skew_unitD S.
    rewrite /cay trmx_mul trmx_inv linearB linearD /= trmx1 S opprK.
    rewrite mulmxA -(mulmxA (1%:M - a)) (inv_comm V); last first.
      apply: esym. apply: inv_comm => //. exact: comm_1B.
    by rewrite !mulmxA mulmxV // mul1mx mulVmx.
  Qed.
  Lemma cay_comm n (a : 'M[F]_n) : skew a -> cay a *m a = a *m cay a.
  Proof.
    move=> S. have U := skew_unit S. rewrite /cay -mulmxA.
    have C : (1%:M + a) *m a = a *m (1%:M + a) by rewrite mulmxDl mulmxDr mulmx1 mul1mx.
    rewrite C !mulmxA; congr (_ *m _). apply: inv_comm => //.
    by rewrite mulmxBl mulmxBr mulmx1 mul1mx.
  Qed.
  Lemma cay_opp n (a : 'M[F]_n) : skew a -> cay (- a) *m cay a = 1%:M.
  Proof.
    move=> S. have U := skew_unit S. have V := skew_unitD S. rewrite /cay opprK -mulmxA (mulmxA (1%:M - a)) mulmxV //.
    by rewrite mul1mx mulVmx.
  Qed.

  (** CanonicalStiefel *)
  Section Canonical.
    Variables (n p : nat).
    Implicit Types x u v w : 'M[F]_(n, p).
    Definition hal x u : 'M[F]_n := 2%:R^-1 *: amat x u.
    Lemma amat_skew x u : skew (amat x u).
    Proof. by rewrite /skew /amat linearB /= !trmx_mul !trmxK opprB. Qed.
    Lemma hal_skew x u : skew (hal x u).
    Proof. by rewrite /skew /hal linearZ /= amat_skew scalerN. Qed.
    Lemma tfo q x (v : 'M_(n, q)) u : transp_follow_one x v u = cay (hal x u) *m v.
    Proof.
      rewrite /transp_follow_one /cayley_lhs /cayley_rhs /cay -/(hal x u) -mulmxA. congr (_ *m _).
      by rewrite mulmxDl mul1mx /hal -scalemxAl.
    Qed.
    Lemma lhs_unit x u : cayley_lhs x u \in unitmx.
    Proof. exact: (skew_unit (hal_skew x u)). Qed.
    Lemma solve_unique q x u (v y : 'M[F]_(n, q)) :
      cayley_lhs x u *m y = cayley_rhs x u v <-> y = transp_follow_one x v u.
    Proof.
      rewrite /transp_follow_one; split => [<-|->].
      - by rewrite mulmxA mulVmx ?lhs_unit // mul1mx.
      - by rewrite mulmxA mulmxV ?lhs_unit // mul1mx.
    Qed.
    Lemma preserved x u v w : (transp_follow_one x v u)^T *m transp_follow_one x w u = v^T *m w.
    Proof.
      rewrite !tfo trmx_mul mulmxA -(mulmxA v^T) cay_ortho ?mulmx1 //. exact: hal_skew.
    Qed.
    Lemma retr_on x u : on_stiefel x -> on_stiefel (canonical_retr x u).
    Proof. by rewrite /on_stiefel /canonical_retr preserved. Qed.
    Lemma retr_transpE x u v : retr_transp x u v = (canonical_retr x u, transp_follow_retr x u v).
    Proof.
      rewrite /retr_transp /canonical_retr /transp_follow_retr !tfo mul_mx_row.
      by rewrite row_mxKl row_mxKr.
    Qed.
    Lemma transp_tangent x u v : tangent x v -> tangent (canonical_retr x u) (transp_follow_retr x u v).
    Proof. by rewrite /tangent /canonical_retr /transp_follow_retr !preserved. Qed.
    Lemma transp_inner x u v w :
      canonical (canonical_retr x u) (transp_follow_retr x u v) (transp_follow_retr x u w) = canonical x v w.
    Proof.
      rewrite -!canonicalE /canonical_inner !frobE. rewrite /pairing /canonical_retr /transp_follow_retr.
      by rewrite !preserved.
    Qed.
    Lemma transp_linear x u k v w :
      transp_follow_retr x u (k *: v + w) = k *: transp_follow_retr x u v + transp_follow_retr x u w.
    Proof. by rewrite /transp_follow_retr !tfo mulmxDr -scalemxAr. Qed.
    Lemma amat_back x u : amat (canonical_retr x u) (- transp_follow_retr x u u) = - amat x u.
    Proof.
      rewrite /canonical_retr /transp_follow_retr !tfo. set Q := cay _.
      have S := hal_skew x u.
      rewrite /amat !linearN /= !trmx_mul !mulNmx ?mulmxN ?opprK !mulmxA.
      have E : Q *m amat x u *m Q^T = amat x u.
        have C : Q *m amat x u = amat x u *m Q.
          have := cay_comm S. rewrite -/Q /hal -scalemxAr -scalemxAl => /eqP.
          by rewrite -subr_eq0 -scalerBr scaler_eq0 invr_eq0 (negbTE two_neq0) /= subr_eq0 => /eqP.
        have QQ : Q *m Q^T = 1%:M by apply: mulmx1C; exact: cay_ortho.
        by rewrite C -mulmxA QQ mulmx1.
      move: E. rewrite /amat mulmxBr mulmxBl !mulmxA => E.
      rewrite -E opprB addrC. by rewrite /Q /cay trmx_mul !mulmxA.
    Qed.
    Lemma hal_back x u : hal (canonical_retr x u) (- transp_follow_retr x u u) = - hal x u.
    Proof. by rewrite /hal amat_back scalerN. Qed.
    Lemma retr_back x u : canonical_retr (canonical_retr x u) (- transp_follow_retr x u u) = x.
    Proof.
      rewrite {1}/canonical_retr tfo hal_back {1}/canonical_retr tfo mulmxA cay_opp ?mul1mx //. exact: hal_skew.
    Qed.
    Lemma transp_back x u v :
      transp_follow_retr (canonical_retr x u) (- transp_follow_retr x u u) (transp_follow_retr x u v) = v.
    Proof.
      rewrite {1}/transp_follow_retr tfo hal_back {1}/transp_follow_retr tfo mulmxA cay_opp ?mul1mx //. exact: hal_skew.
    Qed.
    Lemma retr_0 x : canonical_retr x 0 = x.
    Proof.
      rewrite /canonical_retr tfo /hal /amat mul0mx linear0 mulmx0 subr0 scaler0 /cay subr0 addr0 invmx1.
      by rewrite !mul1mx.
    Qed.
    (** exact expansion of the retraction *)
    Lemma retr_expansion x u : on_stiefel x ->
      canonical_retr x u = x + (u - x *m u^T *m x) +
         4%:R^-1 *: (amat x u *m amat x u *m (x + canonical_retr x u)).
    Proof.
      move=> X. set y := canonical_retr x u.
      have E : y - hal x u *m y = x + hal x u *m x.
        have := proj2 (solve_unique x u x y) erefl. rewrite /cayley_lhs /cayley_rhs -/(hal x u) mulmxBl mul1mx => ->.
        by rewrite /hal -scalemxAl.
      have E1 : y = x + hal x u *m (x + y).
        by rewrite mulmxDr addrA -E subrK.
      have A : amat x u *m x = u - x *m u^T *m x.
        by rewrite /amat mulmxBl -(mulmxA u) X mulmx1.
      rewrite {1}E1 -addrA; congr (_ + _).
      rewrite {1}E1 addrA (mulmxDr _ (x + x)) mulmxA. rewrite /hal -!scalemxAl -!scalemxAr -?scalemxAl.
      congr (_ + _).
      - by rewrite mulmxDr A -mulr2n -scaler_nat scalerA mulVf ?two_neq0 // scale1r.
      - rewrite scalerA. congr (_ *: _). by rewrite -invfM -natrM.
    Qed.
    Lemma canonical_proju_tangent x u : on_stiefel x -> tangent x (canonical_proju x u).
    Proof.
      rewrite /on_stiefel /tangent /canonical_proju => X.
      rewrite mulmxBr linearB /= !trmx_mul trmxK mulmxBl !mulmxA X mul1mx.
      by rewrite -!mulmxA X mulmx1 addrC addrA addrNK subrr.
    Qed.
    Lemma canonical_gradient x g v : on_stiefel x -> tangent x v ->
      canonical x (canonical_proju x g) v = pairing g v.
    Proof.
      rewrite /on_stiefel /tangent => X T. rewrite -canonicalE /canonical_inner !frobE.
      set s := x^T *m v. have S : s^T = - s.
        move/eqP: T; rewrite addr_eq0 => /eqP T. by rewrite /s trmx_mul trmxK T opprK.
      have E1 : x^T *m canonical_proju x g = x^T *m g - g^T *m x.
        by rewrite /canonical_proju mulmxBr !mulmxA X mul1mx.
      rewrite E1 /canonical_proju pairingBl.
      have E2 : pairing (x *m g^T *m x) v = \tr (x^T *m g *m s).
        by rewrite /pairing !trmx_mul trmxK /s !mulmxA.
      have E3 : pairing s (x^T *m g) = - \tr (x^T *m g *m s).
        by rewrite /pairing S mulNmx linearN /= mxtrace_mulC.
      have E4 : pairing s (g^T *m x) = \tr (x^T *m g *m s).
        by rewrite pairingC /pairing trmx_mul trmxK.
      rewrite E2 pairingBr E3 E4. set t := \tr _.
      have -> : - t - t = - (2%:R * t) by rewrite mulr_natl mulr2n opprD.
      by rewrite mulrN mulrA mulVf ?two_neq0 // mul1r opprK subrK.
    Qed.
    Lemma canonical_proju_fix x u : on_stiefel x -> tangent x u ->
      (canonical_proju x u = u <-> x^T *m u = 0).
    Proof.
      rewrite /on_stiefel /tangent /canonical_proju => X T.
      have E : u^T *m x = - (x^T *m u) by apply/eqP; rewrite -addr_eq0 addrC T.
      split => H.
      - have Z : x *m u^T *m x = 0 by have := congr1 (fun m => u - m) H; rewrite subKr subrr.
        have : x^T *m (x *m u^T *m x) = 0 by rewrite Z mulmx0.
        by rewrite !mulmxA X mul1mx E => /eqP; rewrite oppr_eq0 => /eqP.
      - by rewrite -mulmxA E H oppr0 mulmx0 subr0.
    Qed.
    Lemma canonical_sym x u v : canonical x u v = canonical x v u.
    Proof. by rewrite -!canonicalE /canonical_inner !frobE (pairingC u) (pairingC (x^T *m v)). Qed.
    Lemma canonical_lin x k u v w : canonical x (k *: u + v) w = k * canonical x u w + canonical x v w.
    Proof.
      rewrite /canonical [(_ + _)^T]linearD /= [(_ *: u)^T]linearZ /= !mulmxDl mxtraceD. by rewrite -!scalemxAl mxtraceZ.
    Qed.
    Lemma proj_le x u : on_stiefel x -> pairing (x^T *m u) (x^T *m u) <= pairing u u.
    Proof.
      move=> X. rewrite -subr_ge0. have := pairing_ge0 (u - x *m (x^T *m u)).
      have E : pairing (x *m (x^T *m u)) u = pairing (x^T *m u) (x^T *m u) by rewrite pairing_mull.
      have E2 : pairing (x *m (x^T *m u)) (x *m (x^T *m u)) = pairing (x^T *m u) (x^T *m u).
        by rewrite pairing_mull mulmxA X mul1mx.
      by rewrite pairingBl !pairingBr (pairingC u (x *m _)) E E2 subrr subr0.
    Qed.
    Lemma canonical_pos x u : on_stiefel x -> 2%:R^-1 * pairing u u <= canonical x u u.
    Proof.
      move=> X. rewrite -canonicalE /canonical_inner !frobE.
      have H := proj_le u X. rewrite ler_subr_addr -ler_subr_addl.
      have -> : pairing u u - 2%:R^-1 * pairing u u = 2%:R^-1 * pairing u u.
        by rewrite -{1}(mul1r (pairing u u)) -mulrBl; congr (_ * _); apply/eqP; rewrite subr_eq half_half.
      by rewrite ler_pmul2l // invr_gt0 ltr0n.
    Qed.
    Lemma canonical_def x u : on_stiefel x -> canonical x u u = 0 -> u = 0.
    Proof.
      move=> X H. apply: pairing_eq0. apply/eqP. rewrite eq_le pairing_ge0 andbT.
      have := canonical_pos u X. by rewrite H pmulr_rle0 // invr_gt0 ltr0n.
    Qed.
  End Canonical.

  (** Euclidean *)
  Section Euclidean.
    Variables (n p : nat).
    Implicit Types x u v w y : 'M[F]_(n, p).
    Lemma sym_tr (a : 'M[F]_p) : (sym a)^T = sym a.
    Proof. by rewrite /sym linearZ /= linearD /= trmxK addrC. Qed.
    Lemma sym2 (a : 'M[F]_p) : sym a + sym a = a^T + a.
    Proof. by rewrite /sym -scalerDl half_half scale1r. Qed.
    Lemma proju_tangent x u : on_stiefel x -> tangent x (euclidean_proju x u).
    Proof.
      rewrite /on_stiefel /tangent /euclidean_proju => X.
      rewrite mulmxBr linearB /= mulmxBl trmx_mul sym_tr !mulmxA X mul1mx -mulmxA X mulmx1.
      rewrite addrACA -opprD sym2 trmx_mul trmxK [u^T *m x + _]addrC. by rewrite subrr.
    Qed.
    Lemma proju_fix x u : tangent x u -> euclidean_proju x u = u.
    Proof.
      rewrite /tangent /euclidean_proju /sym trmx_mul trmxK addrC => ->. by rewrite scaler0 mulmx0 subr0.
    Qed.
    Lemma skew_sym0 (s a : 'M[F]_p) : s^T = - s -> a^T = a -> pairing a s = 0.
    Proof.
      move=> S A. have E : pairing a s = - pairing a s.
        by rewrite {1}pairingC /pairing S A mulNmx linearN /= mxtrace_mulC.
      apply/eqP. have : pairing a s + pairing a s = 0 by rewrite {1}E addNr.
      by rewrite -mulr2n => /eqP; rewrite mulrn_eq0.
    Qed.
    Lemma proju_ortho x u v : tangent x v -> pairing (u - euclidean_proju x u) v = 0.
    Proof.
      move=> T. rewrite /euclidean_proju opprB addrC subrK pairing_mull. apply: skew_sym0; last exact: sym_tr.
      rewrite trmx_mul trmxK. apply/eqP. by rewrite -addr_eq0 addrC; apply/eqP.
    Qed.
    (** sign fix of QR *)
    Lemma sgn_cases (a : F) : Num.sg (Num.sg a + 2%:R^-1) = if 0 <= a then 1 else -1.
    Proof.
      have H : (0 : F) < 2%:R^-1 by rewrite invr_gt0 ltr0n.
      have H1 : (2%:R^-1 : F) < 1 by rewrite invf_lt1 ?ltr0n // ltr1n.
      case: (ltrgt0P a) => Ha; rewrite ?Ha ?sgr0 ?(gtr0_sg Ha) ?(ltr0_sg Ha) ?add0r.
      - by rewrite gtr0_sg // addr_gt0 // ltr01.
      - by rewrite ltr0_sg // addrC subr_lt0.
      - by rewrite gtr0_sg.
    Qed.
    Definition flips (r : 'M[F]_p) : 'M[F]_p := diag_mx (unflip r).
    Lemma euclidean_retrE (q : 'M[F]_(n, p)) r : euclidean_retr q r = q *m flips r.
    Proof. apply/matrixP => i j. by rewrite /euclidean_retr /flips mul_mx_diag !mxE. Qed.
    Lemma flips2 r : flips r *m flips r = 1%:M.
    Proof.
      rewrite /flips. apply/matrixP => i j. rewrite mul_mx_diag !mxE sgn_cases.
      case: (i == j) / eqP => [->|_]; rewrite ?mulr0n ?mul0r // ?mulr1n !sgn_cases.
      by case: ifP => _; rewrite ?mulr1 ?mulrNN ?mulr1.
    Qed.
    Lemma flipsT r : (flips r)^T = flips r. Proof. by rewrite /flips tr_diag_mx. Qed.
    Lemma euclidean_retr_on (m q : 'M[F]_(n, p)) r : qr_of m q r -> on_stiefel (euclidean_retr q r).
    Proof.
      case=> _ [Q _]. by rewrite /on_stiefel euclidean_retrE trmx_mul mulmxA -(mulmxA _ q^T) Q mulmx1 flipsT flips2.
    Qed.
    Lemma retr_factor (m q : 'M[F]_(n, p)) r : qr_of m q r ->
      m = euclidean_retr q r *m (flips r *m r) /\ upper_triangular (flips r *m r) /\
      forall i, 0 <= (flips r *m r) i i.
    Proof.
      case=> M [_ T]. split; [|split].
      - by rewrite euclidean_retrE mulmxA -(mulmxA q) flips2 mulmx1.
      - move=> i j L. by rewrite /flips mul_diag_mx mxE T // mulr0.
      - move=> i. rewrite /flips mul_diag_mx !mxE sgn_cases. case: ifP => [H|/negbT]; first by rewrite mul1r.
        by rewrite -ltNge => H; rewrite mulN1r oppr_ge0 ltW.
    Qed.
    Lemma cholesky_unique (r s : 'M[F]_p) :
      upper_triangular r -> upper_triangular s -> (forall i, 0 < r i i) -> (forall i, 0 <= s i i) ->
      r^T *m r = s^T *m s -> r = s.
    Proof.
      move=> Ur Us Pr Ps E.
      have key : forall k (i : 'I_p), (i < k)%N -> forall j, r i j = s i j.
        elim=> // k IH i Hi j.
        have D : forall j, r i i * r i j = s i i * s i j.
          move=> j'. have := congr1 (fun a : 'M_p => a i j') E. rewrite !mxE.
          rewrite (bigD1 i) //= [RHS](bigD1 i) //= !mxE.
          have -> : \sum_(l < p | l != i) r^T i l * r l j' = \sum_(l < p | l != i) s^T i l * s l j'.
            apply: eq_bigr => l Hl. rewrite !mxE.
            case: (ltngtP l i) => [L|L|/ord_inj L]; last by rewrite L eqxx in Hl.
              have B : (l < k)%N by apply: leq_trans L _.
              by rewrite !(IH l B).
            by rewrite Ur // Us // !mul0r.
          by move/addIr.
        have Eii : r i i = s i i.
          have := D i. rewrite -!expr2 => /eqP. rewrite eqf_sqr => /orP [/eqP //|/eqP H].
          have := Pr i. by rewrite H oppr_gt0 ltNge Ps.
        have := D j. rewrite -Eii. apply: mulfI. by rewrite gt_eqF.
      apply/matrixP => i j. exact: (key i.+1).
    Qed.
    Lemma posdef_unit (a : 'M[F]_p) : (forall v : 'rV[F]_p, v *m a = 0 -> v = 0) -> a \in unitmx.
    Proof.
      move=> H. rewrite -row_free_unit -kermx_eq0. apply/eqP/row_matrixP => i. rewrite row0. apply: H.
      by rewrite -row_mul mulmx_ker row0.
    Qed.
    Lemma gram_unit x u : on_stiefel x -> tangent x u -> (x + u)^T *m (x + u) \in unitmx.
    Proof.
      move=> X T. apply: posdef_unit => v H.
      have E : (x + u)^T *m (x + u) = 1%:M + u^T *m u.
        rewrite [(x + u)^T]linearD /= mulmxDl !mulmxDr X -addrA; congr (_ + _).
        move: T; rewrite /tangent => T. by rewrite addrA T add0r.
      have : v *m (1%:M + u^T *m u) *m v^T = 0 by rewrite -E H mul0mx.
      rewrite mulmxDr mulmx1 mulmxDl => S. apply: row_norm0.
      have P1 := pairing_ge0 v^T. have P2 := pairing_ge0 (u *m v^T).
      have S' : pairing v^T v^T + pairing (u *m v^T) (u *m v^T) = 0.
        rewrite /pairing trmx_mul !trmxK -linearD /=. rewrite -(mulmxA v) in S. 
        by rewrite !mulmxA in S *; rewrite S mxtrace0.
      have Z : pairing v^T v^T = 0.
        apply/eqP. rewrite eq_le P1 andbT. rewrite -(ler_add2r (pairing (u *m v^T) (u *m v^T))) S' add0r. exact: P2.
      move/pairing_eq0: Z => Z. by rewrite Z mulmx0.
    Qed.
    Lemma retr_unique x u (q1 : 'M[F]_(n, p)) r1 (q2 : 'M[F]_(n, p)) r2 : on_stiefel x -> tangent x u ->
      qr_of (x + u) q1 r1 -> qr_of (x + u) q2 r2 -> euclidean_retr q1 r1 = euclidean_retr q2 r2.
    Proof.
      move=> X T H1 H2.
      have [M1 [U1 P1]] := retr_factor H1. have [M2 [U2 P2]] := retr_factor H2.
      have O1 := euclidean_retr_on H1. have O2 := euclidean_retr_on H2.
      move: (flips r1 *m r1) (flips r2 *m r2) M1 U1 P1 M2 U2 P2 => s1 s2 M1 U1 P1 M2 U2 P2.
      have G1 : s1^T *m s1 = (x + u)^T *m (x + u).
        by rewrite {1 2}M1 trmx_mul mulmxA -(mulmxA s1^T) O1 mulmx1.
      have G2 : s2^T *m s2 = (x + u)^T *m (x + u).
        by rewrite {1 2}M2 trmx_mul mulmxA -(mulmxA s2^T) O2 mulmx1.
      have Un : s1 \in unitmx.
        have := gram_unit X T. rewrite -G1 unitmx_mul => /andP [_]. done.
      have D : forall i, 0 < s1 i i.
        move=> i. rewrite lt_def P1 andbT. apply/eqP => Z.
        have : \det s1 = 0.
          rewrite -det_tr det_trig; last by apply/is_trig_mxP => a b L; rewrite mxE U1.
          apply/eqP/prodf_eq0. exists i => //. by rewrite mxE Z.
        move=> Dz. move: Un. by rewrite unitmxE Dz unitr0.
      have E : s1 = s2 by apply: cholesky_unique => //; rewrite G1 G2.
      have : euclidean_retr q1 r1 *m s1 = euclidean_retr q2 r2 *m s1 by rewrite -M1 E -M2.
      move/(congr1 (mulmx^~ (invmx s1))). by rewrite -!mulmxA mulmxV // !mulmx1.
    Qed.
    Lemma retr_at_0 x (q : 'M[F]_(n, p)) r : on_stiefel x -> qr_of (x + 0) q r -> euclidean_retr q r = x.
    Proof.
      move=> X H. have T : tangent x 0 by rewrite /tangent mulmx0 linear0 mul0mx addr0.
      have H1 : qr_of (x + 0) x 1%:M.
        split; first by rewrite addr0 mulmx1. split=> // i j L. by rewrite mxE; case: eqP => // E; rewrite E ltnn in L.
      rewrite (retr_unique X T H H1). rewrite euclidean_retrE.
      have -> : flips (1%:M : 'M[F]_p) = 1%:M.
        apply/matrixP => i j. rewrite /flips !mxE sgn_cases eqxx ler0n. by case: eqP.
      by rewrite mulmx1.
    Qed.
    (** projx *)
    Lemma projx_on x U s V : svd_of x U s V -> on_stiefel (projx U V).
    Proof.
      case=> _ [HU [HV _]]. rewrite /on_stiefel /projx trmx_mul mulmxA -(mulmxA V^T) HU mulmx1.
      exact: mulmx1C.
    Qed.
    Lemma projx_fix x U s V : svd_of x U s V -> on_stiefel x -> projx U V = x.
    Proof.
      case=> E [HU [HV P]] X. have V1 : V^T *m V = 1%:M by exact: mulmx1C.
      have : V *m (x^T *m x) *m V^T = 1%:M by rewrite X mulmx1.
      rewrite E !trmx_mul tr_diag_mx !mulmxA HV mul1mx -(mulmxA (diag_mx s)) HU mulmx1.
      rewrite -(mulmxA _ V) HV mulmx1 mulmx_diag => D.
      suff S : diag_mx s = 1%:M by rewrite S mulmx1.
      apply/matrixP => i j. have := congr1 (fun a : 'M_p => a i j) D. rewrite !mxE.
      case: eqP => [->|_]; rewrite ?mulr0n ?mulr1n // => /eqP. rewrite -expr2 sqrf_eq1 => /orP [/eqP //|/eqP H].
      by have := P j; rewrite H oppr_ge0 ler10.
    Qed.
    Lemma col_norm1 (a : 'M[F]_(n, p)) j : on_stiefel a -> \sum_i a i j ^+ 2 = 1.
    Proof.
      move=> A. have := congr1 (fun m : 'M_p => m j j) A. rewrite !mxE eqxx mulr1n => <-.
      by apply: eq_bigr => i _; rewrite mxE expr2.
    Qed.
    Lemma cs_unit (a b : 'M[F]_(n, p)) j : on_stiefel a -> on_stiefel b -> \sum_i a i j * b i j <= 1.
    Proof.
      move=> A B. have := col_norm1 j A. have := col_norm1 j B. move=> Hb Ha.
      have : 0 <= \sum_i (a i j - b i j) ^+ 2 by apply: sumr_ge0 => i _; rewrite sqr_ge0.
      have -> : \sum_i (a i j - b i j) ^+ 2 = (1 - \sum_i a i j * b i j) *+ 2.
        rewrite -[1 in RHS](mulr1n) mulrnBl -sumrMnl. rewrite -{1}Ha mulr1n.
        under eq_bigr do rewrite sqrrB.
        rewrite big_split /= sumrB Hb Ha. by rewrite addrAC -mulr2n.
      by rewrite pmulrn_lge0 // subr_ge0.
    Qed.
    Lemma projx_nearest x U s V y : svd_of x U s V -> on_stiefel y ->
      pairing (x - projx U V) (x - projx U V) <= pairing (x - y) (x - y).
    Proof.
      move=> H Y. have Z := projx_on H. case: H => E [HU [HV P]].
      have one : forall z : 'M[F]_(n, p), on_stiefel z -> pairing z z = p%:R.
        by move=> z; rewrite /on_stiefel /pairing => ->; rewrite mxtrace1.
      rewrite !pairingBl !pairingBr (one _ Z) (one _ Y) !opprB.
      rewrite (pairingC (projx U V)) (pairingC y). rewrite !addrA. 
      suff L : pairing x y <= pairing x (projx U V).
        rewrite -!addrA ler_add2l !addrA. rewrite addrAC [X in _ <= X]addrAC ler_add2r.
        by rewrite ler_add // ler_opp2.
      have tr1 : forall z : 'M[F]_(n, p), pairing x z = \sum_j s ord0 j * \sum_i U i j * (z *m V^T) i j.
        move=> z. rewrite E /pairing !trmx_mul tr_diag_mx -!mulmxA mxtrace_mulC -!mulmxA.
        rewrite /mxtrace. apply: eq_bigr => j _. rewrite mul_diag_mx mxE. congr (_ * _).
        rewrite mxE. by apply: eq_bigr => i _; rewrite mxE.
      rewrite !tr1. apply: ler_sum => j _. apply: ler_wpmul2l => //.
      have -> : \sum_i U i j * (projx U V *m V^T) i j = 1.
        rewrite /projx -mulmxA HV mulmx1. rewrite -(col_norm1 j HU). by apply: eq_bigr => i _; rewrite expr2.
      apply: cs_unit => //. rewrite /on_stiefel trmx_mul trmxK mulmxA -(mulmxA V) Y mulmx1. exact: HV.
    Qed.
    (** expmap *)
    Lemma expmap_on expm x u : exponential expm -> on_stiefel x -> tangent x u ->
      on_stiefel (euclidean_expmap expm x u).
    Proof.
      move=> EX X T. rewrite /on_stiefel /euclidean_expmap.
      set a := x^T *m u. set s := u^T *m u. set L := block_mx _ _ _ _.
      have A : a^T = - a by rewrite /a trmx_mul trmxK; apply/eqP; rewrite -addr_eq0 addrC; apply/eqP.
      have S : s^T = s by rewrite /s trmx_mul trmxK.
      set N := block_mx 1%:M a (- a) s.
      have NE : (row_mx x u)^T *m row_mx x u = N.
        rewrite tr_row_mx mul_col_row X /N -/a -/s. congr block_mx. by rewrite -A /a trmx_mul trmxK.
      have C : (- L^T) *m N = N *m L.
        rewrite /L /N tr_block_mx A linearN /= S trmx1 opp_block_mx !mulmx_block !mulmx1 !mul1mx !opprK.
        rewrite !mulNmx !mulmxN !mul1mx ?opprK. congr block_mx; by [|exact: addrC|rewrite addrC].
      set w := expm _ L. set z := col_mx _ _.
      have W : w^T *m N *m w = N.
        have I := exp_intertwines EX C. rewrite -/w in I.
        have I2 : expm _ (L^T) *m expm _ (- L^T) = 1%:M.
          have := exp_opp EX (- L^T). by rewrite opprK.
        rewrite /w -(exp_tr EX) -mulmxA -/w -I mulmxA I2 mul1mx. done.
      rewrite !trmx_mul !mulmxA -(mulmxA _ (row_mx x u)^T) NE.
      rewrite -!mulmxA (mulmxA _ N) (mulmxA (w^T *m N)) W.
      rewrite /z tr_col_mx trmx0 /N mul_block_col !mulmx0 !addr0 mul1mx mul_row_col mul0mx addr0.
      rewrite -(exp_tr EX) linearN /= A opprK.
      have := exp_opp EX (- a). by rewrite opprK.
    Qed.
  End Euclidean.

  (** checks, origin *)
  Lemma allclose0P n p (atol rtol : F) (a : 'M[F]_(n, p)) :
    reflect (forall i j, `|a i j| <= atol) (allclose0 atol rtol a).
  Proof.
    apply: (iffP forallP) => [H i j|H i].
    - have /forallP /(_ j) := H i. by rewrite subr0 normr0 mulr0 addr0.
    - by apply/forallP => j; rewrite subr0 normr0 mulr0 addr0.
  Qed.
  Lemma check_point_exact n p rtol (x : 'M[F]_(n, p)) : check_point 0 rtol x <-> on_stiefel x.
  Proof.
    rewrite /check_point /on_stiefel. split.
    - move/allclose0P => H. apply/eqP. rewrite -subr_eq0. apply/eqP/matrixP => i j.
      have := H i j. by rewrite normr_le0 => /eqP ->; rewrite mxE.
    - move=> ->. apply/allclose0P => i j. by rewrite subrr mxE normr0.
  Qed.
  Lemma check_vector_exact n p rtol (x u : 'M[F]_(n, p)) : check_vector 0 rtol x u <-> tangent x u.
  Proof.
    rewrite /check_vector /tangent addrC. split.
    - move/allclose0P => H. apply/matrixP => i j. have := H i j. by rewrite normr_le0 => /eqP ->; rewrite mxE.
    - move=> ->. apply/allclose0P => i j. by rewrite mxE normr0.
  Qed.
  Lemma check_point_tol n p atol rtol (x : 'M[F]_(n, p)) :
    check_point atol rtol x <-> forall i j, `|(x^T *m x) i j - (i == j)%:R| <= atol.
  Proof.
    rewrite /check_point. split.
    - move/allclose0P => H i j. by have := H i j; rewrite !mxE.
    - move=> H. apply/allclose0P => i j. have := H i j. by rewrite !mxE.
  Qed.
  Lemma origin_on n p : check_shape n p -> on_stiefel (origin F n p).
  Proof.
    rewrite /check_shape => L. apply/matrixP => i j. rewrite !mxE.
    rewrite (bigD1 (widen_ord L i)) //= !mxE eqxx mul1r big1 ?addr0; first by [].
    move=> k. rewrite !mxE => H. case: eqP => E; rewrite ?mul0r //.
    by move: H; rewrite -val_eqE /= E eqxx.
  Qed.
End Lemmas.

Section Cases.
  Variable F : realFieldType.
  (** quarter turn *)
  Definition J : 'M[F]_2 := \matrix_(i, j) (if (i < j)%N then -1 else if (j < i)%N then 1 else 0).
  Lemma J2 : J *m J = - 1%:M.
  Proof.
    apply/matrixP => i j. rewrite mxE !big_ord_recl big_ord0 !mxE /=.
    by case: i => [[|[|?]] ?] //; case: j => [[|[|?]] ?] //=;
      rewrite ?mulr0 ?mul0r ?addr0 ?add0r ?mulrN ?mulNr ?mulr1 ?oppr0 ?opprK.
  Qed.
  Lemma JT : J^T = - J.
  Proof.
    apply/matrixP => i j. rewrite !mxE. case: ltngtP => _; by rewrite ?opprK ?oppr0.
  Qed.
  Lemma one_on n : on_stiefel (1%:M : 'M[F]_n).
  Proof. by rewrite /on_stiefel trmx1 mulmx1. Qed.
  Lemma J_tangent t : tangent (1%:M : 'M[F]_2) (t *: J).
  Proof. by rewrite /tangent trmx1 mul1mx mulmx1 linearZ /= JT scalerN subrr. Qed.
  Lemma retr_turn (t : F) : canonical_retr 1%:M (t *: J) =
    ((1 - t ^+ 2) / (1 + t ^+ 2)) *: 1%:M + (2%:R * t / (1 + t ^+ 2)) *: J.
  Proof.
    have D : 1 + t ^+ 2 != 0 by rewrite gt_eqF // ltr_paddr ?ltr01 ?sqr_ge0.
    apply: esym. apply/(solve_unique 1%:M (t *: J) 1%:M).
    have A : 2%:R^-1 *: amat (1%:M : 'M[F]_2) (t *: J) = t *: J.
      rewrite /amat trmx1 mulmx1 mul1mx linearZ /= JT scalerN opprK -mulr2n -scaler_nat !scalerA.
      by rewrite mulrA mulVf ?two_neq0 // mul1r.
    rewrite /cayley_lhs /cayley_rhs mulmx1 A.
    rewrite mulmxBl mul1mx mulmxDr -!scalemxAl -!scalemxAr J2 mulmx1 !scalerN opprD opprK.
    rewrite !scalerA [X in _ + X = _]addrC addrACA -scalerDl -scalerBl. congr (_ + _).
    - rewrite -[RHS]scale1r. congr (_ *: _). rewrite mulrA -mulrDl.
      have -> : 1 - t ^+ 2 + t * (2%:R * t) = 1 + t ^+ 2.
        by rewrite mulrCA -expr2 mulr_natl mulr2n addrA subrK.
      by rewrite mulfV.
    - congr (_ *: _). apply: (mulIf D). rewrite [t * (_ / _)]mulrA -mulrBl -mulrA mulVf // mulr1.
      by rewrite mulrBr mulrDr mulr1 mulr_natl mulr2n opprB addrA addrAC addrK.
  Qed.
  Lemma retr_not_first_order (t : F) : 0 < t -> t <= 2%:R^-1 ->
    t / 2%:R <= (canonical_retr 1%:M (t *: J) - (1%:M + t *: J)) (lift ord0 ord0) ord0.
  Proof.
    move=> T H. rewrite retr_turn !mxE /= ?mulr0 !mulr1 ?add0r ?mulr0n ?mulr0 ?add0r ler_subr_addr.
    have T2 : t ^+ 2 <= 4%:R^-1.
      have -> : 4%:R^-1 = 2%:R^-1 ^+ 2 :> F by rewrite exprVn -natrX.
      by rewrite ler_sqr ?nnegrE ?(ltW T) // invr_ge0 ler0n.
    have D : 0 < 1 + t ^+ 2 by rewrite ltr_paddr ?ltr01 ?sqr_ge0.
    have -> : t / 2%:R + t = t * (2%:R^-1 + 1) by rewrite mulrDr mulr1.
    rewrite [2%:R * t]mulrC -mulrA ler_pmul2l // ler_pdivl_mulr //.
    have U : (2%:R : F) != 0 := two_neq0 F.
    rewrite -(@ler_pmul2l _ 2%:R) ?ltr0n // mulrA [2%:R * (_ + 1)]mulrDr mulfV // mulr1 -[1 + 2%:R]/(1%:R + 2%:R) -natrD -natrM.
    rewrite mulrDr mulr1 -ler_subr_addl -natrB //.
    apply: (@le_trans _ _ (3%:R * 4%:R^-1)); first by rewrite ler_pmul2l // ltr0n.
    by rewrite ler_pdivr_mulr ?ltr0n // mul1r ler_nat.
  Qed.
  Lemma proju_doubles n (u : 'M[F]_n) : tangent 1%:M u -> canonical_proju 1%:M u = u *+ 2.
  Proof.
    rewrite /tangent /canonical_proju trmx1 !mul1mx !mulmx1 => /eqP. rewrite addrC addr_eq0 => /eqP ->.
    by rewrite opprK.
  Qed.
  Lemma J_neq0 : J <> 0.
  Proof. move/matrixP/(_ (lift ord0 ord0) ord0). rewrite !mxE /= => /eqP. by rewrite oner_eq0. Qed.
  Lemma proju_not_fix : exists x u : 'M[F]_2, on_stiefel x /\ tangent x u /\ canonical_proju x u <> u /\
    canonical_proju x (canonical_proju x u) <> canonical_proju x u.
  Proof.
    have T : tangent 1%:M J by have := J_tangent 1; rewrite scale1r.
    have N : forall a : 'M[F]_2, a *+ 2 = a -> a = 0.
      by move=> a; rewrite mulr2n => /(congr1 (fun m => m - a)); rewrite addrK subrr.
    exists 1%:M, J. split; first exact: one_on. split => //. split.
    - rewrite proju_doubles // => /N. exact: J_neq0.
    - rewrite proju_doubles; last by apply: canonical_proju_tangent; exact: one_on.
      move/N. rewrite proju_doubles // => /eqP. rewrite mulr2n -mulr2n -scaler_nat scaler_eq0 (negbTE (two_neq0 F)) /=.
      move/eqP. exact: J_neq0.
  Qed.
  (** any matrix with orthonormal columns is its own QR and SVD factorisation *)
  Lemma qr_self n p (x : 'M[F]_(n, p)) : on_stiefel x -> qr_of (x + 0) x 1%:M.
  Proof.
    move=> X. split; first by rewrite addr0 mulmx1. split=> // i j L.
    rewrite mxE; case: eqP => // E; by rewrite E ltnn in L.
  Qed.
  Lemma svd_scaled n p (x : 'M[F]_(n, p)) : on_stiefel x -> svd_of (3%:R *: x) x (const_mx 3%:R) 1%:M.
  Proof.
    move=> X. split; first by rewrite diag_const_mx mulmx1 mul_mx_scalar. split=> //.
    split; first by rewrite trmx1 mulmx1. move=> j. by rewrite mxE ler0n.
  Qed.
  Lemma const_exponential : exponential (fun m (_ : 'M[F]_m) => 1%:M).
  Proof.
    split=> [m a|m a|m a b x _]; by rewrite ?mulmx1 ?trmx1 ?mul1mx.
  Qed.
End Cases.

Section More.
  Variable F : realFieldType.
  Lemma cayley_equation n p q (x u : 'M[F]_(n, p)) (v y : 'M[F]_(n, q)) :
    (y - 2%:R^-1 *: (u *m x^T - x *m u^T) *m y = v + 2%:R^-1 *: (u *m x^T - x *m u^T) *m v)
    <-> y = transp_follow_one x v u.
  Proof.
    rewrite -solve_unique.
    have -> : cayley_lhs x u *m y = y - 2%:R^-1 *: (u *m x^T - x *m u^T) *m y.
      by rewrite /cayley_lhs /amat mulmxBl mul1mx.
    by rewrite /cayley_rhs /amat scalemxAl.
  Qed.
  Lemma transp_inner' n p (x u v w : 'M[F]_(n, p)) :
    canonical_inner (canonical_retr x u) (transp_follow_retr x u v) (transp_follow_retr x u w) = canonical_inner x v w.
  Proof. by rewrite !canonicalE transp_inner. Qed.
  Lemma canonical_gradient' n p (x g v : 'M[F]_(n, p)) :
    on_stiefel x -> tangent x v -> canonical_inner x (canonical_proju x g) v = pairing g v.
  Proof. by move=> X T; rewrite canonicalE canonical_gradient. Qed.
  Lemma euclidean_gradient n p (x g v : 'M[F]_(n, p)) :
    tangent x v -> euclidean_inner x (euclidean_proju x g) v = pairing g v.
  Proof.
    move=> T. rewrite /euclidean_inner frobE. have := proju_ortho g T. rewrite pairingBl => /eqP.
    by rewrite subr_eq0 eq_sym => /eqP.
  Qed.
  Lemma canonical_inner_sym n p (x u v : 'M[F]_(n, p)) : canonical_inner x u v = canonical_inner x v u.
  Proof. by rewrite !canonicalE canonical_sym. Qed.
  Lemma canonical_inner_lin n p (x : 'M[F]_(n, p)) k u v w :
    canonical_inner x (k *: u + v) w = k * canonical_inner x u w + canonical_inner x v w.
  Proof. by rewrite !canonicalE canonical_lin. Qed.
  Lemma canonical_inner_pos n p (x u : 'M[F]_(n, p)) :
    on_stiefel x -> 2%:R^-1 * pairing u u <= canonical_inner x u u.
  Proof. by move=> X; rewrite canonicalE canonical_pos. Qed.
  Lemma canonical_inner_def n p (x u : 'M[F]_(n, p)) : on_stiefel x -> canonical_inner x u u = 0 -> u = 0.
  Proof. by move=> X; rewrite canonicalE; exact: canonical_def. Qed.
  Lemma qr_flip : qr_of (1%:M + 0 : 'M[F]_2) (- 1%:M) (- 1%:M) /\ euclidean_retr (- 1%:M : 'M[F]_2) (- 1%:M) = 1%:M.
  Proof.
    have Q : qr_of (1%:M + 0 : 'M[F]_2) (- 1%:M) (- 1%:M).
      split; first by rewrite addr0 mulmxN mulNmx mulmx1 opprK.
      split; first by rewrite [(- 1%:M)^T]linearN /= trmx1 mulmxN mulNmx mulmx1 opprK.
      move=> i j L. rewrite !mxE; case: eqP => E; [by rewrite E ltnn in L|by rewrite oppr0].
    split=> //. apply: retr_at_0 => //. exact: one_on.
  Qed.
End More.
