(** Descent on the Stiefel manifolds. *)
From mathcomp Require Import all_ssreflect all_algebra.
From Verif Require Import StiefelModel StiefelSpec StiefelProofs MatDescentSpec MatDescentProofs.
Import Order.TTheory GRing.Theory Num.Theory.
Local Open Scope ring_scope.
Set Implicit Arguments. Unset Strict Implicit. Unset Printing Implicit Defensive.

Section Canonical.
  Variable F : realFieldType.
  Variables n p : nat.
  Implicit Types x g u r : 'M[F]_(n, p).
  Lemma pairing_gt0 m k (a : 'M[F]_(m, k)) : a <> 0 -> 0 < pairing a a.
  Proof. move=> A. rewrite lt_def pairing_ge0 andbT. apply/eqP => H. apply: A. exact: pairing_eq0. Qed.
  Lemma amatZ x k u : amat x (k *: u) = k *: amat x u.
  Proof. by rewrite /amat linearZ /= -scalemxAr -scalemxAl scalerBr. Qed.

  Lemma canonical_descent f x g : on_stiefel x -> differentiable f x g -> canonical_proju x g <> 0 ->
    decreases f x (fun t => canonical_retr x (- t *: canonical_proju x g)).
  Proof.
    move=> X D R0. set r := canonical_proju x g in R0 *.
    have T : tangent x r by exact: canonical_proju_tangent.
    set a := - canonical_proju x r.
    set A := amat x r.
    apply: (@descent _ _ _ f x g a _ (pairing (A *m A *m x) (A *m A *m x)) 1) => //.
    - rewrite /a pairingC pairingNl pairingC oppr_lt0.
      rewrite -(canonical_gradient g X (canonical_proju_tangent r X)) -/r canonical_sym.
      rewrite (canonical_gradient r X T). exact: pairing_gt0.
    - move=> t t0 _. set y := canonical_retr x _.
      exists (4%:R^-1 *: (A *m A *m (x + y))).
        rewrite {1}/y retr_expansion // -/y amatZ -/A. congr (_ + _ + _).
        + rewrite /a /canonical_proju. move: (r) => r'. rewrite scalerN scalerBr opprB [(_ *: r')^T]linearZ /= -scalemxAr -scalemxAl.
          by rewrite !scaleNr opprK addrC.
        + rewrite -scalemxAl -scalemxAr scalerA -scalemxAl !scalerA. congr (_ *: _).
          by rewrite mulrNN -expr2 mulrC.
      have Cy : A *m A *m y = cay (hal x (- t *: r)) *m (A *m A *m x).
        have C : cay (hal x (- t *: r)) *m A = A *m cay (hal x (- t *: r)).
          have := cay_comm (hal_skew x (- t *: r)). set Q := cay _.
          have -> : hal x (- t *: r) = (2%:R^-1 * - t) *: A by rewrite /hal amatZ scalerA.
          rewrite -scalemxAr -scalemxAl => /eqP. rewrite -subr_eq0 -scalerBr scaler_eq0 mulf_eq0 invr_eq0.
          by rewrite (negbTE (two_neq0 F)) oppr_eq0 (gt_eqF t0) /= subr_eq0 => /eqP.
        rewrite /y /canonical_retr tfo. move: (cay _) C => Q C. by rewrite !mulmxA C -(mulmxA A Q A) C !mulmxA.
      have Ny : pairing (A *m A *m y) (A *m A *m y) = pairing (A *m A *m x) (A *m A *m x).
        rewrite Cy pairing_mull mulmxA cay_ortho ?mul1mx //. exact: hal_skew.
      rewrite pairingZl pairingZr mulrA mulmxDr.
      set P := pairing (A *m A *m x) _ in Ny *.
      have H := pairing_sum (A *m A *m x) (A *m A *m y). rewrite Ny -/P in H.
      have P0 : 0 <= P by exact: pairing_ge0.
      have q0 : (0 : F) < 4%:R^-1 * 4%:R^-1 by rewrite mulr_gt0 // invr_gt0 ltr0n.
      rewrite -(ler_pmul2l q0) in H. apply: (le_trans H).
      rewrite -[P + P]mulr2n -[P *+ 2]mulr_natl !mulrA -[X in _ <= X]mul1r. apply: ler_wpmul2r => //.
      rewrite -[_ * _ * 2%:R * 2%:R]mulrA -natrM -invfM -natrM ler_pdivr_mull ?ltr0n // mulr1 ler_nat. done.
  Qed.
End Canonical.

Section Euclidean.
  Variable F : realFieldType.
  Variables n p : nat.
  Implicit Types x g u : 'M[F]_(n, p).

  (** the inverse of an upper triangular matrix *)
  Lemma upper_inv (R P : 'M[F]_p) : upper_triangular R -> (forall i, 0 < R i i) -> P *m R = 1%:M ->
    upper_triangular P /\ forall i, P i i * R i i = 1.
  Proof.
    move=> U D E.
    have up : forall k (j : 'I_p), (j < k)%N -> forall i : 'I_p, (j < i)%N -> P i j = 0.
      elim=> // k IH j Hj i Hi. have := congr1 (fun a : 'M_p => a i j) E. rewrite !mxE (bigD1 j) //= big1.
        rewrite addr0 => H. have : i == j = false by apply/eqP => Z; rewrite Z ltnn in Hi.
        move=> Z. rewrite Z mulr0n in H. move/eqP: H. by rewrite mulf_eq0 (gt_eqF (D j)) orbF => /eqP.
      move=> l Hl. case: (ltngtP l j) => [L|L|/ord_inj L]; last by rewrite L eqxx in Hl.
        rewrite (IH l) ?mul0r //; [exact: leq_trans L _|exact: ltn_trans Hi].
      by rewrite U ?mulr0.
    have UP : upper_triangular P by move=> i j; apply: (up j.+1).
    split=> // i. have := congr1 (fun a : 'M_p => a i i) E. rewrite !mxE eqxx mulr1n (bigD1 i) //= big1 ?addr0 //.
    move=> l Hl. case: (ltngtP l i) => [L|L|/ord_inj L]; last by rewrite L eqxx in Hl.
      by rewrite UP // mul0r.
    by rewrite U ?mulr0.
  Qed.
  Lemma diag_close (a b y : F) : 0 < a -> b * a = 1 -> a = b + y -> (a - 1) ^+ 2 <= y ^+ 2.
  Proof.
    move=> a0 E Y. have b0 : 0 < b by rewrite -(pmulr_lgt0 _ a0) E ltr01.
    have -> : y = (a - 1) * (1 + b) by rewrite mulrDr mulr1 mulrBl mul1r mulrC E addrA subrK; apply/eqP; rewrite eq_sym subr_eq addrC -Y.
    rewrite exprMn -[X in X <= _]mulr1. apply: ler_wpmul2l; first exact: sqr_ge0.
    apply: exprn_ege1. by rewrite ler_addl ltW.
  Qed.
  (** the triangular factor of 1 + k u^T u is within k |u^T u| of 1 *)
  Lemma factor_close (R : 'M[F]_p) u k : upper_triangular R -> (forall i, 0 < R i i) -> 0 <= k ->
    R^T *m R = 1%:M + k *: (u^T *m u) ->
    pairing (R - 1%:M) (R - 1%:M) <= k ^+ 2 * pairing (u^T *m u) (u^T *m u).
  Proof.
    move=> U D k0. have [E Eu] : exists E, E = u^T *m u by exists (u^T *m u). rewrite -Eu => G.
    have Un : R \in unitmx.
      rewrite unitmxE unitfE -det_tr det_trig; last by apply/is_trig_mxP => a b L; rewrite mxE U.
      apply/prodf_neq0 => i _. by rewrite mxE gt_eqF.
    set P := invmx R. have PR : P *m R = 1%:M by exact: mulVmx.
    have RP : R *m P = 1%:M by exact: mulmxV.
    have [UP DP] := upper_inv U D PR.
    have ET : E^T = E by rewrite Eu trmx_mul trmxK.
    set Y := P^T *m E.
    have RE : R = P^T + k *: Y.
      have : P^T *m (R^T *m R) = R by rewrite mulmxA -trmx_mul RP trmx1 mul1mx.
      by rewrite G mulmxDr mulmx1 -scalemxAr => {1}<-.
    have ent : pairing (R - 1%:M) (R - 1%:M) <= k ^+ 2 * pairing Y Y.
      rewrite -!frobE /frob mulr_sumr. apply: ler_sum => i _. rewrite mulr_sumr. apply: ler_sum => j _.
      have Eij : R i j = P j i + k * Y i j by rewrite {1}RE !mxE.
      have -> : (R - 1%:M) i j = R i j - (i == j)%:R by rewrite !mxE.
      rewrite -!expr2 -exprMn. case: (ltngtP i j) => [L|L|/ord_inj L].
      - have -> : i == j = false by apply/eqP => Z; rewrite Z ltnn in L.
        by rewrite mulr0n subr0 Eij UP // add0r.
      - have -> : i == j = false by apply/eqP => Z; rewrite Z ltnn in L.
        by rewrite mulr0n subr0 U // expr0n sqr_ge0.
      - rewrite L eqxx mulr1n -L. apply: (@diag_close _ (P i i)) => //. by have := Eij; rewrite -L.
    apply: (le_trans ent). apply: ler_wpmul2l; first exact: sqr_ge0.
    have PP : P *m P^T *m (1%:M + k *: E) = 1%:M.
      by rewrite -G -mulmxA (mulmxA P^T) -trmx_mul RP trmx1 mul1mx.
    have EE : E = P *m P^T *m E + k *: (P *m P^T *m E *m E).
      rewrite -{1}[E]mul1mx -{1}PP !mulmxDr mulmx1 mulmxDl. by rewrite -scalemxAr -scalemxAl.
    have -> : pairing E E = pairing Y Y + k * pairing (u *m E *m P) (u *m E *m P).
      rewrite {2}EE pairingDr pairingZr. congr (_ + _ * _).
      - by rewrite /Y /pairing trmx_mul trmxK ET !mulmxA.
      - rewrite /pairing !trmx_mul ET. rewrite -!mulmxA [LHS]mxtrace_mulC -!mulmxA.
        rewrite (mulmxA u^T u) -Eu [LHS]mxtrace_mulC -!mulmxA. done.
    by rewrite ler_addl mulr_ge0 // pairing_ge0.
  Qed.
  Lemma euclidean_descent f x g (q : F -> 'M[F]_(n, p)) (s : F -> 'M[F]_p) :
    on_stiefel x -> differentiable f x g -> euclidean_proju x g <> 0 ->
    (forall t, qr_of (x - t *: euclidean_proju x g) (q t) (s t)) ->
    decreases f x (fun t => euclidean_retr (q t) (s t)).
  Proof.
    move=> X D R0 Q.
    have T := proju_tangent g X.
    have O := proju_ortho g T.
    move: (euclidean_proju x g) R0 Q T O => r R0 Q T O.
    apply: (@descent _ _ _ f x g (- r) _ (pairing (r^T *m r) (r^T *m r)) 1) => //.
      rewrite pairingC pairingNl oppr_lt0 pairingC.
      move/eqP: O. rewrite pairingBl subr_eq0 => /eqP ->. exact: pairing_gt0.
    move=> t t0 _.
    have [M [UT P]] := retr_factor (Q t). have On := euclidean_retr_on (Q t).
    move: (euclidean_retr _ _) (flips _ *m _) M UT P On => y R M UT P On.
    have Tt : tangent x (- (t *: r)).
      move: T; rewrite /tangent -scaleNr [(_ *: r)^T]linearZ /= -scalemxAr -scalemxAl -scalerDr => ->.
      by rewrite scaler0.
    have G0 : R^T *m R = (x - t *: r)^T *m (x - t *: r).
      by rewrite M trmx_mul mulmxA -(mulmxA R^T) On mulmx1.
    have G : R^T *m R = 1%:M + t ^+ 2 *: (r^T *m r).
      rewrite G0 [(_ - _)^T]linearB /= mulmxBl !mulmxBr X.
      rewrite [(_ *: r)^T]linearZ /= -!scalemxAl -!scalemxAr scalerA -expr2 opprB -addrA.
      have -> : - (t *: (x^T *m r)) + (t ^+ 2 *: (r^T *m r) - t *: (r^T *m x)) =
         t ^+ 2 *: (r^T *m r) - t *: (x^T *m r + r^T *m x).
        by rewrite scalerDr opprD addrCA.
      by rewrite T scaler0 subr0.
    have Un : R \in unitmx.
      have := gram_unit X Tt. rewrite -G0 unitmx_mul => /andP [_]. done.
    have Dg : forall i, 0 < R i i.
      move=> i. rewrite lt_def P andbT. apply/eqP => Z.
      have : \det R = 0.
        rewrite -det_tr det_trig; last by apply/is_trig_mxP => a b L; rewrite mxE UT.
        apply/eqP/prodf_eq0. exists i => //. by rewrite mxE Z.
      move=> Dz. move: Un. by rewrite unitmxE Dz unitr0.
    have C := factor_close UT Dg (exprn_ge0 2 (ltW t0)) G.
    exists ((t ^+ 2)^-1 *: (y *m (1%:M - R))).
      rewrite scalerA mulfV ?scale1r ?expf_eq0 ?gt_eqF // mulmxBr mulmx1 -M scalerN.
      by rewrite addrCA subrr addr0.
    rewrite pairingZl pairingZr pairing_mull mulmxA On mul1mx mulrA -expr2.
    have -> : pairing (1%:M - R) (1%:M - R) = pairing (R - 1%:M) (R - 1%:M).
      by rewrite -opprB pairingNl pairingC pairingNl opprK.
    by rewrite exprVn ler_pdivr_mull ?exprn_gt0.
  Qed.
End Euclidean.
