(** Lemmas: QR factorisations exist; gradients of moved losses; what does not commute. *)
From mathcomp Require Import all_ssreflect all_algebra.
From Verif Require Import StiefelModel StiefelSpec StiefelProofs SpdModel SpdSpec SpdProofs MatDescentSpec
  MatDescentProofs MatDescentProofs2 MatDescentInst MatSymModel MatSymSpec MatSymProofs MatSymProofs2.
Import Order.TTheory GRing.Theory Num.Theory.
Local Open Scope ring_scope.
Set Implicit Arguments. Unset Strict Implicit. Unset Printing Implicit Defensive.

Section GramSchmidt.
  Variable F : rcfType.
  Lemma unit_vector n (w : 'M[F]_(n, 1)) : w != 0 ->
    ((Num.sqrt (pairing w w))^-1 *: w)^T *m ((Num.sqrt (pairing w w))^-1 *: w) = 1%:M.
  Proof. by move=> /eqP /column_qr [_ []]. Qed.
  (** a unit vector orthogonal to fewer than n orthonormal columns *)
  Lemma extra n p (q : 'M[F]_(n, p)) : (p < n)%N -> {w : 'M[F]_(n, 1) | q^T *m w = 0 & w^T *m w = 1%:M}.
  Proof.
    move=> L. case: (pickP (fun i => row i (kermx q) != 0)) => [i H|H]; last first.
      exfalso. have K : kermx q == 0 by apply/eqP/row_matrixP => i; rewrite row0; apply/eqP; move: (H i) => /negbFE.
      rewrite kermx_eq0 /row_free in K. have := rank_leq_col q. by rewrite (eqP K) leqNgt L.
    set w := (row i (kermx q))^T. have W : w != 0 by rewrite -trmx_eq0 trmxK.
    exists ((Num.sqrt (pairing w w))^-1 *: w); last exact: unit_vector.
    rewrite -scalemxAr. have -> : q^T *m w = 0; last by rewrite scaler0.
    by rewrite /w -trmx_mul -row_mul mulmx_ker row0 trmx0.
  Qed.
  Lemma qr_exists n p (m : 'M[F]_(n, p)) : (p <= n)%N -> {qr : 'M[F]_(n, p) * 'M[F]_p | qr_of m qr.1 qr.2}.
  Proof.
    elim: p m => [|p IH].
      move=> m _. exists (m, 0). split; [|split] => /=; last by case.
        by apply/matrixP => i; case.
      by apply/matrixP; case.
    rewrite -addn1 => m L. have L' : (p < n)%N by rewrite -addn1.
    have [[q r] /= [E [O U]]] := IH (lsubmx m) (ltnW L').
    set c := rsubmx m. set w := c - q *m (q^T *m c).
    have QW : q^T *m w = 0 by rewrite /w mulmxBr mulmxA O mul1mx subrr.
    have step (v : 'M[F]_(n, 1)) k : q^T *m v = 0 -> v^T *m v = 1%:M -> w = k *: v ->
      qr_of m (row_mx q v) (block_mx r (q^T *m c) 0 k%:M).
      move=> V1 V2 W. split; [|split].
      - rewrite -[m]hsubmxK mul_row_block mulmx0 addr0 -E mul_mx_scalar -W -/c /w. by rewrite addrC subrK.
      - rewrite tr_row_mx mul_col_row O V1 V2. have -> : v^T *m q = 0 by rewrite -[LHS]trmxK trmx_mul trmxK V1 trmx0.
        by rewrite -scalar_mx_block.
      - move=> i j. case: (splitP i) => i' Ei; case: (splitP j) => j' Ej.
        + have -> : i = lshift 1 i' by apply/val_inj. have -> : j = lshift 1 j' by apply/val_inj.
          rewrite block_mxEul => H. by apply: U.
        + rewrite Ei Ej => H. exfalso. move: (leq_trans H (ltnW (ltn_ord i'))). by rewrite ltnNge leq_addr.
        + have -> : i = rshift p i' by apply/val_inj. have -> : j = lshift 1 j' by apply/val_inj.
          by rewrite block_mxEdl mxE.
        + rewrite Ei Ej !ord1 ltnn. by [].
    case: (w =P 0) => W.
      have [v V1 V2] := extra q L'. exists (row_mx q v, block_mx r (q^T *m c) 0 0%:M). apply: step => //.
      by rewrite scale0r.
    have W' : w != 0 by apply/eqP.
    set k := Num.sqrt (pairing w w). have k0 : k != 0 by rewrite gt_eqF // sqrtr_gt0 pairing_gt0.
    exists (row_mx q (k^-1 *: w), block_mx r (q^T *m c) 0 k%:M). apply: (step (k^-1 *: w) k).
    - by rewrite -scalemxAr QW scaler0.
    - exact: unit_vector.
    - by rewrite scalerA mulfV // scale1r.
  Qed.
  Lemma qr_function n p : (p <= n)%N -> exists qr : 'M[F]_(n, p) -> 'M[F]_(n, p) * 'M[F]_p, forall m, qr_of m (qr m).1 (qr m).2.
  Proof. move=> L. exists (fun m => sval (qr_exists m L)) => m. exact: (svalP (qr_exists m L)). Qed.
End GramSchmidt.

Section Swap.
  (** exchanging two columns does not commute with the QR retraction *)
  Variable F : realFieldType.
  Definition sx : 'M[F]_(3, 2) := \matrix_(i, j) (i == j :> nat)%:R.
  Definition su : 'M[F]_(3, 2) := \matrix_(i, j) (i == 2%N :> nat)%:R.
  Definition swap : 'M[F]_2 := \matrix_(i, j) (i != j)%:R.
  Lemma sx_on : on_stiefel sx.
  Proof.
    apply/matrixP => i j. rewrite !mxE !big_ord_recl big_ord0 !mxE /=.
    by case: i => [[|[|i]] Hi] //; case: j => [[|[|j]] Hj] //=; rewrite ?mulr0 ?mul0r ?mulr1 ?addr0 ?add0r.
  Qed.
  Lemma su_tangent : tangent sx su.
  Proof.
    apply/matrixP => i j. rewrite !mxE !big_ord_recl !big_ord0 !mxE /=.
    by case: i => [[|[|i]] Hi] //; case: j => [[|[|j]] Hj] //=; rewrite ?mulr0 ?mul0r ?mulr1 ?addr0 ?add0r.
  Qed.
  Lemma swap_on : orthogonal swap.
  Proof.
    apply/matrixP => i j. rewrite !mxE !big_ord_recl big_ord0 !mxE /=.
    by case: i => [[|[|i]] Hi] //; case: j => [[|[|j]] Hj] //=; rewrite ?mulr0 ?mul0r ?mulr1 ?addr0 ?add0r.
  Qed.
  Lemma first_column (m q : 'M[F]_(3, 2)) r : qr_of m q r ->
    exists k, forall i, m i ord0 = k * euclidean_retr q r i ord0.
  Proof.
    move=> H. have [E [U _]] := retr_factor H. exists ((flips r *m r) ord0 ord0) => i.
    rewrite {1}E mxE !big_ord_recl big_ord0. rewrite [(_ *m _) (lift _ _) _]U // mulr0 !addr0. exact: mulrC.
  Qed.
  Lemma qr_swap q r q' r' : qr_of (sx + su) q r -> qr_of (sx *m swap + su *m swap) q' r' ->
    euclidean_retr q' r' <> euclidean_retr q r *m swap.
  Proof.
    move=> H H' E. have [k K] := first_column H. have [k' K'] := first_column H'.
    have O := euclidean_retr_on H. rewrite E in K'. set y := euclidean_retr q r in K K' O.
    set j1 : 'I_2 := lift ord0 ord0.
    have Y i : (y *m swap) i ord0 = y i j1.
      by rewrite mxE !big_ord_recl big_ord0 !mxE /= mulr0 mulr1 add0r addr0.
    have C i : (sx *m swap + su *m swap) i ord0 = (sx + su) i j1.
      by rewrite -mulmxDl mxE !big_ord_recl big_ord0 [swap _ _]mxE [swap _ _]mxE /= mulr0 mulr1 add0r addr0.
    have G : \sum_i (sx + su) i ord0 * (sx + su) i j1 = 1.
      by rewrite !big_ord_recl big_ord0 !mxE /= !(mulr0n, mulr1n, mulr0, mul0r, addr0, add0r, mulr1).
    have : \sum_i (sx + su) i ord0 * (sx + su) i j1 = k * k' * (y^T *m y) ord0 j1.
      rewrite mxE mulr_sumr. apply: eq_bigr => i _. by rewrite -C K K' Y [y^T _ _]mxE mulrACA.
    rewrite G O mxE /= mulr0 => /eqP. by rewrite oner_eq0.
  Qed.
End Swap.

Section Gradients.
  Variable F : realFieldType.
  Lemma turned_gradient n p (Q : 'M[F]_n) (R : 'M[F]_p) f (x g : 'M[F]_(n, p)) : orthogonal Q -> orthogonal R ->
    differentiable f x g -> differentiable (turned_loss Q R f) (turn Q R x) (turn Q R g).
  Proof.
    move=> HQ HR H eps e0. have [del d0 D] := H eps e0. exists del => // h.
    have HQ' : orthogonal Q^T by rewrite /orthogonal trmxK; exact: mulmx1C.
    have HR' : orthogonal R^T by rewrite /orthogonal trmxK; exact: mulmx1C.
    have E : pairing (turn Q^T R^T h) (turn Q^T R^T h) = pairing h h by rewrite mv_pairing.
    rewrite -E => L. have := D _ L. rewrite /turned_loss.
    have -> : Q^T *m (turn Q R x + h) *m R^T = x + turn Q^T R^T h.
      by rewrite mulmxDr mulmxDl (mv_back HQ HR).
    rewrite (mv_back HQ HR). suff -> : pairing (turn Q R g) h = pairing g (turn Q^T R^T h) by [].
    rewrite -(mv_pairing HQ HR g). congr pairing. by rewrite /turn -!mulmxA HR mulmx1 mulmxA (mulmx1C HQ) mul1mx.
  Qed.
  Lemma cauchy_sq n p (a b : 'M[F]_(n, p)) : pairing a b ^+ 2 <= pairing a a * pairing b b.
  Proof.
    case: (b =P 0) => [->|B]; first by rewrite /pairing !mulmx0 mxtrace0 expr0n mulr0.
    have P := pairing_gt0 B. have := pairing_ge0 (pairing b b *: a - pairing a b *: b).
    set c := pairing a b. set d := pairing b b in P *. set e := pairing a a.
    have -> : pairing (d *: a - c *: b) (d *: a - c *: b) = d * (e * d - c ^+ 2).
      set w := d *: a - c *: b.
      have W1 : pairing a w = d * e - c * c by rewrite pairingC /w pairingBl !pairingZl -/e [pairing b a]pairingC.
      have W2 : pairing b w = 0.
        by rewrite pairingC /w pairingBl !pairingZl -/c -/d mulrC subrr.
      by rewrite {1}/w pairingBl !pairingZl W1 W2 mulr0 subr0 expr2 [e * d]mulrC.
    by rewrite pmulr_rge0 // subr_ge0.
  Qed.
  Lemma mul_bound m n p (a : 'M[F]_(m, n)) (h : 'M[F]_(n, p)) : pairing (a *m h) (a *m h) <= pairing a a * pairing h h.
  Proof.
    rewrite -[pairing (_ *m _) _]frobE -[pairing a a]frobE -[pairing h h]frobE /frob.
    rewrite [X in _ * X]exchange_big /= mulr_suml. apply: ler_sum => i _. rewrite mulr_sumr. apply: ler_sum => j _.
    have := cauchy_sq (row i a)^T (col j h).
    have -> : pairing (row i a)^T (col j h) = (a *m h) i j.
      rewrite /pairing /mxtrace big_ord1 trmxK !mxE. by apply: eq_bigr => k _; rewrite !mxE.
    rewrite -expr2 => /le_trans. apply. rewrite -!frobE /frob.
    rewrite le_eqVlt; apply/orP; left; apply/eqP. congr (_ * _).
      by apply: eq_bigr => k _; rewrite big_ord1 !mxE.
    by apply: eq_bigr => k _; rewrite big_ord1 !mxE.
  Qed.
  Lemma pairing_tr n p (a b : 'M[F]_(n, p)) : pairing a^T b^T = pairing a b.
  Proof. by rewrite /pairing trmxK -mxtrace_tr trmx_mul trmxK mxtrace_mulC. Qed.
  Lemma congr_gradient n (a : 'M[F]_n) f (x g : 'M[F]_n) : a \in unitmx ->
    differentiable f x g -> differentiable (congr_loss a f) (congr a x) ((invmx a)^T *m g *m invmx a).
  Proof.
    move=> A H eps e0. set b := invmx a. set N := pairing b b.
    have N0 : 0 <= N := pairing_ge0 _.
    have K0 : 0 < N * N + 1 by apply: ltr_paddl; [exact: mulr_ge0|exact: ltr01].
    have B h : pairing (b *m h *m b^T) (b *m h *m b^T) <= (N * N + 1) * pairing h h.
      have -> : b *m h *m b^T = (b *m (b *m h)^T)^T by rewrite trmx_mul trmxK.
      rewrite pairing_tr. apply: le_trans (mul_bound _ _) _. rewrite pairing_tr -/N.
      apply: (@le_trans _ _ (N * (N * pairing h h))).
        by apply: ler_wpmul2l => //; apply: mul_bound.
      rewrite mulrA. apply: ler_wpmul2r; first exact: pairing_ge0. by rewrite ler_addl ler01.
    have [del d0 D] := H (eps / (N * N + 1)) (divr_gt0 e0 K0).
    exists (del / (N * N + 1)); first exact: divr_gt0. move=> h L.
    have L' : pairing (b *m h *m b^T) (b *m h *m b^T) < del.
      apply: le_lt_trans (B h) _. by rewrite mulrC -ltr_pdivl_mulr.
    have := D _ L'. rewrite /congr_loss -/b.
    have X : b *m congr a x *m b^T = x by rewrite /congr /b trmx_inv !mulmxA (mulVmx A) mul1mx mulmxK // unitmx_tr.
    have -> : b *m (congr a x + h) *m b^T = x + b *m h *m b^T by rewrite mulmxDr mulmxDl X.
    rewrite X. have -> : pairing (b^T *m g *m b) h = pairing g (b *m h *m b^T).
      rewrite /pairing !trmx_mul trmxK -!mulmxA mxtrace_mulC !mulmxA. by [].
    move/le_trans; apply. rewrite mulrAC ler_pdivr_mulr // -mulrA. apply: ler_wpmul2l; first exact: ltW.
    by rewrite [pairing h h * _]mulrC.
  Qed.
End Gradients.

Section SpdRefuted.
  (** 1 x 1 matrices, a = 2: the point 1 moves to 4 *)
  Variable F : rcfType.
  Notation c k := (k%:M : 'M[F]_1).
  Lemma sym_c k : sym (c k) = c k. Proof. apply: sym_id. exact: tr_scalar_mx. Qed.
  Lemma retr_c k u : k != 0 -> retr (c k) (c u) = c (k + u + 2%:R^-1 * u * k^-1 * u).
  Proof.
    move=> K. rewrite /retr /sym_invm invmx_scalar scale_scalar_mx -!scalar_mxM -!raddfD /= sym_c. by [].
  Qed.
  Lemma egrad_c k g : egrad2rgrad (c k) (c g) = c (k * g * k).
  Proof. by rewrite /egrad2rgrad /proju sym_c tr_scalar_mx -!scalar_mxM. Qed.
  Lemma congr_c k : congr (c 2%:R) (c k) = c (2%:R * k * 2%:R).
  Proof. by rewrite /congr tr_scalar_mx -!scalar_mxM. Qed.
  Lemma c_inj k l : c k = c l -> k = l.
  Proof. by move/matrixP/(_ ord0 ord0); rewrite !mxE eqxx !mulr1n. Qed.
  Lemma two_unit : c 2%:R \in unitmx. Proof. by rewrite unitmxE det_scalar1 unitfE two_neq0. Qed.
  Lemma c1_pos : pos_def (c 1).
  Proof. exact: (fn_pos (fn_const 1 (trmx1 F 1)) (fun=> ltr01)). Qed.
  Lemma four : 2%:R * 1 * 2%:R = 4%:R :> F. Proof. by rewrite mulr1 -natrM. Qed.
  (** with step -2 the point 1 stays; the point 4 stays only for the steps 0 and -8 *)
  Lemma stay1 : retr (c 1) (c (- 2%:R)) = c 1.
  Proof.
    rewrite retr_c ?oner_eq0 //. congr (_%:M). rewrite invr1 mulr1 -mulrA mulrNN mulrA mulVf ?two_neq0 // mul1r subrK. by [].
  Qed.
  Lemma move4 (w : F) : w != 0 -> w != 8%:R -> retr (c 4%:R) (c (- w)) <> c 4%:R.
  Proof.
    move=> W0 W8. have f0 : (4%:R : F) != 0 by rewrite pnatr_eq0.
    rewrite retr_c // => /c_inj /eqP. rewrite -addrA -subr_eq0 addrC addKr.
    rewrite !mulrN !mulNr opprK addrC. have -> : 2%:R^-1 * w / 4%:R * w - w = w / 8%:R * (w - 8%:R).
      have -> : (8%:R : F) = 2%:R * 4%:R by rewrite -natrM.
      rewrite mulrBr mulfVK ?mulf_neq0 ?two_neq0 //. congr (_ - _).
      by rewrite invfM [_^-1 * w]mulrC !mulrA.
    rewrite !mulf_eq0 invr_eq0 pnatr_eq0 subr_eq0 (negbTE W0) (negbTE W8). by [].
  Qed.
  Variables (eigh : forall n, 'M[F]_n -> 'rV[F]_n * 'M[F]_n) (mexp : forall n, 'M[F]_n -> 'M[F]_n) (log : F -> F).
  Notation so := (spd_ops 1 eigh mexp log).
  (** momentum 1, lr 1, gradient 1: the first buffer is the Euclidean gradient *)
  Lemma spd_momentum : exists h gs, s_momentum h = 1 /\ s_decay h = 0 /\ s_nesterov h = false /\
    (sgd_run so h [seq congr_grad (c 2%:R) g | g <- gs] (congr (c 2%:R) (c 1))).1 <>
    congr (c 2%:R) (sgd_run so h gs (c 1)).1.
  Proof.
    exists (Sgd 1 1 0 0 false), [:: (fun=> c 1)]. do 3 split=> //. rewrite /sgd_run /= /sgd_step /= ltr01 /=.
    rewrite /congr_grad invmx_scalar !tr_scalar_mx -!scalar_mxM !scale0r !addr0 congr_c four !scale1r !subr0 !scale1r !egrad_c.
    rewrite -!raddfD /= !scaleN1r -!raddfN /=.
    have -> : - (1 + 1 * 1 * 1) = - 2%:R :> F by rewrite !mulr1.
    rewrite stay1 congr_c four. have f0 : (4%:R : F) != 0 by rewrite pnatr_eq0.
    have q4 : 2%:R^-1 * 1 / 2%:R = 4%:R^-1 :> F by rewrite mulr1 -invfM -natrM.
    rewrite q4 mulfV // mul1r.
    have E : (4%:R^-1 + 4%:R) * 4%:R = 17%:R :> F by rewrite mulrDl mulVf // -natrM -[X in X + _]/(1%:R) -natrD.
    apply: move4; apply/eqP => H; move: E; rewrite H => /eqP; first by rewrite mul0r eq_sym pnatr_eq0.
    by rewrite -natrM eqr_nat.
  Qed.
  (** weight decay 1, lr 2, gradient 0 *)
  Lemma spd_decay : exists h gs, s_momentum h = 0 /\ s_decay h = 1 /\
    (sgd_run so h [seq congr_grad (c 2%:R) g | g <- gs] (congr (c 2%:R) (c 1))).1 <>
    congr (c 2%:R) (sgd_run so h gs (c 1)).1.
  Proof.
    exists (Sgd 2%:R 0 0 1 false), [:: (fun=> 0)]. do 2 split=> //. rewrite /sgd_run /= /sgd_step /= ltxx /=.
    rewrite /congr_grad mulmx0 mul0mx !add0r !scale1r congr_c four !egrad_c !mulr1 !scale_scalar_mx.
    rewrite mulr1 stay1 congr_c four mulNr. apply: move4; rewrite -!natrM; first by rewrite pnatr_eq0.
    by rewrite eqr_nat.
  Qed.
End SpdRefuted.
