(** Lemmas for the Siegel spaces: complex matrices and the Cayley transform. *)
From mathcomp Require Import all_ssreflect all_algebra.
From mathcomp.real_closed Require Import complex.
From Verif Require Import FieldTac SpdModel SpdSpec SpdProofs SiegelModel SiegelSpec.
Import GRing.Theory Order.Theory Num.Theory.
Local Open Scope ring_scope.
Local Open Scope complex_scope.
Set Implicit Arguments. Unset Strict Implicit. Unset Printing Implicit Defensive.

Section P.
  Variable F : rcfType.
  Notation C := F[i].
  Implicit Types n m k : nat.
  Definition CK : fieldType := Num.ClosedField.fieldType (complex_numClosedFieldType F).
  Add Field CKf : (fth CK).
  (** identities in C, and linear identities between matrices *)
  Ltac cr := f_goal CK; ring.
  Ltac mr := apply/matrixP => ? ?; rewrite !mxE; cr.

  Lemma barE n m (z : 'M[C]_(n, m)) : bar z = map_mx (@conjc F) z.
  Proof. by apply/matrixP => i j; rewrite !mxE. Qed.
  Lemma adjE n m (z : 'M[C]_(n, m)) : adj z = (bar z)^T.
  Proof. by apply/matrixP => i j; rewrite !mxE. Qed.
  Lemma bar_tr n m (z : 'M[C]_(n, m)) : bar z^T = (bar z)^T.
  Proof. by apply/matrixP => i j; rewrite !mxE. Qed.
  Lemma barK n m (z : 'M[C]_(n, m)) : bar (bar z) = z.
  Proof. by apply/matrixP => i j; rewrite !mxE conjcK. Qed.
  Lemma barD n m (a b : 'M[C]_(n, m)) : bar (a + b) = bar a + bar b.
  Proof. by rewrite !barE map_mxD. Qed.
  Lemma barB n m (a b : 'M[C]_(n, m)) : bar (a - b) = bar a - bar b.
  Proof. by rewrite !barE map_mxB. Qed.
  Lemma barN n m (a : 'M[C]_(n, m)) : bar (- a) = - bar a.
  Proof. by rewrite !barE map_mxN. Qed.
  Lemma barM n m k (a : 'M[C]_(n, m)) (b : 'M[C]_(m, k)) : bar (a *m b) = bar a *m bar b.
  Proof. by rewrite !barE map_mxM. Qed.
  Lemma barZ n m c (a : 'M[C]_(n, m)) : bar (c *: a) = conjc c *: bar a.
  Proof. by rewrite !barE map_mxZ. Qed.
  Lemma bar1 n : bar (1%:M : 'M[C]_n) = 1%:M.
  Proof. by rewrite barE map_mx1. Qed.
  Lemma bar_unit n (a : 'M[C]_n) : (bar a \in unitmx) = (a \in unitmx).
  Proof. by rewrite barE map_unitmx. Qed.
  Lemma bar_inv n (a : 'M[C]_n) : bar (invmx a) = invmx (bar a).
  Proof. by rewrite !barE map_invmx. Qed.
  Lemma adjM n m k (a : 'M[C]_(n, m)) (b : 'M[C]_(m, k)) : adj (a *m b) = adj b *m adj a.
  Proof. by rewrite !adjE barM trmx_mul. Qed.
  Lemma adjD n m (a b : 'M[C]_(n, m)) : adj (a + b) = adj a + adj b.
  Proof. by rewrite !adjE barD linearD. Qed.
  Lemma adjB n m (a b : 'M[C]_(n, m)) : adj (a - b) = adj a - adj b.
  Proof. by rewrite !adjE barB linearB. Qed.
  Lemma adjK n m (a : 'M[C]_(n, m)) : adj (adj a) = a.
  Proof. by rewrite !adjE bar_tr trmxK barK. Qed.
  Lemma adjZ n m c (a : 'M[C]_(n, m)) : adj (c *: a) = conjc c *: adj a.
  Proof. by rewrite !adjE barZ linearZ. Qed.
  Lemma adj1 n : adj (1%:M : 'M[C]_n) = 1%:M.
  Proof. by rewrite adjE bar1 trmx1. Qed.
  Lemma adj0 n m : adj (0 : 'M[C]_(n, m)) = 0.
  Proof. by apply/matrixP => i j; rewrite !mxE conjc0. Qed.
  Lemma adj_unit n (a : 'M[C]_n) : (adj a \in unitmx) = (a \in unitmx).
  Proof. by rewrite adjE unitmx_tr bar_unit. Qed.
  Lemma adj_inv n (a : 'M[C]_n) : adj (invmx a) = invmx (adj a).
  Proof. by rewrite !adjE bar_inv trmx_inv. Qed.
  Lemma bar_sym n (z : 'M[C]_n) : csymmetric z -> bar z = adj z.
  Proof. by move=> H; rewrite adjE -bar_tr H. Qed.
  Lemma sym_inv n (z : 'M[C]_n) : csymmetric z -> csymmetric (invmx z).
  Proof. by rewrite /csymmetric trmx_inv => ->. Qed.
  Lemma sym_bar n (z : 'M[C]_n) : csymmetric z -> csymmetric (bar z).
  Proof. by rewrite /csymmetric -bar_tr => ->. Qed.

  Lemma conjE n m (z : 'M[C]_(n, m)) : conj z = bar z.
  Proof. by []. Qed.
  Lemma real_of_E n m (z : 'M[C]_(n, m)) : real_of z = re_part z.
  Proof. by []. Qed.
  Lemma imag_of_E n m (z : 'M[C]_(n, m)) : imag_of z = im_part z.
  Proof. by []. Qed.
  Lemma as_complexE n m (a : 'M[F]_(n, m)) : as_complex a = map_mx (real_complex F) a.
  Proof. by apply/matrixP => i j; rewrite !mxE. Qed.
  Lemma acM n m k (a : 'M[F]_(n, m)) (b : 'M[F]_(m, k)) : as_complex (a *m b) = as_complex a *m as_complex b.
  Proof. by rewrite !as_complexE map_mxM. Qed.
  Lemma acD n m (a b : 'M[F]_(n, m)) : as_complex (a + b) = as_complex a + as_complex b.
  Proof. by rewrite !as_complexE map_mxD. Qed.
  Lemma acB n m (a b : 'M[F]_(n, m)) : as_complex (a - b) = as_complex a - as_complex b.
  Proof. by rewrite !as_complexE map_mxB. Qed.
  Lemma acN n m (a : 'M[F]_(n, m)) : as_complex (- a) = - as_complex a.
  Proof. by rewrite !as_complexE map_mxN. Qed.
  Lemma acZ n m c (a : 'M[F]_(n, m)) : as_complex (c *: a) = c%:C *: as_complex a.
  Proof. by rewrite !as_complexE map_mxZ. Qed.
  Lemma acT n m (a : 'M[F]_(n, m)) : as_complex a^T = (as_complex a)^T.
  Proof. by rewrite !as_complexE map_trmx. Qed.
  Lemma ac1 n : as_complex (1%:M : 'M[F]_n) = 1%:M.
  Proof. by rewrite as_complexE map_mx1. Qed.
  Lemma ac_unit n (a : 'M[F]_n) : (as_complex a \in unitmx) = (a \in unitmx).
  Proof. by rewrite as_complexE map_unitmx. Qed.
  Lemma ac_inv n (a : 'M[F]_n) : as_complex (invmx a) = invmx (as_complex a).
  Proof. by rewrite !as_complexE map_invmx. Qed.
  Lemma ac_bar n m (a : 'M[F]_(n, m)) : bar (as_complex a) = as_complex a.
  Proof. by apply/matrixP => i j; rewrite !mxE conjc_real. Qed.
  Lemma ac_adj n m (a : 'M[F]_(n, m)) : adj (as_complex a) = as_complex a^T.
  Proof. by rewrite adjE ac_bar acT. Qed.
  Lemma ac_inj n m (a b : 'M[F]_(n, m)) : as_complex a = as_complex b -> a = b.
  Proof. by move/matrixP => H; apply/matrixP => i j; move: (H i j); rewrite !mxE => -[]. Qed.

  Lemma to_complexE n m (a b : 'M[F]_(n, m)) : to_complex a b = as_complex a + 'i%C *: as_complex b.
  Proof.
    apply/matrixP => i j; rewrite !mxE; apply/eqP; rewrite eq_complex /=.
    by rewrite !(mul0r, mul1r, subr0, addr0, add0r, oppr0, eqxx).
  Qed.
  Lemma decomp n m (z : 'M[C]_(n, m)) : z = as_complex (re_part z) + 'i%C *: as_complex (im_part z).
  Proof.
    rewrite -to_complexE; apply/matrixP => i j; rewrite !mxE.
    by case: (z i j).
  Qed.
  Lemma re_to n m (a b : 'M[F]_(n, m)) : re_part (to_complex a b) = a.
  Proof. by apply/matrixP => i j; rewrite !mxE. Qed.
  Lemma im_to n m (a b : 'M[F]_(n, m)) : im_part (to_complex a b) = b.
  Proof. by apply/matrixP => i j; rewrite !mxE. Qed.
  Lemma bar_to n m (a b : 'M[F]_(n, m)) : bar (to_complex a b) = to_complex a (- b).
  Proof. by apply/matrixP => i j; rewrite !mxE. Qed.
  Lemma tr_to n m (a b : 'M[F]_(n, m)) : (to_complex a b)^T = to_complex a^T b^T.
  Proof. by apply/matrixP => i j; rewrite !mxE. Qed.
  Lemma re_tr n m (z : 'M[C]_(n, m)) : re_part z^T = (re_part z)^T.
  Proof. by apply/matrixP => i j; rewrite !mxE. Qed.
  Lemma im_tr n m (z : 'M[C]_(n, m)) : im_part z^T = (im_part z)^T.
  Proof. by apply/matrixP => i j; rewrite !mxE. Qed.
  Lemma imaginary n m (z : 'M[C]_(n, m)) : z - bar z = (2%:R * 'i%C) *: as_complex (im_part z).
  Proof.
    apply/matrixP => i j; rewrite !mxE subcJ -mulrA.
    by rewrite [_%:C * _]mulrC mulrA.
  Qed.

  Lemma multiply_by_iE n (z : 'M[C]_n) : multiply_by_i z = 'i%C *: z.
  Proof.
    apply/matrixP => i j; rewrite !mxE; apply/eqP; rewrite eq_complex /=; case: (z i j) => a b /=.
    by rewrite !(mul0r, mul1r, sub0r, addr0, add0r, eqxx).
  Qed.
  Lemma csymE n (z : 'M[C]_n) : csymmetric z -> csym z = z.
  Proof.
    move=> H; rewrite /csym H -mulr2n -[z *+ 2]scaler_nat scalerA mulVf ?scale1r //.
    by rewrite pnatr_eq0.
  Qed.
  Lemma csym_sym n (z : 'M[C]_n) : csymmetric (csym z).
  Proof. by rewrite /csymmetric /csym linearZ linearD /= trmxK addrC. Qed.

  (** * Hermitian forms *)
  Definition hform n (h : 'M[C]_n) (v : 'cV[C]_n) : C := (adj v *m h *m v) ord0 ord0.
  Lemma hformD n (a b : 'M[C]_n) v : hform (a + b) v = hform a v + hform b v.
  Proof. by rewrite /hform mulmxDr mulmxDl mxE. Qed.
  Lemma hformZ n c (a : 'M[C]_n) v : hform (c *: a) v = c * hform a v.
  Proof. by rewrite /hform -scalemxAr -scalemxAl mxE. Qed.
  Lemma hform_congr n (t h : 'M[C]_n) v : hform (adj t *m h *m t) v = hform h (t *m v).
  Proof. by rewrite /hform adjM !mulmxA. Qed.
  Lemma form_unit n (h : 'M[C]_n) : (forall v, v != 0 -> hform h v <> 0) -> h \in unitmx.
  Proof.
    move=> H; rewrite unitmxE unitfE -det_tr; apply/det0P => -[v v0 E].
    apply: (H v^T); first by rewrite -(inj_eq trmx_inj) trmx0 trmxK.
    by rewrite /hform -mulmxA -[h]trmxK -trmx_mul E trmx0 mulmx0 mxE.
  Qed.
  Lemma hpos_unit n (h : 'M[C]_n) : hpos_def h -> h \in unitmx.
  Proof.
    by move=> H; apply: form_unit => v v0 E; move: (H v v0); rewrite -/(hform h v) E ltxx.
  Qed.
  Lemma mul_neq0 n (t : 'M[C]_n) (v : 'cV[C]_n) : t \in unitmx -> v != 0 -> t *m v != 0.
  Proof. by move=> U; apply: contra => /eqP E; rewrite -(mulKmx U v) E mulmx0. Qed.
  Lemma hpos_congr n (t h : 'M[C]_n) : t \in unitmx -> hpos_def h -> hpos_def (adj t *m h *m t).
  Proof. by move=> U H v v0; rewrite -/(hform _ v) hform_congr; exact: H (mul_neq0 U v0). Qed.
  Lemma hposZ n (c : C) (h : 'M[C]_n) : 0 < c -> hpos_def h -> hpos_def (c *: h).
  Proof. by move=> c0 H v v0; rewrite -/(hform _ v) hformZ mulr_gt0 //; exact: H. Qed.
  Lemma hform_ac n (y : 'M[F]_n) v : symmetric y ->
    hform (as_complex y) v = (quad y (re_part v)^T + quad y (im_part v)^T)%:C.
  Proof.
    move=> S; rewrite /hform {1 2}(decomp v) adjD adjZ !ac_adj.
    set a := re_part v; set b := im_part v.
    rewrite !mulmxDl !mulmxDr -!scalemxAl -!scalemxAr -!acM scalerA.
    have -> : a^T *m y *m b = b^T *m y *m a.
      have T1 (m : 'M[F]_1) : m^T = m by rewrite [m]mx11_scalar tr_scalar_mx.
      by rewrite -[LHS]T1 !trmx_mul trmxK S mulmxA.
    rewrite !quadE !trmxK.
    have -> : conjc ('i%C : C) * 'i%C = 1 by apply/eqP; rewrite eq_complex /= !(mulr0, mul0r, mulr1, mulN1r, opprK, oppr0, addr0, add0r, subr0, sub0r) !eqxx.
    rewrite [conjc _](_ : _ = - 'i%C); last by apply/eqP; rewrite eq_complex /= oppr0 !eqxx.
    rewrite scaleNr scale1r addrA addrK -acD mxE; congr (_ %:C).
    by move: (a^T *m y *m a) (b^T *m y *m b) => P Q; rewrite mxE.
  Qed.
  Lemma re_im_0 n m (v : 'M[C]_(n, m)) : re_part v = 0 -> im_part v = 0 -> v = 0.
  Proof.
    by move=> A B; rewrite (decomp v) A B as_complexE map_mx0 scaler0 addr0.
  Qed.
  Lemma hpos_ac n (y : 'M[F]_n) : pos_def y -> hpos_def (as_complex y).
  Proof.
    move=> H v v0; rewrite -/(hform _ v) hform_ac; last by case: H.
    rewrite ltcR; case: (eqVneq (re_part v) 0) => [A|A].
    - rewrite A trmx0 quad0 add0r; apply: (proj2 H) => E.
      by move/negP: v0; apply; apply/eqP/re_im_0 => //; apply: trmx_inj; rewrite E trmx0.
    - apply: ltr_paddr; first by case: (pos_def_semi H) => _; apply.
      by apply: (proj2 H) => E; move/negP: A; apply; rewrite -(inj_eq trmx_inj) E trmx0.
  Qed.
  Lemma hpos_ac_inv n (y : 'M[F]_n) : symmetric y -> hpos_def (as_complex y) -> pos_def y.
  Proof.
    move=> S H; split=> // v v0.
    have V0 : as_complex v^T != 0.
      apply/eqP => E; apply: v0; apply: trmx_inj; rewrite trmx0; apply: ac_inj.
      by rewrite E as_complexE map_mx0.
    move: (H _ V0); rewrite -/(hform _ _) hform_ac //.
    have -> : re_part (as_complex v^T) = v^T by apply/matrixP => i j; rewrite !mxE.
    have -> : im_part (as_complex v^T) = 0 by apply/matrixP => i j; rewrite !mxE.
    by rewrite trmx0 trmxK quad0 addr0 ltcR.
  Qed.

  (** * Cayley transform *)
  Definition cay n (z : 'M[C]_n) : 'M[C]_n := 'i%C *: ((1%:M + z) *m invmx (1%:M - z)).
  Definition icay n (x : 'M[C]_n) : 'M[C]_n := (x - iI F n) *m invmx (x + iI F n).
  Lemma cayE n (z : 'M[C]_n) :
    cayley_transform z = if 1%:M - z \in unitmx then Ok (cay z) else Raises LinAlgError.
  Proof.
    rewrite /cayley_transform /inverse /identity_like; case: ifP => //= _.
    by rewrite multiply_by_iE -scalemxAl.
  Qed.
  Lemma icayE n (x : 'M[C]_n) :
    inverse_cayley_transform x = if x + iI F n \in unitmx then Ok (icay x) else Raises LinAlgError.
  Proof.
    rewrite /inverse_cayley_transform /inverse /identity_like multiply_by_iE /icay /iI scalemx1.
    by case: ifP.
  Qed.
  Lemma i_neq0 : ('i%C : C) != 0.
  Proof. by rewrite eq_complex /= oner_eq0 andbF. Qed.
  Definition ti : C := 2%:R * 'i%C.
  Lemma ti_neq0 : ti != 0.
  Proof. by rewrite mulf_neq0 ?i_neq0 // pnatr_eq0. Qed.
  Lemma i_sq : ('i%C : C) * 'i%C = -1.
  Proof. by rewrite -expr2 sqr_i. Qed.
  Lemma iIE n : iI F n = 'i%C *: 1%:M.
  Proof. by rewrite /iI scalemx1. Qed.
  Lemma scale_unit n (c : C) (a : 'M[C]_n) : c != 0 -> (c *: a \in unitmx) = (a \in unitmx).
  Proof. by move=> c0; rewrite unitmxZ // unitfE. Qed.
  Lemma cay_plus n (z : 'M[C]_n) : 1%:M - z \in unitmx -> cay z + iI F n = ti *: invmx (1%:M - z).
  Proof.
    move=> U; rewrite iIE -{1}(mulmxV U) /cay -scalerDr -mulmxDl addrACA subrr addr0.
    by rewrite /ti mulrC -scalerA scaler_nat mulmxDl mul1mx mulr2n.
  Qed.
  Lemma cay_minus n (z : 'M[C]_n) : 1%:M - z \in unitmx -> cay z - iI F n = ti *: (z *m invmx (1%:M - z)).
  Proof.
    move=> U; rewrite iIE -{1}(mulmxV U) /cay -scalerBr -mulmxBl.
    have -> : 1%:M + z - (1%:M - z) = z *+ 2 by rewrite opprB addrA addrAC [1%:M + z]addrC addrK mulr2n.
    by rewrite /ti mulrC -scalerA scaler_nat mulr2n mulmxDl mulr2n.
  Qed.
  Lemma cay_plus_unit n (z : 'M[C]_n) : 1%:M - z \in unitmx -> cay z + iI F n \in unitmx.
  Proof. by move=> U; rewrite cay_plus // scale_unit ?ti_neq0 // unitmx_inv. Qed.
  Lemma invmxZ' n (c : C) (a : 'M[C]_n) : c != 0 -> a \in unitmx -> invmx (c *: a) = c^-1 *: invmx a.
  Proof.
    move=> c0 U; have W : c *: a \in unitmx by rewrite scale_unit.
    by apply: (can_inj (mulKmx W)); rewrite mulmxV // -scalemxAl -scalemxAr scalerA mulfV // scale1r mulmxV.
  Qed.
  Lemma icay_cay n (z : 'M[C]_n) : 1%:M - z \in unitmx -> icay (cay z) = z.
  Proof.
    move=> U; rewrite /icay cay_plus // cay_minus // invmxZ' ?ti_neq0 ?unitmx_inv // invmxK.
    by rewrite -scalemxAl -scalemxAr scalerA mulfV ?ti_neq0 // scale1r mulmxKV.
  Qed.
  Lemma icay_1m n (x : 'M[C]_n) : x + iI F n \in unitmx -> 1%:M - icay x = ti *: invmx (x + iI F n).
  Proof.
    move=> U; rewrite /icay -{1}(mulmxV U) -mulmxBl opprB [_ + (iI _ _ - _)]addrC addrA addrNK.
    by rewrite -mulr2n iIE -scaler_nat scalerA -/ti -scalemxAl mul1mx.
  Qed.
  Lemma icay_1p n (x : 'M[C]_n) : x + iI F n \in unitmx -> 1%:M + icay x = 2%:R *: (x *m invmx (x + iI F n)).
  Proof.
    move=> U; rewrite /icay -{1}(mulmxV U) -mulmxDl addrACA subrr addr0.
    by rewrite -mulr2n -scaler_nat -scalemxAl.
  Qed.
  Lemma icay_unit n (x : 'M[C]_n) : x + iI F n \in unitmx -> 1%:M - icay x \in unitmx.
  Proof. by move=> U; rewrite icay_1m // scale_unit ?ti_neq0 // unitmx_inv. Qed.
  Lemma cay_icay n (x : 'M[C]_n) : x + iI F n \in unitmx -> cay (icay x) = x.
  Proof.
    move=> U; rewrite /cay icay_1m // icay_1p // invmxZ' ?ti_neq0 ?unitmx_inv // invmxK.
    by rewrite -scalemxAl -scalemxAr !scalerA mulmxKV // ['i%C * _]mulrC mulfV ?ti_neq0 // scale1r.
  Qed.
  Lemma cay_sym n (z : 'M[C]_n) : 1%:M - z \in unitmx -> csymmetric z -> csymmetric (cay z).
  Proof.
    move=> U S.
    have T1 : (1%:M + z)^T = 1%:M + z by rewrite linearD /= trmx1 S.
    have T2 : (1%:M - z)^T = 1%:M - z by rewrite linearB /= trmx1 S.
    rewrite /csymmetric /cay linearZ /= trmx_mul trmx_inv T1 T2; congr (_ *: _).
    have E : (1%:M - z) *m (1%:M + z) = (1%:M + z) *m (1%:M - z).
      rewrite mulmxDr mulmx1 mulmxBl mul1mx addrA addrNK.
      by rewrite mulmxBr mulmx1 mulmxDl mul1mx opprD addrA addrK.
    by apply: (can_inj (mulKmx U)); rewrite mulmxA mulmxV // mul1mx mulmxA E mulmxK.
  Qed.
  Lemma icay_sym n (x : 'M[C]_n) : x + iI F n \in unitmx -> csymmetric x -> csymmetric (icay x).
  Proof.
    move=> U S.
    have T1 : (x + iI F n)^T = x + iI F n by rewrite linearD /= tr_scalar_mx S.
    have T2 : (x - iI F n)^T = x - iI F n by rewrite linearB /= tr_scalar_mx S.
    rewrite /csymmetric /icay trmx_mul trmx_inv T1 T2.
    have E : (x + iI F n) *m (x - iI F n) = (x - iI F n) *m (x + iI F n).
      rewrite [RHS]mulmxDr mulmxBr /iI !mul_mx_scalar [in LHS]mulmxDl [in RHS]mulmxBl !mul_scalar_mx.
      by rewrite scalerDr scalerBr opprD addrA addrK [in RHS]addrA addrNK.
    by apply: (can_inj (mulKmx U)); rewrite mulmxA mulmxV // mul1mx mulmxA E mulmxK.
  Qed.

  Lemma ker_unit n (a : 'M[C]_n) : (forall v : 'cV[C]_n, a *m v = 0 -> v = 0) -> a \in unitmx.
  Proof.
    move=> H; rewrite unitmxE unitfE -det_tr; apply/det0P => -[v v0 E].
    move/negP: v0; apply; apply/eqP/trmx_inj; rewrite trmx0; apply: H.
    by rewrite -[a]trmxK -trmx_mul E trmx0.
  Qed.
  Lemma bd_unit n (z : 'M[C]_n) : in_bounded_domain z -> 1%:M - z \in unitmx.
  Proof.
    move=> [S H]; apply: ker_unit => v E; apply/eqP; apply: contraT => v0.
    have {}E : z *m v = v by move/eqP: E; rewrite mulmxBl mul1mx subr_eq0 eq_sym => /eqP.
    move: (H v v0); rewrite bar_sym // mulmxBr mulmxBl mulmx1 -!mulmxA E.
    by rewrite mulmxA -adjM E subrr mxE ltxx.
  Qed.
  Lemma im_sym n (x : 'M[C]_n) : csymmetric x -> symmetric (im_part x).
  Proof. by rewrite /symmetric -im_tr => ->. Qed.
  Lemma re_sym n (x : 'M[C]_n) : csymmetric x -> symmetric (re_part x).
  Proof. by rewrite /symmetric -re_tr => ->. Qed.
  Lemma conj_i : conjc ('i%C : C) = - 'i%C.
  Proof. by apply/eqP; rewrite eq_complex /= oppr0 !eqxx. Qed.
  Lemma im_pos_unit n (x : 'M[C]_n) : in_upper_half x -> x \in unitmx.
  Proof.
    move=> [S P]; apply: form_unit => v v0; rewrite (decomp x) hformD hformZ.
    rewrite hform_ac; last exact: re_sym.
    move: (hpos_ac P v0); rewrite -/(hform _ v) hform_ac; last exact: im_sym.
    move: (quad _ _ + _) (quad _ _ + _) => r s; rewrite ltcR => s0.
    move/eqP; rewrite eq_complex /= !(mul0r, mul1r, add0r, addr0) => /andP[_ /eqP E].
    by rewrite E ltxx in s0.
  Qed.
  Lemma pos_def1 n : pos_def (1%:M : 'M[F]_n).
  Proof.
    have -> : (1%:M : 'M[F]_n) = diag_mx (const_mx 1) by rewrite diag_const_mx.
    by apply: diag_pos => i; rewrite mxE ltr01.
  Qed.
  Lemma im_D n m (a b : 'M[C]_(n, m)) : im_part (a + b) = im_part a + im_part b.
  Proof. by apply/matrixP => i j; rewrite !mxE; case: (a i j) (b i j) => ? ? []. Qed.
  Lemma re_D n m (a b : 'M[C]_(n, m)) : re_part (a + b) = re_part a + re_part b.
  Proof. by apply/matrixP => i j; rewrite !mxE; case: (a i j) (b i j) => ? ? []. Qed.
  Lemma im_iI n : im_part (iI F n) = 1%:M.
  Proof. by apply/matrixP => i j; rewrite !mxE; case: (i == j). Qed.
  Lemma re_iI n : re_part (iI F n) = 0.
  Proof. by apply/matrixP => i j; rewrite !mxE; case: (i == j). Qed.
  Lemma uh_plus n (x : 'M[C]_n) : in_upper_half x -> in_upper_half (x + iI F n).
  Proof.
    move=> [S P]; split; first by rewrite /csymmetric linearD /= tr_scalar_mx S.
    by rewrite im_D im_iI; apply: pos_defD => //; apply: pos_def_semi; exact: pos_def1.
  Qed.
  Lemma uh_plus_unit n (x : 'M[C]_n) : in_upper_half x -> x + iI F n \in unitmx.
  Proof. by move=> H; apply: im_pos_unit; exact: uh_plus. Qed.

  Lemma im_cay n (z : 'M[C]_n) : csymmetric z -> 1%:M - z \in unitmx ->
    as_complex (im_part (cay z)) = adj (invmx (1%:M - z)) *m (1%:M - bar z *m z) *m invmx (1%:M - z).
  Proof.
    move=> S U; have SX := cay_sym U S.
    apply: (can_inj (scalerK ti_neq0)).
    rewrite [X in X = _](_ : _ = ti *: as_complex (im_part (cay z))) // -imaginary (bar_sym SX) (bar_sym S).
    set P := invmx _; set L := 1%:M - z.
    have LP : L *m P = 1%:M by exact: mulmxV.
    have PL : adj P *m adj L = 1%:M by rewrite -adjM LP adj1.
    rewrite /cay -/L -/P adjZ conj_i scaleNr opprK adjM -scalerDr.
    have -> : (1%:M + z) *m P = adj P *m (adj L *m (1%:M + z)) *m P by rewrite !mulmxA PL mul1mx.
    have -> : adj P *m adj (1%:M + z) = adj P *m (adj (1%:M + z) *m L) *m P by rewrite -!mulmxA LP mulmx1.
    rewrite -mulmxDl -mulmxDr.
    have -> : adj L *m (1%:M + z) + adj (1%:M + z) *m L = 2%:R *: (1%:M - adj z *m z).
      rewrite /L adjB adjD adj1 mulmxDr mulmx1 mulmxBr mulmx1 mulmxBl mulmxDl !mul1mx scaler_nat mulr2n.
      by move: (adj z) (adj z *m z) (1%:M : 'M[C]_n) => b a e; mr.
    by rewrite -scalemxAr -scalemxAl scalerA mulrC.
  Qed.
  Lemma cay_uh n (z : 'M[C]_n) : in_bounded_domain z -> in_upper_half (cay z).
  Proof.
    move=> H; have U := bd_unit H; case: H => S H; have SX := cay_sym U S; split => //.
    apply: hpos_ac_inv; first exact: im_sym.
    by rewrite im_cay //; apply: hpos_congr => //; rewrite unitmx_inv.
  Qed.
  Lemma adj_iI n : adj (iI F n) = - iI F n.
  Proof. by rewrite iIE adjZ adj1 conj_i scaleNr. Qed.
  Lemma one_minus_icay n (x : 'M[C]_n) : csymmetric x -> x + iI F n \in unitmx ->
    1%:M - bar (icay x) *m icay x =
    adj (invmx (x + iI F n)) *m (4%:R *: as_complex (im_part x)) *m invmx (x + iI F n).
  Proof.
    move=> S U; rewrite (bar_sym (icay_sym U S)) /icay.
    set Q := invmx _; set L := x + iI F n.
    have LQ : L *m Q = 1%:M by exact: mulmxV.
    have QL : adj Q *m adj L = 1%:M by rewrite -adjM LQ adj1.
    have E1 : (1%:M : 'M[C]_n) = adj Q *m (adj L *m L) *m Q by rewrite !mulmxA QL mul1mx LQ.
    have -> : adj ((x - iI F n) *m Q) *m ((x - iI F n) *m Q) = adj Q *m (adj (x - iI F n) *m (x - iI F n)) *m Q.
      by rewrite adjM !mulmxA.
    rewrite {1}E1 -mulmxBl -mulmxBr; congr (_ *m _ *m _).
    have -> : 4%:R *: as_complex (im_part x) = (- ti) *: (x - bar x).
      rewrite imaginary -/ti scalerA; congr (_ *: _).
      by rewrite mulNr /ti mulrACA i_sq mulrN1 opprK -natrM.
    rewrite (bar_sym S) /L adjD adjB adj_iI opprK mulmxDr !mulmxBl mulmxBr !mulmxDl.
    move: (adj x) => y; rewrite /iI !mul_mx_scalar !mul_scalar_mx /ti scaleNr scalerBr opprB !mulr_natl -!scalerMnl !mulr2n.
    move: ('i%C *: 'i%C%:M) ('i%C *: x) ('i%C *: y) (y *m x) => a b c d.
    mr.
  Qed.
  Lemma icay_bd n (x : 'M[C]_n) : in_upper_half x -> in_bounded_domain (icay x).
  Proof.
    move=> H; have U := uh_plus_unit H; case: H => S H; split; first exact: icay_sym.
    rewrite one_minus_icay //; apply: hpos_congr; first by rewrite unitmx_inv.
    by apply: hposZ; [rewrite ltr0n | exact: hpos_ac].
  Qed.
End P.
