(** Lemmas for the Siegel spaces: properties of dist. *)
From mathcomp Require Import all_ssreflect all_algebra.
From mathcomp.real_closed Require Import complex.
From Verif Require Import FieldTac SpdModel SpdSpec SpdProofs SpdProofs2 SiegelModel SiegelSpec SiegelProofs SiegelProofs2 SiegelProofs3 SiegelProofs4.
Import GRing.Theory Order.Theory Num.Theory.
Local Open Scope ring_scope.
Local Open Scope complex_scope.
Set Implicit Arguments. Unset Strict Implicit. Unset Printing Implicit Defensive.

Section Cr.
  Variable F : rcfType.
  Notation C := F[i].
  Implicit Types n : nat.
  Lemma cr_conj n (s w : 'M[C]_n) : s \in unitmx -> bar s = s ->
    char_poly ((s *m w *m invmx s) *m bar (s *m w *m invmx s)) = char_poly (w *m bar w).
  Proof.
    move=> U B; rewrite !barM bar_inv B -[RHS](char_conj _ U) !mulmxA.
    by rewrite mulmxKV.
  Qed.
  Lemma invN n (u : 'M[C]_n) : u \in unitmx -> invmx (- u) = - invmx u.
  Proof.
    move=> U; have V : - u \in unitmx by rewrite -scaleN1r scale_unit // oppr_eq0 oner_eq0.
    by apply: (can_inj (mulKmx V)); rewrite mulmxV // mulNmx mulmxN opprK mulmxV.
  Qed.
  (** Siegel's cross ratio *)
  Definition crs n (z1 z2 : 'M[C]_n) : 'M[C]_n := cr z1 z2 *m bar (cr z1 z2).
  Lemma crsE n (z1 z2 : 'M[C]_n) :
    crs z1 z2 = (z2 - z1) *m invmx (z2 - bar z1) *m ((bar z2 - bar z1) *m invmx (bar z2 - z1)).
  Proof. by rewrite /crs /cr barM bar_inv !barB barK. Qed.
  Lemma crs_sym n (z1 z2 : 'M[C]_n) : in_upper_half z1 -> in_upper_half z2 ->
    char_poly (crs z1 z2) = char_poly (crs z2 z1).
  Proof.
    move=> H1 H2; case: (H1) => S1 _; case: (H2) => S2 _; rewrite !crsE.
    have D : bar z2 - z1 \in unitmx by rewrite -bar_unit barB barK diff_unit.
    rewrite -[z1 - bar z2]opprB -[bar z1 - z2]opprB !invN ?diff_unit // -[z1 - z2]opprB -[bar z1 - bar z2]opprB.
    rewrite !mulNmx !mulmxN !mulNmx !opprK.
    have TB (a b : 'M[C]_n) : (a - b)^T = a^T - b^T by rewrite linearB.
    rewrite -[RHS]char_tr !trmx_mul !trmx_inv !TB -!bar_tr S1 S2.
    by rewrite !mulmxA [RHS]char_mulC !mulmxA.
  Qed.
  Lemma crs_trans n (z1 z2 : 'M[C]_n) (b : 'M[F]_n) : crs (z1 + as_complex b) (z2 + as_complex b) = crs z1 z2.
  Proof.
    have E (x y k : 'M[C]_n) : x + k - (y + k) = x - y by rewrite opprD addrACA subrr addr0.
    by rewrite !crsE !barD !ac_bar !E.
  Qed.
  Lemma crs_congr n (z1 z2 : 'M[C]_n) (a : 'M[F]_n) : in_upper_half z1 -> in_upper_half z2 -> a \in unitmx ->
    char_poly (crs (as_complex a *m z1 *m as_complex a^T) (as_complex a *m z2 *m as_complex a^T)) = char_poly (crs z1 z2).
  Proof.
    move=> H1 H2 U; rewrite -ac_unit in U; set A := as_complex a in U *.
    have UT : as_complex a^T \in unitmx by rewrite acT unitmx_tr.
    rewrite /crs; have -> : cr (A *m z1 *m as_complex a^T) (A *m z2 *m as_complex a^T) = A *m cr z1 z2 *m invmx A.
      rewrite /cr !barM !ac_bar -!mulmxBl -!mulmxBr !invM ?unitmx_mul ?U ?UT ?(diff_unit H1 H2) //.
      by rewrite !mulmxA mulmxK.
    by rewrite cr_conj ?ac_bar.
  Qed.
  Lemma crs_inv n (z1 z2 : 'M[C]_n) : in_upper_half z1 -> in_upper_half z2 ->
    char_poly (crs (- invmx z1) (- invmx z2)) = char_poly (crs z1 z2).
  Proof.
    move=> H1 H2; have U1 := im_pos_unit H1; have U2 := im_pos_unit H2; have U12 := diff_unit H1 H2.
    have B1 : bar z1 \in unitmx by rewrite bar_unit.
    have E (x : 'M[C]_n) : x \in unitmx -> - invmx z2 + invmx x = invmx x *m (z2 - x) *m invmx z2.
      by move=> U; rewrite mulmxBr mulVmx // mulmxBl mul1mx mulmxK // addrC.
    rewrite /crs; have -> : cr (- invmx z1) (- invmx z2) = invmx z1 *m cr z1 z2 *m bar z1.
      rewrite /cr barN opprK bar_inv opprK E // E // !invM ?unitmx_mul ?unitmx_inv ?U2 ?B1 ?U12 // !invmxK.
      by rewrite !mulmxA mulmxKV.
    rewrite !barM barK bar_inv !mulmxA mulmxK // char_mulC !mulmxA.
    by rewrite mulmxV // mul1mx.
  Qed.
  Lemma congr_uh n (z : 'M[C]_n) (a : 'M[F]_n) : a \in unitmx -> in_upper_half z ->
    in_upper_half (as_complex a *m z *m as_complex a^T).
  Proof.
    move=> U [S P]; split; first by rewrite /csymmetric !trmx_mul -!acT trmxK S mulmxA.
    have -> : im_part (as_complex a *m z *m as_complex a^T) = a *m im_part z *m a^T.
      apply: ac_inj; apply: (can_inj (scalerK (ti_neq0 F))); rewrite -[LHS]/(ti F *: _) -imaginary !barM !ac_bar.
      by rewrite -mulmxBl -mulmxBr imaginary -/(ti F) -scalemxAr -scalemxAl !acM.
    exact: pos_def_congr.
  Qed.
  Lemma trans_uh n (z : 'M[C]_n) (b : 'M[F]_n) : symmetric b -> in_upper_half z -> in_upper_half (z + as_complex b).
  Proof.
    move=> B [S P]; split; first by rewrite /csymmetric linearD /= -acT S B.
    rewrite im_D (_ : im_part (as_complex b) = 0) ?addr0 //.
    by apply/matrixP => i j; rewrite !mxE.
  Qed.
  Lemma inv_uh n (z : 'M[C]_n) : in_upper_half z -> in_upper_half (- invmx z).
  Proof.
    move=> H; have U := im_pos_unit H; case: H => S P.
    have SI : csymmetric (- invmx z) by rewrite /csymmetric linearN /= (sym_inv S).
    split => //; apply: hpos_ac_inv; first exact: im_sym.
    have -> : as_complex (im_part (- invmx z)) = adj (invmx z) *m as_complex (im_part z) *m invmx z.
      apply: (can_inj (scalerK (ti_neq0 F))); rewrite -[LHS]/(ti F *: _) -imaginary -[RHS]/(ti F *: _).
      rewrite [RHS]scalemxAl [X in _ = X *m _]scalemxAr -imaginary (bar_sym SI) (bar_sym S).
      rewrite !adjE barN linearN /= -!adjE opprK adj_inv mulmxBr mulmxBl mulVmx ?adj_unit // mul1mx.
      by rewrite mulmxK // addrC.
    by apply: hpos_congr; [rewrite unitmx_inv | exact: hpos_ac].
  Qed.
End Cr.
