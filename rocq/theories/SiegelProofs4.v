(** Lemmas for the Siegel spaces: distances. *)
From mathcomp Require Import all_ssreflect all_algebra.
From mathcomp.real_closed Require Import complex.
From Verif Require Import FieldTac SpdModel SpdSpec SpdProofs SpdProofs2 SiegelModel SiegelSpec SiegelProofs SiegelProofs2 SiegelProofs3.
Import GRing.Theory Order.Theory Num.Theory.
Local Open Scope ring_scope.
Local Open Scope complex_scope.
Set Implicit Arguments. Unset Strict Implicit. Unset Printing Implicit Defensive.

Section Pairs.
  Variable F : rcfType.
  Notation C := F[i].
  Lemma spectrum_rev n (x : 'M[F]_n) e : spectrum x e -> spectrum (- x) (\row_i - e ord0 (rev_ord i)).
  Proof.
    move=> [A [v [V E]]]; split.
      move=> i j ij; rewrite !mxE ler_opp2; apply: A => /=.
      by apply: leq_sub2l.
    exists (\matrix_(i, j) v i (rev_ord j)); split.
      apply/matrixP => i j; move/matrixP: V => /(_ (rev_ord i) (rev_ord j)).
      rewrite !mxE (inj_eq rev_ord_inj) => <-; apply: eq_bigr => k _; by rewrite !mxE.
    apply/matrixP => i j; rewrite E !mxE (reindex_inj rev_ord_inj) /= -sumrN.
    apply: eq_bigr => k _; rewrite !mul_mx_diag !mxE -mulNr; congr (_ * _).
    by rewrite mulrN.
  Qed.
  Lemma spectrum_orth n (x j : 'M[F]_n) e : j^T *m j = 1%:M -> spectrum x e -> spectrum (j *m x *m j^T) e.
  Proof.
    move=> J [A [v [V E]]]; split => //; exists (j *m v); split.
      by rewrite trmx_mul -mulmxA [j^T *m _]mulmxA J mul1mx.
    by rewrite E trmx_mul !mulmxA.
  Qed.
  Lemma compound_pairs n (z : 'M[C]_n) e : spectrum (to_compound_symmetric z) e ->
    forall i, e ord0 (rev_ord i) = - e ord0 i.
  Proof.
    move=> H i; have H1 := spectrum_rev H; have H2 := spectrum_orth (Jm_orth F n) H.
    rewrite Jm_anti mulNmx -mulmxA (JJ' (Jm_orth F n)) mulmx1 in H2.
    by move/rowP: (spectrum_unique H2 H1) => /(_ i); rewrite mxE => ->; rewrite opprK.
  Qed.
  Lemma rev_lshift n (k : 'I_n) : rev_ord (rshift n k) = lshift n (rev_ord k) :> 'I_(n + n).
  Proof. by apply: val_inj; rewrite /= -addnS subnDl. Qed.
  Lemma rev_rshift n (k : 'I_n) : rev_ord (lshift n k) = rshift n (rev_ord k) :> 'I_(n + n).
  Proof. by apply: val_inj; rewrite /= addnBA. Qed.
  Lemma compX2_inj (K : fieldType) (p q : {poly K}) : p \Po 'X^2 = q \Po 'X^2 -> p = q.
  Proof.
    move=> E; apply/eqP; rewrite -subr_eq0 -(@comp_poly_eq0 _ _ 'X^2) ?size_polyXn //.
    by rewrite comp_polyB E subrr.
  Qed.
  (** the eigenvalues of w * bar w are the squares of the upper half of the spectrum of
      the compound matrix *)
  Lemma char_squares n (w : 'M[C]_n) e : spectrum (to_compound_symmetric w) e ->
    char_poly (w *m bar w) = \prod_i ('X - ((rsubmx e ord0 i ^+ 2)%:C)%:P).
  Proof.
    move=> H; apply: compX2_inj; rewrite -char_compound (char_spectrum H) big_split_ord /=.
    rewrite (reindex_inj rev_ord_inj) /= -big_split /= !rmorph_prod /=.
    apply: eq_bigr => i _.
    rewrite -rev_lshift (compound_pairs H) [rsubmx e ord0 i]mxE.
    move: (e ord0 _) => t.
    have -> : ('X - (- t)%:P) * ('X - t%:P) = 'X^2 - (t ^+ 2)%:P :> {poly F}.
      by rewrite polyCN opprK rmorphX /= subr_sqr mulrC.
    by rewrite rmorphB /= map_polyXn map_polyC /= comp_polyB comp_polyX comp_polyC.
  Qed.
End Pairs.

Section Cross.
  Variable F : rcfType.
  Notation C := F[i].
  Implicit Types n : nat.
  Definition cr n (z1 z2 : 'M[C]_n) : 'M[C]_n := (z2 - z1) *m invmx (z2 - bar z1).
  Lemma bar_uh n (z : 'M[C]_n) : im_part (bar z) = - im_part z.
  Proof. by apply/matrixP => i j; rewrite !mxE; case: (z i j). Qed.
  Lemma im_N n m (a : 'M[C]_(n, m)) : im_part (- a) = - im_part a.
  Proof. by apply/matrixP => i j; rewrite !mxE; case: (a i j). Qed.
  Lemma uh_diff n (z1 z2 : 'M[C]_n) : in_upper_half z1 -> in_upper_half z2 -> in_upper_half (z2 - bar z1).
  Proof.
    move=> [S1 P1] [S2 P2]; split; first by rewrite /csymmetric linearB /= -bar_tr S1 S2.
    by rewrite im_D im_N bar_uh opprK; apply: pos_defD => //; exact: pos_def_semi.
  Qed.
  Lemma diff_unit n (z1 z2 : 'M[C]_n) : in_upper_half z1 -> in_upper_half z2 -> z2 - bar z1 \in unitmx.
  Proof. by move=> H1 H2; apply: im_pos_unit; exact: uh_diff. Qed.
  Lemma invM n (a b : 'M[C]_n) : a \in unitmx -> b \in unitmx -> invmx (a *m b) = invmx b *m invmx a.
  Proof.
    move=> A B; have U : a *m b \in unitmx by rewrite unitmx_mul A.
    by apply: (can_inj (mulKmx U)); rewrite mulmxV // mulmxA mulmxK // mulmxV.
  Qed.
  Variable eighU : forall n, 'M[F]_n -> 'rV[F]_n * 'M[F]_n.
  Hypothesis EU : eigh_ok eighU.
  Lemma crossratio_E n (z1 z2 : 'M[C]_n) : in_upper_half z1 -> in_upper_half z2 ->
    exists (w : 'M[C]_n) (s : 'M[F]_n), [/\ crossratio eighU z1 z2 = Ok w, in_bounded_domain w, s \in unitmx &
      w = as_complex s *m cr z1 z2 *m invmx (as_complex s)].
  Proof.
    move=> H1 H2; have U12 := diff_unit H1 H2; case: (H1) => S1 P1; case: (H2) => S2 P2.
    rewrite /crossratio real_of_E imag_of_E.
    have [i' [s' [_ [R' ->]]]] := sqrtm2 EU P1.
    set z3 := _ *m _ *m _.
    have iY : i' *m im_part z1 *m i' = 1%:M.
      by rewrite -(r_ss R') !mulmxA (r_is R') mul1mx (r_si R').
    have iU : as_complex i' \in unitmx by rewrite ac_unit (r_iU R').
    have M3 : z3 - iI F n = as_complex i' *m (z2 - z1) *m as_complex i'.
      rewrite iIE -ac1 -iY !acM /z3 [z1 in RHS]decomp !mulmxBr !mulmxBl mulmxDr mulmxDl -scalemxAr -scalemxAl.
      by rewrite opprD addrA.
    have P3 : z3 + iI F n = as_complex i' *m (z2 - bar z1) *m as_complex i'.
      rewrite iIE -ac1 -iY !acM /z3 bar_decomp !mulmxBr !mulmxBl -scalemxAr -scalemxAl.
      by rewrite opprB addrCA addrC.
    have UH3 : in_upper_half z3.
      split; first by rewrite /csymmetric /z3 !trmx_mul linearB /= -!acT (r_iT R') S2 (re_sym S1) mulmxA.
      have -> : im_part z3 = i' *m im_part z2 *m i'.
        apply: ac_inj; apply: (can_inj (scalerK (ti_neq0 F))); rewrite -[LHS]/(ti F *: _) -imaginary /z3 !barM barB !ac_bar.
        rewrite -mulmxBl -mulmxBr opprB addrA addrNK imaginary -/(ti F) -scalemxAr -scalemxAl !acM //.
      exact: r_pos R' _ P2.
    exists (icay z3), i'; split => //.
    - by rewrite icayE (uh_plus_unit UH3).
    - exact: icay_bd.
    - by rewrite (r_iU R').
    - rewrite /icay M3 P3 invM ?invM ?unitmx_mul ?iU ?U12 // /cr !mulmxA.
      by rewrite -[_ *m as_complex i' *m invmx _]mulmxA mulmxV // mulmx1.
  Qed.
End Cross.
