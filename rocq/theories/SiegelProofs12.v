(** Lemmas for the Siegel spaces: eigenvalues of Hermitian matrices and point checks. *)
From mathcomp Require Import all_ssreflect all_algebra.
From mathcomp.real_closed Require Import complex.
From Verif Require Import FieldTac SpdModel SpdSpec SpdProofs Spectral SiegelModel SiegelSpec SiegelProofs SiegelProofs2 SiegelProofs3 SiegelProofs11.
Import GRing.Theory Order.Theory Num.Theory.
Local Open Scope ring_scope.
Local Open Scope complex_scope.
Set Implicit Arguments. Unset Strict Implicit. Unset Printing Implicit Defensive.

Section Herm.
  Variable F : rcfType.
  Notation C := F[i].
  Implicit Types n : nat.
  Add Field CKf12 : (fth (CK F)).
  Add Field Ff12 : (fth F).

  Definition real2 n (h : 'M[C]_n) : 'M[F]_(n + n) :=
    block_mx (re_part h) (- im_part h) (im_part h) (re_part h).
  Lemma herm_re n (h : 'M[C]_n) : adj h = h -> (re_part h)^T = re_part h.
  Proof. by move=> H; rewrite -{2}H; apply/matrixP => i j; rewrite !mxE; case: (h j i). Qed.
  Lemma herm_im n (h : 'M[C]_n) : adj h = h -> (im_part h)^T = - im_part h.
  Proof. by move=> H; rewrite -{2}H; apply/matrixP => i j; rewrite !mxE; case: (h j i) => ? ? /=; rewrite opprK. Qed.
  Lemma real2_sym n (h : 'M[C]_n) : adj h = h -> (real2 h)^T = real2 h.
  Proof. by move=> H; rewrite /real2 tr_block_mx linearN /= herm_re // herm_im // opprK. Qed.
  Lemma T1 (m : 'M[F]_1) : m^T = m.
  Proof. by rewrite [m]mx11_scalar tr_scalar_mx. Qed.
  Lemma re_mul n m k (a : 'M[C]_(n, m)) (b : 'M[C]_(m, k)) :
    re_part (a *m b) = re_part a *m re_part b - im_part a *m im_part b.
  Proof.
    apply/matrixP => i j; rewrite !mxE raddf_sum -sumrB; apply: eq_bigr => l _; rewrite !mxE.
    by case: (a i l) (b l j) => ? ? [].
  Qed.
  Lemma im_mul n m k (a : 'M[C]_(n, m)) (b : 'M[C]_(m, k)) :
    im_part (a *m b) = re_part a *m im_part b + im_part a *m re_part b.
  Proof.
    apply/matrixP => i j; rewrite !mxE raddf_sum -big_split; apply: eq_bigr => l _; rewrite !mxE.
    by case: (a i l) (b l j) => ? ? [] ? ? /=; rewrite addrC.
  Qed.
  Lemma re_adj n m (a : 'M[C]_(n, m)) : re_part (adj a) = (re_part a)^T.
  Proof. by apply/matrixP => i j; rewrite !mxE; case: (a j i). Qed.
  Lemma im_adj n m (a : 'M[C]_(n, m)) : im_part (adj a) = - (im_part a)^T.
  Proof. by apply/matrixP => i j; rewrite !mxE; case: (a j i). Qed.
  Lemma hform_real2 n (h : 'M[C]_n) v : adj h = h ->
    hform h v = (quad (real2 h) (row_mx (re_part v)^T (im_part v)^T))%:C.
  Proof.
    move=> H; rewrite /hform quadE /real2 tr_row_mx !trmxK mul_row_block mul_row_col.
    have T := herm_re H; have T' := herm_im H.
    have E1 : (adj v *m h *m v) = adj (adj v *m h *m v) by rewrite !adjM adjK H mulmxA.
    have I0 : complex.Im ((adj v *m h *m v) ord0 ord0) = 0.
      move/matrixP/(_ ord0 ord0): E1; rewrite [RHS]mxE; case: (_ ord0 ord0) => a b /= [] E.
      have : b + b = 0 by rewrite {1}E addNr.
      by move/eqP; rewrite -mulr2n mulrn_eq0 /= => /eqP.
    have -> : (adj v *m h *m v) ord0 ord0 = (re_part (adj v *m h *m v) ord0 ord0)%:C.
      by rewrite [in RHS]mxE; move: I0; case: (_ ord0 ord0) => a b /= ->.
    congr (_%:C); rewrite !re_mul !im_mul re_adj im_adj.
    move: (re_part v) (im_part v) (re_part h) (im_part h) => p q a b.
    rewrite !mulmxBl !mulmxDl !mulNmx !mulmxN !mulNmx.
    move: (p^T *m a *m p) (q^T *m b *m p) (p^T *m b *m q) (q^T *m a *m q) => a1 a2 a3 a4.
    by rewrite !mxE opprB opprK; f_goal F; ring.
  Qed.
  Lemma root_prod n (e : 'rV[F]_n) (t : C) : root (\prod_i ('X - ((e ord0 i)%:C)%:P)) t -> exists i, t = (e ord0 i)%:C.
  Proof.
    rewrite rootE horner_prod => /eqP/eqP; rewrite prodf_seq_eq0 => /hasP[i _ /=].
    by rewrite hornerXsubC subr_eq0 => /eqP ->; exists i.
  Qed.
  Lemma root_prod_in n (e : 'rV[F]_n) i : root (\prod_i ('X - ((e ord0 i)%:C)%:P)) (e ord0 i)%:C.
  Proof.
    rewrite rootE horner_prod; apply/eqP/eqP; rewrite prodf_seq_eq0; apply/hasP.
    by exists i; rewrite ?mem_index_enum //= hornerXsubC subrr.
  Qed.
  Lemma eigen_root n (h : 'M[C]_n) (t : C) (v : 'cV[C]_n) : v != 0 -> h *m v = t *: v -> root (char_poly h) t.
  Proof.
    move=> v0 E; rewrite -char_tr -eigenvalue_root_char; apply/eigenvalueP; exists v^T.
      by rewrite -trmx_mul E linearZ.
    by rewrite -(inj_eq trmx_inj) trmxK trmx0.
  Qed.
  Lemma root_eigen n (h : 'M[C]_n) (t : C) : root (char_poly h) t -> exists2 v : 'cV[C]_n, v != 0 & h *m v = t *: v.
  Proof.
    rewrite -char_tr -eigenvalue_root_char => /eigenvalueP[v E v0]; exists v^T.
      by rewrite -(inj_eq trmx_inj) trmxK trmx0.
    by rewrite -[h]trmxK -trmx_mul E linearZ.
  Qed.
  Lemma hpos_eigen n (h : 'M[C]_n) (t : F) : hpos_def h -> root (char_poly h) t%:C -> 0 < t.
  Proof.
    move=> H /root_eigen[v v0 E]; have := H v v0; rewrite -mulmxA E -scalemxAr mxE.
    have : 0 < hform 1%:M v by rewrite -ac1; apply: (hpos_ac (pos_def1 F n) v0).
    rewrite /hform mulmx1; move: (_ ord0 ord0) => w w0.
    by rewrite pmulr_lgt0 // ltcR.
  Qed.
  Lemma eigen_hpos n (h : 'M[C]_n) (e : 'rV[F]_n) : adj h = h ->
    char_poly h = \prod_i ('X - ((e ord0 i)%:C)%:P) -> (forall i, 0 < e ord0 i) -> hpos_def h.
  Proof.
    move=> H CP P; have [f [V [O E]]] := spectral (real2_sym H).
    have Pos : pos_def (real2 h).
      rewrite E; apply: diag_pos_conj => // k.
      pose w := col k V.
      have W : real2 h *m w = f ord0 k *: w.
        rewrite E /w colE -!mulmxA (mulmxA V^T) O mul1mx.
        have -> : diag_mx f *m (delta_mx k ord0 : 'cV[F]_(n + n)) = f ord0 k *: delta_mx k ord0.
          apply/colP => a; rewrite mul_diag_mx !mxE.
          by case: (a =P k) => [->|_] //=; rewrite !mulr0.
        by rewrite -scalemxAr.
      have w0 : w != 0.
        apply/eqP => W0; have : (V^T *m w) k ord0 = 0 by rewrite W0 mulmx0 mxE.
        by rewrite /w colE mulmxA O mul1mx mxE !eqxx => /eqP; rewrite oner_eq0.
      clearbody w; move: W; rewrite -[w]vsubmxK /real2 mul_block_col scale_col_mx => /eq_col_mx[] W1 W2.
      pose v : 'cV[C]_n := to_complex (usubmx w) (dsubmx w).
      have vr : re_part v = usubmx w by rewrite re_to.
      have vi : im_part v = dsubmx w by rewrite im_to.
      have V0 : v != 0.
        apply: contra w0 => /eqP v0; rewrite -[w]vsubmxK -vr -vi v0.
        by apply/eqP/matrixP => a b; rewrite !mxE; case: splitP => ? _; rewrite !mxE.
      have : h *m v = (f ord0 k)%:C *: v.
        rewrite [LHS]decomp re_mul im_mul vr vi [in RHS](decomp v) vr vi scalerDr scalerA mulrC -scalerA -!acZ -W1 -W2.
        by rewrite mulNmx [im_part h *m usubmx w + _]addrC.
      move/(eigen_root V0); rewrite CP => RT; have [j] := root_prod RT; move/eqP; rewrite eq_complex /= => /andP[/eqP -> _].
      exact: P.
    move=> v v0; rewrite -/(hform h v) (hform_real2 v H) ltcR; apply: (proj2 Pos) => R0.
    move/negP: v0; apply; apply/eqP.
    have : row_mx (re_part v)^T (im_part v)^T = row_mx 0 0 by rewrite R0 row_mx0.
    by move/eq_row_mx=> [/(canRL (@trmxK _ _ _)) A /(canRL (@trmxK _ _ _)) B]; apply: re_im_0; rewrite ?A ?B trmx0.
  Qed.

  (** * point checks *)
  Lemma allclose_refl n (atol rtol : F) (x : 'M[F]_n) : 0 <= atol -> 0 <= rtol -> mx_allclose atol rtol x x.
  Proof.
    move=> a0 r0; apply/forallP => i; apply/forallP => j.
    by rewrite subrr normr0 addr_ge0 ?mulr_ge0.
  Qed.
  Lemma csym_check n (atol rtol : F) (z : 'M[C]_n) : 0 <= atol -> 0 <= rtol -> csymmetric z -> is_complex_symmetric atol rtol z.
  Proof.
    move=> a0 r0 S; rewrite /is_complex_symmetric.
    have -> : (real_of z)^T = real_of z by exact: re_sym S.
    have -> : (imag_of z)^T = imag_of z by exact: im_sym S.
    by rewrite !allclose_refl.
  Qed.
  Lemma csym_check0 n (z : 'M[C]_n) : is_complex_symmetric 0 0 z <-> csymmetric z.
  Proof.
    split=> [/andP[A B]|S]; last exact: csym_check.
    have K (x : 'M[F]_n) : mx_allclose 0 0 x x^T -> x^T = x.
      move/forallP => H; apply/matrixP => i j; move/forallP: (H i) => /(_ j).
      by rewrite mul0r addr0 normr_le0 subr_eq0 => /eqP.
    rewrite /csymmetric (decomp z) linearD linearZ /= -!acT.
    by rewrite (K _ A) (K _ B).
  Qed.
  Lemma spectrum_pos n (y : 'M[F]_n) e : spectrum y e -> (forall i, 0 < e ord0 i) <-> pos_def y.
  Proof.
    move=> [_ [v [O ->]]]; split; [exact: diag_pos_conj | exact: eig_pos].
  Qed.
  Lemma uh_check n (eigvalsh : forall n, 'M[F]_n -> 'rV[F]_n) atol rtol (z : 'M[C]_n) : eigvalsh_ok eigvalsh ->
    0 <= atol -> 0 <= rtol -> csymmetric z -> uh_check_point eigvalsh atol rtol z <-> in_upper_half z.
  Proof.
    move=> EV a0 r0 S; rewrite /uh_check_point csym_check //=.
    have K := spectrum_pos (EV _ _ (im_sym S)).
    split=> [/forallP H|[_ H]]; first by split=> //; apply/K.
    by apply/forallP; apply/K.
  Qed.
  Lemma uh_check0 n (eigvalsh : forall n, 'M[F]_n -> 'rV[F]_n) (z : 'M[C]_n) : eigvalsh_ok eigvalsh ->
    uh_check_point eigvalsh 0 0 z <-> in_upper_half z.
  Proof.
    move=> EV; case: (boolP (is_complex_symmetric 0 0 z)) => [/csym_check0 S|N]; first exact: uh_check.
    rewrite /uh_check_point N; split=> // -[S _]; move/negP: N; case; exact/csym_check0.
  Qed.
  Lemma bd_herm n (z : 'M[C]_n) : csymmetric z -> adj (1%:M - bar z *m z) = 1%:M - bar z *m z.
  Proof. by move=> S; rewrite adjB adj1 adjM (bar_sym S) adjK. Qed.
  Lemma bd_check n (eigvalsh_c : forall n, 'M[C]_n -> 'rV[F]_n) atol rtol (z : 'M[C]_n) : eigvalsh_c_ok eigvalsh_c ->
    0 <= atol -> 0 <= rtol -> csymmetric z -> bd_check_point eigvalsh_c atol rtol z <-> in_bounded_domain z.
  Proof.
    move=> EV a0 r0 S; rewrite /bd_check_point csym_check //=.
    have [_ CP] := EV _ _ (bd_herm S).
    split=> [/forallP H|[_ H]].
      split=> //; exact: eigen_hpos (bd_herm S) CP H.
    apply/forallP => i; apply: (hpos_eigen H); rewrite CP; exact: root_prod_in.
  Qed.
  Lemma bd_check0 n (eigvalsh_c : forall n, 'M[C]_n -> 'rV[F]_n) (z : 'M[C]_n) : eigvalsh_c_ok eigvalsh_c ->
    bd_check_point eigvalsh_c 0 0 z <-> in_bounded_domain z.
  Proof.
    move=> EV; case: (boolP (is_complex_symmetric 0 0 z)) => [/csym_check0 S|N]; first exact: bd_check.
    rewrite /bd_check_point N; split=> // -[S _]; move/negP: N; case; exact/csym_check0.
  Qed.
End Herm.
