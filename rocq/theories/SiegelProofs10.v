(** Lemmas for the Siegel spaces: Takagi factorisation, projections, checks, sampling. *)
From mathcomp Require Import all_ssreflect all_algebra.
From mathcomp.real_closed Require Import complex.
From Verif Require Import FieldTac SpdModel SpdSpec SpdProofs SpdProofs2 SiegelModel SiegelSpec SiegelProofs SiegelProofs2 SiegelProofs3 SiegelProofs4 SiegelProofs5 SiegelProofs6 SiegelProofs7 SiegelProofs8 SiegelProofs9.
Import GRing.Theory Order.Theory Num.Theory.
Local Open Scope ring_scope.
Local Open Scope complex_scope.
Set Implicit Arguments. Unset Strict Implicit. Unset Printing Implicit Defensive.

Section Takagi.
  Variable F : rcfType.
  Notation C := F[i].
  Implicit Types n : nat.
  Variable eigh : forall n, 'M[F]_n -> 'rV[F]_n * 'M[F]_n.
  Hypothesis EH : eigh_asc_ok eigh.
  Lemma eigh_compound n (z : 'M[C]_n) : csymmetric z ->
    exists e Q, [/\ eigh (to_compound_symmetric z) = (e, Q), ascending e, Q^T *m Q = 1%:M,
      to_compound_symmetric z = Q *m diag_mx e *m Q^T & takagi_eig eigh z = (rsubmx e, uvec Q)].
  Proof.
    move=> S; have [A O E] := EH (compound_sym S).
    exists (eigh (to_compound_symmetric z)).1, (eigh (to_compound_symmetric z)).2; split=> //.
      by case: (eigh _).
    by rewrite /takagi_eig; case: (eigh (to_compound_symmetric z)).
  Qed.
  Lemma takagi_ok n (z : 'M[C]_n) : csymmetric z ->
    let: (d, s) := takagi_eig eigh z in
    [/\ ascending d, forall i, 0 <= d ord0 i, z = bar s *m real_diag d *m adj s,
        char_poly (z *m bar z) = \prod_i ('X - ((d ord0 i ^+ 2)%:C)%:P) &
        (forall i, 0 < d ord0 i) -> unitary s].
  Proof.
    move=> S; have [e [Q [_ A O ME ->]]] := eigh_compound S; split.
    - exact: d_asc A.
    - exact: d_ge0 O ME A.
    - by rewrite adjE; exact: takagi_id O ME A.
    - by apply: char_squares; split=> //; exists Q.
    - exact: s_unitary O ME.
  Qed.
  Lemma takagi_values n (z : 'M[C]_n) eigvalsh : eigvalsh_ok eigvalsh -> csymmetric z ->
    takagi_eigvals eigvalsh z = (takagi_eig eigh z).1.
  Proof.
    move=> EV S; have [e [Q [_ A O ME ->]]] := eigh_compound S; rewrite /takagi_eigvals /=.
    congr rsubmx; apply: (spectrum_unique (EV _ _ (compound_sym S))).
    by split=> //; exists Q.
  Qed.
  Lemma compound_opposite n (z : 'M[C]_n) : csymmetric z -> forall i,
    (eigh (to_compound_symmetric z)).1 ord0 (rev_ord i) = - (eigh (to_compound_symmetric z)).1 ord0 i.
  Proof.
    move=> S i; have [A O E] := EH (compound_sym S); apply: (@compound_pairs _ _ z).
    by split=> //; eexists; split; [exact: O | exact: E].
  Qed.

  (** * projection on the bounded domain *)
  Section Clamp.
    Variables (n : nat) (z : 'M[C]_n) (Q : 'M[F]_(n + n)) (e : 'rV[F]_(n + n)) (c : F) (d' : 'rV[F]_n).
    Hypotheses (S : csymmetric z) (O : Q^T *m Q = 1%:M) (A : ascending e).
    Hypothesis ME : to_compound_symmetric z = Q *m diag_mx e *m Q^T.
    Hypothesis D' : forall i, 0 <= d' ord0 i <= c.
    Hypothesis D0 : forall i, rsubmx e ord0 i = 0 -> d' ord0 i = 0.
    Let s := uvec Q.
    Let d := rsubmx e.
    Definition clamped : 'M[C]_n := bar (uvec Q) *m real_diag d' *m (bar (uvec Q))^T.
    Lemma clamped_sym : csymmetric clamped.
    Proof. by rewrite /csymmetric /clamped !trmx_mul trmxK mulmxA rdE -acT tr_diag_mx. Qed.
    Lemma gram_diag (x y : 'rV[F]_n) : (forall i, d ord0 i = 0 -> x ord0 i = 0) ->
      real_diag x *m (adj s *m s) *m real_diag y = as_complex (diag_mx (\row_i (x ord0 i * y ord0 i))).
    Proof.
      move=> X0; apply/matrixP => i j; rewrite mul_mx_diag [LHS]mxE mul_diag_mx [X in X * _]mxE.
      rewrite [RHS]mxE.
      case: (eqVneq (d ord0 i + d ord0 j) 0) => [Z|Z].
        have di := d_ge0 O ME A i; have dj := d_ge0 O ME A j.
        have di0 : d ord0 i = 0.
          by apply/eqP; rewrite eq_le di andbT -Z ler_addl.
        rewrite ![(\row_k _) _ _]mxE X0 // rmorph0 mul0r mul0r [diag_mx _ i j]mxE mxE X0 // mul0r.
        by case: eqP => _; rewrite ?mulr1n ?mulr0n.
      rewrite (s_orth O ME); last by rewrite lt_def Z addr_ge0 ?(d_ge0 O ME A).
      rewrite ![(\row_k _) _ _]mxE [diag_mx _ i j]mxE ![(\row_k _) _ _]mxE.
      case: eqP => [->|_]; first by rewrite mulr1 mulr1n -rmorphM.
      by rewrite mulr0 mul0r mulr0n.
    Qed.
    Lemma bar_rd (x : 'rV[F]_n) : bar (real_diag x) = real_diag x.
    Proof. by rewrite rdE ac_bar. Qed.
    Lemma adj_rd (x : 'rV[F]_n) : adj (real_diag x) = real_diag x.
    Proof. by rewrite rdE ac_adj tr_diag_mx. Qed.
    Lemma sq_row (x : 'rV[F]_n) : as_complex (diag_mx (\row_i (x ord0 i * x ord0 i))) = real_diag (\row_i (x ord0 i ^+ 2)).
    Proof. by rewrite rdE; congr (as_complex (diag_mx _)); apply/rowP => i; rewrite !mxE expr2. Qed.
    Lemma clamped_sq : adj clamped *m clamped = s *m real_diag (\row_i (d' ord0 i ^+ 2)) *m adj s.
    Proof.
      rewrite /clamped -/s -adjE.
      have G : real_diag d' *m (adj (bar s) *m bar s) *m real_diag d' = real_diag (\row_i (d' ord0 i ^+ 2)).
        have E : bar (real_diag d' *m (adj s *m s) *m real_diag d') = bar (real_diag (\row_i (d' ord0 i ^+ 2))).
          by rewrite -sq_row -(gram_diag d' D0).
        by rewrite bar_rd !barM bar_rd in E; rewrite -E !adjE bar_tr.
      rewrite !adjM adjK adj_rd -G; move: (bar s) => bs.
      by rewrite !mulmxA.
    Qed.
    Let X : 'rV[F]_n := \row_i (if (0 < d ord0 i)%R then 1 else 0).
    Let P := s *m real_diag X *m adj s.
    Lemma P_idem : P *m P = P.
    Proof.
      have X0 i : d ord0 i = 0 -> X ord0 i = 0 by move=> E; rewrite mxE E ltxx.
      have G := gram_diag X X0.
      have XX : as_complex (diag_mx (\row_i (X ord0 i * X ord0 i))) = real_diag X.
        rewrite rdE; congr (as_complex (diag_mx _)); apply/rowP => i; rewrite !mxE.
        by case: (0 < _); rewrite ?mulr1 ?mulr0.
      rewrite XX in G; rewrite /P; move: (real_diag X) G => x G.
      by rewrite -[in RHS]G !mulmxA.
    Qed.
    Lemma P_adj : adj P = P.
    Proof. by rewrite /P !adjM adjK adj_rd mulmxA. Qed.
    Lemma hform_sq (m : 'M[C]_n) v : 0 <= hform (adj m *m m) v.
    Proof.
      have -> : adj m *m m = adj m *m 1%:M *m m by rewrite mulmx1.
      rewrite hform_congr -ac1 hform_ac; last by case: (pos_def1 F n).
      rewrite lecR addr_ge0 //; by case: (pos_def_semi (pos_def1 F n)) => _; apply.
    Qed.
    Lemma hform_rd (x : 'rV[F]_n) v : (forall i, 0 <= x ord0 i) -> 0 <= hform (real_diag x) v.
    Proof.
      move=> x0; have [Sx Px] := diag_semi x0; rewrite rdE hform_ac // lecR addr_ge0 //; exact: Px.
    Qed.
    Lemma clamped_bound v : 0 <= hform ((c ^+ 2)%:C%:M - adj clamped *m clamped) v.
    Proof.
      have -> : (c ^+ 2)%:C%:M - adj clamped *m clamped = (c ^+ 2)%:C *: (adj (1%:M - P) *m (1%:M - P)) +
        adj (adj s) *m real_diag (\row_i (c ^+ 2 * X ord0 i - d' ord0 i ^+ 2)) *m adj s.
        rewrite clamped_sq adjB adj1 P_adj mulmxBr mulmx1 mulmxBl mul1mx P_idem subrr subr0 adjK.
        rewrite scalerBr scalemx1 -addrA; congr (_ + _).
        have -> : real_diag (\row_i (c ^+ 2 * X ord0 i - d' ord0 i ^+ 2)) =
                  (c ^+ 2)%:C *: real_diag X - real_diag (\row_i (d' ord0 i ^+ 2)).
          rewrite !rdE -acZ -acB; congr as_complex; apply/matrixP => i j; rewrite !mxE.
          by case: (i == j); rewrite ?mulr1n ?mulr0n ?mulr0 ?subr0.
        rewrite mulmxBr mulmxBl -scalemxAr -scalemxAl -/P.
        by rewrite addrA addNr add0r.
      rewrite hformD hformZ addr_ge0 // ?mulr_ge0 ?lecR ?sqr_ge0 ?hform_sq //.
      rewrite hform_congr; apply: hform_rd => i; rewrite !mxE.
      case/andP: (D' i) => d0 dc; case: ltrP => H; last first.
        rewrite D0 ?expr0n ?mulr0 ?subr0 //; apply/eqP; rewrite eq_le (d_ge0 O ME A) andbT.
        by move: H; rewrite mxE.
      by rewrite mulr1 subr_ge0 ler_pexpn2r ?nnegrE // (le_trans d0).
    Qed.
    Hypothesis c0 : 0 <= c.
    Hypothesis c1 : c < 1.
    Lemma clamped_bd : in_bounded_domain clamped.
    Proof.
      split; first exact: clamped_sym.
      move=> v v0; rewrite -/(hform _ v) (bar_sym clamped_sym).
      have -> : 1%:M - adj clamped *m clamped = (1 - c ^+ 2)%:C%:M + ((c ^+ 2)%:C%:M - adj clamped *m clamped).
        by rewrite addrA -raddfD -rmorphD /= subrK.
      rewrite hformD; apply: ltr_paddr; first exact: clamped_bound.
      rewrite -scalemx1 hformZ; apply: mulr_gt0; last by rewrite -ac1; apply: hpos_ac => //; exact: pos_def1.
      by rewrite ltcR subr_gt0 expr_lt1.
    Qed.
  End Clamp.
End Takagi.
