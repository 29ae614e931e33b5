(** Lemmas for the Siegel spaces: projections, point checks and random points. *)
From mathcomp Require Import all_ssreflect all_algebra.
From mathcomp.real_closed Require Import complex.
From Verif Require Import FieldTac SpdModel SpdSpec SpdProofs SpdProofs2 SiegelModel SiegelSpec SiegelProofs SiegelProofs2 SiegelProofs3 SiegelProofs4 SiegelProofs5 SiegelProofs6 SiegelProofs7 SiegelProofs8 SiegelProofs9 SiegelProofs10.
Import GRing.Theory Order.Theory Num.Theory.
Local Open Scope ring_scope.
Local Open Scope complex_scope.
Set Implicit Arguments. Unset Strict Implicit. Unset Printing Implicit Defensive.

Section Proj.
  Variable F : rcfType.
  Notation C := F[i].
  Implicit Types n : nat.
  Variable eigh : forall n, 'M[F]_n -> 'rV[F]_n * 'M[F]_n.
  Hypothesis EH : eigh_asc_ok eigh.
  Variable p : precision.
  Notation eps := (EPS F p).

  Lemma c_ge0 : 0 <= 1 - eps. Proof. by rewrite subr_ge0 ltW // EPS_lt1. Qed.
  Lemma c_lt1 : 1 - eps < 1. Proof. by rewrite gtr_addl oppr_lt0 EPS_gt0. Qed.
  Lemma bd_projx_E n (z : 'M[C]_n) : exists e Q,
    [/\ ascending e, Q^T *m Q = 1%:M, to_compound_symmetric (csym z) = Q *m diag_mx e *m Q^T &
        bd_projx eigh p z = clamped Q (map_mx (fun t => Num.min t (1 - eps)) (rsubmx e))].
  Proof.
    have [e [Q [_ A O ME T]]] := eigh_compound EH (csym_sym z); exists e, Q; split=> //.
    rewrite /bd_projx /siegel_projx T; case: forallP => H; last by rewrite /clamped rdE.
    have -> : map_mx (fun t => Num.min t (1 - eps)) (rsubmx e) = rsubmx e.
      by apply/rowP => i; rewrite [LHS]mxE; apply/min_idPl; rewrite ltW.
    exact: takagi_id O ME A.
  Qed.
  Lemma hform1_col n (z : 'M[C]_n) e Q : Q^T *m Q = 1%:M -> to_compound_symmetric z = Q *m diag_mx e *m Q^T ->
    forall i, hform 1%:M (col i (uvec Q)) = 1.
  Proof.
    move=> O ME i; rewrite /hform mulmx1 -(s_diag O i) !mxE; apply: eq_bigr => k _.
    by rewrite !mxE.
  Qed.
  Section Lim.
    Variables (n : nat) (z : 'M[C]_n) (e : 'rV[F]_(n + n)) (Q : 'M[F]_(n + n)).
    Hypotheses (A : ascending e) (O : Q^T *m Q = 1%:M) (ME : to_compound_symmetric z = Q *m diag_mx e *m Q^T).
    Let d' := map_mx (fun t => Num.min t (1 - eps)) (rsubmx e).
    Lemma lim_range i : 0 <= d' ord0 i <= 1 - eps.
    Proof. by rewrite mxE le_minr c_ge0 (d_ge0 O ME A) le_minl lexx orbT. Qed.
    Lemma lim_0 i : rsubmx e ord0 i = 0 -> d' ord0 i = 0.
    Proof. by move=> H; rewrite [LHS]mxE H; apply/min_idPl; exact: c_ge0. Qed.
    Lemma lim_id : csymmetric z -> hpos_semidef (((1 - eps) ^+ 2)%:C%:M - bar z *m z) -> d' = rsubmx e.
    Proof.
      move=> S H; apply/rowP => i; rewrite [LHS]mxE; apply/min_idPl.
      have := H (col i (uvec Q)); rewrite -/(hform _ _) (bar_sym S).
      have -> : ((1 - eps) ^+ 2)%:C%:M - adj z *m z = ((1 - eps) ^+ 2 - 1)%:C *: 1%:M + (1%:M - adj z *m z).
        by rewrite scalemx1 addrA -raddfD -[in X in _ + X]/((1 : F)%:C) -rmorphD subrK.
      rewrite hformD hformZ (hform1_col O ME) mulr1 (col_form O ME) -[in X in _ + (X - _)]/((1 : F)%:C) -rmorphB -rmorphD.
      rewrite lecR addrA subrK subr_ge0 => K.
      by rewrite -(ler_pexpn2r (n := 2)) ?nnegrE ?c_ge0 ?(d_ge0 O ME A).
    Qed.
  End Lim.
  Lemma bd_projx_in n (z : 'M[C]_n) : in_bounded_domain (bd_projx eigh p z).
  Proof.
    have [e [Q [A O ME ->]]] := bd_projx_E z.
    exact (clamped_bd O A ME (lim_range A O ME) (@lim_0 _ e) c_ge0 c_lt1).
  Qed.
  Lemma bd_projx_bound n (z : 'M[C]_n) : let w := bd_projx eigh p z in
    hpos_semidef (((1 - eps) ^+ 2)%:C%:M - bar w *m w).
  Proof.
    move=> w; rewrite {}/w; have [e [Q [A O ME ->]]] := bd_projx_E z; move=> v.
    rewrite (bar_sym (clamped_sym _ _)).
    exact (clamped_bound O A ME (lim_range A O ME) (@lim_0 _ e) v).
  Qed.
  Lemma bd_projx_fix n (z : 'M[C]_n) :
    bd_projx eigh p z = z <-> csymmetric z /\ hpos_semidef (((1 - eps) ^+ 2)%:C%:M - bar z *m z).
  Proof.
    split=> [H|[S H]].
      by rewrite -H; split; [case: (bd_projx_in z) | exact: bd_projx_bound].
    have [e [Q [A O ME ->]]] := bd_projx_E z; rewrite (csymE S) in ME.
    by rewrite /clamped (lim_id A O ME S H) -(takagi_id O ME A).
  Qed.
  Lemma bd_projx_idem n (z : 'M[C]_n) : bd_projx eigh p (bd_projx eigh p z) = bd_projx eigh p z.
  Proof. by apply/bd_projx_fix; split; [case: (bd_projx_in z) | exact: bd_projx_bound]. Qed.

  (** * the upper half space *)
  Lemma pcp_E n (y : 'M[F]_n) : symmetric y -> exists (e : 'rV[F]_n) (v : 'M[F]_n),
    [/\ v^T *m v = 1%:M, y = v *m diag_mx e *m v^T &
        positive_conjugate_projection eigh p y = v *m diag_mx (map_mx (Num.max eps) e) *m v^T].
  Proof.
    move=> S; have [_ O E] := EH S; exists (eigh y).1, (eigh y).2; split=> //.
    rewrite /positive_conjugate_projection; move: O E; case: (eigh y) => e v /= O E.
    case: forallP => // H; rewrite {1}E; congr (_ *m diag_mx _ *m _); apply/rowP => i.
    move: (H i); rewrite !mxE => /= K.
    by move: K; rewrite lt_maxr ltxx /= => K; rewrite (max_idPr (ltW K)).
  Qed.
  Lemma diag_sub n (v : 'M[F]_n) e : v^T *m v = 1%:M ->
    v *m diag_mx e *m v^T - eps%:M = v *m diag_mx (\row_i (e ord0 i - eps)) *m v^T.
  Proof.
    move=> O; have O' := mulmx1C O.
    have -> : diag_mx (\row_i (e ord0 i - eps)) = diag_mx e - eps%:M.
      by apply/matrixP => i j; rewrite !mxE; case: (i == j); rewrite ?mulr1n ?mulr0n ?subr0.
    rewrite mulmxBr mulmxBl; congr (_ - _).
    by rewrite mul_mx_scalar -scalemxAl O' scalemx1.
  Qed.
  Lemma eig_semi n (v : 'M[F]_n) e : v^T *m v = 1%:M -> pos_semidef (v *m diag_mx e *m v^T) -> forall i, 0 <= e ord0 i.
  Proof.
    move=> V [_ P] i. have := P (delta_mx ord0 i *m v^T). rewrite quad_congr -mulmxA V mulmx1 quad_diag.
    rewrite (bigD1 i) //= big1 ?addr0; last by move=> j ji; rewrite mxE (negbTE ji) andbF expr0n mulr0.
    by rewrite mxE !eqxx expr1n mulr1.
  Qed.
  Lemma pcp_pos n (y : 'M[F]_n) : symmetric y -> pos_def (positive_conjugate_projection eigh p y).
  Proof.
    move=> S; have [e [v [O E ->]]] := pcp_E S; apply: diag_pos_conj => // i.
    by rewrite mxE lt_maxr EPS_gt0.
  Qed.
  Lemma pcp_bound n (y : 'M[F]_n) : symmetric y -> pos_semidef (positive_conjugate_projection eigh p y - eps%:M).
  Proof.
    move=> S; have [e [v [O E ->]]] := pcp_E S; rewrite diag_sub //; apply: pos_semidef_congr; apply: diag_semi => i.
    by rewrite !mxE subr_ge0 le_maxr lexx.
  Qed.
  Lemma pcp_fix n (y : 'M[F]_n) : symmetric y ->
    positive_conjugate_projection eigh p y = y <-> pos_semidef (y - eps%:M).
  Proof.
    move=> S; split=> [<-|H]; first exact: pcp_bound.
    have [e [v [O E ->]]] := pcp_E S; rewrite [RHS]E; congr (_ *m diag_mx _ *m _).
    rewrite E diag_sub // in H; apply/rowP => i; rewrite [LHS]mxE; apply/max_idPr.
    by have := eig_semi O H i; rewrite mxE subr_ge0.
  Qed.
  Lemma im_sym n (z : 'M[C]_n) : csymmetric z -> symmetric (im_part z).
  Proof. by move=> S; rewrite /symmetric -im_tr S. Qed.
  Lemma re_sym n (z : 'M[C]_n) : csymmetric z -> symmetric (re_part z).
  Proof. by move=> S; rewrite /symmetric -re_tr S. Qed.
  Lemma uh_projx_re n (z : 'M[C]_n) : re_part (uh_projx eigh p z) = re_part (csym z).
  Proof. by rewrite /uh_projx re_to. Qed.
  Lemma uh_projx_im n (z : 'M[C]_n) : im_part (uh_projx eigh p z) = positive_conjugate_projection eigh p (im_part (csym z)).
  Proof. by rewrite /uh_projx im_to. Qed.
  Lemma uh_projx_in n (z : 'M[C]_n) : in_upper_half (uh_projx eigh p z).
  Proof.
    have P := pcp_pos (im_sym (csym_sym z)); split; last by rewrite uh_projx_im.
    rewrite /csymmetric /uh_projx tr_to; congr to_complex; first exact: re_sym (csym_sym z).
    by case: P.
  Qed.
  Lemma uh_projx_bound n (z : 'M[C]_n) : pos_semidef (im_part (uh_projx eigh p z) - eps%:M).
  Proof. by rewrite uh_projx_im; apply: pcp_bound; exact: im_sym (csym_sym z). Qed.
  Lemma uh_projx_fix n (z : 'M[C]_n) :
    uh_projx eigh p z = z <-> csymmetric z /\ pos_semidef (im_part z - eps%:M).
  Proof.
    split=> [H|[S H]].
      by split; [rewrite -H; case: (uh_projx_in z) | rewrite -{1}H; exact: uh_projx_bound].
    rewrite /uh_projx /siegel_projx (csymE S).
    have -> : positive_conjugate_projection eigh p (imag_of z) = imag_of z by apply/(pcp_fix (im_sym S)).
    by rewrite to_complexE -decomp.
  Qed.
  Lemma uh_projx_idem n (z : 'M[C]_n) : uh_projx eigh p (uh_projx eigh p z) = uh_projx eigh p z.
  Proof. by apply/uh_projx_fix; split; [case: (uh_projx_in z) | exact: uh_projx_bound]. Qed.

  (** * random points *)
  Variables (exp log : F -> F) (mexp : forall n, 'M[F]_n -> 'M[F]_n).
  Hypotheses (EL : explog exp log) (ME : matrix_exp_ok exp mexp).
  Lemma uh_random_in n (draw : 'M[C]_n) : in_upper_half (uh_random mexp draw).
  Proof.
    have S := csym_sym (2%:R^-1 *: draw).
    have P := mexp_pos EL ME (im_sym S).
    split; last by rewrite /uh_random im_to.
    rewrite /csymmetric /uh_random tr_to; congr to_complex; first exact: re_sym S.
    by case: P.
  Qed.
  Lemma bd_random_in n (draw : 'M[C]_n) : exists2 w, bd_random mexp draw = Ok w & in_bounded_domain w.
  Proof.
    have U := uh_random_in draw; exists (icay (uh_random mexp draw)); last exact: icay_bd.
    by rewrite /bd_random icayE (uh_plus_unit U).
  Qed.
End Proj.
