(** Lemmas for the Siegel spaces: the Takagi factorisation. *)
From mathcomp Require Import all_ssreflect all_algebra.
From mathcomp.real_closed Require Import complex.
From Verif Require Import FieldTac SpdModel SpdSpec SpdProofs SiegelModel SiegelSpec SiegelProofs.
Import GRing.Theory Order.Theory Num.Theory.
Local Open Scope ring_scope.
Local Open Scope complex_scope.
Set Implicit Arguments. Unset Strict Implicit. Unset Printing Implicit Defensive.

Lemma trmxN (R : ringType) n m (a : 'M[R]_(n, m)) : (- a)^T = - a^T.
Proof. by rewrite linearN. Qed.

(** * Spectra symmetric about 0 *)
Section Antisym.
  Variables (F : rcfType) (N : nat) (M Q J : 'M[F]_N) (e : 'rV[F]_N).
  Hypotheses (QQ : Q^T *m Q = 1%:M) (ME : M = Q *m diag_mx e *m Q^T).
  Hypotheses (JJ : J^T *m J = 1%:M) (JM : J *m M = - (M *m J)).
  Let c := Q^T *m J *m Q.
  Lemma QQ' : Q *m Q^T = 1%:M. Proof. exact: mulmx1C. Qed.
  Lemma JJ' : J *m J^T = 1%:M. Proof. exact: mulmx1C. Qed.
  Lemma cc : c^T *m c = 1%:M.
  Proof.
    rewrite /c !trmx_mul trmxK -!mulmxA [Q *m _]mulmxA QQ' mul1mx [J^T *m _]mulmxA JJ mul1mx.
    exact: QQ.
  Qed.
  Lemma cc' : c *m c^T = 1%:M. Proof. exact: mulmx1C cc. Qed.
  Lemma c_anti : diag_mx e *m c = - (c *m diag_mx e).
  Proof.
    have E : diag_mx e = Q^T *m M *m Q.
      by rewrite ME !mulmxA QQ mul1mx -mulmxA QQ mulmx1.
    rewrite E /c -!mulmxA ![Q *m (Q^T *m _)]mulmxA QQ' !mul1mx.
    by rewrite [M *m (J *m Q)]mulmxA [J *m (M *m Q)]mulmxA JM mulNmx mulmxN opprK.
  Qed.
  Lemma c_entry i j : (e ord0 i + e ord0 j) * c i j = 0.
  Proof.
    move: c_anti; move: (c) => d /matrixP/(_ i j); rewrite mul_diag_mx mul_mx_diag !mxE => H.
    by rewrite mulrDl H [d i j * _]mulrC addNr.
  Qed.
  Lemma c_support i j : c i j != 0 -> e ord0 i = - e ord0 j.
  Proof. by move=> H; move/eqP: (c_entry i j); rewrite mulf_eq0 (negbTE H) orbF addr_eq0 => /eqP. Qed.
  Lemma col_sum j : \sum_i c i j ^+ 2 = 1.
  Proof.
    move: cc; move: (c) => d /matrixP/(_ j j); rewrite !mxE eqxx => H; apply: etrans _ H.
    by apply: eq_bigr => i _; rewrite mxE expr2.
  Qed.
  Lemma row_sum i : \sum_j c i j ^+ 2 = 1.
  Proof.
    move: cc'; move: (c) => d /matrixP/(_ i i); rewrite !mxE eqxx => H; apply: etrans _ H.
    by apply: eq_bigr => j _; rewrite mxE expr2.
  Qed.
  Lemma count_opp (a : pred F) : (#|[pred j | a (e ord0 j)]| <= #|[pred i | a (- e ord0 i)]|)%N.
  Proof.
    rewrite -(ler_nat F) -!sum1_card !natr_sum.
    rewrite (eq_bigr (fun j => \sum_i c i j ^+ 2)); last by move=> j _; rewrite col_sum.
    rewrite exchange_big /= (bigID [pred i | a (- e ord0 i)]) /= [X in _ + X]big1 ?addr0.
    - apply: ler_sum => i _; rewrite -(row_sum i).
      rewrite [X in _ <= X](bigID [pred j | a (e ord0 j)]) /= ler_addl.
      by apply: sumr_ge0 => j _; exact: sqr_ge0.
    - move=> i /negP ai; apply: big1 => j aj; apply/eqP; rewrite sqrf_eq0; apply: contraT => cij.
      by case: ai; rewrite (c_support cij) opprK.
  Qed.
  Lemma count_eq (a : pred F) : #|[pred j | a (e ord0 j)]| = #|[pred i | a (- e ord0 i)]|.
  Proof.
    apply/eqP; rewrite eqn_leq count_opp /=.
    apply: leq_trans (count_opp (fun t => a (- t))) _.
    by rewrite leq_eqVlt; apply/orP; left; apply/eqP/eq_card => i; rewrite !inE opprK.
  Qed.
  (** C f(e) = f(-e) C *)
  Lemma c_fun (f : F -> F) : c *m diag_mx (map_mx f e) = diag_mx (map_mx (fun t => f (- t)) e) *m c.
  Proof.
    move: c_support; move: (c) => d SUP.
    apply/matrixP => i j; rewrite mul_mx_diag mul_diag_mx !mxE.
    case: (eqVneq (d i j) 0) => [->|H]; first by rewrite mul0r mulr0.
    by rewrite (SUP _ _ H) opprK mulrC.
  Qed.
  (** the positive part determines M *)
  Lemma pos_part : let P := Q *m diag_mx (map_mx (Num.max 0) e) *m Q^T in M = P - J *m P *m J^T.
  Proof.
    move=> P.
    have -> : J *m P *m J^T = Q *m diag_mx (map_mx (fun t => Num.max 0 (- t)) e) *m Q^T.
      have J1 : J = Q *m c *m Q^T.
        by rewrite /c !mulmxA QQ' mul1mx -mulmxA QQ' mulmx1.
      have QM a b : (Q *m a *m Q^T) *m (Q *m b *m Q^T) = Q *m (a *m b) *m Q^T.
        by rewrite -!mulmxA [Q^T *m (Q *m _)]mulmxA QQ mul1mx !mulmxA.
      have -> : J^T = Q *m c^T *m Q^T by rewrite {1}J1 !trmx_mul trmxK mulmxA.
      rewrite {1}J1 /P !QM; move: c_fun cc'; move: (c) => d CF CC.
      by rewrite CF -[_ *m d *m d^T]mulmxA CC mulmx1.
    rewrite /P ME -mulmxBl -mulmxBr; congr (_ *m _ *m _).
    apply/matrixP => i j; rewrite !mxE; case: (i == j); rewrite ?mulr0n ?subr0 // !mulr1n.
    move: (e ord0 i) => t; case: (lerP 0 t) => H.
    - by rewrite (max_idPl _) ?subr0 // oppr_le0.
    - by rewrite (max_idPr _) ?sub0r ?opprK // oppr_ge0 ltW.
  Qed.
End Antisym.

Section Takagi.
  Variables (F : rcfType) (n : nat).
  Notation C := F[i].
  Definition Jm : 'M[F]_(n + n) := block_mx 0 (- 1%:M) 1%:M 0.
  Lemma Jm_orth : Jm^T *m Jm = 1%:M.
  Proof.
    rewrite /Jm tr_block_mx mulmx_block ?(trmx0, trmx1, mul0mx, mulmx0, mulNmx, mulmxN, mul1mx, mulmx1, addr0, add0r, opprK, oppr0, trmxN).
    by rewrite -scalar_mx_block.
  Qed.
  Lemma Jm_anti (z : 'M[C]_n) : Jm *m to_compound_symmetric z = - (to_compound_symmetric z *m Jm).
  Proof.
    by rewrite /Jm /to_compound_symmetric !mulmx_block opp_block_mx ?(trmx0, trmx1, mul0mx, mulmx0, mulNmx, mulmxN, mul1mx, mulmx1, addr0, add0r, opprK, oppr0, trmxN).
  Qed.
  Lemma compound_sym (z : 'M[C]_n) : csymmetric z -> symmetric (to_compound_symmetric z).
  Proof.
    move=> S; rewrite /symmetric /to_compound_symmetric tr_block_mx linearN /= !real_of_E !imag_of_E.
    by rewrite -re_tr -im_tr S.
  Qed.

  Section Halves.
    Variables (M Q : 'M[F]_(n + n)) (e : 'rV[F]_(n + n)).
    Hypotheses (QQ : Q^T *m Q = 1%:M) (ME : M = Q *m diag_mx e *m Q^T) (JM : Jm *m M = - (M *m Jm)).
    Hypothesis A : ascending e.
    Lemma card_split (a : pred 'I_(n + n)) :
      #|[pred j | a j]| = (#|[pred i : 'I_n | a (lshift n i)]| + #|[pred i : 'I_n | a (rshift n i)]|)%N.
    Proof. by rewrite -!sum1_card big_split_ord. Qed.
    Lemma top_ge0 i : 0 <= e ord0 (rshift n i).
    Proof.
      rewrite leNgt; apply/negP => H.
      have L k : e ord0 (lshift n k) < 0.
        by apply: le_lt_trans H; apply: A; rewrite /= ltnW // ltn_addr.
      have := count_eq QQ ME Jm_orth JM (fun t => t < 0).
      rewrite !card_split.
      rewrite (@eq_card _ _ 'I_n); last by move=> k; rewrite !inE L.
      rewrite [X in (X + _)%N = _]card_ord.
      rewrite [X in _ = (X + _)%N]eq_card0; last by move=> k; rewrite !inE oppr_lt0 ltNge ltW.
      move=> E; have : (#|[pred i0 | (- e ord0 (rshift n i0) < 0)%R]| <= n)%N.
        by rewrite -[X in (_ <= X)%N](card_ord n) max_card.
      rewrite add0n in E; rewrite -E -[X in (_ <= X)%N]addn0 leq_add2l leqn0 => /eqP/card0_eq/(_ i).
      by rewrite inE H.
    Qed.
    Lemma bot_le0 i : e ord0 (lshift n i) <= 0.
    Proof.
      rewrite leNgt; apply/negP => H.
      have R k : 0 < e ord0 (rshift n k).
        by apply: lt_le_trans H _; apply: A; rewrite /= ltnW // ltn_addr.
      have := count_eq QQ ME Jm_orth JM (fun t => t < 0).
      rewrite !card_split.
      rewrite [X in (_ + X)%N = _]eq_card0; last by move=> k; rewrite !inE ltNge ltW.
      rewrite [X in _ = (_ + X)%N](@eq_card _ _ 'I_n); last by move=> k; rewrite !inE oppr_lt0 R.
      rewrite [X in _ = (_ + X)%N]card_ord addn0.
      move=> E; have : (#|[pred i0 | (e ord0 (lshift n i0) < 0)%R]| <= n)%N.
        by rewrite -[X in (_ <= X)%N](card_ord n) max_card.
      rewrite E -[X in (_ <= X)%N]add0n leq_add2r leqn0 => /eqP/card0_eq/(_ i).
      by rewrite inE oppr_lt0 H.
    Qed.
    Let R := usubmx (rsubmx Q).
    Let I := dsubmx (rsubmx Q).
    Let D := diag_mx (rsubmx e).
    Lemma pos_P : Q *m diag_mx (map_mx (Num.max 0) e) *m Q^T = rsubmx Q *m D *m (rsubmx Q)^T.
    Proof.
      have -> : diag_mx (map_mx (Num.max 0) e) = block_mx 0 0 0 D.
        apply/matrixP => i j; rewrite !mxE.
        case: (splitP i) => k Ek; rewrite mxE; case: (splitP j) => l El; rewrite !mxE.
        - case: (eqVneq i j) => // ij; rewrite mulr1n.
          have -> : i = lshift n k by exact: val_inj.
          by rewrite (max_idPl _) // bot_le0.
        - rewrite [i == j]negbTE //; apply/negP => /eqP ij; move: Ek; rewrite ij El => H.
          by have := ltn_ord k; rewrite -H ltnNge leq_addr.
        - rewrite [i == j]negbTE //; apply/negP => /eqP ij; move: El; rewrite -ij Ek => H.
          by have := ltn_ord l; rewrite -H ltnNge leq_addr.
        - have -> : i = rshift n k by exact: val_inj.
          have -> : j = rshift n l by exact: val_inj.
          rewrite (inj_eq (@rshift_inj n n)); case: (k == l) => //; rewrite !mulr1n.
          by rewrite (max_idPr _) // top_ge0.
      rewrite -{1 2}(hsubmxK Q) mul_row_block !mulmx0 !add0r tr_row_mx mul_row_col mul0mx add0r //.
    Qed.
    Lemma halves : M = block_mx (R *m D *m R^T - I *m D *m I^T) (R *m D *m I^T + I *m D *m R^T)
                                (R *m D *m I^T + I *m D *m R^T) (I *m D *m I^T - R *m D *m R^T).
    Proof.
      rewrite [LHS](pos_part QQ ME Jm_orth JM) pos_P -(vsubmxK (rsubmx Q)) -/R -/I tr_col_mx mul_col_mx mul_col_row.
      rewrite /Jm tr_block_mx !mulmx_block ?(trmx0, trmx1, mul0mx, mulmx0, mulNmx, mulmxN, mul1mx, mulmx1, addr0, add0r, opprK, oppr0, trmxN).
      by rewrite opp_block_mx add_block_mx !opprK [I *m D *m R^T + _]addrC.
    Qed.
    Lemma eig_cols : M *m rsubmx Q = rsubmx Q *m D.
    Proof.
      have : M *m Q = Q *m diag_mx e by rewrite ME -mulmxA QQ mulmx1.
      have -> : diag_mx e = block_mx (diag_mx (lsubmx e)) 0 0 D.
        by rewrite -{1}(hsubmxK e) diag_mx_row.
      by rewrite -{1 2}(hsubmxK Q) mul_mx_row mul_row_block !mulmx0 add0r => /eq_row_mx[].
    Qed.
    Lemma cols_orth : R^T *m R + I^T *m I = 1%:M.
    Proof.
      have := QQ; rewrite -{1 2}(hsubmxK Q) tr_row_mx mul_col_row scalar_mx_block => /eq_block_mx[_ _ _].
      by rewrite -{1 2}(vsubmxK (rsubmx Q)) tr_col_mx mul_row_col.
    Qed.
    Lemma cols_skew i j : 0 < e ord0 (rshift n i) + e ord0 (rshift n j) -> (I^T *m R - R^T *m I) i j = 0.
    Proof.
      move=> H.
      have : (Q^T *m Jm *m Q) (rshift n i) (rshift n j) = 0.
        apply/eqP; apply: contraT => /(c_support QQ ME JM) E.
        by rewrite E addNr ltxx in H.
      have -> : Q^T *m Jm *m Q = block_mx ((lsubmx Q)^T *m Jm *m lsubmx Q) ((lsubmx Q)^T *m Jm *m rsubmx Q)
                                         ((rsubmx Q)^T *m Jm *m lsubmx Q) ((rsubmx Q)^T *m Jm *m rsubmx Q).
        by rewrite -{1 2}(hsubmxK Q) tr_row_mx mul_col_mx mul_col_row.
      rewrite block_mxEdr.
      have -> : (rsubmx Q)^T *m Jm *m rsubmx Q = I^T *m R - R^T *m I.
        rewrite -{1 2}(vsubmxK (rsubmx Q)) tr_col_mx /Jm mul_row_block mul_row_col ?(trmx0, trmx1, mul0mx, mulmx0, mulNmx, mulmxN, mul1mx, mulmx1, addr0, add0r, opprK, oppr0, trmxN).
        by rewrite addrC.
      by [].
    Qed.
  End Halves.
End Takagi.

Section Factor.
  Variables (F : rcfType) (n : nat) (z : 'M[F[i]]_n) (Q : 'M[F]_(n + n)) (e : 'rV[F]_(n + n)).
  Notation C := F[i].
  Hypotheses (S : csymmetric z) (QQ : Q^T *m Q = 1%:M).
  Hypothesis ME : to_compound_symmetric z = Q *m diag_mx e *m Q^T.
  Hypothesis A : ascending e.
  Add Field CKf : (fth (CK F)).
  Ltac mr := repeat match goal with |- context [as_complex ?a] => move: (as_complex a) => ? end;
    apply/matrixP => ? ?; rewrite !mxE; f_goal (CK F); ring.
  Let R := usubmx (rsubmx Q).
  Let I := dsubmx (rsubmx Q).
  Let d := rsubmx e.
  Definition uvec : 'M[C]_n := to_complex (usubmx (rsubmx Q)) (- dsubmx (rsubmx Q)).
  Let s := uvec.
  Lemma rdE (v : 'rV[F]_n) : real_diag v = as_complex (diag_mx v).
  Proof. by apply/matrixP => i j; rewrite !mxE; case: (i == j); rewrite ?mulr1n ?mulr0n. Qed.
  Lemma d_ge0 i : 0 <= d ord0 i.
  Proof. by rewrite /d mxE; exact: (top_ge0 QQ ME (Jm_anti z) A). Qed.
  Lemma d_asc : ascending d.
  Proof. by move=> i j ij; rewrite /d !mxE; apply: A; rewrite /= leq_add2l. Qed.
  Lemma bar_s : bar s = as_complex R + 'i%C *: as_complex I.
  Proof. by rewrite /s /uvec bar_to opprK to_complexE. Qed.
  Lemma s_E : s = as_complex R - 'i%C *: as_complex I.
  Proof. by rewrite /s /uvec to_complexE acN scalerN. Qed.
  Lemma z_E : z = as_complex (re_part z) + 'i%C *: as_complex (im_part z).
  Proof. exact: decomp. Qed.
  Lemma i_i n' m (a : 'M[C]_(n', m)) : 'i%C *: ('i%C *: a) = - a.
  Proof. by rewrite scalerA i_sq scaleN1r. Qed.
  Lemma halves_re : re_part z = R *m diag_mx d *m R^T - I *m diag_mx d *m I^T.
  Proof. by have := halves QQ ME (Jm_anti z) A; rewrite /to_compound_symmetric => /eq_block_mx[]. Qed.
  Lemma halves_im : im_part z = R *m diag_mx d *m I^T + I *m diag_mx d *m R^T.
  Proof. by have := halves QQ ME (Jm_anti z) A; rewrite /to_compound_symmetric => /eq_block_mx[]. Qed.
  Lemma takagi_id : z = bar s *m real_diag d *m (bar s)^T.
  Proof.
    rewrite {1}z_E halves_re halves_im bar_s rdE linearD linearZ /= -!acT.
    rewrite !mulmxDl !mulmxDr -!scalemxAl -!scalemxAr -!acM i_i acB acD scalerDr.
    mr.
  Qed.
  Lemma takagi_eigvec : z *m s = bar s *m real_diag d.
  Proof.
    have := eig_cols QQ ME.
    rewrite -(vsubmxK (rsubmx Q)) -/R -/I /to_compound_symmetric mul_block_col mul_col_mx => /eq_col_mx[E1 E2].
    rewrite bar_s rdE mulmxDl -scalemxAl -!acM -/d -E1 -E2 s_E {1}z_E !real_of_E !imag_of_E.
    rewrite !mulmxBr !mulmxDl -!scalemxAl -!scalemxAr -!acM i_i mulNmx !acD acN scalerBr.
    mr.
  Qed.
  Lemma adj_s_s : adj s *m s = as_complex (R^T *m R + I^T *m I) + 'i%C *: as_complex (I^T *m R - R^T *m I).
  Proof.
    have T : (bar s)^T = as_complex R^T + 'i%C *: as_complex I^T by rewrite bar_s linearD linearZ /= -!acT.
    rewrite adjE T s_E.
    rewrite !mulmxDl !mulmxDr !mulmxN -!scalemxAl -!scalemxAr -!acM i_i !acD acN scalerBr opprK.
    mr.
  Qed.
  Lemma s_orth i j : 0 < d ord0 i + d ord0 j -> (adj s *m s) i j = (i == j)%:R.
  Proof.
    rewrite [d ord0 i]mxE [d ord0 j]mxE => H; rewrite adj_s_s (cols_orth QQ) ac1.
    move: (cols_skew QQ ME (Jm_anti z) H); rewrite -/R -/I; move: (I^T *m R - _) => k K.
    by rewrite !mxE K mulr0 addr0.
  Qed.
  Lemma s_diag i : (adj s *m s) i i = 1.
  Proof.
    rewrite adj_s_s (cols_orth QQ) ac1.
    have K : (I^T *m R - R^T *m I) i i = 0.
      by rewrite !mxE -sumrB big1 // => k _; rewrite !mxE mulrC subrr.
    by move: K; move: (I^T *m R - _) => k K; rewrite !mxE K mulr0 addr0 eqxx.
  Qed.
  Lemma s_unitary : (forall i, 0 < d ord0 i) -> unitary s.
  Proof. by move=> H; apply/matrixP => i j; rewrite s_orth; [rewrite [RHS]mxE | exact: addr_gt0]. Qed.
  Lemma col_form i : hform (1%:M - adj z *m z) (col i s) = 1 - (d ord0 i ^+ 2)%:C.
  Proof.
    rewrite /hform mulmxBr mulmxBl mulmx1.
    have -> : adj (col i s) *m col i s = 1%:M.
      rewrite [LHS]mx11_scalar; congr (_%:M); rewrite -(s_diag i) !mxE; apply: eq_bigr => k _.
      by rewrite !mxE.
    have E : z *m col i s = (d ord0 i)%:C *: bar (col i s).
      rewrite (_ : z *m col i s = col i (z *m s)); last by rewrite !colE mulmxA.
      rewrite takagi_eigvec rdE.
      apply/matrixP => k l; rewrite !mxE (bigD1 i) //= big1 ?addr0.
        by rewrite !mxE eqxx mulr1n mulrC.
      by move=> j ji; rewrite !mxE (negbTE ji) mulr0n mulr0.
    have -> : adj (col i s) *m (adj z *m z) *m col i s = adj (z *m col i s) *m (z *m col i s).
      by rewrite adjM !mulmxA.
    rewrite E adjZ -scalemxAl -scalemxAr scalerA conjc_real.
    have -> : adj (bar (col i s)) *m bar (col i s) = 1%:M.
      rewrite [LHS]mx11_scalar; congr (_%:M); rewrite -(s_diag i) !mxE; apply: eq_bigr => k _.
      by rewrite !mxE conjcK mulrC.
    by rewrite !mxE eqxx mulr1n mulr1 -rmorphM -expr2.
  Qed.
  Lemma col_neq0 i : col i s != 0.
  Proof.
    apply/eqP => E; have := s_diag i.
    have -> : (adj s *m s) i i = (adj (col i s) *m col i s) ord0 ord0.
      by rewrite !mxE; apply: eq_bigr => k _; rewrite !mxE.
    by rewrite E mulmx0 mxE => /eqP; rewrite eq_sym oner_eq0.
  Qed.
  Lemma d_lt1 : in_bounded_domain z -> forall i, d ord0 i < 1.
  Proof.
    move=> [_ H] i; move: (H _ (col_neq0 i)); rewrite (bar_sym S) -/(hform _ _) col_form.
    rewrite -[1]/((1 : F)%:C) -rmorphB ltcR subr_gt0 => K.
    by rewrite -(ltr_pexpn2r (n := 2)) ?nnegrE ?d_ge0 ?ler01 // expr1n.
  Qed.
End Factor.
