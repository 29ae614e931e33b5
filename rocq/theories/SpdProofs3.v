(** Lemmas for the SPD manifold: Stein divergence, and functions meeting the
    contracts. *)
From mathcomp Require Import all_ssreflect all_algebra.
From Verif Require Import FieldTac StiefelModel StiefelSpec StiefelProofs Spectral SpdModel SpdSpec SpdProofs SpdProofs2.
Import Order.TTheory GRing.Theory Num.Theory.
Local Open Scope ring_scope.
Set Implicit Arguments. Unset Strict Implicit. Unset Printing Implicit Defensive.

Section Stein.
  Variables (F : rcfType) (exp log : F -> F).
  Hypothesis EL : explog exp log.
  Implicit Types n : nat.
  Add Field Ff : (fth F).
  Ltac fr := f_goal F; ring.
  Ltac ff := f_goal F; field; rewrite /f0 /f1 /fadd /fmul /fsub /fopp /finv.

  Lemma det_orth n (v : 'M[F]_n) (a : 'M[F]_n) : v^T *m v = 1%:M -> \det (v *m a *m v^T) = \det a.
  Proof.
    move=> V. rewrite !det_mulmx det_tr mulrAC. have := congr1 determinant V. rewrite det_mulmx det_tr det1 => ->. by rewrite mul1r.
  Qed.
  Lemma det_pos n (x : 'M[F]_n) : pos_def x -> 0 < \det x.
  Proof.
    move=> X. have [e [v [V E]]] := spectral (proj1 X). rewrite E in X *. rewrite det_orth // det_diag.
    apply: prodr_gt0 => i _. exact: (eig_pos V X).
  Qed.
  Lemma prod_ge1 (I : finType) (P : pred I) (r : I -> F) : (forall i, P i -> 1 <= r i) -> 1 <= \prod_(i | P i) r i.
  Proof. move=> H. elim/big_rec: _ => // i x Pi X. by rewrite mulr_ege1 // H. Qed.
  Lemma prod_eq1 (I : finType) (r : I -> F) : (forall i, 1 <= r i) -> \prod_i r i = 1 -> forall i, r i = 1.
  Proof.
    move=> H E i. apply/eqP. rewrite eq_le H andbT -E (bigD1 i) //=. apply: ler_pemulr.
      exact: le_trans ler01 (H i).
    by apply: prod_ge1.
  Qed.
  (** ratio ((1+t)/2)^2 / t *)
  Definition rat (t : F) : F := (2%:R^-1 * (1 + t)) ^+ 2 / t.
  Lemma ratE t : 0 < t -> rat t = 1 + (2%:R^-1 * (1 - t)) ^+ 2 / t.
  Proof.
    move=> t0. rewrite /rat. ff. split; [exact: (elimN eqP (two_neq0 F))|by apply/eqP; rewrite gt_eqF].
  Qed.
  Lemma rat_ge1 t : 0 < t -> 1 <= rat t.
  Proof. move=> t0. by rewrite ratE // ler_addl divr_ge0 ?sqr_ge0 // ltW. Qed.
  Lemma rat_eq1 t : 0 < t -> rat t = 1 -> t = 1.
  Proof.
    move=> t0. rewrite ratE // => /eqP. rewrite -subr_eq0 addrC addKr mulf_eq0 invr_eq0 [t == 0]gt_eqF // orbF.
    by rewrite sqrf_eq0 mulf_eq0 invr_eq0 (negbTE (two_neq0 F)) /= subr_eq0 => /eqP.
  Qed.
  Lemma stein_formula n (x y : 'M[F]_n) : pos_def x -> pos_def y ->
    exists e : 'rV[F]_n, (forall i, 0 < e ord0 i) /\ stein log x y = 2%:R^-1 * log (\prod_i rat (e ord0 i)) /\
      ((forall i, e ord0 i = 1) -> x = y).
  Proof.
    move=> X Y. have [i [s R]] := roots_exist X. have M := r_pos R Y.
    have [e [v [V E]]] := spectral (proj1 M). have P : forall k, 0 < e ord0 k by rewrite E in M; exact: (eig_pos V M).
    exists e. split=> //. split; last first.
      move=> H. have : i *m y *m i = 1%:M.
        have D : diag_mx e = 1%:M by apply/matrixP => a b; rewrite !mxE H.
        by rewrite E D mulmx1 (mulmx1C V).
      move=> G. by rewrite -(r_cancel R y) G mulmx1 (r_ss R).
    have d0 := det_pos X. have dd : \det x = \det s * \det s by rewrite -(r_ss R) det_mulmx.
    set A := \prod_k (2%:R^-1 * (1 + e ord0 k)). set B := \prod_k e ord0 k.
    have A0 : 0 < A by apply: prodr_gt0 => k _; rewrite mulr_gt0 ?invr_gt0 ?ltr0n // addr_gt0 ?ltr01.
    have B0 : 0 < B by apply: prodr_gt0.
    have E1 : \det (2%:R^-1 *: (x + y)) = \det x * A.
      have -> : 2%:R^-1 *: (x + y) = s *m (v *m diag_mx (map_mx (fun t => 2%:R^-1 * (1 + t)) e) *m v^T) *m s.
        have -> : diag_mx (map_mx (fun t => 2%:R^-1 * (1 + t)) e) = 2%:R^-1 *: (1%:M + diag_mx e).
          apply/matrixP => a b. rewrite !mxE. case: (a == b); by rewrite ?mulr1n ?mulr0n ?addr0 ?mulr0.
        rewrite -scalemxAr -scalemxAl mulmxDr mulmxDl mulmx1 (mulmx1C V) -E -scalemxAr -scalemxAl. congr (_ *: _).
        by rewrite mulmxDr mulmxDl mulmx1 (r_ss R) (r_cancel R).
      rewrite (det_mulmx _ s) (det_mulmx s) det_orth // det_diag dd mulrAC. congr (_ * _).
      by apply: eq_bigr => k _; rewrite mxE.
    have E2 : \det (x *m y) = (\det x * \det x) * B.
      have -> : B = \det (i *m y *m i) by rewrite E det_orth // det_diag.
      rewrite det_mulmx -{1}(r_cancel R y) (det_mulmx _ s) (det_mulmx s) dd. move: (\det s) (\det (i *m y *m i)) => p q. fr.
    have AB : A ^+ 2 / B = \prod_k rat (e ord0 k).
      by rewrite /A /B -prodrXl -prodf_div.
    have r0 : 0 < A ^+ 2 / B by rewrite divr_gt0 // exprn_gt0.
    rewrite /stein /log_det E1 E2 -AB !(logM EL) ?mulr_gt0 ?exprn_gt0 ?invr_gt0 // (logV EL) //.
    move: (log (\det x)) (log A) (log B) => p q r. ff. exact: (elimN eqP (two_neq0 F)).
  Qed.

  Lemma stein_ge0 n (x y : 'M[F]_n) : pos_def x -> pos_def y -> 0 <= stein log x y.
  Proof.
    move=> X Y. have [e [P [-> _]]] := stein_formula X Y. rewrite mulr_ge0 ?invr_ge0 ?ler0n // -(log1 EL).
    apply: (log_le EL); rewrite ?ltr01 //. apply: prod_ge1 => i _. exact: rat_ge1.
  Qed.
  Lemma stein_sym n (x y : 'M[F]_n) : stein log x y = stein log y x.
  Proof. by rewrite /stein addrC [x + y]addrC addrC /log_det !det_mulmx [\det x * _]mulrC. Qed.
  Lemma stein_self n (x : 'M[F]_n) : pos_def x -> stein log x x = 0.
  Proof.
    move=> X. rewrite /stein /log_det. have -> : 2%:R^-1 *: (x + x) = x by rewrite scalerDr -scalerDl half_half scale1r.
    rewrite det_mulmx (logM EL) ?det_pos //. move: (log _) => t. ff. exact: (elimN eqP (two_neq0 F)).
  Qed.
  Lemma stein_zero n (x y : 'M[F]_n) : pos_def x -> pos_def y -> (stein log x y = 0 <-> x = y).
  Proof.
    move=> X Y. split=> [|<-]; last exact: stein_self.
    have [e [P [-> H]]] := stein_formula X Y. move/eqP. rewrite mulf_eq0 invr_eq0 (negbTE (two_neq0 F)) /= => /eqP L.
    apply: H => i. apply: rat_eq1 => //. apply: (prod_eq1 (r := fun k => rat (e ord0 k))) => [k|]; first exact: rat_ge1.
    apply: (log_inj EL); rewrite ?ltr01 ?L ?(log1 EL) //.
    apply: lt_le_trans ltr01 _. apply: prod_ge1 => k _. exact: rat_ge1.
  Qed.
  Lemma stein_scalar (a b : F) : 0 < a -> 0 < b -> stein log (a%:M : 'M[F]_1) b%:M = log (2%:R^-1 * (a + b)) - 2%:R^-1 * (log a + log b).
  Proof.
    move=> a0 b0. rewrite /stein /log_det -raddfD /= -scalemx1 scalerA scalemx1 -scalar_mxM !det_scalar1 (logM EL a0 b0). by [].
  Qed.
  Lemma scalar_pos (a : F) : 0 < a -> pos_def (a%:M : 'M[F]_1).
  Proof. move=> a0. rewrite -scalemx1. apply: pos_defZ => //. exact: (fn_pos (fn_const 1 (trmx1 F 1)) (fun=> ltr01)). Qed.
  Lemma stein_no_triangle (q : F) : 0 < q -> q <> 1 -> exists x y z : 'M[F]_1, pos_def x /\ pos_def y /\ pos_def z /\
    stein log x y + stein log y z < stein log x z.
  Proof.
    move=> q0 q1. exists 1%:M, (q ^+ 2)%:M, (q ^+ 4)%:M.
    have q2 : 0 < q ^+ 2 by rewrite exprn_gt0. have q4 : 0 < q ^+ 4 by rewrite exprn_gt0.
    do 3 (split; first by apply: scalar_pos; rewrite ?ltr01).
    have h0 : 0 < 2%:R^-1 :> F by rewrite invr_gt0 ltr0n.
    have s0 : 0 < 2%:R^-1 * (1 + q ^+ 2) by rewrite mulr_gt0 // addr_gt0 ?ltr01.
    rewrite !stein_scalar ?ltr01 //. rewrite (log1 EL).
    have -> : 2%:R^-1 * (q ^+ 2 + q ^+ 4) = (q ^+ 2) * (2%:R^-1 * (1 + q ^+ 2)) by fr.
    rewrite (logM EL q2 s0). have -> : log (q ^+ 4) = log (q ^+ 2) + log (q ^+ 2) by rewrite -(logM EL q2 q2) -exprD.
    set l := log (q ^+ 2). set w := log (2%:R^-1 * (1 + q ^+ 2)).
    have -> : w - 2%:R^-1 * (0 + l) + (l + w - 2%:R^-1 * (l + (l + l))) = w + w - l.
      ff. exact: (elimN eqP (two_neq0 F)).
    have -> : 2%:R^-1 * (0 + (l + l)) = l by ff; exact: (elimN eqP (two_neq0 F)).
    rewrite ltr_add2r /w -(logM EL s0 s0). apply: (log_mono EL); first by rewrite mulr_gt0.
    rewrite -subr_gt0.
    have -> : 2%:R^-1 * (1 + q ^+ 4) - 2%:R^-1 * (1 + q ^+ 2) * (2%:R^-1 * (1 + q ^+ 2)) = (2%:R^-1 * (1 - q ^+ 2)) ^+ 2.
      ff. exact: (elimN eqP (two_neq0 F)).
    rewrite lt_def sqr_ge0 andbT sqrf_eq0 mulf_eq0 gt_eqF //= subr_eq0 eq_sym -subr_eq0 subr_sqr_1 mulf_eq0 negb_or subr_eq0.
    apply/andP. split; first exact/eqP. by rewrite gt_eqF // addr_gt0 ?ltr01.
  Qed.
End Stein.

(** Functions meeting the contracts of the external calls. *)
Section Oracles.
  Variable F : rcfType.
  Implicit Types n : nat.
  Lemma upper_symmetric n (x : 'M[F]_n) : symmetric (upper x).
  Proof. apply/matrixP => i j. rewrite !mxE. by case: ltngtP => // /val_inj ->. Qed.
  Lemma eigh_ex n (x : 'M[F]_n) : exists p : 'rV[F]_n * 'M[F]_n,
    (p.2^T *m p.2 == 1%:M) && (upper x == p.2 *m diag_mx p.1 *m p.2^T).
  Proof. have [e [v [V E]]] := spectral (upper_symmetric x). exists (e, v). by rewrite /= V -E !eqxx. Qed.
  Definition some_eigh n (x : 'M[F]_n) : 'rV[F]_n * 'M[F]_n := xchoose (eigh_ex x).
  Lemma some_eigh_ok : eigh_ok some_eigh.
  Proof. move=> n x. have /andP [/eqP A /eqP B] := xchooseP (eigh_ex x). by split. Qed.
  Definition some_mexp (exp : F -> F) n (x : 'M[F]_n) : 'M[F]_n := sym_funcm some_eigh exp x.
  Lemma some_mexp_ok exp : matrix_exp_ok exp (some_mexp exp).
  Proof.
    move=> n v e V. have S : symmetric (v *m diag_mx e *m v^T) by rewrite /symmetric !trmx_mul trmxK tr_diag_mx mulmxA.
    apply: (fn_unique (funcm_fn some_eigh_ok exp S)). by exists v, e.
  Qed.
End Oracles.

Section Cases.
  Variable F : rcfType.
  Definition ones2 : 'M[F]_2 := const_mx 1.
  Lemma ones_symmetric : symmetric ones2.
  Proof. by apply/matrixP => i j; rewrite !mxE. Qed.
  Lemma one_pos n : pos_def (1%:M : 'M[F]_n).
  Proof. exact: (fn_pos (fn_const 1 (trmx1 F n)) (fun=> ltr01)). Qed.
  Lemma retr_case : retr 1%:M ones2 = \matrix_(i, j) (if i == j then 3%:R else 2%:R).
  Proof.
    rewrite retr_formula; [|exact: one_pos|exact: ones_symmetric].
    have -> : ones2 *m invmx 1%:M *m ones2 = 2%:R *: ones2.
      rewrite invmx1 mulmx1. apply/matrixP => i j. rewrite !mxE (eq_bigr (fun=> 1)) => [|k _]; last by rewrite !mxE mulr1.
      by rewrite sumr_const card_ord mulr1.
    rewrite scalerA mulVf ?two_neq0 // scale1r. apply/matrixP => i j. rewrite !mxE. case: (i == j).
      by rewrite mulr1n -[3%:R]/(1 + (1 + 1)) addrA.
    by rewrite add0r -[2%:R]/(1 + 1).
  Qed.
  Lemma diag_case (a b : F) : 0 < a -> 0 < b -> pos_def (a *: 1%:M + b *: ones2).
  Proof.
    move=> A B. apply: pos_defD; first by apply: pos_defZ => //; exact: one_pos.
    split; first by rewrite /symmetric linearZ /= ones_symmetric.
    move=> v. rewrite quadZ mulr_ge0 ?(ltW B) //.
    have -> : quad ones2 v = (\sum_i v ord0 i) ^+ 2.
      rewrite /quad expr2 big_distrl /=. apply: eq_bigr => i _. rewrite big_distrr /=. apply: eq_bigr => j _. by rewrite mxE mulr1.
    exact: sqr_ge0.
  Qed.
End Cases.
