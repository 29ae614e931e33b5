(** Lemmas for the Siegel spaces: the eigenvalues of the compound matrix depend only on
    the characteristic polynomial of w * bar w. *)
From mathcomp Require Import all_ssreflect all_algebra.
From mathcomp.real_closed Require Import complex.
From Verif Require Import FieldTac SpdModel SpdSpec SpdProofs SiegelModel SiegelSpec SiegelProofs SiegelProofs2.
Import GRing.Theory Order.Theory Num.Theory.
Local Open Scope ring_scope.
Local Open Scope complex_scope.
Set Implicit Arguments. Unset Strict Implicit. Unset Printing Implicit Defensive.

Section Poly.
  Variable K : fieldType.
  Implicit Types n : nat.
  Lemma prod_perm (s t : seq K) :
    \prod_(x <- s) ('X - x%:P) = \prod_(x <- t) ('X - x%:P) -> perm_eq s t.
  Proof.
    elim: s t => [|x s IH] t E.
      have := size_prod_XsubC t id; rewrite /= -E big_nil size_poly1 => -[].
      by move/esym/size0nil => ->.
    have xt : x \in t by rewrite -root_prod_XsubC -E root_prod_XsubC mem_head.
    rewrite perm_sym (permPl (perm_to_rem xt)) perm_cons perm_sym; apply: IH.
    have X0 : 'X - x%:P != 0 :> {poly K} by rewrite polyXsubC_eq0.
    apply: (mulfI X0); move: E; rewrite big_cons => ->.
    by rewrite (perm_big _ (perm_to_rem xt)) /= big_cons.
  Qed.

  Notation P a := (map_mx polyC a).
  Lemma Xn0 n : 'X ^+ n != 0 :> {poly K}.
  Proof. by rewrite expf_neq0 // polyX_eq0. Qed.
  Lemma char_mulC n (a b : 'M[K]_n) : char_poly (a *m b) = char_poly (b *m a).
  Proof.
    rewrite /char_poly /char_poly_mx.
    pose m := block_mx 'X%:M (P a) (P b) 1%:M : 'M[{poly K}]_(n + n).
    have E1 : \det m = \det ('X%:M - P (a *m b)).
      have : m *m block_mx 1%:M 0 (- P b) 1%:M = block_mx ('X%:M - P (a *m b)) (P a) 0 1%:M.
        rewrite mulmx_block ?(mul0mx, mulmx0, mul1mx, mulmx1, mulmxN, addr0, add0r) map_mxM.
        by rewrite subrr.
      move/(congr1 determinant); rewrite det_mulmx det_lblock det_ublock !det1 !mulr1 //.
    have E2 : \det m * 'X ^+ n = 'X ^+ n * \det ('X%:M - P (b *m a)).
      have : m *m block_mx 1%:M (- P a) 0 'X%:M = block_mx 'X%:M 0 (P b) ('X%:M - P (b *m a)).
        rewrite mulmx_block ?(mul0mx, mulmx0, mul1mx, mulmx1, mulmxN, addr0, add0r) map_mxM.
        by rewrite mul_scalar_mx mul_mx_scalar addNr addrC.
      by move/(congr1 determinant); rewrite det_mulmx det_lblock det_ublock !det1 !mul1r !det_scalar.
    apply: (mulfI (Xn0 n)); rewrite -E2 E1 mulrC //.
  Qed.
  Lemma char_conj n (p a : 'M[K]_n) : p \in unitmx -> char_poly (p *m a *m invmx p) = char_poly a.
  Proof. by move=> U; rewrite char_mulC mulmxA mulVmx // mul1mx. Qed.
  Lemma char_tr n (a : 'M[K]_n) : char_poly a^T = char_poly a.
  Proof. by rewrite /char_poly /char_poly_mx -map_trmx -{1}(tr_scalar_mx n 'X) -linearB det_tr. Qed.
  Lemma char_diag n (e : 'rV[K]_n) : char_poly (diag_mx e) = \prod_i ('X - (e ord0 i)%:P).
  Proof.
    rewrite char_poly_trig ?diag_mx_is_trig //.
    by apply: eq_bigr => i _; rewrite mxE eqxx mulr1n.
  Qed.
  (** det (X - [0 a; b 0]) = char_poly (a b) (X^2) *)
  Lemma char_anti n (a b : 'M[K]_n) :
    char_poly (block_mx 0 a b 0 : 'M[K]_(n + n)) = (char_poly (a *m b)) \Po 'X^2.
  Proof.
    rewrite /char_poly /char_poly_mx map_block_mx scalar_mx_block opp_block_mx add_block_mx !map_mx0 !oppr0 !addr0 !add0r.
    have E : \det ('X%:M - P (a *m b)) \Po 'X^2 = \det (('X^2)%:M - P (a *m b)).
      rewrite -[LHS]/(comp_poly 'X^2 _) -det_map_mx; congr (\det _).
      apply/matrixP => i j; rewrite !mxE rmorphB /= comp_polyC.
      by case: (i == j); rewrite ?mulr1n ?mulr0n ?comp_polyX ?comp_poly0.
    rewrite E; apply: (mulIf (Xn0 n)).
    have : block_mx 'X%:M (- P a) (- P b) 'X%:M *m block_mx 'X%:M 0 (P b) 1%:M =
           block_mx (('X^2)%:M - P (a *m b)) (- P a) 0 'X%:M :> 'M[{poly K}]_(n + n).
      rewrite mulmx_block ?(mul0mx, mulmx0, mul1mx, mulmx1, mulmxN, mulNmx, addr0, add0r) map_mxM.
      by rewrite mul_scalar_mx mul_mx_scalar mul_scalar_mx scale_scalar_mx -expr2 addNr.
    by move/(congr1 determinant); rewrite det_mulmx det_lblock det_ublock !det1 !mulr1 !det_scalar.
  Qed.
End Poly.

Section Spectrum.
  Variable F : rcfType.
  Notation C := F[i].
  Lemma char_spectrum n (x : 'M[F]_n) e : spectrum x e -> char_poly x = \prod_i ('X - (e ord0 i)%:P).
  Proof.
    move=> [_ [v [V ->]]]; rewrite -char_diag.
    by rewrite -mulmxA char_mulC -mulmxA V mulmx1.
  Qed.
  Definition row_seq n (e : 'rV[F]_n) := [seq e ord0 i | i <- enum 'I_n].
  Lemma nth_row_seq n (e : 'rV[F]_n) (i : 'I_n) x0 : nth x0 (row_seq e) i = e ord0 i.
  Proof. by rewrite /row_seq (nth_map i) ?size_enum_ord // nth_ord_enum. Qed.
  Lemma row_seq_sorted n (e : 'rV[F]_n) : ascending e -> sorted <=%O (row_seq e).
  Proof.
    move=> A; apply/(sortedP 0) => k; rewrite size_map size_enum_ord => kn.
    have k' : (k < n)%N by apply: ltnW.
    rewrite -[k]/(nat_of_ord (Ordinal k')) nth_row_seq -[k.+1]/(nat_of_ord (Ordinal kn)) nth_row_seq.
    by apply: A => /=.
  Qed.
  Lemma row_seq_inj n (e e' : 'rV[F]_n) : row_seq e = row_seq e' -> e = e'.
  Proof. by move=> E; apply/rowP => i; rewrite -(nth_row_seq e i 0) E nth_row_seq. Qed.
  Lemma spectrum_char n (x x' : 'M[F]_n) e e' :
    spectrum x e -> spectrum x' e' -> char_poly x = char_poly x' -> e = e'.
  Proof.
    move=> H H'; rewrite (char_spectrum H) (char_spectrum H') => E.
    apply: row_seq_inj; apply: (sorted_eq le_trans le_anti);
      [exact: row_seq_sorted (proj1 H) | exact: row_seq_sorted (proj1 H') |].
    by apply: prod_perm; rewrite big_map big_enum [RHS]big_map big_enum.
  Qed.
  Lemma spectrum_unique n (x : 'M[F]_n) e e' : spectrum x e -> spectrum x e' -> e = e'.
  Proof. by move=> H H'; apply: (spectrum_char H H'). Qed.

  Definition Tm n : 'M[C]_(n + n) := block_mx 1%:M (- 'i%C%:M) 1%:M ('i%C%:M).
  Definition Ti n : 'M[C]_(n + n) := 2%:R^-1 *: block_mx 1%:M 1%:M ('i%C%:M) (- 'i%C%:M).
  Lemma half2 n (a : 'M[C]_n) : 2%:R^-1 *: (a + a) = a.
  Proof. by rewrite -mulr2n -[a *+ 2]scaler_nat scalerA mulVf ?scale1r // pnatr_eq0. Qed.
  Lemma TmTi n : Tm n *m Ti n = 1%:M.
  Proof.
    rewrite /Tm /Ti -scalemxAr mulmx_block ?(mul1mx, mulmx1, mulNmx, mulmxN, opprK).
    rewrite !mul_scalar_mx !scale_scalar_mx i_sq.
    have N : (-1)%:M = - 1%:M :> 'M[C]_n by rewrite raddfN.
    by rewrite N opprK subrr scale_block_mx !half2 !scaler0 -scalar_mx_block.
  Qed.
  Lemma Tm_unit n : Tm n \in unitmx.
  Proof. by case/mulmx1_unit: (TmTi n). Qed.
  Lemma ac_block n (a b c d : 'M[F]_n) :
    as_complex (block_mx a b c d : 'M_(n + n)) = block_mx (as_complex a) (as_complex b) (as_complex c) (as_complex d).
  Proof. by rewrite !as_complexE map_block_mx. Qed.
  Lemma bar_decomp n (z : 'M[C]_n) : bar z = as_complex (re_part z) - 'i%C *: as_complex (im_part z).
  Proof. by rewrite {1}(decomp z) barD barZ !ac_bar conj_i scaleNr. Qed.
  Lemma Tm_compound n (z : 'M[C]_n) :
    Tm n *m as_complex (to_compound_symmetric z) = block_mx 0 (bar z) z 0 *m Tm n.
  Proof.
    rewrite /Tm /to_compound_symmetric ac_block !mulmx_block acN real_of_E imag_of_E.
    rewrite ?(mul0mx, mulmx0, mul1mx, mulmx1, mulNmx, mulmxN, addr0, add0r, opprK) !mul_scalar_mx !mul_mx_scalar.
    move: (decomp z) (bar_decomp z); move: (as_complex (re_part z)) (as_complex (im_part z)) => A B Ez ->.
    rewrite {}Ez scalerBr scalerDr !i_i opprK opprD opprK.
    by rewrite oppr0 add0r; congr block_mx; rewrite addrC.
  Qed.
  (** the characteristic polynomial of the compound matrix *)
  Lemma char_compound n (z : 'M[C]_n) :
    map_poly (real_complex F) (char_poly (to_compound_symmetric z)) = (char_poly (z *m bar z)) \Po 'X^2.
  Proof.
    rewrite -[map_poly _ _]/(map_poly (GRing.RMorphism.apply (ComplexField.real_complex_rmorphism F)) _) map_char_poly.
    have -> : map_mx (GRing.RMorphism.apply (ComplexField.real_complex_rmorphism F)) (to_compound_symmetric z) =
              as_complex (to_compound_symmetric z) by rewrite as_complexE.
    rewrite -(char_conj _ (Tm_unit n)) Tm_compound -mulmxA mulmxV ?Tm_unit // mulmx1.
    by rewrite char_anti char_mulC.
  Qed.
  Lemma compound_char n (w w' : 'M[C]_n) : char_poly (w *m bar w) = char_poly (w' *m bar w') ->
    char_poly (to_compound_symmetric w) = char_poly (to_compound_symmetric w').
  Proof.
    move=> E; apply: (@map_poly_inj _ _ (ComplexField.real_complex_rmorphism F)).
    by rewrite [LHS]char_compound E -char_compound.
  Qed.
End Spectrum.
