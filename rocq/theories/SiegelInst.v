(** Concrete oracles and cases for the Siegel spaces. *)
From mathcomp Require Import all_ssreflect all_fingroup all_algebra.
From mathcomp.real_closed Require Import complex.
From Verif Require Import FieldTac SpdModel SpdSpec SpdProofs Spectral SiegelModel SiegelSpec SiegelProofs SiegelProofs2 SiegelProofs3 SiegelProofs6 SiegelProofs9 SiegelProofs11 SiegelProofs12.
Import GRing.Theory Order.Theory Num.Theory.
Local Open Scope ring_scope.
Local Open Scope complex_scope.
Set Implicit Arguments. Unset Strict Implicit. Unset Printing Implicit Defensive.

Section Inst.
  Variable F : rcfType.
  Notation C := F[i].
  Lemma sort_row n (e : 'rV[F]_n) : exists s : 'S_n, ascending (\row_i e ord0 (s i)).
  Proof.
    pose t := [tuple e ord0 i | i < n]; pose t' := sort_tuple <=%O t.
    have /tuple_permP[s E] : perm_eq t' t by rewrite perm_sort.
    exists s => i j ij; rewrite !mxE.
    have S : sorted <=%O t' by exact: sort_le_sorted.
    have N (k : 'I_n) : e ord0 (s k) = nth 0 t' k.
      by rewrite E -tnth_nth tnth_mktuple tnth_mktuple.
    rewrite !N; apply: (sorted_leq_nth le_trans le_refl) => //.
    - by rewrite inE size_tuple.
    - by rewrite inE size_tuple.
  Qed.
  Lemma eigh_asc_ex n (x : 'M[F]_n) : x^T == x -> exists q : 'rV[F]_n * 'M[F]_n,
    [&& [forall i : 'I_n, forall j : 'I_n, (i <= j)%N ==> (q.1 ord0 i <= q.1 ord0 j)], q.2^T *m q.2 == 1%:M & x == q.2 *m diag_mx q.1 *m q.2^T].
  Proof.
    move/eqP => S; have [e [v [V E]]] := spectral S; have [s A] := sort_row e.
    exists (\row_i e ord0 (s i), col_perm s v); apply/and3P; split=> /=.
    - by apply/forallP => i; apply/forallP => j; apply/implyP; exact: A.
    - apply/eqP/matrixP => i j; rewrite mxE.
      transitivity ((v^T *m v) (s i) (s j)); first by rewrite [RHS]mxE; apply: eq_bigr => k _; rewrite !mxE.
      by rewrite V !mxE (inj_eq perm_inj).
    - rewrite E; apply/eqP/matrixP => i j; rewrite !mul_mx_diag [LHS]mxE [RHS]mxE.
      rewrite (reindex_inj (@perm_inj _ s)); apply: eq_bigr => k _.
      by rewrite !mxE.
  Qed.
  Definition some_eigh_asc n (x : 'M[F]_n) : 'rV[F]_n * 'M[F]_n :=
    match @idP (x^T == x) with ReflectT h => xchoose (eigh_asc_ex h) | ReflectF _ => (0, 0) end.
  Lemma some_eigh_asc_ok : eigh_asc_ok some_eigh_asc.
  Proof.
    move=> n x /eqP S; rewrite /some_eigh_asc; case: {-}_ / idP => // h.
    have /and3P[/forallP A /eqP B /eqP D] := xchooseP (eigh_asc_ex h); split=> // i j ij.
    by move/forallP: (A i) => /(_ j); rewrite ij.
  Qed.
  Definition some_eigvalsh n (x : 'M[F]_n) : 'rV[F]_n := (some_eigh_asc x).1.
  Lemma some_eigvalsh_ok : eigvalsh_ok some_eigvalsh.
  Proof.
    move=> n x S; have [A O E] := some_eigh_asc_ok S; split=> //.
    by exists (some_eigh_asc x).2.
  Qed.
  Lemma herm_real n (h : 'M[C]_n) (t : C) : adj h = h -> root (char_poly h) t -> exists r, t = r%:C.
  Proof.
    move=> H /root_eigen[v v0 E].
    have P : 0 < hform 1%:M v by rewrite -ac1; apply: (hpos_ac (pos_def1 F n) v0).
    have K : hform h v = t * hform 1%:M v by rewrite /hform -mulmxA E -scalemxAr mxE mulmx1.
    move: K; rewrite (hform_real2 v H); move: P; rewrite (hform_real2 v (adj1 F n)).
    move: (quad _ _) (quad _ _) => a b; rewrite ltcR => a0; case: t E => p q _.
    move/eqP; rewrite eq_complex /= !(mulr0, mul0r, subr0, add0r, addr0) => /andP[_ /eqP B].
    exists p; congr (_ +i* _); apply/eqP; move/esym/eqP: B; rewrite mulf_eq0 => /orP[//|/eqP A].
    by rewrite A ltxx in a0.
  Qed.
  Lemma eigvalsh_c_ex n (h : 'M[C]_n) : adj h == h -> exists e : 'rV[F]_n,
    [forall i : 'I_n, forall j : 'I_n, (i <= j)%N ==> (e ord0 i <= e ord0 j)] && (char_poly h == \prod_i ('X - ((e ord0 i)%:C)%:P)).
  Proof.
    move/eqP => H.
    have [rs E] := closed_field_poly_normal (char_poly h).
    have E' : char_poly h = \prod_(x <- rs) ('X - x%:P).
      by rewrite E (monicP (char_poly_monic h)) scale1r.
    have SZ : size rs = n.
      have := size_char_poly h; rewrite E' size_prod_XsubC => -[]; exact.
    pose g : 'rV[F]_n := \row_i complex.Re (nth 0 rs i).
    have G : char_poly h = \prod_i ('X - ((g ord0 i)%:C)%:P).
      rewrite E' (big_nth 0) SZ big_mkord; apply: eq_bigr => i _; rewrite mxE.
      have : root (char_poly h) (nth 0 rs i) by rewrite E' root_prod_XsubC mem_nth // SZ.
      by move/(herm_real H) => [r ->].
    have [s A] := sort_row g; exists (\row_i g ord0 (s i)); apply/andP; split.
      by apply/forallP => i; apply/forallP => j; apply/implyP; exact: A.
    rewrite G (reindex_inj (@perm_inj _ s)); apply/eqP; apply: eq_bigr => i _.
    by rewrite [in RHS]mxE.
  Qed.
  Definition some_eigvalsh_c n (h : 'M[C]_n) : 'rV[F]_n :=
    match @idP (adj h == h) with ReflectT H => xchoose (eigvalsh_c_ex H) | ReflectF _ => 0 end.
  Lemma some_eigvalsh_c_ok : eigvalsh_c_ok some_eigvalsh_c.
  Proof.
    move=> n x /eqP S; rewrite /some_eigvalsh_c; case: {-}_ / idP => // h.
    have /andP[/forallP A /eqP D] := xchooseP (eigvalsh_c_ex h); split=> // i j ij.
    by move/forallP: (A i) => /(_ j); rewrite ij.
  Qed.
End Inst.
