(** Lemmas for the Siegel spaces: dist in terms of the cross ratio. *)
From mathcomp Require Import all_ssreflect all_algebra.
From mathcomp.real_closed Require Import complex.
From Verif Require Import FieldTac SpdModel SpdSpec SpdProofs SpdProofs2 SiegelModel SiegelSpec SiegelProofs SiegelProofs2 SiegelProofs3 SiegelProofs4 SiegelProofs5.
Import GRing.Theory Order.Theory Num.Theory.
Local Open Scope ring_scope.
Local Open Scope complex_scope.
Set Implicit Arguments. Unset Strict Implicit. Unset Printing Implicit Defensive.

Section Eps.
  Variable F : rcfType.
  Lemma EPS_gt0 p : 0 < EPS F p.
  Proof. by case: p; rewrite divr_gt0 ?exprn_gt0 ?ltr0n ?ltr01. Qed.
  Lemma EPS_lt1 p : EPS F p < 1.
  Proof.
    case: p; rewrite /= ltr_pdivr_mulr ?exprn_gt0 ?ltr0n // mul1r -?natrX ?ltr_nat //.
    by rewrite -[1]/(1%:R) ltr_nat.
  Qed.
End Eps.

Section Dist.
  Variable F : rcfType.
  Notation C := F[i].
  Implicit Types n : nat.
  Variables (exp log : F -> F) (p : precision).
  Variable eigvalsh : forall n, 'M[F]_n -> 'rV[F]_n.
  Variable eighU : forall n, 'M[F]_n -> 'rV[F]_n * 'M[F]_n.
  Hypothesis EV : eigvalsh_ok eigvalsh.
  Hypothesis EU : eigh_ok eighU.
  Local Notation sdist := (siegel_dist eigvalsh eighU log p).
  Local Notation vd := (vector_dist log (EPS F p)).

  Lemma vvd_ok n (s : 'rV[F]_n) : (forall i, 0 <= s ord0 i < 1) -> vvd_of log p s = Ok (vd s).
  Proof.
    move=> H; rewrite /vvd_of.
    have -> : [forall i, 0 - EPS F p <= s ord0 i].
      apply/forallP => i; rewrite sub0r; case/andP: (H i) => a _; apply: le_trans a.
      by rewrite oppr_le0 ltW ?EPS_gt0.
    have -> : [forall i, s ord0 i <= 101%:R / 100%:R] => //.
    apply/forallP => i; case/andP: (H i) => _ a; apply: le_trans (ltW a) _.
    by rewrite ler_pdivl_mulr ?ltr0n // mul1r ler_nat.
  Qed.
  Lemma takagi_range n (w : 'M[C]_n) : in_bounded_domain w ->
    [/\ ascending (takagi_eigvals eigvalsh w), forall i, 0 <= takagi_eigvals eigvalsh w ord0 i < 1,
        char_poly (w *m bar w) = \prod_i ('X - ((takagi_eigvals eigvalsh w ord0 i ^+ 2)%:C)%:P) &
        (forall i, takagi_eigvals eigvalsh w ord0 i = 0) -> w = 0].
  Proof.
    move=> H; case: (H) => S _; have SP := EV (compound_sym S); case: (SP) => A [Q [QQ ME]].
    split.
    - exact: d_asc A.
    - by move=> i; rewrite (d_ge0 QQ ME A) (d_lt1 S QQ ME A H).
    - exact: char_squares SP.
    - move=> Z; rewrite (takagi_id QQ ME A).
      have -> : rsubmx (eigvalsh (to_compound_symmetric w)) = 0.
        by apply/rowP => i; rewrite [RHS]mxE -(Z i).
      by rewrite rdE linear0 (_ : as_complex 0 = 0) ?mulmx0 ?mul0mx //; apply/matrixP => i j; rewrite !mxE.
  Qed.
  Lemma dist_key n (z1 z2 : 'M[C]_n) : in_upper_half z1 -> in_upper_half z2 ->
    exists s : 'rV[F]_n, [/\ root_spectrum (crs z1 z2) s, (forall i, s ord0 i = 0) -> z1 = z2 &
      forall m, sdist m z1 z2 = compute_metric m (vd s)].
  Proof.
    move=> H1 H2; have [w [t [E B U W]]] := crossratio_E EU H1 H2.
    have [A R CP Z] := takagi_range B.
    have U' : as_complex t \in unitmx by rewrite ac_unit.
    exists (takagi_eigvals eigvalsh w); split.
    - split; [exact: A | exact: R |].
      by rewrite -CP W cr_conj ?ac_bar.
    - move/Z => W0; move: W; rewrite W0 => /(congr1 (fun x => invmx (as_complex t) *m x *m as_complex t)).
      rewrite mulmx0 mul0mx !mulmxA mulVmx // mul1mx mulmxKV // /cr => /(congr1 (fun x => x *m (z2 - bar z1))).
      by rewrite mul0mx mulmxKV ?diff_unit // => /esym/eqP; rewrite subr_eq0 => /eqP.
    - by move=> m; rewrite /siegel_dist E /= vvd_ok.
  Qed.
  Lemma root_unique n (r : 'M[C]_n) s s' : root_spectrum r s -> root_spectrum r s' -> s = s'.
  Proof.
    case=> A R E [A' R' E']; move: E; rewrite E' => E.
    apply: row_seq_inj; apply: (sorted_eq le_trans le_anti); try exact: row_seq_sorted.
    have H : forall u : 'rV[F]_n, (forall i, 0 <= u ord0 i < 1) ->
      [seq Num.sqrt (complex.Re t) | t <- [seq ((u ord0 i) ^+ 2)%:C | i <- enum 'I_n]] = row_seq u.
      move=> u Hu; rewrite -map_comp; apply: eq_map => i /=; rewrite sqrtr_sqr ger0_norm //; by case/andP: (Hu i).
    rewrite -(H s) // -(H s') //; apply: perm_map; apply: prod_perm.
    by rewrite big_map big_enum [RHS]big_map big_enum E.
  Qed.
  Lemma dist_char n (z1 z2 w1 w2 : 'M[C]_n) m :
    in_upper_half z1 -> in_upper_half z2 -> in_upper_half w1 -> in_upper_half w2 ->
    char_poly (crs z1 z2) = char_poly (crs w1 w2) -> sdist m z1 z2 = sdist m w1 w2.
  Proof.
    move=> Z1 Z2 W1 W2 E.
    have [s [S _ ->]] := dist_key Z1 Z2; have [s' [S' _ ->]] := dist_key W1 W2.
    suff -> : s = s' by [].
    apply: (root_unique _ S'); case: S => A R CP.
    by split; [exact: A | exact: R | rewrite -E; exact: CP].
  Qed.
  Lemma cross_crs n (z w : 'M[C]_n) : cross_ratio z w = crs w z.
  Proof. by rewrite crsE /cross_ratio !mulmxA. Qed.
  Lemma dist_is_cross n (z1 z2 : 'M[C]_n) : in_upper_half z1 -> in_upper_half z2 ->
    exists s : 'rV[F]_n, root_spectrum (cross_ratio z1 z2) s /\ forall m, sdist m z1 z2 = compute_metric m (vd s).
  Proof.
    move=> H1 H2; have [s [[A R E] _ D]] := dist_key H1 H2; exists s; split=> //.
    by split; [exact: A | exact: R | rewrite cross_crs -(crs_sym H1 H2); exact: E].
  Qed.
  Lemma dist_sym n (z1 z2 : 'M[C]_n) m : in_upper_half z1 -> in_upper_half z2 -> sdist m z1 z2 = sdist m z2 z1.
  Proof. by move=> H1 H2; apply: dist_char; [exact: H1|exact: H2|exact: H2|exact: H1|exact: crs_sym]. Qed.
  Lemma dist_trans n (z1 z2 : 'M[C]_n) (b : 'M[F]_n) m : symmetric b -> in_upper_half z1 -> in_upper_half z2 ->
    sdist m (z1 + as_complex b) (z2 + as_complex b) = sdist m z1 z2.
  Proof. by move=> B H1 H2; apply: dist_char; [exact: trans_uh|exact: trans_uh|exact: H1|exact: H2|rewrite crs_trans]. Qed.
  Lemma dist_congr n (z1 z2 : 'M[C]_n) (a : 'M[F]_n) m : a \in unitmx -> in_upper_half z1 -> in_upper_half z2 ->
    sdist m (as_complex a *m z1 *m as_complex a^T) (as_complex a *m z2 *m as_complex a^T) = sdist m z1 z2.
  Proof. by move=> U H1 H2; apply: dist_char; [exact: congr_uh|exact: congr_uh|exact: H1|exact: H2|exact: crs_congr]. Qed.
  Lemma dist_inv n (z1 z2 : 'M[C]_n) m : in_upper_half z1 -> in_upper_half z2 ->
    sdist m (- invmx z1) (- invmx z2) = sdist m z1 z2.
  Proof. by move=> H1 H2; apply: dist_char; [exact: inv_uh|exact: inv_uh|exact: H1|exact: H2|exact: crs_inv]. Qed.

  (** * the metrics *)
  Hypothesis EL : explog exp log.
  Lemma log1 : log 1 = 0.
  Proof.
    have E0 : exp 0 = 1.
      have := expD EL 0 0; rewrite addr0 => /esym/eqP; rewrite -subr_eq0 -[X in _ - X]mulr1 -mulrBr mulf_eq0.
      by rewrite gt_eqF ?(exp_gt0 EL) //= subr_eq0 => /eqP.
    by rewrite -E0 (expK EL).
  Qed.
  Lemma log_ge0 t : 1 <= t -> 0 <= log t.
  Proof.
    rewrite le_eqVlt => /orP[/eqP <- | H]; first by rewrite log1.
    by rewrite -log1 ltW // (log_mono EL) ?ltr01.
  Qed.
  Lemma max_le1 t : 0 <= t -> 0 < Num.max (EPS F p) (1 - t) <= 1.
  Proof. by move=> H; rewrite lt_maxr EPS_gt0 /= le_maxl (ltW (EPS_lt1 _ _)) /= ler_subl_addr ler_addl. Qed.
  Lemma vd_term_ge0 t : 0 <= t -> 0 <= log ((1 + t) / Num.max (EPS F p) (1 - t)).
  Proof.
    move=> H; case/andP: (max_le1 H) => M0 M1; apply: log_ge0.
    by rewrite ler_pdivl_mulr // mul1r; apply: le_trans M1 _; rewrite ler_addl.
  Qed.
  Lemma vd_term_gt0 t : 0 < t -> 0 < log ((1 + t) / Num.max (EPS F p) (1 - t)).
  Proof.
    move=> H; case/andP: (max_le1 (ltW H)) => M0 M1; rewrite -log1; apply: (log_mono EL); first exact: ltr01.
    by rewrite ltr_pdivl_mulr // mul1r; apply: le_lt_trans M1 _; rewrite ltr_addl.
  Qed.
  Lemma vd_term0 : log ((1 + 0) / Num.max (EPS F p) (1 - 0)) = 0.
  Proof. by rewrite addr0 subr0 max_r ?divr1 ?log1 // ltW ?EPS_lt1. Qed.
  Lemma vd_ge0 n (s : 'rV[F]_n) : (forall i, 0 <= s ord0 i < 1) -> all (fun x => 0 <= x) (vd s).
  Proof.
    move=> H; rewrite all_map; apply/allP => i _ /=; apply: vd_term_ge0.
    by case/andP: (H i).
  Qed.
  Lemma vd_eq0 n (s : 'rV[F]_n) : (forall i, 0 <= s ord0 i < 1) -> all (fun x => x == 0) (vd s) -> forall i, s ord0 i = 0.
  Proof.
    move=> H; rewrite all_map => /allP K i; have /= := K i (mem_enum _ i).
    case/andP: (H i); rewrite le_eqVlt => /orP[/eqP <- // | /vd_term_gt0 L] _.
    by rewrite gt_eqF.
  Qed.
  Lemma vd_0 n : vd (0 : 'rV[F]_n) = nseq n 0.
  Proof.
    rewrite /vector_dist (eq_map (f2 := fun=> 0)); last by move=> i; rewrite mxE vd_term0.
    by rewrite -[in RHS](size_enum_ord n); elim: (enum 'I_n) => //= x l ->.
  Qed.
  Lemma size_vd n (s : 'rV[F]_n) : size (vd s) = n.
  Proof. by rewrite size_map size_enum_ord. Qed.
  Lemma nth_vd n (s : 'rV[F]_n) (i : 'I_n) x0 :
    nth x0 (vd s) i = log ((1 + s ord0 i) / Num.max (EPS F p) (1 - s ord0 i)).
  Proof. by rewrite /vector_dist (nth_map i) ?size_enum_ord // nth_ord_enum. Qed.
  Lemma vd_sorted n (s : 'rV[F]_n) : ascending s -> (forall i, 0 <= s ord0 i < 1) -> sorted <=%O (vd s).
  Proof.
    move=> A H; apply/(sortedP 0) => k; rewrite size_vd => kn.
    have k' : (k < n)%N by apply: ltnW.
    rewrite -[k]/(nat_of_ord (Ordinal k')) nth_vd -[k.+1]/(nat_of_ord (Ordinal kn)) nth_vd.
    have L : s ord0 (Ordinal k') <= s ord0 (Ordinal kn) by apply: A => /=.
    have := H (Ordinal k'); have := H (Ordinal kn); move: L.
    move: (s ord0 (Ordinal k')) (s ord0 (Ordinal kn)) => a b ab /andP[b0 b1] /andP[a0 a1].
    case/andP: (max_le1 a0) => Ma0 _; case/andP: (max_le1 b0) => Mb0 _.
    have Q : (1 + a) / Num.max (EPS F p) (1 - a) <= (1 + b) / Num.max (EPS F p) (1 - b).
      apply: ler_pmul; rewrite ?invr_ge0 ?addr_ge0 ?ler01 ?(ltW Ma0) ?ler_add2l //.
      rewrite lef_pinv ?posrE // le_maxl le_maxr lexx /= le_maxr; apply/orP; right.
      by rewrite ler_add2l ler_opp2.
    move: Q; rewrite le_eqVlt => /orP[/eqP -> // | Q]; apply: ltW; apply: (log_mono EL) => //.
    by rewrite divr_gt0 // ltr_paddr // ltr01.
  Qed.
End Dist.
