(** Lemmas for the Siegel spaces: further counterexamples. *)
From mathcomp Require Import all_ssreflect all_algebra.
From mathcomp.real_closed Require Import complex.
From Verif Require Import FieldTac SpdModel SpdSpec SpdProofs SiegelModel SiegelSpec SiegelProofs SiegelProofs2 SiegelProofs3 SiegelProofs6 SiegelProofs7 SiegelProofs8 SiegelProofs9 SiegelProofs11 SiegelProofs13 SiegelInst.
Import GRing.Theory Order.Theory Num.Theory.
Local Open Scope ring_scope.
Local Open Scope complex_scope.
Set Implicit Arguments. Unset Strict Implicit. Unset Printing Implicit Defensive.

Section Wit.
  Variable F : rcfType.
  Notation C := F[i].
  Implicit Types n : nat.
  Variable eigh : forall n, 'M[F]_n -> 'rV[F]_n * 'M[F]_n.
  Hypothesis EH : eigh_asc_ok eigh.
  Variable p : precision.
  Notation eps := (EPS F p).
  (** multiples of the identity *)
  Lemma csc_sym n (c : C) : csymmetric (c%:M : 'M[C]_n).
  Proof. by rewrite /csymmetric tr_scalar_mx. Qed.
  Lemma im_sc n (c : C) : im_part (c%:M : 'M[C]_n) = (complex.Im c)%:M.
  Proof. by apply/matrixP => i j; rewrite !mxE; case: (i == j); rewrite ?mulr1n ?mulr0n. Qed.
  Lemma re_sc n (c : C) : re_part (c%:M : 'M[C]_n) = (complex.Re c)%:M.
  Proof. by apply/matrixP => i j; rewrite !mxE; case: (i == j); rewrite ?mulr1n ?mulr0n. Qed.
  Lemma bar_sc n (c : C) : bar (c%:M : 'M[C]_n) = (conjc c)%:M.
  Proof. by apply/matrixP => i j; rewrite !mxE; case: (i == j); rewrite ?mulr1n ?mulr0n ?conjc0. Qed.
  Lemma pos_sc n (t : F) : 0 < t -> pos_def (t%:M : 'M[F]_n).
  Proof. by move=> t0; rewrite -diag_const_mx; apply: diag_pos => i; rewrite mxE. Qed.
  Lemma neg_sc n (t : F) : t < 0 -> ~ pos_semidef (t%:M : 'M[F]_n.+1).
  Proof.
    move=> t0 [_ H]; have := H (delta_mx ord0 ord0); rewrite -diag_const_mx quad_diag.
    rewrite big_ord_recl big1 ?addr0; last by move=> i _; rewrite !mxE expr0n mulr0.
    by rewrite !mxE eqxx expr1n mulr1 leNgt t0.
  Qed.
  Definition imc (t : F) : C := Complex 0 t.
  Lemma uh_sc n (t : F) : 0 < t -> in_upper_half ((imc t)%:M : 'M[C]_n).
  Proof. by move=> t0; split; [exact: csc_sym | rewrite im_sc; exact: pos_sc]. Qed.
  Lemma uh_projx_moves n : exists2 z : 'M[C]_n.+1, in_upper_half z & uh_projx eigh p z <> z.
  Proof.
    exists (imc (eps / 2%:R))%:M; first by apply: uh_sc; rewrite divr_gt0 ?ltr0n ?EPS_gt0.
    move/(uh_projx_fix EH) => [_]; rewrite im_sc -raddfB; apply: neg_sc.
    by rewrite /= subr_lt0 ltr_pdivr_mulr ?ltr0n // ltr_pmulr ?EPS_gt0 // ltr1n.
  Qed.
  Lemma bd_sc n (t : F) : 0 <= t < 1 -> in_bounded_domain (t%:C%:M : 'M[C]_n).
  Proof.
    case/andP => t0 t1; split; first exact: csc_sym.
    have -> : 1%:M - bar t%:C%:M *m t%:C%:M = as_complex (1 - t * t)%:M :> 'M[C]_n.
      rewrite bar_sc conjc_real -scalar_mxM -raddfB; apply/matrixP => i j; rewrite !mxE.
      by case: (i == j); rewrite ?mulr1n ?mulr0n // [RHS]rmorphB rmorphM.
    by apply: hpos_ac; apply: pos_sc; rewrite subr_gt0 -expr2 expr_lt1.
  Qed.
  Lemma bd_projx_moves n : exists2 z : 'M[C]_n.+1, in_bounded_domain z & bd_projx eigh p z <> z.
  Proof.
    have e0 := EPS_gt0 F p; have e1 := EPS_lt1 F p.
    pose t := 1 - eps / 2%:R.
    have te : 1 - eps < t by rewrite ltr_add2l ltr_opp2 ltr_pdivr_mulr ?ltr0n // ltr_pmulr // ltr1n.
    have t0 : 0 <= t by apply: le_trans (ltW te); rewrite subr_ge0 ltW.
    exists t%:C%:M; first by apply: bd_sc; rewrite t0 /= /t gtr_addl oppr_lt0 divr_gt0 ?ltr0n.
    move/(bd_projx_fix EH) => [_] H.
    have := H (delta_mx ord0 ord0).
    rewrite bar_sc conjc_real -scalar_mxM -raddfB /= -rmorphM -rmorphB.
    rewrite mul_mx_scalar -scalemxAl mxE.
    have -> : (adj (delta_mx ord0 ord0 : 'cV[C]_n.+1) *m (delta_mx ord0 ord0 : 'cV[C]_n.+1)) ord0 ord0 = 1.
      rewrite mxE big_ord_recl big1 ?addr0; last by move=> i _; rewrite !mxE mulr0.
      by rewrite !mxE !eqxx conjc1 mulr1.
    rewrite mulr1 lecR subr_ge0 -expr2 ler_pexpn2r ?nnegrE ?(c_ge0 F p) // => /(lt_le_trans te).
    by rewrite ltxx.
  Qed.
  (** proju *)
  Lemma uh_proju_sc n (t : F) (u : 'M[C]_n) : csymmetric u -> uh_proju (imc t)%:M u = (t ^+ 2)%:C *: u.
  Proof.
    move=> S; rewrite /uh_proju uh_grad_E im_sc /=.
    have -> : as_complex (t%:M : 'M[F]_n) = t%:C%:M.
      by apply/matrixP => i j; rewrite !mxE; case: (i == j); rewrite ?mulr1n ?mulr0n.
    rewrite mul_scalar_mx mul_mx_scalar scalerA -rmorphM -expr2 csymE //.
    by rewrite /csymmetric linearZ /= S.
  Qed.
  Lemma uh_proju_not : exists (z u : 'M[C]_1), [/\ in_upper_half z, csymmetric u & uh_proju z u <> u /\ uh_proju z (uh_proju z u) <> uh_proju z u].
  Proof.
    exists (imc 2%:R)%:M, 1%:M; split; [by apply: uh_sc; rewrite ltr0n|exact: csc_sym|].
    have S1 : csymmetric (1%:M : 'M[C]_1) by exact: csc_sym.
    have S2 : csymmetric (((2%:R ^+ 2 : F)%:C) *: (1%:M : 'M[C]_1)) by rewrite /csymmetric linearZ /= tr_scalar_mx.
    rewrite !uh_proju_sc //; split.
      move/matrixP/(_ ord0 ord0); rewrite !mxE eqxx mulr1 => /eqP; rewrite eq_complex /= => /andP[/eqP/eqP].
      by rewrite -natrX pnatr_eq1.
    move/matrixP/(_ ord0 ord0); rewrite !mxE eqxx mulr1 -rmorphM => /eqP; rewrite eq_complex /= => /andP[/eqP/eqP].
    by rewrite -!natrX -natrM eqr_nat.
  Qed.
  Lemma bd_proju_not : exists (z u : 'M[C]_1), [/\ in_bounded_domain z, csymmetric u & bd_proju z u <> u].
  Proof.
    exists (2%:R^-1 : F)%:C%:M, 1%:M; split; [|exact: csc_sym|].
      apply: bd_sc; rewrite invr_ge0 ler0n /= invf_lt1 ?ltr0n ?ltr1n //.
    rewrite /bd_proju /bd_egrad2rgrad /bd_id_minus_conj_z_z /identity_like.
    rewrite -[conj _]/(bar _) bar_sc conjc_real.
    rewrite -scalar_mxM -raddfB mulmx1 -scalar_mxM csymE; last exact: csc_sym.
    move/matrixP/(_ ord0 ord0); rewrite !mxE eqxx !mulr1n -rmorphM -[1]/((1 : F)%:C) -rmorphB -rmorphM.
    move/eqP; rewrite eq_complex /= => /andP[/eqP E _].
    have L : (1 - 2%:R^-1 * 2%:R^-1 : F) < 1 by rewrite gtr_addl oppr_lt0 mulr_gt0 ?invr_gt0 ?ltr0n.
    have G : 0 <= (1 - 2%:R^-1 * 2%:R^-1 : F).
      by rewrite subr_ge0 -invfM invf_le1 -?natrM ?ltr0n // ler1n.
    have : (1 - 2%:R^-1 * 2%:R^-1 : F) ^+ 2 < 1 by rewrite expr_lt1.
    by rewrite expr2 E ltxx.
  Qed.
  (** the metric of minimum entropy *)
  Lemma fmin_not_doc : exists v : seq F, [/\ size v = 2%N, sorted <=%O v, all (fun x => 0 <= x) v &
    forall m, metric_get F FINSLER_MINIMUM (Some 2%N) = Ok m ->
      compute_metric m v <> Ok (\sum_(i < 2) (2 * (2 + 1 - i.+1))%:R * nth 0 v i)].
  Proof.
    exists [:: 1; 1]; split=> //=; rewrite ?lexx ?ler01 // => m [<-].
    rewrite (fmin_spec (r := 2)) // !big_ord_recl !big_ord0 /= !mulr1 !addr0 => -[] /eqP.
    by rewrite -!natrD eqr_nat.
  Qed.
End Wit.

(** An eigendecomposition of the zero matrix for which the Takagi factor is singular. *)
Section Singular.
  Variable F : rcfType.
  Notation C := F[i].
  (** columns e2, e4, e1, e3 *)
  Definition Qs : 'M[F]_(2 + 2) :=
    \matrix_(i, j) (match nat_of_ord i, nat_of_ord j with
                    | 1, 0 | 3, 1 | 0, 2 | 2, 3 => 1 | _, _ => 0 end).
  Definition bad_eigh n : 'M[F]_n -> 'rV[F]_n * 'M[F]_n :=
    match n with
    | 4%N => fun x => if x == 0 then (0, Qs) else @some_eigh_asc F 4 x
    | k => @some_eigh_asc F k
    end.
  Lemma Qs_orth : Qs^T *m Qs = 1%:M.
  Proof.
    apply/matrixP => i j; rewrite mxE !big_ord_recl big_ord0 !mxE /=.
    case: i => [[|[|[|[|]]]]] // Hi; case: j => [[|[|[|[|]]]]] // Hj;
      by rewrite /= !(mulr0, mul0r, mulr1, addr0, add0r).
  Qed.
  Lemma bad_eigh_ok : eigh_asc_ok bad_eigh.
  Proof.
    move=> n x S; case: (n =P 4%N) => [E|N]; last first.
      have -> : bad_eigh x = some_eigh_asc x by rewrite /bad_eigh; move: x S N; case: n => [|[|[|[|[|n]]]]].
      exact: some_eigh_asc_ok.
    subst n; rewrite /bad_eigh; case: eqP => [E|_]; last exact: some_eigh_asc_ok.
    split=> /=; [by move=> i j _; rewrite !mxE|exact: Qs_orth|].
    by rewrite E linear0 mulmx0 mul0mx.
  Qed.
  Lemma takagi_singular : exists z : 'M[C]_2, csymmetric z /\ ~ unitary (takagi_eig bad_eigh z).2.
  Proof.
    exists 0; split; first by rewrite /csymmetric trmx0.
    rewrite /takagi_eig.
    have -> : to_compound_symmetric (0 : 'M[C]_2) = 0.
      by apply/matrixP => i j; rewrite !mxE; case: splitP => k _; rewrite !mxE; case: splitP => l _; rewrite !mxE ?oppr0.
    have T : @bad_eigh 4 0 = (0, Qs) by rewrite /bad_eigh eqxx.
    have -> : @bad_eigh (2 + 2) 0 = (0, Qs) by exact: T.
    move=> /= /matrixP/(_ ord0 (inord 1)).
    rewrite mxE !big_ord_recl big_ord0 !mxE /= !inordK //=.
    move/eqP; rewrite eq_complex /=.
    by rewrite !(mulr0, mul0r, mulr1, mul1r, addr0, add0r, subr0, sub0r, oppr0, opprK) -val_eqE /= inordK //= oppr_eq0 oner_eq0 andbF.
  Qed.
End Singular.

(** API-level forms used by the properties. *)
Section Api.
  Variable F : rcfType.
  Notation C := F[i].
  Implicit Types n : nat.
  Lemma cayley_round n (z : 'M[C]_n) : 1%:M - z \in unitmx ->
    exists2 x, cayley_transform z = Ok x & inverse_cayley_transform x = Ok z.
  Proof. by move=> U; exists (cay z); [rewrite cayE U | rewrite icayE cay_plus_unit // icay_cay]. Qed.
  Lemma cayley_round' n (x : 'M[C]_n) : x + iI F n \in unitmx ->
    exists2 z, inverse_cayley_transform x = Ok z & cayley_transform z = Ok x.
  Proof. by move=> U; exists (icay x); [rewrite icayE U | rewrite cayE icay_unit // cay_icay]. Qed.
  Lemma cayley_raises n (z : 'M[C]_n) : 1%:M - z \notin unitmx -> cayley_transform z = Raises LinAlgError.
  Proof. by move=> U; rewrite cayE (negbTE U). Qed.
  Lemma icayley_raises n (x : 'M[C]_n) : x + iI F n \notin unitmx -> inverse_cayley_transform x = Raises LinAlgError.
  Proof. by move=> U; rewrite icayE (negbTE U). Qed.
  Lemma cayley_csym n (z x : 'M[C]_n) : csymmetric z -> cayley_transform z = Ok x -> csymmetric x.
  Proof. by move=> S; rewrite cayE; case: ifP => // U [<-]; exact: cay_sym. Qed.
  Lemma icayley_csym n (x z : 'M[C]_n) : csymmetric x -> inverse_cayley_transform x = Ok z -> csymmetric z.
  Proof. by move=> S; rewrite icayE; case: ifP => // U [<-]; exact: icay_sym. Qed.
  Lemma cayley_models n (z : 'M[C]_n) : in_bounded_domain z -> exists2 x, cayley_transform z = Ok x & in_upper_half x.
  Proof. by move=> H; exists (cay z); [rewrite cayE bd_unit | exact: cay_uh]. Qed.
  Lemma icayley_models n (x : 'M[C]_n) : in_upper_half x -> exists2 z, inverse_cayley_transform x = Ok z & in_bounded_domain z.
  Proof. by move=> H; exists (icay x); [rewrite icayE uh_plus_unit | exact: icay_bd]. Qed.
  Lemma bd_pullback n (z u v : 'M[C]_n) : in_bounded_domain z -> exists2 x, cayley_transform z = Ok x &
    uh_inner x (cayley_diff z u) (cayley_diff z v) = Ok (4%:R * bd_metric z u v).
  Proof. by move=> H; exists (cay z); [rewrite cayE bd_unit | exact: pullback]. Qed.
  Lemma bd_grad_refuted : exists (z g v : 'M[C]_2) (a : C),
    [/\ in_bounded_domain z, csymmetric v, bd_inner z (bd_egrad2rgrad z g) v = Ok a &
        complex.Re a <> complex.Re (pairing g v)].
  Proof.
    exists (Zb F), (E11 F), (E11 F), (Complex (7%:R / 5%:R) 0); split;
      [exact: Zb_in | by rewrite /csymmetric /E11 tr2 | exact: grad_wit |].
    rewrite grad_pair /= => /(canRL (mulfVK _)); rewrite mul1r => H.
    have /eqP : (7%:R : F) = 5%:R by apply: H; rewrite pnatr_eq0.
    by rewrite eqr_nat.
  Qed.
  Lemma metric_refuted : exists (z u v : 'M[C]_2) (a : C),
    [/\ in_bounded_domain z, csymmetric u, csymmetric v & bd_inner z u v = Ok a /\
        complex.Re a < 0 < complex.Re (bd_metric z u v)].
  Proof.
    have [A B] := inner_wit F.
    exists (Zb F), (E11 F), (E12 F), (Complex (- (96%:R / 25%:R)) 0); split;
      [exact: Zb_in | by rewrite /csymmetric /E11 tr2 | by rewrite /csymmetric /E12 tr2 | split=> //].
    by rewrite B /= oppr_lt0 divr_gt0 ?ltr0n.
  Qed.
  Lemma fmin_of_get r m (v : seq F) : metric_get F FINSLER_MINIMUM (Some r) = Ok m -> size v = r ->
    compute_metric m v = Ok (\sum_(i < r) (2 * i)%:R * nth 0 v i).
  Proof. by rewrite /metric_get; case: ifP => // _ [<-]; exact: fmin_spec. Qed.
  Lemma vector_check n atol rtol (x u : 'M[C]_n) : 0 <= atol -> 0 <= rtol ->
    (csymmetric u -> check_vector atol rtol x u) /\ (check_vector 0 0 x u -> csymmetric u).
  Proof.
    move=> a0 r0; split=> [S|/forallP H].
      apply/forallP => i; apply/forallP => j; rewrite S subrr /cmod /= expr0n addr0 sqrtr0.
      by rewrite addr_ge0 // mulr_ge0 ?sqrtr_ge0.
    apply/matrixP => i j; move/forallP: (H i) => /(_ j); rewrite mul0r addr0 /cmod.
    case: (u i j) (u^T i j) => a b [c d] /= L.
    have : Num.sqrt ((a - c) ^+ 2 + (b - d) ^+ 2) = 0 by apply/eqP; rewrite eq_le L sqrtr_ge0.
    move/eqP; rewrite sqrtr_eq0 => K.
    have : (a - c) ^+ 2 + (b - d) ^+ 2 = 0 by apply/eqP; rewrite eq_le K addr_ge0 ?sqr_ge0.
    by move/eqP; rewrite paddr_eq0 ?sqr_ge0 // !expf_eq0 /= !subr_eq0 => /andP[/eqP -> /eqP ->].
  Qed.
  Lemma origins_in n : in_upper_half (uh_origin F n) /\ in_bounded_domain (bd_origin F n).
  Proof.
    split; last exact: bd0.
    split; first by rewrite /csymmetric /uh_origin tr_to trmx0 trmx1.
    by rewrite /uh_origin im_to; exact: pos_def1.
  Qed.
  Lemma uh_projx_ok eigh : eigh_asc_ok eigh -> forall p n (z : 'M[C]_n),
    in_upper_half (uh_projx eigh p z) /\ uh_projx eigh p (uh_projx eigh p z) = uh_projx eigh p z /\
    re_part (uh_projx eigh p z) = 2%:R^-1 *: (re_part z + (re_part z)^T).
  Proof.
    move=> E p n z; split; first exact: uh_projx_in; split; first exact: uh_projx_idem.
    rewrite uh_projx_re /csym; apply/matrixP => i j; rewrite !mxE.
    have -> : (2%:R^-1 : C) = (2%:R^-1 : F)%:C by rewrite fmorphV rmorph_nat.
    by case: (z i j) (z j i) => a b [c d] /=; rewrite mul0r subr0 addrC.
  Qed.
  Add Field CKf14 : (fth (CK F)).
  Lemma line_id (T j : C) : T + 1 != 0 -> j != 0 ->
    (j - T * j) / (j + T * j) * (- j + T * j) / (- j - T * j) = ((T - 1) / (T + 1)) ^+ 2.
  Proof.
    move=> T0 j0; have -> : - j - T * j = - ((T + 1) * j) by f_goal (CK F); ring.
    have -> : j + T * j = (T + 1) * j by f_goal (CK F); ring.
    have -> : j - T * j = - ((T - 1) * j) by f_goal (CK F); ring.
    have -> : - j + T * j = (T - 1) * j by f_goal (CK F); ring.
    have <- : (T - 1) * j / ((T + 1) * j) = (T - 1) / (T + 1) by rewrite invfM mulrACA divff // mulr1.
    by rewrite invrN mulrN !mulNr opprK expr2 !mulrA.
  Qed.
  (** * points i and t i of the half plane *)
  Variables (exp log : F -> F) (p : precision).
  Variables (eigvalsh : forall n, 'M[F]_n -> 'rV[F]_n) (eighU : forall n, 'M[F]_n -> 'rV[F]_n * 'M[F]_n).
  Hypotheses (EV : eigvalsh_ok eigvalsh) (EU : eigh_ok eighU) (EL : explog exp log).
  Notation eps := (EPS F p).
  Lemma inv_sc n (c : C) : c != 0 -> invmx (c%:M : 'M[C]_n) = c^-1%:M.
  Proof. by move=> c0; apply: (proj2 (inv_of _)); rewrite -scalar_mxM mulfV. Qed.
  Lemma cross_line (t : F) : 1 <= t -> root_spectrum (cross_ratio ((imc 1)%:M : 'M[C]_1) (imc t)%:M) (const_mx ((t - 1) / (t + 1))).
  Proof.
    move=> t1; have t0 : 0 < t + 1 by rewrite addr_gt0 // (lt_le_trans ltr01).
    split; [by move=> i j _; rewrite !mxE| |].
      move=> i; rewrite mxE divr_ge0 ?subr_ge0 ?(ltW t0) //= ltr_pdivr_mulr // mul1r.
      by rewrite ltr_add2l (lt_trans (ltrN10 F) (ltr01)).
    have E (s : F) : imc s = s%:C * 'i%C by apply: ceq; rewrite /= !(mulr0, mul0r, subr0, oppr0, addr0, add0r, mulr1).
    have -> : cross_ratio ((imc 1)%:M : 'M[C]_1) (imc t)%:M = ((((t - 1) / (t + 1)) ^+ 2)%:C)%:M.
      have B (s : F) : conjc (imc s) = - imc s by apply: ceq; rewrite /= ?oppr0.
      rewrite /cross_ratio !bar_sc !B -!raddfB /= !opprK !E.
      have -> : (((t - 1) / (t + 1)) ^+ 2)%:C = ((t%:C - 1) / (t%:C + 1)) ^+ 2.
        by rewrite [LHS]rmorphX [X in X ^+ _]fmorph_div rmorphB rmorphD rmorph1.
      rewrite mul1r.
      have N : t%:C + 1 != 0 by rewrite eq_complex /= negb_and (gt_eqF t0).
      rewrite !inv_sc -?scalar_mxM.
      - by congr (_%:M); rewrite opprB [t%:C * 'i%C - _]addrC; apply: (line_id N); exact: i_neq0.
      - by rewrite -opprD oppr_eq0 -[X in X + _]mul1r -mulrDl mulf_neq0 ?i_neq0 // addrC.
      - by rewrite -[X in X + _]mul1r -mulrDl mulf_neq0 ?i_neq0 // addrC.
    have -> : (((t - 1) / (t + 1)) ^+ 2)%:C%:M = diag_mx (const_mx ((((t - 1) / (t + 1)) ^+ 2)%:C)) :> 'M[C]_1.
      by rewrite diag_const_mx.
    by rewrite char_diag; apply: eq_bigr => i _; rewrite !mxE.
  Qed.
  Lemma half_plane (t : F) : 1 <= t ->
    exists2 d, uh_dist eigvalsh eighU log p (RiemannianMetric F) ((imc 1)%:M : 'M[C]_1) (imc t)%:M = Ok d &
      (t <= 2%:R / eps - 1 -> d = log t) /\ (2%:R / eps - 1 < t -> d < log t).
  Proof.
    move=> t1; have t0 : 0 < t + 1 by rewrite addr_gt0 // (lt_le_trans ltr01).
    have tp : 0 < t by rewrite (lt_le_trans ltr01).
    have U1 : in_upper_half ((imc 1)%:M : 'M[C]_1) by apply: uh_sc; exact: ltr01.
    have U2 : in_upper_half ((imc t)%:M : 'M[C]_1) by apply: uh_sc.
    have [s [S D]] := dist_is_cross log p EV EU U1 U2.
    have {}S := root_unique S (cross_line t1); subst s.
    rewrite /uh_dist D /vector_dist.
    have -> : enum 'I_1 = [:: ord0] by apply: (inj_map val_inj); rewrite val_enum_ord.
    rewrite /= !mxE.
    set s := (t - 1) / (t + 1).
    have e0 := EPS_gt0 F p.
    have s0 : 0 <= s by rewrite divr_ge0 ?subr_ge0 ?(ltW t0).
    have A : 1 + s = 2%:R * t / (t + 1).
      by rewrite -[X in X + _](mulfV (lt0r_neq0 t0)) -mulrDl; congr (_ / _); rewrite mulr_natl mulr2n addrACA subrr addr0.
    have B : 1 - s = 2%:R / (t + 1).
      by rewrite -[X in X - _](mulfV (lt0r_neq0 t0)) -mulrBl; congr (_ / _); rewrite opprB [t + 1]addrC -addrA [t + _]addrC subrK.
    have K : (eps <= 1 - s) = (t <= 2%:R / eps - 1).
      by rewrite B ler_pdivl_mulr // ler_subr_addr ler_pdivl_mulr // mulrC.
    exists (log ((1 + s) / Num.max eps (1 - s))).
      rewrite /sum /= big_seq1 sqrtr_sqr ger0_norm //; exact (vd_term_ge0 p EL s0).
    have Q : (1 + s) / (1 - s) = t.
      rewrite A B invfM invrK mulrA mulrAC mulfVK ?(lt0r_neq0 t0) // mulrAC mulfV ?mul1r //.
      by rewrite pnatr_eq0.
    split=> H.
      by rewrite (max_idPr _) ?K // Q.
    have L : 1 - s < eps by rewrite ltNge K -ltNge.
    rewrite (max_idPl _) ?ltW //; apply: (log_mono EL).
      by rewrite divr_gt0 // (lt_le_trans ltr01) // ler_addl.
    rewrite -[X in _ < X]Q ltr_pmul2l; last by rewrite (lt_le_trans ltr01) // ler_addl.
    by rewrite ltf_pinv ?posrE // B divr_gt0 ?ltr0n.
  Qed.
End Api.
(** * shapes *)
Lemma origin_shape2 n : uh_origin_shape [:: n; n] = Ok [:: n; n].
Proof. by []. Qed.
Lemma origin_shape_batch (b : seq nat) n : b <> [::] -> uh_origin_shape (b ++ [:: n; n]) <> Ok (b ++ [:: n; n]).
Proof.
  case: b => [//|x b] _; rewrite /uh_origin_shape -cat_rcons cats1 rev_rcons /= revK.
  case: b => [|y b] /=.
    by case.
  by case: b => [|w b].
Qed.
Lemma origin_shape_long (b : seq nat) n : (1 < size b)%N -> uh_origin_shape (b ++ [:: n; n]) = Raises TypeError.
Proof.
  case: b => [//|x [//|y b]] _; rewrite /uh_origin_shape -cat_rcons cats1 rev_rcons /= revK /=.
  by case: b => [|w b].
Qed.
Lemma dist_shape_keepdim m k (b : seq nat) : dist_shape m k b = dist_shape m (~~ k) b.
Proof. by []. Qed.
Lemma dist_shape_batch m k (b : seq nat) : dist_shape m k b = b <-> m = RIEMANNIAN.
Proof.
  split; last by move=> ->.
  by case: m => //= H; move: (congr1 size H); rewrite /dist_shape /=; case: {H} b => [|d b] //=;
    rewrite size_rcons => /eqP; rewrite -[_ == _]/((size b).+1 == size b)%N eqn_leq ltnn.
Qed.
