(** Lemmas for the Siegel spaces: the metrics, definiteness of dist, the bounded domain. *)
From mathcomp Require Import all_ssreflect all_algebra.
From mathcomp.real_closed Require Import complex.
From Verif Require Import FieldTac SpdModel SpdSpec SpdProofs SpdProofs2 SiegelModel SiegelSpec SiegelProofs SiegelProofs2 SiegelProofs3 SiegelProofs4 SiegelProofs5 SiegelProofs6.
Import GRing.Theory Order.Theory Num.Theory.
Local Open Scope ring_scope.
Local Open Scope complex_scope.
Set Implicit Arguments. Unset Strict Implicit. Unset Printing Implicit Defensive.

Section Metrics.
  Variable F : rcfType.
  Implicit Types (v w : seq F).
  Lemma riem_spec v : exists2 d, compute_metric (RiemannianMetric F) v = Ok d & 0 <= d /\ d ^+ 2 = \sum_(x <- v) x ^+ 2.
  Proof.
    eexists; first by []. split; first exact: sqrtr_ge0.
    rewrite sqr_sqrtr /sum big_map //; apply: sumr_ge0 => x _; exact: sqr_ge0.
  Qed.
  Lemma fone_spec v : compute_metric (FinslerOneMetric F) v = Ok (\sum_(x <- v) x).
  Proof. by []. Qed.
  Lemma last_sorted x v : sorted <=%O (x :: v) -> all (fun y => y <= last x v) (x :: v).
  Proof.
    elim: v x => [|y v IH] x /=; first by rewrite lexx.
    case/andP=> xy S; have := IH y S; rewrite /= => /andP[H ->]; rewrite H !andbT.
    exact: le_trans xy H.
  Qed.
  Lemma finf_spec v : v <> [::] -> sorted <=%O v ->
    exists2 d, compute_metric (FinslerInfinityMetric F) v = Ok d & d \in v /\ forall x, x \in v -> x <= d.
  Proof.
    case: v => // x v _ S; exists (last x v) => //; split; first exact: mem_last.
    by move=> y; apply: (allP (last_sorted S)).
  Qed.
  Lemma sum_zip w v : size w = size v ->
    sum [seq x.1 * x.2 | x <- zip w v] = \sum_(i < size v) nth 0 w i * nth 0 v i.
  Proof.
    move=> E; rewrite /sum big_map (big_nth (0, 0)) size_zip E minnn big_mkord.
    by apply: eq_bigr => i _; rewrite nth_zip.
  Qed.
  Lemma bm_same w v : size w = size v -> broadcast_mul w v = Ok [seq x.1 * x.2 | x <- zip w v].
  Proof. by move=> E; rewrite /broadcast_mul E eqxx. Qed.
  Lemma wsum_spec w v : size w = size v ->
    compute_metric (FinslerWeightedSumMetric w) v = Ok (\sum_(i < size v) Num.max (nth 0 w i) 0 * nth 0 v i).
  Proof.
    move=> E; have E' : size [seq Num.max x 0 | x <- w] = size v by rewrite size_map.
    rewrite /compute_metric bm_same //= sum_zip //; congr Ok; apply: eq_bigr => i _.
    by rewrite (nth_map 0) ?E.
  Qed.
  Lemma wmismatch w v : size w != size v -> size v != 1%N -> size w != 1%N ->
    compute_metric (FinslerWeightedSumMetric w) v = Raises RuntimeError /\
    compute_metric (FinslerMinimumEntropyMetric w) v = Raises RuntimeError.
  Proof. by move=> A B D; rewrite /compute_metric /broadcast_mul size_map (negbTE A) (negbTE B) (negbTE D). Qed.
  Lemma size_fmin r : size (fmin_weights F r) = r.
  Proof. by rewrite !size_map size_iota. Qed.
  Lemma nth_fmin r i : (i < r)%N -> nth 0 (fmin_weights F r) i = (2 * i)%:R.
  Proof.
    move=> ir; rewrite /fmin_weights (nth_map 0) ?size_map ?size_iota // /arange_down (nth_map 0%N) ?size_iota //.
    rewrite nth_iota // add0n -[1]/(1%:R) -natrD addn1 -natrB ?leq_subr // subKn; last by rewrite ltnW // ltnS ltnW.
    by rewrite -natrM.
  Qed.
  Lemma fmin_spec r v : size v = r ->
    compute_metric (FinslerMinimumEntropyMetric (fmin_weights F r)) v = Ok (\sum_(i < r) (2 * i)%:R * nth 0 v i).
  Proof.
    move=> E; have E' : size (fmin_weights F r) = size v by rewrite size_fmin.
    rewrite /compute_metric bm_same //= sum_zip // E; congr Ok; apply: eq_bigr => i _.
    by rewrite nth_fmin.
  Qed.
  Lemma fmin_get r : (1 < r)%N -> metric_get F FINSLER_MINIMUM (Some r) = Ok (FinslerMinimumEntropyMetric (fmin_weights F r)).
  Proof. by move=> H; rewrite /metric_get ltnNge H. Qed.
  Lemma wsum_get r : (1 < r)%N -> metric_get F WEIGHTED_SUM (Some r) = Ok (FinslerWeightedSumMetric (nseq r 1)).
  Proof. by move=> H; rewrite /metric_get ltnNge H. Qed.
  Lemma rank_error t r : (t = FINSLER_MINIMUM \/ t = WEIGHTED_SUM) -> (forall k, r = Some k -> (k < 2)%N) ->
    metric_get F t r = Raises ValueError.
  Proof.
    by case=> ->; case: r => [k|] //= H; rewrite (H k erefl).
  Qed.
  Lemma sum_nseq n : \sum_(x <- nseq n (0 : F)) x = 0.
  Proof. by rewrite big_nseq; elim: n => //= n ->; rewrite add0r. Qed.

  Definition good n (m : metric F) : Prop := forall v, size v = n ->
    exists2 d, compute_metric m v = Ok d &
      (all (fun x => 0 <= x) v -> sorted <=%O v -> 0 <= d /\ (d = 0 -> all (fun x => x == 0) v)) /\
      (v = nseq n 0 -> d = 0).
  Lemma sum_weights n (w v : seq F) : size v = n -> (forall i, (i < n)%N -> 0 <= nth 0 w i) -> (0 < n)%N ->
    0 < nth 0 w n.-1 ->
    (all (fun x => 0 <= x) v -> sorted <=%O v -> 0 <= \sum_(i < n) nth 0 w i * nth 0 v i /\
      (\sum_(i < n) nth 0 w i * nth 0 v i = 0 -> all (fun x => x == 0) v)) /\
    (v = nseq n 0 -> \sum_(i < n) nth 0 w i * nth 0 v i = 0).
  Proof.
    move=> E W n0 Wl; split; last first.
      by move=> ->; apply: big1 => i _; rewrite nth_nseq; case: ifP => _; rewrite mulr0.
    move=> V S; have T i : (i < n)%N -> 0 <= nth 0 w i * nth 0 v i.
      by move=> h; rewrite mulr_ge0 ?W //; apply: (allP V); rewrite mem_nth ?E.
    split; first by apply: sumr_ge0 => i _; exact: T.
    move=> Z; have nl : (n.-1 < n)%N by rewrite prednK.
    have /eqP := Z; rewrite psumr_eq0 => [/allP/(_ (Ordinal nl) (mem_index_enum _))|]; last by move=> i _; exact: T.
    rewrite /= mulf_eq0 gt_eqF //= => /eqP L.
    case: v E V S L {T Z} => [|x v] E V S L //; apply/allP => y Hy.
    have Lx : last x v = 0 by rewrite -[last x v]/(last 0 (x :: v)) -nth_last E L.
    have := allP (last_sorted S) y Hy.
    by rewrite Lx => y0; rewrite eq_le y0 (allP V).
  Qed.
  Lemma good_get n t m : (0 < n)%N -> metric_get F t (Some n) = Ok m -> good n m.
  Proof.
    move=> n0; case: t; rewrite /metric_get.
    - case=> <- v E; have [d -> [d0 D]] := riem_spec v; exists d => //; split.
        move=> _ _; split=> // Z; move: D; rewrite Z expr0n /= => /esym/eqP.
        rewrite psumr_eq0 => [/allP H|x _]; last exact: sqr_ge0.
        by apply/allP => x /H; rewrite sqrf_eq0.
      move=> Z; move: D; rewrite Z big_nseq expr0n /=.
      have -> : iter n (+%R (0 : F)) 0 = 0 by elim: (n) => //= k ->; rewrite add0r.
      by move/eqP; rewrite sqrf_eq0 => /eqP.
    - case=> <- v E; exists (sum v) => //; split.
        move=> V _; split; first by rewrite /sum big_seq; apply: sumr_ge0 => x; exact: (allP V).
        move/eqP; rewrite /sum big_seq psumr_eq0 => [/allP H|x]; last exact: (allP V).
        by apply/allP => x Hx; have /= := H x Hx; rewrite Hx.
      by move=> ->; rewrite /sum sum_nseq.
    - case=> <- [|x v] E; first by rewrite -E in n0.
      exists (last x v) => //; split.
        move=> V S; split; first by apply: (allP V); exact: mem_last.
        move=> Z; apply/allP => y Hy; have := allP (last_sorted S) y Hy; rewrite Z => y0.
        by rewrite eq_le y0 (allP V).
      move=> Z; have : last x v \in nseq n 0 by rewrite -Z mem_last.
      by rewrite mem_nseq => /andP[_ /eqP].
    - case: ltnP => // r2 [<-] v E; rewrite fmin_spec //; eexists; first by [].
      have G := sum_weights E (w := fmin_weights F n).
      have -> : \sum_(i < n) (2 * i)%:R * nth 0 v i = \sum_(i < n) nth 0 (fmin_weights F n) i * nth 0 v i.
        by apply: eq_bigr => i _; rewrite nth_fmin.
      apply: G => //; first by move=> i h; rewrite nth_fmin // ler0n.
      by rewrite nth_fmin ?prednK // ltr0n muln_gt0 /= -ltnS prednK.
    - case: ltnP => // r2 [<-] v E; rewrite wsum_spec ?size_nseq //; eexists; first by [].
      have -> : \sum_(i < size v) Num.max (nth 0 (nseq n 1) i) 0 * nth 0 v i = \sum_(i < n) nth 0 (nseq n (1 : F)) i * nth 0 v i.
        by rewrite E; apply: eq_bigr => i _; rewrite nth_nseq ltn_ord max_l ?ler01.
      apply: sum_weights => //; first by move=> i h; rewrite nth_nseq h ler01.
      by rewrite nth_nseq prednK // leqnn ltr01.
  Qed.
End Metrics.

Section Definite.
  Variable F : rcfType.
  Notation C := F[i].
  Implicit Types n : nat.
  Variables (exp log : F -> F) (p : precision).
  Variable eigvalsh : forall n, 'M[F]_n -> 'rV[F]_n.
  Variable eighU : forall n, 'M[F]_n -> 'rV[F]_n * 'M[F]_n.
  Hypothesis EV : eigvalsh_ok eigvalsh.
  Hypothesis EU : eigh_ok eighU.
  Hypothesis EL : explog exp log.
  Local Notation sdist := (siegel_dist eigvalsh eighU log p).
  Local Notation vd := (vector_dist log (EPS F p)).
  Add Field CKf7 : (fth (CK F)).
  Ltac mr := apply/matrixP => ? ?; rewrite !mxE; f_goal (CK F); ring.
  Lemma dist_definite n t m (z1 z2 : 'M[C]_n) : (0 < n)%N -> metric_get F t (Some n) = Ok m ->
    in_upper_half z1 -> in_upper_half z2 ->
    exists2 d, sdist m z1 z2 = Ok d & 0 <= d /\ (d = 0 <-> z1 = z2).
  Proof.
    move=> n0 M H1 H2; have [s [[A R CP] Z D]] := dist_key log p EV EU H1 H2.
    have [d E [P0 N0]] := good_get n0 M (size_vd log p s).
    have [d0 dz] := P0 (vd_ge0 p EL R) (vd_sorted p EL A R).
    exists d; rewrite ?D ?E //; split=> //; split.
      by move/dz => /(vd_eq0 EL R); exact: Z.
    move=> ZZ; apply: N0.
    have s0 : s = 0.
      apply: (root_unique (r := crs z1 z2)); first by split.
      split; first by move=> i j _; rewrite !mxE.
        by move=> i; rewrite mxE lexx ltr01.
      rewrite ZZ crsE subrr mul0mx mul0mx.
      have -> : (0 : 'M[C]_n) = diag_mx 0 by rewrite linear0.
      rewrite char_diag; apply: eq_bigr => i _; by rewrite !mxE expr0n.
    by rewrite s0 (vd_0 p EL).
  Qed.
  (** the code's clamp bounds every coordinate *)
  Lemma vd_lt n (s : 'rV[F]_n) x : (forall i, 0 <= s ord0 i < 1) -> x \in vd s -> x < log (2%:R / EPS F p).
  Proof.
    move=> R /mapP[i _ ->]; case/andP: (R i); move: (s ord0 i) => t t0 t1.
    case/andP: (max_le1 p t0) => M0 _; apply: (log_mono EL); first by rewrite divr_gt0 // ltr_paddr ?ltr01.
    rewrite ltr_pdivr_mulr // mulrAC ltr_pdivl_mulr ?EPS_gt0 //.
    apply: (@lt_le_trans _ _ (2%:R * EPS F p)).
      by rewrite ltr_pmul2r ?EPS_gt0 // -[2%:R]/(1 + 1) ltr_add2l.
    by rewrite ler_pmul2l ?ltr0n // le_maxr lexx.
  Qed.
  Lemma finf_bound n (z1 z2 : 'M[C]_n) : (0 < n)%N -> in_upper_half z1 -> in_upper_half z2 ->
    exists2 d, sdist (FinslerInfinityMetric F) z1 z2 = Ok d & d < log (2%:R / EPS F p).
  Proof.
    move=> n0 H1 H2; have [s [[A R CP] _ D]] := dist_key log p EV EU H1 H2; rewrite D.
    have V0 : vd s <> [::] by move/(congr1 size); rewrite size_vd => E; rewrite E in n0.
    have [d -> [I _]] := finf_spec V0 (vd_sorted p EL A R).
    by exists d => //; exact: vd_lt I.
  Qed.
  Lemma sum_le (b : F) (l : seq F) : (forall x, x \in l -> x <= b) -> \sum_(x <- l) x <= (size l)%:R * b.
  Proof.
    elim: l => [|x l IH] H; first by rewrite big_nil mul0r.
    rewrite big_cons /= -[(size l).+1]add1n natrD mulrDl mul1r ler_add ?H ?mem_head //.
    by apply: IH => y Hy; rewrite H // inE Hy orbT.
  Qed.
  Lemma riem_bound n (z1 z2 : 'M[C]_n) : in_upper_half z1 -> in_upper_half z2 ->
    exists2 d, sdist (RiemannianMetric F) z1 z2 = Ok d & d ^+ 2 <= n%:R * log (2%:R / EPS F p) ^+ 2.
  Proof.
    move=> H1 H2; have [s [[A R CP] _ D]] := dist_key log p EV EU H1 H2; rewrite D.
    have [d -> [_ E]] := riem_spec (vd s); exists d => //.
    rewrite E -(big_map (fun x => x ^+ 2) xpredT id).
    apply: le_trans (sum_le (b := log (2%:R / EPS F p) ^+ 2) _) _.
      move=> y /mapP[x Hx ->]; have x0 : 0 <= x := allP (vd_ge0 p EL R) x Hx; have xb := vd_lt R Hx.
      by rewrite ler_pexpn2r ?nnegrE // ltW // (le_lt_trans x0 xb).
    by rewrite size_map size_vd.
  Qed.

  (** * bounded domain *)
  Lemma cay_diff n (z1 z2 : 'M[C]_n) : 1%:M - z1 \in unitmx -> 1%:M - z2 \in unitmx ->
    cay z2 - cay z1 = ti F *: (invmx (1%:M - z1) *m (z2 - z1) *m invmx (1%:M - z2)).
  Proof.
    move=> U1 U2.
    have -> : z2 - z1 = (1%:M - z1) - (1%:M - z2) by move: (1%:M) => e; mr.
    rewrite mulmxBr mulVmx // mulmxBl mul1mx mulmxK // scalerBr -!cay_plus //.
    by rewrite opprD addrACA subrr addr0.
  Qed.
  Lemma bar_ti : conjc (ti F) = - ti F.
  Proof. by rewrite /ti mulr_natl mulr2n; apply/eqP; rewrite eq_complex /= !addr0 oppr0 !eqxx. Qed.
  Lemma cay_sum n (z1 z2 : 'M[C]_n) : 1%:M - z1 \in unitmx -> 1%:M - z2 \in unitmx ->
    cay z2 - bar (cay z1) = ti F *: (invmx (1%:M - bar z1) *m (1%:M - bar z1 *m z2) *m invmx (1%:M - z2)).
  Proof.
    move=> U1 U2; have V1 : 1%:M - bar z1 \in unitmx by rewrite -bar1 -barB bar_unit.
    have E1 : bar (cay z1) = - (ti F *: invmx (1%:M - bar z1)) + iI F n.
      have := cay_plus U1 => /(congr1 (fun x => bar (x - iI F n))); rewrite addrK => ->.
      by rewrite barB barZ bar_ti scaleNr bar_inv barB bar1 iIE barZ conj_i bar1 scaleNr opprK.
    have E2 : cay z2 = ti F *: invmx (1%:M - z2) - iI F n by rewrite -cay_plus // addrK.
    have -> : 1%:M - bar z1 *m z2 = (1%:M - bar z1) + (1%:M - z2) - (1%:M - bar z1) *m (1%:M - z2).
      rewrite mulmxBr mulmx1 mulmxBl mul1mx opprB; move: (bar z1 *m z2) (bar z1) (1%:M) => a b c.
      by mr.
    move: V1 U2 E1 E2; move: (1%:M - bar z1) (1%:M - z2) => A B V1 U2 E1 E2.
    rewrite mulmxBr mulmxDr mulVmx // mulKmx // mulmxBl mulmxDl mul1mx mulmxK // mulmxV //.
    rewrite E1 E2 iIE opprD opprK !scalerBr scalerDr.
    have -> : ti F *: (1%:M : 'M[C]_n) = 'i%C *: 1%:M + 'i%C *: 1%:M by rewrite -scalerDl /ti mulr_natl mulr2n.
    move: (ti F *: invmx _) (ti F *: invmx _) ('i%C *: 1%:M) => a b c; mr.
  Qed.
End Definite.
