(** Lemmas for the Sinkhorn projection, the retraction and the membership checks. *)
From mathcomp Require Import all_ssreflect all_algebra.
From Verif Require Import FieldTac BirkhoffModel BirkhoffSpec BirkhoffProofs.
Import Order.TTheory GRing.Theory Num.Theory.
Local Open Scope ring_scope.
Set Implicit Arguments. Unset Strict Implicit. Unset Printing Implicit Defensive.

Lemma half_add (F : realFieldType) : 2%:R^-1 + 2%:R^-1 = 1 :> F.
Proof. have N : (2%:R : F) != 0 by rewrite pnatr_eq0. apply: (mulfI N). rewrite mulrDr mulr1 mulfV // -natrD. Qed.

Section Sinkhorn.
  Variable F : realFieldType.
  Add Field Ff : (fth F).
  Ltac fr := f_goal F; ring.
  Ltac ff := f_goal F; field; rewrite /f0 /f1 /fadd /fmul /fsub /fopp /finv.
  Variables (eps tol : F).
  Hypothesis E0 : 0 < eps.

  Definition good n (x : 'M[F]_n) (s : scales F n) : Prop :=
    s.2 = scale_r eps x s.1 /\ (forall j, 0 < s.1 ord0 j) /\ (forall j, s.1 ord0 j <= eps^-1).
  Lemma recip_pos (t : F) : 0 <= t -> 0 < 1 / (t + eps).
  Proof. move=> T. by rewrite mul1r invr_gt0 ltr_paddl. Qed.
  Lemma recip_le (t : F) : 0 <= t -> 1 / (t + eps) <= eps^-1.
  Proof. move=> T. rewrite mul1r lef_pinv ?posrE ?ltr_paddl //. by rewrite ler_addr. Qed.
  Lemma scale_good n (x : 'M[F]_n) (v : 'rV[F]_n) : (forall j, 0 <= v ord0 j) ->
    good x (scale_c eps v, scale_r eps x (scale_c eps v)).
  Proof. move=> V. split=> //=. split=> j; rewrite mxE; [exact: recip_pos|exact: recip_le]. Qed.
  Lemma start_good n (x : 'M[F]_n) : nonnegative x -> good x (start eps x).
  Proof. move=> X. apply: scale_good => j. rewrite mxE. exact: sumr_ge0. Qed.
  Definition rowv n (x : 'M[F]_n) (s : scales F n) i : F := \sum_j x i j * s.1 ord0 j.
  Lemma rowv_ge0 n (x : 'M[F]_n) s i : nonnegative x -> good x s -> 0 <= rowv x s i.
  Proof. move=> X [_ [C _]]. apply: sumr_ge0 => j _. by rewrite mulr_ge0 // ltW. Qed.
  Lemma good_r n (x : 'M[F]_n) s i : good x s -> s.2 i ord0 = 1 / (rowv x s i + eps).
  Proof.
    move=> [-> _]. rewrite !mxE. congr (1 / (_ + _)). apply: eq_bigr => j _. by rewrite mxE.
  Qed.
  Lemma r_pos n (x : 'M[F]_n) s i : nonnegative x -> good x s -> 0 < s.2 i ord0.
  Proof. move=> X G. rewrite (good_r _ G). apply: recip_pos. exact: rowv_ge0. Qed.
  Lemma cinvE n (x : 'M[F]_n) s j : cinv x s ord0 j = \sum_i s.2 i ord0 * x i j.
  Proof. rewrite mxE. apply: eq_bigr => i _. by rewrite mxE. Qed.
  Lemma rescale_good n (x : 'M[F]_n) s : nonnegative x -> good x s -> good x (rescale eps x s).
  Proof.
    move=> X G. apply: scale_good => j. rewrite cinvE. apply: sumr_ge0 => i _. by rewrite mulr_ge0 // ltW // (r_pos _ X).
  Qed.

  (** the loop *)
  Definition related n (P : 'M[F]_n -> scales F n -> Prop) (xs : seq 'M[F]_n) (ss : seq (scales F n)) : Prop :=
    size ss = size xs /\ forall k, (k < size xs)%N -> P (nth 0 xs k) (nth (0, 0) ss k).
  Lemma loop_good n max_iter (xs : seq 'M[F]_n) ss : (forall x, x \in xs -> nonnegative x) ->
    related (@good n) xs ss -> forall b ss', sinkhorn max_iter eps tol xs ss = (b, ss') ->
    related (fun x s => good x s /\ (b -> settled tol x s)) xs ss'.
  Proof.
    move=> X. elim: max_iter ss => [|m IH] ss G b ss' /=.
      case=> <- <-. case: G => S G. split=> // k K. split=> //. exact: G.
    case: ifP => [A|_] E.
      case: E => <- <-. case: G => S G. split=> // k K. split=> [|_]; first exact: G.
      have Z : (k < size (zip xs ss))%N by rewrite size_zip S minnn.
      have := all_nthP (0, (0, 0)) A k Z. by rewrite nth_zip.
    apply: (IH _ _ _ _ E). case: G => S G. split; first by rewrite size_map size_zip S minnn.
    move=> k K. rewrite (nth_map (0, (0, 0))) ?size_zip ?S ?minnn // nth_zip //=.
    apply: rescale_good; last exact: G. apply: X. exact: mem_nth.
  Qed.
  Lemma proj_good n max_iter (xs : seq 'M[F]_n) b ys : (forall x, x \in xs -> nonnegative x) ->
    proj_doubly_stochastic max_iter eps tol xs = (b, ys) ->
    size ys = size xs /\ forall k, (k < size xs)%N -> exists s, nth 0 ys k = apply_scales (nth 0 xs k) s /\
      good (nth 0 xs k) s /\ (b -> settled tol (nth 0 xs k) s).
  Proof.
    move=> X. rewrite /proj_doubly_stochastic. case L : sinkhorn => [b' ss] [<- <-].
    have G : related (@good n) xs [seq start eps x | x <- xs].
      split; first by rewrite size_map. move=> k K. rewrite (nth_map 0) //. apply: start_good. apply: X. exact: mem_nth.
    have [S H] := loop_good X G L. split; first by rewrite size_map size_zip S minnn.
    move=> k K. exists (nth (0, 0) ss k). split; last exact: H.
    by rewrite (nth_map (0, (0, 0))) ?size_zip ?S ?minnn // nth_zip.
  Qed.

  (** the result *)
  Lemma applyE n (x : 'M[F]_n) s i j : apply_scales x s i j = x i j * (s.2 i ord0 * s.1 ord0 j).
  Proof. by rewrite !mxE big_ord_recl big_ord0 addr0. Qed.
  Lemma apply_row n (x : 'M[F]_n) s i : good x s -> \sum_j apply_scales x s i j = rowv x s i / (rowv x s i + eps).
  Proof.
    move=> G. rewrite (eq_bigr (fun j => s.2 i ord0 * (x i j * s.1 ord0 j))) => [|j _]; last by rewrite applyE mulrCA.
    by rewrite -mulr_sumr (good_r _ G) mul1r mulrC.
  Qed.
  Lemma apply_col n (x : 'M[F]_n) s j : \sum_i apply_scales x s i j = cinv x s ord0 j * s.1 ord0 j.
  Proof. rewrite cinvE mulr_suml. apply: eq_bigr => i _. by rewrite applyE mulrA [x _ _ * _]mulrC. Qed.
  Lemma apply_ge0 n (x : 'M[F]_n) s : nonnegative x -> good x s -> nonnegative (apply_scales x s).
  Proof. move=> X G i j. rewrite applyE !mulr_ge0 //; [exact: ltW (r_pos _ X G)|]. case: G => _ [C _]. exact: ltW. Qed.
  Lemma apply_gt0 n (x : 'M[F]_n) s : positive x -> good x s -> positive (apply_scales x s).
  Proof.
    move=> X G i j. have X' : nonnegative x by move=> k l; exact: ltW. rewrite applyE !mulr_gt0 //; [exact: (r_pos _ X' G)|].
    by case: G => _ [C _].
  Qed.
  Lemma frac_mono (a b c d : F) : 0 < c -> 0 <= a -> a <= b -> a / (a + c) <= b / (b + c).
  Proof.
    move=> C A B. rewrite ler_pdivr_mulr ?ltr_paddl // mulrAC ler_pdivl_mulr ?ltr_paddl ?(le_trans A B) //.
    rewrite !mulrDr [a * b]mulrC ler_add2l. by rewrite ler_pmul2r.
  Qed.
  Lemma row_bounds n (x : 'M[F]_n) s i : nonnegative x -> good x s ->
    0 <= \sum_j apply_scales x s i j < 1 /\
    \sum_j apply_scales x s i j <= (\sum_j x i j) / ((\sum_j x i j) + eps ^+ 2).
  Proof.
    move=> X G. have R := rowv_ge0 i X G. have D : 0 < rowv x s i + eps by rewrite ltr_paddl.
    rewrite (apply_row _ G). split.
      by rewrite divr_ge0 ?(ltW D) //= ltr_pdivr_mulr // mul1r ltr_addl.
    have L : rowv x s i <= (\sum_j x i j) / eps.
      rewrite mulr_suml. apply: ler_sum => j _. apply: ler_wpmul2l => //. by case: G => _ [_ ->].
    apply: (le_trans (frac_mono 0 E0 R L)).
    have -> : (\sum_j x i j) / eps / ((\sum_j x i j) / eps + eps) = (\sum_j x i j) / ((\sum_j x i j) + eps ^+ 2); last by [].
    have S : 0 <= \sum_j x i j by apply: sumr_ge0. move: (\sum_j x i j) S => t T.
    ff. split; apply/eqP; rewrite gt_eqF ?ltr_paddl //. by rewrite mulr_gt0.
  Qed.
  Lemma settled_col n (x : 'M[F]_n) s j : settled tol x s -> `|\sum_i apply_scales x s i j - 1| <= tol.
  Proof. rewrite apply_col. by move/forallP. Qed.
  (** once the columns are close to 1, so are the rows *)
  Lemma rows_from_cols n (y : 'M[F]_n) : (forall i, \sum_j y i j <= 1) ->
    (forall j, `|\sum_i y i j - 1| <= tol) -> forall i, 1 - n%:R * tol <= \sum_j y i j.
  Proof.
    move=> R C i.
    have T : \sum_i \sum_j y i j >= n%:R * (1 - tol).
      rewrite exchange_big /=. apply: (@le_trans _ _ (\sum_(j < n) (1 - tol))).
        by rewrite sumr_const card_ord mulr_natl.
      apply: ler_sum => j _. have := C j. rewrite ler_norml => /andP[L _]. move: L. by rewrite ler_subr_addl.
    have U : \sum_i \sum_j y i j <= (\sum_j y i j) + (n%:R - 1).
      rewrite (bigD1 i) //= ler_add2l. apply: (@le_trans _ _ (\sum_(k < n | k != i) 1)); first by apply: ler_sum.
      rewrite sumr_const. have -> : #|[pred k : 'I_n | k != i]| = n.-1 by rewrite (cardC1 i) card_ord.
      case: n i {y R C T} => [[]//|m] _ /=. by rewrite -[X in _ <= X%:R - 1]addn1 natrD addrK.
    have := le_trans T U. rewrite -ler_subl_addr.
    have -> : n%:R * (1 - tol) - (n%:R - 1) = 1 - n%:R * tol by move: (n%:R) => N; fr. by [].
  Qed.

  (** statements on the batch result *)
  Section Result.
    Variables (n max_iter : nat) (xs : seq 'M[F]_n).
    Hypothesis X : forall x, x \in xs -> nonnegative x.
    Let ys := projx max_iter eps tol xs.
    Let stopped := (proj_doubly_stochastic max_iter eps tol xs).1.
    Lemma result_scales k : (k < size xs)%N -> exists s, nth 0 ys k = apply_scales (nth 0 xs k) s /\
      good (nth 0 xs k) s /\ (stopped -> settled tol (nth 0 xs k) s) /\ nonnegative (nth 0 xs k).
    Proof.
      rewrite /ys /stopped /projx. case P : proj_doubly_stochastic => [b zs] K /=.
      have [_ /(_ k K) [s [A [G S]]]] := proj_good X P. exists s. split; [exact: A|split; [exact: G|split; [exact: S|]]].
      apply: X. exact: mem_nth.
    Qed.
    Lemma result_size : size ys = size xs.
    Proof. rewrite /ys /projx. case P : proj_doubly_stochastic => [b zs] /=. by have [-> _] := proj_good X P. Qed.
    Lemma result_ge0 k : (k < size xs)%N -> nonnegative (nth 0 ys k).
    Proof. move=> /result_scales [s [-> [G [_ N]]]]. exact: apply_ge0. Qed.
    Lemma result_gt0 k : (k < size xs)%N -> positive (nth 0 xs k) -> positive (nth 0 ys k).
    Proof. move=> /result_scales [s [-> [G [_ N]]]] P. exact: apply_gt0. Qed.
    Lemma result_rows k i : (k < size xs)%N -> 0 <= \sum_j nth 0 ys k i j < 1 /\
      \sum_j nth 0 ys k i j <= (\sum_j nth 0 xs k i j) / ((\sum_j nth 0 xs k i j) + eps ^+ 2).
    Proof. move=> /result_scales [s [-> [G [_ N]]]]. exact: row_bounds. Qed.
    Lemma result_stopped k : (k < size xs)%N -> stopped ->
      (forall j, `|\sum_i nth 0 ys k i j - 1| <= tol) /\ (forall i, 1 - n%:R * tol <= \sum_j nth 0 ys k i j < 1).
    Proof.
      move=> K B. have R i := result_rows i K. move: K => /result_scales [s [E [G [S N]]]].
      have C j : `|\sum_i nth 0 ys k i j - 1| <= tol by rewrite E; apply: settled_col; exact: S.
      split=> // i. have [/andP[_ L] _] := R i. rewrite L andbT. apply: rows_from_cols => // i'.
      have [/andP[_ L'] _] := R i'. exact: ltW.
    Qed.
    Lemma result_accepted k atol rtol : (k < size xs)%N -> stopped -> (0 < n)%N -> n%:R * tol <= atol -> 0 <= rtol -> 0 <= tol ->
      check_point atol rtol (nth 0 ys k).
    Proof.
      move=> K B N A R T. have [C W] := result_stopped K B.
      have AA : tol <= atol + rtol * `|1|.
        rewrite normr1 mulr1. apply: ler_paddr => //. apply: le_trans A. by rewrite ler_pemull // ler1n.
      apply/andP; split; apply/forallP => i; last exact: le_trans (C i) AA.
      have /andP[L U] := W i. rewrite /row_sum distrC ger0_norm ?subr_ge0 ?(ltW U) // normr1 mulr1.
      apply: ler_paddr => //. apply: le_trans A. by rewrite ler_subl_addr addrC -ler_subl_addr.
    Qed.
    (** too small an input is not normalised, whatever the number of rounds *)
    Lemma result_tiny k i : (k < size xs)%N -> \sum_j nth 0 xs k i j <= eps ^+ 2 -> \sum_j nth 0 ys k i j <= 2%:R^-1.
    Proof.
      move=> K L. have [_ U] := result_rows i K. apply: (le_trans U).
      have P : 0 <= \sum_j nth 0 xs k i j by move: K => /result_scales [s [_ [_ [_ N]]]]; apply: sumr_ge0.
      have E2 : 0 < eps ^+ 2 by rewrite exprn_gt0.
      rewrite ler_pdivr_mulr ?ltr_paddl // -ler_pdivr_mull ?invr_gt0 ?ltr0n // invrK mulrDl mul1r. by rewrite ler_add2l.
    Qed.
    Lemma tiny_rejected k i atol rtol : (k < size xs)%N -> \sum_j nth 0 xs k i j <= eps ^+ 2 -> atol + rtol < 2%:R^-1 ->
      ~~ check_point atol rtol (nth 0 ys k).
    Proof.
      move=> K L A. apply/negP => /andP[/forallP /(_ i)]. rewrite /row_sum normr1 mulr1 distrC => H _.
      have := le_lt_trans (le_trans (ler_norm _) H) A. rewrite ltNge => /negP; apply.
      have := result_tiny K L. move: (\sum_j _) => t T. by rewrite ler_subr_addr -ler_subr_addl -{1}(half_add F) addrK.
    Qed.
  End Result.
End Sinkhorn.

Section Batch.
  Variable F : realFieldType.
  Add Field Fg : (fth F).
  Ltac ff := f_goal F; field; rewrite /f0 /f1 /fadd /fmul /fsub /fopp /finv.
  Variables (eps tol : F).
  Hypothesis E0 : 0 < eps.
  (** The outcome for one matrix depends on its batch. *)
  Definition one1 : 'M[F]_1 := const_mx 1.
  Definition zero1 : 'M[F]_1 := const_mx 0.
  Lemma mx1E (a : 'M[F]_1) : a = const_mx (a ord0 ord0).
  Proof. apply/matrixP => i j. by rewrite mxE !ord1. Qed.
  Lemma mul11 (a b : F) : (const_mx a : 'M[F]_1) *m (const_mx b : 'M[F]_1) = const_mx (a * b).
  Proof. apply/matrixP => i j. by rewrite !mxE big_ord_recl big_ord0 addr0 !mxE. Qed.
  Lemma start1 (a : F) : start eps (const_mx a : 'M[F]_1) = (const_mx (1 / (a + eps)), const_mx (1 / (a * (1 / (a + eps)) + eps))).
  Proof.
    have C : first_c eps (const_mx a : 'M[F]_1) = const_mx (1 / (a + eps)).
      apply/matrixP => i j. by rewrite !mxE /col_sum big_ord_recl big_ord0 addr0 mxE.
    rewrite /start C /scale_r trmx_const mul11. congr (_, _). apply/matrixP => i j. by rewrite !mxE.
  Qed.
  Lemma cinv1 (a c r : F) : cinv (const_mx a : 'M[F]_1) (const_mx c, const_mx r) = const_mx (r * a) :> 'rV[F]_1.
  Proof. by rewrite /cinv /= trmx_const mul11. Qed.
  Lemma settled1 (a c r : F) : settled tol (const_mx a : 'M[F]_1) (const_mx c, const_mx r) = (`|r * a * c - 1| <= tol).
  Proof.
    rewrite /settled cinv1. apply/forallP/idP => [/(_ ord0)|H j]; by rewrite !mxE.
  Qed.
  Lemma rescale1 (a c r : F) : rescale eps (const_mx a : 'M[F]_1) (const_mx c, const_mx r) =
    (const_mx (1 / (r * a + eps)), const_mx (1 / (a * (1 / (r * a + eps)) + eps))).
  Proof.
    rewrite /rescale cinv1 /scale_c map_const_mx /scale_r trmx_const mul11 map_const_mx. by [].
  Qed.
  Lemma apply1 (a c r : F) : apply_scales (const_mx a : 'M[F]_1) (const_mx c, const_mx r) = const_mx (a * (r * c)).
  Proof. apply/matrixP => i j. by rewrite applyE !mxE. Qed.
  Lemma batch_differs : tol < 1 -> eps + eps ^+ 2 <= tol ->
    nth 0 (projx 1 eps tol [:: one1]) 0 <> nth 0 (projx 1 eps tol [:: one1; zero1]) 0.
  Proof.
    move=> T1 T2. have E1 : 0 < 1 + eps := addr_gt0 ltr01 E0. have Q2 : 0 < eps ^+ 2 by rewrite exprn_gt0.
    have E2 : 0 < 1 + eps + eps ^+ 2 := addr_gt0 E1 Q2.
    have n1 := elimN eqP (lt0r_neq0 E1). have n2 := elimN eqP (lt0r_neq0 E2).
    have N0 : eps <> 0 by apply/eqP; rewrite gt_eqF.
    rewrite /projx /proj_doubly_stochastic /one1 /zero1 /= !start1 !settled1 !andbT.
    have c1 : 1 / (1 + eps) = (1 + eps)^-1 by rewrite mul1r.
    have r1 : 1 / (1 * (1 / (1 + eps)) + eps) = (1 + eps) / (1 + eps + eps ^+ 2).
      by ff.
    rewrite r1 c1. have S : `|(1 + eps) / (1 + eps + eps ^+ 2) * 1 / (1 + eps) - 1| <= tol.
      have -> : (1 + eps) / (1 + eps + eps ^+ 2) * 1 / (1 + eps) - 1 = - ((eps + eps ^+ 2) / (1 + eps + eps ^+ 2)) by ff.
      rewrite normrN ger0_norm; last by rewrite divr_ge0 ?(ltW E2) ?addr_ge0 ?(ltW E0) ?(ltW Q2).
      rewrite ler_pdivr_mulr //. apply: (le_trans T2). have t0 : 0 <= tol by apply: le_trans T2; rewrite addr_ge0 ?(ltW E0) ?(ltW Q2).
      apply: ler_pemulr => //. by rewrite -addrA ler_addl addr_ge0 ?(ltW E0) ?(ltW Q2).
    rewrite S /= mulr0 mul0r sub0r normrN normr1 leNgt T1 /= !rescale1 !apply1 /=.
    move/(congr1 (fun a : 'M[F]_1 => a ord0 ord0)). rewrite !mxE.
    set r := (1 + eps) / _. have rp : 0 < r by rewrite divr_gt0.
    have P2 : 0 < r + eps := addr_gt0 rp E0.
    have P3 : 0 < 1 + eps * (r + eps) := addr_gt0 ltr01 (mulr_gt0 E0 P2).
    have n3 := elimN eqP (lt0r_neq0 P2). have n4 := elimN eqP (lt0r_neq0 P3).
    have -> : 1 * (1 / (1 * (1 / (r * 1 + eps)) + eps) * (1 / (r * 1 + eps))) = (1 + eps * (r + eps))^-1.
      move: n3 n4. clear. move=> n3 n4. ff. split=> //.
    have -> : 1 * (r * (1 + eps)^-1) = (1 + eps + eps ^+ 2)^-1 by rewrite /r; ff.
    move/invr_inj. have -> : 1 + eps + eps ^+ 2 = 1 + eps * (1 + eps) by f_goal F; ring.
    move/addrI /(mulfI (lt0r_neq0 E0)) /addIr => R.
    have : 1 + eps = 1 + eps + eps ^+ 2 by apply: (mulIf (x := (1 + eps + eps ^+ 2)^-1)); rewrite ?invr_eq0 ?lt0r_neq0 // -/r -R divff // lt0r_neq0.
    move/eqP. by rewrite -subr_eq0 opprD addNKr oppr_eq0 gt_eqF.
  Qed.
  Lemma one_stops : eps + eps ^+ 2 <= tol -> (proj_doubly_stochastic 1 eps tol [:: one1]).1.
  Proof.
    move=> T2. have E1 : 0 < 1 + eps := addr_gt0 ltr01 E0. have Q2 : 0 < eps ^+ 2 by rewrite exprn_gt0.
    have E2 : 0 < 1 + eps + eps ^+ 2 := addr_gt0 E1 Q2.
    have n1 := elimN eqP (lt0r_neq0 E1). have n2 := elimN eqP (lt0r_neq0 E2).
    rewrite /proj_doubly_stochastic /one1 /= !start1 !settled1 !andbT.
    have c1 : 1 / (1 + eps) = (1 + eps)^-1 by rewrite mul1r.
    have r1 : 1 / (1 * (1 / (1 + eps)) + eps) = (1 + eps) / (1 + eps + eps ^+ 2) by ff.
    rewrite r1 c1. have S : `|(1 + eps) / (1 + eps + eps ^+ 2) * 1 / (1 + eps) - 1| <= tol; last by rewrite S.
    have -> : (1 + eps) / (1 + eps + eps ^+ 2) * 1 / (1 + eps) - 1 = - ((eps + eps ^+ 2) / (1 + eps + eps ^+ 2)) by ff.
    rewrite normrN ger0_norm; last by rewrite divr_ge0 ?(ltW E2) ?addr_ge0 ?(ltW E0) ?(ltW Q2).
    rewrite ler_pdivr_mulr //. apply: (le_trans T2). have t0 : 0 <= tol by apply: le_trans T2; rewrite addr_ge0 ?(ltW E0) ?(ltW Q2).
    apply: ler_pemulr => //. by rewrite -addrA ler_addl addr_ge0 ?(ltW E0) ?(ltW Q2).
  Qed.
  Definition tiny n : 'M[F]_n := const_mx (eps ^+ 2 / n%:R).
  Lemma tiny_case n : positive (tiny n) /\ forall i, \sum_j tiny n i j <= eps ^+ 2.
  Proof.
    have Q2 : 0 < eps ^+ 2 by rewrite exprn_gt0.
    split=> [i j|i].
      rewrite mxE divr_gt0 // ltr0n. exact: leq_ltn_trans (leq0n i) (ltn_ord i).
    rewrite (eq_bigr (fun=> eps ^+ 2 / n%:R)) => [|j _]; last by rewrite mxE.
    rewrite sumr_const card_ord -mulr_natr mulfVK // pnatr_eq0. case: n i => [[]//|n _]. by [].
  Qed.
End Batch.

Section Retr.
  Variable F : realFieldType.
  Variables (exp : F -> F) (eps tol : F).
  Hypothesis exp_gt0 : forall t, 0 < exp t.
  Hypothesis E0 : 0 < eps.
  Lemma e12_gt0 : 0 < e12 F.
  Proof. by rewrite /e12 invr_gt0 exprn_gt0 // ltr0n. Qed.
  Lemma bumped_pos n (x u : 'M[F]_n) : positive x -> positive (bumped exp x u).
  Proof. move=> X i j. rewrite !mxE. by rewrite mulr_gt0. Qed.
  Lemma floor_bounds m n (y : 'M[F]_n) i j : 0 <= m -> 0 <= y i j -> m <= floor m y i j /\ y i j <= floor m y i j <= y i j + m.
  Proof.
    move=> M Y. rewrite mxE. split; first by rewrite le_maxr lexx orbT.
    rewrite le_maxr lexx /= le_maxl. by rewrite ler_addl M ler_addr Y.
  Qed.
  Lemma floor_sum (I : finType) m (f g : I -> F) : (forall i, f i <= g i <= f i + m) -> \sum_i f i <= \sum_i g i <= \sum_i f i + #|I|%:R * m.
  Proof.
    move=> H. apply/andP; split; first by apply: ler_sum => i _; case/andP: (H i).
    have -> : #|I|%:R * m = \sum_(i : I) m by rewrite sumr_const mulr_natl.
    rewrite -big_split /=. apply: ler_sum => i _. by case/andP: (H i).
  Qed.
  Section Run.
    Variables (n max_iter : nat) (xs us : seq 'M[F]_n).
    Hypothesis S : size us = size xs.
    Hypothesis X : forall x, x \in xs -> positive x.
    Let ys := [seq bumped exp p.1 p.2 | p <- zip xs us].
    Lemma ys_size : size ys = size xs.
    Proof. by rewrite size_map size_zip S minnn. Qed.
    Lemma ys_pos y : y \in ys -> positive y.
    Proof. move/mapP => [[x u] /= Z ->]. apply: bumped_pos. apply: X. have := map_f fst Z. rewrite -/(unzip1 _) unzip1_zip ?S //. Qed.
    Lemma ys_nn y : y \in ys -> nonnegative y.
    Proof. move=> /ys_pos Y i j. exact: ltW. Qed.
    Lemma retr_nth k : (k < size xs)%N -> nth 0 (retr exp max_iter eps tol xs us) k = floor (e12 F) (nth 0 (projx max_iter eps tol ys) k).
    Proof. move=> K. rewrite /retr -/ys (nth_map 0) // (result_size _ E0 _ ys_nn) ys_size. by []. Qed.
    Lemma retr_entries k i j : (k < size xs)%N -> e12 F <= nth 0 (retr exp max_iter eps tol xs us) k i j.
    Proof. move=> K. rewrite retr_nth // mxE le_maxr lexx orbT. by []. Qed.
    Lemma retr_rows k i : (k < size xs)%N ->
      let y := nth 0 (retr exp max_iter eps tol xs us) k in 0 <= \sum_j y i j < 1 + n%:R * e12 F.
    Proof.
      move=> K /=. rewrite retr_nth //. have K' : (k < size ys)%N by rewrite ys_size.
      have P := result_ge0 tol E0 max_iter ys_nn K'. have [/andP[R0 R1] _] := result_rows tol E0 max_iter ys_nn i K'.
      set y := nth 0 (projx _ _ _ ys) k in P R0 R1 *.
      have Y j : y i j <= floor (e12 F) y i j <= y i j + e12 F by have [_ ?] := floor_bounds (ltW e12_gt0) (P i j).
      have := @floor_sum [finType of 'I_n] (e12 F) (fun j => y i j) (fun j => floor (e12 F) y i j) Y.
      rewrite card_ord => /andP[L U].
      rewrite (le_trans R0 L) /=. apply: (le_lt_trans U). by rewrite ltr_add2r.
    Qed.
    Lemma retr_stopped k : (k < size xs)%N -> (proj_doubly_stochastic max_iter eps tol ys).1 ->
      let y := nth 0 (retr exp max_iter eps tol xs us) k in
      (forall j, 1 - tol <= \sum_i y i j <= 1 + tol + n%:R * e12 F) /\
      (forall i, 1 - n%:R * tol <= \sum_j y i j < 1 + n%:R * e12 F).
    Proof.
      move=> K B /=. rewrite retr_nth //. have K' : (k < size ys)%N by rewrite ys_size.
      have P := result_ge0 tol E0 max_iter ys_nn K'. have [C R] := result_stopped E0 ys_nn K' B.
      set y := nth 0 (projx _ _ _ ys) k in P C R *.
      have Y i j : y i j <= floor (e12 F) y i j <= y i j + e12 F by have [_ ?] := floor_bounds (ltW e12_gt0) (P i j).
      split=> l.
        have := @floor_sum [finType of 'I_n] (e12 F) (fun i => y i l) (fun i => floor (e12 F) y i l) (fun i => Y i l).
        rewrite card_ord => /andP[L U]. have := C l. rewrite ler_distl => /andP[C1 C2]. rewrite (le_trans C1 L) /=.
        apply: (le_trans U). by rewrite ler_add2r.
      have := @floor_sum [finType of 'I_n] (e12 F) (fun j => y l j) (fun j => floor (e12 F) y l j) (fun j => Y l j).
      rewrite card_ord => /andP[L U]. have /andP[R1 R2] := R l. rewrite (le_trans R1 L) /=.
      apply: (le_lt_trans U). by rewrite ltr_add2r.
    Qed.
    Lemma retr_stopped' k : (k < size xs)%N ->
      (proj_doubly_stochastic max_iter eps tol [seq mult_step exp p.1 p.2 | p <- zip xs us]).1 ->
      let y := nth 0 (retr exp max_iter eps tol xs us) k in
      (forall j, 1 - tol <= \sum_i y i j <= 1 + tol + n%:R * e12 F) /\
      (forall i, 1 - n%:R * tol <= \sum_j y i j < 1 + n%:R * e12 F).
    Proof.
      move=> K. have -> : [seq mult_step exp p.1 p.2 | p <- zip xs us] = ys; last exact: retr_stopped.
      apply: eq_map => p. apply/matrixP => i j. by rewrite !mxE.
    Qed.
  End Run.

  (** checks *)
  Lemma check_pointE n atol rtol (x : 'M[F]_n) : check_point atol rtol x <->
    (forall i, `|\sum_j x i j - 1| <= atol + rtol) /\ (forall j, `|\sum_i x i j - 1| <= atol + rtol).
  Proof.
    rewrite /check_point /allclose normr1 mulr1. split=> [/andP[/forallP R /forallP C]|[R C]]; first by split.
    apply/andP; split; apply/forallP; [exact: R|exact: C].
  Qed.
  Lemma eq1_iff (t : F) : (`|t - 1| <= 0) = (t == 1).
  Proof. by rewrite normr_le0 subr_eq0. Qed.
  Lemma check_exact n (x : 'M[F]_n) : check_point 0 0 x <-> unit_sums x.
  Proof.
    rewrite check_pointE addr0. split=> -[R C]; split=> k; have := R k; have := C k; rewrite ?eq1_iff; try by move=> /eqP H /eqP H'.
  Qed.
  Lemma check_vectorE n (x u : 'M[F]_n) : check_vector 0 0 x u <-> tangent u.
  Proof.
    rewrite /check_vector /allclose. split.
      case: ifP => // /negbFE /forallP R. case: ifP => // /negbFE /forallP C _.
      split=> k; [have := R k|have := C k]; rewrite normr0 mulr0 addr0 subr0 normr_le0 => /eqP; by [].
    move=> [R C]. have -> : [forall i, `|row_sum u i - 0| <= 0 + 0 * `|0 : F|] by apply/forallP => i; rewrite /row_sum R subrr normr0 mulr0 addr0.
    have -> // : [forall i, `|col_sum u i - 0| <= 0 + 0 * `|0 : F|] by apply/forallP => i; rewrite /col_sum C subrr normr0 mulr0 addr0.
  Qed.
  (** 2 I - J for n = 2: row and column sums 1, negative entries *)
  Definition swapped : 'M[F]_2 := \matrix_(i, j) (if i == j then 2%:R else - 1).
  Lemma swapped_sums : unit_sums swapped.
  Proof.
    have E : 2%:R - 1 = 1 :> F by rewrite (natrD _ 1 1) addrK.
    split=> -[[|[|//]] L]; rewrite !big_ord_recl big_ord0 !mxE /= addr0 ?E // addrC ?E //.
  Qed.
  Lemma swapped_accepted atol rtol : 0 <= atol -> 0 <= rtol -> check_point atol rtol swapped.
  Proof.
    move=> A R. apply/check_pointE. have [S C] := swapped_sums.
    split=> k; rewrite ?S ?C subrr normr0; exact: addr_ge0.
  Qed.
  Lemma swapped_negative : swapped ord0 ord_max < 0.
  Proof. by rewrite mxE /= oppr_lt0 ltr01. Qed.
  Lemma origin_ds n : doubly_stochastic (origin F n).
  Proof.
    split=> [i j|]; first by rewrite mxE ler0n.
    split=> k; rewrite (bigD1 k) //= mxE eqxx big1 ?addr0 // => l /negPf; rewrite mxE; [rewrite eq_sym|]; by move=> ->.
  Qed.
  Lemma random_pos n max_iter (ds : seq 'M[F]_n) k : (k < size ds)%N -> (forall i j, nth 0 ds k i j != 0) ->
    positive (nth 0 (random max_iter eps tol ds) k).
  Proof.
    move=> K N. rewrite /random. have X (x : 'M[F]_n) : x \in [seq map_mx Num.norm d | d <- ds] -> nonnegative x.
      move/mapP => [d _ ->] i j. rewrite mxE. exact: normr_ge0.
    apply: (result_gt0 tol E0 max_iter X); first by rewrite size_map.
    move=> i j. by rewrite (nth_map 0) // mxE normr_gt0.
  Qed.
End Retr.
