(** Lemmas for the Birkhoff tangent projection. *)
From mathcomp Require Import all_ssreflect all_algebra.
From Verif Require Import FieldTac BirkhoffModel BirkhoffSpec.
Import Order.TTheory GRing.Theory Num.Theory.
Local Open Scope ring_scope.
Set Implicit Arguments. Unset Strict Implicit. Unset Printing Implicit Defensive.

Section Tangent.
  Variable F : realFieldType.
  Add Field Ff : (fth F).
  Ltac fr := f_goal F; ring.

  (** ** Energy argument *)
  Lemma energy n (x : 'M[F]_n) (p q : 'I_n -> F) : positive x ->
    (forall i, \sum_j x i j * (p i + q j) = 0) -> (forall j, \sum_i x i j * (p i + q j) = 0) ->
    forall i j, p i + q j = 0.
  Proof.
    move=> X R C i0 j0.
    have S : \sum_i \sum_j x i j * (p i + q j) ^+ 2 = 0.
      transitivity (\sum_i p i * (\sum_j x i j * (p i + q j)) + \sum_j q j * (\sum_i x i j * (p i + q j))).
        rewrite (eq_bigr (fun i => p i * (\sum_j x i j * (p i + q j)) + \sum_j (q j * (x i j * (p i + q j))))).
          rewrite big_split /=; congr (_ + _). rewrite exchange_big /=. apply: eq_bigr => j _. by rewrite mulr_sumr.
        move=> i _. rewrite mulr_sumr -big_split /=. apply: eq_bigr => j _. by rewrite -mulrDl expr2 mulrCA.
      rewrite !big1 ?addr0 // => k _; by rewrite ?R ?C mulr0.
    have P i j : 0 <= x i j * (p i + q j) ^+ 2 by rewrite mulr_ge0 ?sqr_ge0 // ltW.
    have S1 : \sum_j x i0 j * (p i0 + q j) ^+ 2 = 0.
      move/eqP: S; rewrite psumr_eq0 => [/allP H|i _]; last by apply: sumr_ge0 => j _.
      by apply/eqP/H; rewrite mem_index_enum.
    have : x i0 j0 * (p i0 + q j0) ^+ 2 = 0.
      move/eqP: S1; rewrite psumr_eq0 => [/allP H|j _]; last by [].
      by apply/eqP/H; rewrite mem_index_enum.
    move/eqP; rewrite mulf_eq0 sqrf_eq0 gt_eqF //= => /eqP. by [].
  Qed.

  Lemma sumsq0 n (v : 'cV[F]_n) : v^T *m v = 0 -> v = 0.
  Proof.
    move=> H. apply/colP => i. rewrite mxE.
    have : \sum_k v k ord0 ^+ 2 = 0.
      have := congr1 (fun m : 'M[F]_1 => m ord0 ord0) H. rewrite [LHS]mxE [RHS]mxE => Z; rewrite -[RHS]Z. apply: eq_bigr => k _. by rewrite mxE expr2.
    move/eqP; rewrite psumr_eq0 => [/allP|k _]; last exact: sqr_ge0.
    move/(_ i); rewrite mem_index_enum sqrf_eq0 => /(_ isT) /eqP. by [].
  Qed.
  Lemma unit_inj n (a : 'M[F]_n) : (forall v : 'cV[F]_n, a *m v = 0 -> v = 0) -> a \in unitmx.
  Proof.
    move=> H. rewrite -unitmx_tr -row_free_unit -kermx_eq0. apply/eqP/row_matrixP => i. rewrite row0.
    apply: trmx_inj. rewrite trmx0. apply: H. apply: trmx_inj. by rewrite trmx_mul trmxK -row_mul mulmx_ker row0 trmx0.
  Qed.

  Section Point.
    Variables (m : nat) (x : 'M[F]_m.+1).
    Notation n := m.+1.
    Lemma amat_col (p q : 'cV[F]_n) : amat x *m col_mx p q = col_mx (p + x *m q) (x^T *m p + q).
    Proof. by rewrite /amat mul_block_col !mul1mx. Qed.
    Lemma amat_sym : (amat x)^T = amat x.
    Proof. by rewrite /amat tr_block_mx !trmx1 trmxK. Qed.
    Lemma amat_first (t : 'M[F]_1) (z : 'cV[F]_(m + n)) :
      (amat x : 'M_(n + n, 1 + (m + n))) *m col_mx t z = acol x *m t + bmat x *m z.
    Proof. by rewrite -mul_row_col /acol /bmat hsubmxK. Qed.
    Lemma amat_tr (r : 'cV[F]_(n + n)) :
      (amat x : 'M_(1 + (m + n), n + n)) *m r = col_mx ((acol x)^T *m r) ((bmat x)^T *m r) :> 'cV_(1 + (m + n)).
    Proof. by rewrite -mul_col_mx -tr_row_mx /acol /bmat hsubmxK amat_sym. Qed.
    Lemma vec_split (t : 'M[F]_1) (z : 'cV[F]_(m + n)) :
      col_mx t z = col_mx (col_mx t (usubmx z) : 'cV_n) (dsubmx z) :> 'cV[F]_(n + n).
    Proof. rewrite -{1}[z]vsubmxK. exact: (etrans (@col_mxA _ 1 m n 1 t (usubmx z) (dsubmx z)) (@castmx_id _ (n + n) 1 _ _)). Qed.

    Definition nu : 'cV[F]_(n + n) := col_mx (const_mx 1) (const_mx (- 1)).
    Hypothesis X : positive x.
    Hypothesis U : unit_sums x.
    Lemma amat_nu : amat x *m nu = 0.
    Proof.
      rewrite /nu amat_col. have [R C] := U.
      have -> : const_mx 1 + x *m const_mx (-1) = 0 :> 'cV[F]_n.
        apply/colP => i. rewrite !mxE (eq_bigr (fun j => - x i j)) => [|j _]; last by rewrite mxE mulrN1.
        by rewrite sumrN R subrr.
      have -> : x^T *m const_mx 1 + const_mx (-1) = 0 :> 'cV[F]_n.
        apply/colP => i. rewrite !mxE (eq_bigr (fun j => x j i)) => [|j _]; last by rewrite !mxE mulr1.
        by rewrite C subrr.
      exact: col_mx0.
    Qed.
    Lemma nu_amat : nu^T *m amat x = 0.
    Proof. apply: trmx_inj. by rewrite trmx_mul trmxK amat_sym amat_nu trmx0. Qed.
    Lemma nu_norm0 (r : 'cV[F]_(n + n)) c : r = c *: nu -> nu^T *m r = 0 -> r = 0.
    Proof.
      move=> -> H. rewrite -scalemxAr in H. move/(congr1 (fun a => nu *m a)): H.
      rewrite mulmx0 -scalemxAr. have -> : nu *m (nu^T *m nu) = (n%:R + n%:R) *: nu.
        rewrite /nu tr_col_mx mul_row_col. have -> : (const_mx 1 : 'cV[F]_n)^T *m const_mx 1 + (const_mx (-1))^T *m (const_mx (-1) : 'cV[F]_n) = (n%:R + n%:R)%:M.
          rewrite !trmx_const. apply/matrixP => i j. rewrite !mxE !ord1 eqxx mulr1n.
          by congr (_ + _); rewrite (eq_bigr (fun=> 1)) ?sumr_const ?card_ord // => k _; rewrite !mxE ?mulr1 ?mulrNN ?mulr1.
        exact: mul_mx_scalar.
      rewrite scalerA mulrC -scalerA => /eqP. rewrite scaler_eq0 => /orP[/eqP E|/eqP //].
      move: E => /eqP. by rewrite -natrD pnatr_eq0.
    Qed.
    Lemma kernel (r : 'cV[F]_(n + n)) : amat x *m r = 0 -> exists c, r = c *: nu.
    Proof.
      rewrite -[r]vsubmxK amat_col; move: (usubmx r) (dsubmx r) => p q H0. have [H1 H2] := eq_col_mx (etrans H0 (esym (col_mx0 _ n n 1))).
      have [R C] := U.
      have E : forall i j, p i ord0 + q j ord0 = 0.
        apply: (energy X (p := fun i => p i ord0) (q := fun j => q j ord0)) => k.
          have := congr1 (fun a : 'cV[F]_n => a k ord0) H1. rewrite mxE [(x *m q) _ _]mxE [RHS]mxE => Z; rewrite -[RHS]Z.
          rewrite (eq_bigr (fun j => p k ord0 * x k j + x k j * q j ord0)) => [|j _]; last by rewrite mulrDr [_ * p _ _]mulrC.
          by rewrite big_split /= -mulr_sumr R mulr1.
        have := congr1 (fun a : 'cV[F]_n => a k ord0) H2. rewrite mxE [(_ *m p) _ _]mxE [RHS]mxE => Z; rewrite -[RHS]Z.
        rewrite (eq_bigr (fun i => x i k * p i ord0 + q k ord0 * x i k)) => [|i _]; last by rewrite mulrDr [_ * q _ _]mulrC.
        rewrite big_split /= -mulr_sumr C mulr1. congr (_ + _). apply: eq_bigr => i _. by rewrite mxE.
      exists (p ord0 ord0). rewrite /nu scale_col_mx. congr (col_mx _ _); apply/colP => i; rewrite !mxE.
        rewrite mulr1. apply: (addIr (q ord0 ord0)). by rewrite !E.
      rewrite mulrN1. apply: (addrI (p ord0 ord0)). by rewrite E subrr.
    Qed.
    Lemma normal_residual (r : 'cV[F]_(n + n)) : (bmat x)^T *m r = 0 -> amat x *m r = 0.
    Proof.
      move=> H. have E := amat_tr r. rewrite H in E.
      have : nu^T *m (amat x *m r) = 0 by rewrite mulmxA nu_amat mul0mx.
      have T : nu = col_mx (1%:M : 'M_1) (col_mx (const_mx 1) (const_mx (-1))) :> 'cV[F]_(1 + (m + n)).
        apply: (etrans _ (esym (vec_split _ _))). rewrite col_mxKu col_mxKd /nu. congr (@col_mx _ n n 1 _ _). apply/colP => i. rewrite !mxE. case: splitP => j _; by rewrite !mxE ?ord1.
      rewrite E T (tr_col_mx (1%:M : 'M[F]_1)) (mul_row_col (1%:M : 'M[F]_1)^T) mulmx0 addr0 trmx1 mul1mx => Z.
      by rewrite Z col_mx0.
    Qed.
    Lemma lhs_unit : lhs x \in unitmx.
    Proof.
      apply: unit_inj => v H. have B : bmat x *m v = 0.
        apply: sumsq0. by rewrite trmx_mul -mulmxA (mulmxA _ (bmat x)) -/(lhs x) H mulmx0.
      have K : amat x *m (col_mx (0 : 'M_1) v : 'cV_(1 + (m + n))) = 0 by rewrite amat_first B mulmx0 addr0.
      have [c E] := kernel K.
      have c0 : c = 0.
        have := congr1 (fun a : 'cV[F]_(1 + (m + n)) => a (lshift (m + n) ord0) ord0) E.
        rewrite col_mxEu !mxE. case: splitP => j //= J. by rewrite mxE mulr1 => <-.
      rewrite c0 scale0r in E. by have [_ ->] := @eq_col_mx _ 1 (m + n) 1 _ _ _ _ (etrans E (esym (col_mx0 _ 1 (m + n) 1))).
    Qed.
    Lemma solved mu (z : 'cV[F]_(m + n)) : lhs x *m z = rhs x mu -> \sum_i row_sum mu i = \sum_j col_sum mu j ->
      amat x *m (col_mx (1%:M : 'M_1) z : 'cV_(1 + (m + n))) = bvec mu.
    Proof.
      rewrite /lhs /rhs -mulmxA => H S. set r := bvec mu - amat x *m (col_mx (1%:M : 'M_1) z : 'cV_(1 + (m + n))).
      have B : (bmat x)^T *m r = 0.
        by rewrite /r amat_first mulmx1 opprD addrA mulmxBr -H subrr.
      have [c E] := kernel (normal_residual B).
      suff /eqP : r = 0 by rewrite subr_eq0 => /eqP <-.
      apply: (nu_norm0 E). rewrite /r mulmxBr mulmxA nu_amat mul0mx subr0 /nu /bvec tr_col_mx mul_row_col.
      apply/matrixP => i j. rewrite !mxE. rewrite (eq_bigr (row_sum mu)) => [|k _]; last by rewrite !mxE mul1r.
      rewrite S addrC (eq_bigr (fun k => - col_sum mu k)) => [|k _]; last by rewrite !mxE mulN1r.
      by rewrite sumrN addNr.
    Qed.
    Lemma combine_tangent mu z : lhs x *m z = rhs x mu -> \sum_i row_sum mu i = \sum_j col_sum mu j -> tangent (combine x mu z).
    Proof.
      move=> H S. have E := solved H S. rewrite vec_split amat_col in E. have [E1 E2] := eq_col_mx E. have [R C] := U.
      split=> k.
        have := congr1 (fun a : 'cV[F]_n => a k ord0) E1. rewrite /combine. move: (col_mx (1%:M : 'M_1) (usubmx z) : 'cV_n) (dsubmx z) => al be.
        rewrite !mxE => T. rewrite (eq_bigr (fun j => mu k j - (al k ord0 * x k j + x k j * be j ord0))) => [|j _].
          by rewrite sumrB -/(row_sum mu k) -T big_split /= -mulr_sumr R mulr1 subrr.
        by rewrite mxE mulrDl [be _ _ * _]mulrC.
      have := congr1 (fun a : 'cV[F]_n => a k ord0) E2. rewrite /combine. move: (col_mx (1%:M : 'M_1) (usubmx z) : 'cV_n) (dsubmx z) => al be.
      rewrite !mxE => T. rewrite (eq_bigr (fun i => mu i k - (x^T k i * al i ord0 + be k ord0 * x i k))) => [|i _].
        by rewrite sumrB -/(col_sum mu k) -T big_split /= -mulr_sumr C mulr1 subrr.
      by rewrite !mxE mulrDl [al _ _ * _]mulrC.
    Qed.
    Lemma total (mu : 'M[F]_n) : \sum_i row_sum mu i = \sum_j col_sum mu j.
    Proof. exact: exchange_big. Qed.

    (** the projection *)
    Lemma proj_some u : exists w, proj_tangent x u = Some w /\ tangent w.
    Proof.
      rewrite /proj_tangent lhs_unit. eexists; split; first by []. apply: combine_tangent (total _).
      by rewrite mulKVmx // lhs_unit.
    Qed.
    Lemma proj_form u w : proj_tangent x u = Some w -> tangent w /\ exists a b, forall i j, w i j = x i j * (u i j - (a i + b j)).
    Proof.
      have [w' [E T]] := proj_some u. rewrite E => -[<-]. split=> //. move: E. rewrite /proj_tangent lhs_unit => -[<-].
      set z := invmx _ *m _. eexists (fun i => (col_mx (1%:M : 'M_1) (usubmx z) : 'cV_n) i ord0), (fun j => dsubmx z j ord0).
      move=> i j. rewrite /combine mxE mxE mulrBr. congr (_ - _). by rewrite mulrC.
    Qed.
    Lemma inner_dual (w u v : 'M[F]_n) a b : (forall i j, w i j = x i j * (u i j - (a i + b j))) -> tangent v ->
      inner x w v = pairing u v / n%:R.
    Proof.
      move=> W [R C]. rewrite /inner /pairing. congr (_ / _).
      transitivity (\sum_i \sum_j (u i j * v i j) - ((\sum_i a i * (\sum_j v i j)) + (\sum_j b j * (\sum_i v i j)))).
        rewrite (eq_bigr (fun i => \sum_j (u i j * v i j) - (a i * (\sum_j v i j) + \sum_j (b j * v i j)))).
          rewrite sumrB. congr (_ - _). rewrite big_split /=. congr (_ + _). rewrite exchange_big /=. apply: eq_bigr => j _. by rewrite mulr_sumr.
        move=> i _. rewrite mulr_sumr -big_split -sumrB /=. apply: eq_bigr => j _.
        rewrite W -mulrDl -mulrBl -!mulrA mulrCA. congr (_ * _). by rewrite mulrCA divff ?mulr1 // gt_eqF.
      have -> : \sum_i a i * (\sum_j v i j) = 0 by rewrite big1 // => k _; rewrite R mulr0.
      have -> : \sum_j b j * (\sum_i v i j) = 0 by rewrite big1 // => k _; rewrite C mulr0.
      by rewrite addr0 subr0.
    Qed.
    Lemma gradient u v w : proj_tangent x u = Some w -> tangent v -> inner x w v = pairing u v / n%:R.
    Proof. move=> /proj_form [_ [a [b W]]]. exact: inner_dual W. Qed.
    (** the only tangent vector of that form *)
    Lemma form_unique (w w' u : 'M[F]_n) a b a' b' : tangent w -> tangent w' ->
      (forall i j, w i j = x i j * (u i j - (a i + b j))) -> (forall i j, w' i j = x i j * (u i j - (a' i + b' j))) -> w = w'.
    Proof.
      move=> [R C] [R' C'] W W'.
      have E i j : x i j * ((a' i - a i) + (b' j - b j)) = w i j - w' i j.
        rewrite W W'. fr.
      have D : forall i j, (a' i - a i) + (b' j - b j) = 0.
        apply: (energy X (p := fun i => a' i - a i) (q := fun j => b' j - b j)) => k.
          rewrite (eq_bigr (fun j => w k j - w' k j)) => [|j _]; last exact: E. by rewrite sumrB R R' subrr.
        rewrite (eq_bigr (fun i => w i k - w' i k)) => [|i _]; last exact: E. by rewrite sumrB C C' subrr.
      apply/matrixP => i j. apply/eqP; rewrite -subr_eq0 -E D mulr0. by [].
    Qed.
    Lemma proj_char u w : proj_tangent x u = Some w <-> tangent w /\ exists a b, forall i j, w i j = x i j * (u i j - (a i + b j)).
    Proof.
      split=> [|[T [a [b W]]]]; first exact: proj_form.
      have [w' [E T']] := proj_some u. have [_ [a' [b' W']]] := proj_form E. rewrite E. congr Some. exact: form_unique W' W.
    Qed.
    Lemma inner_pos u : u <> 0 -> 0 < inner x u u.
    Proof.
      move=> N. rewrite /inner divr_gt0 ?ltr0n //. rewrite lt_def. 
      have P i j : 0 <= u i j * u i j / x i j by apply: divr_ge0; [rewrite -expr2 sqr_ge0|exact: ltW].
      have PP i : 0 <= \sum_j u i j * u i j / x i j by apply: sumr_ge0.
      rewrite sumr_ge0 // andbT psumr_eq0 //. apply/negP => /allP H. apply: N. apply/matrixP => i j.
      have := H i; rewrite mem_index_enum psumr_eq0 // => /(_ isT) /allP /(_ j). rewrite mem_index_enum => /(_ isT).
      rewrite mulf_eq0 invr_eq0 (gt_eqF (X i j)) orbF mulf_eq0 orbb mxE => /eqP. by [].
    Qed.
    Lemma innerB u v w : inner x (u - v) w = inner x u w - inner x v w.
    Proof.
      rewrite /inner -mulrBl -sumrB. congr (_ / _). apply: eq_bigr => i _. rewrite -sumrB. apply: eq_bigr => j _.
      by rewrite !mxE !mulrBl.
    Qed.
    Lemma gradient_unique u w w' : proj_tangent x u = Some w -> tangent w' ->
      (forall v, tangent v -> inner x w' v = pairing u v / n%:R) -> w' = w.
    Proof.
      move=> E T H. have [[R C] _] := proj_form E. have [R' C'] := T.
      have D : tangent (w' - w).
        split=> k.
          rewrite (eq_bigr (fun j => w' k j - w k j)) => [|j _]; last by rewrite !mxE. by rewrite sumrB R R' subrr.
        rewrite (eq_bigr (fun i => w' i k - w i k)) => [|j _]; last by rewrite !mxE. by rewrite sumrB C C' subrr.
      have Z : inner x (w' - w) (w' - w) = 0 by rewrite innerB H // (gradient E) // subrr.
      case: (eqVneq (w' - w) 0) => [/eqP|N]; first by rewrite subr_eq0 => /eqP.
      have := @inner_pos (w' - w). rewrite Z ltxx => /(_ (elimN eqP N)). by [].
    Qed.
  End Point.
  Definition checker : 'M[F]_2 := \matrix_(i, j) (if i == j then 1 else - 1).
  Lemma checker_case : tangent checker /\ checker <> 0.
  Proof.
    split; last by move/matrixP/(_ ord0 ord0)/eqP; rewrite !mxE oner_eq0.
    split=> -[[|[|//]] L]; rewrite !big_ord_recl big_ord0 !mxE /= addr0 ?subrr ?addNr //.
  Qed.

  (** The centre J/n: the projection divides tangent vectors by n. *)
  Definition centre m : 'M[F]_m.+1 := const_mx (m.+1%:R^-1).
  Lemma centre_interior m : interior (centre m).
  Proof.
    have N : (m.+1%:R : F) != 0 by rewrite pnatr_eq0.
    split=> [i j|]; first by rewrite mxE invr_gt0 ltr0n.
    split=> i; rewrite (eq_bigr (fun=> m.+1%:R^-1)) => [|j _]; try by rewrite mxE.
      by rewrite sumr_const card_ord -[_ *+ _]mulr_natr mulVf.
    by rewrite sumr_const card_ord -[_ *+ _]mulr_natr mulVf.
  Qed.
  Lemma centre_shrinks m (w : 'M[F]_m.+1) : tangent w -> proj_tangent (centre m) w = Some (m.+1%:R^-1 *: w).
  Proof.
    move=> T. have [P S] := centre_interior m. have [v [E V]] := proj_some P S w. rewrite E; congr Some.
    have [_ [a [b W]]] := proj_form P S E.
    apply: (form_unique P V (w' := m.+1%:R^-1 *: w) (a' := fun=> 0) (b' := fun=> 0) _ W).
      case: T => R C. split=> k.
        rewrite (eq_bigr (fun j => m.+1%:R^-1 * w k j)) => [|j _]; last by rewrite mxE. by rewrite -mulr_sumr R mulr0.
      rewrite (eq_bigr (fun i => m.+1%:R^-1 * w i k)) => [|j _]; last by rewrite mxE. by rewrite -mulr_sumr C mulr0.
    move=> i j. by rewrite !mxE addr0 subr0.
  Qed.

  (** At the origin (identity) the linear system is singular. *)
  Lemma origin_singular m (u : 'M[F]_m.+2) : proj_tangent (origin F m.+2) u = None.
  Proof.
    rewrite /proj_tangent. case: ifP => // L.
    (* the last column of the top identity block and of x coincide *)
    pose z : 'cV[F]_(m.+1 + m.+2) := col_mx (delta_mx ord_max ord0) (- delta_mx ord_max ord0).
    have B : bmat (origin F m.+2) *m z = 0.
      have := amat_first (origin F m.+2) 0 z. rewrite mulmx0 add0r => <-. rewrite vec_split amat_col /origin trmx1 !mul1mx.
      rewrite /z col_mxKu col_mxKd.
      have -> : col_mx (0 : 'M_1) (delta_mx ord_max ord0) - delta_mx ord_max ord0 = 0 :> 'cV[F]_m.+2.
        apply/eqP; rewrite subr_eq0; apply/eqP/colP => i. rewrite !mxE. case: splitP => j J; rewrite !mxE.
          case: eqP => // H. move: J. by rewrite H /= ord1.
        congr ((_ && _)%:R). by rewrite -!val_eqE /= J /= add1n eqSS.
      exact: col_mx0.
    have : invmx (lhs (origin F m.+2)) *m (lhs (origin F m.+2) *m z) = 0 by rewrite /lhs -(mulmxA _ _ z) B !mulmx0.
    rewrite mulKmx // => /(congr1 (fun a : 'cV[F]_(m.+1 + m.+2) => a (lshift _ ord_max) ord0)).
    rewrite /z col_mxEu !mxE !eqxx => /eqP. by rewrite oner_eq0.
  Qed.
End Tangent.
