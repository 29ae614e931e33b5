(** Lemmas for the SPD manifold: the operations using eigendecompositions. *)
From mathcomp Require Import all_ssreflect all_algebra.
From Verif Require Import StiefelModel StiefelSpec StiefelProofs Spectral SpdModel SpdSpec SpdProofs.
Import Order.TTheory GRing.Theory Num.Theory.
Local Open Scope ring_scope.
Set Implicit Arguments. Unset Strict Implicit. Unset Printing Implicit Defensive.

Section Scalar.
  Variables (F : rcfType) (exp log : F -> F).
  Hypothesis EL : explog exp log.
  Lemma exp0 : exp 0 = 1.
  Proof.
    have := expD EL 0 0. rewrite addr0 => /eqP. rewrite -subr_eq0 -{1}[exp 0]mulr1 -mulrBr mulf_eq0.
    by rewrite gt_eqF ?(exp_gt0 EL) //= subr_eq0 => /eqP.
  Qed.
  Lemma expN t : exp (- t) = (exp t)^-1.
  Proof.
    have H := expD EL (- t) t. rewrite addNr exp0 in H.
    by rewrite -[LHS]mulr1 -(divff (x := exp t)) ?gt_eqF ?(exp_gt0 EL) // mulrA -H mul1r.
  Qed.
  Lemma logV t : 0 < t -> log t^-1 = - log t.
  Proof. move=> t0. by rewrite -{1}(logK EL t0) -expN (expK EL). Qed.
  Lemma logM s t : 0 < s -> 0 < t -> log (s * t) = log s + log t.
  Proof. move=> s0 t0. by rewrite -{1}(logK EL s0) -{1}(logK EL t0) -(expD EL) (expK EL). Qed.
  Lemma log1 : log 1 = 0.
  Proof. by rewrite -exp0 (expK EL). Qed.
  Lemma log_inj s t : 0 < s -> 0 < t -> log s = log t -> s = t.
  Proof. move=> s0 t0 H. by rewrite -(logK EL s0) H (logK EL t0). Qed.
  Lemma log_le s t : 0 < s -> s <= t -> log s <= log t.
  Proof. move=> s0. rewrite le_eqVlt => /orP [/eqP -> //|H]. by apply/ltW/(log_mono EL). Qed.
  Lemma exp_half t : exp (2%:R^-1 * t) * exp (2%:R^-1 * t) = exp t.
  Proof. by rewrite -(expD EL) -mulrDl half_half mul1r. Qed.
End Scalar.

Section Norms.
  Variable F : rcfType.
  Lemma normE n (a : 'M[F]_n) : norm a = Num.sqrt (pairing a a).
  Proof. by rewrite /norm frobE. Qed.
  Lemma norm_ge0 n (a : 'M[F]_n) : 0 <= norm a.
  Proof. by rewrite normE sqrtr_ge0. Qed.
  Lemma norm_sq n (a : 'M[F]_n) : norm a ^+ 2 = pairing a a.
  Proof. by rewrite normE sqr_sqrtr ?pairing_ge0. Qed.
  Lemma norm_eq0 n (a : 'M[F]_n) : norm a = 0 -> a = 0.
  Proof. move=> H. apply: pairing_eq0. by rewrite -norm_sq H expr0n. Qed.
  Lemma normN n (a : 'M[F]_n) : norm (- a) = norm a.
  Proof. by rewrite !normE pairingNl pairingC pairingNl opprK. Qed.
  Lemma pairing0l n (b : 'M[F]_n) : pairing 0 b = 0.
  Proof. by rewrite /pairing trmx0 mul0mx mxtrace0. Qed.
  Lemma cauchy n (a b : 'M[F]_n) : pairing a b <= norm a * norm b.
  Proof.
    have [H|H] := eqVneq (norm b) 0.
      rewrite (norm_eq0 H) pairingC pairing0l. by rewrite mulr_ge0 ?norm_ge0.
    have [G|G] := eqVneq (norm a) 0.
      rewrite (norm_eq0 G) pairing0l. by rewrite mulr_ge0 ?norm_ge0.
    have P : 0 < norm a * norm b by rewrite mulr_gt0 // lt_def norm_ge0 andbT.
    have := pairing_ge0 (norm b *: a - norm a *: b).
    rewrite pairingBl !pairingBr !pairingZl [pairing a (_ *: a)]pairingC [pairing b (_ *: b)]pairingC.
    rewrite [pairing a (_ *: b)]pairingC [pairing b (_ *: a)]pairingC !pairingZl [pairing b a]pairingC -!norm_sq.
    set A := norm a in P G *. set B := norm b in P H *. set t := pairing a b.
    have -> : B * (B * A ^+ 2) - B * (A * t) - (A * (B * t) - A * (A * B ^+ 2)) = 2%:R * (A * B) * (A * B - t).
      have -> : B * (B * A ^+ 2) = A * B * (A * B) by rewrite mulrA -expr2 -exprMn [B * A]mulrC expr2.
      have -> : B * (A * t) = A * B * t by rewrite mulrCA mulrA.
      have -> : A * (A * B ^+ 2) = A * B * (A * B) by rewrite mulrA -expr2 -exprMn expr2.
      by rewrite [A * (B * t)]mulrA opprB mulr_natl mulr2n mulrDl !mulrBr.
    by rewrite pmulr_rge0 ?subr_ge0 // mulr_gt0 // ltr0n.
  Qed.
  Lemma norm_triangle n (a b : 'M[F]_n) : norm (a + b) <= norm a + norm b.
  Proof.
    rewrite -(ler_pexpn2r (n := 2)) ?nnegrE ?norm_ge0 ?addr_ge0 ?norm_ge0 //.
    rewrite norm_sq pairingDl !pairingDr [pairing b a]pairingC sqrrD !norm_sq.
    by rewrite addrA -[pairing a a + _ + _]addrA -mulr2n ler_add2r ler_add2l ler_muln2r cauchy.
  Qed.
End Norms.

Section Eigh.
  Variable F : rcfType.
  Implicit Types n : nat.
  Variable eigh : forall n, 'M[F]_n -> 'rV[F]_n * 'M[F]_n.
  Hypothesis EO : eigh_ok eigh.

  Lemma upper_sym n (x : 'M[F]_n) : symmetric x -> upper x = x.
  Proof. move=> S. apply/matrixP => i j. rewrite mxE. case: leqP => // _. by rewrite -{1}S mxE. Qed.
  Lemma funcm_fn f n (x : 'M[F]_n) : symmetric x -> is_fn f x (sym_funcm eigh f x).
  Proof.
    move=> S. have [V E] := EO x. rewrite upper_sym // in E. rewrite /sym_funcm.
    case: (eigh x) V E => e v /= V E. by exists v, e.
  Qed.
  Lemma sqrtm2 n (x : 'M[F]_n) : pos_def x -> exists i s, sym_inv_sqrtm2 eigh x = (i, s) /\ roots x i s /\ sym_inv_sqrtm1 eigh x = i.
  Proof.
    move=> X. have [V E] := EO x. rewrite upper_sym in E; last by case: X. rewrite /sym_inv_sqrtm2 /sym_inv_sqrtm1 /sym_funcm.
    case: (eigh x) V E => e v /= V E. eexists; eexists; split; first by []. split.
      apply: roots_of => //; exists v, e; do 2 split=> //.
      congr (_ *m diag_mx _ *m _). by apply/matrixP => i j; rewrite !mxE.
    congr (_ *m diag_mx _ *m _). by apply/matrixP => i j; rewrite !mxE.
  Qed.

  (** C29 projection *)
  Lemma projx_semi n (x : 'M[F]_n) : pos_semidef (projx eigh x).
  Proof. apply: (fn_semi (funcm_fn _ (sym_symmetric x))) => t. exact: normr_ge0. Qed.
  Lemma projx_pos n (x : 'M[F]_n) : sym x \in unitmx -> pos_def (projx eigh x).
  Proof.
    move=> U. rewrite /projx. have [v [e [V [E ->]]]] := funcm_fn Num.norm (sym_symmetric x).
    apply: diag_pos_conj => // i. rewrite mxE normr_gt0.
    move: U. rewrite E !unitmx_mul => /andP [/andP [_ +] _]. rewrite unitmxE det_diag unitfE => /prodf_neq0. by apply.
  Qed.
  Lemma projx_fix n (x : 'M[F]_n) : pos_def x -> projx eigh x = x.
  Proof.
    move=> X. rewrite /projx sym_id; last by case: X.
    apply: (fn_unique (f := id)); last by apply: fn_id; case: X.
    apply: (fn_ext (f := Num.norm)) => // [|t t0]; last by rewrite gtr0_norm.
    apply: funcm_fn. by case: X.
  Qed.
  Lemma projx_zero n : projx eigh (0 : 'M[F]_n) = 0.
  Proof.
    rewrite /projx sym_id; last by rewrite /symmetric trmx0.
    have := funcm_fn Num.norm (x := 0 : 'M[F]_n) (trmx0 _ _ _) => H.
    apply: (fn_unique H). have [v [e [V [E G]]]] := H. exists v, e. do 2 split=> //.
    have D : diag_mx e = 0.
      have := congr1 (fun a => v^T *m a *m v) E. by rewrite mulmx0 mul0mx !mulmxA V mul1mx -mulmxA V mulmx1.
    have -> : diag_mx (map_mx Num.norm e) = 0.
      apply/matrixP => i j. have := congr1 (fun a : 'M_n => a i j) D. rewrite !mxE.
      case: (i == j); rewrite ?mulr0n // !mulr1n => ->. by rewrite normr0.
    by rewrite mulmx0 mul0mx.
  Qed.
  Lemma zero_not_pos n : ~ pos_def (0 : 'M[F]_n.+1).
  Proof. move/pos_def_unit. by rewrite unitmxE det0 unitr0. Qed.

  (** checks *)
  Lemma mx_allcloseP n atol rtol (a b : 'M[F]_n) :
    mx_allclose atol rtol a b <-> forall i j, `|a i j - b i j| <= atol + rtol * `|b i j|.
  Proof. rewrite /mx_allclose. split; first by move=> /forallP H i j; have /forallP := H i. move=> H. by apply/forallP => i; apply/forallP. Qed.
  Lemma allclose_sym n atol rtol (x : 'M[F]_n) : 0 <= atol -> 0 <= rtol -> symmetric x -> mx_allclose atol rtol x x^T.
  Proof. move=> A R S. apply/mx_allcloseP => i j. by rewrite S subrr normr0 addr_ge0 ?mulr_ge0 ?normr_ge0. Qed.
  Lemma allclose_exact n (x : 'M[F]_n) : mx_allclose 0 0 x x^T <-> symmetric x.
  Proof.
    split=> [/mx_allcloseP H|]; last exact: allclose_sym.
    apply/matrixP => i j. have := H i j. rewrite mul0r addr0 normr_le0 subr_eq0 => /eqP ->. done.
  Qed.
  Lemma check_eig n atol (x : 'M[F]_n) : [forall i, - atol < (eigh x).1 ord0 i] <-> pos_def (upper x + atol%:M).
  Proof.
    have [V E] := EO x. case: (eigh x) V E => e v /= V E.
    have -> : upper x + atol%:M = v *m diag_mx (map_mx (fun t => t + atol) e) *m v^T.
      have -> : diag_mx (map_mx (fun t => t + atol) e) = diag_mx e + atol%:M.
        apply/matrixP => i j. rewrite !mxE. by rewrite mulrnDl.
      by rewrite mulmxDr mulmxDl -E mul_mx_scalar -scalemxAl (mulmx1C V) scalemx1.
    split=> [/forallP H|P].
      apply: diag_pos_conj => // i. rewrite mxE. have := H i. by rewrite -subr_gt0 opprK.
    apply/forallP => i. have := eig_pos V P i. by rewrite mxE -(subr_gt0 (- atol)) opprK.
  Qed.
  Lemma check_pointE n atol rtol (x : 'M[F]_n) :
    check_point eigh atol rtol x <-> (forall i j, `|x i j - x j i| <= atol + rtol * `|x j i|) /\ pos_def (upper x + atol%:M).
  Proof.
    rewrite /check_point. have C := check_eig atol x. case: (eigh x) C => e v /= C.
    have A := mx_allcloseP atol rtol x x^T.
    have A' : mx_allclose atol rtol x x^T <-> forall i j, `|x i j - x j i| <= atol + rtol * `|x j i|.
      rewrite A; split=> H i j; have := H i j; by rewrite mxE.
    rewrite -A'. case: mx_allclose => /=; last by split=> // -[].
    by split=> [/C P|[_ P]]; last apply/C.
  Qed.
  Lemma check_complete n atol rtol (x : 'M[F]_n) : 0 <= atol -> 0 <= rtol -> pos_def x -> check_point eigh atol rtol x.
  Proof.
    move=> A R X. apply/check_pointE. split.
      have := allclose_sym A R (proj1 X). move/mx_allcloseP => H i j. have := H i j. by rewrite mxE.
    rewrite upper_sym; last by case: X. apply: pos_defD => //. split; first by rewrite /symmetric tr_scalar_mx.
    move=> v. rewrite -scalemx1 quadZ mulr_ge0 //. apply: (proj2 (pos_def_semi (fn_pos (fn_const 1 (trmx1 F n)) (fun=> ltr01)))).
  Qed.
  Lemma check_exact n (x : 'M[F]_n) : check_point eigh 0 0 x <-> pos_def x.
  Proof.
    split=> [|X]; last exact: check_complete.
    move/check_pointE => [H P].
    have S : symmetric x by apply/allclose_exact/mx_allcloseP => i j; rewrite mxE.
    move: P. by rewrite upper_sym // raddf0 addr0.
  Qed.
  Lemma check_singular n atol rtol : 0 < atol -> 0 <= rtol -> check_point eigh atol rtol (0 : 'M[F]_n).
  Proof.
    move=> A R. apply/check_pointE. split=> [i j|]; first by rewrite !mxE subrr normr0 mulr0 addr0 ltW.
    rewrite upper_sym; last by rewrite /symmetric trmx0. rewrite add0r -scalemx1. apply: pos_defZ => //.
    exact: (fn_pos (fn_const 1 (trmx1 F n)) (fun=> ltr01)).
  Qed.
  Lemma check_negative n t atol rtol : 0 < t -> t < atol -> 0 <= rtol -> check_point eigh atol rtol (- t%:M : 'M[F]_n).
  Proof.
    move=> T A R. have S : symmetric (- t%:M : 'M[F]_n) by rewrite /symmetric linearN /= tr_scalar_mx.
    apply/check_pointE. split.
      have := allclose_sym (ltW (lt_trans T A)) R S. move/mx_allcloseP => H i j. have := H i j. by rewrite [_^T i j]mxE.
    rewrite upper_sym // addrC -raddfB /= -scalemx1. apply: pos_defZ; first by rewrite subr_gt0.
    exact: (fn_pos (fn_const 1 (trmx1 F n)) (fun=> ltr01)).
  Qed.
  Lemma check_vectorE n (x u : 'M[F]_n) : check_vector 0 0 x u <-> symmetric u.
  Proof. exact: allclose_exact. Qed.
  Lemma origin_pos n : pos_def (origin F n).
  Proof. apply: diag_pos => i. by rewrite mxE ltr01. Qed.

  Variables (exp log : F -> F) (mexp : forall n, 'M[F]_n -> 'M[F]_n).
  Hypothesis EL : explog exp log.
  Hypothesis MX : matrix_exp_ok exp mexp.

  Lemma random_pos n (d : 'M[F]_n) : pos_def (random eigh exp d).
  Proof. apply: (fn_pos (funcm_fn exp (sym_symmetric _))). exact: (exp_gt0 EL). Qed.

  Lemma mexp_fn n (x : 'M[F]_n) : symmetric x -> is_fn exp x (mexp x).
  Proof. move=> /spectral [e [v [V E]]]. exists v, e. do 2 split=> //. rewrite {1}E. exact: MX. Qed.
  Lemma log_exp n (m : 'M[F]_n) : symmetric m -> sym_logm eigh log (mexp m) = m.
  Proof.
    move=> M. have H := mexp_fn M. have G := funcm_fn log (fn_symmetric H).
    apply: (fn_unique (fn_comp (h := id) H G _) (fn_id M)) => t. by rewrite (expK EL).
  Qed.
  Lemma exp_log n (m : 'M[F]_n) : pos_def m -> mexp (sym_logm eigh log m) = m.
  Proof.
    move=> M. have G := funcm_fn log (proj1 M). have H := mexp_fn (fn_symmetric G).
    apply: (fn_unique (fn_ext (g := id) (fn_comp (h := fun t => exp (log t)) G H (fun=> erefl)) M _) (fn_id (proj1 M))).
    exact: (logK EL).
  Qed.
  Lemma log_symmetric n (m : 'M[F]_n) : symmetric m -> symmetric (sym_logm eigh log m).
  Proof. move=> M. exact: (fn_symmetric (funcm_fn log M)). Qed.
  Lemma mexp_pos n (m : 'M[F]_n) : symmetric m -> pos_def (mexp m).
  Proof. move=> M. apply: (fn_pos (mexp_fn M)). exact: (exp_gt0 EL). Qed.

  (** C31 *)
  Lemma expmap_pos n (x u : 'M[F]_n) : pos_def x -> symmetric u -> pos_def (expmap eigh mexp x u).
  Proof.
    move=> X U. have [i [s [E [R _]]]] := sqrtm2 X. rewrite /expmap E. apply: (s_pos R).
    apply: mexp_pos. exact: (r_symmetric R).
  Qed.
  Lemma logmap_tangent n (x y : 'M[F]_n) : pos_def x -> symmetric y -> symmetric (logmap eigh log x y).
  Proof.
    move=> X Y. have [i [s [E [R _]]]] := sqrtm2 X. rewrite /logmap E. apply: (s_symmetric R).
    apply: log_symmetric. exact: (r_symmetric R).
  Qed.
  Lemma logmap_expmap n (x u : 'M[F]_n) : pos_def x -> symmetric u -> logmap eigh log x (expmap eigh mexp x u) = u.
  Proof.
    move=> X U. have [i [s [E [R _]]]] := sqrtm2 X. rewrite /logmap /expmap E (r_cancel' R) /sym_expm log_exp.
      exact: (r_cancel R).
    exact: (r_symmetric R).
  Qed.
  Lemma expmap_logmap n (x y : 'M[F]_n) : pos_def x -> pos_def y -> expmap eigh mexp x (logmap eigh log x y) = y.
  Proof.
    move=> X Y. have [i [s [E [R _]]]] := sqrtm2 X. rewrite /logmap /expmap E (r_cancel' R) /sym_expm exp_log.
      exact: (r_cancel R).
    exact: (r_pos R).
  Qed.
  Lemma dist_logmap n (x y : 'M[F]_n) : pos_def x -> symmetric y ->
    affine_invariant eigh log x y ^+ 2 = inner x (logmap eigh log x y) (logmap eigh log x y).
  Proof.
    move=> X Y. have [i [s [E [R E1]]]] := sqrtm2 X. rewrite /logmap E /affine_invariant E1 (inner_roots R) !(r_cancel' R) norm_sq.
    rewrite tr_mul_sym //. apply: log_symmetric. exact: (r_symmetric R).
  Qed.
  Lemma dist_expmap n (x u : 'M[F]_n) : pos_def x -> symmetric u ->
    affine_invariant eigh log x (expmap eigh mexp x u) = Num.sqrt (inner x u u).
  Proof.
    move=> X U. have H := dist_logmap X (proj1 (expmap_pos X U)). rewrite logmap_expmap // in H.
    by rewrite -H sqrtr_sqr ger0_norm // norm_ge0.
  Qed.

  (** the square of a logarithm *)
  Lemma norm_log n (m : 'M[F]_n) : symmetric m ->
    exists w, is_fn (fun t => log t * log t) m w /\ norm (sym_logm eigh log m) = Num.sqrt (\tr w).
  Proof.
    move=> M. have H := funcm_fn log M. exists (sym_logm eigh log m *m sym_logm eigh log m).
    split; first exact: (fn_mul H H). rewrite normE -tr_mul_sym //. exact: log_symmetric.
  Qed.
  Lemma norm_log_sim n (m m' s : 'M[F]_n) : symmetric m -> symmetric m' -> s \in unitmx -> m *m s = s *m m' ->
    norm (sym_logm eigh log m) = norm (sym_logm eigh log m').
  Proof.
    move=> M M' S H. have [w [W ->]] := norm_log M. have [w' [W' ->]] := norm_log M'. congr Num.sqrt.
    have E := fn_inter W W' H. have -> : w = s *m w' *m invmx s by rewrite -E mulmxK.
    by rewrite mxtrace_mulC mulmxA mulVmx // mul1mx.
  Qed.
  Lemma roots_congr n (x a i s i' s' : 'M[F]_n) : a \in unitmx -> roots x i s -> roots (a *m x *m a^T) i' s' ->
    a^T *m i' *m i' *m a = i *m i.
  Proof.
    move=> A R R'. rewrite -(r_inv R) -(mulmxA a^T) -(r_inv R').
    have X := pos_def_unit (r_x R). have AT : a^T \in unitmx by rewrite unitmx_tr.
    have U : a *m x *m a^T \in unitmx by rewrite !unitmx_mul A X AT.
    have H : x *m (a^T *m invmx (a *m x *m a^T) *m a) = 1%:M.
      have -> : x *m (a^T *m invmx (a *m x *m a^T) *m a) = invmx a *m (a *m x *m a^T *m invmx (a *m x *m a^T)) *m a.
        by rewrite !mulmxA mulVmx // mul1mx.
      by rewrite mulmxV // mulmx1 mulVmx.
    have -> : invmx x = invmx x *m (x *m (a^T *m invmx (a *m x *m a^T) *m a)) by rewrite H mulmx1.
    by rewrite mulKmx.
  Qed.
  Lemma dist_congr n (x y a : 'M[F]_n) : a \in unitmx -> pos_def x -> pos_def y ->
    affine_invariant eigh log (a *m x *m a^T) (a *m y *m a^T) = affine_invariant eigh log x y.
  Proof.
    move=> A X Y. have X' := pos_def_congr A X. have Y' := pos_def_congr A Y.
    have [i [s [E [R E1]]]] := sqrtm2 X. have [i' [s' [E' [R' E1']]]] := sqrtm2 X'.
    rewrite /affine_invariant E1 E1'. apply: (norm_log_sim (s := i' *m a *m s)).
    - exact: (proj1 (r_pos R' Y')).
    - exact: (proj1 (r_pos R Y)).
    - by rewrite !unitmx_mul A (r_iU R') (r_sU R).
    - have -> : i' *m (a *m y *m a^T) *m i' *m (i' *m a *m s) = i' *m a *m y *m (a^T *m i' *m i' *m a) *m s by rewrite !mulmxA.
      rewrite (roots_congr A R R') -(mulmxA _ (i *m i)) -(mulmxA i) (r_is R) mulmx1.
      by rewrite !mulmxA -(mulmxA _ s i) (r_si R) mulmx1.
  Qed.
  Lemma fn_inv n (x : 'M[F]_n) : pos_def x -> is_fn GRing.inv x (invmx x).
  Proof.
    move=> X. have [y Y] := fn_exists GRing.inv (proj1 X).
    have H : y *m x = 1%:M.
      have G := fn_mul (h := fun t => t^-1 * t) Y (fn_id (proj1 X)) (fun=> erefl).
      apply: (fn_unique (fn_ext (g := fun=> 1) G X _)); last by apply: fn_const; case: X.
      by move=> t t0; rewrite mulVf // gt_eqF.
    have U := pos_def_unit X. by rewrite -[invmx x]mul1mx -H mulmxK.
  Qed.
  Lemma log_inv n (m : 'M[F]_n) : pos_def m -> sym_logm eigh log (invmx m) = - sym_logm eigh log m.
  Proof.
    move=> M. have I := fn_inv M. have P := pos_def_inv M. have L := funcm_fn log (proj1 P).
    have H := fn_comp (h := fun t => log t^-1) I L (fun=> erefl).
    apply: (fn_unique (fn_ext (g := fun t => -1 * log t) H M _)).
      by move=> t t0; rewrite (logV EL t0) mulN1r.
    rewrite -scaleN1r. apply: fn_scale. apply: funcm_fn. by case: M.
  Qed.
  (** relation between the two whitened matrices *)
  Lemma swap n (x y i s i' s' : 'M[F]_n) : roots x i s -> roots y i' s' ->
    invmx (i' *m x *m i') = s' *m (i *m i) *m s' /\
    (i *m y *m i) *m (i *m s') = (i *m s') *m invmx (i' *m x *m i') /\
    (i' *m s) *m (i *m s') = 1%:M /\ (i *m s') *m (i' *m s) = 1%:M.
  Proof.
    move=> R R'. have E : invmx (i' *m x *m i') = s' *m (i *m i) *m s'.
      have U := pos_def_unit (r_pos R' (r_x R)).
      have H : (i' *m x *m i') *m (s' *m (i *m i) *m s') = 1%:M.
        rewrite !mulmxA -(mulmxA _ i' s') (r_is R') mulmx1 -(r_ss R) !mulmxA -(mulmxA _ s i) (r_si R) mulmx1.
        by rewrite -(mulmxA _ s i) (r_si R) mulmx1 (r_is R').
      by rewrite -[RHS](mulKmx U) H mulmx1.
    split=> //. rewrite E -(r_ss R'). split; first by rewrite !mulmxA.
    by rewrite !mulmxA -(mulmxA _ s i) (r_si R) mulmx1 (r_is R') -(mulmxA _ s' i') (r_si R') mulmx1 (r_is R).
  Qed.
  Lemma dist_sym n (x y : 'M[F]_n) : pos_def x -> pos_def y -> affine_invariant eigh log x y = affine_invariant eigh log y x.
  Proof.
    move=> X Y. have [i [s [_ [R E]]]] := sqrtm2 X. have [i' [s' [_ [R' E']]]] := sqrtm2 Y.
    rewrite /affine_invariant E E'. have [Iv [Sw [_ _]]] := swap R R'.
    rewrite -[RHS]normN -log_inv; last exact: (r_pos R' X).
    apply: (norm_log_sim (s := i *m s')) => //.
    - exact: (proj1 (r_pos R Y)).
    - apply: (proj1 (pos_def_inv (r_pos R' X))).
    - by rewrite unitmx_mul (r_iU R) (r_sU R').
  Qed.
  Lemma log_zero n (m : 'M[F]_n) : pos_def m -> sym_logm eigh log m = 0 -> m = 1%:M.
  Proof.
    move=> M H. rewrite -(exp_log M) H. have Z := mexp_fn (trmx0 F n n).
    apply: (fn_unique Z). have G := fn_const 1 (trmx0 F n n). 
    have [v [e [V [E0 E1]]]] := Z. exists v, e. do 2 split=> //.
    have D : diag_mx e = 0.
      have := congr1 (fun a => v^T *m a *m v) E0. by rewrite mulmx0 mul0mx !mulmxA V mul1mx -mulmxA V mulmx1.
    have -> : diag_mx (map_mx exp e) = 1%:M.
      apply/matrixP => i j. have := congr1 (fun a : 'M_n => a i j) D. rewrite !mxE.
      case: (i == j); rewrite ?mulr0n // !mulr1n => ->. by rewrite (exp0 EL).
    by rewrite mulmx1 (mulmx1C V).
  Qed.
  Lemma log_one n : sym_logm eigh log (1%:M : 'M[F]_n) = 0.
  Proof.
    have H := funcm_fn log (trmx1 F n). apply: (fn_unique H). have C := fn_const (log 1) (trmx1 F n).
    have P : pos_def (1%:M : 'M[F]_n) := fn_pos (fn_const 1 (trmx1 F n)) (fun=> ltr01).
    have [v [e [V [E0 E1]]]] := H. exists v, e. do 2 split=> //.
    have D : diag_mx e = 1%:M.
      have := congr1 (fun a => v^T *m a *m v) E0. by rewrite mulmx1 V !mulmxA V mul1mx -mulmxA V mulmx1.
    have -> : diag_mx (map_mx log e) = 0.
      apply/matrixP => i j. have := congr1 (fun a : 'M_n => a i j) D. rewrite !mxE.
      case: (i == j); rewrite ?mulr0n // !mulr1n => ->. by rewrite (log1 EL).
    by rewrite mulmx0 mul0mx.
  Qed.
  Lemma dist_zero n (x y : 'M[F]_n) : pos_def x -> pos_def y -> (affine_invariant eigh log x y = 0 <-> x = y).
  Proof.
    move=> X Y. have [i [s [_ [R E]]]] := sqrtm2 X. rewrite /affine_invariant E. split=> [/norm_eq0 H|<-].
      have := log_zero (r_pos R Y) H => G. by rewrite -(r_cancel R y) G mulmx1 (r_ss R).
    have -> : i *m x *m i = 1%:M by rewrite -(r_ss R) mulmxA (r_is R) mul1mx (r_si R).
    by rewrite log_one normE pairing0l sqrtr0.
  Qed.

  (** transport is congruence by P with P x P^T = y *)
  Lemma transp_congr n (x y : 'M[F]_n) : pos_def x -> pos_def y -> exists p, p \in unitmx /\ p *m x *m p^T = y /\
    (forall v, symmetric v -> transp eigh mexp log x y v = p *m v *m p^T) /\
    transp eigh mexp log x y (logmap eigh log x y) = - logmap eigh log y x.
  Proof.
    move=> X Y. have [i [s [E [R _]]]] := sqrtm2 X. have [i' [s' [E' [R' _]]]] := sqrtm2 Y.
    have M := r_pos R Y. have L := funcm_fn log (proj1 M). have H2 := fn_scale 2%:R^-1 L.
    have HS : symmetric (2%:R^-1 *: sym_logm eigh log (i *m y *m i)) by exact: fn_symmetric H2.
    have EH := mexp_fn HS. have HE := mexp_pos HS. set h := mexp _ in EH HE.
    have HT : h^T = h by case: HE.
    have HH : h *m h = i *m y *m i.
      have C := fn_comp (h := fun t => exp (2%:R^-1 * log t)) H2 EH (fun=> erefl).
      have G := fn_mul (h := fun t => exp (2%:R^-1 * log t) * exp (2%:R^-1 * log t)) C C (fun=> erefl).
      apply: (fn_unique (fn_ext (g := id) G M _) (fn_id (proj1 M))) => t t0.
      by rewrite (exp_half EL) (logK EL).
    have TE v : symmetric v -> transp eigh mexp log x y v = s *m h *m i *m v *m (s *m h *m i)^T.
      move=> V. rewrite /transp E -/h sym_id; last exact: (r_symmetric R).
      by rewrite !trmx_mul HT (r_iT R) (r_sT R) !mulmxA.
    exists (s *m h *m i). split.
      by rewrite !unitmx_mul (r_sU R) (pos_def_unit HE) (r_iU R).
    split.
      rewrite !trmx_mul HT (r_iT R) (r_sT R) -(r_ss R) !mulmxA -(mulmxA _ i s) (r_is R) mulmx1 -(mulmxA _ s i) (r_si R) mulmx1.
      rewrite -(mulmxA _ h h) HH. exact: (r_cancel R).
    split=> //. rewrite TE; last by apply: logmap_tangent => //; case: Y.
    rewrite /logmap E E' !trmx_mul HT (r_iT R) (r_sT R) !mulmxA -(mulmxA _ i s) (r_is R) mulmx1 -(mulmxA _ s i) (r_si R) mulmx1.
    set l := sym_logm eigh log _ in L *.
    have C : l *m h = h *m l.
      apply: (fn_inter L L). by rewrite -HH mulmxA.
    rewrite -(mulmxA s h l) -C mulmxA -(mulmxA _ h h) HH.
    have [Iv [Sw [S1 S2]]] := swap R R'.
    have N := r_pos R' X. have LI := funcm_fn log (proj1 (pos_def_inv N)).
    have G : l *m (i *m s') = i *m s' *m sym_logm eigh log (invmx (i' *m x *m i')) := fn_inter L LI Sw.
    rewrite log_inv // in G.
    set k := sym_logm eigh log (i' *m x *m i') in G *.
    have -> : k = - (i' *m s *m (l *m (i *m s'))).
      by rewrite G mulmxA S1 mul1mx opprK.
    rewrite !mulmxN mulNmx opprK !mulmxA (r_si R') mul1mx -(mulmxA _ s' s') (r_ss R').
    by rewrite -(mulmxA _ i s) (r_is R) mulmx1.
  Qed.
  Lemma transp_tangent n (x y v : 'M[F]_n) : pos_def x -> pos_def y -> symmetric v -> symmetric (transp eigh mexp log x y v).
  Proof.
    move=> X Y V. have [p [_ [_ [T _]]]] := transp_congr X Y. rewrite T //. by rewrite /symmetric !trmx_mul trmxK V mulmxA.
  Qed.
  Lemma transp_isometry n (x y v w : 'M[F]_n) : pos_def x -> pos_def y -> symmetric v -> symmetric w ->
    inner y (transp eigh mexp log x y v) (transp eigh mexp log x y w) = inner x v w.
  Proof.
    move=> X Y V W. have [p [P [E [T _]]]] := transp_congr X Y. rewrite !T // -{1}E. apply: inner_congr => //.
    exact: pos_def_unit.
  Qed.
  Lemma transp_velocity n (x y : 'M[F]_n) : pos_def x -> pos_def y ->
    transp eigh mexp log x y (logmap eigh log x y) = - logmap eigh log y x.
  Proof. move=> X Y. by have [p [_ [_ [_ ->]]]] := transp_congr X Y. Qed.

  (** log-Euclidean distance *)
  Lemma lem_triangle n (x y z : 'M[F]_n) : log_euclidean eigh log x z <= log_euclidean eigh log x y + log_euclidean eigh log y z.
  Proof.
    rewrite /log_euclidean. have -> : sym_logm eigh log x - sym_logm eigh log z = (sym_logm eigh log x - sym_logm eigh log y) + (sym_logm eigh log y - sym_logm eigh log z).
      by rewrite addrA subrK.
    exact: norm_triangle.
  Qed.
  Lemma lem_sym n (x y : 'M[F]_n) : log_euclidean eigh log x y = log_euclidean eigh log y x.
  Proof. by rewrite /log_euclidean -normN opprB. Qed.
  Lemma lem_zero n (x y : 'M[F]_n) : pos_def x -> pos_def y -> (log_euclidean eigh log x y = 0 <-> x = y).
  Proof.
    move=> X Y. rewrite /log_euclidean. split=> [/norm_eq0/eqP|->].
      rewrite subr_eq0 => /eqP H. by rewrite -(exp_log X) H exp_log.
    by rewrite subrr normE pairing0l sqrtr0.
  Qed.
End Eigh.

Section Unique.
  Variables (F : rcfType) (log : F -> F).
  Variables eigh1 eigh2 : forall n, 'M[F]_n -> 'rV[F]_n * 'M[F]_n.
  Hypotheses (E1 : eigh_ok eigh1) (E2 : eigh_ok eigh2).
  Lemma logmap_unique n (x y : 'M[F]_n) : pos_def x -> symmetric y -> logmap eigh1 log x y = logmap eigh2 log x y.
  Proof.
    move=> X Y. rewrite /logmap /sym_inv_sqrtm2. have [V1 D1] := E1 x. have [V2 D2] := E2 x.
    rewrite upper_sym in D1; last by case: X. rewrite upper_sym in D2; last by case: X.
    case: (eigh1 x) V1 D1 => e1 v1 /= V1 D1. case: (eigh2 x) V2 D2 => e2 v2 /= V2 D2.
    have U f : v1 *m diag_mx (map_mx f e1) *m v1^T = v2 *m diag_mx (map_mx f e2) *m v2^T.
      apply: (fn_unique (f := f) (x := x)); [by exists v1, e1|by exists v2, e2].
    have C (e : 'rV[F]_n) : map_mx GRing.inv (map_mx Num.sqrt e) = map_mx (fun t => (Num.sqrt t)^-1) e by apply/rowP => i; rewrite !mxE.
    rewrite !C !U. set i := v2 *m diag_mx (map_mx (fun t => (Num.sqrt t)^-1) e2) *m v2^T.
    have S : symmetric (i *m y *m i).
      have I : i^T = i by rewrite /i !trmx_mul trmxK tr_diag_mx mulmxA.
      by move: i I => i I; rewrite /symmetric !trmx_mul I Y mulmxA.
    congr (_ *m _ *m _). rewrite /sym_logm. exact: (fn_unique (funcm_fn E1 log S) (funcm_fn E2 log S)).
  Qed.
End Unique.
