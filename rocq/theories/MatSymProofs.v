(** Lemmas: training runs commute with the symmetries of the matrix manifolds. *)
From mathcomp Require Import all_ssreflect all_algebra.
From Verif Require Import StiefelModel StiefelSpec StiefelProofs SpdModel SpdSpec SpdProofs SpdProofs2 MatSymModel MatSymSpec.
Import Order.TTheory GRing.Theory Num.Theory.
Local Open Scope ring_scope.
Set Implicit Arguments. Unset Strict Implicit. Unset Printing Implicit Defensive.

Local Arguments sgd_step : simpl never.
Local Arguments adam_step : simpl never.
Section Generic.
  Variables (F : realFieldType) (n p : nat) (o : ops F n p).
  Notation M := 'M[F]_(n, p).
  (** points move by f, tangent vectors by D, gradients by G *)
  Variables (f D G : M -> M) (P : M -> Prop) (T : M -> M -> Prop) (wd : F).
  Hypothesis D_lin : forall k a b, D (k *: a + b) = k *: D a + D b.
  Hypothesis T_lin : forall x k a b, P x -> T x a -> T x b -> T x (k *: a + b).
  Hypothesis T_0 : forall x, P x -> T x 0.
  Hypothesis e_T : forall x g, P x -> T x (o_egrad2rgrad o x g).
  Hypothesis e_D : forall x g, P x -> o_egrad2rgrad o (f x) (G g + wd *: f x) = D (o_egrad2rgrad o x (g + wd *: x)).
  Hypothesis i_D : forall x u, P x -> T x u -> o_inner o (f x) (D u) (D u) = o_inner o x u u.
  Hypothesis r_D : forall x u, P x -> T x u -> o_retr o (f x) (D u) = f (o_retr o x u).
  Hypothesis r_P : forall x u, P x -> T x u -> P (o_retr o x u).
  Hypothesis t_D : forall x u v, P x -> T x u -> T x v ->
    o_retr_transp o (f x) (D u) (D v) = (f (o_retr_transp o x u v).1, D (o_retr_transp o x u v).2).
  Hypothesis t_P : forall x u v, P x -> T x u -> T x v -> P (o_retr_transp o x u v).1 /\
    T (o_retr_transp o x u v).1 (o_retr_transp o x u v).2.

  Lemma D0 : D 0 = 0.
  Proof. have := D_lin (-1) 0 0. by rewrite scaleN1r oppr0 add0r scaleN1r addNr. Qed.
  Lemma DZ k a : D (k *: a) = k *: D a.
  Proof. by rewrite -[k *: a]addr0 D_lin D0 addr0. Qed.
  Lemma DD a b : D (a + b) = D a + D b.
  Proof. by rewrite -[a]scale1r D_lin !scale1r. Qed.
  Lemma TZ x k a : P x -> T x a -> T x (k *: a).
  Proof. move=> X A. rewrite -[_ *: _]addr0. apply: T_lin => //. exact: T_0. Qed.
  Lemma TD x a b : P x -> T x a -> T x b -> T x (a + b).
  Proof. move=> X A B. rewrite -[a]scale1r. exact: T_lin. Qed.

  Definition sgd_move (st : M * option M) : M * option M := (f st.1, omap D st.2).
  Definition sgd_inv (h : sgd F) (st : M * option M) : Prop :=
    P st.1 /\ (0 < s_momentum h -> if st.2 is Some b then T st.1 b else True).
  Lemma sgd_step_move h st g : s_decay h = wd -> (s_momentum h = 0 \/ (G g = D g /\ T st.1 g)) -> sgd_inv h st ->
    sgd_step o h (sgd_move st) (G g) = sgd_move (sgd_step o h st g) /\ sgd_inv h (sgd_step o h st g).
  Proof.
    case: st => x buf W H [/= X B]. rewrite /sgd_step /sgd_move /= W e_D // /sgd_inv.
    have R := e_T (g + wd *: x) X. set r := o_egrad2rgrad _ _ _ in R *.
    case: ifP => M0; last first.
      split; first by rewrite -DZ r_D //; apply: TZ.
      by split=> //=; apply: r_P => //; apply: TZ.
    have {H} [E G'] : G g = D g /\ T x g by case: H => // H; rewrite H ltxx in M0.
    have -> : odflt (G g) (omap D buf) = D (odflt g buf) by case: (buf) => //=.
    have B' : T x (odflt g buf) by case: (buf) (B M0) => //=.
    rewrite -!DZ -DD. set b := _ *: _ + _ *: _.
    have Tb : T x b by apply: TD => //; apply: TZ.
    have Td : T x (if s_nesterov h then r + s_momentum h *: b else b) by case: ifP => // _; apply: TD => //; apply: TZ.
    have -> : (if s_nesterov h then D r + s_momentum h *: D b else D b) =
              D (if s_nesterov h then r + s_momentum h *: b else b) by case: ifP => // _; rewrite DD DZ.
    set d := (if _ then _ else _) in Td *. rewrite -DZ t_D //; last exact: TZ.
    have := t_P X (TZ (- s_lr h) X Td) Tb.
    case: (o_retr_transp o x (- s_lr h *: d) b) => y b' /= [Y B'']. by split.
  Qed.
  (** all the losses' gradients move: gs' is gs seen through the symmetry *)
  Definition moved (g g' : M -> M) : Prop := forall x, P x -> g' (f x) = G (g x).
  Lemma sgd_run_move h gs gs' x : s_decay h = wd -> (s_momentum h = 0 \/ (forall g, G g = D g) /\ forall x g, T x g) ->
    P x -> size gs = size gs' -> (forall i, (i < size gs)%N -> moved (nth id gs i) (nth id gs' i)) ->
    sgd_run o h gs' (f x) = sgd_move (sgd_run o h gs x).
  Proof.
    move=> W H X. rewrite /sgd_run.
    have : sgd_inv h (x, None) by [].
    rewrite [(f x, _)](_ : _ = sgd_move (x, None)) //.
    move: (x, None) => st. elim: gs gs' st => [|g gs IH] [|g' gs'] st //= I [S] N.
    have [E I'] : sgd_step o h (sgd_move st) (G (g st.1)) = sgd_move (sgd_step o h st (g st.1)) /\ sgd_inv h (sgd_step o h st (g st.1)).
      apply: sgd_step_move => //. case: H => [->|[H1 H2]]; [by left|right; by split].
    have -> : g' (f st.1) = G (g st.1) by apply: (N 0%N) => //; case: I.
    rewrite E. apply: IH => // i Hi. exact: (N i.+1).
  Qed.

  Variable fsqrt : F -> F.
  Definition adam_move (st : astate F n p) : astate F n p :=
    AState (f (t_x st)) (t_step st) (D (t_avg st)) (t_sq st) (t_max st).
  Definition adam_inv (st : astate F n p) : Prop := P (t_x st) /\ T (t_x st) (t_avg st).
  Lemma adam_step_move h st g : a_decay h = wd -> adam_inv st ->
    adam_step o fsqrt h (adam_move st) (G g) = adam_move (adam_step o fsqrt h st g) /\ adam_inv (adam_step o fsqrt h st g).
  Proof.
    case: st => x k avg sq mx W [/= X A]. rewrite /adam_step /adam_move /= W e_D //.
    have R := e_T (g + wd *: x) X. set r := o_egrad2rgrad _ _ _ in R *.
    rewrite i_D // -!DZ -DD. set a := _ *: avg + _ *: r.
    have Ta : T x a by apply: TD => //; apply: TZ.
    rewrite -!DZ t_D //; last by do 3 apply: TZ => //.
    set u := - a_lr h *: _. have Tu : T x u by do 3 apply: TZ => //.
    have := t_P X Tu Ta.
    case: (o_retr_transp o x u a) => y b' /= [Y B'']. by split.
  Qed.
  Lemma adam_run_move h gs gs' x : a_decay h = wd -> P x -> size gs = size gs' ->
    (forall i, (i < size gs)%N -> moved (nth id gs i) (nth id gs' i)) ->
    adam_run o fsqrt h gs' (f x) = adam_move (adam_run o fsqrt h gs x).
  Proof.
    move=> W X. rewrite /adam_run.
    have : adam_inv (AState x 0 0 0 0) by split=> //=; apply: T_0.
    rewrite [AState (f x) 0 0 0 0](_ : _ = adam_move (AState x 0 0 0 0)); last by rewrite /adam_move /= D0.
    move: (AState x 0 0 0 0) => st. elim: gs gs' st => [|g gs IH] [|g' gs'] st //= I [S] N.
    have [E I'] := adam_step_move (g (t_x st)) W I.
    have -> : g' (f (t_x st)) = G (g (t_x st)) by apply: (N 0%N) => //; case: I.
    rewrite E. apply: IH => // i Hi. exact: (N i.+1).
  Qed.
End Generic.

Section Stiefel.
  Variables (F : realFieldType) (n p : nat).
  Notation M := 'M[F]_(n, p).
  Variables (Q : 'M[F]_n) (R : 'M[F]_p).
  Hypotheses (HQ : orthogonal Q) (HR : orthogonal R).
  Lemma QV : Q *m Q^T = 1%:M. Proof. exact: mulmx1C. Qed.
  Lemma RV : R *m R^T = 1%:M. Proof. exact: mulmx1C. Qed.
  Notation mv := (turn Q R).
  Lemma QK k (a : 'M[F]_(n, k)) : Q^T *m (Q *m a) = a. Proof. by rewrite mulmxA HQ mul1mx. Qed.
  Lemma KR k (a : 'M[F]_(k, p)) : a *m R *m R^T = a. Proof. by rewrite -mulmxA RV mulmx1. Qed.
  Lemma mv_lin k a b : mv (k *: a + b) = k *: mv a + mv b.
  Proof. by rewrite /turn mulmxDr mulmxDl -scalemxAr -scalemxAl. Qed.
  Lemma mv_back x : Q^T *m mv x *m R^T = x.
  Proof. by rewrite /turn mulmxA KR QK. Qed.
  Lemma turned_grad_moved g P : moved mv mv P g (turned_grad Q R g).
  Proof. by move=> x _; rewrite /turned_grad mv_back. Qed.
  (** x^T y, x y^T *)
  Lemma mv_tm (x y : M) : (mv x)^T *m mv y = R^T *m (x^T *m y) *m R.
  Proof. by rewrite /turn !trmx_mul -!mulmxA QK. Qed.
  Lemma mv_mt (x y : M) : mv x *m (mv y)^T = Q *m (x *m y^T) *m Q^T.
  Proof. by rewrite /turn !trmx_mul !mulmxA KR. Qed.
  Lemma mv_pairing (u v : M) : pairing (mv u) (mv v) = pairing u v.
  Proof. by rewrite /pairing mv_tm [LHS]mxtrace_mulC (mulmxA R) RV mul1mx. Qed.
  Lemma mv_on x : on_stiefel x -> on_stiefel (mv x).
  Proof. by rewrite /on_stiefel mv_tm => ->; rewrite mulmx1. Qed.
  Lemma mv_tangent x u : tangent x u -> tangent (mv x) (mv u).
  Proof. by rewrite /tangent !mv_tm -mulmxDl -mulmxDr => ->; rewrite mulmx0 mul0mx. Qed.

  Lemma canonical_proju_mv x u : canonical_proju (mv x) (mv u) = mv (canonical_proju x u).
  Proof.
    rewrite /canonical_proju mv_mt -!mulmxA {2}/turn -(mulmxA Q x R) QK.
    by rewrite /turn mulmxBr mulmxBl !mulmxA.
  Qed.
  Lemma conj_pairing (a b : 'M[F]_p) : pairing (R^T *m a *m R) (R^T *m b *m R) = pairing a b.
  Proof.
    by rewrite /pairing !trmx_mul trmxK -!mulmxA (mulmxA R R^T) RV mul1mx [LHS]mxtrace_mulC -!mulmxA RV mulmx1.
  Qed.
  Lemma canonical_inner_mv x u v : canonical_inner (mv x) (mv u) (mv v) = canonical_inner x u v.
  Proof.
    rewrite /canonical_inner !frobE mv_pairing !mv_tm. congr (_ - _ * _).
    exact: conj_pairing.
  Qed.
  Lemma amat_mv x u : amat (mv x) (mv u) = Q *m amat x u *m Q^T.
  Proof. by rewrite /amat !mv_mt mulmxBr mulmxBl. Qed.
  Lemma lhs_mv x u : cayley_lhs (mv x) (mv u) = Q *m cayley_lhs x u *m Q^T.
  Proof. rewrite /cayley_lhs amat_mv; move: (amat x u) => a. by rewrite mulmxBr mulmxBl mulmx1 QV -scalemxAr -scalemxAl. Qed.
  Lemma cayley_unit (x u : M) : cayley_lhs x u \in unitmx.
  Proof.
    rewrite /cayley_lhs. apply: skew_unit. rewrite /skew linearZ /= /amat linearB /= !trmx_mul !trmxK.
    by rewrite -scalerN opprB.
  Qed.
  Lemma inv_mv (a : 'M[F]_n) : a \in unitmx -> invmx (Q *m a *m Q^T) = Q *m invmx a *m Q^T.
  Proof.
    move=> U. have UQ : Q *m a *m Q^T \in unitmx.
      rewrite !unitmx_mul U unitmx_tr. by have [_ ->] := mulmx1_unit HQ.
    rewrite -[RHS]mul1mx -(mulVmx UQ) -!mulmxA QK (mulmxA a) mulmxV // mul1mx QV. by rewrite mulmx1.
  Qed.
  Lemma follow_mv k (S : 'M[F]_k) x (v : 'M[F]_(n, k)) u : transp_follow_one (mv x) (Q *m v *m S) (mv u) = Q *m transp_follow_one x v u *m S.
  Proof.
    rewrite /transp_follow_one lhs_mv (inv_mv (cayley_unit _ _)) /cayley_rhs amat_mv.
    move: (amat x u) (invmx (cayley_lhs x u)) => a i.
    have -> : Q *m v *m S + 2%:R^-1 *: (Q *m a *m Q^T *m (Q *m v *m S)) = Q *m ((v + 2%:R^-1 *: (a *m v)) *m S).
      by rewrite mulmxDl mulmxDr -scalemxAl -scalemxAr -!mulmxA QK.
    by rewrite -!mulmxA QK.
  Qed.
  Lemma canonical_retr_mv x u : canonical_retr (mv x) (mv u) = mv (canonical_retr x u).
  Proof. by rewrite /canonical_retr {2}/turn follow_mv. Qed.
  Lemma transp_follow_mv x u v : transp_follow_retr (mv x) (mv u) (mv v) = mv (transp_follow_retr x u v).
  Proof. by rewrite /transp_follow_retr {2}/turn follow_mv. Qed.
  Lemma retr_transp_mv x u v : StiefelModel.retr_transp (mv x) (mv u) (mv v) =
    (mv (StiefelModel.retr_transp x u v).1, mv (StiefelModel.retr_transp x u v).2).
  Proof.
    rewrite /StiefelModel.retr_transp.
    have -> : row_mx (mv x) (mv v) = Q *m row_mx x v *m block_mx R 0 0 R.
      by rewrite mul_mx_row mul_row_block !mulmx0 addr0 add0r.
    rewrite follow_mv. set w := transp_follow_one _ _ _. rewrite -[w]hsubmxK mul_mx_row mul_row_block !mulmx0 addr0 add0r.
    by rewrite !row_mxKl !row_mxKr /=.
  Qed.

  Lemma sgd_canonical h gs x :
    sgd_run (canonical_ops F n p) h [seq turned_grad Q R g | g <- gs] (mv x) =
    (mv (sgd_run (canonical_ops F n p) h gs x).1, omap mv (sgd_run (canonical_ops F n p) h gs x).2).
  Proof.
    apply: (sgd_run_move (G := mv) (P := fun=> True) (T := fun _ _ => True) (wd := s_decay h)) => //=.
    - exact: mv_lin.
    - move=> y g _. by rewrite -canonical_proju_mv addrC -mv_lin addrC.
    - move=> y u _ _. exact: canonical_retr_mv.
    - move=> y u v _ _ _. exact: retr_transp_mv.
    - by right.
    - by rewrite size_map.
    - move=> i Hi. rewrite (nth_map id) //. exact: turned_grad_moved.
  Qed.
  Lemma adam_canonical fsqrt h gs x :
    adam_run (canonical_ops F n p) fsqrt h [seq turned_grad Q R g | g <- gs] (mv x) =
    adam_move mv mv (adam_run (canonical_ops F n p) fsqrt h gs x).
  Proof.
    apply: (adam_run_move (G := mv) (P := fun=> True) (T := fun _ _ => True) (wd := a_decay h)) => //=.
    - exact: mv_lin.
    - move=> y g _. by rewrite -canonical_proju_mv addrC -mv_lin addrC.
    - move=> y u _ _. exact: canonical_inner_mv.
    - move=> y u v _ _ _. exact: retr_transp_mv.
    - by rewrite size_map.
    - move=> i Hi. rewrite (nth_map id) //. exact: turned_grad_moved.
  Qed.

  (** Euclidean metric *)
  Lemma euclidean_proju_mv x u : euclidean_proju (mv x) (mv u) = mv (euclidean_proju x u).
  Proof.
    rewrite /euclidean_proju mv_tm.
    have -> : sym (R^T *m (x^T *m u) *m R) = R^T *m sym (x^T *m u) *m R.
      by rewrite /sym -scalemxAr -scalemxAl mulmxDr mulmxDl !trmx_mul !trmxK !mulmxA.
    by rewrite /turn mulmxBr mulmxBl !mulmxA KR.
  Qed.
  Lemma expmap_mv expm x u : exponential expm -> euclidean_expmap expm (mv x) (mv u) = mv (euclidean_expmap expm x u).
  Proof.
    move=> X. rewrite /euclidean_expmap !mv_tm. move: (x^T *m u) (u^T *m u) => a b.
    set S : 'M[F]_(p + p) := block_mx R 0 0 R.
    have RK c : R *m (R^T *m c *m R) = c *m R by rewrite !mulmxA RV mul1mx.
    have E1 : expm _ (block_mx a (- b) 1%:M a) *m S = S *m expm _ (block_mx (R^T *m a *m R) (- (R^T *m b *m R)) 1%:M (R^T *m a *m R)).
      apply: (exp_intertwines X). rewrite !mulmx_block !mulmx0 !mul0mx !addr0 !add0r.
      by rewrite mulmxN !RK mul1mx mulmx1 mulNmx.
    have E2 : expm _ (- a) *m R = R *m expm _ (- (R^T *m a *m R)).
      apply: (exp_intertwines X). by rewrite mulmxN RK mulNmx.
    have -> : row_mx (mv x) (mv u) = Q *m row_mx x u *m S.
      by rewrite mul_mx_row mul_row_block !mulmx0 addr0 add0r.
    rewrite -(mulmxA _ S) -E1 /turn -!mulmxA. do 3 congr (_ *m _).
    by rewrite mul_block_col mul_col_mx !mulmx0 !mul0mx !addr0 E2 !mulmxA.
  Qed.
  Lemma sgd_exact expm h gs x : exponential expm ->
    sgd_run (exact_ops n p expm) h [seq turned_grad Q R g | g <- gs] (mv x) =
    (mv (sgd_run (exact_ops n p expm) h gs x).1, omap mv (sgd_run (exact_ops n p expm) h gs x).2).
  Proof.
    move=> X. apply: (sgd_run_move (G := mv) (P := fun=> True) (T := fun _ _ => True) (wd := s_decay h)) => //=.
    - exact: mv_lin.
    - move=> y g _. by rewrite -euclidean_proju_mv addrC -mv_lin addrC.
    - move=> y u _ _. exact: expmap_mv.
    - move=> y u v _ _ _. by rewrite /base_retr_transp expmap_mv // /euclidean_transp euclidean_proju_mv.
    - by right.
    - by rewrite size_map.
    - move=> i Hi. rewrite (nth_map id) //. exact: turned_grad_moved.
  Qed.
  Lemma adam_exact expm fsqrt h gs x : exponential expm ->
    adam_run (exact_ops n p expm) fsqrt h [seq turned_grad Q R g | g <- gs] (mv x) =
    adam_move mv mv (adam_run (exact_ops n p expm) fsqrt h gs x).
  Proof.
    move=> X. apply: (adam_run_move (G := mv) (P := fun=> True) (T := fun _ _ => True) (wd := a_decay h)) => //=.
    - exact: mv_lin.
    - move=> y g _. by rewrite -euclidean_proju_mv addrC -mv_lin addrC.
    - move=> y u _ _. by rewrite /euclidean_inner !frobE mv_pairing.
    - move=> y u v _ _ _. by rewrite /base_retr_transp expmap_mv // /euclidean_transp euclidean_proju_mv.
    - by rewrite size_map.
    - move=> i Hi. rewrite (nth_map id) //. exact: turned_grad_moved.
  Qed.
End Stiefel.
