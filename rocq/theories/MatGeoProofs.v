(** Lemmas: the exponential maps of the matrix manifolds follow geodesics. *)
From Coq Require Import Reals FunctionalExtensionality.
From mathcomp Require Import all_ssreflect all_algebra.
From Verif Require Import RStruct RExp StiefelModel StiefelSpec StiefelProofs Spectral SpdModel SpdSpec SpdProofs SpdProofs2 MatSymSpec MatSymProofs2 MatLoopProofs MatGeoSpec.
Import Order.TTheory GRing.Theory Num.Theory.
Local Open Scope ring_scope.
Set Implicit Arguments. Unset Strict Implicit. Unset Printing Implicit Defensive.

Lemma vel_ext n p (c c' v v' : R -> 'M[R]_(n, p)) : (forall t, c t = c' t) -> (forall t, v t = v' t) -> velocity c v -> velocity c' v'.
Proof. by move=> /functional_extensionality <- /functional_extensionality <-. Qed.
Lemma vel_const n p (m : 'M[R]_(n, p)) : velocity (fun _ => m) (fun _ => 0).
Proof. move=> t i j. rewrite mxE. exact: derivable_pt_lim_const. Qed.
Lemma lim_sum (I : Type) (r : seq I) (f : I -> R -> R) (l : I -> R) t :
  (forall i, derivable_pt_lim (f i) t (l i)) -> derivable_pt_lim (fun s => \sum_(i <- r) f i s) t (\sum_(i <- r) l i).
Proof.
  move=> H. elim: r => [|i r IH].
    rewrite big_nil. have -> : (fun s => \sum_(i <- [::]) f i s) = fct_cte 0 by apply: functional_extensionality => s; rewrite big_nil.
    exact: derivable_pt_lim_const.
  rewrite big_cons. have -> : (fun s => \sum_(j <- i :: r) f j s) = plus_fct (f i) (fun s => \sum_(j <- r) f j s).
    by apply: functional_extensionality => s; rewrite big_cons.
  exact: derivable_pt_lim_plus.
Qed.
Lemma vel_mul n p q (c v : R -> 'M[R]_(n, p)) (d w : R -> 'M[R]_(p, q)) : velocity c v -> velocity d w ->
  velocity (fun t => c t *m d t) (fun t => v t *m d t + c t *m w t).
Proof.
  move=> C D t i j.
  have -> : (v t *m d t + c t *m w t) i j = \sum_k (Rplus (Rmult (v t i k) (d t k j)) (Rmult (c t i k) (w t k j))).
    by rewrite !mxE -big_split.
  have -> : (fun s => (c s *m d s) i j) = (fun s => \sum_k mult_fct (fun s => c s i k) (fun s => d s k j) s).
    by apply: functional_extensionality => s; rewrite mxE.
  apply: lim_sum => k. exact: (derivable_pt_lim_mult (fun s => c s i k) (fun s => d s k j) t).
Qed.
Lemma vel_mulr n p q (c v : R -> 'M[R]_(n, p)) (m : 'M[R]_(p, q)) : velocity c v -> velocity (fun t => c t *m m) (fun t => v t *m m).
Proof. move=> C. apply: vel_ext (vel_mul C (vel_const m)) => // t. by rewrite mulmx0 addr0. Qed.
Lemma vel_mull n p q (m : 'M[R]_(n, p)) (c v : R -> 'M[R]_(p, q)) : velocity c v -> velocity (fun t => m *m c t) (fun t => m *m v t).
Proof. move=> C. apply: vel_ext (vel_mul (vel_const m) C) => // t. by rewrite mul0mx add0r. Qed.
Lemma vel_exp m (a : 'M[R]_m) : velocity (fun t => rexpm (t *: a)) (fun t => a *m rexpm (t *: a)).
Proof. move=> t i j. exact: rexpm_derive. Qed.

Lemma trZ n p (t : R) (m : 'M[R]_(n, p)) : (t *: m)^T = t *: m^T.
Proof. by apply/matrixP => i j; rewrite !mxE. Qed.
Lemma trN n p (m : 'M[R]_(n, p)) : (- m)^T = - m^T.
Proof. by apply/matrixP => i j; rewrite !mxE. Qed.
Lemma trD n p (m m' : 'M[R]_(n, p)) : (m + m')^T = m^T + m'^T.
Proof. by apply/matrixP => i j; rewrite !mxE. Qed.
(** commuting with exponentials *)
Lemma exp_comm m (a : 'M[R]_m) (t : R) : a *m rexpm (t *: a) = rexpm (t *: a) *m a.
Proof. symmetry. apply: rexpm_intertwines. by rewrite -scalemxAl -scalemxAr. Qed.
Lemma exp_0 m (a : 'M[R]_m) : rexpm (0 *: a) = 1%:M.
Proof. by rewrite scale0r rexpm_0. Qed.
Lemma exp_N m (a : 'M[R]_m) (t : R) : rexpm (t *: - a) *m rexpm (t *: a) = 1%:M.
Proof. by rewrite scalerN rexpm_opp. Qed.
Lemma exp_P m (a : 'M[R]_m) (t : R) : rexpm (t *: a) *m rexpm (t *: - a) = 1%:M.
Proof. exact: mulmx1C (exp_N a t). Qed.

Section Stiefel.
  Variables n p : nat.
  Notation M := 'M[R]_(n, p).
  Variables x u : M.
  Let A : 'M[R]_p := x^T *m u.
  Let S : 'M[R]_p := u^T *m u.
  Let W : 'M[R]_(p + p) := block_mx A (- S) 1%:M A.
  Let X : 'M[R]_(n, p + p) := row_mx x u.
  Let J0 : 'M[R]_(p + p, p) := col_mx 1%:M 0.
  Let J1 : 'M[R]_(p + p, p) := col_mx 0 1%:M.
  Let c (J : 'M[R]_(p + p, p)) (t : R) : M := X *m rexpm (t *: W) *m J *m rexpm (t *: - A).

  Lemma c_vel J : velocity (c J) (c (W *m J - J *m A)).
  Proof.
    have V := vel_mul (vel_mulr J (vel_mull X (vel_exp W))) (vel_exp (- A)).
    apply: vel_ext V => t //. rewrite /c exp_comm. by rewrite mulmxBr mulmxBl mulNmx mulmxN -!mulmxA.
  Qed.
  Lemma WJ0 : W *m J0 - J0 *m A = J1.
  Proof.
    rewrite /W /J0 /J1 mul_block_col mul_col_mx !mulmx1 !mulmx0 !addr0 mul1mx mul0mx opp_col_mx add_col_mx subrr oppr0 addr0. by [].
  Qed.
  Lemma WJ1 : W *m J1 - J1 *m A = - (J0 *m S).
  Proof.
    rewrite /W /J0 /J1 mul_block_col !mul_col_mx !mulmx1 !mulmx0 !add0r !mul1mx !mul0mx !opp_col_mx add_col_mx subrr oppr0 addr0. by [].
  Qed.
  (** scaling the time *)
  Lemma expmap_curve t : euclidean_expmap rexpm x (t *: u) = c J0 t.
  Proof.
    have EA : x^T *m (t *: u) = t *: A by rewrite -scalemxAr.
    have ES : (t *: u)^T *m (t *: u) = (t * t) *: S by rewrite trZ -scalemxAl -scalemxAr scalerA.
    rewrite /euclidean_expmap /c EA ES.
    set Wt := block_mx _ _ _ _. pose P : 'M[R]_(p + p) := block_mx 1%:M 0 0 t%:M.
    have XP : row_mx x (t *: u) = X *m P.
      by rewrite /X /P mul_row_block !mulmx1 !mulmx0 addr0 add0r mul_mx_scalar.
    have I : (t *: W) *m P = P *m Wt.
      rewrite /P /W /Wt scale_block_mx !mulmx_block !mulmx1 !mul1mx !mulmx0 !mul0mx !addr0 !add0r.
      rewrite !mul_scalar_mx !mul_mx_scalar !scalerA. congr block_mx; [by rewrite scalerN|by rewrite scalemx1].
    have H := rexpm_intertwines I. rewrite XP. move: (rexpm Wt) (rexpm (t *: W)) H => w w' H.
    have -> : X *m P *m w = X *m w' *m P by rewrite -mulmxA -H mulmxA.
    rewrite -(mulmxA (X *m w') P) -(mulmxA (X *m w') J0). congr (_ *m _).
    rewrite scalerN. move: (rexpm _) => b. rewrite /P /J0 mul_block_col mul_col_mx !mulmx0 !addr0 !mul0mx mul1mx. by [].
  Qed.

  Hypotheses (HX : on_stiefel (F := R_realFieldType) x) (HT : tangent (F := R_realFieldType) x u).
  Let N : 'M[R]_(p + p) := block_mx 1%:M A (- A) S.
  Lemma A_skew : A^T = - A.
  Proof. rewrite /A trmx_mul trmxK; apply/eqP; rewrite -addr_eq0 addrC; apply/eqP. exact: HT. Qed.
  Lemma S_sym : S^T = S.
  Proof. by rewrite /S trmx_mul trmxK. Qed.
  Lemma gramX : X^T *m X = N.
  Proof.
    rewrite /X tr_row_mx mul_col_row HX /N -/A -/S. congr block_mx. by rewrite -A_skew /A trmx_mul trmxK.
  Qed.
  Lemma N_inter : W^T *m N = N *m (- W).
  Proof.
    rewrite /W /N tr_block_mx A_skew trN S_sym trmx1 opp_block_mx !mulmx_block !mulmx1 !mul1mx.
    rewrite !mulmxN !mulNmx !mulmx1 !opprK. congr block_mx; by rewrite addrC.
  Qed.
  Lemma N_kept t : (rexpm (t *: W))^T *m N *m rexpm (t *: W) = N.
  Proof.
    rewrite -rexpm_tr trZ. have I : (t *: W^T) *m N = N *m (t *: - W) by rewrite -scalemxAl -scalemxAr N_inter.
    by rewrite (rexpm_intertwines I) -mulmxA exp_N mulmx1.
  Qed.
  Lemma eA_tr t : (rexpm (t *: - A))^T = rexpm (t *: A).
  Proof. by rewrite -rexpm_tr trZ trN A_skew opprK. Qed.
  Lemma gram J K t : (c J t)^T *m c K t = rexpm (t *: A) *m (J^T *m N *m K) *m rexpm (t *: - A).
  Proof.
    rewrite /c !trmx_mul eA_tr !mulmxA. do 2 congr (_ *m _).
    have -> : rexpm (t *: A) *m J^T *m (rexpm (t *: W))^T *m X^T *m X *m rexpm (t *: W) =
      rexpm (t *: A) *m J^T *m ((rexpm (t *: W))^T *m (X^T *m X) *m rexpm (t *: W)) by rewrite !mulmxA.
    by rewrite gramX N_kept.
  Qed.
  Lemma N00 : J0^T *m N *m J0 = 1%:M.
  Proof. by rewrite /J0 /N tr_col_mx trmx1 trmx0 mul_row_block !mul1mx !mul0mx !addr0 mul_row_col mulmx1 mulmx0 addr0. Qed.
  Lemma N01 : J0^T *m N *m J1 = A.
  Proof. by rewrite /J0 /J1 /N tr_col_mx trmx1 trmx0 mul_row_block !mul1mx !mul0mx !addr0 mul_row_col mulmx1 mulmx0 add0r. Qed.
  Lemma N11 : J1^T *m N *m J1 = S.
  Proof. by rewrite /J1 /N tr_col_mx trmx1 trmx0 mul_row_block !mul1mx !mul0mx !add0r mul_row_col mulmx1 mulmx0 add0r. Qed.
  Lemma g00 t : (c J0 t)^T *m c J0 t = 1%:M.
  Proof. by rewrite gram N00 mulmx1 exp_P. Qed.
  Lemma g01 t : (c J0 t)^T *m c J1 t = A.
  Proof. by rewrite gram N01 -exp_comm -mulmxA exp_P mulmx1. Qed.
  Lemma g11 t : (c J1 t)^T *m c J1 t = rexpm (t *: A) *m S *m rexpm (t *: - A).
  Proof. by rewrite gram N11. Qed.
  Lemma c_tangent t : tangent (F := R_realFieldType) (c J0 t) (c J1 t).
  Proof.
    rewrite /tangent g01. have -> : (c J1 t)^T *m c J0 t = ((c J0 t)^T *m c J1 t)^T by rewrite [RHS]trmx_mul trmxK.
    by rewrite g01 A_skew subrr.
  Qed.
  Lemma c_accel t : c (- (J0 *m S)) t = - (c J0 t *m ((c J1 t)^T *m c J1 t)).
  Proof.
    rewrite g11 /c !mulmxN !mulNmx. congr (- _). rewrite !mulmxA. do 2 congr (_ *m _).
    by rewrite -(mulmxA _ (rexpm (t *: - A))) exp_N mulmx1.
  Qed.
  Lemma c_0 J : c J 0 = X *m J.
  Proof. by rewrite /c !exp_0 !mulmx1. Qed.
  Lemma XJ0 : X *m J0 = x.
  Proof. by rewrite /X /J0 mul_row_col mulmx1 mulmx0 addr0. Qed.
  Lemma XJ1 : X *m J1 = u.
  Proof. by rewrite /X /J1 mul_row_col mulmx1 mulmx0 add0r. Qed.
  (** x y^T y' with y^T y' symmetric is perpendicular to tangent vectors *)
  Lemma normal_perp (y w : M) (s : 'M[R]_p) : s^T = s -> tangent (F := R_realFieldType) y w ->
    pairing (F := R_realFieldType) (y *m s) w = 0.
  Proof.
    move=> Hs T. rewrite /pairing trmx_mul Hs -mulmxA.
    have K : y^T *m w = - (y^T *m w)^T.
      rewrite trmx_mul trmxK. apply/eqP. rewrite -addr_eq0. by apply/eqP.
    have E : \tr (s *m (y^T *m w)) = - \tr (s *m (y^T *m w)).
      rewrite {1}K mulmxN linearN /=. congr (- _). rewrite -mxtrace_tr trmx_mul trmxK Hs. exact: mxtrace_mulC.
    move: (\tr _) E => z E. have : z *+ 2 = 0 by rewrite mulr2n {1}E addNr.
    by move/eqP; rewrite (mulrn_eq0 (z : R_numDomainType)) /= => /eqP.
  Qed.
  Definition stiefel_velocity (t : R) : M := c J1 t.
  Lemma stiefel_is_geodesic :
    stiefel_geodesic x u (fun t => euclidean_expmap rexpm x (t *: u)) stiefel_velocity.
  Proof.
    have -> : (fun t => euclidean_expmap rexpm x (t *: u)) = c J0 by apply: functional_extensionality => t; exact: expmap_curve.
    split; first by rewrite c_0 XJ0. split; first by rewrite /stiefel_velocity c_0 XJ1.
    split; first by rewrite -[stiefel_velocity]/(c J1) -WJ0; exact: c_vel.
    split; first by move=> t; exact: g00.
    exists (c (- (J0 *m S))). split; first by rewrite -WJ1; exact: c_vel.
    move=> t w T. rewrite c_accel. rewrite -mulmxN. apply: normal_perp => //.
    by rewrite trN trmx_mul trmxK.
  Qed.
  Lemma stiefel_speed t : pairing (F := R_realFieldType) (stiefel_velocity t) (stiefel_velocity t) = pairing (F := R_realFieldType) u u.
  Proof.
    rewrite /pairing /stiefel_velocity g11 mxtrace_mulC mulmxA exp_N mul1mx. by [].
  Qed.
End Stiefel.
Lemma stiefel_restart n p (x u : 'M[R]_(n, p)) (s t : R) :
  on_stiefel (F := R_realFieldType) x -> tangent (F := R_realFieldType) x u ->
  euclidean_expmap rexpm (euclidean_expmap rexpm x (s *: u)) (t *: stiefel_velocity x u s) =
  euclidean_expmap rexpm x ((s + t) *: u).
Proof.
  move=> X T. rewrite !expmap_curve. move: (g01 X T s) (g11 X T s).
  rewrite /stiefel_velocity.
  set A := x^T *m u. set S := u^T *m u. set W := block_mx A _ _ _. set J0 := col_mx 1%:M 0. set J1 := col_mx 0 1%:M.
  set B := rexpm (s *: - A).
  set y := _ *m _ *m J0 *m _. set v := _ *m _ *m J1 *m _. move=> -> ->.
  set S' := _ *m S *m _. set W' := block_mx A _ _ _.
  pose D : 'M[R]_(p + p) := block_mx B 0 0 B.
  have YV : row_mx y v = row_mx x u *m rexpm (s *: W) *m D.
    have -> : D = row_mx (J0 *m B) (J1 *m B).
      by rewrite /D /J0 /J1 !mul_col_mx !mul1mx !mul0mx block_mxEh.
    by rewrite mul_mx_row !mulmxA.
  have BA : A *m B = B *m A.
    symmetry. apply: rexpm_intertwines. by rewrite -scalemxAl -scalemxAr mulNmx mulmxN.
  have I : (t *: W) *m D = D *m (t *: W').
    rewrite -scalemxAl -scalemxAr. congr (_ *: _).
    rewrite /W /W' /D !mulmx_block !mulmx0 !mul0mx !addr0 !add0r !mul1mx !mulmx1 BA. congr block_mx.
    rewrite mulNmx mulmxN. congr (- _). by rewrite /S' !mulmxA exp_N mul1mx.
  have DJ : D *m J0 = J0 *m B.
    by rewrite /D /J0 mul_block_col mul_col_mx !mulmx0 !mulmx1 !addr0 mul0mx mul1mx.
  rewrite YV -(mulmxA _ D) -(rexpm_intertwines I) !mulmxA -(mulmxA _ D) DJ !mulmxA.
  rewrite -(mulmxA _ (rexpm (s *: W))) rexpm_group -(mulmxA _ B) rexpm_group. by [].
Qed.

Section Spd.
  Variable eigh : forall n, 'M[R_rcfType]_n -> 'rV[R_rcfType]_n * 'M[R_rcfType]_n.
  Hypothesis EO : eigh_ok eigh.
  Variable n : nat.
  Notation M := 'M[R_rcfType]_n.
  Lemma expmap_one (m : M) : expmap eigh rexpm 1%:M m = rexpm m.
  Proof.
    have P1 : pos_def (1%:M : M) by apply: (fn_pos (fn_const 1 (trmx1 _ n)) (fun=> ltr01)).
    have [i [s [E [Q _]]]] := sqrtm2 EO P1. rewrite /expmap E /sym_expm.
    have SI : s = i by rewrite -[LHS]mulmx1 -(r_si Q) mulmxA (r_ss Q) mul1mx.
    have II : i *m i = 1%:M by rewrite -{1}SI (r_si Q).
    have I : (i *m m *m i) *m i = i *m m by rewrite -mulmxA II mulmx1.
    by rewrite SI -mulmxA (rexpm_intertwines I) mulmxA II mul1mx.
  Qed.
  Variables x u : M.
  Hypotheses (HX : pos_def x) (HU : symmetric u).
  (** the derivative of the curve expmap(x, t u) *)
  Definition spd_velocity (t : R) : M :=
    let: (i, s) := sym_inv_sqrtm2 eigh x in s *m (i *m u *m i *m rexpm (t *: (i *m u *m i))) *m s.
  Lemma spd_all : exists (a m : M), a \in unitmx /\ [/\ symmetric m,
    forall t, expmap eigh rexpm x (t *: u) = a *m rexpm (t *: m) *m a^T, a *m a^T = x, a *m m *m a^T = u &
    forall t, spd_velocity t = a *m (m *m rexpm (t *: m)) *m a^T].
  Proof.
    have [i [s [E [Q _]]]] := sqrtm2 EO HX. exists s, (i *m u *m i). split; first exact: r_sU Q. split.
    - exact: (r_symmetric Q).
    - move=> t. by rewrite /expmap E /sym_expm -scalemxAr -scalemxAl (r_sT Q).
    - by rewrite (r_sT Q) (r_ss Q).
    - by rewrite (r_sT Q) (r_cancel Q).
    - move=> t. by rewrite /spd_velocity E (r_sT Q).
  Qed.
  Lemma rexpm_sym (m : M) t : symmetric m -> symmetric (rexpm (t *: m) : M).
  Proof. by move=> H; rewrite /symmetric -rexpm_tr trZ H. Qed.
  Lemma spd_is_geodesic : spd_geodesic x u (fun t => expmap eigh rexpm x (t *: u)) spd_velocity.
  Proof.
    have [a [m [A [S C X U V]]]] := spd_all.
    have VV : velocity (fun t => a *m rexpm (t *: m) *m a^T) (fun t => a *m (m *m rexpm (t *: m)) *m a^T).
      apply: vel_mulr. apply: vel_mull. exact: vel_exp.
    have VA : velocity (fun t => a *m (m *m rexpm (t *: m)) *m a^T) (fun t => a *m (m *m (m *m rexpm (t *: m))) *m a^T).
      apply: vel_mulr. do 2 apply: vel_mull. exact: vel_exp.
    split; first by rewrite C exp_0 mulmx1.
    split; first by rewrite V exp_0 mulmx1.
    split; first by apply: vel_ext VV => t; rewrite ?C ?V.
    split.
      move=> t. apply: (expmap_pos EO R_explog rexpm_ok HX). by rewrite /symmetric trZ HU.
    apply: vel_ext VA => t; first by rewrite V.
    rewrite C V. have AT : a^T \in unitmx by rewrite unitmx_tr.
    have P := exp_P m t. have N := exp_N m t. move: (rexpm (t *: m)) (rexpm (t *: - m)) P N => e e' P N.
    have -> : invmx (a *m e *m a^T) = invmx a^T *m e' *m invmx a.
      have I : (a *m e *m a^T) *m (invmx a^T *m e' *m invmx a) = 1%:M.
        by rewrite !mulmxA (mulmxK AT) -(mulmxA a) P mulmx1 mulmxV.
      have Un : a *m e *m a^T \in unitmx by rewrite !unitmx_mul A AT (proj1 (mulmx1_unit P)).
      by rewrite -[LHS]mulmx1 -I mulmxA mulVmx // mul1mx.
    rewrite !mulmxA (mulmxK AT) (mulmxKV A).
    have -> : a *m m *m e *m e' = a *m m by rewrite -mulmxA P mulmx1. by [].
  Qed.
  Lemma spd_speed t : inner (expmap eigh rexpm x (t *: u)) (spd_velocity t) (spd_velocity t) = inner x u u.
  Proof.
    have [a [m [A [S C X U V]]]] := spd_all. rewrite C V.
    have AT : a^T \in unitmx by rewrite unitmx_tr.
    have P1 : pos_def (1%:M : M) by apply: (fn_pos (fn_const 1 (trmx1 _ n)) (fun=> ltr01)).
    have Pe : pos_def (rexpm (t *: m) : M) by apply: (mexp_pos R_explog rexpm_ok); rewrite /symmetric trZ S.
    have H1 := inner_cg A (m *m rexpm (t *: m)) (m *m rexpm (t *: m)) Pe. rewrite /congr in H1.
    have H2 := inner_cg A m m P1. rewrite /congr mulmx1 X U in H2. rewrite H1 H2 /inner /sym_invm.
    have W : rexpm (t *: m) \in unitmx := pos_def_unit Pe.
    have K := exp_comm m t. move: (rexpm (t *: m)) W K => e W K.
    by rewrite K invmx1 !mul1mx mulmx1 !mulmxA (mulVmx W) mul1mx (mulmxKV W).
  Qed.
  Lemma spd_restart (r t : R) :
    expmap eigh rexpm (expmap eigh rexpm x (r *: u)) (t *: spd_velocity r) = expmap eigh rexpm x ((r + t) *: u).
  Proof.
    have [a [m [A [S C X U V]]]] := spd_all. rewrite !C V.
    have H2 : (2%:R^-1 * r + 2%:R^-1 * r = r :> R).
      by rewrite -mulrDl -[2%:R^-1]mul1r -mulrDl -(natrD _ 1 1) mulfV ?mul1r // (pnatr_eq0 R_numDomainType).
    set h := 2%:R^-1 * r in H2. pose b : M := a *m rexpm (h *: m).
    have HS := rexpm_sym h S. have HP := exp_P m h.
    have Ub : b \in unitmx by rewrite unitmx_mul A (proj1 (mulmx1_unit HP)).
    have P1 : pos_def (1%:M : M) by apply: (fn_pos (fn_const 1 (trmx1 _ n)) (fun=> ltr01)).
    have bT : b^T = rexpm (h *: m) *m a^T by rewrite trmx_mul HS.
    have E1 : a *m rexpm (r *: m) *m a^T = congr b 1%:M.
      by rewrite /congr mulmx1 bT /b -{1}H2 -rexpm_group !mulmxA.
    have E2 : t *: (a *m (m *m rexpm (r *: m)) *m a^T) = congr b (t *: m).
      rewrite /congr bT /b -{1}H2 -rexpm_group -!scalemxAr -!scalemxAl. congr (_ *: _).
      by rewrite (mulmxA m) exp_comm !mulmxA.
    rewrite E1 E2 (expmap_cg Ub EO rexpm_ok P1) ?expmap_one; last by rewrite /symmetric trZ S.
    have H3 : r + t = (h + t) + h by rewrite -{1}H2 addrAC.
    by rewrite H3 /congr bT /b -!rexpm_group !mulmxA.
  Qed.
End Spd.

Section Quadratic.
  Variables n p : nat.
  Variables x u b : 'M[R]_(n, p).
  Let g (t : R) : 'M[R]_(n, p) := x + t *: u + (2%:R^-1 * (t * t)) *: b.
  Lemma quad_velocity : velocity g (fun t => u + t *: b).
  Proof.
    move=> t i j.
    have -> : (u + t *: b) i j = Rplus (Rplus 0 (u i j)) (Rmult (Rmult (Rinv 2) (Rplus (Rmult 1 t) (Rmult t 1))) (b i j)).
      rewrite !mxE. change (Rplus (u i j) (Rmult t (b i j)) = Rplus (Rplus 0 (u i j)) (Rmult (Rmult (Rinv 2) (Rplus (Rmult 1 t) (Rmult t 1))) (b i j))). field.
    have -> : (fun s => g s i j) = plus_fct (plus_fct (fct_cte (x i j)) (fun s => Rmult s (u i j))) (fun s => Rmult (Rmult (Rinv 2) (Rmult s s)) (b i j)).
      apply: functional_extensionality => s. rewrite /g !mxE /plus_fct /fct_cte.
      have -> : (2%:R^-1 : R) = Rinv 2 by rewrite inv_R. by [].
    apply: derivable_pt_lim_plus; first apply: derivable_pt_lim_plus.
    - exact: derivable_pt_lim_const.
    - rewrite -[u i j in X in derivable_pt_lim _ _ X]Rmult_1_l. exact: (derivable_pt_lim_scal_right id t 1 (u i j) (derivable_pt_lim_id t)).
    - apply: (derivable_pt_lim_scal_right (fun s => Rmult (Rinv 2) (Rmult s s))).
      apply: (derivable_pt_lim_scal (fun s => Rmult s s)).
      exact: (derivable_pt_lim_mult id id t 1 1 (derivable_pt_lim_id t) (derivable_pt_lim_id t)).
  Qed.
  Lemma quad_acceleration : velocity (fun t => u + t *: b) (fun _ => b).
  Proof.
    move=> t i j.
    have -> : (fun s : R => (u + s *: b) i j) = plus_fct (fct_cte (u i j)) (fun s => Rmult s (b i j)).
      by apply: functional_extensionality => s; rewrite !mxE.
    have -> : b i j = Rplus 0 (Rmult 1 (b i j)) by rewrite Rmult_1_l Rplus_0_l.
    apply: derivable_pt_lim_plus; first exact: derivable_pt_lim_const.
    have E : forall k, Rplus 0 (Rmult 1 k) = k by move=> k; rewrite Rmult_1_l Rplus_0_l.
    rewrite E. exact: (derivable_pt_lim_scal_right id t 1 (b i j) (derivable_pt_lim_id t)).
  Qed.
End Quadratic.

(** the retraction of the SPD manifold, to second order *)
Section Retr.
  Variable n : nat.
  Notation M := 'M[R_rcfType]_n.
  Variables x u : M.
  Hypotheses (HX : pos_def x) (HU : symmetric u).
  Let b : M := u *m invmx x *m u.
  Let g (t : R) : M := x + t *: u + (2%:R^-1 * (t * t)) *: b.
  Lemma retr_curve t : retr x (t *: u) = g t.
  Proof.
    rewrite /retr /sym_invm /g.
    have E : (2%:R^-1 *: (t *: u)) *m invmx x *m (t *: u) = (2%:R^-1 * (t * t)) *: b.
      by rewrite /b scalerA -!scalemxAl -scalemxAr scalerA mulrA.
    rewrite E sym_id //. rewrite /symmetric !trD !trZ HU (proj1 HX). congr (_ + _ *: _).
    rewrite /b !trmx_mul HU trmx_inv (proj1 HX) mulmxA. by [].
  Qed.
  Lemma retr_velocity : velocity (fun t => retr x (t *: u)) (fun t => u + t *: b).
  Proof. apply: vel_ext (quad_velocity x u b) => // t. by rewrite retr_curve. Qed.
End Retr.
