(** Lemmas for the SPD manifold. *)
From mathcomp Require Import all_ssreflect all_algebra.
From Verif Require Import StiefelModel StiefelSpec StiefelProofs Spectral SpdModel SpdSpec.
Import Order.TTheory GRing.Theory Num.Theory.
Local Open Scope ring_scope.
Set Implicit Arguments. Unset Strict Implicit. Unset Printing Implicit Defensive.

Section Forms.
  Variable F : rcfType.
  Implicit Types n : nat.

  Lemma quadE n (x : 'M[F]_n) v : quad x v = (v *m x *m v^T) ord0 ord0.
  Proof.
    rewrite /quad mxE exchange_big /=. apply: eq_bigr => j _. rewrite !mxE big_distrl /=. done.
  Qed.
  Lemma froE n (a b : 'M[F]_n) : fro a b = pairing a b.
  Proof. exact: frobE. Qed.
  Lemma quad_mx n (x : 'M[F]_n) v : v *m x *m v^T = (quad x v)%:M.
  Proof. by rewrite quadE -mx11_scalar. Qed.
  Lemma quadD n (x y : 'M[F]_n) v : quad (x + y) v = quad x v + quad y v.
  Proof. by rewrite !quadE mulmxDr mulmxDl mxE. Qed.
  Lemma quadZ n k (x : 'M[F]_n) v : quad (k *: x) v = k * quad x v.
  Proof. by rewrite !quadE -scalemxAr -scalemxAl mxE. Qed.
  Lemma quad0 n (x : 'M[F]_n) : quad x 0 = 0.
  Proof. by rewrite quadE !mul0mx mxE. Qed.
  Lemma quad_congr n (a x : 'M[F]_n) v : quad (a *m x *m a^T) v = quad x (v *m a).
  Proof. by rewrite !quadE trmx_mul !mulmxA. Qed.
  Lemma quad_diag n (e : 'rV[F]_n) v : quad (diag_mx e) v = \sum_i e ord0 i * v ord0 i ^+ 2.
  Proof.
    rewrite /quad. apply: eq_bigr => i _. rewrite (bigD1 i) //= big1 ?addr0.
      by rewrite mxE eqxx mulr1n [_ * e _ _]mulrC -mulrA -expr2.
    move=> j ji. by rewrite mxE eq_sym (negbTE ji) mulr0n mulr0 mul0r.
  Qed.

  Lemma pos_def_unit n (x : 'M[F]_n) : pos_def x -> x \in unitmx.
  Proof.
    case=> _ P. apply: posdef_unit => v H. case: (eqVneq v 0) => [//|/eqP/P].
    by rewrite quadE H mul0mx mxE ltxx.
  Qed.
  Lemma pos_def_congr n (a x : 'M[F]_n) : a \in unitmx -> pos_def x -> pos_def (a *m x *m a^T).
  Proof.
    move=> U [S P]. split; first by rewrite /symmetric !trmx_mul trmxK S mulmxA.
    move=> v v0. rewrite quad_congr. apply: P => H. apply: v0.
    by rewrite -[v]mulmx1 -(mulmxV U) mulmxA H mul0mx.
  Qed.
  Lemma pos_semidef_congr n (a x : 'M[F]_n) : pos_semidef x -> pos_semidef (a *m x *m a^T).
  Proof.
    move=> [S P]. split; first by rewrite /symmetric !trmx_mul trmxK S mulmxA.
    by move=> v; rewrite quad_congr.
  Qed.
  Lemma pos_def_semi n (x : 'M[F]_n) : pos_def x -> pos_semidef x.
  Proof.
    case=> S P. split=> // v. case: (eqVneq v 0) => [->|/eqP/P/ltW //]. by rewrite quad0.
  Qed.
  Lemma pos_defD n (x y : 'M[F]_n) : pos_def x -> pos_semidef y -> pos_def (x + y).
  Proof.
    move=> [S P] [S' P']. split; first by rewrite /symmetric linearD /= S S'.
    move=> v v0. rewrite quadD. apply: ltr_paddr => //. exact: P.
  Qed.
  Lemma pos_defZ n k (x : 'M[F]_n) : 0 < k -> pos_def x -> pos_def (k *: x).
  Proof.
    move=> k0 [S P]. split; first by rewrite /symmetric linearZ /= S.
    move=> v v0. by rewrite quadZ mulr_gt0 // P.
  Qed.
  Lemma sym_id n (x : 'M[F]_n) : symmetric x -> sym x = x.
  Proof. rewrite /sym => ->. by rewrite scalerDr -scalerDl half_half scale1r. Qed.
  Lemma sym_symmetric n (x : 'M[F]_n) : symmetric (sym x).
  Proof. exact: sym_tr. Qed.

  Lemma pos_def_inv n (x : 'M[F]_n) : pos_def x -> pos_def (invmx x).
  Proof.
    move=> P. have U := pos_def_unit P. have S := proj1 P.
    have E : invmx x = invmx x *m x *m (invmx x)^T by rewrite trmx_inv S mulVmx // mul1mx.
    rewrite E. apply: pos_def_congr => //. by rewrite unitmx_inv.
  Qed.

  (** functions of symmetric matrices do not depend on the diagonalisation *)
  Lemma intertwine n m (v1 : 'M[F]_n) e1 (v2 : 'M[F]_m) e2 (s : 'M[F]_(n, m)) (f : F -> F) :
    v1^T *m v1 = 1%:M -> v2^T *m v2 = 1%:M ->
    (v1 *m diag_mx e1 *m v1^T) *m s = s *m (v2 *m diag_mx e2 *m v2^T) ->
    (v1 *m diag_mx (map_mx f e1) *m v1^T) *m s = s *m (v2 *m diag_mx (map_mx f e2) *m v2^T).
  Proof.
    move=> V1 V2 H. have V1' := mulmx1C V1. have V2' := mulmx1C V2.
    have [w wE] : exists w, w = v1^T *m s *m v2 by exists (v1^T *m s *m v2).
    have sE : s = v1 *m w *m v2^T by rewrite wE !mulmxA V1' mul1mx -mulmxA V2' mulmx1.
    have W : diag_mx e1 *m w = w *m diag_mx e2.
      have := congr1 (fun a => v1^T *m a *m v2) H.
      rewrite wE !mulmxA V1 mul1mx => ->. by rewrite -(mulmxA _ v2^T) V2 mulmx1.
    have W' : diag_mx (map_mx f e1) *m w = w *m diag_mx (map_mx f e2).
      apply/matrixP => i j. have := congr1 (fun a : 'M_(n, m) => a i j) W.
      rewrite !mul_diag_mx !mul_mx_diag !mxE [w i j * _]mulrC [w i j * f _]mulrC => /eqP.
      rewrite -subr_eq0 -mulrBl mulf_eq0 subr_eq0 => /orP [/eqP -> //|/eqP ->]. by rewrite !mulr0.
    rewrite sE !mulmxA -(mulmxA _ v1^T) V1 mulmx1 -!mulmxA; congr (_ *m _).
    by rewrite !mulmxA W' -!mulmxA (mulmxA v2^T) V2 mul1mx.
  Qed.

  Lemma diag_pos n (e : 'rV[F]_n) : (forall i, 0 < e ord0 i) -> pos_def (diag_mx e).
  Proof.
    move=> P. split; first exact: tr_diag_mx.
    move=> v v0. rewrite quad_diag.
    have N i : 0 <= e ord0 i * v ord0 i ^+ 2 by rewrite mulr_ge0 ?sqr_ge0 ?ltW.
    rewrite lt_def sumr_ge0 ?andbT => [|i _ //]. apply/eqP => /eqP. rewrite psumr_eq0 => [|i _ //].
    move/allP => H. apply: v0. apply/matrixP => i j. rewrite !ord1 [RHS]mxE.
    have := H j (mem_index_enum _). by rewrite /= mulf_eq0 gt_eqF //= sqrf_eq0 => /eqP.
  Qed.
  Lemma diag_semi n (e : 'rV[F]_n) : (forall i, 0 <= e ord0 i) -> pos_semidef (diag_mx e).
  Proof.
    move=> P. split; first exact: tr_diag_mx.
    move=> v. rewrite quad_diag. apply: sumr_ge0 => i _. by rewrite mulr_ge0 ?sqr_ge0.
  Qed.
  Lemma orth_unit n (v : 'M[F]_n) : v^T *m v = 1%:M -> v \in unitmx.
  Proof. move=> V. by case: (mulmx1_unit V). Qed.
  Lemma eig_pos n (v : 'M[F]_n) e : v^T *m v = 1%:M -> pos_def (v *m diag_mx e *m v^T) -> forall i, 0 < e ord0 i.
  Proof.
    move=> V [_ P] i. have := P (delta_mx ord0 i *m v^T). rewrite quad_congr -mulmxA V mulmx1 quad_diag.
    rewrite (bigD1 i) //= big1 ?addr0; last by move=> j ji; rewrite mxE (negbTE ji) andbF expr0n mulr0.
    rewrite mxE !eqxx expr1n mulr1. apply. move/(congr1 (fun a => a *m v)).
    rewrite -mulmxA V mulmx1 mul0mx => /matrixP/(_ ord0 i). rewrite !mxE !eqxx => /eqP. by rewrite oner_eq0.
  Qed.
  Lemma diag_pos_conj n (v : 'M[F]_n) (e : 'rV[F]_n) : v^T *m v = 1%:M -> (forall i, 0 < e ord0 i) -> pos_def (v *m diag_mx e *m v^T).
  Proof. move=> V P. apply: pos_def_congr; [exact: orth_unit|exact: diag_pos]. Qed.
End Forms.

(** [ap f x]: the function f of a symmetric matrix x, through the spectral theorem;
    used only in proofs. *)
Section Calculus.
  Variable F : rcfType.
  Implicit Types n : nat.
  Definition is_fn (f : F -> F) n (x y : 'M[F]_n) : Prop :=
    exists (v : 'M[F]_n) e, v^T *m v = 1%:M /\ x = v *m diag_mx e *m v^T /\ y = v *m diag_mx (map_mx f e) *m v^T.
  Lemma fn_inter f n m (x y : 'M[F]_n) (x' y' : 'M[F]_m) s : is_fn f x y -> is_fn f x' y' -> x *m s = s *m x' -> y *m s = s *m y'.
  Proof. move=> [v [e [V [-> ->]]]] [v' [e' [V' [-> ->]]]]. exact: intertwine. Qed.
  Lemma fn_unique f n (x y y' : 'M[F]_n) : is_fn f x y -> is_fn f x y' -> y = y'.
  Proof. move=> H H'. have := fn_inter (s := 1%:M) H H'. rewrite !mul1mx !mulmx1. by apply. Qed.
  Lemma fn_exists f n (x : 'M[F]_n) : symmetric x -> exists y, is_fn f x y.
  Proof. move=> /spectral [e [v [V E]]]. by exists (v *m diag_mx (map_mx f e) *m v^T), v, e. Qed.
  Lemma fn_symmetric f n (x y : 'M[F]_n) : is_fn f x y -> symmetric y.
  Proof. move=> [v [e [_ [_ ->]]]]. by rewrite /symmetric !trmx_mul trmxK tr_diag_mx mulmxA. Qed.
  Lemma fn_comp f g h n (x y z : 'M[F]_n) : is_fn f x y -> is_fn g y z -> (forall t, h t = g (f t)) -> is_fn h x z.
  Proof.
    move=> [v [e [V [-> E]]]] G H. exists v, e. do 2 split=> //.
    apply: (fn_unique G). exists v, (map_mx f e). do 2 split=> //. congr (_ *m diag_mx _ *m _).
    apply/matrixP => i j. by rewrite !mxE H.
  Qed.
  Lemma fn_mul f g h n (x y z : 'M[F]_n) : is_fn f x y -> is_fn g x z -> (forall t, h t = f t * g t) -> is_fn h x (y *m z).
  Proof.
    move=> [v [e [V [E ->]]]] G H. exists v, e. do 2 split=> //.
    have -> : z = v *m diag_mx (map_mx g e) *m v^T.
      apply: (fn_unique G). by exists v, e.
    rewrite !mulmxA -(mulmxA _ v^T) V mulmx1. congr (_ *m _). rewrite -!mulmxA. congr (_ *m _).
    rewrite mulmx_diag. congr diag_mx. apply/rowP => j. by rewrite !mxE H.
  Qed.
  Lemma fn_ext f g n (x y : 'M[F]_n) : is_fn f x y -> pos_def x -> (forall t, 0 < t -> f t = g t) -> is_fn g x y.
  Proof.
    move=> [v [e [V [E ->]]]] P H. exists v, e. do 2 split=> //. congr (_ *m diag_mx _ *m _).
    apply/matrixP => i j. rewrite !mxE H // ord1. apply: (eig_pos (v := v)) => //. by rewrite -E.
  Qed.
  Lemma fn_id n (x : 'M[F]_n) : symmetric x -> is_fn id x x.
  Proof.
    move=> /spectral [e [v [V E]]]. exists v, e. do 2 split=> //. rewrite E.
    congr (_ *m diag_mx _ *m _). apply/matrixP => i j. by rewrite !mxE.
  Qed.
  Lemma fn_const k n (x : 'M[F]_n) : symmetric x -> is_fn (fun=> k) x k%:M.
  Proof.
    move=> /spectral [e [v [V E]]]. exists v, e. do 2 split=> //.
    have -> : diag_mx (map_mx (fun=> k) e) = k%:M.
      apply/matrixP => i j. rewrite !mxE. done.
    rewrite mul_mx_scalar -scalemxAl (mulmx1C V) scale_scalar_mx mulr1. done.
  Qed.
  Lemma fn_scale f k n (x y : 'M[F]_n) : is_fn f x y -> is_fn (fun t => k * f t) x (k *: y).
  Proof.
    move=> [v [e [V [E ->]]]]. exists v, e. do 2 split=> //. rewrite scalemxAl scalemxAr. congr (_ *m _ *m _).
    apply/matrixP => i j. by rewrite !mxE mulrnAr.
  Qed.
  Lemma fn_pos f n (x y : 'M[F]_n) : is_fn f x y -> (forall t, 0 < f t) -> pos_def y.
  Proof. move=> [v [e [V [E ->]]]] P. apply: diag_pos_conj => // i. by rewrite mxE. Qed.
  Lemma fn_pos' f n (x y : 'M[F]_n) : is_fn f x y -> pos_def x -> (forall t, 0 < t -> 0 < f t) -> pos_def y.
  Proof.
    move=> [v [e [V [E ->]]]] X P. apply: diag_pos_conj => // i. rewrite mxE. apply: P.
    apply: (eig_pos (v := v)) => //. by rewrite -E.
  Qed.
  Lemma fn_semi f n (x y : 'M[F]_n) : is_fn f x y -> (forall t, 0 <= f t) -> pos_semidef y.
  Proof. move=> [v [e [V [E ->]]]] P. apply: pos_semidef_congr. apply: diag_semi => i. by rewrite mxE. Qed.
End Calculus.

Section Roots.
  Variable F : rcfType.
  Implicit Types n : nat.
  (** s is the square root of x and i its inverse *)
  Record roots n (x i s : 'M[F]_n) : Prop := {
    r_i : pos_def i; r_s : pos_def s; r_ss : s *m s = x; r_is : i *m s = 1%:M; r_si : s *m i = 1%:M }.
  Lemma roots_of n (x i s : 'M[F]_n) : pos_def x -> is_fn (fun t => (Num.sqrt t)^-1) x i -> is_fn Num.sqrt x s ->
    roots x i s.
  Proof.
    move=> X I S.
    have IS : i *m s = 1%:M.
      have H := fn_mul (h := fun t => (Num.sqrt t)^-1 * Num.sqrt t) I S (fun=> erefl).
      apply: (fn_unique (fn_ext (g := fun=> 1) H X _)); last by apply: fn_const; case: X.
      by move=> t t0; rewrite mulVf // gt_eqF // sqrtr_gt0.
    split=> //.
    - apply: (fn_pos' I) => // t t0. by rewrite invr_gt0 sqrtr_gt0.
    - apply: (fn_pos' S) => // t t0. by rewrite sqrtr_gt0.
    - have H := fn_mul (h := fun t => Num.sqrt t * Num.sqrt t) S S (fun=> erefl).
      apply: (fn_unique (fn_ext (g := id) H X _)); last by apply: fn_id; case: X.
      by move=> t t0; rewrite -expr2 sqr_sqrtr // ltW.
    - exact: mulmx1C.
  Qed.
  Lemma roots_exist n (x : 'M[F]_n) : pos_def x -> exists i s, roots x i s.
  Proof.
    move=> X. have [i I] := fn_exists (fun t => (Num.sqrt t)^-1) (proj1 X). have [s S] := fn_exists Num.sqrt (proj1 X).
    exists i, s. exact: roots_of.
  Qed.
  Section On.
    Variables (n : nat) (x i s : 'M[F]_n).
    Hypothesis R : roots x i s.
    Lemma r_iT : i^T = i. Proof. by case: (r_i R). Qed.
    Lemma r_sT : s^T = s. Proof. by case: (r_s R). Qed.
    Lemma r_iU : i \in unitmx. Proof. exact: pos_def_unit (r_i R). Qed.
    Lemma r_sU : s \in unitmx. Proof. exact: pos_def_unit (r_s R). Qed.
    Lemma r_inv : invmx x = i *m i.
    Proof.
      have U : x \in unitmx by rewrite -(r_ss R) unitmx_mul r_sU.
      have E : (i *m i) *m x = 1%:M.
        by rewrite -(r_ss R) mulmxA -(mulmxA i) (r_is R) mulmx1 (r_is R).
      by rewrite -[RHS]mulmx1 -(mulmxV U) mulmxA E mul1mx.
    Qed.
    Lemma r_cancel u : s *m (i *m u *m i) *m s = u.
    Proof. by rewrite !mulmxA (r_si R) mul1mx -mulmxA (r_is R) mulmx1. Qed.
    Lemma r_cancel' u : i *m (s *m u *m s) *m i = u.
    Proof. by rewrite !mulmxA (r_is R) mul1mx -mulmxA (r_si R) mulmx1. Qed.
    Lemma r_symmetric u : symmetric u -> symmetric (i *m u *m i).
    Proof. by move=> U; rewrite /symmetric !trmx_mul U r_iT mulmxA. Qed.
    Lemma r_pos u : pos_def u -> pos_def (i *m u *m i).
    Proof. move=> U. rewrite -{2}r_iT. apply: pos_def_congr => //. exact: r_iU. Qed.
    Lemma s_pos u : pos_def u -> pos_def (s *m u *m s).
    Proof. move=> U. rewrite -{2}r_sT. apply: pos_def_congr => //. exact: r_sU. Qed.
    Lemma s_symmetric u : symmetric u -> symmetric (s *m u *m s).
    Proof. by move=> U; rewrite /symmetric !trmx_mul U r_sT mulmxA. Qed.
    Lemma r_x : pos_def x.
    Proof. rewrite -(r_ss R). rewrite -[s in s *m _]mulmx1. apply: s_pos. exact: (fn_pos (fn_const 1 (trmx1 F n)) (fun=> ltr01)). Qed.
    Lemma inner_roots u v : inner x u v = \tr ((i *m u *m i) *m (i *m v *m i)).
    Proof. by rewrite /inner /sym_invm r_inv !mulmxA [RHS]mxtrace_mulC !mulmxA. Qed.
  End On.

  Lemma tr_mul_sym n (a b : 'M[F]_n) : symmetric a -> \tr (a *m b) = pairing a b.
  Proof. by move=> A; rewrite /pairing A. Qed.

  (** C29 *)
  Lemma retr_pos n (x u : 'M[F]_n) : pos_def x -> symmetric u -> pos_def (retr x u).
  Proof.
    move=> X U. have UX := pos_def_unit X. have SX := proj1 X.
    have E : x + u + (2%:R^-1 *: u) *m invmx x *m u = 2%:R^-1 *: (x + (x + u) *m invmx x *m (x + u)^T).
      rewrite [(x + u)^T]linearD /= U SX.
      have -> : (x + u) *m invmx x *m (x + u) = x + u + u + u *m invmx x *m u.
        by rewrite mulmxDl mulmxV // mulmxDl mul1mx mulmxDr mulmxKV // addrA.
      rewrite -!scalemxAl !addrA scalerDr. congr (_ + _).
      have -> : x + x + u + u = (x + u) + (x + u) by rewrite !addrA (addrAC x x u).
      by rewrite scalerDr -scalerDl half_half scale1r.
    rewrite /retr /sym_invm E sym_id.
      apply: pos_defZ; first by rewrite invr_gt0 ltr0n.
      apply: pos_defD => //. apply: pos_semidef_congr. apply: pos_def_semi. exact: pos_def_inv.
    by rewrite /symmetric linearZ /= linearD /= SX !trmx_mul trmxK trmx_inv SX mulmxA.
  Qed.
  Lemma retr_formula n (x u : 'M[F]_n) : pos_def x -> symmetric u -> retr x u = x + u + 2%:R^-1 *: (u *m invmx x *m u).
  Proof.
    move=> X U. rewrite /retr /sym_invm -!scalemxAl sym_id //.
    rewrite /symmetric !linearD linearZ /= !trmx_mul trmx_inv (proj1 X) U mulmxA. done.
  Qed.

  (** C30 *)
  Lemma inner_sym n (x u v : 'M[F]_n) : inner x u v = inner x v u.
  Proof. by rewrite /inner /sym_invm -!mulmxA mxtrace_mulC !mulmxA [RHS]mxtrace_mulC !mulmxA [RHS]mxtrace_mulC !mulmxA mxtrace_mulC !mulmxA. Qed.
  Lemma inner_lin n (x : 'M[F]_n) k u v w : inner x (k *: u + v) w = k * inner x u w + inner x v w.
  Proof. by rewrite /inner /sym_invm mulmxDr !mulmxDl linearD /= -scalemxAr -!scalemxAl linearZ. Qed.
  Lemma inner_pos n (x u : 'M[F]_n) : pos_def x -> symmetric u -> u <> 0 -> 0 < inner x u u.
  Proof.
    move=> X U u0. have [i [s R]] := roots_exist X. rewrite (inner_roots R) tr_mul_sym; last exact: (r_symmetric R).
    rewrite lt_def pairing_ge0 andbT. apply/eqP => /pairing_eq0 H. apply: u0.
    by rewrite -(r_cancel R u) H mulmx0 mul0mx.
  Qed.
  Lemma inner_congr n (x a u v : 'M[F]_n) : x \in unitmx -> a \in unitmx ->
    inner (a *m x *m a^T) (a *m u *m a^T) (a *m v *m a^T) = inner x u v.
  Proof.
    move=> X A. rewrite /inner /sym_invm. have AT : a^T \in unitmx by rewrite unitmx_tr.
    have E : invmx (a *m x *m a^T) = invmx a^T *m invmx x *m invmx a.
      have H : (invmx a^T *m invmx x *m invmx a) *m (a *m x *m a^T) = 1%:M.
        by rewrite !mulmxA mulmxKV // mulmxKV // mulVmx.
      have U : a *m x *m a^T \in unitmx by rewrite !unitmx_mul A X AT.
      by rewrite -[RHS]mulmx1 -(mulmxV U) mulmxA H mul1mx.
    rewrite E !mulmxA mulmxKV // -(mulmxA _ a^T) mulmxV // mulmx1 mulmxKV // mxtrace_mulC !mulmxA mulmxV // mul1mx. done.
  Qed.
  Lemma rgrad_tangent n (x g : 'M[F]_n) : symmetric (egrad2rgrad x g).
  Proof. by rewrite /symmetric /egrad2rgrad /proju !trmx_mul trmxK sym_tr mulmxA. Qed.
  Lemma rgrad_gradient n (x g v : 'M[F]_n) : pos_def x -> symmetric v -> inner x (egrad2rgrad x g) v = fro g v.
  Proof.
    move=> X V. have U := pos_def_unit X. have S := proj1 X. rewrite /inner /sym_invm /egrad2rgrad /proju S.
    rewrite !mulmxA mulVmx // mul1mx mulmxK // froE.
    rewrite /sym -scalemxAl linearZ /= mulmxDl linearD /= -/(pairing g v).
    have -> : \tr (g *m v) = pairing g v by rewrite pairingC /pairing V mxtrace_mulC.
    by rewrite mulrDr -mulrDl half_half mul1r.
  Qed.
End Roots.
