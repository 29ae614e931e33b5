(** Lemmas: the QR retraction of the Stiefel manifold and the SPD manifold. *)
From mathcomp Require Import all_ssreflect all_algebra.
From Verif Require Import StiefelModel StiefelSpec StiefelProofs SpdModel SpdSpec SpdProofs SpdProofs2 MatDescentSpec
  MatDescentProofs MatSymModel MatSymSpec MatSymProofs.
Import Order.TTheory GRing.Theory Num.Theory.
Local Open Scope ring_scope.
Set Implicit Arguments. Unset Strict Implicit. Unset Printing Implicit Defensive.

Section Qr.
  Variables (F : realFieldType) (n p : nat) (Q : 'M[F]_n) (qr : 'M[F]_(n, p) -> 'M[F]_(n, p) * 'M[F]_p).
  Hypotheses (HQ : orthogonal Q) (QR : forall m, qr_of m (qr m).1 (qr m).2).
  Notation mv := (turn Q 1%:M).
  Notation M := 'M[F]_(n, p).
  Lemma one_ortho k : orthogonal (1%:M : 'M[F]_k). Proof. by rewrite /orthogonal trmx1 mulmx1. Qed.
  Lemma mv1 (x : M) : mv x = Q *m x. Proof. by rewrite /turn mulmx1. Qed.
  Notation rt x u := (euclidean_retr (qr (x + u)).1 (qr (x + u)).2).
  Lemma retr_mulQ (q : M) r : euclidean_retr (Q *m q) r = Q *m euclidean_retr q r.
  Proof. apply/matrixP => i j. rewrite !mxE mulr_suml. apply: eq_bigr => k _. by rewrite !mxE mulrA. Qed.
  Lemma retr_mv x u : on_stiefel x -> tangent x u -> rt (mv x) (mv u) = mv (rt x u).
  Proof.
    move=> X T. rewrite [RHS]mv1 -retr_mulQ. have [E [O U]] := QR (x + u).
    apply: (retr_unique (x := mv x) (u := mv u)) => //.
    - exact: (mv_on HQ (one_ortho _)).
    - apply: mv_tangent => //.
    - split; [|split] => //.
        by rewrite !mv1 -mulmxDr {1}E mulmxA.
      by rewrite trmx_mul -mulmxA (mulmxA Q^T) HQ mul1mx.
  Qed.
  Lemma tangent_lin x k a b : tangent x a -> tangent x b -> tangent x (k *: a + b : M).
  Proof.
    rewrite /tangent => A B. rewrite mulmxDr [(_ + b)^T]linearD /= mulmxDl addrACA B addr0.
    by rewrite [(_ *: a)^T]linearZ /= -scalemxAr -scalemxAl -scalerDr A scaler0.
  Qed.
  Lemma tangent_0 x : tangent x (0 : M).
  Proof. by rewrite /tangent mulmx0 trmx0 mul0mx addr0. Qed.
  Lemma retr_on x u : on_stiefel (rt x u). Proof. exact: euclidean_retr_on (QR _). Qed.
  Lemma moved_seq gs i : (i < size gs)%N ->
    moved mv mv (@on_stiefel F n p) (nth id gs i) (nth id [seq turned_grad Q 1%:M g | g <- gs] i).
  Proof. move=> Hi. rewrite (nth_map id) //. exact: turned_grad_moved (one_ortho _) _ _. Qed.
  Lemma sgd_euclidean h gs x : s_momentum h = 0 -> on_stiefel x ->
    sgd_run (euclidean_ops qr) h [seq turned_grad Q 1%:M g | g <- gs] (mv x) =
    (mv (sgd_run (euclidean_ops qr) h gs x).1, omap mv (sgd_run (euclidean_ops qr) h gs x).2).
  Proof.
    move=> M0 X.
    apply: (sgd_run_move (G := mv) (P := @on_stiefel F n p) (T := @tangent F n p) (wd := s_decay h)) => //=.
    - exact: mv_lin.
    - move=> y k a b _. exact: tangent_lin.
    - move=> y _. exact: tangent_0.
    - move=> y g. exact: proju_tangent.
    - move=> y g _. by rewrite -(euclidean_proju_mv HQ (one_ortho _)) addrC -mv_lin addrC.
    - exact: retr_mv.
    - move=> y u _ _. exact: retr_on.
    - move=> y u v Y U V. rewrite /base_retr_transp /= retr_mv // /euclidean_transp.
      by rewrite (euclidean_proju_mv HQ (one_ortho _)).
    - move=> y u v Y U V. rewrite /base_retr_transp /=. split; first exact: retr_on.
      apply: proju_tangent. exact: retr_on.
    - by left.
    - by rewrite size_map.
    - exact: moved_seq.
  Qed.
  Lemma adam_euclidean fsqrt h gs x : on_stiefel x ->
    adam_run (euclidean_ops qr) fsqrt h [seq turned_grad Q 1%:M g | g <- gs] (mv x) =
    adam_move mv mv (adam_run (euclidean_ops qr) fsqrt h gs x).
  Proof.
    move=> X.
    apply: (adam_run_move (G := mv) (P := @on_stiefel F n p) (T := @tangent F n p) (wd := a_decay h)) => //=.
    - exact: mv_lin.
    - move=> y k a b _. exact: tangent_lin.
    - move=> y _. exact: tangent_0.
    - move=> y g. exact: proju_tangent.
    - move=> y g _. by rewrite -(euclidean_proju_mv HQ (one_ortho _)) addrC -mv_lin addrC.
    - move=> y u _ _. by rewrite /euclidean_inner !frobE (mv_pairing HQ (one_ortho _)).
    - move=> y u v Y U V. rewrite /base_retr_transp /= retr_mv // /euclidean_transp.
      by rewrite (euclidean_proju_mv HQ (one_ortho _)).
    - move=> y u v Y U V. rewrite /base_retr_transp /=. split; first exact: retr_on.
      apply: proju_tangent. exact: retr_on.
    - by rewrite size_map.
    - exact: moved_seq.
  Qed.
End Qr.

Section Spd.
  Variables (F : rcfType) (n : nat) (a : 'M[F]_n).
  Hypothesis A : a \in unitmx.
  Notation cg := (congr a).
  Notation M := 'M[F]_n.
  Let b := invmx a.
  Definition dual (g : M) : M := b^T *m g *m b.
  Lemma bT : b^T = invmx a^T. Proof. by rewrite /b trmx_inv. Qed.
  Lemma AT : a^T \in unitmx. Proof. by rewrite unitmx_tr. Qed.
  Lemma cg_lin k (x y : M) : cg (k *: x + y) = k *: cg x + cg y.
  Proof. by rewrite /congr mulmxDr mulmxDl -scalemxAr -scalemxAl. Qed.
  Lemma cg_back (x : M) : b *m cg x *m b^T = x.
  Proof. by rewrite bT /congr mulmxA mulmxK ?AT // /b mulKmx. Qed.
  Lemma cg_pos (x : M) : pos_def x -> pos_def (cg x). Proof. exact: pos_def_congr. Qed.
  Lemma cg_tr (x : M) : (cg x)^T = cg x^T. Proof. by rewrite /congr !trmx_mul trmxK mulmxA. Qed.
  Lemma cg_sym (x : M) : sym (cg x) = cg (sym x).
  Proof. by rewrite /sym cg_tr -[in RHS](addr0 (_ *: _)) cg_lin /congr mulmxDr mulmxDl mulmx0 mul0mx addr0. Qed.
  Lemma cg_symmetric (x : M) : symmetric x -> symmetric (cg x).
  Proof. by rewrite /symmetric cg_tr => ->. Qed.
  Lemma e_cg (x g : M) : egrad2rgrad (cg x) (dual g) = cg (egrad2rgrad x g).
  Proof.
    rewrite /egrad2rgrad /proju.
    have -> : sym (dual g) = dual (sym g) by rewrite /dual /sym !trmx_mul trmxK -scalemxAr -scalemxAl mulmxDr mulmxDl !mulmxA.
    move: (sym g) => s. rewrite cg_tr /congr /dual bT !mulmxA.
    by rewrite (mulmxK AT) (mulmxKV A).
  Qed.
  Lemma inv_cg (x : M) : x \in unitmx -> invmx (cg x) = b^T *m invmx x *m b.
  Proof.
    move=> X. have U : cg x \in unitmx by rewrite !unitmx_mul A X AT.
    rewrite -[RHS]mul1mx -(mulVmx U) /congr bT -!mulmxA (mulKVmx AT) (mulKVmx X) /b mulmxV // mulmx1. by [].
  Qed.
  Lemma retr_cg (x u : M) : pos_def x -> retr (cg x) (cg u) = cg (retr x u).
  Proof.
    move=> X. have U := pos_def_unit X. rewrite /retr /sym_invm -cg_sym. congr sym.
    rewrite inv_cg // bT /congr -!scalemxAl !mulmxA (mulmxK AT) (mulmxKV A).
    by rewrite !mulmxDr !mulmxDl -!scalemxAr -!scalemxAl !mulmxA.
  Qed.
  Lemma inner_cg (x u v : M) : pos_def x -> inner (cg x) (cg u) (cg v) = inner x u v.
  Proof.
    move=> X. have U := pos_def_unit X. rewrite /inner /sym_invm inv_cg // bT /congr !mulmxA.
    rewrite !(mulmxKV A) (mulmxK AT) [LHS]mxtrace_mulC !mulmxA (mulmxV AT) mul1mx. by [].
  Qed.

  Variable eigh : forall n, 'M[F]_n -> 'rV[F]_n * 'M[F]_n.
  Hypothesis EO : eigh_ok eigh.
  Variables (exp log : F -> F) (mexp : forall n, 'M[F]_n -> 'M[F]_n).
  Hypothesis EL : explog exp log.
  Hypothesis MX : matrix_exp_ok exp mexp.

  (** the roots of x and of a x a^T are related by an intertwiner *)
  Section Inter.
    Variables (x i s i' s' : M).
    Hypotheses (R : roots x i s) (R' : roots (cg x) i' s').
    Let o := i' *m a *m s.
    Lemma inter_o u : i' *m cg u *m i' *m o = o *m (i *m u *m i).
    Proof.
      rewrite /o /congr.
      have -> : i' *m (a *m u *m a^T) *m i' *m (i' *m a *m s) = i' *m a *m u *m (a^T *m i' *m i' *m a) *m s by rewrite !mulmxA.
      rewrite (roots_congr A R R') -(mulmxA _ (i *m i)) -(mulmxA i) (r_is R) mulmx1.
      by rewrite !mulmxA -(mulmxA _ s i) (r_si R) mulmx1.
    Qed.
    Lemma as_o : a *m s = s' *m o.
    Proof. by rewrite /o !mulmxA (r_si R') mul1mx. Qed.
    Lemma o_sa : o *m s *m a^T = s'.
    Proof.
      rewrite /o -(mulmxA _ s s) (r_ss R) -!mulmxA (mulmxA a) -/(congr a x) -(r_ss R') mulmxA (r_is R') mul1mx. by [].
    Qed.
    Lemma sandwich w w' : w' *m o = o *m w -> s' *m w' *m s' = cg (s *m w *m s).
    Proof.
      move=> H. rewrite /congr !mulmxA as_o -(mulmxA s' o w) -H.
      have -> : s' *m (w' *m o) *m s *m a^T = s' *m w' *m (o *m s *m a^T) by rewrite !mulmxA.
      by rewrite o_sa.
    Qed.
    Lemma propagator w w' : w' *m o = o *m w -> s' *m w' *m i' *m a = a *m (s *m w *m i).
    Proof.
      move=> H. rewrite !mulmxA as_o -(mulmxA s' o w) -H /o !mulmxA -(mulmxA _ s i) (r_si R) mulmx1. by [].
    Qed.
  End Inter.
  Lemma expmap_cg (x u : M) : pos_def x -> symmetric u -> expmap eigh mexp (cg x) (cg u) = cg (expmap eigh mexp x u).
  Proof.
    move=> X U. have [i [s [E [R _]]]] := sqrtm2 EO X. have [i' [s' [E' [R' _]]]] := sqrtm2 EO (cg_pos X).
    rewrite /expmap E E'. apply: (sandwich R R').
    apply: (fn_inter (mexp_fn MX _) (mexp_fn MX _)).
    - apply: (r_symmetric R'). exact: cg_symmetric.
    - exact: (r_symmetric R).
    - exact: (inter_o R R').
  Qed.
  Lemma logmap_cg (x y : M) : pos_def x -> pos_def y -> logmap eigh log (cg x) (cg y) = cg (logmap eigh log x y).
  Proof.
    move=> X Y. have [i [s [E [R _]]]] := sqrtm2 EO X. have [i' [s' [E' [R' _]]]] := sqrtm2 EO (cg_pos X).
    rewrite /logmap E E'. apply: (sandwich R R').
    apply: (fn_inter (funcm_fn EO log _) (funcm_fn EO log _)).
    - apply: (r_symmetric R'). apply: cg_symmetric. by case: Y.
    - apply: (r_symmetric R). by case: Y.
    - exact: (inter_o R R').
  Qed.
  Lemma transp_cg (x y v : M) : pos_def x -> pos_def y -> symmetric v ->
    transp eigh mexp log (cg x) (cg y) (cg v) = cg (transp eigh mexp log x y v).
  Proof.
    move=> X Y V. have [i [s [E [R _]]]] := sqrtm2 EO X. have [i' [s' [E' [R' _]]]] := sqrtm2 EO (cg_pos X).
    rewrite /transp E E' !sym_id; [|exact: (r_symmetric R)|by apply: (r_symmetric R'); apply: cg_symmetric].
    have L := funcm_fn EO log (proj1 (r_pos R Y)). have L' := funcm_fn EO log (proj1 (r_pos R' (cg_pos Y))).
    have H := fn_inter L' L (inter_o R R' y).
    have K := fn_scale 2%:R^-1 L. have K' := fn_scale 2%:R^-1 L'.
    have W := mexp_fn MX (fn_symmetric K). have W' := mexp_fn MX (fn_symmetric K').
    rewrite /sym_expm /sym_logm.
    set w := mexp (2%:R^-1 *: sym_funcm eigh log (i *m y *m i)) in W *.
    set w' := mexp (2%:R^-1 *: sym_funcm eigh log (i' *m cg y *m i')) in W' *.
    have HW : w' *m (i' *m a *m s) = i' *m a *m s *m w.
      apply: (fn_inter W' W). by rewrite -scalemxAl -scalemxAr H.
    have wT : w^T = w := fn_symmetric W. have wT' : w'^T = w' := fn_symmetric W'.
    have P := propagator R R' HW.
    have -> : s *m w *m (i *m v *m i) *m w *m s = (s *m w *m i) *m v *m (s *m w *m i)^T.
      by rewrite !trmx_mul wT (r_iT R) (r_sT R) !mulmxA.
    have -> : s' *m w' *m (i' *m cg v *m i') *m w' *m s' = (s' *m w' *m i' *m a) *m v *m (s' *m w' *m i' *m a)^T.
      by rewrite !trmx_mul wT' (r_iT R') (r_sT R') /congr !mulmxA.
    by rewrite P /congr [(a *m (_))^T]trmx_mul !mulmxA.
  Qed.

  Notation so := (spd_ops n eigh mexp log).
  Lemma cgrad_moved g : moved cg dual (@pos_def F n) g (congr_grad a g).
  Proof. by move=> x _; rewrite /congr_grad -/b cg_back. Qed.
  Lemma sgd_spd h gs x : s_momentum h = 0 -> s_decay h = 0 -> pos_def x ->
    sgd_run so h [seq congr_grad a g | g <- gs] (cg x) = (cg (sgd_run so h gs x).1, omap cg (sgd_run so h gs x).2).
  Proof.
    move=> M0 W X. apply: (sgd_run_move (G := dual) (P := @pos_def F n) (T := fun=> @symmetric F n) (wd := 0)) => //=.
    - exact: cg_lin.
    - move=> y k u v _. rewrite /symmetric linearD linearZ /= => -> ->. by [].
    - move=> y _. by rewrite /symmetric trmx0.
    - move=> y g Y. exact: rgrad_tangent.
    - move=> y g Y. by rewrite !scale0r !addr0 e_cg.
    - move=> y u Y _. exact: retr_cg.
    - exact: retr_pos.
    - move=> y u v Y U V. rewrite /base_retr_transp /= retr_cg // transp_cg //. exact: retr_pos.
    - move=> y u v Y U V. split; first exact: retr_pos. apply: (transp_tangent EO EL MX) => //. exact: retr_pos.
    - by left.
    - by rewrite size_map.
    - move=> i Hi. rewrite (nth_map id) //. exact: cgrad_moved.
  Qed.
  Lemma adam_spd fsqrt h gs x : a_decay h = 0 -> pos_def x ->
    adam_run so fsqrt h [seq congr_grad a g | g <- gs] (cg x) = adam_move cg cg (adam_run so fsqrt h gs x).
  Proof.
    move=> W X. apply: (adam_run_move (G := dual) (P := @pos_def F n) (T := fun=> @symmetric F n) (wd := 0)) => //=.
    - exact: cg_lin.
    - move=> y k u v _. rewrite /symmetric linearD linearZ /= => -> ->. by [].
    - move=> y _. by rewrite /symmetric trmx0.
    - move=> y g Y. exact: rgrad_tangent.
    - move=> y g Y. by rewrite !scale0r !addr0 e_cg.
    - move=> y u Y _. exact: inner_cg.
    - move=> y u v Y U V. rewrite /base_retr_transp /= retr_cg // transp_cg //. exact: retr_pos.
    - move=> y u v Y U V. split; first exact: retr_pos. apply: (transp_tangent EO EL MX) => //. exact: retr_pos.
    - by rewrite size_map.
    - move=> i Hi. rewrite (nth_map id) //. exact: cgrad_moved.
  Qed.
End Spd.
