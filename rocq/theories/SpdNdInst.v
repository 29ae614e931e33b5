(** The statements of C123, from SpdNdProofs. *)
From mathcomp Require Import all_ssreflect all_algebra.
From Verif Require NdModel StereoNdSpec NdProofs SpdModel SpdSpec.
From Verif Require Import MatNdModel MatNdShape MatNdSpec MatNdProofs StiefelNdInst SpdNdModel SpdNdProofs.
Import GRing.Theory Num.Theory.
Local Open Scope ring_scope.
Set Implicit Arguments. Unset Strict Implicit. Unset Printing Implicit Defensive.

Section Inst.
  Variable F : rcfType.
  Notation mt := (mt F).
  Variable eigh : forall n, 'M[F]_n -> 'rV[F]_n * 'M[F]_n.
  Variable matrix_exp : forall n, 'M[F]_n -> 'M[F]_n.
  Variables exp log : F -> F.

  Lemma s_funcm h n : each1 (sym_funcm_nd eigh h) (@SpdModel.sym_funcm F eigh h n).
  Proof. by move=> x b X; have [T C] := shape1 b; have [r E R] := g_funcm eigh h (gm_of X C); exact: gives_gm E R _. Qed.
  Lemma s_expm n : each1 (sym_expm_nd matrix_exp) (@SpdModel.sym_expm F matrix_exp n).
  Proof. by move=> x b X; have [T C] := shape1 b; have [r E R] := gm_each matrix_exp (gm_of X C); exact: gives_gm E R _. Qed.
  Lemma s_sqrtm2 n x b : has_shape x b n n -> exists p q, sym_inv_sqrtm2_nd eigh x = Some (p, q) /\
    has_shape p b n n /\ has_shape q b n n /\
    forall ix, (to_mx n n p ix, to_mx n n q ix) = SpdModel.sym_inv_sqrtm2 eigh (to_mx n n x ix).
  Proof.
    move=> X; have [T C] := shape1 b; have [p [q [E [P Q]]]] := g_sqrtm2 eigh (gm_of X C).
    exists p, q; split=> //; case: P => ? ? ? _ A; case: Q => ? ? ? _ B; do 2 split=> //.
    by move=> ix; rewrite A B; case: (SpdModel.sym_inv_sqrtm2 _ _).
  Qed.
  Lemma s_invm n (x : mt) b : has_shape x b n n -> (forall ix, StereoNdSpec.inside b ix -> to_mx n n x ix \in unitmx) ->
    gives (sym_invm_nd x) b (fun ix => SpdModel.sym_invm (to_mx n n x ix)).
  Proof. by move=> X U; have [T C] := shape1 b; have [r E R] := g_invm (gm_of X C) U; exact: gives_gm E R _. Qed.
  Lemma s_invm_none n (x : mt) b ix : has_shape x b n n -> StereoNdSpec.inside b ix -> to_mx n n x ix \notin unitmx ->
    sym_invm_nd x = None.
  Proof.
    case=> [B [N P]] I U; rewrite /sym_invm_nd N P eqxx /=; case: ifP => // H.
    have := H; rewrite B positionsP; last by move=> k; rewrite -B to_norm.
    by move/(_ _ I); rewrite (negPf U).
  Qed.
  Lemma s_singular n (x u : mt) v keep b ix : has_shape x b n n -> StereoNdSpec.inside b ix -> to_mx n n x ix \notin unitmx ->
    inner_nd x u v keep = None /\ retr_nd x u = None.
  Proof. by move=> X I U; rewrite /inner_nd /retr_nd (s_invm_none X I U). Qed.
  Lemma s_dist m keep n x y bx by_ b : has_shape x bx n n -> has_shape y by_ n n -> bshape bx by_ = Some b ->
    gives_scalar (dist_nd eigh log m x y keep) b keep (fun ix => SpdModel.dist eigh log m (to_mx n n x ix) (to_mx n n y ix)).
  Proof.
    move=> X Y B; have [T [CX [CY ->]]] := shape2 B.
    have [r E R] := g_dist eigh log (gm_of X CX) (gm_of Y CY) m keep; exact: gives_gs E R _.
  Qed.
  Lemma s_projx n : each1 (projx_nd eigh) (@SpdModel.projx F eigh n).
  Proof. by move=> x b X; have [T C] := shape1 b; have [r E R] := g_projx eigh (gm_of X C); exact: gives_gm E R _. Qed.
  Lemma s_random n : each1 (random_nd eigh exp) (@SpdModel.random F eigh exp n).
  Proof. by move=> x b X; have [T C] := shape1 b; have [r E R] := g_random eigh exp (gm_of X C); exact: gives_gm E R _. Qed.
  Lemma s_proju n x (m : 'M[F]_n) : each1 (proju_nd x) (SpdModel.proju m).
  Proof. exact: i_sym. Qed.
  Lemma s_rgrad n : each2 (@egrad2rgrad_nd F) (@SpdModel.egrad2rgrad F n).
  Proof.
    move=> x u bx bu b X U B; have [T [CX [CU ->]]] := shape2 B.
    have [r E R] := g_rgrad (gm_of X CX) (gm_of U CU); exact: gives_gm E R _.
  Qed.
  Lemma s_exp n : each2 (expmap_nd eigh matrix_exp) (@SpdModel.expmap F eigh matrix_exp n).
  Proof.
    move=> x u bx bu b X U B; have [T [CX [CU ->]]] := shape2 B.
    have [r E R] := g_exp eigh matrix_exp (gm_of X CX) (gm_of U CU); exact: gives_gm E R _.
  Qed.
  Lemma s_log n : each2 (logmap_nd eigh log) (@SpdModel.logmap F eigh log n).
  Proof.
    move=> x u bx bu b X U B; have [T [CX [CU ->]]] := shape2 B.
    have [r E R] := g_log eigh log (gm_of X CX) (gm_of U CU); exact: gives_gm E R _.
  Qed.
  Lemma s_retr n (x u : mt) bx bu b : has_shape x bx n n -> has_shape u bu n n -> bshape bx bu = Some b ->
    (forall ix, StereoNdSpec.inside bx ix -> to_mx n n x ix \in unitmx) ->
    gives (retr_nd x u) b (fun ix => SpdModel.retr (to_mx n n x ix) (to_mx n n u ix)).
  Proof.
    move=> X U B I; have [T [CX [CU ->]]] := shape2 B.
    have [r E R] := g_retr (gm_of X CX) (gm_of U CU) I; exact: gives_gm E R _.
  Qed.
  Lemma s_inner keep n (x u v : mt) bx bu bv b1 b : has_shape x bx n n -> has_shape u bu n n -> has_shape v bv n n ->
    bshape bx bu = Some b1 -> bshape b1 bv = Some b ->
    (forall ix, StereoNdSpec.inside bx ix -> to_mx n n x ix \in unitmx) ->
    gives_scalar (inner_nd x u (Some v) keep) b keep
      (fun ix => SpdModel.inner (to_mx n n x ix) (to_mx n n u ix) (to_mx n n v ix)).
  Proof.
    move=> X U V B B' I; have [T [CX [CU [CV ->]]]] := shape3 B B'.
    have [r E R] := g_inner (gm_of X CX) (gm_of U CU) (gm_of V CV) keep I; exact: gives_gs E R _.
  Qed.
  Lemma s_inner1 keep n (x u : mt) bx bu b : has_shape x bx n n -> has_shape u bu n n ->
    bshape bx bu = Some b ->
    (forall ix, StereoNdSpec.inside bx ix -> to_mx n n x ix \in unitmx) ->
    gives_scalar (inner_nd x u None keep) b keep
      (fun ix => SpdModel.inner (to_mx n n x ix) (to_mx n n u ix) (to_mx n n u ix)).
  Proof.
    move=> X U B I; apply: (s_inner keep X U U B _ I).
    by move/bshape_is_join: B => [-> [CX CU]]; rewrite (bshape_join _ _ _ (compat_join _ _ _ CX CU) CU) join_assoc join_same.
  Qed.
  Lemma s_transp n : each3 (transp_nd eigh matrix_exp log) (@SpdModel.transp F eigh matrix_exp log n).
  Proof.
    move=> x u v bx bu bv b1 b X U V B B'; have [T [CX [CU [CV ->]]]] := shape3 B B'.
    have [r E R] := g_transp eigh matrix_exp log (gm_of X CX) (gm_of U CU) (gm_of V CV); exact: gives_gm E R _.
  Qed.

  (** Checks *)
  Lemma s_allclose atol rtol n (x : mt) b : has_shape x b n n ->
    gives_check (allclose_tr atol rtol x) b (fun ix => SpdModel.mx_allclose atol rtol (to_mx n n x ix) (to_mx n n x ix)^T).
  Proof.
    case=> [B [N P]]; rewrite /allclose_tr N P eqxx; eexists; split; first by [].
    by rewrite B positionsP // => ix; rewrite -B to_norm.
  Qed.
  Lemma s_check_vector atol rtol n (x u : mt) (m : 'M[F]_n) b : has_shape u b n n ->
    gives_check (check_vector_nd atol rtol x u) b (fun ix => SpdModel.check_vector atol rtol m (to_mx n n u ix)).
  Proof. exact: s_allclose. Qed.
  Lemma inside_at b ix i n : StereoNdSpec.inside b ix -> (i < n)%N -> StereoNdSpec.inside (n :: b) (at_last i ix).
  Proof. by move=> I L [|a] /= H; [apply/ltP|apply: I; exact: (proj2 (PeanoNat.Nat.succ_lt_mono _ _) H)]. Qed.
  Lemma inside_before b ix n : StereoNdSpec.inside (n :: b) ix -> (ix 0%N < n)%N /\ StereoNdSpec.inside b (before_last ix).
  Proof.
    move=> I; split; first by apply/ltP; apply: (I 0%N); apply/ltP.
    by move=> a H; apply: (I a.+1); exact: (proj1 (PeanoNat.Nat.succ_lt_mono _ _) H).
  Qed.
  Lemma empty_inside b ix : NdModel.numel b = 0%N -> ~ StereoNdSpec.inside b ix.
  Proof.
    elim: b ix => //= d b IH ix /eqP; rewrite -[_ == _]/(d * NdModel.numel b == 0)%N muln_eq0 => /orP [/eqP-> |/eqP Z] I.
    - by have := I 0%N; case: (ix 0%N) => [|k] /= H; [apply: (PeanoNat.Nat.lt_irrefl 0)|apply: (PeanoNat.Nat.nlt_0_r k.+1)]; apply: H; apply/ltP.
    - exact: (IH _ Z (inside_before I).2).
  Qed.
  Lemma s_check_point atol rtol n (x : mt) b : has_shape x b n n -> (0 < n)%N -> NdModel.numel b <> 0%N ->
    gives_check (check_point_nd eigh atol rtol x) b (fun ix => SpdModel.check_point eigh atol rtol (to_mx n n x ix)).
  Proof.
    move=> X n0 Z; have [T C] := shape1 b; rewrite /check_point_nd.
    have [ok [-> O]] := s_allclose atol rtol X; case: ok O => O /=; last first.
      eexists; split; first by []. split=> // H; suff : false by []. apply/O => ix I.
      by have := H ix I; rewrite /SpdModel.check_point; case: (SpdModel.mx_allclose _ _ _ _).
    have S : forall ix, StereoNdSpec.inside b ix -> SpdModel.mx_allclose atol rtol (to_mx n n x ix) (to_mx n n x ix)^T by apply/O.
    have [e [v [-> [E _]]]] := g_eigh eigh (gm_of X C) => /=; case: (E) => Be _ A; rewrite Be.
    have -> : (NdModel.numel (n :: b) == 0%N) = false.
      by apply/eqP=> /= /eqP; rewrite muln_eq0 => /orP [/eqP|/eqP]; [move: n0; case: (n)|].
    eexists; split; first by []. rewrite positionsP; last by move=> ix; rewrite -Be grd_norm.
    split=> H ix I.
    - rewrite /SpdModel.check_point S //=; move: (H); case Eg: (eigh _) => [ev w] _; apply/forallP => i.
      by have := H _ (inside_at I (ltn_ord i)); rewrite (A _ i) // /before_last /= Eg.
    - have [L I'] := inside_before I; have := H _ I'; rewrite /SpdModel.check_point S //=.
      rewrite (A _ (Ordinal L)) //; case: (eigh _) => ev w /forallP /(_ (Ordinal L)); exact.
  Qed.
  Lemma s_check_empty atol rtol n (x : mt) b : has_shape x b n n -> NdModel.numel (n :: b) = 0%N ->
    check_point_nd eigh atol rtol x = None.
  Proof.
    move=> X Z; rewrite /check_point_nd; have [ok [E O]] := s_allclose atol rtol X; rewrite E.
    have -> /= : ok.
      apply/O => ix I; apply/forallP => i; apply/forallP => j.
      by case: (@empty_inside _ (at_last i ix) Z); exact: inside_at.
    by case: X => [B [N P]]; rewrite /eigh_nd N P eqxx /= B -[_ == _]/(NdModel.numel (n :: b) == 0%N) Z.
  Qed.

  (** Origins *)
  Lemma numbers_nums l : numbers (map Num_ l) = Some l.
  Proof. by elim: l => //= a l ->. Qed.
  Lemma ones_nums l : l != [::] -> ones F (map Num_ l) = Some (Gt (rev l) (fun _ => 1)).
  Proof. by case: l => // a l _; rewrite /ones /= numbers_nums. Qed.
  Lemma s_origin b n p : gives (origin_nd F (map Num_ (rcons (rcons (rev b) n) p))) b (fun _ => SpdModel.origin F n).
  Proof.
    rewrite /origin_nd map_rcons size_rcons /= -(cats1 _ (Num_ p)) take_size_cat //.
    rewrite ones_nums; last by case: (rev b).
    rewrite rev_rcons revK /diag_embed /=; eexists; split; first by []. split=> // ix; apply/matrixP=> i j.
    rewrite !mxE rdM !one_ord /grd /= -val_eqE; case: eqP => //=.
  Qed.
  Lemma s_origin_wrong b n p : n <> p -> exists r, origin_nd F (map Num_ (rcons (rcons (rev b) n) p)) = Some r /\
    bsh r = b /\ nrow r = n /\ ncol r = n /\ ncol r <> p.
  Proof. by move=> H; have [r [E [[B [N P]] _]]] := s_origin b n p; exists r; rewrite P. Qed.
  Lemma s_origin_tuple s : origin_nd F [:: Tuple_ s] = None.
  Proof. by []. Qed.

  (** Batches that do not broadcast *)
  Lemma s_raises n : raises2 (@egrad2rgrad_nd F) n n /\ raises2 (expmap_nd eigh matrix_exp) n n /\
    raises2 (logmap_nd eigh log) n n /\
    forall m x y bx by_ keep, has_shape x bx n n -> has_shape y by_ n n -> bshape bx by_ = None ->
      dist_nd eigh log m x y keep = None.
  Proof.
    split; [|split; [|split]].
    - move=> x u bx bu X U H; rewrite /egrad2rgrad_nd /proju_nd.
      have [r [-> [[B _] _]]] := i_sym U; case: X => [Bx _]; by rewrite /mm3 mm_none // Bx B.
    - move=> x u bx bu X [Bu _] H; rewrite /expmap_nd; have [p [q [-> [[P _] _]]]] := s_sqrtm2 X.
      by rewrite /= /mm3 mm_none // P Bu.
    - move=> x u bx bu X [Bu _] H; rewrite /logmap_nd; have [p [q [-> [[P _] _]]]] := s_sqrtm2 X.
      by rewrite /= /mm3 mm_none // P Bu.
    - move=> [] x y bx by_ keep X Y H /=.
      + rewrite /affine_invariant_nd /sym_inv_sqrtm1_nd; have [r [-> [[B _] _]]] := s_funcm (@SpdModel.pow_mhalf F) X.
        by case: Y => [By _]; rewrite /mm3 mm_none // B By.
      + by case: X => [Bx _]; case: Y => [By _]; rewrite /stein_nd pt2_none // Bx By.
      + rewrite /log_euclidean_nd /sym_logm_nd; have [r [-> [[B _] _]]] := s_funcm log X.
        have [r' [-> [[B' _] _]]] := s_funcm log Y; by rewrite pt2_none // B B'.
  Qed.
End Inst.
