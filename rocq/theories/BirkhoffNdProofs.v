(** The methods of BirkhoffPolytope act on every matrix of a batch. *)
From mathcomp Require Import all_ssreflect all_algebra.
From Coq Require Import Lia.
From Verif Require NdModel StereoNdSpec NdProofs SpdNdInst.
From Verif Require Import BirkhoffModel MatNdModel MatNdShape MatNdSpec MatNdProofs StiefelNdModel BirkhoffNdModel BirkhoffNdSpec.
Import GRing.Theory Num.Theory.
Local Open Scope ring_scope.
Set Implicit Arguments. Unset Strict Implicit. Unset Printing Implicit Defensive.

Section Proofs.
  Variable F : realFieldType.
  Variable T : nat -> nat.
  Variable exp : F -> F.
  Notation gm := (gm T).

  Lemma g_sum_rows t J n p (f : index -> 'M[F]_(n, p)) : gm t J f -> gm (sum_rows t) J (fun ix => \col_i \sum_j f ix i j).
  Proof.
    move=> G; case: (G) => B N P C A; split=> //= ix; apply/matrixP=> i j.
    rewrite !mxE /sum_rows rdM N P !one_ord B; apply: eq_bigr => k _; by rewrite (gmE_n _ _ _ G).
  Qed.
  Lemma g_sum_cols t J n p (f : index -> 'M[F]_(n, p)) : gm t J f -> gm (sum_cols t) J (fun ix => \row_j \sum_i f ix i j).
  Proof.
    move=> G; case: (G) => B N P C A; split=> //= ix; apply/matrixP=> i j.
    rewrite !mxE /sum_cols rdM N P !one_ord B; apply: eq_bigr => k _; by rewrite (gmE_n _ _ _ G).
  Qed.
  Lemma g_allclose c atol rtol t J n p (f : index -> 'M[F]_(n, p)) : gm t J f ->
    allclose_c c atol rtol t <-> forall ix, StereoNdSpec.inside J ix -> forall i j, `|f ix i j - c| <= atol + rtol * `|c|.
  Proof.
    move=> G; case: (G) => B N P C A; rewrite /allclose_c B positionsP; last first.
      move=> ix; apply: eq_forallb => i; apply: eq_forallb => j; by rewrite -B rd_norm.
    rewrite N P; split=> H ix I.
    - move=> i j; move/forallP/(_ i)/forallP/(_ j): (H ix I); by rewrite (gmE _ _ _ G).
    - by apply/forallP => i; apply/forallP => j; rewrite (gmE _ _ _ G); apply: H.
  Qed.
  Lemma g_recip eps t J n p (f : index -> 'M[F]_(n, p)) : gm t J f -> gm (recip eps t) J (fun ix => map_mx (fun s => 1 / (s + eps)) (f ix)).
  Proof. exact: gm_pt1. Qed.

  (** ** Sinkhorn *)
  Section Sinkhorn.
    Variables (eps tol : F) (n : nat) (x : mt F) (J : seq nat) (f : index -> 'M[F]_n).
    Hypothesis X : gm x J f.
    Hypotheses (n0 : (0 < n)%N) (J0 : NdModel.numel J <> 0%N).
    Lemma g_scale_r c (s : index -> 'rV[F]_n) : gm c J s ->
      exists2 r, scale_r_nd eps x c = Some r & gm r J (fun ix => scale_r eps (f ix) (s ix)).
    Proof.
      move=> C; rewrite /scale_r_nd; have [y -> Y] := gm_mm X (gm_tr C); eexists; first by [].
      rewrite join_same in Y; exact: g_recip Y.
    Qed.
    Lemma g_settled cinv c (v s : index -> 'rV[F]_n) : gm cinv J v -> gm c J s ->
      exists2 ok, settled_nd tol cinv c = Some ok &
        (ok <-> forall ix, StereoNdSpec.inside J ix -> [forall j, `|v ix ord0 j * s ix ord0 j - 1| <= tol]).
    Proof.
      move=> V S; rewrite /settled_nd; have [p -> P] := gm_pt2 *%R V S; rewrite join_same in P.
      rewrite (gm_b P) (gm_n P) (gm_p P).
      have -> : (NdModel.numel [:: n, 1%N & J] == 0%N) = false.
        apply/eqP; rewrite -[NdModel.numel _]/(n * (1 * NdModel.numel J))%N mul1n => /eqP.
        by rewrite muln_eq0 => /orP [/eqP E|/eqP]; [move: n0; rewrite E|].
      eexists; first by []. rewrite positionsP; last first.
        move=> ix; apply: eq_forallb => i; apply: eq_forallb => j; by rewrite (gmE_n _ _ _ P) (gmE _ _ _ P).
      split=> H ix I.
      - apply/forallP => j; move/forallP/(_ ord0)/forallP/(_ j): (H ix I); by rewrite (gmE _ _ _ P) mxE.
      - apply/forallP => i; apply/forallP => j; rewrite (gmE _ _ _ P) mxE (ord1 i).
        by move/forallP: (H ix I); apply.
    Qed.
    Lemma stopsS m ok k : ~ ok 0%N -> stops m (fun j => ok j.+1) k -> stops m.+1 ok k.+1.
    Proof.
      move=> N [L [A B]]; split=> //; split; first by rewrite ltnS; exact: A.
      by move=> [|j] // H; apply: B.
    Qed.
    Lemma g_sinkhorn m : forall c r (s : index -> scales F n), gm c J (fun ix => (s ix).1) -> gm r J (fun ix => (s ix).2) ->
      exists c' r' k, sinkhorn_nd m eps tol x c r = Some (c', r') /\
        stops m (fun k => forall ix, StereoNdSpec.inside J ix -> settled tol (f ix) (iter k (rescale eps (f ix)) (s ix))) k /\
        gm c' J (fun ix => (iter k (rescale eps (f ix)) (s ix)).1) /\ gm r' J (fun ix => (iter k (rescale eps (f ix)) (s ix)).2).
    Proof.
      elim: m => [|m IH] c r s C R; first by exists c, r, 0%N.
      rewrite /=; have [ci -> Ci] := gm_mm (gm_tr R) X; rewrite join_same in Ci.
      have [ok -> O] := g_settled Ci C; case: ok O => O.
        exists c, r, 0%N; split=> //; split=> //; split=> //; split=> // _ ix I; exact: (proj1 O isT ix I).
      have C' := g_recip eps Ci; have [r1 -> R'] := g_scale_r C'.
      have [c' [r' [k [E [S [C'' R'']]]]]] := IH _ _ (fun ix => rescale eps (f ix) (s ix)) C' R'.
      exists c', r', k.+1; split=> //; split; last split.
      - apply: stopsS; first by move=> H; have : false by apply/O.
        case: S => L [A B]; split=> //; split=> [H ix I|j H]; first by rewrite iterSr; exact: A.
        by move=> K; apply: (B j H) => ix I; rewrite -iterSr; exact: K.
      - by apply: gm_ext C'' _ => ix; rewrite iterSr.
      - by apply: gm_ext R'' _ => ix; rewrite iterSr.
    Qed.
    Lemma g_projx m : exists r k, projx_nd m eps tol x = Some r /\ stops m (all_settled eps tol J f) k /\
      gm r J (fun ix => scaled eps (f ix) k).
    Proof.
      rewrite /projx_nd; have C := g_recip eps (g_sum_cols X); have [r -> R] := g_scale_r C.
      have [c' [r' [k [-> [S [C' R']]]]]] := @g_sinkhorn m _ _ (fun ix => start eps (f ix)) C R => /=.
      have [q -> Q] := gm_mm R' C'; rewrite join_same in Q; have [z -> Z] := gm_pt2 *%R X Q; rewrite join_same in Z.
      by exists z, k.
    Qed.
  End Sinkhorn.

  Lemma numel_pos J : NdModel.numel J <> 0%N -> forall c, (0 < List.nth c J 1)%N.
  Proof.
    elim: J => [|d J IH] H [|c] //=.
    - by rewrite lt0n; apply/eqP => E; apply: H; rewrite E.
    - by apply: IH => E; apply: H; rewrite -[LHS]/(d * NdModel.numel J)%N E muln0.
  Qed.

  Section Two.
    Variables (n : nat) (x u : mt F) (J K : seq nat) (f g : index -> 'M[F]_n).
    Hypotheses (X : gm x J f) (U : gm u K g).
    Let CX := gm_T X.
    Let CU := gm_T U.
    Lemma g_retr eps tol m : (0 < n)%N -> NdModel.numel (join J K) <> 0%N ->
      exists r k, retr_nd exp m eps tol x u = Some r /\
        stops m (all_settled eps tol (join J K) (fun ix => bumped exp (f ix) (g ix))) k /\
        gm r (join J K) (fun ix => floor (e12 F) (scaled eps (bumped exp (f ix) (g ix)) k)).
    Proof.
      move=> n0 J0; rewrite /retr_nd; have [k -> Kk] := gm_pt2 (fun a b => a / b) U X.
      have [y -> Y] := gm_pt2 (fun a b => a * exp b) X Kk.
      have W : join J (join K J) = join J K by have A' := CX; have B' := CU; clear -A' B'; jsolve.
      rewrite W in Y; have [r [i [-> [S R]]]] := g_projx eps tol Y n0 J0 m.
      exists (pt1 (fun t => Num.max t (e12 F)) r), i; split=> //; split=> //; exact: gm_pt1 R.
    Qed.
    Lemma g_inner v L (h : index -> 'M[F]_n) keep : gm v L h ->
      exists2 r, inner_nd x u (Some v) keep = Some r &
        gs T keep r (join (join J K) L) (fun ix => inner (f ix) (g ix) (h ix)).
    Proof.
      move=> V; have CV := gm_T V; rewrite /inner_nd; have [a -> A] := gm_pt2 *%R U V.
      have [b -> B] := gm_pt2 (fun a b => a / b) A X; eexists; first by [].
      rewrite (gm_p X).
      have W : join (join K L) J = join (join J K) L by have A' := CX; have B' := CU; clear -A' B' CV; jsolve.
      rewrite W in B; apply: gs_ext (gs_pt1 _ (gs_sum2 keep B)) _ => ix.
      rewrite /inner; congr (_ / _); apply: eq_bigr => i _; apply: eq_bigr => j _; by rewrite !mxE.
    Qed.
  End Two.

  (** ** The tangent projection *)
  Lemma g_expand t J K n p (f : index -> 'M[F]_(n, p)) : gm t J f -> compat T K -> gm (expand_to (join J K) t) (join J K) f.
  Proof.
    move=> G CK; case: (G) => B N P C A; split=> //=; first exact: compat_join.
    move=> ix; apply/matrixP=> i j; by rewrite !mxE /expand_to rdM N P !one_ord (gmE_l _ _ _ _ G).
  Qed.
  Lemma g_expand_r t J K n p (f : index -> 'M[F]_(n, p)) : gm t J f -> compat T K -> gm (expand_to (join K J) t) (join K J) f.
  Proof.
    move=> G CK; case: (G) => B N P C A; split=> //=; first exact: compat_join.
    move=> ix; apply/matrixP=> i j; by rewrite !mxE /expand_to rdM N P !one_ord (gmE_r _ _ _ G).
  Qed.
  Lemma g_columns_r t J n p q (f : index -> 'M[F]_(n, p + q)) : gm t J f -> gm (columns p q t) J (fun ix => rsubmx (f ix)).
  Proof.
    move=> G; case: (G) => B N P C A; split=> //= ix; apply/matrixP=> i j.
    rewrite !mxE /columns rdM N !one_ord B.
    by rewrite -[(p + j)%N]/(nat_of_ord (rshift p j)) (gmE_n _ _ _ G).
  Qed.
  Lemma g_columns_l t J n p q (f : index -> 'M[F]_(n, p + q)) : gm t J f -> gm (columns 0 p t) J (fun ix => lsubmx (f ix)).
  Proof.
    move=> G; case: (G) => B N P C A; split=> //= ix; apply/matrixP=> i j.
    rewrite !mxE /columns rdM N !one_ord B add0n.
    by rewrite -[nat_of_ord j]/(nat_of_ord (lshift q j)) (gmE_n _ _ _ G).
  Qed.
  Lemma g_rows_d t J n m p (f : index -> 'M[F]_(n + m, p)) to : gm t J f -> to = (n + m)%N -> gm (rows n to t) J (fun ix => dsubmx (f ix)).
  Proof.
    move=> G ->; case: (G) => B N P C A; split=> //=; first by rewrite N minnn addKn.
    move=> ix; apply/matrixP=> i j.
    rewrite !mxE /rows rdM N P minnn addKn !one_ord B.
    by rewrite -[(n + i)%N]/(nat_of_ord (rshift n i)) (gmE_n _ _ _ G).
  Qed.
  Lemma g_rows_u t J n m p (f : index -> 'M[F]_(n + m, p)) : gm t J f -> gm (rows 0 n t) J (fun ix => usubmx (f ix)).
  Proof.
    have E : (minn n (n + m) - 0 = n)%N by rewrite subn0; apply/minn_idPl; exact: leq_addr.
    move=> G; case: (G) => B N P C A; split=> //=; first by rewrite N.
    move=> ix; apply/matrixP=> i j.
    rewrite !mxE /rows rdM N P E !one_ord B add0n.
    by rewrite -[nat_of_ord i]/(nat_of_ord (lshift m i)) (gmE_n _ _ _ G).
  Qed.
  Lemma g_eye x J n (f : index -> 'M[F]_n) : gm x J f -> exists2 r, eye_as x = Some r & gm r J (fun _ => 1%:M : 'M[F]_n).
  Proof.
    case=> B N P C A; rewrite /eye_as N P eqxx; eexists; first by []. split=> //= ix; apply/matrixP=> i j.
    by rewrite !mxE rdM !one_ord.
  Qed.
  Lemma g_solve y z J K n p (f : index -> 'M[F]_n) (g : index -> 'M[F]_(n, p)) : gm y J f -> gm z K g ->
    (forall ix, StereoNdSpec.inside J ix -> f ix \in unitmx) ->
    exists2 r, solve y z = Some r & gm r (join J K) (fun ix => invmx (f ix) *m g ix).
  Proof.
    move=> G H U; case: (G) => B N P C A; case: (H) => B' N' P' C' A'.
    rewrite /solve N P N' !eqxx /=.
    have -> : all (fun ix => to_mx n n y ix \in unitmx) (positions (bsh y)).
      by rewrite B positionsP => [ix I|ix]; [rewrite A U|rewrite -B to_norm].
    rewrite B B' (bshape_join T) // P'; eexists; first by [].
    split=> //=; first exact: compat_join.
    move=> ix; apply/matrixP=> i j; rewrite mxE /rd /= !one_ord entryE.
    have -> : to_mx n n y (norm_index (join J K) ix) = f ix.
      by rewrite -A; apply/matrixP=> a b; rewrite !mxE -B rd_l.
    have -> : to_mx n p z (norm_index (join J K) ix) = g ix.
      by rewrite -A'; apply/matrixP=> a b; rewrite !mxE -B' (rd_r (T := T)) ?B'.
    by [].
  Qed.
  Lemma g_solve_none y z J n (f : index -> 'M[F]_n) ix : gm y J f -> StereoNdSpec.inside J ix -> f ix \notin unitmx -> solve y z = None.
  Proof.
    move=> G I U; case: (G) => B N P C A; rewrite /solve N P eqxx /=; case: ifP => // _.
    case: ifP => // H; move: (H); rewrite B positionsP => [K|k]; last by rewrite -B to_norm.
    by have := K ix I; rewrite A (negPf U).
  Qed.

  Section Flat.
    Variables (m : nat) (x u : mt F) (J : seq nat) (f g : index -> 'M[F]_m.+1).
    Hypotheses (X : gm x J f) (U : gm u J g).
    (** 226-245 *)
    Lemma g_pt2J h y z n p (a b : index -> 'M[F]_(n, p)) : gm y J a -> gm z J b ->
      exists2 r, pt2 h y z = Some r & gm r J (fun ix => \matrix_(i, j) h (a ix i j) (b ix i j)).
    Proof. by move=> G H; have [r E R] := gm_pt2 h G H; exists r => //; rewrite join_same in R. Qed.
    Lemma g_mmJ y z n p q (a : index -> 'M[F]_(n, p)) (b : index -> 'M[F]_(p, q)) : gm y J a -> gm z J b ->
      exists2 r, mm y z = Some r & gm r J (fun ix => a ix *m b ix).
    Proof. by move=> G H; have [r E R] := gm_mm G H; exists r => //; rewrite join_same in R. Qed.
    Lemma g_outer y z n p (a : index -> 'cV[F]_n) (b : index -> 'rV[F]_p) : gm y J a -> gm z J b ->
      exists2 r, pt2 +%R y z = Some r & gm r J (fun ix => \matrix_(i, j) (a ix i ord0 + b ix ord0 j)).
    Proof.
      move=> G H; case: (G) => B N P C A; case: (H) => B' N' P' C' A'.
      rewrite /pt2 B B' (bshape_join T) // N N' P P'.
      have D1 k : NdModel.bdim k 1 = Some k by rewrite /NdModel.bdim; case: k => [|[|k]].
      have D2 k : NdModel.bdim 1 k = Some k by rewrite /NdModel.bdim; case: k => [|[|k]].
      rewrite D1 D2 join_same; eexists; first by []. split=> //= ix; apply/matrixP=> i j; rewrite !mxE rdM !one_ord.
      have -> : rd y (norm_index J ix) i j = rd y (norm_index J ix) i (ord0 : 'I_1) by rewrite /rd P.
      have -> : rd z (norm_index J ix) i j = rd z (norm_index J ix) (ord0 : 'I_1) j by rewrite /rd N'.
      by rewrite (gmE_n _ _ _ G) (gmE_n _ _ _ H).
    Qed.
    Lemma g_tangent : (forall ix, StereoNdSpec.inside J ix -> lhs (f ix) \in unitmx) ->
      exists2 r, tangent_flat x u = Some r &
        gm r J (fun ix => let mu := had (f ix) (g ix) in combine (f ix) mu (invmx (lhs (f ix)) *m rhs (f ix) mu)).
    Proof.
      move=> H; rewrite /tangent_flat; have [I -> GI] := g_eye X; have [mu -> Mu] := g_pt2J *%R X U.
      have [A -> GA] := gm_block GI X (gm_tr X) GI.
      have GB := @g_columns_r _ J _ 1 (m + m.+1) _ GA; have GC := @g_columns_l _ J _ 1 (m + m.+1) _ GA.
      rewrite (gm_p GA) -[(m.+1 + m.+1)%N]/(1 + (m + m.+1))%N addKn (minn_idPl _) //.
      have [b -> Gb] := gm_cat_rows (g_sum_rows Mu) (gm_tr (g_sum_cols Mu)).
      have [d -> Gd] := g_pt2J (fun a b => a - b) Gb GC.
      have [rh -> Gr] := g_mmJ (gm_tr GB) Gd; have [lh -> Gl] := g_mmJ (gm_tr GB) GB.
      have [ze -> Gz] := g_solve Gl Gr H; rewrite join_same in Gz.
      have G1 : gm (Mt (bsh x) 1 1 (fun _ _ _ => 1)) J (fun _ => 1%:M : 'M[F]_1).
        by split=> //; [exact: gm_b X|exact: gm_T X|move=> ix; apply/matrixP=> i j; rewrite !mxE rdM !ord1].
      rewrite (gm_n X) subn1 /=.
      have [al -> Ga] := gm_cat_rows G1 (g_rows_u Gz).
      have Gbe := g_rows_d Gz (erefl _).
      have -> : (2 * m.+1 - 1 = m + m.+1)%N by rewrite mul2n -addnn subn1.
      have [s -> Gs] := g_outer Ga (gm_tr Gbe); have [sx -> Gsx] := g_pt2J *%R Gs X.
      have [r -> Grr] := g_pt2J (fun a b => a - b) Mu Gsx; exists r => //; apply: gm_ext Grr _ => ix /=.
      rewrite /combine; set z := invmx _ *m _; set z' := invmx _ *m _.
      have -> : z = z'.
        rewrite /z /z' /lhs /rhs /bmat /amat /acol /bvec; congr (_ *m (_ *m _)).
        apply/matrixP=> i j; rewrite !mxE; congr (_ - _); case: splitP => k _; rewrite !mxE.
        - by apply: eq_bigr => l _; rewrite !mxE.
        - by apply: eq_bigr => l _; rewrite !mxE.
      by apply/matrixP=> i j; rewrite !mxE.
    Qed.
    Lemma g_tangent_none ix : StereoNdSpec.inside J ix -> lhs (f ix) \notin unitmx -> tangent_flat x u = None.
    Proof.
      move=> In H; rewrite /tangent_flat; have [I -> GI] := g_eye X; have [mu -> Mu] := g_pt2J *%R X U.
      have [A -> GA] := gm_block GI X (gm_tr X) GI.
      have GB := @g_columns_r _ J _ 1 (m + m.+1) _ GA; have GC := @g_columns_l _ J _ 1 (m + m.+1) _ GA.
      rewrite (gm_p GA) -[(m.+1 + m.+1)%N]/(1 + (m + m.+1))%N addKn (minn_idPl _) //.
      have [b -> Gb] := gm_cat_rows (g_sum_rows Mu) (gm_tr (g_sum_cols Mu)).
      have [d -> Gd] := g_pt2J (fun a b => a - b) Gb GC.
      have [rh -> Gr] := g_mmJ (gm_tr GB) Gd; have [lh -> Gl] := g_mmJ (gm_tr GB) GB.
      by rewrite (g_solve_none _ Gl In H).
    Qed.
  End Flat.
End Proofs.
