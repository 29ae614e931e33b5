(** The methods of SymmetricPositiveDefinite act on every matrix of a batch. *)
From mathcomp Require Import all_ssreflect all_algebra.
From Verif Require NdModel StereoNdSpec NdProofs SpdModel StiefelModel.
From Verif Require Import MatNdModel MatNdShape MatNdSpec MatNdProofs SpdNdModel.
Import GRing.Theory Num.Theory.
Local Open Scope ring_scope.
Set Implicit Arguments. Unset Strict Implicit. Unset Printing Implicit Defensive.

Section Proofs.
  Variable F : rcfType.
  Variable T : nat -> nat.
  Variable n : nat.
  Variable eigh : forall n, 'M[F]_n -> 'rV[F]_n * 'M[F]_n.
  Variable matrix_exp : forall n, 'M[F]_n -> 'M[F]_n.
  Variables exp log : F -> F.
  Notation gm := (gm T).

  (** a vector for each position *)
  Record gv (e : gt F) (J : seq nat) (f : index -> 'rV[F]_n) : Prop := {
    gv_b : gsh e = n :: J; gv_T : compat T J;
    gv_at : forall (ix : index) (j : 'I_n), ix 0%N = j -> grd e ix = f (before_last ix) ord0 j }.
  Lemma last_ord J (ix : index) (j : 'I_n) : ix 0%N = j -> norm_index (n :: J) ix 0%N = j.
  Proof.
    rewrite /NdModel.norm_index /=; case: PeanoNat.Nat.eqb_spec => // P1 _.
    by move: (ltn_ord j); rewrite {2}P1; case: (nat_of_ord j).
  Qed.
  Lemma to_mx_ext m p (t : mt F) a b : norm_index (bsh t) a = norm_index (bsh t) b -> to_mx m p t a = to_mx m p t b.
  Proof. by move=> E; apply/matrixP=> i j; rewrite !mxE /rd E. Qed.

  Lemma g_eigh t J (f : index -> 'M[F]_n) : gm t J f ->
    exists e v, eigh_nd eigh t = Some (e, v) /\ gv e J (fun ix => (eigh (f ix)).1) /\ gm v J (fun ix => (eigh (f ix)).2).
  Proof.
    move=> G; case: (G) => B N P C A; rewrite /eigh_nd N P eqxx; do 2 eexists; split; first by [].
    split; split=> //=; first by rewrite B.
    - move=> ix j I; rewrite /grd /= B (last_ord _ I).
      rewrite -[0%N]/(nat_of_ord (ord0 : 'I_1)) entryE.
      by rewrite -A; congr ((eigh _).1 ord0 j); apply: to_mx_ext; rewrite B norm_under1.
    - by move=> ix; apply/matrixP=> i j; rewrite !mxE rdM !one_ord entryE to_norm A.
  Qed.
  Lemma gv_pt1 h e J f : gv e J f -> gv (gpt1 h e) J (fun ix => map_mx h (f ix)).
  Proof.
    case=> B C A; split=> // ix j I; rewrite mxE -(A ix) // {1}/grd /=.
    by rewrite grd_norm.
  Qed.
  Lemma g_diag e J f : gv e J f -> exists2 r, diag_embed e = Some r & gm r J (fun ix => diag_mx (f ix)).
  Proof.
    case=> B C A; rewrite /diag_embed B; eexists; first by []. split=> //= ix; apply/matrixP=> i j.
    rewrite !mxE rdM !one_ord -val_eqE; case: eqP => [E|_]; last by rewrite mulr0n.
    rewrite mulr1n (val_inj E).
    have -> : f ix ord0 j = grd e (at_last j ix) by rewrite (A _ j).
    rewrite /grd B; congr (gat e _); apply: FunctionalExtensionality.functional_extensionality => [[|a]] //.
    rewrite /NdModel.norm_index /=; by case: PeanoNat.Nat.eqb_spec.
  Qed.
  Lemma g_recompose v e J (f : index -> 'M[F]_n) g : gm v J f -> gv e J g ->
    exists2 r, recompose v e = Some r & gm r J (fun ix => f ix *m diag_mx (g ix) *m (f ix)^T).
  Proof.
    move=> V E; rewrite /recompose; have [d -> D] := g_diag E; have [a -> A] := gm_mm V D.
    have [r Er R] := gm_mm A (gm_tr V); exists r => //; by rewrite !join_same in R.
  Qed.
  Lemma g_funcm h t J (f : index -> 'M[F]_n) : gm t J f ->
    exists2 r, sym_funcm_nd eigh h t = Some r & gm r J (fun ix => SpdModel.sym_funcm eigh h (f ix)).
  Proof.
    move=> G; rewrite /sym_funcm_nd; have [e [v [-> [E V]]]] := g_eigh G => /=.
    have [r Er R] := g_recompose V (gv_pt1 h E); exists r => //; apply: gm_ext R _ => ix.
    by rewrite /SpdModel.sym_funcm; case: (eigh _).
  Qed.
  Lemma g_sqrtm2 t J (f : index -> 'M[F]_n) : gm t J f ->
    exists a b, sym_inv_sqrtm2_nd eigh t = Some (a, b) /\
      gm a J (fun ix => (SpdModel.sym_inv_sqrtm2 eigh (f ix)).1) /\ gm b J (fun ix => (SpdModel.sym_inv_sqrtm2 eigh (f ix)).2).
  Proof.
    move=> G; rewrite /sym_inv_sqrtm2_nd; have [e [v [-> [E V]]]] := g_eigh G => /=.
    have [a -> A] := g_recompose V (gv_pt1 GRing.inv (gv_pt1 Num.sqrt E)).
    have [b -> B] := g_recompose V (gv_pt1 Num.sqrt E).
    do 2 eexists; split; first by [].
    by split; [apply: gm_ext A _ => ix|apply: gm_ext B _ => ix]; rewrite /SpdModel.sym_inv_sqrtm2; case: (eigh _).
  Qed.
  Lemma g_invm t J (f : index -> 'M[F]_n) : gm t J f ->
    (forall ix, StereoNdSpec.inside J ix -> f ix \in unitmx) ->
    exists2 r, sym_invm_nd t = Some r & gm r J (fun ix => invmx (f ix)).
  Proof.
    move=> G U; case: (G) => B N P C A; rewrite /sym_invm_nd N P eqxx /=.
    have -> : all (fun ix => to_mx n n t ix \in unitmx) (positions (bsh t)).
      by rewrite B positionsP => [ix I|ix]; [rewrite A U|rewrite -B to_norm].
    exact: (gm_each (fun n => @invmx F n) G).
  Qed.
  Lemma g_mm3 a b c J K L (f g h : index -> 'M[F]_n) : gm a J f -> gm b K g -> gm c L h ->
    exists2 r, mm3 a b c = Some r & gm r (join (join J K) L) (fun ix => f ix *m g ix *m h ix).
  Proof. by move=> A B C; rewrite /mm3; have [x -> X] := gm_mm A B; exact: gm_mm X C. Qed.
  Lemma g_norm2 keep z J (f : index -> 'M[F]_n) : gm z J f -> gs T keep (norm2 keep z) J (fun ix => SpdModel.norm (f ix)).
  Proof.
    move=> G; apply: gs_ext (gs_pt1 Num.sqrt (gs_sum2 keep (gm_pt1 (fun v => v * v) G))) _ => ix.
    rewrite /SpdModel.norm /StiefelModel.frob; congr Num.sqrt.
    by apply: eq_bigr => i _; apply: eq_bigr => j _; rewrite mxE.
  Qed.
  Lemma gs_unsq (g : gt F) J f : gs T false g J f -> forall keep : bool, gs T keep (if keep then unsqueeze2 g else g) J f.
  Proof.
    move=> G [] //; case: G => B C A; split=> //=; first by rewrite B.
    move=> ix; rewrite {1}/grd /= /under -A /grd B; congr (gat g _).
    exact: norm_under.
  Qed.
  Lemma g_det t J (f : index -> 'M[F]_n) : gm t J f ->
    exists2 r, det_nd t = Some r & gs T false r J (fun ix => \det (f ix)).
  Proof.
    move=> G; case: (G) => B N P C A; rewrite /det_nd N P eqxx; eexists; first by []. split=> //= ix.
    by rewrite /grd /= to_norm A.
  Qed.
  Lemma g_trace t J (f : index -> 'M[F]_n) : gm t J f -> gs T false (trace_nd false t) J (fun ix => \tr (f ix)).
  Proof.
    move=> G; case: (G) => B N P C A; rewrite /trace_nd N P minnn; split=> //= ix.
    rewrite /grd /=; apply: eq_bigr => k _; rewrite -(gmE _ _ _ G) /rd.
    by rewrite NdProofs.norm_idem.
  Qed.

  (** The methods *)
  Section Two.
    Variables (x y : mt F) (J K : seq nat) (f g : index -> 'M[F]_n).
    Hypotheses (X : gm x J f) (Y : gm y K g).
    Let CX := gm_T X.
    Let CY := gm_T Y.

    Lemma g_aim keep : exists2 r, affine_invariant_nd eigh log x y keep = Some r &
      gs T keep r (join J K) (fun ix => SpdModel.affine_invariant eigh log (f ix) (g ix)).
    Proof.
      rewrite /affine_invariant_nd /sym_inv_sqrtm1_nd /sym_logm_nd; have [s -> S] := g_funcm (@SpdModel.pow_mhalf F) X.
      have [m -> M] := g_mm3 S Y S; have [l -> L] := g_funcm log M; eexists; first by [].
      have Q : join (join J K) J = join J K by have A := CX; have B := CY; clear -A B; jsolve.
      rewrite Q in L; exact: g_norm2 L.
    Qed.
    Lemma g_stein keep : exists2 r, stein_nd log x y keep = Some r &
      gs T keep r (join J K) (fun ix => SpdModel.stein log (f ix) (g ix)).
    Proof.
      rewrite /stein_nd; have [s -> S] := gm_pt2 +%R X Y.
      rewrite /log_det_nd; have [a -> A] := g_det (gm_pt1 (fun v => v * 2%:R^-1) S).
      have [p -> P] := gm_mm X Y; have [b -> B] := g_det P.
      have [r -> R] := gs_pt2 (fun a b => a - b) (gs_pt1 log A) (gs_pt1 ( *%R 2%:R^-1) (gs_pt1 log B)).
      eexists; first by []. rewrite join_same in R; apply: gs_ext (gs_unsq R keep) _ => ix.
      rewrite /SpdModel.stein /SpdModel.log_det; congr (log (\det _) - _).
      by apply/matrixP=> i j; rewrite !mxE mulrC.
    Qed.
    Lemma g_lem keep : exists2 r, log_euclidean_nd eigh log x y keep = Some r &
      gs T keep r (join J K) (fun ix => SpdModel.log_euclidean eigh log (f ix) (g ix)).
    Proof.
      rewrite /log_euclidean_nd /sym_logm_nd; have [a -> A] := g_funcm log X; have [b -> B] := g_funcm log Y.
      have [d -> D] := gm_pt2 (fun a b => a - b) A B; eexists; first by [].
      apply: gs_ext (g_norm2 keep D) _ => ix; rewrite /SpdModel.log_euclidean; congr (SpdModel.norm _).
      by apply/matrixP=> i j; rewrite !mxE.
    Qed.
    Lemma g_dist m keep : exists2 r, dist_nd eigh log m x y keep = Some r &
      gs T keep r (join J K) (fun ix => SpdModel.dist eigh log m (f ix) (g ix)).
    Proof. case: m; [exact: g_aim|exact: g_stein|exact: g_lem]. Qed.
    Lemma g_rgrad : exists2 r, egrad2rgrad_nd x y = Some r & gm r (join J K) (fun ix => SpdModel.egrad2rgrad (f ix) (g ix)).
    Proof.
      rewrite /egrad2rgrad_nd /proju_nd; have [s -> S] := gm_sym Y; have [r E R] := g_mm3 X S (gm_tr X); exists r => //.
      have Q : join (join J K) J = join J K by have A := CX; have B := CY; clear -A B; jsolve.
      by rewrite Q in R.
    Qed.
    Lemma g_retr : (forall ix, StereoNdSpec.inside J ix -> f ix \in unitmx) -> exists2 r, retr_nd x y = Some r & gm r (join J K) (fun ix => SpdModel.retr (f ix) (g ix)).
    Proof.
      move=> U; rewrite /retr_nd; have [i -> I] := g_invm X U; have [a -> A] := gm_pt2 +%R X Y.
      have [q -> Q] := g_mm3 (gm_pt1 ( *%R 2%:R^-1) Y) I Y; have [s -> S] := gm_pt2 +%R A Q.
      have [r E R] := gm_sym S; exists r => //.
      have W : join (join J K) (join (join K J) K) = join J K by have A' := CX; have B' := CY; clear -A' B'; jsolve.
      rewrite W in R; apply: gm_ext R _ => ix; rewrite /SpdModel.retr; congr (StiefelModel.sym _).
      apply/matrixP=> a' b'; rewrite !mxE; congr (_ + _); apply: eq_bigr => k _; rewrite !mxE; congr (_ * _).
      by apply: eq_bigr => l _; rewrite !mxE.
    Qed.
    Lemma g_exp : exists2 r, expmap_nd eigh matrix_exp x y = Some r &
      gm r (join J K) (fun ix => SpdModel.expmap eigh matrix_exp (f ix) (g ix)).
    Proof.
      rewrite /expmap_nd; have [a [b [-> [A B]]]] := g_sqrtm2 X => /=.
      have [m -> M] := g_mm3 A Y A; rewrite /sym_expm_nd; have [e -> E] := gm_each matrix_exp M.
      have [r Er R] := g_mm3 B E B; exists r => //.
      have W : join (join J (join (join J K) J)) J = join J K by have A' := CX; have B' := CY; clear -A' B'; jsolve.
      rewrite W in R; apply: gm_ext R _ => ix; rewrite /SpdModel.expmap; by case: (SpdModel.sym_inv_sqrtm2 _ _).
    Qed.
    Lemma g_log : exists2 r, logmap_nd eigh log x y = Some r &
      gm r (join J K) (fun ix => SpdModel.logmap eigh log (f ix) (g ix)).
    Proof.
      rewrite /logmap_nd /sym_logm_nd; have [a [b [-> [A B]]]] := g_sqrtm2 X => /=.
      have [m -> M] := g_mm3 A Y A; have [e -> E] := g_funcm log M.
      have [r Er R] := g_mm3 B E B; exists r => //.
      have W : join (join J (join (join J K) J)) J = join J K by have A' := CX; have B' := CY; clear -A' B'; jsolve.
      rewrite W in R; apply: gm_ext R _ => ix; rewrite /SpdModel.logmap; by case: (SpdModel.sym_inv_sqrtm2 _ _).
    Qed.
    Section Three.
      Variables (v : mt F) (L : seq nat) (h : index -> 'M[F]_n).
      Hypothesis V : gm v L h.
      Let CV := gm_T V.
      Lemma g_inner keep : (forall ix, StereoNdSpec.inside J ix -> f ix \in unitmx) -> exists2 r, inner_nd x y (Some v) keep = Some r &
        gs T keep r (join (join J K) L) (fun ix => SpdModel.inner (f ix) (g ix) (h ix)).
      Proof.
        move=> U; rewrite /inner_nd; have [i -> I] := g_invm X U; have [a -> A] := g_mm3 I Y I.
        have [b -> B] := gm_mm A V; eexists; first by [].
        have W : join (join (join J K) J) L = join (join J K) L by have A' := CX; have B' := CY; have C' := CV; clear -A' B' C'; jsolve.
        rewrite W in B; exact: gs_unsq (g_trace B) keep.
      Qed.
      Lemma g_transp : exists2 r, transp_nd eigh matrix_exp log x y v = Some r &
        gm r (join (join J K) L) (fun ix => SpdModel.transp eigh matrix_exp log (f ix) (g ix) (h ix)).
      Proof.
        rewrite /transp_nd /sym_logm_nd; have [a [b [-> [A B]]]] := g_sqrtm2 X => /=.
        have [m -> M] := g_mm3 A Y A; have [l -> Ll] := g_funcm log M.
        rewrite /sym_expm_nd; have [e -> E] := gm_each matrix_exp (gm_pt1 ( *%R 2%:R^-1) Ll).
        have [w -> W] := g_mm3 A V A; have [s -> S] := gm_sym W.
        have [c1 -> C1] := gm_mm B E; have [c2 -> C2] := gm_mm C1 S; have [c3 -> C3] := gm_mm C2 E.
        have [r Er R] := gm_mm C3 B; exists r => //.
        apply: gm_ext (gm_cast R _) _.
          have A' := CX; have B' := CY; have C' := CV; clear -A' B' C'; jsolve.
        move=> ix; rewrite /SpdModel.transp; case: (SpdModel.sym_inv_sqrtm2 _ _) => p q /=.
        rewrite /SpdModel.sym_expm /SpdModel.sym_logm.
        have -> // : forall m : 'M[F]_n, map_mx ( *%R 2%:R^-1) m = 2%:R^-1 *: m by move=> m0; apply/matrixP=> i j; rewrite !mxE.
      Qed.
    End Three.
  End Two.
  Lemma g_projx x J (f : index -> 'M[F]_n) : gm x J f ->
    exists2 r, projx_nd eigh x = Some r & gm r J (fun ix => SpdModel.projx eigh (f ix)).
  Proof. by move=> X; rewrite /projx_nd; have [s -> S] := gm_sym X; exact: g_funcm S. Qed.
  Lemma g_random x J (f : index -> 'M[F]_n) : gm x J f ->
    exists2 r, random_nd eigh exp x = Some r & gm r J (fun ix => SpdModel.random eigh exp (f ix)).
  Proof.
    move=> X; rewrite /random_nd; have [s -> S] := gm_sym (gm_pt1 ( *%R 2%:R^-1) X).
    have [r E R] := g_funcm exp S; exists r => //; apply: gm_ext R _ => ix; rewrite /SpdModel.random.
    by congr (SpdModel.sym_funcm _ _ (StiefelModel.sym _)); apply/matrixP=> i j; rewrite !mxE.
  Qed.
End Proofs.
