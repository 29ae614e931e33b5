(** How each operation of MatNdModel acts on the matrices of a batch. *)
From mathcomp Require Import all_ssreflect all_algebra.
From Verif Require NdModel StereoNdSpec NdProofs.
From Verif Require Import StiefelModel MatNdModel MatNdShape MatNdSpec.
Import GRing.Theory Num.Theory.
Local Open Scope ring_scope.
Set Implicit Arguments. Unset Strict Implicit. Unset Printing Implicit Defensive.

Section Proofs.
  Variable F : fieldType.
  Variable T : nat -> nat.

  Record gm (z : mt F) (J : seq nat) n p (f : index -> 'M[F]_(n, p)) : Prop := {
    gm_b : bsh z = J; gm_n : nrow z = n; gm_p : ncol z = p; gm_T : compat T J;
    gm_at : forall ix, to_mx n p z ix = f ix }.

  Lemma one_ord n (i : 'I_n) : one_or n i = i.
  Proof. rewrite /one_or; case: eqP => // E; move: (ltn_ord i); rewrite {2}E; by case: (nat_of_ord i). Qed.
  Lemma one_same n k (i : nat) : (k = 1)%N \/ k = n -> one_or k (one_or n i) = one_or k i.
  Proof. rewrite /one_or; case=> ->; case: eqP => //. Qed.
  Lemma one_idem n i : one_or n (one_or n i) = one_or n i.
  Proof. by rewrite /one_or; case: eqP. Qed.

  Lemma rd_one (t : mt F) ix i j : rd t ix (one_or (nrow t) i) j = rd t ix i j.
  Proof. by rewrite /rd one_idem. Qed.
  Lemma rd_onec (t : mt F) ix i j : rd t ix i (one_or (ncol t) j) = rd t ix i j.
  Proof. by rewrite /rd one_idem. Qed.
  Lemma rd_norm (t : mt F) ix i j : rd t (norm_index (bsh t) ix) i j = rd t ix i j.
  Proof. by rewrite /rd NdProofs.norm_idem. Qed.
  Lemma rd_l (t : mt F) K ix i j : rd t (norm_index (join (bsh t) K) ix) i j = rd t ix i j.
  Proof. by rewrite /rd norm_l. Qed.
  Lemma rd_r (t : mt F) K ix i j : compat T (bsh t) -> compat T K -> rd t (norm_index (join K (bsh t)) ix) i j = rd t ix i j.
  Proof. by move=> A B; rewrite /rd (norm_r T). Qed.
  Lemma to_norm n p (t : mt F) ix : to_mx n p t (norm_index (bsh t) ix) = to_mx n p t ix.
  Proof. by apply/matrixP=> i j; rewrite !mxE rd_norm. Qed.
  Lemma entryE n p (M : 'M[F]_(n, p)) (i : 'I_n) (j : 'I_p) : entry M i j = M i j.
  Proof. by rewrite /entry !valK. Qed.

  Lemma gmE z J n p f (i : 'I_n) (j : 'I_p) ix : gm z J f -> rd z ix i j = f ix i j.
  Proof. by move=> G; rewrite -(gm_at G) mxE. Qed.
  Lemma rdM b r c e ix i j : rd (Mt b r c e : mt F) ix i j = e (norm_index b ix) (one_or r i) (one_or c j).
  Proof. by []. Qed.
  Lemma gmE_l z J K n p f (i : 'I_n) (j : 'I_p) ix : gm z J f -> rd z (norm_index (join J K) ix) i j = f ix i j.
  Proof. by move=> G; rewrite -{1}(gm_b G) rd_l (gmE _ _ _ G). Qed.
  Lemma gmE_r z J K n p f (i : 'I_n) (j : 'I_p) ix : gm z J f -> compat T K -> rd z (norm_index (join K J) ix) i j = f ix i j.
  Proof. by move=> G C; rewrite -{1}(gm_b G) rd_r ?(gm_b G) ?(gmE _ _ _ G) //; apply: gm_T G. Qed.
  Lemma gmE_n z J n p f (i : 'I_n) (j : 'I_p) ix : gm z J f -> rd z (norm_index J ix) i j = f ix i j.
  Proof. by move=> G; rewrite -{1}(gm_b G) rd_norm (gmE _ _ _ G). Qed.
  Lemma gm_ext z J n p f g : gm z J f -> (forall ix, f ix = g ix :> 'M[F]_(n, p)) -> gm z J g.
  Proof. by case=> ? ? ? ? A E; split=> // ix; rewrite -E. Qed.
  Lemma gm_of t b n p : has_shape t b n p -> compat T b -> gm t b (to_mx n p t).
  Proof. by case=> [? [? ?]] C; split. Qed.
  Lemma gm_cast z J K n p (f : index -> 'M[F]_(n, p)) : gm z J f -> J = K -> gm z K f.
  Proof. by move=> G <-. Qed.
  Lemma gives_gm o z J b n p (f : index -> 'M[F]_(n, p)) : o = Some z -> gm z J f -> J = b -> gives o b f.
  Proof. by move=> E [? ? ? _ ?] <-; exists z. Qed.

  Lemma gm_pt1 h z J n p f : gm z J f -> gm (pt1 h z) J (fun ix => map_mx h (f ix) : 'M[F]_(n, p)).
  Proof.
    move=> G; case: (G) => B N P C A; split=> //.
    move=> ix; apply/matrixP=> i j; rewrite !mxE {1}/rd /= N P !one_ord rd_norm.
    by rewrite (gmE _ _ _ G).
  Qed.
  Lemma gm_pt2 h y z J K n p (f g : index -> 'M[F]_(n, p)) : gm y J f -> gm z K g ->
    exists2 r, pt2 h y z = Some r & gm r (join J K) (fun ix => \matrix_(i, j) h (f ix i j) (g ix i j)).
  Proof.
    move=> G H; case: (G) => B N P C A; case: (H) => B' N' P' C' A'.
    rewrite /pt2 B B' (bshape_join T) // N N' P P' !NdProofs.bdim_same; eexists; first by [].
    split=> //=; first exact: compat_join.
    move=> ix; apply/matrixP=> i j; rewrite !mxE rdM !one_ord.
    by rewrite (gmE_l _ _ _ _ G) (gmE_r _ _ _ H).
  Qed.
  Lemma gm_tr z J n p (f : index -> 'M[F]_(n, p)) : gm z J f -> gm (tr z) J (fun ix => (f ix)^T).
  Proof.
    move=> G; case: (G) => B N P C A; split=> //.
    move=> ix; apply/matrixP=> i j; rewrite !mxE {1}/rd /= N P !one_ord rd_norm.
    by rewrite (gmE _ _ _ G).
  Qed.
  Lemma gm_mm y z J K n p q (f : index -> 'M[F]_(n, p)) (g : index -> 'M[F]_(p, q)) : gm y J f -> gm z K g ->
    exists2 r, mm y z = Some r & gm r (join J K) (fun ix => f ix *m g ix).
  Proof.
    move=> G H; case: (G) => B N P C A; case: (H) => B' N' P' C' A'.
    rewrite /mm N P N' P' eqxx B B' (bshape_join T) //; eexists; first by [].
    split=> //=; first exact: compat_join.
    move=> ix; apply/matrixP=> i j; rewrite !mxE rdM !one_ord.
    by apply: eq_bigr => k _; rewrite (gmE_l _ _ _ _ G) (gmE_r _ _ _ H).
  Qed.
  Lemma gm_add_diag c z J n (f : index -> 'M[F]_n) : gm z J f ->
    exists2 r, add_diag n c z = Some r & gm r J (fun ix => f ix + c%:M).
  Proof.
    move=> G; case: (G) => B N P C A; rewrite /add_diag N P leqnn; eexists; first by [].
    split=> //=; move=> ix; apply/matrixP=> i j; rewrite !mxE {1}/rd /= !one_ord rd_norm (gmE _ _ _ G).
    by rewrite ltn_ord andbT -val_eqE; case: eqP => _; rewrite ?mulr1n ?mulr0n.
  Qed.
  Lemma gm_zeros z J n p (f : index -> 'M[F]_(n, p)) : gm z J f -> gm (zeros_like z) J (fun ix => 0 : 'M[F]_(n, p)).
  Proof. by case=> B N P C A; split=> // ix; apply/matrixP=> i j; rewrite !mxE. Qed.
  Lemma gm_cat_cols y z J n p q (f : index -> 'M[F]_(n, p)) (g : index -> 'M[F]_(n, q)) : gm y J f -> gm z J g ->
    exists2 r, cat_cols y z = Some r & gm r J (fun ix => row_mx (f ix) (g ix)).
  Proof.
    move=> G H; case: (G) => B N P C A; case: (H) => B' N' P' C' A'.
    rewrite /cat_cols B B' N N' P P' !eqxx; eexists; first by [].
    split=> //=; move=> ix; apply/matrixP=> i j; rewrite !mxE rdM !one_ord.
    case: splitP => k E; rewrite E.
    - by rewrite (gmE_n _ _ _ G).
    - by rewrite addKn (gmE_n _ _ _ H).
  Qed.
  Lemma gm_cat_rows y z J n m p (f : index -> 'M[F]_(n, p)) (g : index -> 'M[F]_(m, p)) : gm y J f -> gm z J g ->
    exists2 r, cat_rows y z = Some r & gm r J (fun ix => col_mx (f ix) (g ix)).
  Proof.
    move=> G H; case: (G) => B N P C A; case: (H) => B' N' P' C' A'.
    rewrite /cat_rows B B' N N' P P' !eqxx; eexists; first by [].
    split=> //=; move=> ix; apply/matrixP=> i j; rewrite !mxE rdM !one_ord.
    case: splitP => k E; rewrite E.
    - by rewrite (gmE_n _ _ _ G).
    - by rewrite addKn (gmE_n _ _ _ H).
  Qed.
  Lemma gm_symf z J n (f : index -> 'M[F]_n) : gm z J f ->
    exists2 r, sym_nd z = Some r & gm r J (fun ix => 2%:R^-1 *: ((f ix)^T + f ix)).
  Proof.
    move=> G; rewrite /sym_nd; have [s -> S] := gm_pt2 +%R (gm_tr G) G.
    eexists; first by []. apply: (gm_ext (f := _) (gm_cast (gm_pt1 _ S) (join_same _))).
    by move=> ix; apply/matrixP=> i j; rewrite !mxE.
  Qed.
  Lemma gm_block A B C D J n1 n2 p1 p2 (a : index -> 'M[F]_(n1, p1)) (b : index -> 'M[F]_(n1, p2))
      (c : index -> 'M[F]_(n2, p1)) (d : index -> 'M[F]_(n2, p2)) :
    gm A J a -> gm B J b -> gm C J c -> gm D J d ->
    exists2 r, block_matrix_nd [:: [:: A; B]; [:: C; D]] = Some r &
      gm r J (fun ix => block_mx (a ix) (b ix) (c ix) (d ix)).
  Proof.
    move=> GA GB GC GD; rewrite /block_matrix_nd /=.
    have [h1 -> H1] := gm_cat_cols GA GB; have [h2 -> H2] := gm_cat_cols GC GD.
    by have [r E R] := gm_cat_rows H1 H2; rewrite /= E; exists r.
  Qed.
  Lemma gm_each g z J n (f : index -> 'M[F]_n) : gm z J f ->
    exists2 r, each g z = Some r & gm r J (fun ix => g n (f ix)).
  Proof.
    move=> G; case: (G) => B N P C A; rewrite /each N P eqxx; eexists; first by [].
    split=> //=; move=> ix; apply/matrixP=> i j; rewrite !mxE {1}/rd /= !one_ord entryE.
    by rewrite to_norm A.
  Qed.
  (** Every position stands for one inside the shape. *)
  Lemma positionsP s (h : index -> bool) : (forall ix, h (norm_index s ix) = h ix) ->
    all h (positions s) <-> forall ix, StereoNdSpec.inside s ix -> h ix.
  Proof.
    move=> K; have := positions_all s h K; rewrite /positions.
    have -> : List.forallb h (LorentzNdModel.entries s) = all h (LorentzNdModel.entries s) by elim: (LorentzNdModel.entries s) => //= a l ->.
    by [].
  Qed.
  Lemma gm_solve y z J K n p (f : index -> 'M[F]_n) (g : index -> 'M[F]_(n, p)) : gm y J f -> gm z K g ->
    (forall ix, f ix \in unitmx) ->
    exists2 r, solve y z = Some r & gm r (join J K) (fun ix => invmx (f ix) *m g ix).
  Proof.
    move=> G H U; case: (G) => B N P C A; case: (H) => B' N' P' C' A'.
    rewrite /solve N P N' !eqxx /=.
    have -> : all (fun ix => to_mx n n y ix \in unitmx) (positions (bsh y)).
      by elim: (positions _) => //= a l ->; rewrite A U.
    rewrite B B' (bshape_join T) // P'; eexists; first by [].
    split=> //=; first exact: compat_join.
    move=> ix; apply/matrixP=> i j; rewrite mxE /rd /= !one_ord entryE.
    have -> : to_mx n n y (norm_index (join J K) ix) = f ix.
      by rewrite -A; apply/matrixP=> a b; rewrite !mxE -B rd_l.
    have -> : to_mx n p z (norm_index (join J K) ix) = g ix.
      by rewrite -A'; apply/matrixP=> a b; rewrite !mxE -B' rd_r ?B'.
    by [].
  Qed.
  (** Scalars *)
  Record gs (keep : bool) (z : gt F) (J : seq nat) (f : index -> F) : Prop := {
    gs_b : gsh z = kept keep J; gs_T : compat T J; gs_at : forall ix, grd z ix = f (under keep ix) }.
  Lemma grd_norm (g : gt F) ix : grd g (norm_index (gsh g) ix) = grd g ix.
  Proof. by rewrite /grd NdProofs.norm_idem. Qed.
  Lemma kept_join keep J K : join (kept keep J) (kept keep K) = kept keep (join J K).
  Proof. by case: keep. Qed.
  Lemma kept_bshape keep J K : compat T J -> compat T K -> bshape (kept keep J) (kept keep K) = Some (kept keep (join J K)).
  Proof. by move=> A B; case: keep; rewrite /kept /= (bshape_join T). Qed.
  Lemma gs_sum2 keep z J n p (f : index -> 'M[F]_(n, p)) : gm z J f ->
    gs keep (sum2 keep z) J (fun ix => \sum_i \sum_j f ix i j).
  Proof.
    move=> G; case: (G) => B N P C A; split=> //; first by rewrite /sum2 /= B.
    move=> ix; rewrite /grd /= N P; apply: eq_bigr => i _; apply: eq_bigr => j _.
    rewrite -(gmE _ _ _ G) B /rd B; congr (ent z _ _ _).
    case: keep => /=; [exact: norm_under|exact: NdProofs.norm_idem].
  Qed.
  Lemma gs_pt1 keep h z J f : gs keep z J f -> gs keep (gpt1 h z) J (fun ix => h (f ix)).
  Proof. by case=> B C A; split=> // ix; rewrite {1}/grd /= grd_norm A. Qed.
  Lemma gs_pt2 keep h y z J K f g : gs keep y J f -> gs keep z K g ->
    exists2 r, gpt2 h y z = Some r & gs keep r (join J K) (fun ix => h (f ix) (g ix)).
  Proof.
    case=> B C A [B' C' A']; rewrite /gpt2 B B' kept_bshape //; eexists; first by [].
    split=> //=; first exact: compat_join.
    move=> ix; rewrite {1}/grd /= -A -A' /grd B B' -kept_join norm_l.
    congr (h _ (gat _ _)); case: {A A' B B'} keep; last exact: (norm_r T).
    apply: (norm_r (fun b => if b is b'.+2 then T b' else 1%N) [:: 1%N, 1%N & J] [:: 1%N, 1%N & K]) => [] [|[|b]] /=; try (by left).
      exact: C.
    exact: C'.
  Qed.
  Lemma gs_ext keep z J f g : gs keep z J f -> (forall ix, f ix = g ix) -> gs keep z J g.
  Proof. by case=> B C A E; split=> // ix; rewrite A. Qed.
  Lemma gives_gs o z J b keep f : o = Some z -> gs keep z J f -> J = b -> gives_scalar o b keep f.
  Proof. by move=> E [B C A] <-; exists z. Qed.
End Proofs.

Section Real.
  Variable F : realFieldType.
  Variable T : nat -> nat.
  Lemma allclose0P atol rtol z J n p (f : index -> 'M[F]_(n, p)) : gm T z J f ->
    allclose0_nd atol rtol z <-> forall ix, StereoNdSpec.inside J ix -> allclose0 atol rtol (f ix).
  Proof.
    case=> B N P C A; rewrite /allclose0_nd N P B positionsP.
      by split=> H ix I; [rewrite -A|rewrite A]; apply: H.
    by move=> ix; rewrite -B to_norm.
  Qed.
  Lemma gm_sym z J n (f : index -> 'M[F]_n) : gm T z J f ->
    exists2 r, sym_nd z = Some r & gm T r J (fun ix => sym (f ix)).
  Proof. exact: gm_symf. Qed.
End Real.
