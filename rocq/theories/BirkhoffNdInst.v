(** The statements of C124, from BirkhoffNdProofs. *)
From mathcomp Require Import all_ssreflect all_algebra.
From Coq Require Import Lia.
From Verif Require NdModel StereoNdSpec NdProofs.
From Verif Require BirkhoffProps.
From Verif Require Import BirkhoffModel BirkhoffSpec MatNdModel MatNdShape MatNdSpec MatNdProofs StiefelNdModel StiefelNdInst.
From Verif Require Import BirkhoffNdModel BirkhoffNdSpec BirkhoffNdProofs.
Import GRing.Theory Num.Theory.
Local Open Scope ring_scope.
Set Implicit Arguments. Unset Strict Implicit. Unset Printing Implicit Defensive.

(** ** Flattening a batch and back *)
Lemma ravel_lt s : forall k ix, (forall b, (b < length s)%coq_nat -> (ix (k + b)%coq_nat < List.nth b s 1%N)%coq_nat) ->
  (NdModel.ravel s k ix < NdModel.numel s)%coq_nat.
Proof.
  elim: s => [|d s IH] k ix I; first by apply/ltP.
  have D : (ix k < d)%coq_nat by have := I 0%N; rewrite PeanoNat.Nat.add_0_r /=; apply; apply/ltP.
  have R : (NdModel.ravel s k.+1 ix < NdModel.numel s)%coq_nat.
    apply: IH => b Hb; have := I b.+1; rewrite PeanoNat.Nat.add_succ_r /=; apply; lia.
  change ((ix k + PeanoNat.Nat.mul d (NdModel.ravel s k.+1 ix))%coq_nat < PeanoNat.Nat.mul d (NdModel.numel s))%coq_nat.
  nia.
Qed.
Lemma norm_inside s ix : StereoNdSpec.inside s ix -> StereoNdSpec.inside s (norm_index s ix).
Proof.
  move=> I b Hb; have := I b Hb; rewrite /NdModel.norm_index; case: PeanoNat.Nat.eqb_spec => // ->; lia.
Qed.
Lemma numel_nth s : NdModel.numel s <> 0%N -> forall b, (0 < List.nth b s 1%N)%coq_nat.
Proof. by move=> H b; apply/ltP; exact: numel_pos. Qed.
Lemma unravel_inside s k : NdModel.numel s <> 0%N -> StereoNdSpec.inside s (NdModel.unravel s k).
Proof.
  move=> N b Hb; rewrite /NdModel.unravel; apply: PeanoNat.Nat.mod_upper_bound; have := numel_nth N b; lia.
Qed.
(** the position in [b] of a position of the flat batch, and back *)
Definition there (b : seq nat) (ix : index) : index :=
  NdModel.unravel b (NdModel.ravel [:: NdModel.numel b] 0 (norm_index [:: NdModel.numel b] ix)).
Definition back (b : seq nat) (ix : index) : index :=
  NdModel.unravel [:: NdModel.numel b] (NdModel.ravel b 0 (norm_index b ix)).
Lemma back_there b ix : StereoNdSpec.inside b ix -> norm_index b (there b (back b ix)) = norm_index b ix.
Proof.
  move=> I; have L := @ravel_lt b 0%N (norm_index b ix) (norm_inside I).
  rewrite /there /back -{2}(norm_view _ _ I); congr (norm_index b (NdModel.unravel b _)).
  move: L; set k := NdModel.ravel b 0 _; set N := NdModel.numel b => L.
  have E : NdModel.ravel [:: N] 0 (norm_index [:: N] (NdModel.unravel [:: N] k)) = norm_index [:: N] (NdModel.unravel [:: N] k) 0%N.
    by rewrite /NdModel.ravel PeanoNat.Nat.mul_0_r PeanoNat.Nat.add_0_r.
  rewrite E /NdModel.norm_index /NdModel.unravel /NdModel.numel [List.nth _ _ _]/= [List.firstn _ _]/= [List.fold_right _ _ _]/=.
  case: PeanoNat.Nat.eqb_spec => [E1|E1]; first by lia.
  rewrite PeanoNat.Nat.div_1_r PeanoNat.Nat.mod_small //.
Qed.
Lemma back_inside b ix : StereoNdSpec.inside b ix -> StereoNdSpec.inside [:: NdModel.numel b] (back b ix).
Proof.
  move=> I; have L := @ravel_lt b 0%N (norm_index b ix) (norm_inside I).
  apply: unravel_inside; rewrite /NdModel.numel /=; rewrite /NdModel.numel in L; lia.
Qed.
Lemma there_inside b ix : StereoNdSpec.inside [:: NdModel.numel b] ix -> StereoNdSpec.inside b (there b ix).
Proof. move=> I; apply: unravel_inside => E; have := I 0%N; rewrite E /= => H; have := H (le_n _); lia. Qed.

Section Inst.
  Variable F : realFieldType.
  Notation mt := (mt F).
  Variable exp : F -> F.

  Lemma gm_norm T (z : mt) J n p (f : index -> 'M[F]_(n, p)) a a' : gm T z J f -> norm_index J a = norm_index J a' -> f a = f a'.
  Proof. by case=> B _ _ _ A E; rewrite -!A -[LHS]to_norm -[RHS]to_norm B E. Qed.
  Lemma gm_flat T T' (z : mt) J n p (f : index -> 'M[F]_(n, p)) : gm T z J f -> compat T' [:: NdModel.numel J] -> (0 < n)%N -> (0 < p)%N ->
    exists2 r, flat z = Some r & gm T' r [:: NdModel.numel J] (fun ix => f (there J ix)).
  Proof.
    move=> G C' n0 p0; case: (G) => B N P C A; rewrite /flat N P muln_eq0 !gtn_eqF //= B; eexists; first by [].
    split=> //= ix; apply/matrixP=> i j; rewrite mxE /view_batch rdM N P !one_ord B; exact: gmE G.
  Qed.
  Lemma view_back T' (r : mt) J n p (h : index -> 'M[F]_(n, p)) ix : gm T' r [:: NdModel.numel J] h ->
    to_mx n p (view_batch J r) ix = h (back J ix).
  Proof.
    move=> G; case: (G) => B N P C A; apply/matrixP=> i j; rewrite mxE /view_batch rdM N P !one_ord B; exact: gmE G.
  Qed.

  Lemma b_proju m x u bx bu b : has_shape x bx m.+1 m.+1 -> has_shape u bu m.+1 m.+1 -> bshape bx bu = Some b ->
    (forall ix, StereoNdSpec.inside b ix -> proju (to_mx m.+1 m.+1 x ix) (to_mx m.+1 m.+1 u ix) <> None) ->
    exists r, proju_nd x u = Some r /\ has_shape r b m.+1 m.+1 /\
      forall ix, StereoNdSpec.inside b ix -> proju (to_mx m.+1 m.+1 x ix : 'M[F]_m.+1) (to_mx _ _ u ix) = Some (to_mx _ _ r ix).
  Proof.
    move=> X U B H; have [T [CX [CU Eb]]] := shape2 B; have G := gm_of X CX; have K := gm_of U CU.
    rewrite /proju_nd (gm_n G) (gm_n K) (gm_p G) (gm_p K) !eqxx (gm_b G) (gm_b K) B /=.
    have Ex := g_expand G CU; have Eu := g_expand_r K CX; rewrite -Eb in Ex Eu.
    have [T' C'] := shape1 [:: NdModel.numel b].
    have [x' -> X'] := gm_flat Ex C' isT isT; have [u' -> U'] := gm_flat Eu C' isT isT.
    have Hl ix : StereoNdSpec.inside [:: NdModel.numel b] ix -> lhs (to_mx m.+1 m.+1 x (there b ix)) \in unitmx.
      move=> I; have := H _ (there_inside I); rewrite /proju /proj_tangent; by case: ifP.
    have [r -> R] := g_tangent X' U' Hl.
    eexists; split; first by []. split; first by rewrite /has_shape /= (gm_n R) (gm_p R).
    move=> ix I; have := H ix I; rewrite /proju /proj_tangent; case: ifP => // _ _; congr Some.
    have V := view_back ix R; rewrite V /=.
    by rewrite (gm_norm Ex (back_there I)) (gm_norm Eu (back_there I)).
  Qed.
  Lemma b_proju_none m x u bx bu b ix : has_shape x bx m.+1 m.+1 -> has_shape u bu m.+1 m.+1 -> bshape bx bu = Some b ->
    StereoNdSpec.inside b ix -> proju (to_mx m.+1 m.+1 x ix : 'M[F]_m.+1) (to_mx m.+1 m.+1 u ix) = None ->
    proju_nd x u = None.
  Proof.
    move=> X U B I H; have [T [CX [CU Eb]]] := shape2 B; have G := gm_of X CX; have K := gm_of U CU.
    rewrite /proju_nd (gm_n G) (gm_n K) (gm_p G) (gm_p K) !eqxx (gm_b G) (gm_b K) B /=.
    have Ex := g_expand G CU; have Eu := g_expand_r K CX; rewrite -Eb in Ex Eu.
    have [T' C'] := shape1 [:: NdModel.numel b].
    have [x' -> X'] := gm_flat Ex C' isT isT; have [u' -> U'] := gm_flat Eu C' isT isT.
    rewrite (g_tangent_none X' U' (back_inside I)) //.
    rewrite (gm_norm Ex (back_there I)).
    by move: H; rewrite /proju /proj_tangent; case: ifP => // ->.
  Qed.

  (** ** Checks *)
  Lemma b_check_point atol rtol x b n : has_shape x b n n ->
    check_point_nd atol rtol x <-> forall ix, StereoNdSpec.inside b ix -> check_point atol rtol (to_mx n n x ix : 'M[F]_n).
  Proof.
    move=> X; have [T C] := shape1 b; have G := gm_of X C; rewrite /check_point_nd.
    have R := g_allclose 1 atol rtol (g_sum_rows G); have S := g_allclose 1 atol rtol (g_sum_cols G).
    split.
    - move=> /andP [/R P /S Q] ix I; apply/andP; split; apply/forallP => i.
      + by have := P ix I i ord0; rewrite mxE.
      + by have := Q ix I ord0 i; rewrite mxE.
    - move=> H; apply/andP; split; [apply/R|apply/S] => ix I i j; rewrite mxE;
        have /andP [/forallP P /forallP Q] := H ix I; [exact: P|exact: Q].
  Qed.
  Lemma b_check_vector atol rtol x u b n (m0 : 'M[F]_n) : has_shape u b n n ->
    check_vector_nd atol rtol x u <-> forall ix, StereoNdSpec.inside b ix -> check_vector atol rtol m0 (to_mx n n u ix : 'M[F]_n).
  Proof.
    move=> X; have [T C] := shape1 b; have G := gm_of X C; rewrite /check_vector_nd.
    have R := g_allclose 0 atol rtol (g_sum_rows G); have S := g_allclose 0 atol rtol (g_sum_cols G).
    have E (a c : bool) : (if ~~ a then false else if ~~ c then false else true) = a && c by case: a; case: c.
    rewrite E; split.
    - move=> /andP [/R P /S Q] ix I; rewrite /check_vector E; apply/andP; split; apply/forallP => i.
      + by have := P ix I i ord0; rewrite mxE.
      + by have := Q ix I ord0 i; rewrite mxE.
    - move=> H; apply/andP; split; [apply/R|apply/S] => ix I i j; rewrite mxE;
        have := H ix I; rewrite /check_vector E => /andP [/forallP P /forallP Q]; [exact: P|exact: Q].
  Qed.

  (** ** Sinkhorn *)
  Lemma b_projx m eps tol x b n : has_shape x b n n -> (0 < n)%N -> NdModel.numel b <> 0%N ->
    exists k, stops m (all_settled eps tol b (fun ix => to_mx n n x ix : 'M[F]_n)) k /\
      gives (projx_nd m eps tol x) b (fun ix => scaled eps (to_mx n n x ix) k).
  Proof.
    move=> X n0 N0; have [T C] := shape1 b.
    have [r [k [E [S R]]]] := g_projx eps tol (gm_of X C) n0 N0 m; exists k; split=> //; exact: gives_gm E R _.
  Qed.
  Lemma b_random m eps tol x b n : has_shape x b n n -> (0 < n)%N -> NdModel.numel b <> 0%N ->
    exists k, stops m (all_settled eps tol b (fun ix => map_mx Num.norm (to_mx n n x ix) : 'M[F]_n)) k /\
      gives (random_nd m eps tol x) b (fun ix => scaled eps (map_mx Num.norm (to_mx n n x ix)) k).
  Proof.
    move=> X n0 N0; have [T C] := shape1 b; have G := gm_of X C.
    have [r [k [E [S R]]]] := g_projx eps tol (gm_pt1 Num.norm G) n0 N0 m; exists k; split=> //.
    rewrite /random_nd (gm_n G) (gm_p G) /check_shape eqxx; exact: gives_gm E R _.
  Qed.
  Lemma b_retr m eps tol x u n bx bu b : has_shape x bx n n -> has_shape u bu n n -> bshape bx bu = Some b ->
    (0 < n)%N -> NdModel.numel b <> 0%N ->
    exists k, stops m (all_settled eps tol b (fun ix => bumped exp (to_mx n n x ix : 'M[F]_n) (to_mx n n u ix))) k /\
      gives (retr_nd exp m eps tol x u) b (fun ix => floor (e12 F) (scaled eps (bumped exp (to_mx n n x ix) (to_mx n n u ix)) k)).
  Proof.
    move=> X U B n0 N0; have [T [CX [CU Eb]]] := shape2 B; rewrite Eb in N0 *.
    have [r [k [E [S R]]]] := g_retr exp (gm_of X CX) (gm_of U CU) eps tol m n0 N0; exists k; split=> //; exact: gives_gm E R _.
  Qed.
  Lemma b_empty m eps tol (x : mt) b n : has_shape x b n n -> NdModel.numel (n :: b) = 0%N -> projx_nd m.+1 eps tol x = None.
  Proof.
    move=> X Z; have [T C] := shape1 b; have G := gm_of X C; rewrite /projx_nd.
    have Cc := g_recip eps (g_sum_cols G); have [r -> R] := g_scale_r eps G Cc.
    rewrite /=; have [ci -> Ci] := gm_mm (gm_tr R) G; rewrite join_same in Ci.
    rewrite /settled_nd; have [p -> P] := gm_pt2 *%R Ci Cc; rewrite join_same in P.
    rewrite (gm_b P) (gm_n P) (gm_p P).
    by have -> : NdModel.numel [:: n, 1%N & b] = 0%N by rewrite -[LHS]/(n * (1 * NdModel.numel b))%N mul1n.
  Qed.

  (** The same as the sequence of the matrices of the batch. *)
  Lemma list_sinkhorn eps tol n (P : seq index) (f : index -> 'M[F]_n) m : forall s : index -> scales F n,
    forall k, stops m (fun k => all (fun ix => settled tol (f ix) (iter k (rescale eps (f ix)) (s ix))) P) k ->
    (sinkhorn m eps tol [seq f ix | ix <- P] [seq s ix | ix <- P]).2 = [seq iter k (rescale eps (f ix)) (s ix) | ix <- P].
  Proof.
    have Z (s : index -> scales F n) : zip [seq f ix | ix <- P] [seq s ix | ix <- P] = [seq (f ix, s ix) | ix <- P] by elim: P => //= a l ->.
    elim: m => [|m IH] s k [L [A B]]; first by move: L; rewrite leqn0 => /eqP ->.
    rewrite /= Z all_map -map_comp.
    case E: (all _ _); first by case: k L A B => [|k] L A B //; case: (B 0%N isT); exact: E.
    case: k L A B => [|k] L A B; first by have := A isT; rewrite -[all _ _]/(all (preim (fun ix => (f ix, s ix)) (fun p => settled tol p.1 p.2)) P) E.
    rewrite (IH (fun ix => rescale eps (f ix) (s ix)) k); first by apply: eq_map => ix; rewrite iterSr.
    split=> //; split=> [H|j H].
    - have := A H; under eq_all do rewrite iterSr. by [].
    - move=> K; apply: (B j.+1) => //; under eq_all do rewrite iterSr. by [].
  Qed.
  Lemma b_projx_list m eps tol x b n : has_shape x b n n -> (0 < n)%N -> NdModel.numel b <> 0%N ->
    exists r, projx_nd m eps tol x = Some r /\ has_shape r b n n /\
      [seq to_mx n n r ix | ix <- positions b] = BirkhoffModel.projx m eps tol [seq (to_mx n n x ix : 'M[F]_n) | ix <- positions b].
  Proof.
    move=> X n0 N0; have [k [S [r [E [R A]]]]] := b_projx m eps tol X n0 N0; exists r; split=> //; split=> //.
    have Bx : bsh x = b by case: X.
    have Q j : all (fun ix => settled tol (to_mx n n x ix) (scales_after eps (to_mx n n x ix) j)) (positions b) <->
        all_settled eps tol b (fun ix => to_mx n n x ix) j.
      by rewrite positionsP // => ix; rewrite -Bx to_norm.
    have S' : stops m (fun k => all (fun ix => settled tol (to_mx n n x ix) (iter k (rescale eps (to_mx n n x ix)) (start eps (to_mx n n x ix)))) (positions b)) k.
      case: S => [L [H K]]; split=> //; split=> [/H /Q //|j /K J /Q //].
    have L := list_sinkhorn S'; rewrite /BirkhoffModel.projx /proj_doubly_stochastic -map_comp.
    rewrite -[map (start eps \o _) _]/[seq start eps (to_mx n n x ix) | ix <- positions b].
    case Es: (sinkhorn _ _ _ _ _) L => [st ss] /= ->.
    by elim: (positions b) => //= a l ->; rewrite A.
  Qed.

  (** ** inner *)
  Lemma b_inner keep n (x u v : mt) bx bu bv b1 b : has_shape x bx n n -> has_shape u bu n n -> has_shape v bv n n ->
    bshape bx bu = Some b1 -> bshape b1 bv = Some b ->
    gives_scalar (inner_nd x u (Some v) keep) b keep
      (fun ix => inner (to_mx n n x ix) (to_mx n n u ix) (to_mx n n v ix)).
  Proof.
    move=> X U V B B'; have [T [CX [CU [CV ->]]]] := shape3 B B'.
    have [r E R] := g_inner (gm_of X CX) (gm_of U CU) keep (gm_of V CV); exact: gives_gs E R _.
  Qed.
  Lemma b_inner1 keep n (x u : mt) bx bu b : has_shape x bx n n -> has_shape u bu n n -> bshape bx bu = Some b ->
    gives_scalar (inner_nd x u None keep) b keep
      (fun ix => inner (to_mx n n x ix) (to_mx n n u ix) (to_mx n n u ix)).
  Proof.
    move=> X U B; apply: (b_inner keep X U U B).
    by move/bshape_is_join: B => [-> [CX CU]]; rewrite (bshape_join _ _ _ (compat_join _ _ _ CX CU) CU) join_assoc join_same.
  Qed.
  Lemma b_origin b n : gives (origin_nd F b n n) b (fun _ => origin F n).
  Proof.
    rewrite /origin_nd /check_shape eqxx; eexists; split; first by []. split=> // ix; apply/matrixP=> i j.
    by rewrite !mxE rdM !one_ord.
  Qed.
  Lemma b_wrong m eps tol (x : mt) b n p : n <> p -> has_shape x b n p -> random_nd m eps tol x = None /\ origin_nd F b n p = None.
  Proof. by move=> H [B [N P]]; rewrite /random_nd /origin_nd /check_shape N P; case: eqP => // E; case: H. Qed.

  Lemma b_tangent m x u bx bu b : has_shape x bx m.+1 m.+1 -> has_shape u bu m.+1 m.+1 -> bshape bx bu = Some b ->
    (forall ix, StereoNdSpec.inside b ix -> interior (to_mx m.+1 m.+1 x ix : 'M[F]_m.+1)) ->
    exists r, proju_nd x u = Some r /\ has_shape r b m.+1 m.+1 /\
      forall ix, StereoNdSpec.inside b ix -> tangent (to_mx m.+1 m.+1 r ix).
  Proof.
    move=> X U B H.
    have Q ix : StereoNdSpec.inside b ix -> proju (to_mx m.+1 m.+1 x ix : 'M[F]_m.+1) (to_mx m.+1 m.+1 u ix) <> None.
      by move=> I; have [w [-> _]] := BirkhoffProps.C34_tangent (to_mx m.+1 m.+1 u ix) (H ix I).
    have [r [E [S A]]] := b_proju X U B Q; exists r; split=> //; split=> // ix I.
    have [w [E' W]] := BirkhoffProps.C34_tangent (to_mx m.+1 m.+1 u ix) (H ix I).
    by move: E'; rewrite (A ix I) => [[->]].
  Qed.
  Lemma b_follow m eps tol (x u v y w : mt) : retr_transp_nd exp m eps tol x u v = Some (y, w) <->
    retr_nd exp m eps tol x u = Some y /\ transp_follow_retr_nd exp m eps tol x u v = Some w /\ proju_nd y v = Some w.
  Proof.
    rewrite /retr_transp_nd /transp_follow_retr_nd /transp_nd; case: (retr_nd _ _ _ _ _ _) => [z|]; last by split=> // [] [].
    case E: (proju_nd z v) => [w'|]; split.
    - by move=> [<- <-]; rewrite E.
    - by case=> [[<-]] [[<-]].
    - by [].
    - by case=> _ [].
  Qed.
  Lemma b_raises m eps tol n : raises2 (retr_nd exp m eps tol) n n /\ raises2 (@proju_nd F) n n.
  Proof.
    split=> x u bx bu [X [Xn Xp]] [U [Un Up]] H.
    - by rewrite /retr_nd pt2_none // X U bs_none.
    - by rewrite /proju_nd Xn Xp Un Up !eqxx X U H.
  Qed.
  Lemma b_sizes (x u : mt) bx bu n p n' p' : has_shape x bx n p -> has_shape u bu n' p' -> (n, p) <> (n', p') -> proju_nd x u = None.
  Proof.
    by move=> [_ [N P]] [_ [N' P']] H; rewrite /proju_nd N P N' P'; case: ifP => // /andP [/eqP E /eqP E']; case: H; rewrite E E'.
  Qed.
End Inst.
