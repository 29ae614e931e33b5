(** How the operations of SiegelNdModel act on the matrices of a batch. *)
From mathcomp Require Import all_ssreflect all_algebra.
From mathcomp.real_closed Require Import complex.
From Verif Require NdModel StereoNdSpec NdProofs StereoNdProofs SpdModel.
From Verif Require Import MatNdModel MatNdShape MatNdSpec MatNdProofs SpdNdModel SpdNdProofs SpdNdInst SiegelModel SiegelNdModel SiegelNdSpec.
Import GRing.Theory Num.Theory.
Local Open Scope ring_scope.
Local Open Scope complex_scope.
Set Implicit Arguments. Unset Strict Implicit. Unset Printing Implicit Defensive.

(** ** Positions *)
Definition ins (J : seq nat) (ix : index) : Prop := inside J (norm_index J ix).
Lemma inside_ins J ix : inside J ix -> ins J ix.
Proof.
  move=> I a L; have := I a L; rewrite /NdModel.norm_index.
  case: PeanoNat.Nat.eqb_spec => // -> _; exact: PeanoNat.Nat.lt_0_1.
Qed.
Lemma ins_l J K ix : ins (join J K) ix -> ins J ix.
Proof.
  move=> I a L; have La : (a < length (join J K))%coq_nat.
    rewrite join_len; exact: PeanoNat.Nat.lt_le_trans L (PeanoNat.Nat.le_max_l _ _).
  have := I a La; rewrite /NdModel.norm_index join_nth /StereoNdProofs.jd.
  case: (PeanoNat.Nat.eqb_spec (List.nth a J 1%N) 1%N) => [-> _|N]; first exact: PeanoNat.Nat.lt_0_1.
  by case: PeanoNat.Nat.eqb_spec.
Qed.
Lemma ins_r T J K ix : compat T J -> compat T K -> ins (join J K) ix -> ins K ix.
Proof. by move=> A B; rewrite (join_comm T) //; apply: ins_l. Qed.
Lemma ins_lift J K p ix0 : inside (join J K) ix0 -> ins J p ->
  exists2 ix, inside (join J K) ix & norm_index J ix = norm_index J p.
Proof.
  move=> I0 P; exists (fun a => if List.nth a J 1%N == 1%N then ix0 a else p a).
  - move=> a L; have := I0 a L; rewrite join_nth /StereoNdProofs.jd; case: PeanoNat.Nat.eqb_spec => [->|N] //.
    case: eqP => // _ _; case: (PeanoNat.Nat.lt_ge_cases a (length J)) => [La|Ga].
    + have := P a La; rewrite /NdModel.norm_index; by case: PeanoNat.Nat.eqb_spec.
    + by case: N; apply: List.nth_overflow.
  - apply: FunctionalExtensionality.functional_extensionality => a; rewrite /NdModel.norm_index.
    by case: PeanoNat.Nat.eqb_spec => // N; case: eqP.
Qed.
Lemma ins_lift_r T J K p ix0 : compat T J -> compat T K -> inside (join J K) ix0 -> ins K p ->
  exists2 ix, inside (join J K) ix & norm_index K ix = norm_index K p.
Proof. by move=> A B; rewrite (join_comm T) //; apply: ins_lift. Qed.

Section Torch.
  Variable T : nat -> nat.
  Variables K L M : fieldType.
  Lemma g_cpt1 (h : K -> L) z J n p (f : index -> 'M[K]_(n, p)) : gm T z J f -> gm T (cpt1 h z) J (fun ix => map_mx h (f ix)).
  Proof.
    move=> G; case: (G) => B N P C A; split=> //.
    move=> ix; apply/matrixP=> i j; rewrite !mxE {1}/rd /= N P !one_ord rd_norm.
    by rewrite (gmE _ _ _ G).
  Qed.
  Lemma g_cpt2 (h : K -> L -> M) y z J I n p (f : index -> 'M[K]_(n, p)) (g : index -> 'M[L]_(n, p)) : gm T y J f -> gm T z I g ->
    exists2 r, cpt2 h y z = Some r & gm T r (join J I) (fun ix => \matrix_(i, j) h (f ix i j) (g ix i j)).
  Proof.
    move=> G H; case: (G) => B N P C A; case: (H) => B' N' P' C' A'.
    rewrite /cpt2 B B' (bshape_join T) // N N' P P' !NdProofs.bdim_same; eexists; first by [].
    split=> //=; first exact: compat_join.
    move=> ix; apply/matrixP=> i j; rewrite !mxE rdM !one_ord.
    by rewrite (gmE_l _ _ _ _ G) (gmE_r _ _ _ H).
  Qed.
  Lemma g_identity (z : mt L) J n (f : index -> 'M[L]_n) : gm T z J f ->
    exists2 r, expand_as (eye K (ncol z)) z = Some r & gm T r J (fun _ => 1%:M : 'M[K]_n).
  Proof.
    case=> B N P C A; rewrite /expand_as /= N P B !NdProofs.bdim_same /= !eqxx /=.
    eexists; first by []. split=> //= ix; apply/matrixP=> i j.
    rewrite !mxE rdM !one_ord /rd /= ?one_ord -val_eqE; by case: eqP.
  Qed.
  Lemma g_mmm n a b c J I H (f g h : index -> 'M[K]_n) : gm T a J f -> gm T b I g -> gm T c H h ->
    exists2 r, mmm a b c = Some r & gm T r (join (join J I) H) (fun ix => f ix *m g ix *m h ix).
  Proof. by move=> A B C; rewrite /mmm; have [x -> X] := gm_mm A B; exact: gm_mm X C. Qed.
  Lemma g_inv x J n (f : index -> 'M[K]_n) : gm T x J f -> (forall ix, ins J ix -> f ix \in unitmx) ->
    exists2 r, inverse_nd x = Some r & gm T r J (fun ix => invmx (f ix)).
  Proof.
    move=> G U; case: (G) => B N P C A; rewrite /inverse_nd N P eqxx /=.
    have -> : all (fun ix => to_mx n n x ix \in unitmx) (positions (bsh x)).
      by rewrite B positionsP => [ix I|ix]; [rewrite A U //; apply: inside_ins|rewrite -B to_norm].
    exact: (gm_each (fun n => @invmx K n) G).
  Qed.
  Lemma g_inv_none x J n (f : index -> 'M[K]_n) ix : gm T x J f -> ins J ix -> f ix \notin unitmx -> inverse_nd x = None.
  Proof.
    case=> B N P _ A I U; rewrite /inverse_nd N P eqxx /=; case: ifP => // H.
    have := H; rewrite B positionsP; last by move=> k; rewrite -B to_norm.
    by move/(_ _ I); rewrite -{1}B to_norm A (negPf U).
  Qed.
  Lemma g_cols_from k m z J n p (f : index -> 'M[K]_(n, p)) (g : index -> 'M[K]_(n, m)) : gm T z J f ->
    (forall ix i (j : 'I_m), exists2 l : 'I_p, (k + j)%N = l & g ix i j = f ix i l) ->
    gm T (cols_from k m z) J g.
  Proof.
    move=> G E; case: (G) => B N P C A; split=> // ix; apply/matrixP=> i j; rewrite mxE rdM N !one_ord B.
    by have [l -> ->] := E ix i j; rewrite (gmE_n _ _ _ G).
  Qed.
  Lemma g_rows_from k m z J n p (f : index -> 'M[K]_(n, p)) (g : index -> 'M[K]_(m, p)) : gm T z J f ->
    (forall ix (i : 'I_m) j, exists2 l : 'I_n, (k + i)%N = l & g ix i j = f ix l j) ->
    gm T (rows_from k m z) J g.
  Proof.
    move=> G E; case: (G) => B N P C A; split=> // ix; apply/matrixP=> i j; rewrite mxE rdM P !one_ord B.
    by have [l -> ->] := E ix i j; rewrite (gmE_n _ _ _ G).
  Qed.
  Lemma half n : uphalf (n + n) = n /\ (n + n - n)%N = n /\ (n + n == 1)%N = false.
  Proof.
    rewrite addnK; split; [|split=> //].
      by rewrite addnn uphalf_double.
    by apply/eqP=> E; have := congr1 odd E; rewrite oddD addbb.
  Qed.
  Lemma g_chunk_cols z J n m (f : index -> 'M[K]_(n, m + m)) : gm T z J f ->
    exists2 r, last z (chunk_cols z) = r & gm T r J (fun ix => rsubmx (f ix)).
  Proof.
    move=> G; case: (G) => B N P C A; have [h1 [h2 h3]] := half m; rewrite /chunk_cols P h3 h1 h2; eexists; first by [].
    by apply: g_cols_from G _ => ix i j; exists (rshift m j) => //; rewrite mxE.
  Qed.
  Lemma g_chunk_rows z J n m (f : index -> 'M[K]_(n + n, m)) : gm T z J f ->
    exists a b, chunk_rows z = [:: a; b] /\ gm T a J (fun ix => usubmx (f ix)) /\ gm T b J (fun ix => dsubmx (f ix)).
  Proof.
    move=> G; case: (G) => B N P C A; have [h1 [h2 h3]] := half n; rewrite /chunk_rows N h3 h1 h2; do 2 eexists; split; first by [].
    split; [apply: g_rows_from G _ => ix i j; exists (lshift n i) => //|apply: g_rows_from G _ => ix i j; exists (rshift n i) => //]; by rewrite mxE.
  Qed.
End Torch.

Section Vectors.
  Variable T : nat -> nat.
  Variable F : rcfType.
  Lemma gv_grd n (e : gt F) J (f : index -> 'rV[F]_n) (j : 'I_n) ix : gv T e J f -> grd e (at_last j ix) = f ix ord0 j.
  Proof. by case=> B C A; rewrite (A _ j). Qed.
  Lemma gv_norm n (e : gt F) J (f : index -> 'rV[F]_n) ix : gv T e J f -> f (norm_index J ix) = f ix.
  Proof.
    move=> G; case: (G) => B C A; apply/rowP=> j; rewrite -!(gv_grd _ _ G) /grd B; congr (gat e _).
    apply: FunctionalExtensionality.functional_extensionality => [[|a]] //.
    rewrite /NdModel.norm_index /=; by case: PeanoNat.Nat.eqb_spec.
  Qed.
  Lemma g_index_select n (e : gt F) J (f : index -> 'rV[F]_(n + n)) : gv T e J f ->
    exists2 r, index_select n n e = Some r & gv T r J (fun ix => rsubmx (f ix)).
  Proof.
    move=> G; case: (G) => B C A; rewrite /index_select B leqnn orbT; eexists; first by [].
    split=> // ix j I; rewrite -[grd _ _]/(grd e (at_last (n + norm_index (n :: J) ix 0%N) (before_last (norm_index (n :: J) ix)))).
    rewrite (last_ord _ I) mxE (gv_grd (rshift n j) _ G).
    by rewrite -(gv_norm (before_last _) G) [in LHS]norm_under1 (gv_norm _ G).
  Qed.
  Lemma g_vals n (K : fieldType) (ev : forall n, 'M[K]_n -> 'rV[F]_n) t J (f : index -> 'M[K]_n) : gm T t J f ->
    exists2 r, vals_nd ev t = Some r & gv T r J (fun ix => ev n (f ix)).
  Proof.
    move=> G; case: (G) => B N P C A; rewrite /vals_nd N P eqxx; eexists; first by []. split=> //=; first by rewrite B.
    move=> ix j I; rewrite /grd /= B (last_ord _ I).
    rewrite -[0%N]/(nat_of_ord (ord0 : 'I_1)) entryE.
    by rewrite -A; congr (ev n _ ord0 j); apply/matrixP=> a b; rewrite !mxE /rd B norm_under1.
  Qed.
  (** every entry of every vector *)
  Lemma g_all_entries n h (e : gt F) J (f : index -> 'rV[F]_n) : gv T e J f ->
    all_entries h e <-> forall ix, ins J ix -> [forall j, h (f ix ord0 j)].
  Proof.
    move=> G; case: (G) => B C A; rewrite /all_entries positionsP; last by move=> ix; rewrite grd_norm.
    split=> H ix I.
    - apply/forallP=> j; rewrite -(gv_norm _ G) -(gv_grd _ _ G); apply: H; rewrite B; exact: inside_at.
    - rewrite B in I; have [L I'] := inside_before I.
      rewrite (A _ (Ordinal L)) //; by move/forallP: (H _ (inside_ins I')); apply.
  Qed.
  (** masks *)
  Lemma g_all_last n h (e : gt F) J (f : index -> 'rV[F]_n) : gv T e J f ->
    exists2 m, all_last h e = Some m & tsh m = 1%N :: J /\ forall ix, trd m ix = [forall j, h (f (before_last ix) ord0 j)].
  Proof.
    move=> G; case: (G) => B C A; rewrite /all_last B; eexists; first by []. split=> // ix; rewrite /trd /=.
    rewrite -(gv_norm _ G); apply/allP/forallP => H j.
    - have := H j; rewrite mem_iota ltn_ord => /(_ isT); rewrite (gv_grd _ _ G) -(gv_norm _ G).
      by rewrite (norm_under1 1%N).
    - rewrite mem_iota add0n => /andP[_ Lj]; have := H (Ordinal Lj).
      by rewrite -(norm_under1 1%N) (gv_norm _ G) -(gv_grd _ _ G).
  Qed.
  Lemma g_where n (K : fieldType) h (e : gt F) J (f : index -> 'rV[F]_n) (x y : mt K) m (g k : index -> 'M[K]_m) :
    gv T e J f -> gm T x J g -> gm T y J k ->
    exists2 r, (let? b := all_last h e in let? m := expand_mask (unsqueeze_last b) x in where_nd m x y) = Some r &
      gm T r J (fun ix => if [forall j, h (f ix ord0 j)] then g ix else k ix).
  Proof.
    move=> E X Y; have [b -> [Sb Rb]] := g_all_last h E.
    case: (X) => B N P C A; case: (Y) => B' N' P' C' A'.
    rewrite /expand_mask /shape_of /= B N P Sb.
    have BJ : bshape J J = Some J by rewrite (bshape_join T) // join_same.
    have D1 : forall d, NdModel.bdim 1 d = Some d by move=> d; rewrite /NdModel.bdim; case: PeanoNat.Nat.eqb_spec => // ->.
    rewrite /= !D1 BJ eqxx /where_nd /= /shape_of B N P eqxx B' N' P' BJ !NdProofs.bdim_same.
    eexists; first by []. split=> //= ix; apply/matrixP=> i j; rewrite !mxE rdM !one_ord.
    rewrite (gmE_n _ _ _ X) (gmE_n _ _ _ Y).
    rewrite /trd /= -/(trd _ _) Rb -(gv_norm _ E).
    have -> : norm_index J (before_last (before_last (norm_index (1%N :: tsh b) (norm_index [:: m, m & J] (at_last j (at_last i (norm_index J ix))))))) = norm_index J ix.
      apply: FunctionalExtensionality.functional_extensionality => a; rewrite /NdModel.norm_index Sb /=.
      rewrite /before_last /at_last /=; by case: (PeanoNat.Nat.eqb _ _).
    rewrite (gv_norm _ E); by case: ifP.
  Qed.
End Vectors.

Section Siegel.
  Variable T : nat -> nat.
  Variable F : rcfType.
  Variable n : nat.
  Notation C := F[i].
  Notation CF := (ComplexField.complex_fieldType F).
  Variable eigh : forall n, 'M[F]_n -> 'rV[F]_n * 'M[F]_n.
  Variable eigvalsh : forall n, 'M[F]_n -> 'rV[F]_n.
  Variable eigvalsh_c : forall n, 'M[C]_n -> 'rV[F]_n.
  Variable eighU : forall n, 'M[F]_n -> 'rV[F]_n * 'M[F]_n.
  Variable matrix_exp : forall n, 'M[F]_n -> 'M[F]_n.
  Variable log : F -> F.
  Variable p : precision.
  Notation gm := (gm T).
  Implicit Types (z u v : mt CF) (J : seq nat).

  Ltac mxeq := apply/matrixP=> ? ?; rewrite !mxE.
  Lemma g_real z J (f : index -> 'M[CF]_n) : gm z J f -> gm (real_nd z) J (fun ix => real_of (f ix)).
  Proof. by move=> G; apply: gm_ext (g_cpt1 (@complex.Re F) G) _ => ix; mxeq. Qed.
  Lemma g_imag z J (f : index -> 'M[CF]_n) : gm z J f -> gm (imag_nd z) J (fun ix => imag_of (f ix)).
  Proof. by move=> G; apply: gm_ext (g_cpt1 (@complex.Im F) G) _ => ix; mxeq. Qed.
  Lemma g_conj z J (f : index -> 'M[CF]_n) : gm z J f -> gm (conj_nd z) J (fun ix => SiegelModel.conj (f ix)).
  Proof. by move=> G; apply: gm_ext (g_cpt1 (L := CF) (@conjc F) G) _ => ix; mxeq. Qed.
  Lemma g_as_complex (a : mt F) J (f : index -> 'M[F]_n) : gm a J f -> gm (as_complex_nd a) J (fun ix => as_complex (f ix)).
  Proof. by move=> G; apply: gm_ext (g_cpt1 (L := CF) (fun w : F => w%:C) G) _ => ix; mxeq. Qed.
  Lemma g_to_complex (a b : mt F) J I (f g : index -> 'M[F]_n) : gm a J f -> gm b I g ->
    exists2 r, to_complex_nd a b = Some r & gm r (join J I) (fun ix => to_complex (f ix) (g ix)).
  Proof. by move=> A B; exact: (g_cpt2 (M := CF) (fun x y => x +i* y) A B). Qed.
  Lemma g_neg (a : mt F) J m q (f : index -> 'M[F]_(m, q)) : gm a J f -> gm (pt1 -%R a) J (fun ix => - f ix).
  Proof. by move=> G; apply: gm_ext (gm_pt1 -%R G) _ => ix; mxeq. Qed.
  Lemma g_add z u J I (f g : index -> 'M[CF]_n) : gm z J f -> gm u I g ->
    exists2 r, pt2 +%R z u = Some r & gm r (join J I) (fun ix => f ix + g ix).
  Proof. by move=> A B; have [r E R] := gm_pt2 +%R A B; exists r => //; apply: gm_ext R _ => ix; mxeq. Qed.
  Lemma g_sub z u J I (f g : index -> 'M[CF]_n) : gm z J f -> gm u I g ->
    exists2 r, pt2 (fun a b => a - b) z u = Some r & gm r (join J I) (fun ix => f ix - g ix).
  Proof. by move=> A B; have [r E R] := gm_pt2 (fun a b => a - b) A B; exists r => //; apply: gm_ext R _ => ix; mxeq. Qed.
  Lemma g_csym z J (f : index -> 'M[CF]_n) : gm z J f -> exists2 r, sym_nd z = Some r & gm r J (fun ix => csym (f ix)).
  Proof. exact: gm_symf. Qed.
  Lemma g_compound z J (f : index -> 'M[CF]_n) : gm z J f ->
    exists2 r, to_compound_symmetric_nd z = Some r & gm r J (fun ix => to_compound_symmetric (f ix)).
  Proof. by move=> G; have A := g_real G; have B := g_imag G; exact: (gm_block A B B (g_neg A)). Qed.
  Lemma g_takagi z J (f : index -> 'M[CF]_n) : gm z J f ->
    exists e s, takagi_eig_nd eigh z = Some (e, s) /\ gv T e J (fun ix => (takagi_eig eigh (f ix)).1) /\
      gm s J (fun ix => (takagi_eig eigh (f ix)).2).
  Proof.
    move=> G; rewrite /takagi_eig_nd; have [c -> Cm] := g_compound G.
    have [e [q [-> [E Q]]]] := g_eigh eigh Cm; rewrite [(e, q).1]/= [(e, q).2]/=.
    have [h -> H] := g_chunk_cols Q; have [a [b [-> [A B]]]] := g_chunk_rows H.
    have [u -> U] := g_to_complex A (g_neg B); rewrite (gm_p G); have [s -> S] := g_index_select E.
    do 2 eexists; split; first by []. rewrite join_same in U; split.
    - case: S => S1 S2 S3; split=> // ix j I; by rewrite (S3 _ _ I) /takagi_eig; case: (eigh _).
    - by apply: gm_ext U _ => ix; rewrite /takagi_eig; case: (eigh _).
  Qed.
  Lemma g_takagi_vals z J (f : index -> 'M[CF]_n) : gm z J f ->
    exists2 e, takagi_eigvals_nd eigvalsh z = Some e & gv T e J (fun ix => takagi_eigvals eigvalsh (f ix)).
  Proof.
    move=> G; rewrite /takagi_eigvals_nd; have [c -> Cm] := g_compound G.
    have [e -> E] := g_vals eigvalsh Cm; rewrite (gm_p G); exact: g_index_select E.
  Qed.
  Lemma g_ident z J (f : index -> 'M[CF]_n) : gm z J f ->
    exists2 r, identity_like_nd z = Some r & gm r J (fun ix => identity_like (f ix)).
  Proof. exact: g_identity. Qed.
  Lemma g_times_i z J (f : index -> 'M[CF]_n) : gm z J f ->
    exists2 r, multiply_by_i_nd z = Some r & gm r J (fun ix => multiply_by_i (f ix)).
  Proof.
    move=> G; have [r E R] := g_to_complex (g_neg (g_imag G)) (g_real G); exists r => //; by rewrite join_same in R.
  Qed.

  (** Partial functions: one position that raises makes the call raise. *)
  Definition part (o : option (mt CF)) J (f : index -> res 'M[CF]_n) : Prop :=
    ((forall ix, ins J ix -> exists m, f ix = Ok m) ->
      exists r, o = Some r /\ gm r J (to_mx n n r) /\ forall ix, ins J ix -> f ix = Ok (to_mx n n r ix)) /\
    (forall ix e, ins J ix -> f ix = Raises e -> o = None).
  Lemma part_inv (k : option (mt CF) -> option (mt CF)) x J (d : index -> 'M[CF]_n) (g : index -> 'M[CF]_n -> 'M[CF]_n) :
    gm x J d -> k None = None ->
    (forall y f, gm y J f -> exists2 r, k (Some y) = Some r & gm r J (fun ix => g ix (f ix))) ->
    part (k (inverse_nd x)) J (fun ix => do m <- inverse (d ix); Ok (g ix m)).
  Proof.
    move=> X K0 K1; split.
    - move=> H; have U ix : ins J ix -> d ix \in unitmx.
        by move=> I; have [m] := H ix I; rewrite /inverse; case: ifP.
      have [y -> Y] := g_inv X U; have [r -> R] := K1 _ _ Y; exists r; split=> //; split.
        by case: R => B N P Cj _; split.
      by move=> ix I; rewrite /inverse U //= (gm_at R).
    - move=> ix e I; rewrite /inverse; case: ifP => //= /negbT U _.
      by rewrite (g_inv_none X I U).
  Qed.
  Lemma g_cayley z J (f : index -> 'M[CF]_n) : gm z J f -> part (cayley_transform_nd z) J (fun ix => cayley_transform (f ix)).
  Proof.
    move=> G; rewrite /cayley_transform_nd; have [i -> I] := g_ident G.
    have [s -> S] := g_add I G; have [m -> Mi] := g_times_i S; have [d -> D] := g_sub I G.
    rewrite join_same in D, Mi.
    apply: (part_inv (k := fun o => let? y := o in mm m y) (g := fun ix y => multiply_by_i (identity_like (f ix) + f ix) *m y) D) => // y h Y.
    have [r E R] := gm_mm Mi Y; exists r => //; by rewrite join_same in R.
  Qed.
  Lemma g_inv_cayley z J (f : index -> 'M[CF]_n) : gm z J f ->
    part (inverse_cayley_transform_nd z) J (fun ix => inverse_cayley_transform (f ix)).
  Proof.
    move=> G; rewrite /inverse_cayley_transform_nd; have [i -> I] := g_ident G.
    have [m -> Mi] := g_times_i I; have [d -> D] := g_sub G Mi; have [s -> S] := g_add G Mi.
    rewrite join_same in D, S.
    apply: (part_inv (k := fun o => let? y := o in mm d y) (g := fun ix y => (f ix - multiply_by_i (identity_like (f ix))) *m y) S) => // y h Y.
    have [r E R] := gm_mm D Y; exists r => //; by rewrite join_same in R.
  Qed.
  Lemma g_pcp (y : mt F) J (f : index -> 'M[F]_n) : gm y J f ->
    exists2 r, positive_conjugate_projection_nd eigh p y = Some r & gm r J (fun ix => positive_conjugate_projection eigh p (f ix)).
  Proof.
    move=> G; rewrite /positive_conjugate_projection_nd; have [e [s [-> [E S]]]] := g_eigh eigh G.
    rewrite [(e, s).1]/= [(e, s).2]/=; have E' := gv_pt1 (Num.max (EPS F p)) E.
    have [t -> Tt] := g_recompose S E'.
    have [r Er R] := g_where (fun e => EPS F p < e) E' G Tt; exists r => //.
    by apply: gm_ext R _ => ix; rewrite /positive_conjugate_projection; case: (eigh _).
  Qed.

  Section Two.
    Variables (z u : mt CF) (J I : seq nat) (f g : index -> 'M[CF]_n).
    Hypotheses (Z : gm z J f) (U : gm u I g).
    Let CZ := gm_T Z.
    Let CU := gm_T U.
    Let JIJ : join (join J I) J = join J I.
    Proof. have A := CZ; have B := CU; clear -A B; jsolve. Qed.
    Lemma g_uh_rgrad : exists2 r, uh_egrad2rgrad_nd z u = Some r & gm r (join J I) (fun ix => uh_egrad2rgrad (f ix) (g ix)).
    Proof.
      rewrite /uh_egrad2rgrad_nd; have Y := g_imag Z.
      have [a -> A] := g_mmm Y (g_real U) Y; have [b -> B] := g_mmm Y (g_imag U) Y.
      have [c -> Cc] := g_to_complex A B; rewrite join_same JIJ in Cc; exact: g_csym Cc.
    Qed.
    Lemma g_idmzz : exists2 r, bd_id_minus_conj_z_z_nd z = Some r & gm r J (fun ix => bd_id_minus_conj_z_z (f ix)).
    Proof.
      rewrite /bd_id_minus_conj_z_z_nd; have [i -> Ii] := g_ident Z; have [c -> Cc] := gm_mm (g_conj Z) Z.
      have [r E R] := g_sub Ii Cc; exists r => //; by rewrite !join_same in R.
    Qed.
    Lemma g_bd_rgrad : exists2 r, bd_egrad2rgrad_nd z u = Some r & gm r (join J I) (fun ix => bd_egrad2rgrad (f ix) (g ix)).
    Proof.
      rewrite /bd_egrad2rgrad_nd; have [a -> A] := g_idmzz; have [b -> B] := g_mmm A U A; rewrite JIJ in B; exact: g_csym B.
    Qed.
  End Two.
  Lemma g_uh_projx z J (f : index -> 'M[CF]_n) : gm z J f -> exists2 r, uh_projx_nd eigh p z = Some r & gm r J (fun ix => uh_projx eigh p (f ix)).
  Proof.
    move=> G; rewrite /uh_projx_nd /siegel_projx_nd; have [s -> S] := g_csym G; have [y -> Y] := g_pcp (g_imag S).
    have [r E R] := g_to_complex (g_real S) Y; exists r => //; by rewrite join_same in R.
  Qed.
  Lemma g_bd_projx z J (f : index -> 'M[CF]_n) : gm z J f -> exists2 r, bd_projx_nd eigh p z = Some r & gm r J (fun ix => bd_projx eigh p (f ix)).
  Proof.
    move=> G; rewrite /bd_projx_nd /siegel_projx_nd; have [s -> S] := g_csym G.
    have [e [w [-> [E W]]]] := g_takagi S; rewrite [(e, w).1]/= [(e, w).2]/=.
    have [d -> D] := g_diag (gv_pt1 (fun e => Num.min e (1 - EPS F p)) E).
    have Cw := g_conj W; have [t -> Tt] := g_mmm Cw (g_as_complex D) (gm_tr Cw); rewrite !join_same in Tt.
    have [r Er R] := g_where (fun e => e < 1 - EPS F p) E S Tt; exists r => //.
    by apply: gm_ext R _ => ix; rewrite /bd_projx /siegel_projx; case: (takagi_eig _ _).
  Qed.
  Lemma g_uh_random z J (f : index -> 'M[CF]_n) : gm z J f -> exists2 r, uh_random_nd matrix_exp z = Some r & gm r J (fun ix => uh_random matrix_exp (f ix)).
  Proof.
    move=> G; rewrite /uh_random_nd; have [s -> S] := g_csym (gm_pt1 ( *%R 2%:R^-1) G).
    have [i -> I] := gm_each matrix_exp (g_imag S); have [r E R] := g_to_complex (g_real S) I; exists r => //.
    rewrite join_same in R; apply: gm_ext R _ => ix; rewrite /uh_random.
    by have -> : map_mx ( *%R 2%:R^-1) (f ix) = 2%:R^-1 *: f ix by mxeq.
  Qed.
End Siegel.
