(** Inner products, distances and checks of the Siegel manifolds on batches. *)
From mathcomp Require Import all_ssreflect all_algebra.
From mathcomp.real_closed Require Import complex.
From Verif Require NdModel StereoNdSpec NdProofs StereoNdProofs SpdModel.
From Verif Require Import MatNdModel MatNdShape MatNdSpec MatNdProofs SpdNdModel SpdNdProofs SpdNdInst SiegelModel SiegelNdModel SiegelNdSpec SiegelNdProofs.
Import GRing.Theory Num.Theory.
Local Open Scope ring_scope.
Local Open Scope complex_scope.
Set Implicit Arguments. Unset Strict Implicit. Unset Printing Implicit Defensive.

Lemma gm_norm (K : fieldType) T (z : mt K) J n p (f : index -> 'M[K]_(n, p)) a a' : gm T z J f -> norm_index J a = norm_index J a' -> f a = f a'.
Proof. by case=> B _ _ _ A E; rewrite -!A -[LHS]to_norm -[RHS]to_norm B E. Qed.

Lemma gv_same T (F : rcfType) n (e : gt F) J (f : index -> 'rV[F]_n) a a' : gv T e J f -> norm_index J a = norm_index J a' -> f a = f a'.
Proof. by move=> G E; rewrite -(gv_norm a G) E (gv_norm a' G). Qed.

Section Metrics.
  Variable T : nat -> nat.
  Variable F : rcfType.
  Variable n : nat.
  Definition seq_of (v : 'rV[F]_n) : seq F := [seq v ord0 i | i <- enum 'I_n].
  Lemma size_seq v : size (seq_of v) = n. Proof. by rewrite size_map size_enum_ord. Qed.
  Lemma nth_seq v (i : 'I_n) : nth 0 (seq_of v) i = v ord0 i.
  Proof. by rewrite (nth_map i) ?size_enum_ord // nth_ord_enum. Qed.
  Lemma sum_seq v (h : F -> F) : sum [seq h x | x <- seq_of v] = \sum_i h (v ord0 i).
  Proof. by rewrite /sum /seq_of -map_comp big_map big_enum. Qed.
  Lemma sum_nth (s : seq F) : sum s = \sum_(i < size s) nth 0 s i.
  Proof. by rewrite /sum (big_nth 0) big_mkord. Qed.

  Lemma g_sum_last (e : gt F) J (f : index -> 'rV[F]_n) keep : gv T e J f ->
    exists2 r, sum_last keep e = Some r & gsh r = (if keep then 1%N :: J else J) /\
      forall ix, grd r ix = \sum_j f (if keep then before_last ix else ix) ord0 j.
  Proof.
    move=> G; case: (G) => B C A; rewrite /sum_last B; eexists; first by []. split; first by case: keep.
    move=> ix; rewrite {1}/grd /=; apply: eq_bigr => j _; rewrite (gv_grd _ _ G); apply: (congr1 (fun v : 'rV_n => v ord0 j)); apply: gv_same G _.
    by case: keep; [rewrite (norm_under1 1%N)|rewrite NdProofs.norm_idem].
  Qed.
  Lemma g_last (e : gt F) J (f : index -> 'rV[F]_n) (x : 'I_n) : gv T e J f -> (x.+1 = n)%N ->
    exists2 r, last_entry e = Some r & gsh r = 1%N :: J /\ forall ix, grd r ix = f (before_last ix) ord0 x.
  Proof.
    move=> G E; case: (G) => B C A; rewrite /last_entry B; move: (E); case: {2 3}n => // m [Em]; eexists; first by []. split=> // ix.
    rewrite {1}/grd /= -Em (gv_grd _ _ G); apply: (congr1 (fun v : 'rV_n => v ord0 x)); apply: gv_same G _.
    by rewrite (norm_under1 1%N).
  Qed.
  (** the weights *)
  Lemma grd_gpt2 h (x y r : gt F) ix : gpt2 h x y = Some r ->
    grd r ix = h (grd x (norm_index (gsh r) ix)) (grd y (norm_index (gsh r) ix)).
  Proof. by rewrite /gpt2; case: (bshape _ _) => // b [<-]. Qed.
  Lemma gsh_gpt2 h (x y r : gt F) : gpt2 h x y = Some r -> bshape (gsh x) (gsh y) = Some (gsh r).
  Proof. by rewrite /gpt2; case: (bshape _ _) => // b [<-]. Qed.
  Definition more J : seq nat := if J is [::] then [:: 1%N] else J.
  Lemma bshape_w a (b : nat) J : bshape [:: a; 1%N] (b :: J) = (let? d := NdModel.bdim a b in Some (d :: more J)).
  Proof.
    rewrite /=; case: (NdModel.bdim a b) => // d; case: J => //= c J.
    by rewrite /NdModel.bdim; case: PeanoNat.Nat.eqb_spec => [->|].
  Qed.
  Lemma norm_more d J i (ix : index) : norm_index J (before_last (norm_index (d :: more J) (at_last i ix))) = norm_index J ix.
  Proof.
    apply: FunctionalExtensionality.functional_extensionality => a; rewrite /NdModel.norm_index /before_last /at_last /more /=.
    case: J => [|c J] /=; first by case: a.
    by case: (PeanoNat.Nat.eqb _ _).
  Qed.
  Lemma grd_one (e : gt F) J (f : index -> 'rV[F]_n) y (j : 'I_n) : gv T e J f -> n = 1%N -> grd e y = f (before_last y) ord0 j.
  Proof.
    move=> G n1; case: (G) => B C A; rewrite -(gv_grd j _ G) /grd B; congr (gat e _).
    apply: FunctionalExtensionality.functional_extensionality => [[|a]] //; rewrite /NdModel.norm_index /=; by case: PeanoNat.Nat.eqb_spec.
  Qed.
  Lemma grd_w (w : seq F) ix : grd (weights_nd w) ix = nth 0 w (if size w == 1%N then 0%N else ix 0%N).
  Proof.
    rewrite /grd /= /NdModel.norm_index /=; case: PeanoNat.Nat.eqb_spec => [->|N] //.
    by case: eqP.
  Qed.
  Lemma g_weighted (wt : gt F) (w : seq F) (e : gt F) J (f : index -> 'rV[F]_n) : gv T e J f -> gsh wt = [:: size w; 1%N] ->
    (forall ix : index, (ix 0 < size w)%N -> grd wt ix = nth 0 w (ix 0%N)) ->
    (size w = 1%N -> forall ix : index, grd wt ix = nth 0 w 0%N) ->
    ((exists2 s, broadcast_mul w (seq_of (f (fun _ => 0%N))) = Ok s & True) ->
      exists2 r, (let? r := gpt2 *%R wt e in sum_last true r) = Some r &
       gsh r = 1%N :: more J /\ forall ix, (do s <- broadcast_mul w (seq_of (f (before_last ix))); Ok (sum s)) = Ok (grd r ix)) /\
    (forall er, broadcast_mul w (seq_of (f (fun _ => 0%N))) = Raises er -> (let? r := gpt2 *%R wt e in sum_last true r) = None).
  Proof.
    move=> G Sw W W1; case: (G) => B C A.
    have Sh : bshape (gsh wt) (gsh e) = (let? d := NdModel.bdim (size w) n in Some (d :: more J)) by rewrite Sw B bshape_w.
    have Core d g : NdModel.bdim (size w) n = Some d ->
        (forall ix (i : nat), (i < d)%N -> grd wt (norm_index (d :: more J) (at_last i ix)) * grd e (norm_index (d :: more J) (at_last i ix)) = g (f ix) i) ->
        exists2 r, (let? r := gpt2 *%R wt e in sum_last true r) = Some r &
          gsh r = 1%N :: more J /\ forall ix, grd r ix = \sum_(i < d) g (f (before_last ix)) i.
      move=> Ed H; case Ep: (gpt2 *%R wt e) => [r|]; last by move: Ep; rewrite /gpt2 Sh Ed.
      have Sr : gsh r = d :: more J by move: (gsh_gpt2 Ep); rewrite Sh Ed => -[].
      rewrite /sum_last Sr; eexists; first by []. split=> // ix; rewrite {1}/grd /=; apply: eq_bigr => i _.
      rewrite (grd_gpt2 _ Ep) Sr H //; apply: (congr1 (fun w => g w i)); apply: gv_same G _.
      apply: FunctionalExtensionality.functional_extensionality => a; rewrite /NdModel.norm_index /before_last /more /=.
      case: (J) => [|c J'] /=; first by case: a.
      by case: (PeanoNat.Nat.eqb _ _).
    have Bs v : size (seq_of v) = n by exact: size_seq.
    have fE d i ix : f (before_last (norm_index (d :: more J) (at_last i ix))) = f ix.
      by rewrite -(gv_norm _ G) norm_more (gv_norm _ G).
    rewrite /broadcast_mul Bs.
    have [Ew|Nw] := eqVneq (size w) n.
    { split=> // _; have Ed : NdModel.bdim (size w) n = Some n by rewrite Ew NdProofs.bdim_same.
      have [|r -> [S R]] := Core n (fun v i => nth 0 w i * nth 0 (seq_of v) i) Ed.
        move=> ix i Li; have L0 : norm_index (n :: more J) (at_last i ix) 0%N = i by exact: (last_ord (n := n) (more J) (ix := at_last i ix) (j := Ordinal Li)).
        rewrite W L0 ?Ew // -[i in nth 0 (seq_of _) i]/(nat_of_ord (Ordinal Li)) nth_seq; congr (_ * _).
        by rewrite (A _ (Ordinal Li)) ?fE.
      exists r => //; split=> // ix; rewrite Bs Ew eqxx /=; congr Ok; rewrite R sum_nth size_map size_zip Bs Ew minnn.
      by apply: eq_bigr => i _; rewrite (nth_map (0, 0)) ?nth_zip ?Bs ?Ew // size_zip Bs Ew minnn. }
    have [n1|n1] := eqVneq n 1%N.
    { split=> // _; have j0 : 'I_n by rewrite n1; exact: ord0.
      have Ed : NdModel.bdim (size w) n = Some (size w).
        rewrite /NdModel.bdim n1; case: PeanoNat.Nat.eqb_spec => // E; by move: Nw; rewrite n1 E eqxx.
      have [|r -> [S R]] := Core (size w) (fun v i => nth 0 w i * v ord0 j0) Ed.
        move=> ix i Li; have L0 : norm_index (size w :: more J) (at_last i ix) 0%N = i by exact: (last_ord (n := size w) (more J) (ix := at_last i ix) (j := Ordinal Li)).
        by rewrite W L0 // (grd_one _ j0 G n1) fE.
      exists r => //; split=> // ix; rewrite Bs (negPf Nw) n1 /=; congr Ok; rewrite R sum_nth size_map.
      apply: eq_bigr => i _; rewrite (nth_map 0) //; congr (_ * _).
      by rewrite -nth0 -[0%N]/(nat_of_ord (Ordinal (ltn0Sn 0))) -(nth_seq _ j0); congr (nth 0 _ _); rewrite /=; move: (ltn_ord j0); rewrite {2}n1; case: (nat_of_ord j0). }
    have [w1|w1] := eqVneq (size w) 1%N.
    { split=> // _; have Ed : NdModel.bdim (size w) n = Some n.
        by rewrite /NdModel.bdim w1; case: PeanoNat.Nat.eqb_spec => [->|].
      have [|r -> [S R]] := Core n (fun v i => nth 0 w 0%N * nth 0 (seq_of v) i) Ed.
        move=> ix i Li; have L0 : norm_index (n :: more J) (at_last i ix) 0%N = i by exact: (last_ord (n := n) (more J) (ix := at_last i ix) (j := Ordinal Li)).
        rewrite W1 // -[i in nth 0 (seq_of _) i]/(nat_of_ord (Ordinal Li)) nth_seq; congr (_ * _).
        by rewrite (A _ (Ordinal Li)) ?fE.
      exists r => //; split=> // ix; rewrite Bs (negPf Nw) (negPf n1) /=; congr Ok; rewrite R sum_nth size_map Bs.
      by apply: eq_bigr => i _; rewrite (nth_map 0) ?Bs // nth0. }
    split; first by case.
    move=> er _; rewrite /gpt2 Sh /NdModel.bdim.
    by case: PeanoNat.Nat.eqb_spec => [E|_]; [move: Nw; rewrite E eqxx|case: PeanoNat.Nat.eqb_spec => [E|_]; [move: w1; rewrite E|case: PeanoNat.Nat.eqb_spec => [E|_] //; move: n1; rewrite E]].
  Qed.
  Definition is_ok A (r : res A) : bool := if r is Ok _ then true else false.
  Lemma metric_ok (m : metric F) (v v' : 'rV[F]_n) : is_ok (compute_metric m (seq_of v)) = is_ok (compute_metric m (seq_of v')).
  Proof.
    have E : size (seq_of v) = size (seq_of v') by rewrite !size_seq.
    case: m => [|||w|w] //=.
    - by case: (seq_of v) (seq_of v') E => [|a s] [|b t].
    - by rewrite /broadcast_mul E; do ! case: ifP.
    - by rewrite /broadcast_mul size_map E; do ! case: ifP.
  Qed.
  Lemma grd_gpt1 h (g : gt F) ix : grd (gpt1 h g) ix = h (grd g ix).
  Proof. by rewrite {1}/grd /= grd_norm. Qed.
  Lemma w_conds (w : seq F) : gsh (weights_nd w) = [:: size w; 1%N] /\
    (forall ix : index, (ix 0 < size w)%N -> grd (weights_nd w) ix = nth 0 w (ix 0%N)) /\
    (size w = 1%N -> forall ix : index, grd (weights_nd w) ix = nth 0 w 0%N).
  Proof.
    split=> //; split=> [ix L|E ix]; rewrite grd_w; last by rewrite E.
    by case: eqP L => // -> ; case: (ix 0%N).
  Qed.
  Lemma relu_conds (w : seq F) : let w' := [seq Num.max x 0 | x <- w] in
    gsh (gpt1 (fun x => Num.max x 0) (weights_nd w)) = [:: size w'; 1%N] /\
    (forall ix : index, (ix 0 < size w')%N -> grd (gpt1 (fun x => Num.max x 0) (weights_nd w)) ix = nth 0 w' (ix 0%N)) /\
    (size w' = 1%N -> forall ix : index, grd (gpt1 (fun x => Num.max x 0) (weights_nd w)) ix = nth 0 w' 0%N).
  Proof.
    have [A [B C]] := w_conds w; move=> w'; rewrite /w' size_map; split=> //; split=> [ix L|E ix]; rewrite grd_gpt1.
    - by rewrite B // (nth_map 0).
    - by rewrite C // (nth_map 0) ?E.
  Qed.
  Lemma g_metric (m : metric F) (v : gt F) J (f : index -> 'rV[F]_n) : gv T v J f ->
    ((forall ix, is_ok (compute_metric m (seq_of (f ix)))) ->
      exists r, [/\ compute_metric_nd m v = Some r, gsh r = result_shape m J &
        forall ix, compute_metric m (seq_of (f (result_at m ix))) = Ok (grd r ix)]) /\
    (forall ix, ~~ is_ok (compute_metric m (seq_of (f ix))) -> compute_metric_nd m v = None).
  Proof.
    move=> G; split.
    - move=> H; case: m H => [|||w|w] H.
      + have [r Er [S R]] := g_sum_last false (gv_pt1 (fun x => x ^+ 2) G); exists (gpt1 Num.sqrt r).
        rewrite /compute_metric_nd Er; split=> // ix; rewrite /compute_metric grd_gpt1 R sum_seq.
        by congr (Ok (Num.sqrt _)); apply: eq_bigr => j _; rewrite mxE.
      + have [r Er [S R]] := g_sum_last true G; exists r; split=> // ix; rewrite /= R -(sum_seq _ id) map_id.
        by congr Ok.
      + have n0 : (0 < n)%N by have := H (fun _ => 0%N); rewrite /=; case E: (seq_of _) (size_seq (f (fun _ => 0%N))) => [|a s] //= <-.
        have Lx : (n.-1 < n)%N by rewrite prednK.
        have [r Er [S R]] := g_last (x := Ordinal Lx) G (prednK n0); exists r; split=> // ix; rewrite /= -/(before_last ix) R.
        have := size_seq (f (before_last ix)); have := nth_seq (f (before_last ix)) (Ordinal Lx).
        case: (seq_of _) => [|a s] /= <-; first by move=> E; move: n0; rewrite -E.
        by move=> <-; rewrite /= -(last_nth 0 a s).
      + have [A [B C]] := w_conds w; have [H1 _] := g_weighted G A B C.
        have /H1 [r Er [S R]] : exists2 s, broadcast_mul w (seq_of (f (fun _ => 0%N))) = Ok s & True.
          by have := H (fun _ => 0%N); rewrite /=; case: (broadcast_mul _ _) => // s _; exists s.
        by exists r.
      + have [A [B C]] := relu_conds w; have [H1 _] := g_weighted G A B C.
        have /H1 [r Er [S R]] : exists2 s, broadcast_mul [seq Num.max x 0 | x <- w] (seq_of (f (fun _ => 0%N))) = Ok s & True.
          by have := H (fun _ => 0%N); rewrite /=; case: (broadcast_mul _ _) => // s _; exists s.
        by exists r.
    - move=> ix; rewrite (metric_ok m _ (f (fun _ => 0%N))); case: m => [|||w|w] //=.
      + case: (G) => B _ _; rewrite /last_entry B; have := size_seq (f (fun _ => 0%N)); case: (seq_of _) => //= E _.
        by move: E; case: {1 2}n => //.
      + have [A [B C]] := w_conds w; have [_ H1] := g_weighted G A B C.
        case E: (broadcast_mul _ _) => [s|er] //= _; exact: H1 E.
      + have [A [B C]] := relu_conds w; have [_ H1] := g_weighted G A B C.
        case E: (broadcast_mul _ _) => [s|er] //= _; exact: H1 E.
  Qed.
End Metrics.
