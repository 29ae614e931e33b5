(** Lemmas: critical points of the matrix manifolds are fixed points of training. *)
From Coq Require Import Reals.
From mathcomp Require Import all_ssreflect all_algebra.
From Verif Require Import RStruct RExp StiefelModel StiefelSpec StiefelProofs SpdModel SpdSpec SpdProofs SpdProofs2 MatSymModel MatGeoSpec MatGeoInst SpdProofs3 MatDescentInst FixedMatSpec.
Import Order.TTheory GRing.Theory Num.Theory.
Local Open Scope ring_scope.
Set Implicit Arguments. Unset Strict Implicit. Unset Printing Implicit Defensive.

Section Loop.
  Variables (F : realFieldType) (n p : nat) (o : ops F n p) (x : 'M[F]_(n, p)).
  Hypothesis R0 : o_retr o x 0 = x.
  Hypothesis T0 : o_retr_transp o x 0 0 = (x, 0).
  Lemma sgd_stays h (gs : seq ('M[F]_(n, p) -> 'M[F]_(n, p))) : s_momentum h = 0 -> s_decay h = 0 ->
    List.Forall (fun g => o_egrad2rgrad o x (g x) = 0) gs -> (sgd_run o h gs x).1 = x.
  Proof.
    move=> m0 d0. rewrite /sgd_run. move: None. elim: gs => [|g gs IH] b //= /List.Forall_cons_iff [C H].
    rewrite m0 ltxx d0 scale0r addr0 C scaler0 R0. exact: IH.
  Qed.
  Lemma adam_stays fsqrt h (gs : seq ('M[F]_(n, p) -> 'M[F]_(n, p))) : a_decay h = 0 ->
    List.Forall (fun g => o_egrad2rgrad o x (g x) = 0) gs -> t_x (adam_run o fsqrt h gs x) = x.
  Proof.
    move=> d0. rewrite /adam_run.
    have H : forall k sq mx, List.Forall (fun g => o_egrad2rgrad o x (g x) = 0) gs ->
      t_x (foldl (fun st g => adam_step o fsqrt h st (g (t_x st))) (AState x k 0 sq mx) gs) = x; last exact: H.
    elim: gs => [|g gs IH] k sq mx //= /List.Forall_cons_iff [C H].
    have [k' [sq' [mx' ->]]] : exists k' sq' mx', adam_step o fsqrt h (AState x k 0 sq mx) (g x) = AState x k' 0 sq' mx'; last exact: IH.
    rewrite /adam_step [t_x (AState _ _ _ _ _)]/= [t_avg (AState _ _ _ _ _)]/= d0 scale0r addr0 C !scaler0 addr0 !scaler0 T0. by do 3 eexists.
  Qed.
End Loop.

Lemma stays_of (F : realFieldType) n p (o : ops F n p) (x : 'M[F]_(n, p)) : o_retr o x 0 = x -> o_retr_transp o x 0 0 = (x, 0) -> stays o x.
Proof. move=> R0 T0 gs C. split=> *; [exact: sgd_stays|exact: adam_stays]. Qed.
Lemma canonical_stays (F : realFieldType) n p (x : 'M[F]_(n, p)) : stays (canonical_ops F n p) x.
Proof.
  apply: stays_of; first exact: StiefelProofs.retr_0.
  rewrite -[o_retr_transp _ _ _ _]/(StiefelModel.retr_transp x 0 0) retr_transpE StiefelProofs.retr_0. congr pair.
  by rewrite /transp_follow_retr /transp_follow_one /cayley_rhs mulmx0 scaler0 addr0 mulmx0.
Qed.
Lemma eproju0 (F : realFieldType) n p (x : 'M[F]_(n, p)) : euclidean_proju x 0 = 0.
Proof. by rewrite /euclidean_proju /StiefelModel.sym mulmx0 trmx0 addr0 scaler0 mulmx0 subr0. Qed.
Lemma euclidean_stays (F : realFieldType) n p qr (x : 'M[F]_(n, p)) : (forall m, qr_of m (qr m).1 (qr m).2) -> on_stiefel x -> stays (euclidean_ops qr) x.
Proof.
  move=> Q X. have R0 : euclidean_retr (qr (x + 0)).1 (qr (x + 0)).2 = x by exact: StiefelProofs.retr_at_0.
  apply: stays_of => //=. by rewrite /base_retr_transp R0 /euclidean_transp eproju0.
Qed.
Lemma exact_stays n p (x : 'M[R]_(n, p)) : on_stiefel (F := R_realFieldType) x -> stays (exact_ops (F := R_realFieldType) n p rexpm) x.
Proof.
  move=> X. have T : tangent (F := R_realFieldType) x 0 by rewrite /tangent mulmx0 linear0 mul0mx addr0.
  have [v [G _]] := stiefel_summary X T. have R0 : euclidean_expmap (F := R_realFieldType) rexpm x 0 = x.
    case: G => G0 _. by rewrite scale0r in G0.
  apply: stays_of => //=. by rewrite /base_retr_transp R0 /euclidean_transp eproju0.
Qed.
Lemma spd_stays (F : rcfType) n eigh mexp log (x : 'M[F]_n) : pos_def x -> stays (spd_ops n eigh mexp log) x.
Proof.
  move=> [S _]. have R0 : SpdModel.retr x 0 = x by rewrite /SpdModel.retr scaler0 !mul0mx !addr0 SpdProofs.sym_id.
  apply: stays_of => //=. rewrite /base_retr_transp R0. congr pair. rewrite /SpdModel.transp.
  case: (sym_inv_sqrtm2 _ _) => a b. by rewrite mulmx0 mul0mx /sym trmx0 addr0 scaler0 mulmx0 !mul0mx.
Qed.
(** Cases *)
Section Cases.
  Variable F : rcfType.
  Lemma critical_case : on_stiefel (e0 F) /\ e0 F <> 0 /\ canonical_proju (e0 F) (e0 F) = 0 /\ euclidean_proju (e0 F) (e0 F) = 0.
  Proof.
    have X := e0_on F. split=> //. split.
      move/matrixP/(_ ord0 ord0). rewrite !mxE => /eqP. by rewrite oner_eq0.
    have S : (e0 F)^T *m e0 F = 1%:M by exact: X.
    split; first by rewrite /canonical_proju -mulmxA S mulmx1 subrr.
    rewrite /euclidean_proju /StiefelModel.sym S trmx1 -mulr2n -scaler_nat scalerA mulVf ?pnatr_eq0 // scale1r mulmx1 subrr. by [].
  Qed.
  Lemma critical_spd_case : pos_def (1%:M : 'M[F]_2) /\ exists g : 'M[F]_2, g <> 0 /\ egrad2rgrad 1%:M g = 0.
  Proof.
    split; first exact: one_pos. pose g : 'M[F]_2 := delta_mx ord0 ord_max - delta_mx ord_max ord0. exists g. split.
      move/matrixP/(_ ord0 ord_max). rewrite !mxE /= subr0 => /eqP. by rewrite oner_eq0.
    rewrite /egrad2rgrad /SpdModel.proju trmx1 mulmx1 mul1mx /sym /g linearB /= !trmx_delta.
    by rewrite addrC subrKA subrr scaler0.
  Qed.
End Cases.
