(** Lemmas: training keeps matrix parameters on their manifold and the moments tangent. *)
From mathcomp Require Import all_ssreflect all_algebra.
From Verif Require Import StiefelModel StiefelSpec StiefelProofs Spectral SpdModel SpdSpec SpdProofs SpdProofs2 MatSymModel MatSymProofs MatSymProofs2.
Import Order.TTheory GRing.Theory Num.Theory.
Local Open Scope ring_scope.
Set Implicit Arguments. Unset Strict Implicit. Unset Printing Implicit Defensive.
Local Arguments adam_step : simpl never.
Local Arguments sgd_step : simpl never.

Section Loop.
  Variables (F : realFieldType) (n p : nat) (o : ops F n p).
  Notation M := 'M[F]_(n, p).
  Variables (P : M -> Prop) (T : M -> M -> Prop).
  Hypothesis T0 : forall x, T x 0.
  Hypothesis Tlin : forall x k a b, T x a -> T x b -> T x (k *: a + b).
  Hypothesis Tgrad : forall x g, P x -> T x (o_egrad2rgrad o x g).
  Lemma TsZ x k a : T x a -> T x (k *: a).
  Proof. move=> H. rewrite -[k *: a]addr0. exact: Tlin. Qed.
  Section Adam.
    Hypothesis Pstep : forall x u v, P x -> T x u -> T x v -> P (o_retr_transp o x u v).1 /\ T (o_retr_transp o x u v).1 (o_retr_transp o x u v).2.
    Variable fsqrt : F -> F.
    Lemma adam_step_inv h st g : P (t_x st) -> T (t_x st) (t_avg st) ->
      P (t_x (adam_step o fsqrt h st g)) /\ T (t_x (adam_step o fsqrt h st g)) (t_avg (adam_step o fsqrt h st g)).
    Proof.
      move=> HP HT. rewrite /adam_step. set r := o_egrad2rgrad _ _ _.
      have A : T (t_x st) (a_b1 h *: t_avg st + (1 - a_b1 h) *: r).
        apply: Tlin => //. apply: TsZ. exact: Tgrad.
      move: (a_b1 h *: t_avg st + _) A => avg A. set d := (- a_lr h) *: _.
      have D : T (t_x st) d by do 3 apply: TsZ.
      have := Pstep HP D A. by case: (o_retr_transp _ _ _ _).
    Qed.
    Lemma adam_run_inv h gs x : P x ->
      P (t_x (adam_run o fsqrt h gs x)) /\ T (t_x (adam_run o fsqrt h gs x)) (t_avg (adam_run o fsqrt h gs x)).
    Proof.
      move=> HP. rewrite /adam_run. have : P (t_x (AState x 0 0 0 0)) /\ T (t_x (AState x 0 0 0 0)) (t_avg (AState x 0 0 0 0)) by [].
      elim: gs (AState x 0 0 0 0) => [|g gs IH] st [A B] //=. apply: IH. exact: adam_step_inv.
    Qed.
  End Adam.
  (** without momentum *)
  Lemma sgd_run_inv h gs x : (forall x u, P x -> T x u -> P (o_retr o x u)) -> s_momentum h = 0 -> P x ->
    P (sgd_run o h gs x).1 /\ (sgd_run o h gs x).2 = None.
  Proof.
    move=> Pr m0 HP. rewrite /sgd_run. have : P (x, None : option M).1 /\ (x, None : option M).2 = None by [].
    elim: gs (x, None : option M) => [|g gs IH] [y b] [A B] //=. apply: IH. rewrite /sgd_step m0 ltxx. split=> //=.
    apply: Pr => //. apply: TsZ. exact: Tgrad.
  Qed.
  (** whatever the direction *)
  Lemma sgd_run_absorb h gs x : (forall x u, P x -> P (o_retr o x u)) ->
    (forall x u v, P x -> P (o_retr_transp o x u v).1) -> P x -> P (sgd_run o h gs x).1.
  Proof.
    move=> Pr Pt HP. rewrite /sgd_run. have : P (x, None : option M).1 by [].
    elim: gs (x, None : option M) => [|g gs IH] [y b] A //=. apply: IH. rewrite /sgd_step.
    case: ifP => _; last exact: Pr.
    rewrite (surjective_pairing (o_retr_transp _ _ _ _)) /=. exact: Pt.
  Qed.
End Loop.

Section Stiefel.
  Variables (F : realFieldType) (n p : nat) (fsqrt : F -> F).
  Notation M := 'M[F]_(n, p).
  Definition safe (st : astate F n p) : Prop := on_stiefel (t_x st) /\ tangent (t_x st) (t_avg st).
  Lemma adam_canonical_inv h gs (x : M) : on_stiefel x -> safe (adam_run (canonical_ops F n p) fsqrt h gs x).
  Proof.
    move=> X. apply: (@adam_run_inv F n p (canonical_ops F n p) (@on_stiefel F n p) (@tangent F n p)) => //.
    - exact: tangent_0.
    - exact: tangent_lin.
    - move=> y g Y. exact: canonical_proju_tangent.
    - move=> y u v Y U V. rewrite -[o_retr_transp _ _ _ _]/(StiefelModel.retr_transp y u v) retr_transpE. split; [exact: StiefelProofs.retr_on|exact: StiefelProofs.transp_tangent].
  Qed.
  Lemma sgd_canonical_inv h gs (x : M) : on_stiefel x -> on_stiefel (sgd_run (canonical_ops F n p) h gs x).1.
  Proof.
    apply: sgd_run_absorb => [y u|y u v] Y; first exact: StiefelProofs.retr_on.
    rewrite -[o_retr_transp _ _ _ _]/(StiefelModel.retr_transp y u v) retr_transpE. exact: StiefelProofs.retr_on.
  Qed.
  Section Qr.
    Variable qr : M -> M * 'M[F]_p.
    Hypothesis QR : forall m, qr_of m (qr m).1 (qr m).2.
    Lemma adam_euclidean_inv h gs (x : M) : on_stiefel x -> safe (adam_run (euclidean_ops qr) fsqrt h gs x).
    Proof.
      move=> X. apply: (@adam_run_inv F n p (euclidean_ops qr) (@on_stiefel F n p) (@tangent F n p)) => //.
      - exact: tangent_0.
      - exact: tangent_lin.
      - move=> y g Y. exact: proju_tangent.
      - move=> y u v Y U V /=. have Z := MatSymProofs2.retr_on QR y u. split=> //. exact: proju_tangent.
    Qed.
    Lemma sgd_euclidean_inv h gs (x : M) : on_stiefel x -> on_stiefel (sgd_run (euclidean_ops qr) h gs x).1.
    Proof. apply: sgd_run_absorb => [y u|y u v] Y /=; exact: MatSymProofs2.retr_on. Qed.
  End Qr.
  Section Exact.
    Variable expm : forall m, 'M[F]_m -> 'M[F]_m.
    Hypothesis EX : exponential expm.
    Lemma adam_exact_inv h gs (x : M) : on_stiefel x -> safe (adam_run (exact_ops n p expm) fsqrt h gs x).
    Proof.
      move=> X. apply: (@adam_run_inv F n p (exact_ops n p expm) (@on_stiefel F n p) (@tangent F n p)) => //.
      - exact: tangent_0.
      - exact: tangent_lin.
      - move=> y g Y. exact: proju_tangent.
      - move=> y u v Y U V /=. have Z := expmap_on EX Y U. split=> //. exact: proju_tangent.
    Qed.
    Lemma sgd_exact_inv h gs (x : M) : s_momentum h = 0 -> on_stiefel x -> on_stiefel (sgd_run (exact_ops n p expm) h gs x).1.
    Proof.
      move=> m0 X. apply: (proj1 (@sgd_run_inv F n p (exact_ops n p expm) (@on_stiefel F n p) (@tangent F n p) _ _ _ h gs x _ m0 X)).
      - exact: tangent_0.
      - exact: tangent_lin.
      - move=> y g Y. exact: proju_tangent.
      - move=> y u Y U. exact: expmap_on.
    Qed.
  End Exact.
End Stiefel.

Section Spd.
  Variables (F : rcfType) (n : nat).
  Notation M := 'M[F]_n.
  Variables (eigh : forall n, 'M[F]_n -> 'rV[F]_n * 'M[F]_n) (exp log : F -> F) (mexp : forall n, 'M[F]_n -> 'M[F]_n).
  Hypotheses (EO : eigh_ok eigh) (EL : explog exp log) (MX : matrix_exp_ok exp mexp).
  Lemma sym0 (x : M) : symmetric (0 : M). Proof. exact: trmx0. Qed.
  Lemma symlin (x : M) k a b : symmetric a -> symmetric b -> symmetric (k *: a + b : M).
  Proof. rewrite /symmetric => A B. by rewrite linearD linearZ /= A B. Qed.
  Lemma adam_spd_inv fsqrt h gs (x : M) : pos_def x ->
    pos_def (t_x (adam_run (spd_ops n eigh mexp log) fsqrt h gs x)) /\
    symmetric (t_avg (adam_run (spd_ops n eigh mexp log) fsqrt h gs x)).
  Proof.
    move=> X. apply: (@adam_run_inv F n n (spd_ops n eigh mexp log) (@pos_def F n) (fun _ => @symmetric F n)) => //.
    - exact: sym0.
    - exact: symlin.
    - move=> y g Y. exact: rgrad_tangent.
    - move=> y u v Y U V /=. have Z := retr_pos Y U. split=> //. exact: (SpdProofs2.transp_tangent EO EL MX).
  Qed.
  Lemma sgd_spd_inv h gs (x : M) : s_momentum h = 0 -> pos_def x -> pos_def (sgd_run (spd_ops n eigh mexp log) h gs x).1.
  Proof.
    move=> m0 X. apply: (proj1 (@sgd_run_inv F n n (spd_ops n eigh mexp log) (@pos_def F n) (fun _ => @symmetric F n) _ _ _ h gs x _ m0 X)).
    - exact: sym0.
    - exact: symlin.
    - move=> y g Y. exact: rgrad_tangent.
    - move=> y u Y U. exact: retr_pos.
  Qed.
  (** retr_transp moves vectors isometrically to the new point *)
  Lemma spd_isometry (x u v w : M) : pos_def x -> symmetric u -> symmetric v -> symmetric w ->
    let y := retr x u in
    (o_retr_transp (spd_ops n eigh mexp log) x u v).1 = y /\
    inner y (o_retr_transp (spd_ops n eigh mexp log) x u v).2 (o_retr_transp (spd_ops n eigh mexp log) x u w).2 = inner x v w.
  Proof.
    move=> X U V W /=. split=> //. apply: (transp_isometry EO EL MX) => //. exact: retr_pos.
  Qed.
End Spd.
