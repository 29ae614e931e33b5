(** Property C141: training on the matrix manifolds commutes with their symmetries.
    [sgd_run], [adam_run]: the optimizers on one matrix parameter, one gradient
    function per step.  Sizes, numbers of steps and losses are arbitrary. *)
From mathcomp Require Import all_ssreflect all_algebra.
From Verif Require Import StiefelModel StiefelSpec StiefelProofs SpdModel SpdSpec SpdProofs SpdProofs2 SpdProofs3 RStruct
  MatDescentSpec MatDescentInst MatSymModel MatSymSpec MatSymProofs MatSymProofs2 MatSymProofs3.
Import GRing.Theory Num.Theory.
Local Open Scope ring_scope.
Set Implicit Arguments. Unset Strict Implicit. Unset Printing Implicit Defensive.

(** The gradients used below are the gradients of the moved losses. *)
Theorem C141_turned_gradient : forall (F : realFieldType) n p (Q : 'M[F]_n) (R : 'M[F]_p) f (x g : 'M[F]_(n, p)),
  orthogonal Q -> orthogonal R -> differentiable f x g ->
  turned_loss Q R f (turn Q R x) = f x /\ differentiable (turned_loss Q R f) (turn Q R x) (turn Q R g).
Proof. exact (fun F n p Q R f x g HQ HR H => conj (f_equal f (mv_back HQ HR x)) (turned_gradient HQ HR H)). Qed.
Print Assumptions C141_turned_gradient.
Theorem C141_congr_gradient : forall (F : rcfType) n (a : 'M[F]_n) f (x g : 'M[F]_n), a \in unitmx ->
  differentiable f x g ->
  congr_loss a f (congr a x) = f x /\ differentiable (congr_loss a f) (congr a x) ((invmx a)^T *m g *m invmx a).
Proof. exact (fun F n a f x g A H => conj (f_equal f (cg_back A x)) (congr_gradient A H)). Qed.
Print Assumptions C141_congr_gradient.
Example C141_gradient_case : forall F : rcfType, orthogonal (swap F) /\ (2%:R%:M : 'M[F]_1) \in unitmx /\
  forall n p (g x : 'M[F]_(n, p)), differentiable (pairing g) x g.
Proof. exact (fun F => conj (swap_on F) (conj (two_unit F) (@linear_diff F))). Qed.

(** ** CanonicalStiefel: both rotations, all options *)
Theorem C141_canonical_operations : forall (F : realFieldType) n p (Q : 'M[F]_n) (R : 'M[F]_p) (x u v : 'M[F]_(n, p)),
  orthogonal Q -> orthogonal R ->
  let m := turn Q R in
  canonical_proju (m x) (m u) = m (canonical_proju x u) /\
  canonical_inner (m x) (m u) (m v) = canonical_inner x u v /\
  canonical_retr (m x) (m u) = m (canonical_retr x u) /\
  transp_follow_retr (m x) (m u) (m v) = m (transp_follow_retr x u v).
Proof.
  exact (fun F n p Q R x u v HQ HR => conj (canonical_proju_mv HQ HR x u) (conj (canonical_inner_mv HQ HR x u v)
    (conj (canonical_retr_mv HQ HR x u) (transp_follow_mv HQ HR x u v)))).
Qed.
Print Assumptions C141_canonical_operations.
Theorem C141_canonical_sgd : forall (F : realFieldType) n p (Q : 'M[F]_n) (R : 'M[F]_p) (h : sgd F)
  (gs : seq ('M[F]_(n, p) -> 'M[F]_(n, p))) x,
  orthogonal Q -> orthogonal R ->
  let run := sgd_run (canonical_ops F n p) h in
  run [seq turned_grad Q R g | g <- gs] (turn Q R x) =
  (turn Q R (run gs x).1, omap (turn Q R) (run gs x).2).
Proof. exact (fun F n p Q R h gs x HQ HR => sgd_canonical HQ HR h gs x). Qed.
Print Assumptions C141_canonical_sgd.
Theorem C141_canonical_adam : forall (F : realFieldType) n p (Q : 'M[F]_n) (R : 'M[F]_p) fsqrt (h : adam F)
  (gs : seq ('M[F]_(n, p) -> 'M[F]_(n, p))) x,
  orthogonal Q -> orthogonal R ->
  let run := adam_run (canonical_ops F n p) fsqrt h in
  let st := run gs x in
  run [seq turned_grad Q R g | g <- gs] (turn Q R x) =
  AState (turn Q R (t_x st)) (t_step st) (turn Q R (t_avg st)) (t_sq st) (t_max st).
Proof. exact (fun F n p Q R fsqrt h gs x HQ HR => adam_canonical HQ HR fsqrt h gs x). Qed.
Print Assumptions C141_canonical_adam.

(** ** EuclideanStiefelExact: both rotations, all options; [expm] is matrix_exp *)
Theorem C141_exact_sgd : forall (F : realFieldType) n p (Q : 'M[F]_n) (R : 'M[F]_p) expm (h : sgd F)
  (gs : seq ('M[F]_(n, p) -> 'M[F]_(n, p))) x,
  orthogonal Q -> orthogonal R -> exponential expm ->
  let run := sgd_run (exact_ops n p expm) h in
  run [seq turned_grad Q R g | g <- gs] (turn Q R x) =
  (turn Q R (run gs x).1, omap (turn Q R) (run gs x).2).
Proof. exact (fun F n p Q R expm h gs x HQ HR => sgd_exact HQ HR h gs x (expm := expm)). Qed.
Print Assumptions C141_exact_sgd.
Theorem C141_exact_adam : forall (F : realFieldType) n p (Q : 'M[F]_n) (R : 'M[F]_p) expm fsqrt (h : adam F)
  (gs : seq ('M[F]_(n, p) -> 'M[F]_(n, p))) x,
  orthogonal Q -> orthogonal R -> exponential expm ->
  let run := adam_run (exact_ops n p expm) fsqrt h in
  let st := run gs x in
  run [seq turned_grad Q R g | g <- gs] (turn Q R x) =
  AState (turn Q R (t_x st)) (t_step st) (turn Q R (t_avg st)) (t_sq st) (t_max st).
Proof. exact (fun F n p Q R expm fsqrt h gs x HQ HR => adam_exact HQ HR fsqrt h gs x (expm := expm)). Qed.
Print Assumptions C141_exact_adam.

(** ** EuclideanStiefel: rotations of the rows; [qr] is torch.linalg.qr, any
    factorisation.  SGD without momentum, Adam with all options. *)
Theorem C141_euclidean_sgd : forall (F : realFieldType) n p (Q : 'M[F]_n) qr (h : sgd F)
  (gs : seq ('M[F]_(n, p) -> 'M[F]_(n, p))) x,
  orthogonal Q -> (forall m, qr_of m (qr m).1 (qr m).2) -> s_momentum h = 0 -> on_stiefel x ->
  let run := sgd_run (euclidean_ops qr) h in
  (run [seq turned_grad Q 1%:M g | g <- gs] (turn Q 1%:M x)).1 = turn Q 1%:M (run gs x).1.
Proof. exact (fun F n p Q qr h gs x HQ H M X => f_equal fst (sgd_euclidean HQ H gs M X)). Qed.
Print Assumptions C141_euclidean_sgd.
Theorem C141_euclidean_adam : forall (F : realFieldType) n p (Q : 'M[F]_n) qr fsqrt (h : adam F)
  (gs : seq ('M[F]_(n, p) -> 'M[F]_(n, p))) x,
  orthogonal Q -> (forall m, qr_of m (qr m).1 (qr m).2) -> on_stiefel x ->
  let run := adam_run (euclidean_ops qr) fsqrt h in
  let st := run gs x in
  run [seq turned_grad Q 1%:M g | g <- gs] (turn Q 1%:M x) =
  AState (turn Q 1%:M (t_x st)) (t_step st) (turn Q 1%:M (t_avg st)) (t_sq st) (t_max st).
Proof. exact (fun F n p Q qr fsqrt h gs x HQ H X => adam_euclidean HQ H fsqrt h gs X). Qed.
Print Assumptions C141_euclidean_adam.
(** Such a qr exists for all sizes the class accepts. *)
Theorem C141_qr_exists : forall (F : rcfType) n p, (p <= n)%N ->
  exists qr : 'M[F]_(n, p) -> 'M[F]_(n, p) * 'M[F]_p, forall m, qr_of m (qr m).1 (qr m).2.
Proof. exact (qr_function). Qed.
Print Assumptions C141_qr_exists.
(** Rotations of the columns do not commute with its retraction: exchanging two
    columns, whatever factorisations are returned. *)
Theorem C141_columns_refuted : forall F : realFieldType, exists (x u : 'M[F]_(3, 2)) (R : 'M[F]_2),
  on_stiefel x /\ tangent x u /\ orthogonal R /\
  forall q r q' r', qr_of (x + u) q r -> qr_of (x *m R + u *m R) q' r' ->
  euclidean_retr q' r' <> euclidean_retr q r *m R.
Proof.
  exact (fun F => ex_intro _ (sx F) (ex_intro _ (su F) (ex_intro _ (swap F)
    (conj (sx_on F) (conj (su_tangent F) (conj (swap_on F) (@qr_swap F))))))).
Qed.
Print Assumptions C141_columns_refuted.
Example C141_stiefel_case : forall F : rcfType, on_stiefel (e0 F) /\ on_stiefel (sx F) /\ orthogonal (swap F) /\
  canonical_proju (e0 F) (e1 F) <> 0.
Proof. exact (fun F => conj (e0_on F) (conj (sx_on F) (conj (swap_on F) (proj1 (proj2 (proj2 (stiefel_case F))))))). Qed.

(** ** SymmetricPositiveDefinite: changes of basis *)
Theorem C141_spd_operations : forall (F : rcfType) eigh exp log mexp n (a x y u v g : 'M[F]_n),
  eigh_ok eigh -> explog exp log -> matrix_exp_ok exp mexp -> a \in unitmx ->
  pos_def x -> pos_def y -> symmetric u -> symmetric v ->
  let m := congr a in
  egrad2rgrad (m x) ((invmx a)^T *m g *m invmx a) = m (egrad2rgrad x g) /\
  inner (m x) (m u) (m v) = inner x u v /\
  retr (m x) (m u) = m (retr x u) /\
  expmap eigh mexp (m x) (m u) = m (expmap eigh mexp x u) /\
  logmap eigh log (m x) (m y) = m (logmap eigh log x y) /\
  transp eigh mexp log (m x) (m y) (m v) = m (transp eigh mexp log x y v).
Proof.
  exact (fun F eigh exp log mexp n a x y u v g E L M A X Y U V => conj (e_cg A x g) (conj (inner_cg A u v X)
    (conj (retr_cg A u X) (conj (expmap_cg A E M X U) (conj (logmap_cg A E log X Y) (transp_cg A E log M X Y V)))))).
Qed.
Print Assumptions C141_spd_operations.
Theorem C141_spd_sgd : forall (F : rcfType) eigh exp log mexp n (a : 'M[F]_n) (h : sgd F) (gs : seq ('M[F]_n -> 'M[F]_n)) x,
  eigh_ok eigh -> explog exp log -> matrix_exp_ok exp mexp -> a \in unitmx -> s_momentum h = 0 -> s_decay h = 0 -> pos_def x ->
  let run := sgd_run (spd_ops n eigh mexp log) h in
  (run [seq congr_grad a g | g <- gs] (congr a x)).1 = congr a (run gs x).1.
Proof.
  exact (fun F eigh exp log mexp n a h gs x E L M A H W X => f_equal fst (sgd_spd A E L M gs H W X)).
Qed.
Print Assumptions C141_spd_sgd.
Theorem C141_spd_adam : forall (F : rcfType) eigh exp log mexp n (a : 'M[F]_n) fsqrt (h : adam F)
  (gs : seq ('M[F]_n -> 'M[F]_n)) x,
  eigh_ok eigh -> explog exp log -> matrix_exp_ok exp mexp -> a \in unitmx -> a_decay h = 0 -> pos_def x ->
  let run := adam_run (spd_ops n eigh mexp log) fsqrt h in
  let st := run gs x in
  run [seq congr_grad a g | g <- gs] (congr a x) =
  AState (congr a (t_x st)) (t_step st) (congr a (t_avg st)) (t_sq st) (t_max st).
Proof.
  exact (fun F eigh exp log mexp n a fsqrt h gs x E L M A W X => adam_spd A E L M fsqrt gs W X).
Qed.
Print Assumptions C141_spd_adam.
(** Momentum breaks it (the buffer starts as the Euclidean gradient), and so does
    weight decay: 1 x 1 matrices, a = 2. *)
Theorem C141_spd_momentum_refuted : forall (F : rcfType) eigh mexp log, exists (h : sgd F) gs,
  s_momentum h = 1 /\ s_decay h = 0 /\ s_nesterov h = false /\
  let run := sgd_run (spd_ops 1 eigh mexp log) h in
  (run [seq congr_grad 2%:R%:M g | g <- gs] (congr 2%:R%:M 1%:M)).1 <> congr 2%:R%:M (run gs 1%:M).1.
Proof. exact (spd_momentum). Qed.
Print Assumptions C141_spd_momentum_refuted.
Theorem C141_spd_decay_refuted : forall (F : rcfType) eigh mexp log, exists (h : sgd F) gs,
  s_momentum h = 0 /\ s_decay h = 1 /\
  let run := sgd_run (spd_ops 1 eigh mexp log) h in
  (run [seq congr_grad 2%:R%:M g | g <- gs] (congr 2%:R%:M 1%:M)).1 <> congr 2%:R%:M (run gs 1%:M).1.
Proof. exact (spd_decay). Qed.
Print Assumptions C141_spd_decay_refuted.
Example C141_spd_case : pos_def (1%:M : 'M[R_rcfType]_1) /\ (2%:R%:M : 'M[R_rcfType]_1) \in unitmx /\
  eigh_ok (some_eigh (F := R_rcfType)) /\ explog (F := R_rcfType) Rtrigo_def.exp Rpower.ln /\
  matrix_exp_ok (F := R_rcfType) Rtrigo_def.exp (some_mexp Rtrigo_def.exp).
Proof.
  exact (conj (c1_pos _) (conj (two_unit _) (conj (@some_eigh_ok _) (conj R_explog (some_mexp_ok (F := R_rcfType) Rtrigo_def.exp))))).
Qed.
