(** Model of the optimizers (geoopt/optim/rsgd.py, radam.py) on one matrix parameter
    of a matrix manifold, over any ordered field: one group, stabilize=None, a dense
    gradient at every step. *)
From mathcomp Require Import all_ssreflect all_algebra.
From Verif Require Import StiefelModel SpdModel.
Import GRing.Theory Num.Theory.
Local Open Scope ring_scope.
Set Implicit Arguments. Unset Strict Implicit. Unset Printing Implicit Defensive.

Section Optim.
  Variables (F : realFieldType) (n p : nat).
  Notation M := 'M[F]_(n, p).
  (** The methods of point.manifold the optimizers call. *)
  Record ops := Ops {
    o_egrad2rgrad : M -> M -> M;
    o_inner : M -> M -> M -> F;
    o_retr : M -> M -> M;
    o_retr_transp : M -> M -> M -> M * M }.
  (** base.py:503-530 Manifold.retr_transp from retr and transp *)
  Definition base_retr_transp (retr : M -> M -> M) (transp : M -> M -> M -> M) (x u v : M) : M * M :=
    let y := retr x u in (y, transp x y v).
  Variable o : ops.

  (** The options of RiemannianSGD, rsgd.py:40-63 *)
  Record sgd := Sgd { s_lr : F; s_momentum : F; s_dampening : F; s_decay : F; s_nesterov : bool }.
  (** rsgd.py:78-117 on one point. The state is the point and
      state["momentum_buffer"] (None: not created); [g] is point.grad. *)
  Definition sgd_step (h : sgd) (st : M * option M) (g : M) : M * option M :=
    let: (x, buf) := st in
    let r := o_egrad2rgrad o x (g + s_decay h *: x) in
    if 0 < s_momentum h then
      let b := s_momentum h *: odflt g buf + (1 - s_dampening h) *: r in
      let d := if s_nesterov h then r + s_momentum h *: b else b in
      let: (y, b') := o_retr_transp o x ((- s_lr h) *: d) b in (y, Some b')
    else (o_retr o x ((- s_lr h) *: r), buf).
  (** One call of step per gradient function (each batch has its own loss), the
      gradient being taken at the current point. *)
  Definition sgd_run (h : sgd) (gs : seq (M -> M)) (x : M) : M * option M :=
    foldl (fun st g => sgd_step h st (g st.1)) (x, None) gs.

  (** The options of RiemannianAdam *)
  Record adam := Adam { a_lr : F; a_b1 : F; a_b2 : F; a_eps : F; a_decay : F; a_amsgrad : bool }.
  (** The point and state["step"], ["exp_avg"], ["exp_avg_sq"], ["max_exp_avg_sq"].
      component_inner of a matrix manifold has one value for the whole matrix
      (base.py:631-660, keepdim), so the two squared averages have equal entries and
      are one number here. *)
  Record astate := AState { t_x : M; t_step : nat; t_avg : M; t_sq : F; t_max : F }.
  (** torch.sqrt *)
  Variable fsqrt : F -> F.
  (** radam.py:72-118 on one point *)
  Definition adam_step (h : adam) (st : astate) (g : M) : astate :=
    let x := t_x st in
    let k := (t_step st).+1 in
    let r := o_egrad2rgrad o x (g + a_decay h *: x) in
    let avg := a_b1 h *: t_avg st + (1 - a_b1 h) *: r in
    let sq := a_b2 h * t_sq st + (1 - a_b2 h) * o_inner o x r r in
    let c1 := 1 - a_b1 h ^+ k in
    let c2 := 1 - a_b2 h ^+ k in
    let mx := if a_amsgrad h then Num.max (t_max st) sq else t_max st in
    let denom := fsqrt ((if a_amsgrad h then mx else sq) / c2) in
    let dir := (denom + a_eps h)^-1 *: (c1^-1 *: avg) in
    let: (y, avg') := o_retr_transp o x ((- a_lr h) *: dir) avg in
    AState y k avg' sq mx.
  (** radam.py:75-84 state initialisation, then one step per gradient function *)
  Definition adam_run (h : adam) (gs : seq (M -> M)) (x : M) : astate :=
    foldl (fun st g => adam_step h st (g (t_x st))) (AState x 0 0 0 0) gs.
End Optim.
Arguments Ops {F n p}.

Section Instances.
  (** stiefel.py:141-212 CanonicalStiefel *)
  Definition canonical_ops (F : realFieldType) n p : ops F n p :=
    Ops (@canonical_proju F n p) (@canonical_inner F n p) (@canonical_retr F n p) (@StiefelModel.retr_transp F n p).
  (** stiefel.py:215-245 EuclideanStiefel; [qr] is torch.linalg.qr *)
  Definition euclidean_ops (F : realFieldType) n p (qr : 'M[F]_(n, p) -> 'M[F]_(n, p) * 'M[F]_p) : ops F n p :=
    let retr x u := euclidean_retr (qr (x + u)).1 (qr (x + u)).2 in
    Ops (@euclidean_proju F n p) (@euclidean_inner F n p) retr (base_retr_transp retr (@euclidean_transp F n p)).
  (** stiefel.py:259-274 EuclideanStiefelExact: retr = expmap; retr_transp and
      transp_follow_retr are the expmap ones, which the base class builds from expmap
      and transp (base.py:478-501) *)
  Definition exact_ops (F : realFieldType) n p (expm : forall m, 'M[F]_m -> 'M[F]_m) : ops F n p :=
    let retr := @euclidean_expmap F n p expm in
    Ops (@euclidean_proju F n p) (@euclidean_inner F n p) retr (base_retr_transp retr (@euclidean_transp F n p)).
  (** symmetric_positive_definite.py *)
  Definition spd_ops (F : rcfType) n (eigh : forall n, 'M[F]_n -> 'rV[F]_n * 'M[F]_n)
    (mexp : forall n, 'M[F]_n -> 'M[F]_n) (log : F -> F) : ops F n n :=
    Ops (@egrad2rgrad F n) (@inner F n) (@retr F n)
      (base_retr_transp (@retr F n) (@transp F eigh mexp log n)).
End Instances.
