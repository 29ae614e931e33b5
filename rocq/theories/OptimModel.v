(** Model of geoopt/optim: mixin.py, rsgd.py, radam.py, sparse_rsgd.py, sparse_radam.py.

    A dense tensor is a [vec] of its entries; in-place writes become new values of the
    field they write to.  Hyper-parameters are reals.  A parameter owns its optimizer
    state (torch keys [self.state] by parameter and rejects a parameter listed twice),
    so state is a field of the parameter.  A call that raises returns the optimizer as
    it was when the exception left [step], with a status.  The value returned by the
    closure is not modelled; the gradients it leaves are inputs. *)
From Coq Require Import Reals List Bool Arith.
From Verif Require Import RVec.
Import ListNotations.
Local Open Scope R_scope.

(** Pointwise tensor operations. *)
Definition vmul (u v : vec) : vec := fun i => u i * v i.
Definition vdivv (u v : vec) : vec := fun i => u i / v i.
Definition vsqrt (u : vec) : vec := fun i => sqrt (u i).
Definition vmax (u v : vec) : vec := fun i => Rmax (u i) (v i).
Definition vconst (a : R) : vec := fun _ => a.

(** What an optimizer uses of a manifold.  [egrad_arg x u] is the content of the
    tensor u after [egrad2rgrad(x, u)]; [egrad_same] says that the result shares u's
    memory (Euclidean returns a view of u; every other manifold a new tensor). *)
Record manifold := {
  egrad2rgrad : vec -> vec -> vec;
  egrad_arg : vec -> vec -> vec;
  egrad_same : bool;
  retr : vec -> vec -> vec;
  retr_transp : vec -> vec -> vec -> vec * vec;
  component_inner : vec -> vec -> vec;
  projx : vec -> vec;
  proju : vec -> vec -> vec
}.
(** manifolds/euclidean.py:41-108 and base.py:504-530 *)
Definition euclidean : manifold := {|
  egrad2rgrad := fun x u => u;
  egrad_arg := fun x u => u;
  egrad_same := true;
  retr := fun x u => vadd x u;
  retr_transp := fun x u v => (vadd x u, v);
  component_inner := fun x u => vmul u u;
  projx := fun x => x;
  proju := fun x u => u |}.

(** [p.grad] *)
Inductive gradient := NoGrad | Dense (g : vec) | Sparse.
Inductive status := Ok | RaisedRuntimeError | RaisedKeyError | RaisedZeroDivisionError.

(** A parameter; [man] is None for a plain torch Parameter (rsgd.py:91-94). *)
Record param (S : Type) := { man : option manifold; val : vec; grad : gradient; state : option S }.
Arguments man {S}. Arguments val {S}. Arguments grad {S}. Arguments state {S}.
Definition manifold_of {S} (p : param S) : manifold :=
  match man p with Some M => M | None => euclidean end.
Definition is_manifold {S} (p : param S) : bool := match man p with Some _ => true | None => false end.

(** [for point in group["params"]], leaving at the first exception. *)
Fixpoint loop {S} (f : param S -> param S * status) (ps : list (param S)) : list (param S) * status :=
  match ps with
  | [] => ([], Ok)
  | p :: ps =>
      match f p with
      | (p, Ok) => let '(ps, s) := loop f ps in (p :: ps, s)
      | (p, s) => (p :: ps, s)
      end
  end.
Fixpoint each {G} (f : G -> G * status) (gs : list G) : list G * status :=
  match gs with
  | [] => ([], Ok)
  | g :: gs =>
      match f g with
      | (g, Ok) => let '(gs, s) := each f gs in (g :: gs, s)
      | (g, s) => (g :: gs, s)
      end
  end.

(** ** RiemannianSGD *)
Record sgd_hyper := { lr : R; momentum : R; dampening : R; weight_decay : R; nesterov : bool; stabilize : option nat }.
(** state is {} or {"momentum_buffer": b} *)
Definition sgd_param := param vec.
Record sgd_group := { hyp : sgd_hyper; steps : option nat; params : list sgd_param }.
Definition has_momentum (h : sgd_hyper) : bool := if Rlt_dec 0 (momentum h) then true else false.

Section SGD.
  Variable h : sgd_hyper.
  (** rsgd.py:88-90: the buffer starts as a clone of the gradient *)
  Definition sgd_buffer (g : vec) (b : option vec) : vec := match b with Some b => b | None => g end.
  (** 96: in place on p.grad *)
  Definition decayed (x g : vec) : vec := vadd g (smul (weight_decay h) x).
  (** 99-100 *)
  Definition new_buffer (r b : vec) : vec := vadd (smul (momentum h) b) (smul (1 - dampening h) r).
  (** 101-104, 113: what is multiplied by -lr *)
  Definition sgd_direction (M : manifold) (x g : vec) (b : option vec) : vec :=
    let r := egrad2rgrad M x (decayed x g) in
    if has_momentum h then
      let b := new_buffer r (sgd_buffer g b) in
      if nesterov h then vadd r (smul (momentum h) b) else b
    else r.
  (** 78-114, for one parameter *)
  Definition sgd_update (p : sgd_param) : sgd_param * status :=
    match grad p with
    | NoGrad => (p, Ok)
    | Sparse => (p, RaisedRuntimeError)
    | Dense g =>
        let M := manifold_of p in
        let x := val p in
        let arg := egrad_arg M x (decayed x g) in
        let r := egrad2rgrad M x (decayed x g) in
        let dir := sgd_direction M x g (state p) in
        if has_momentum h then
          let b := new_buffer r (sgd_buffer g (state p)) in
          let arg := if nesterov h && egrad_same M then dir else arg in
          let '(y, b) := retr_transp M x (smul (- lr h) dir) b in
          ({| man := man p; val := y; grad := Dense arg; state := Some b |}, Ok)
        else
          ({| man := man p; val := retr M x (smul (- lr h) dir); grad := Dense arg; state := state p |}, Ok)
    end.
  (** 123-137, for one parameter *)
  Definition sgd_stabilize (p : sgd_param) : sgd_param :=
    match man p with
    | None => p
    | Some M =>
        let x := projx M (val p) in
        {| man := man p; val := x; grad := grad p;
           state := if has_momentum h then
                      match state p with Some b => Some (proju M x b) | None => None end
                    else state p |}
    end.
End SGD.
(** 67-120, for one group *)
Definition sgd_step_group (g : sgd_group) : sgd_group * status :=
  let h := hyp g in
  let n := S (match steps g with None => O | Some n => n end) in
  let '(ps, s) := loop (sgd_update h) (params g) in
  let g' := {| hyp := h; steps := Some n; params := ps |} in
  match s with
  | Ok =>
      match stabilize h with
      | None => (g', Ok)
      | Some O => (g', RaisedZeroDivisionError)
      | Some N =>
          if n mod N =? 0 then ({| hyp := h; steps := Some n; params := map (sgd_stabilize h) ps |}, Ok)
          else (g', Ok)
      end
  | s => (g', s)
  end.
(** 63-121 *)
Definition sgd_step (o : list sgd_group) : list sgd_group * status := each sgd_step_group o.

(** ** RiemannianAdam *)
Record adam_hyper := { a_lr : R; beta1 : R; beta2 : R; eps : R; a_decay : R; amsgrad : bool; a_stabilize : option nat }.
Record adam_state := { count : nat; exp_avg : vec; exp_avg_sq : vec; max_exp_avg_sq : option vec }.
Definition adam_param := param adam_state.
Record adam_group := { a_hyp : adam_hyper; a_params : list adam_param }.

Section Adam.
  Variable h : adam_hyper.
  (** radam.py:75-83 *)
  Definition adam_init (s : option adam_state) : adam_state :=
    match s with
    | Some s => s
    | None => {| count := O; exp_avg := vzero; exp_avg_sq := vzero;
                 max_exp_avg_sq := if amsgrad h then Some vzero else None |}
    end.
  Definition bias_correction (beta : R) (n : nat) : R := 1 - beta ^ n.
  (** 91-94 *)
  Definition first_moment (m r : vec) : vec := vadd (smul (beta1 h) m) (smul (1 - beta1 h) r).
  Definition second_moment (v q : vec) : vec := vadd (smul (beta2 h) v) (smul (1 - beta2 h) q).
  (** 102, 104, 107: [denom] after add_(eps) *)
  Definition denominator (n : nat) (v : vec) : vec :=
    vadd (vsqrt (vdiv v (bias_correction (beta2 h) n))) (vconst (eps h)).
  Definition adam_direction (n : nat) (m v : vec) : vec :=
    vdivv (vdiv m (bias_correction (beta1 h) n)) (denominator n v).
  (** 58-114, for one parameter *)
  Definition adam_update (p : adam_param) : adam_param * status :=
    match grad p with
    | NoGrad => (p, Ok)
    | Sparse => (p, RaisedRuntimeError)
    | Dense g =>
        let M := manifold_of p in
        let x := val p in
        let s := adam_init (state p) in
        let n := S (count s) in
        let g := vadd g (smul (a_decay h) x) in
        let arg := egrad_arg M x g in
        let r := egrad2rgrad M x g in
        let m := first_moment (exp_avg s) r in
        let v := second_moment (exp_avg_sq s) (component_inner M x r) in
        let finish mx d :=
          let '(y, m) := retr_transp M x (smul (- a_lr h) (adam_direction n m d)) m in
          ({| man := man p; val := y; grad := Dense arg;
              state := Some {| count := n; exp_avg := m; exp_avg_sq := v; max_exp_avg_sq := mx |} |}, Ok) in
        if amsgrad h then
          match max_exp_avg_sq s with
          | Some mx => let mx := vmax mx v in finish (Some mx) mx
          | None => ({| man := man p; val := x; grad := Dense arg;
                        state := Some {| count := n; exp_avg := m; exp_avg_sq := v; max_exp_avg_sq := None |} |},
                     RaisedKeyError)
          end
        else finish (max_exp_avg_sq s) v
    end.
  (** 116-120: does this parameter ask for stabilisation?  None: ZeroDivisionError.
      [p] is the parameter after its update. *)
  Definition asks (N : nat) (p : adam_param) : bool :=
    match grad p, state p with
    | Dense _, Some s => count s mod N =? 0
    | _, _ => false
    end.
  (** 125-136, for one parameter *)
  Definition adam_stabilize (p : adam_param) : adam_param :=
    match man p, state p with
    | Some M, Some s =>
        let x := projx M (val p) in
        {| man := man p; val := x; grad := grad p;
           state := Some {| count := count s; exp_avg := proju M x (exp_avg s);
                            exp_avg_sq := exp_avg_sq s; max_exp_avg_sq := max_exp_avg_sq s |} |}
    | _, _ => p
    end.
  (** 58-120 with the test of the period, which for stabilize=0 raises on the first
      parameter that has a gradient *)
  Definition adam_visit (p : adam_param) : adam_param * status :=
    match adam_update p with
    | (p, Ok) =>
        match a_stabilize h, grad p with
        | Some O, Dense _ => (p, RaisedZeroDivisionError)
        | _, _ => (p, Ok)
        end
    | r => r
    end.
End Adam.
(** 51-122, for one group *)
Definition adam_step_group (g : adam_group) : adam_group * status :=
  let h := a_hyp g in
  let '(ps, s) := loop (adam_visit h) (a_params g) in
  match s with
  | Ok =>
      match a_stabilize h with
      | Some N =>
          if existsb (asks N) ps then ({| a_hyp := h; a_params := map adam_stabilize ps |}, Ok)
          else ({| a_hyp := h; a_params := ps |}, Ok)
      | None => ({| a_hyp := h; a_params := ps |}, Ok)
      end
  | s => ({| a_hyp := h; a_params := ps |}, s)
  end.
(** 46-123 *)
Definition adam_step (o : list adam_group) : list adam_group * status := each adam_step_group o.
