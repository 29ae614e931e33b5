(** Model of geoopt/samplers: base.py, rhmc.py, sgrhmc.py, rsgld.py.

    The closure is a function of the parameter values: it returns the log density and
    the gradients its backward() adds to [.grad] (None for a parameter it does not
    depend on).  Random draws are arguments: one normal vector per parameter and loop,
    and one uniform number.  A parameter carries the epsilon (and alpha) of its group and
    its state.  A call that raises returns the sampler as the exception leaves it.
    Tensors are vectors of reals; [v_size] is the number of entries. *)
From Coq Require Import Reals List Bool Arith.
From Verif Require Import RVec OptimModel.
Import ListNotations.
Local Open Scope R_scope.

(** state["old_p"], state["old_r"], state["r"] *)
Record hmc := { old_p : vec; old_r : vec; mom : vec }.
Record sparam := {
  v_man : option manifold; v_size : nat; v_val : vec; v_grad : option vec;
  v_eps : R; v_alpha : R; v_hmc : option hmc; v_vel : option vec
}.
Inductive serror := SKeyError | SNameError | SOverflow | STypeError | SValueError.
Inductive sstatus := SOk | SRaise (e : serror).
(** base.py:11-18 and the n_steps of the subclass *)
Record sampler := {
  params : list sparam; n_steps : nat; n_rejected : nat; steps : nat; burnin : bool;
  log_probs : list R; acceptance_probs : list R;
  evals : nat    (* not in the code: how often the closure was called *)
}.
Definition s_manifold (p : sparam) : manifold := match v_man p with Some m => m | None => euclidean end.

Definition put_val (x : vec) (p : sparam) : sparam :=
  {| v_man := v_man p; v_size := v_size p; v_val := x; v_grad := v_grad p; v_eps := v_eps p; v_alpha := v_alpha p;
     v_hmc := v_hmc p; v_vel := v_vel p |}.
Definition put_grad (g : option vec) (p : sparam) : sparam :=
  {| v_man := v_man p; v_size := v_size p; v_val := v_val p; v_grad := g; v_eps := v_eps p; v_alpha := v_alpha p;
     v_hmc := v_hmc p; v_vel := v_vel p |}.
Definition put_hmc (h : hmc) (p : sparam) : sparam :=
  {| v_man := v_man p; v_size := v_size p; v_val := v_val p; v_grad := v_grad p; v_eps := v_eps p; v_alpha := v_alpha p;
     v_hmc := Some h; v_vel := v_vel p |}.
Definition put_vel (w : vec) (p : sparam) : sparam :=
  {| v_man := v_man p; v_size := v_size p; v_val := v_val p; v_grad := v_grad p; v_eps := v_eps p; v_alpha := v_alpha p;
     v_hmc := v_hmc p; v_vel := Some w |}.
Definition put_params (l : list sparam) (s : sampler) : sampler :=
  {| params := l; n_steps := n_steps s; n_rejected := n_rejected s; steps := steps s; burnin := burnin s;
     log_probs := log_probs s; acceptance_probs := acceptance_probs s; evals := evals s |}.
Definition put_evals (n : nat) (s : sampler) : sampler :=
  {| params := params s; n_steps := n_steps s; n_rejected := n_rejected s; steps := steps s; burnin := burnin s;
     log_probs := log_probs s; acceptance_probs := acceptance_probs s; evals := n |}.

(** A loop over the parameters with one extra value each, leaving at the first exception. *)
Fixpoint sweep {A} (f : sparam -> A -> sparam * sstatus) (l : list sparam) (xs : list A) : list sparam * sstatus :=
  match l, xs with
  | p :: l, x :: xs =>
      match f p x with
      | (p, SOk) => let '(l, s) := sweep f l xs in (p :: l, s)
      | (p, s) => (p :: l, s)
      end
  | l, _ => (l, SOk)
  end.
Definition units (l : list sparam) : list unit := map (fun _ => tt) l.

(** base.py:28-33 *)
Definition rejection_rate (s : sampler) : R :=
  if (0 <? steps s)%nat then INR (n_rejected s) / INR (steps s) else 0.
(** base.py:19-26: may this parameter list be sampled; [None] is a plain Parameter, and
    [Some b] a manifold parameter whose manifold has reversible = b (None counts as
    False) *)
Definition constructor (reversible : list (option bool)) : sstatus :=
  if forallb (fun r => match r with Some b => b | None => true end) reversible then SOk else SRaise SValueError.

Section Sampler.
  Variable closure : list vec -> R * list (option vec).
  Variable exp_limit : R.   (* math.exp raises OverflowError above it *)

  (** logp = closure(); logp.backward(): gradients accumulate *)
  Definition add_grad (p : sparam) (g : option vec) : sparam :=
    match g with
    | None => p
    | Some g => put_grad (Some (match v_grad p with Some h => vadd h g | None => g end)) p
    end.
  Fixpoint backward (l : list sparam) (gs : list (option vec)) : list sparam :=
    match l, gs with
    | p :: l, g :: gs => add_grad p g :: backward l gs
    | l, _ => l
    end.
  Definition evaluate (s : sampler) : R * sampler :=
    let '(lp, gs) := closure (map v_val (params s)) in
    (lp, put_evals (S (evals s)) (put_params (backward (params s) gs) s)).

  (** rhmc.py:31-43 *)
  Definition kick (p : sparam) (h : hmc) (g : vec) : sparam :=
    let m := s_manifold p in
    let r := vadd (mom h) (smul (v_eps p) (egrad2rgrad m (v_val p) g)) in
    let '(x, r) := retr_transp m (v_val p) (smul (v_eps p) r) r in
    put_val x (put_hmc {| old_p := old_p h; old_r := old_r h; mom := r |} p).
  (** rhmc.py:53-81 for one parameter: draw, remember, first step *)
  Definition momentum_of (p : sparam) (z : vec) : vec := egrad2rgrad (s_manifold p) (v_val p) z.
  Definition begin (p : sparam) (z : vec) : sparam * sstatus :=
    match v_grad p with
    | None => (p, SOk)
    | Some g =>
        let r := momentum_of p z in
        (put_grad (Some vzero) (kick p {| old_p := v_val p; old_r := r; mom := r |} g), SOk)
    end.
  (** the kinetic energy of the parameters that have a gradient *)
  Definition kinetic (r : vec) (n : nat) : R := 1 / 2 * dot n r r.
  Fixpoint begin_energy (l : list sparam) (zs : list vec) : R :=
    match l, zs with
    | p :: l, z :: zs => (match v_grad p with Some _ => kinetic (momentum_of p z) (v_size p) | None => 0 end) + begin_energy l zs
    | _, _ => 0
    end.
  (** the variable [epsilon] left by the first loop *)
  Fixpoint last_eps (l : list sparam) (d : option R) : option R :=
    match l with
    | [] => d
    | p :: l => last_eps l (match v_grad p with Some _ => Some (v_eps p) | None => d end)
    end.
  (** rhmc.py:87-93 for one parameter *)
  Definition continue (p : sparam) (_ : unit) : sparam * sstatus :=
    match v_grad p with
    | None => (p, SOk)
    | Some g =>
        match v_hmc p with
        | None => (p, SRaise SKeyError)
        | Some h => (put_grad (Some vzero) (kick p h g), SOk)
        end
    end.
  Fixpoint repeat_continue (k : nat) (s : sampler) : sampler * sstatus :=
    match k with
    | O => (s, SOk)
    | S k =>
        let '(_, s) := evaluate s in
        let '(l, st) := sweep continue (params s) (units (params s)) in
        let s := put_params l s in
        match st with SOk => repeat_continue k s | _ => (s, st) end
    end.
  (** rhmc.py:101-117 for one parameter; [e] is the leaked epsilon *)
  Definition finish (e : option R) (p : sparam) (_ : unit) : sparam * sstatus :=
    match v_grad p with
    | None => (p, SOk)
    | Some g =>
        match v_hmc p, e with
        | None, _ => (p, SRaise SKeyError)
        | Some _, None => (p, SRaise SNameError)
        | Some h, Some e =>
            (put_grad (Some vzero) (put_hmc {| old_p := old_p h; old_r := old_r h;
               mom := vadd (mom h) (smul (1 / 2 * e) (egrad2rgrad (s_manifold p) (v_val p) g)) |} p), SOk)
        end
    end.
  Definition end_energy (l : list sparam) : R :=
    fold_right (fun p s => match v_grad p, v_hmc p with Some _, Some h => kinetic (mom h) (v_size p) + s | _, _ => s end) 0 l.
  (** rhmc.py:129-137 for one parameter (it has a state by then) *)
  Definition restore (p : sparam) : sparam :=
    match v_grad p, v_hmc p with
    | Some _, Some h => put_val (old_p h) (put_hmc {| old_p := old_p h; old_r := old_r h; mom := old_r h |} p)
    | _, _ => p
    end.
  (** rhmc.py:119-141 *)
  Definition decide (rho u old_logp new_logp : R) (s : sampler) : sampler :=
    let reject := if Rle_dec rho u then true else false in
    {| params := if reject then map restore (params s) else params s;
       n_steps := n_steps s;
       n_rejected := if reject && negb (burnin s) then S (n_rejected s) else n_rejected s;
       steps := if burnin s then steps s else S (steps s);
       burnin := burnin s;
       log_probs := log_probs s ++ [if reject then old_logp else new_logp];
       acceptance_probs := if burnin s then acceptance_probs s else acceptance_probs s ++ [rho];
       evals := evals s |}.
  (** rhmc.py:45-141 step *)
  Definition rhmc_step (zs : list vec) (u : R) (s : sampler) : sampler * sstatus :=
    let '(old_logp, s) := evaluate s in
    let old_H := - old_logp + begin_energy (params s) zs in
    let e := last_eps (params s) None in
    let '(l, _) := sweep begin (params s) zs in
    let s := put_params l s in
    let '(s, st) := repeat_continue (n_steps s - 1) s in
    match st with
    | SOk =>
        let '(new_logp, s) := evaluate s in
        let '(l, st) := sweep (finish e) (params s) (units (params s)) in
        let s := put_params l s in
        match st with
        | SOk =>
            let new_H := - new_logp + end_energy (params s) in
            if Rlt_dec exp_limit (old_H - new_H) then (s, SRaise SOverflow)
            else (decide (Rmin 1 (exp (old_H - new_H))) u old_logp new_logp s, SOk)
        | _ => (s, st)
        end
    | _ => (s, st)
    end.

  (** rsgld.py:33-46 for one parameter *)
  Definition langevin (p : sparam) (z : vec) : sparam * sstatus :=
    if Rlt_dec (v_eps p) 0 then (p, SRaise SValueError)   (* math.sqrt *)
    else match v_grad p with
         | None => (p, SRaise STypeError)
         | Some g =>
             let m := s_manifold p in
             let r := egrad2rgrad m (v_val p) (vadd (smul (1 / 2 * v_eps p) g) (smul (sqrt (v_eps p)) z)) in
             (put_grad (Some vzero) (put_val (retr m (v_val p) r) p), SOk)
         end.
  Definition log_sample (lp : R) (s : sampler) : sampler :=
    {| params := params s; n_steps := n_steps s; n_rejected := n_rejected s;
       steps := if burnin s then steps s else S (steps s); burnin := burnin s;
       log_probs := if burnin s then log_probs s else log_probs s ++ [lp];
       acceptance_probs := acceptance_probs s; evals := evals s |}.
  (** rsgld.py:27-50 step *)
  Definition rsgld_step (zs : list vec) (s : sampler) : sampler * sstatus :=
    let '(lp, s) := evaluate s in
    let '(l, st) := sweep langevin (params s) zs in
    let s := put_params l s in
    match st with SOk => (log_sample lp s, SOk) | _ => (s, st) end.

  (** sgrhmc.py:36-48 for one parameter (the energies are never used) *)
  Definition refresh (p : sparam) (z : vec) : sparam * sstatus := (put_vel (smul (v_eps p) z) p, SOk).
  (** sgrhmc.py:57-80 for one parameter *)
  Definition drift (p : sparam) (z : vec) : sparam * sstatus :=
    match v_vel p with
    | None => (p, SRaise SKeyError)
    | Some w =>
        let m := s_manifold p in
        let '(x, w) := retr_transp m (v_val p) w w in
        let n := egrad2rgrad m x z in
        match v_grad p with
        | None => (put_vel (smul (1 - v_alpha p) w) (put_val x p), SRaise STypeError)
        | Some g =>
            if Rlt_dec (2 * v_alpha p * v_eps p) 0
            then (put_vel (vadd (smul (1 - v_alpha p) w) (smul (v_eps p) g)) (put_val x p), SRaise SValueError)
            else (put_grad (Some vzero) (put_vel (vadd (vadd (smul (1 - v_alpha p) w) (smul (v_eps p) g))
                     (smul (sqrt (2 * v_alpha p * v_eps p)) n)) (put_val x p)), SOk)
        end
    end.
  (** sgrhmc.py:50-80: one round per list of draws; the log density returned is that of
      the last evaluation *)
  Fixpoint rounds (zss : list (list vec)) (lp : R) (s : sampler) : R * sampler * sstatus :=
    match zss with
    | [] => (lp, s, SOk)
    | zs :: zss =>
        let '(lp, s) := evaluate s in
        let '(l, st) := sweep drift (params s) zs in
        let s := put_params l s in
        match st with SOk => rounds zss lp s | _ => (lp, s, st) end
    end.
  (** sgrhmc.py:32-84 step; [zss] has n_steps + 1 lists *)
  Definition sgrhmc_step (zs : list vec) (zss : list (list vec)) (s : sampler) : sampler * sstatus :=
    let '(l, _) := sweep refresh (params s) zs in
    let '(lp, s, st) := rounds zss 0 (put_params l s) in
    match st with SOk => (log_sample lp s, SOk) | _ => (s, st) end.
End Sampler.

(** rhmc.py:143-152, sgrhmc.py:86-98, rsgld.py:52-57 stabilize_group, over all groups *)
Definition rhmc_stabilize (p : sparam) : sparam :=
  match v_man p with
  | None => p
  | Some m =>
      let p := put_val (projx m (v_val p)) p in
      match v_hmc p with
      | Some h => put_hmc {| old_p := projx m (old_p h); old_r := old_r h; mom := mom h |} p
      | None => p
      end
  end.
Definition sgrhmc_stabilize (p : sparam) : sparam :=
  match v_man p with
  | None => p
  | Some m =>
      let p := put_val (projx m (v_val p)) p in
      match v_vel p with Some w => put_vel (proju m (v_val p) w) p | None => p end
  end.
Definition rsgld_stabilize (p : sparam) : sparam :=
  match v_man p with None => p | Some m => put_val (projx m (v_val p)) p end.
