(** Vocabulary for the sampler properties. *)
From Coq Require Import Reals List Bool Arith.
From Verif Require Import RVec OptimModel OptimSpec SamplerModel.
Import ListNotations.
Local Open Scope R_scope.

Definition values (s : sampler) : list vec := map v_val (params s).
Definition rhmc_raises (closure : list vec -> R * list (option vec)) (lim : R) (zs : list vec) (u : R) (s : sampler) : Prop :=
  exists e, snd (rhmc_step closure lim zs u s) = SRaise e.
(** Whether a parameter receives a gradient does not depend on where the parameters are. *)
Definition steady (closure : list vec -> R * list (option vec)) : Prop :=
  forall xs ys i g, length xs = length ys -> nth_error (snd (closure xs)) i = Some (Some g) -> exists h, nth_error (snd (closure ys)) i = Some (Some h).
Definition log_density (closure : list vec -> R * list (option vec)) (s : sampler) : R := fst (closure (values s)).
(** One vector of noise per parameter. *)
Definition one_each (zs : list vec) (s : sampler) : Prop := length zs = length (params s).

(** ** Energies: minus the log density plus half the squared length of the momenta *)
Definition sum (l : list R) : R := fold_right Rplus 0 l.
Definition momenta (f : hmc -> vec) (s : sampler) : R :=
  sum (map (fun p => match v_grad p, v_hmc p with Some _, Some h => 1 / 2 * dot (v_size p) (f h) (f h) | _, _ => 0 end) (params s)).

(** ** Histories.  A user may replace parameters, gradients, step sizes, n_steps and
    burnin at will, and may not touch the counters. *)
Definition same_counters (s t : sampler) : Prop :=
  n_rejected s = n_rejected t /\ steps s = steps t /\ log_probs s = log_probs t /\ acceptance_probs s = acceptance_probs t.
Definition new_sampler (s : sampler) : Prop :=
  n_rejected s = O /\ steps s = O /\ log_probs s = [] /\ acceptance_probs s = [] /\ burnin s = true.
(** [rhmc_run closure lim s a b c]: s is reached by a returning calls of step, b of them
    with burnin off, and c of those b kept the old point. *)
Definition kept_old (zs : list vec) (u : R) (s s' : sampler) : bool := if Rle_dec (last (acceptance_probs s') 0) u then true else false.
Inductive rhmc_run (lim : R) : sampler -> nat -> nat -> nat -> Prop :=
| run_new s : new_sampler s -> rhmc_run lim s 0 0 0
| run_edit s s' a b c : rhmc_run lim s a b c -> same_counters s s' -> rhmc_run lim s' a b c
| run_burn s a b c closure zs u s' : rhmc_run lim s a b c -> burnin s = true -> rhmc_step closure lim zs u s = (s', SOk) -> rhmc_run lim s' (S a) b c
| run_step s a b c closure zs u s' : rhmc_run lim s a b c -> burnin s = false -> rhmc_step closure lim zs u s = (s', SOk) ->
    rhmc_run lim s' (S a) (S b) (if kept_old zs u s s' then S c else c)
| run_raise s a b c closure zs u s' e : rhmc_run lim s a b c -> rhmc_step closure lim zs u s = (s', SRaise e) -> rhmc_run lim s' a b c.

(** ** Staying on the manifold.  [on] and [tan] may depend on the manifold. *)
Definition lawfuls (on : option manifold -> vec -> Prop) (tan : option manifold -> vec -> vec -> Prop) (s : sampler) : Prop :=
  forall p, In p (params s) -> lawful (s_manifold p) (on (v_man p)) (tan (v_man p)).
Definition absorbings (on : option manifold -> vec -> Prop) (s : sampler) : Prop :=
  forall p, In p (params s) -> absorbing (s_manifold p) (on (v_man p)).
Definition settled (on : option manifold -> vec -> Prop) (s : sampler) : Prop :=
  forall p, In p (params s) -> on (v_man p) (v_val p).
Definition same_manifolds (s t : sampler) : Prop := map v_man (params s) = map v_man (params t).

(** ** Reference recursions for plain parameters *)
(** stochastic gradient Langevin dynamics: x + e/2 grad log p(x) + sqrt e z *)
Definition sgld_move (e : R) (x g z : vec) : vec := fun i => x i + e / 2 * g i + sqrt e * z i.
Fixpoint sgld_moves (es : list R) (xs gs zs : list vec) : list vec :=
  match es, xs, gs, zs with
  | e :: es, x :: xs, g :: gs, z :: zs => sgld_move e x g z :: sgld_moves es xs gs zs
  | _, _, _, _ => []
  end.
Fixpoint sgld (grad : list vec -> list vec) (es : list R) (xs : list vec) (zss : list (list vec)) : list vec :=
  match zss with [] => xs | zs :: zss => sgld grad es (sgld_moves es xs (grad xs) zs) zss end.
Fixpoint rsgld_steps (closure : list vec -> R * list (option vec)) (zss : list (list vec)) (s : sampler) : sampler * sstatus :=
  match zss with
  | [] => (s, SOk)
  | zs :: zss => match rsgld_step closure zs s with (s, SOk) => rsgld_steps closure zss s | r => r end
  end.
Definition plain (p : sparam) : Prop := v_man p = None.
Definition cleared (p : sparam) : Prop := v_grad p = None \/ v_grad p = Some vzero.
(** stochastic gradient HMC: x + v, then (1 - alpha) v + e grad log p(x) + sqrt (2 alpha e) z;
    the gradient is taken where the move started *)
Definition sghmc_move (e a : R) (xv : vec * vec) (g z : vec) : vec * vec :=
  let '(x, v) := xv in
  ((fun i => x i + v i), (fun i => (1 - a) * v i + e * g i + sqrt (2 * a * e) * z i)).
Fixpoint sghmc_moves (es : list (R * R)) (xvs : list (vec * vec)) (gs zs : list vec) : list (vec * vec) :=
  match es, xvs, gs, zs with
  | (e, a) :: es, xv :: xvs, g :: gs, z :: zs => sghmc_move e a xv g z :: sghmc_moves es xvs gs zs
  | _, _, _, _ => []
  end.
Fixpoint sghmc (grad : list vec -> list vec) (es : list (R * R)) (xvs : list (vec * vec)) (zss : list (list vec)) : list (vec * vec) :=
  match zss with
  | [] => xvs
  | zs :: zss => sghmc grad es (sghmc_moves es xvs (grad (map fst xvs)) zs) zss
  end.
Definition velocities (es : list (R * R)) (zs : list vec) : list vec := map (fun ez => smul (fst (fst ez)) (snd ez)) (combine es zs).
(** every parameter receives a gradient *)
Definition full (closure : list vec -> R * list (option vec)) (grad : list vec -> list vec) : Prop :=
  forall xs, snd (closure xs) = map Some (grad xs) /\ length (grad xs) = length xs.
(** one plain parameter with value x, one closure with density f and gradient g *)
Definition single (f : vec -> R) (g : vec -> vec) (xs : list vec) : R * list (option vec) :=
  match xs with [x] => (f x, [Some (g x)]) | _ => (0, []) end.
Definition one_param (s : sampler) (p : sparam) : Prop := params s = [p] /\ plain p /\ cleared p.
