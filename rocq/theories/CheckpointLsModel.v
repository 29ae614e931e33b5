(** Checkpoints of RiemannianLineSearch. *)
From Coq Require Import Reals List.
From Verif Require Import RVec LineSearchModel.
Import ListNotations.
Local Open Scope R_scope.

(** A new RiemannianLineSearch with the same parameters and options after load_state_dict of
    the checkpoint of [o] (and of the values): the entries of self.state and group["step"]
    come back, optim/rlinesearch.py:176, 522; the attributes of lines 223-231 are not part of
    state_dict() and have the values the constructor gives them; p.grad is None. *)
Definition reload (o : lopt) : lopt := {|
  ps := map (set_egrad None) (ps o);
  dict := []; last_try := None; fresh_grads := false; prev_loss := None; old_phi0 := None;
  old_derphi0 := None; last_size := None; history := []; count := count o; calls := [] |}.
