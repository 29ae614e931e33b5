(** Checkpoints: what state_dict() of the optimizers keeps and load_state_dict() restores.
    geoopt overrides neither; what is modelled here is the contract of
    torch.optim.Optimizer for the dictionaries geoopt fills:
    - the groups hold lr, momentum, betas, ..., "stabilize" (optim/mixin.py:12-14) and, for
      the SGDs, "step" (optim/rsgd.py:69-70, 76, sparse_rsgd.py:65-71);
    - self.state[p] holds "momentum_buffer" (rsgd.py:88-90), or "step", "exp_avg",
      "exp_avg_sq", "max_exp_avg_sq" (optim/radam.py:72-84); the sparse optimizers alike
      (sparse_rsgd.py:83-86, sparse_radam.py:91-100).
    Parameter values travel separately, in the state_dict of the module; p.grad does not.
    Not modelled: casting to the dtype and device of the parameter. *)
From Coq Require Import Reals List Arith.
From Verif Require Import RVec OptimModel SparseModel.
Import ListNotations.

Section Checkpoint.
  (** A kind of parameters with values in V and states in S; groups have options in H. *)
  Variables P V S H : Type.
  Variables (get_val : P -> V) (get_state : P -> option S).
  (** a parameter given a value and a state, p.grad being None *)
  Variable restore : P -> V -> option S -> P.

  (** An optimizer as torch sees it: options and parameters of each group. *)
  Definition groups : Type := list (H * list P).
  Definition all_params (o : groups) : list P := concat (map snd o).

  (** What is written to disk: the options of each group with the numbers of its parameters,
      the states by number (parameters without state have no entry), the values. *)
  Record checkpoint := {
    c_groups : list (H * list nat);
    c_state : list (nat * S);
    c_values : list V }.

  (** state_dict: parameters are numbered through all groups. *)
  Fixpoint pack_groups (i : nat) (o : groups) : list (H * list nat) :=
    match o with
    | [] => []
    | (h, ps) :: o => (h, seq i (length ps)) :: pack_groups (i + length ps) o
    end.
  Fixpoint pack_state (i : nat) (ps : list P) : list (nat * S) :=
    match ps with
    | [] => []
    | p :: ps => match get_state p with
                 | Some s => (i, s) :: pack_state (Datatypes.S i) ps
                 | None => pack_state (Datatypes.S i) ps
                 end
    end.
  Definition save (o : groups) : checkpoint :=
    {| c_groups := pack_groups 0 o; c_state := pack_state 0 (all_params o); c_values := map get_val (all_params o) |}.

  Fixpoint find_state (i : nat) (l : list (nat * S)) : option S :=
    match l with
    | [] => None
    | (j, s) :: l => if i =? j then Some s else find_state i l
    end.
  (** The j-th parameter of a group takes the state of the j-th number of the saved group and
      the next value. *)
  Fixpoint load_params (st : list (nat * S)) (ids : list nat) (vs : list V) (ps : list P) : list P :=
    match ids, vs, ps with
    | i :: ids, v :: vs, p :: ps => restore p v (find_state i st) :: load_params st ids vs ps
    | _, _, _ => []
    end.
  Fixpoint load_groups (st : list (nat * S)) (saved : list (H * list nat)) (vs : list V) (o : groups) : groups :=
    match saved, o with
    | (h, ids) :: saved, (_, ps) :: o =>
        (h, load_params st ids vs ps) :: load_groups st saved (skipn (length ps) vs) o
    | _, _ => []
    end.
  (** load_state_dict of the optimizer and of the module; None: ValueError, the numbers of
      groups or the sizes of the groups differ. *)
  Definition load (c : checkpoint) (o : groups) : option groups :=
    if list_eq_dec Nat.eq_dec (map (fun g => length (snd g)) o) (map (fun g => length (snd g)) (c_groups c)) then
      Some (load_groups (c_state c) (c_groups c) (c_values c) o)
    else None.
End Checkpoint.

(** Parameters of the dense and of the sparse optimizers. *)
Definition restore_param {S} (p : param S) (v : vec) (s : option S) : param S :=
  {| man := man p; val := v; grad := NoGrad; state := s |}.
Definition restore_sparam {S} (p : sparam S) (v : matrix) (s : option S) : sparam S :=
  {| s_man := s_man p; s_val := v; s_grad := SNone; s_state := s |}.
(** The optimizer [o'] of a new process after loading the checkpoint of [o]. *)
Definition reload {H S} (o o' : list (H * list (param S))) : option (list (H * list (param S))) :=
  load _ _ _ _ restore_param (save _ _ _ _ val state o) o'.
Definition sreload {H S} (o o' : list (H * list (sparam S))) : option (list (H * list (sparam S))) :=
  load _ _ _ _ restore_sparam (save _ _ _ _ s_val s_state o) o'.

(** The four optimizers in this form. *)
Definition sgd_groups_of (o : list ((sgd_hyper * option nat) * list sgd_param)) : list sgd_group :=
  map (fun g => {| hyp := fst (fst g); steps := snd (fst g); params := snd g |}) o.
Definition groups_of_sgd (o : list sgd_group) : list ((sgd_hyper * option nat) * list sgd_param) :=
  map (fun g => ((hyp g, steps g), params g)) o.
Definition adam_groups_of (o : list (adam_hyper * list adam_param)) : list adam_group :=
  map (fun g => {| a_hyp := fst g; a_params := snd g |}) o.
Definition groups_of_adam (o : list adam_group) : list (adam_hyper * list adam_param) :=
  map (fun g => (a_hyp g, a_params g)) o.
Definition ssgd_groups_of (o : list ((sgd_hyper * option nat) * list ssgd_param)) : list ssgd_group :=
  map (fun g => {| s_hyp := fst (fst g); s_steps := snd (fst g); s_params := snd g |}) o.
Definition groups_of_ssgd (o : list ssgd_group) : list ((sgd_hyper * option nat) * list ssgd_param) :=
  map (fun g => ((s_hyp g, s_steps g), s_params g)) o.
Definition sadam_groups_of (o : list (adam_hyper * list sadam_param)) : list sadam_group :=
  map (fun g => {| sa_hyp := fst g; sa_params := snd g |}) o.
Definition groups_of_sadam (o : list sadam_group) : list (adam_hyper * list sadam_param) :=
  map (fun g => (sa_hyp g, sa_params g)) o.
