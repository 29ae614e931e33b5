(** Model of geoopt/optim/sparse_rsgd.py and sparse_radam.py.

    SparseMixin (mixin.py:25-44) only admits matrix-valued parameters.  A matrix is the
    function from row number to row.  Manifold operations on [point[rows]] act row by
    row: every manifold of the library whose points are vectors broadcasts this way;
    manifolds whose points are matrices, for which a selection of rows is not a batch of
    points, are not modelled.  A sparse gradient is its list of (row, values) entries;
    duplicated rows add up.  As in OptimModel, state is a field of the parameter. *)
From Coq Require Import Reals List Bool Arith.
From Verif Require Import RVec OptimModel.
Import ListNotations.
Local Open Scope R_scope.

Definition matrix := nat -> vec.
Definition entries := list (nat * vec).
(** [grad.coalesce().indices()[0].unique()] *)
Definition rows_of (e : entries) : list nat := nodup Nat.eq_dec (map fst e).
(** a row of [grad.to_dense()] *)
Definition dense_row (e : entries) (r : nat) : vec :=
  fold_right (fun p acc => if fst p =? r then vadd (snd p) acc else acc) vzero e.
(** [full[rows] = new] *)
Definition put (rows : list nat) (full new : matrix) : matrix :=
  fun r => if in_dec Nat.eq_dec r rows then new r else full r.

Inductive sgradient := SNone | SDense | SSparse (e : entries).
Record sparam (S : Type) := { s_man : option manifold; s_val : matrix; s_grad : sgradient; s_state : option S }.
Arguments s_man {S}. Arguments s_val {S}. Arguments s_grad {S}. Arguments s_state {S}.
Definition s_manifold {S} (p : sparam S) : manifold := match s_man p with Some M => M | None => euclidean end.

(** [for point in group["params"]], leaving at the first exception. *)
Fixpoint sloop {S} (f : sparam S -> sparam S * status) (ps : list (sparam S)) : list (sparam S) * status :=
  match ps with
  | [] => ([], Ok)
  | p :: ps =>
      match f p with
      | (p, Ok) => let '(ps, s) := sloop f ps in (p :: ps, s)
      | (p, s) => (p :: ps, s)
      end
  end.

(** ** SparseRiemannianSGD *)
(** no weight decay: [weight_decay] of the record is never read *)
Definition ssgd_param := sparam matrix.
Record ssgd_group := { s_hyp : sgd_hyper; s_steps : option nat; s_params : list ssgd_param }.
Section SGD.
  Variable h : sgd_hyper.
  (** sparse_rsgd.py:73-116, for one parameter *)
  Definition ssgd_update (p : ssgd_param) : ssgd_param * status :=
    match s_grad p with
    | SNone => (p, Ok)
    | SDense => (p, RaisedRuntimeError)
    | SSparse e =>
        let rows := rows_of e in
        let M := s_manifold p in
        let r := fun i => egrad2rgrad M (s_val p i) (dense_row e i) in
        if has_momentum h then
          let buf := match s_state p with Some b => b | None => dense_row e end in
          let b := fun i => vadd (smul (momentum h) (buf i)) (smul (1 - dampening h) (r i)) in
          let d := if nesterov h then fun i => vadd (r i) (smul (momentum h) (b i)) else b in
          let new := fun i => retr_transp M (s_val p i) (smul (- lr h) (d i)) (b i) in
          ({| s_man := s_man p; s_val := put rows (s_val p) (fun i => fst (new i)); s_grad := s_grad p;
              s_state := Some (put rows buf (fun i => snd (new i))) |}, Ok)
        else
          ({| s_man := s_man p; s_val := put rows (s_val p) (fun i => retr M (s_val p i) (smul (- lr h) (r i)));
              s_grad := s_grad p; s_state := s_state p |}, Ok)
    end.
  (** 126-139, for one parameter *)
  Definition ssgd_stabilize (p : ssgd_param) : ssgd_param :=
    match s_man p with
    | None => p
    | Some M =>
        let x := fun i => projx M (s_val p i) in
        {| s_man := s_man p; s_val := x; s_grad := s_grad p;
           s_state := if has_momentum h
                      then match s_state p with Some b => Some (fun i => proju M (x i) (b i)) | None => None end
                      else s_state p |}
    end.
End SGD.
(** 65-122, for one group *)
Definition ssgd_step_group (g : ssgd_group) : ssgd_group * status :=
  let n := S (match s_steps g with Some n => n | None => O end) in
  let h := s_hyp g in
  let '(ps, s) := sloop (ssgd_update h) (s_params g) in
  match s with
  | Ok =>
      match stabilize h with
      | None => ({| s_hyp := h; s_steps := Some n; s_params := ps |}, Ok)
      | Some O => ({| s_hyp := h; s_steps := Some n; s_params := ps |}, RaisedZeroDivisionError)
      | Some N =>
          if n mod N =? 0
          then ({| s_hyp := h; s_steps := Some n; s_params := map (ssgd_stabilize h) ps |}, Ok)
          else ({| s_hyp := h; s_steps := Some n; s_params := ps |}, Ok)
      end
  | s => ({| s_hyp := h; s_steps := Some n; s_params := ps |}, s)
  end.
Definition ssgd_step (o : list ssgd_group) : list ssgd_group * status := each ssgd_step_group o.

(** ** SparseRiemannianAdam *)
(** no weight decay; one step counter per parameter, not per row *)
Record sadam_state := { s_count : nat; s_avg : matrix; s_sq : matrix; s_max : option matrix }.
Definition sadam_param := sparam sadam_state.
Record sadam_group := { sa_hyp : adam_hyper; sa_params : list sadam_param }.
Definition mzero : matrix := fun _ => vzero.
Section Adam.
  Variable h : adam_hyper.
  (** sparse_radam.py:91-100 *)
  Definition sadam_init (s : option sadam_state) : sadam_state :=
    match s with
    | Some s => s
    | None => {| s_count := O; s_avg := mzero; s_sq := mzero; s_max := if amsgrad h then Some mzero else None |}
    end.
  (** 75-137, for one parameter *)
  Definition sadam_update (p : sadam_param) : sadam_param * status :=
    match s_grad p with
    | SNone => (p, Ok)
    | SDense => (p, RaisedRuntimeError)
    | SSparse e =>
        let rows := rows_of e in
        let M := s_manifold p in
        let s := sadam_init (s_state p) in
        let n := S (s_count s) in
        let r := fun i => egrad2rgrad M (s_val p i) (dense_row e i) in
        let m := fun i => vadd (smul (beta1 h) (s_avg s i)) (smul (1 - beta1 h) (r i)) in
        let v := fun i => vadd (smul (beta2 h) (s_sq s i)) (smul (1 - beta2 h) (component_inner M (s_val p i) (r i))) in
        let bc1 := 1 - beta1 h ^ n in
        let bc2 := 1 - beta2 h ^ n in
        let finish mx (root : matrix) :=
          let d := fun i => vdivv (vdiv (m i) bc1) (vadd (root i) (vconst (eps h))) in
          let new := fun i => retr_transp M (s_val p i) (smul (- a_lr h) (d i)) (m i) in
          ({| s_man := s_man p; s_val := put rows (s_val p) (fun i => fst (new i)); s_grad := s_grad p;
              s_state := Some {| s_count := n; s_avg := put rows (s_avg s) (fun i => snd (new i));
                                 s_sq := put rows (s_sq s) v; s_max := mx |} |}, Ok) in
        if amsgrad h then
          match s_max s with
          | Some mx =>
              (* 117-124: the corrected square root is what is stored *)
              let root := fun i => vsqrt (vdiv (vmax (mx i) (v i)) bc2) in
              finish (Some (put rows mx root)) root
          | None =>
              ({| s_man := s_man p; s_val := s_val p; s_grad := s_grad p;
                  s_state := Some {| s_count := n; s_avg := s_avg s; s_sq := s_sq s; s_max := None |} |}, RaisedKeyError)
          end
        else finish (s_max s) (fun i => vsqrt (vdiv (v i) bc2))
    end.
  (** 139-143 *)
  Definition sasks (N : nat) (p : sadam_param) : bool :=
    match s_grad p, s_state p with
    | SSparse _, Some s => s_count s mod N =? 0
    | _, _ => false
    end.
  (** 149-159, for one parameter *)
  Definition sadam_stabilize (p : sadam_param) : sadam_param :=
    match s_man p, s_state p with
    | Some M, Some s =>
        let x := fun i => projx M (s_val p i) in
        {| s_man := s_man p; s_val := x; s_grad := s_grad p;
           s_state := Some {| s_count := s_count s; s_avg := fun i => proju M (x i) (s_avg s i); s_sq := s_sq s; s_max := s_max s |} |}
    | _, _ => p
    end.
  Definition sadam_visit (p : sadam_param) : sadam_param * status :=
    match sadam_update p with
    | (p, Ok) =>
        match a_stabilize h, s_grad p with
        | Some O, SSparse _ => (p, RaisedZeroDivisionError)
        | _, _ => (p, Ok)
        end
    | r => r
    end.
End Adam.
(** 69-145, for one group.  [a_stabilize] can only come from a group's own
    "stabilize" entry: the constructor does not take the documented argument. *)
Definition sadam_step_group (g : sadam_group) : sadam_group * status :=
  let h := sa_hyp g in
  let '(ps, s) := sloop (sadam_visit h) (sa_params g) in
  match s with
  | Ok =>
      match a_stabilize h with
      | Some N =>
          if existsb (sasks N) ps then ({| sa_hyp := h; sa_params := map sadam_stabilize ps |}, Ok)
          else ({| sa_hyp := h; sa_params := ps |}, Ok)
      | None => ({| sa_hyp := h; sa_params := ps |}, Ok)
      end
  | s => ({| sa_hyp := h; sa_params := ps |}, s)
  end.
Definition sadam_step (o : list sadam_group) : list sadam_group * status := each sadam_step_group o.
