(** Model of geoopt/tensor.py: construction, pickling, deep copies, dist. *)
From Coq Require Import List Bool Arith Lia Reals.
From Verif Require Import BaseModel RVec.
Import ListNotations.

Section Tensors.
  (** Manifold objects (compared by identity, as torch.nn.Module does) and the
      shape check they enforce (assert_check_point, base.py:167-186). *)
  Variable manifold : Type.
  Variable meq : forall a b : manifold, {a = b} + {a <> b}.
  Variable euclidean : manifold.     (* the Euclidean() default *)
  Variable accepts : manifold -> list nat -> bool.
  Variable storage : Type.

  (** A strided view of a storage: what torch pickles. *)
  Record view := { v_storage : storage; v_offset : nat; v_size : list nat; v_stride : list nat }.
  Inductive class := MTensor | MParameter.
  Record mtensor := { t_view : view; t_class : class; t_manifold : manifold; t_grad : bool }.

  (** Data handed to a constructor: nothing, a plain tensor, or a manifold tensor. *)
  Inductive data := NoData (empty : view) | Plain (v : view) | Manif (t : mtensor).

  (** tensor.py:29-42 ManifoldTensor.__new__ (one tensor argument; [NoData]
      carries the empty tensor torch.Tensor() creates; device moves not modelled). *)
  Definition new_tensor (v : view) (m : manifold) (rg : bool) : outcome mtensor :=
    if accepts m (v_size v)
    then Returns {| t_view := v; t_class := MTensor; t_manifold := m; t_grad := rg |}
    else RaisesValueError.

  (** tensor.py:166-178 ManifoldParameter.__new__. *)
  Definition new_parameter (d : data) (m : option manifold) (rg : bool) : outcome mtensor :=
    let given := match m with Some m => m | None => euclidean end in
    let checked :=
      match d with
      | NoData e => new_tensor e given false
      | Plain v => new_tensor v given false
      | Manif t =>
          match m with
          | Some m => if meq (t_manifold t) m then Returns t else RaisesValueError
          | None => Returns t
          end
      end in
    match checked with
    | Returns t => Returns {| t_view := t_view t; t_class := MParameter;
                              t_manifold := t_manifold t; t_grad := rg |}
    | RaisesValueError => RaisesValueError
    | RaisesOther => RaisesOther
    end.

  (** Calling a class with (tensor, manifold=m, requires_grad=rg). *)
  Definition call_class (c : class) (v : view) (m : manifold) (rg : bool) : outcome mtensor :=
    match c with
    | MTensor => new_tensor v m rg
    | MParameter => new_parameter (Plain v) (Some m) rg
    end.

  (** Pickled argument tuples are heterogeneous lists. *)
  Inductive arg := ABuild (v : view) | AInt (n : nat) | ADict | AClass (c : class)
    | AManifold (m : manifold) | ABool (b : bool).

  (** torch's own __reduce_ex__ (external): a build function and arguments from
      which it restores the plain view.  [pre] are its arguments. *)
  Variable torch_args : mtensor -> list arg.
  Variable torch_build : list arg -> option view.

  (** tensor.py:131-135 __reduce_ex__. *)
  Definition reduce_ex (t : mtensor) : list arg :=
    torch_args t ++ [ADict; AClass (t_class t); AManifold (t_manifold t); ABool (t_grad t)].

  (** Python slices args[:-k] and args[-k]. *)
  Definition slice_to_neg (k : nat) (l : list arg) : list arg := firstn (length l - k) l.
  Definition index_neg (k : nat) (l : list arg) : option arg :=
    if Nat.leb k (length l) then nth_error l (length l - k) else None.

  (** tensor.py:186-188 _rebuild_manifold_tensor; ill-typed arguments raise. *)
  Definition rebuild (args : list arg) : outcome mtensor :=
    match torch_build (slice_to_neg 4 args) with
    | None => RaisesOther
    | Some v =>
        match index_neg 3 args, index_neg 2 args, index_neg 1 args with
        | Some (AClass c), Some (AManifold m), Some (ABool rg) => call_class c v m rg
        | _, _, _ => RaisesOther
        end
    end.
End Tensors.
Arguments t_view {manifold storage}. Arguments t_class {manifold storage}.
Arguments t_manifold {manifold storage}. Arguments t_grad {manifold storage}.
Arguments v_storage {storage}. Arguments v_offset {storage}.
Arguments v_size {storage}. Arguments v_stride {storage}.
Arguments NoData {manifold storage}. Arguments Plain {manifold storage}. Arguments Manif {manifold storage}.

(** ** deepcopy, tensor.py:141-151 *)
Section Deepcopy.
  Variable value : Type.
  (** Objects live at addresses (Python ids).  A manifold object has an opaque
      value; a tensor object points at a storage cell and a manifold object. *)
  Inductive obj :=
  | OManifold (v : value)
  | OStorage (v : value)
  | OTensor (storage manifold : nat) (cls : class) (rg : bool).
  (** [heap] maps addresses below [next] to objects. *)
  Record heap := { next : nat; at_ : nat -> option obj }.
  Definition alloc (o : obj) (h : heap) : nat * heap :=
    (next h, {| next := S (next h);
                at_ := fun a => if Nat.eqb a (next h) then Some o else at_ h a |}).
  (** deepcopy's memo: old id -> new id. *)
  Definition memo := list (nat * nat).
  Fixpoint assoc (k : nat) (m : memo) : option nat :=
    match m with
    | [] => None
    | (a, b) :: m => if Nat.eqb a k then Some b else assoc k m
    end.

  Definition state := (heap * memo)%type.
  (** copy.deepcopy of a manifold (torch.nn.Module): generic copy through memo. *)
  Definition deepcopy_manifold (a : nat) (s : state) : option (nat * state) :=
    let '(h, mm) := s in
    match assoc a mm with
    | Some b => Some (b, (h, mm))
    | None =>
        match at_ h a with
        | Some (OManifold v) =>
            let '(b, h) := alloc (OManifold v) h in Some (b, (h, (a, b) :: mm))
        | _ => None
        end
    end.
  (** tensor.py:141-151 __deepcopy__: data.clone() is a new storage, the
      manifold goes through memo, the result is recorded in memo. *)
  Definition deepcopy_tensor (a : nat) (s : state) : option (nat * state) :=
    let '(h, mm) := s in
    match assoc a mm with
    | Some b => Some (b, (h, mm))
    | None =>
        match at_ h a with
        | Some (OTensor st mf c rg) =>
            match at_ h st with
            | Some (OStorage v) =>
                let '(st', h) := alloc (OStorage v) h in
                match deepcopy_manifold mf (h, mm) with
                | Some (mf', (h, mm)) =>
                    let '(b, h) := alloc (OTensor st' mf' c rg) h in
                    Some (b, (h, (a, b) :: mm))
                | None => None
                end
            | _ => None
            end
        | _ => None
        end
    end.
  (** copy.deepcopy of a list of tensors: one memo for the whole call. *)
  Fixpoint deepcopy_list (l : list nat) (s : state) : option (list nat * state) :=
    match l with
    | [] => Some ([], s)
    | a :: l =>
        match deepcopy_tensor a s with
        | Some (b, s) =>
            match deepcopy_list l s with
            | Some (bs, s) => Some (b :: bs, s)
            | None => None
            end
        | None => None
        end
    end.
End Deepcopy.
Arguments OManifold {value}. Arguments OStorage {value}. Arguments OTensor {value}.
Arguments next {value}. Arguments at_ {value}.

(** ** dist, tensor.py:99-119: [p] is the string "g" or a number;
    torch.Tensor.dist without p is the 2-norm of the difference. *)
Inductive p_arg := Geodesic | Number (p : nat).
Definition tensor_dist (n : nat) (geodesic : vec -> vec -> R) (p : p_arg) (x y : vec) : R :=
  match p with
  | Geodesic => geodesic x y
  | Number _ => nrm n (vsub x y)      (* super().dist(other): p is dropped *)
  end.
