(** Model of geoopt/manifolds/product.py.  A tensor is a shape and its entries
    in row-major order; [view]/[reshape] keep the entries.  The component
    manifolds are arbitrary: each operation is a function on tensors. *)
From Coq Require Import List Bool Arith.
From Verif Require Import BaseModel.
Import ListNotations.

Section Tensors.
  Variable A : Type.

  Record tensor := mk { t_shape : list nat; t_data : list A }.

  (** product.py:14-15 _shape2size *)
  Definition size (shape : list nat) : nat := fold_left Nat.mul shape 1.

  (** [k] consecutive rows of [n] entries. *)
  Fixpoint rows (k n : nat) (l : list A) : list (list A) :=
    match k with
    | O => []
    | S k' => firstn n l :: rows k' n (skipn n l)
    end.

  (** [x.narrow(-1, start, len)] *)
  Definition narrow_last (x : tensor) (start len : nat) : tensor :=
    let batch := removelast (t_shape x) in
    mk (batch ++ [len])
       (concat (map (fun r => firstn len (skipn start r))
                    (rows (size batch) (last (t_shape x) 1) (t_data x)))).

  Definition reshape (x : tensor) (shape : list nat) : tensor := mk shape (t_data x).

  (** [x.reshape(( *batch, -1))]: torch infers the last size from the number of
      entries and refuses when the given sizes multiply to zero. *)
  Definition reshape_infer (x : tensor) (batch : list nat) : outcome tensor :=
    if size batch =? 0 then RaisesOther
    else Returns (reshape x (batch ++ [List.length (t_data x) / size batch])).

  (** [torch.cat(parts, -1)]: leading sizes must agree; row [i] of the result is
      the concatenation of the rows [i].  (torch skips one-dimensional empty
      tensors; not modelled.) *)
  Definition cat_rows (k : nat) (parts : list (list (list A))) : list (list A) :=
    map (fun i => concat (map (fun p => nth i p []) parts)) (seq 0 k).
  Definition cat_last (parts : list tensor) : outcome tensor :=
    match parts with
    | [] => RaisesOther
    | p :: _ =>
        let batch := removelast (t_shape p) in
        if forallb (fun q => if list_eq_dec Nat.eq_dec (removelast (t_shape q)) batch then true else false) parts
        then Returns (mk (batch ++ [list_sum (map (fun q => last (t_shape q) 1) parts)])
                   (concat (cat_rows (size batch)
                      (map (fun q => rows (size batch) (last (t_shape q) 1) (t_data q)) parts))))
        else RaisesOther
    end.
End Tensors.
Arguments mk {A}. Arguments t_shape {A}. Arguments t_data {A}.
Arguments rows {A}. Arguments narrow_last {A}. Arguments reshape {A}. Arguments reshape_infer {A}.
Arguments cat_rows {A}. Arguments cat_last {A}.

(** Sequencing of raising computations over a list, in order. *)
Fixpoint traverse {A B} (f : A -> outcome B) (l : list A) : outcome (list B) :=
  match l with
  | [] => Returns []
  | a :: r =>
      match f a with
      | Returns b =>
          match traverse f r with
          | Returns bs => Returns (b :: bs)
          | RaisesValueError => RaisesValueError
          | RaisesOther => RaisesOther
          end
      | RaisesValueError => RaisesValueError
      | RaisesOther => RaisesOther
      end
  end.
Definition bind {A B} (o : outcome A) (f : A -> outcome B) : outcome B :=
  match o with
  | Returns a => f a
  | RaisesValueError => RaisesValueError
  | RaisesOther => RaisesOther
  end.

(** product.py:52-79: the (start, stop) pairs appended to [self.slices], and
    [n_elements]. *)
Fixpoint slices_from (pos0 : nat) (shapes : list (list nat)) : list (nat * nat) :=
  match shapes with
  | [] => []
  | s :: rest => let pos1 := pos0 + size s in (pos0, pos1) :: slices_from pos1 rest
  end.
Definition slices := slices_from 0.
Fixpoint end_from (pos0 : nat) (shapes : list (list nat)) : nat :=
  match shapes with
  | [] => pos0
  | s :: rest => end_from (pos0 + size s) rest
  end.
Definition n_elements := end_from 0.

(** product.py:53-58 the constructor's shape checks for components whose
    _check_shape verdicts are [oks] (device and dtype consistency not modelled);
    line 41: at least one component. *)
Definition construct (oks : list bool) : outcome unit :=
  match oks with
  | [] => RaisesValueError
  | _ => if forallb (fun b => b) oks then Returns tt else RaisesValueError
  end.

Section Product.
  Variable A : Type.
  Variable shapes : list (list nat).      (* self.shapes *)

  (** product.py:87-110 take_submanifold_value *)
  Definition take (x : tensor A) (i : nat) (do_reshape : bool) : tensor A :=
    let '(start, stop) := nth i (slices shapes) (0, 0) in
    let part := narrow_last x start (stop - start) in
    if do_reshape
    then reshape part (removelast (t_shape part) ++ nth i shapes [])
    else part.

  (** product.py:354-359 *)
  Definition unpack_tensor (x : tensor A) : list (tensor A) :=
    map (fun i => take x i true) (seq 0 (List.length shapes)).

  (** [part.shape[-len(shape):]] and [part.shape[:-len(shape)]] for len > 0 *)
  Definition tail_of (n : nat) (s : list nat) : list nat := skipn (List.length s - n) s.
  Definition head_of (n : nat) (s : list nat) : list nat := firstn (List.length s - n) s.

  (** product.py:367-380 one round of the loop *)
  Definition flatten_part (part : tensor A) (shape : list nat) : outcome (tensor A) :=
    if 0 <? List.length shape then
      if list_eq_dec Nat.eq_dec (tail_of (List.length shape) (t_shape part)) shape
      then reshape_infer part (head_of (List.length shape) (t_shape part))
      else RaisesValueError
    else reshape_infer part (t_shape part).

  (** product.py:361-381 *)
  Definition pack_point (tensors : list (tensor A)) : outcome (tensor A) :=
    if List.length tensors =? List.length shapes then
      bind (traverse (fun '(t, s) => flatten_part t s) (combine tensors shapes)) cat_last
    else RaisesValueError.

  (** product.py:112-121 (the last dimension; an empty shape raises IndexError) *)
  Definition check_shape (shape : list nat) : outcome bool :=
    match shape with
    | [] => RaisesOther
    | _ => Returns (last shape 0 =? n_elements shapes)
    end.

  (** product.py:18-19 _calculate_target_batch_dim *)
  Definition target_batch_dim (dims : list nat) : nat := list_max dims - 1.
  Definition dim (x : tensor A) : nat := List.length (t_shape x).

  (** The shape shared by proju 198-207, expmap 209-218, retr 220-229, transp
      231-243, logmap 245-254, transp_follow_retr 256-270, transp_follow_expmap
      272-286 and egrad2rgrad 341-352: apply the i-th component's function to the
      i-th parts, flatten all but the first [target_batch_dim] dimensions,
      concatenate. *)
  Definition flatten_result (tbd : nat) (r : tensor A) : outcome (tensor A) :=
    reshape_infer r (firstn tbd (t_shape r)).
  Definition apply_parts (fs : list (list (tensor A) -> outcome (tensor A)))
             (args : list (tensor A)) : outcome (list (tensor A)) :=
    traverse (fun '(i, f) => f (map (fun a => take a i true) args)) (combine (seq 0 (List.length fs)) fs).
  Definition lift (fs : list (list (tensor A) -> outcome (tensor A)))
             (args : list (tensor A)) : outcome (tensor A) :=
    let tbd := target_batch_dim (map dim args) in
    bind (apply_parts fs args) (fun rs =>
    bind (traverse (flatten_result tbd) rs) cat_last).

  (** projx 189-196: the same with the batch dimensions of x. *)
  Definition projx (fs : list (list (tensor A) -> outcome (tensor A))) (x : tensor A) : outcome (tensor A) :=
    bind (apply_parts fs [x]) (fun rs =>
    bind (traverse (fun r => reshape_infer r (removelast (t_shape x))) rs) cat_last).

  (** expmap_transp 288-304, retr_transp 306-320: components return a pair. *)
  Definition lift_pair (fs : list (list (tensor A) -> outcome (tensor A * tensor A)))
             (args : list (tensor A)) : outcome (tensor A * tensor A) :=
    let tbd := target_batch_dim (map dim args) in
    bind (traverse (fun '(i, f) =>
            bind (f (map (fun a => take a i true) args)) (fun '(p, v) =>
            bind (flatten_result tbd v) (fun v' =>
            bind (flatten_result tbd p) (fun p' => Returns (p', v')))))
          (combine (seq 0 (List.length fs)) fs)) (fun rs =>
    bind (cat_last (map fst rs)) (fun points =>
    bind (cat_last (map snd rs)) (fun vectors => Returns (points, vectors)))).

  (** product.py:123-134 (and 136-148 with the tangent parts): run the component
      checks in order, stop at the first failure, return the last verdict. *)
  Fixpoint check_loop (checks : list verdict) (acc : verdict) : verdict :=
    match checks with
    | [] => acc
    | c :: rest => if fst c then check_loop rest c else c
    end.
  Definition check_all (checks : list verdict) : verdict := check_loop checks (true, None).
  Definition check_point_on (fs : list (tensor A -> verdict)) (x : tensor A) : verdict :=
    check_all (map (fun '(i, f) => f (take x i true)) (combine (seq 0 (List.length fs)) fs)).
  Definition check_vector_on (fs : list (tensor A -> tensor A -> verdict)) (x u : tensor A) : verdict :=
    check_all (map (fun '(i, f) => f (take x i true) (take u i true)) (combine (seq 0 (List.length fs)) fs)).

  (** product.py:410-422 random_combined and 426-440 origin: [gen i shape] is the
      component's random/origin for that shape. *)
  Definition from_components (gens : list (list nat -> tensor A)) (shape : list nat) : outcome (tensor A) :=
    bind (check_shape shape) (fun ok =>
    if ok then
      pack_point (map (fun '(g, s) => g (removelast shape ++ s)) (combine gens shapes))
    else RaisesValueError).
End Product.

(** product.py:383-408 from_point: the component shapes it passes to the
    constructor (the components' own shape checks are in [construct]). *)
Fixpoint same_batch (batch : list nat) (batch_dims : nat) (parts : list (list nat)) : bool :=
  match parts with
  | [] => true
  | s :: rest =>
      if list_eq_dec Nat.eq_dec (firstn batch_dims s) batch
      then same_batch batch batch_dims rest else false
  end.
Definition from_point (part_shapes : list (list nat)) (batch_dims : nat) : outcome (list (list nat)) :=
  match part_shapes with
  | [] => RaisesValueError
  | s :: rest =>
      if same_batch (firstn batch_dims s) batch_dims rest
      then Returns (map (skipn batch_dims) part_shapes)
      else RaisesValueError
  end.
