(** Vocabulary for the tensor properties. *)
From Coq Require Import List Reals.
From Verif Require Import TensorModel RVec.
Import ListNotations.

Section S.
  Context {value : Type}.
  Notation heap := (heap value).
  (** Address [a] holds a tensor with this storage contents [v], manifold object
      [mf] (itself holding [w]), class and flag. *)
  Definition tensor_at (h : heap) (a st : nat) (v : value) (mf : nat) (w : value) (c : class) (rg : bool) : Prop :=
    at_ h a = Some (OTensor st mf c rg) /\ at_ h st = Some (OStorage v) /\ at_ h mf = Some (OManifold w).
  Definition is_tensor (h : heap) (a : nat) : Prop :=
    exists st v mf w c rg, tensor_at h a st v mf w c rg.
  (** Only addresses below [next] are in use. *)
  Definition well_formed (h : heap) : Prop := forall a o, at_ h a = Some o -> a < next h.

  (** What a faithful deep copy of the list [l] in heap [h0] into list [bs] of
      heap [h] means. *)
  Record faithful_copy (h0 h : heap) (l bs : list nat) : Prop := {
    fc_length : length bs = length l;
    (* the originals are untouched *)
    fc_old : forall a, a < next h0 -> at_ h a = at_ h0 a;
    (* every copy is a new object with the same class, flag, data and manifold value,
       and its storage and manifold are new objects too *)
    fc_copy : forall i a b, nth_error l i = Some a -> nth_error bs i = Some b ->
      exists st v mf w c rg st' mf',
        tensor_at h0 a st v mf w c rg /\ tensor_at h b st' v mf' w c rg /\
        next h0 <= b /\ next h0 <= st' /\ next h0 <= mf';
    (* object sharing is preserved exactly *)
    fc_sharing : forall i j a a' b b',
      nth_error l i = Some a -> nth_error l j = Some a' ->
      nth_error bs i = Some b -> nth_error bs j = Some b' -> (a = a' <-> b = b');
    (* manifold sharing is preserved exactly *)
    fc_manifold : forall i j a a' b b' st mf c rg st2 mf2 c2 rg2 st' mf' c' rg' st2' mf2' c2' rg2',
      nth_error l i = Some a -> nth_error l j = Some a' ->
      nth_error bs i = Some b -> nth_error bs j = Some b' ->
      at_ h0 a = Some (OTensor st mf c rg) -> at_ h0 a' = Some (OTensor st2 mf2 c2 rg2) ->
      at_ h b = Some (OTensor st' mf' c' rg') -> at_ h b' = Some (OTensor st2' mf2' c2' rg2') ->
      (mf = mf2 <-> mf' = mf2')
  }.
End S.

(** [d] is the p-norm of x - y (vectors of size n, p a positive integer). *)
Definition is_pnorm (n p : nat) (x y : vec) (d : R) : Prop :=
  (0 <= d)%R /\ (d ^ p = Rsum n (fun i => Rabs (x i - y i) ^ p))%R.
