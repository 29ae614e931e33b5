(** Vocabulary: a tensor of matrices holds an n x p matrix at each position of its batch
    axes; a position outside a smaller batch is read with torch's broadcasting. *)
From mathcomp Require Import all_ssreflect all_algebra.
From Verif Require NdModel StereoNdSpec.
From Verif Require Import MatNdModel.
Set Implicit Arguments. Unset Strict Implicit. Unset Printing Implicit Defensive.

Section Spec.
  Variable F : fieldType.
  (** The shape of [t] is (batch..., n, p). *)
  Definition has_shape (t : mt F) (b : seq nat) (n p : nat) : Prop :=
    bsh t = b /\ nrow t = n /\ ncol t = p.
  (** The result exists, has shape (b..., n, p), and its matrix at each position is [f]. *)
  Definition gives (o : option (mt F)) (b : seq nat) (n p : nat) (f : index -> 'M[F]_(n, p)) : Prop :=
    exists r, o = Some r /\ has_shape r b n p /\ forall ix, to_mx n p r ix = f ix.
  (** The result exists, has shape (b...) or, with keepdim, (b..., 1, 1), and its entry at
      each position is [f]. *)
  Definition gives_scalar (o : option (gt F)) (b : seq nat) (keepdim : bool) (f : index -> F) : Prop :=
    exists r, o = Some r /\ gsh r = (if keepdim then [:: 1, 1 & b]%N else b) /\
      forall ix, grd r ix = f (if keepdim then fun a => ix a.+2 else ix).
  (** The check returns, and accepts exactly when every matrix is accepted. *)
  Definition gives_check (o : option bool) (b : seq nat) (f : index -> bool) : Prop :=
    exists ok, o = Some ok /\ (ok <-> forall ix, StereoNdSpec.inside b ix -> f ix).
  (** Functions of one tensor, and of two or three whose batch axes broadcast to [b]. *)
  Definition each1 (op : mt F -> option (mt F)) n p (f : 'M[F]_(n, p) -> 'M[F]_(n, p)) : Prop :=
    forall x b, has_shape x b n p -> gives (op x) b (fun ix => f (to_mx n p x ix)).
  Definition each2 (op : mt F -> mt F -> option (mt F)) n p (f : 'M[F]_(n, p) -> 'M[F]_(n, p) -> 'M[F]_(n, p)) : Prop :=
    forall x y bx by_ b, has_shape x bx n p -> has_shape y by_ n p -> bshape bx by_ = Some b ->
    gives (op x y) b (fun ix => f (to_mx n p x ix) (to_mx n p y ix)).
  Definition each3 (op : mt F -> mt F -> mt F -> option (mt F)) n p
      (f : 'M[F]_(n, p) -> 'M[F]_(n, p) -> 'M[F]_(n, p) -> 'M[F]_(n, p)) : Prop :=
    forall x y z bx by_ bz b1 b, has_shape x bx n p -> has_shape y by_ n p -> has_shape z bz n p ->
    bshape bx by_ = Some b1 -> bshape b1 bz = Some b ->
    gives (op x y z) b (fun ix => f (to_mx n p x ix) (to_mx n p y ix) (to_mx n p z ix)).
  (** Two tensors whose batch axes do not broadcast raise. *)
  Definition raises2 (op : mt F -> mt F -> option (mt F)) (n p : nat) : Prop :=
    forall x y bx by_, has_shape x bx n p -> has_shape y by_ n p -> bshape bx by_ = None -> op x y = None.
End Spec.
