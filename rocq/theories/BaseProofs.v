From Coq Require Import List Bool String.
From Verif Require Import BaseModel.
Import ListNotations.

Section C.
  Variable tensor : Type.
  Variable shape_of : tensor -> list nat.
  Variable tol : Type.
  Variable m : hooks tensor tol.

  Lemma point_agree x : assert_check_point tensor shape_of tol m x = RaisesValueError
    <-> fst (check_point tensor shape_of tol m x) = false.
  Proof.
    unfold assert_check_point, check_point. destruct (h_shape _ _ m (shape_of x) "x") as [[|] r]; cbn;
      split; auto; discriminate.
  Qed.
  Lemma vector_agree x : assert_check_vector tensor shape_of tol m x = RaisesValueError
    <-> fst (check_vector tensor shape_of tol m x) = false.
  Proof.
    unfold assert_check_vector, check_vector. destruct (h_shape _ _ m (shape_of x) "u") as [[|] r]; cbn;
      split; auto; discriminate.
  Qed.
  Lemma on_manifold_agree t x : assert_check_point_on_manifold tensor shape_of tol m t x = RaisesValueError
    <-> fst (check_point_on_manifold tensor shape_of tol m t x) = false.
  Proof.
    unfold assert_check_point_on_manifold, assert_check_point, check_point_on_manifold.
    destruct (h_shape _ _ m (shape_of x) "x") as [[|] r]; cbn; [|split; auto].
    destruct (h_point _ _ m x t) as [[|] r']; cbn; split; auto; discriminate.
  Qed.
  Lemma tangent_agree b t x u : assert_check_vector_on_tangent tensor shape_of tol m b t x u = RaisesValueError
    <-> fst (check_vector_on_tangent tensor shape_of tol m b t x u) = false.
  Proof.
    unfold assert_check_vector_on_tangent, check_vector_on_tangent. destruct b; cbn.
    - destruct (h_vector _ _ m x u t) as [[|] r]; cbn; split; auto; discriminate.
    - destruct (h_shape _ _ m (shape_of x) "x") as [[|] r1]; cbn; [|split; auto].
      destruct (h_shape _ _ m (shape_of u) "u") as [[|] r2]; cbn; [|split; auto].
      destruct (h_point _ _ m x t) as [[|] r3]; cbn; [|split; auto].
      destruct (h_vector _ _ m x u t) as [[|] r]; cbn; split; auto; discriminate.
  Qed.
  (** meaning of the answers *)
  Lemma on_manifold_means t x : fst (check_point_on_manifold tensor shape_of tol m t x) = true <->
    fst (h_shape _ _ m (shape_of x) "x") = true /\ fst (h_point _ _ m x t) = true.
  Proof.
    unfold check_point_on_manifold. destruct (h_shape _ _ m (shape_of x) "x") as [[|] r]; cbn; split; intuition discriminate.
  Qed.
  Lemma tangent_means t x u : fst (check_vector_on_tangent tensor shape_of tol m false t x u) = true <->
    fst (h_shape _ _ m (shape_of x) "x") = true /\ fst (h_shape _ _ m (shape_of u) "u") = true /\
    fst (h_point _ _ m x t) = true /\ fst (h_vector _ _ m x u t) = true.
  Proof.
    unfold check_vector_on_tangent; cbn.
    destruct (h_shape _ _ m (shape_of x) "x") as [[|] r1]; cbn; [|split; intuition discriminate].
    destruct (h_shape _ _ m (shape_of u) "u") as [[|] r2]; cbn; [|split; intuition discriminate].
    destruct (h_point _ _ m x t) as [[|] r3]; cbn; split; intuition discriminate.
  Qed.
  Lemma tangent_ok_point t x u : fst (check_vector_on_tangent tensor shape_of tol m true t x u) =
    fst (h_vector _ _ m x u t).
  Proof. reflexivity. Qed.
  (** reasons *)
  Definition explained (v : verdict) : Prop := fst v = false -> exists r, snd v = Some r.
  Lemma reasons b t x u :
    (forall s nm, explained (h_shape _ _ m s nm)) -> (forall x t, explained (h_point _ _ m x t)) ->
    (forall x u t, explained (h_vector _ _ m x u t)) ->
    explained (check_point tensor shape_of tol m x) /\
    explained (check_point_on_manifold tensor shape_of tol m t x) /\
    explained (check_vector_on_tangent tensor shape_of tol m b t x u).
  Proof.
    intros H1 H2 H3. unfold check_point, check_point_on_manifold, check_vector_on_tangent. split; [auto|]. split.
    - specialize (H1 (shape_of x) "x"%string). destruct (h_shape _ _ m (shape_of x) "x") as [[|] r]; auto.
    - destruct b; cbn; auto. pose proof (H1 (shape_of x) "x"%string). pose proof (H1 (shape_of u) "u"%string).
      destruct (h_shape _ _ m (shape_of x) "x") as [[|] r1]; auto.
      destruct (h_shape _ _ m (shape_of u) "u") as [[|] r2]; auto.
      specialize (H2 x t). destruct (h_point _ _ m x t) as [[|] r3]; auto.
  Qed.
  Lemma default_shape ndim s nm : explained (default_check_shape ndim s nm) /\
    (fst (default_check_shape ndim s nm) = true <-> ndim <= List.length s).
  Proof.
    unfold default_check_shape, explained. destruct (PeanoNat.Nat.leb_spec ndim (List.length s)); cbn; split; auto.
    - discriminate.
    - split; auto.
    - eauto.
    - split; [discriminate|]. intros. exfalso. apply (PeanoNat.Nat.lt_irrefl ndim).
      eapply PeanoNat.Nat.le_lt_trans; eauto.
  Qed.
End C.

Section O.
  Variable gen : Type.
  Variable seeded : nat -> gen.
  Variable A : Type.
  Lemma origin_cpu (f : sampler gen A) k s :
    cpu gen (snd (origin gen seeded A f (Some k) s)) = cpu gen s.
  Proof. unfold origin. destruct (f _) as [r s']. reflexivity. Qed.
  (** A sampler that looks only at the CPU generator. *)
  Definition cpu_only (f : sampler gen A) : Prop :=
    forall s s', cpu gen s = cpu gen s' -> fst (f s) = fst (f s').
  Lemma origin_deterministic f k s s' : cpu_only f ->
    fst (origin gen seeded A f (Some k) s) = fst (origin gen seeded A f (Some k) s').
  Proof.
    intros H. unfold origin.
    pose proof (H (manual_seed gen seeded k s) (manual_seed gen seeded k s') eq_refl) as E.
    destruct (f (manual_seed gen seeded k s)), (f (manual_seed gen seeded k s')). exact E.
  Qed.
  Lemma origin_cuda (f : sampler gen A) k s : (forall s, snd (f s) = s) ->
    cuda gen (snd (origin gen seeded A f (Some k) s)) = map (fun _ => seeded k) (cuda gen s).
  Proof. intros H. unfold origin. specialize (H (manual_seed gen seeded k s)). destruct (f _) as [r s']. cbn in *. subst. reflexivity. Qed.
End O.
