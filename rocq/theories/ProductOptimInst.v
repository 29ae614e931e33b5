(** Manifolds of rows, and a concrete case. *)
From Coq Require Import Reals List Bool Arith Lra Lia.
From Verif Require Import RVec OptimModel OptimSpec OptimDecaySpec OptimInstances ProductOptimModel ProductOptimSpec ProductOptimProofs StereoSpec.
From Verif Require SphereModel SphereProofs StereoModel LorentzModel.
Import ListNotations.
Local Open Scope R_scope.

Section Cong.
  Variable n : nat.
  Lemma c_add x x' y y' : same n x x' -> same n y y' -> same n (vadd x y) (vadd x' y').
  Proof. intros A B i I. unfold vadd. rewrite A, B; auto. Qed.
  Lemma c_sub x x' y y' : same n x x' -> same n y y' -> same n (vsub x y) (vsub x' y').
  Proof. intros A B i I. unfold vsub. rewrite A, B; auto. Qed.
  Lemma c_mul x x' y y' : same n x x' -> same n y y' -> same n (vmul x y) (vmul x' y').
  Proof. intros A B i I. unfold vmul. rewrite A, B; auto. Qed.
  Lemma c_smul a a' x x' : a = a' -> same n x x' -> same n (smul a x) (smul a' x').
  Proof. intros -> A i I. unfold smul. rewrite A; auto. Qed.
  Lemma c_div x x' a a' : same n x x' -> a = a' -> same n (vdiv x a) (vdiv x' a').
  Proof. intros A -> i I. unfold vdiv. rewrite A; auto. Qed.
  Lemma c_opp x x' : same n x x' -> same n (vopp x) (vopp x').
  Proof. intros A i I. unfold vopp. rewrite A; auto. Qed.
  Lemma c_const a a' : a = a' -> same n (vconst a) (vconst a').
  Proof. intros ->. apply SphereProofs.same_refl. Qed.
End Cong.
Ltac cong := repeat first
  [ assumption
  | match goal with
    | |- same _ (vadd _ _) (vadd _ _) => apply c_add
    | |- same _ (vsub _ _) (vsub _ _) => apply c_sub
    | |- same _ (vmul _ _) (vmul _ _) => apply c_mul
    | |- same _ (smul _ _) (smul _ _) => apply c_smul
    | |- same _ (vdiv _ _) (vdiv _ _) => apply c_div
    | |- same _ (vopp _) (vopp _) => apply c_opp
    | |- same _ (vconst _) (vconst _) => apply c_const
    | |- dot ?n _ _ = dot ?n _ _ => apply SphereProofs.dot_same
    | |- nrm ?n _ = nrm ?n _ => apply SphereProofs.nrm_same
    | |- @eq R _ _ => first [reflexivity | progress f_equal]
    end ].

Lemma euclidean_rows n : rows_of n euclidean.
Proof. split; cbn; intros; try (split; cbn); cong. Qed.
Lemma sphere_rows n : rows_of n (sphere n).
Proof.
  assert (PU : forall x y u v, same n x y -> same n u v -> same n (SphereModel.proju n None x u) (SphereModel.proju n None y v))
    by (intros; unfold SphereModel.proju; cbn [SphereModel.project_on_subspace]; cong).
  assert (PX : forall x y, same n x y -> same n (SphereModel.projx n None x) (SphereModel.projx n None y))
    by (intros; unfold SphereModel.projx; cbn [SphereModel.project_on_subspace]; cong).
  assert (RT : forall x y u v, same n x y -> same n u v -> same n (SphereModel.retr n None x u) (SphereModel.retr n None y v))
    by (intros; apply PX; cong).
  split; cbn [sphere egrad2rgrad retr retr_transp component_inner projx proju fst snd]; intros; auto; try (split; auto); cong.
  apply PU; auto.
Qed.
Lemma ball_rows n k : rows_of n (ball n k).
Proof.
  assert (LM : forall x y, same n x y -> StereoModel.lambda_x n k x = StereoModel.lambda_x n k y)
    by (intros; unfold StereoModel.lambda_x; cong).
  assert (PX : forall x y, same n x y -> same n (StereoModel.project n StereoModel.e15 (/ 10 ^ 5) k x) (StereoModel.project n StereoModel.e15 (/ 10 ^ 5) k y)).
  { intros x y H. unfold StereoModel.project. cbv zeta. rewrite (SphereProofs.nrm_same n x y H). destruct (Rlt_dec _ _); cong. }
  assert (TR : forall x y x' y' v v', same n x x' -> same n y y' -> same n v v' ->
    same n (StereoModel.parallel_transport n k x y v) (StereoModel.parallel_transport n k x' y' v')).
  { intros x y x' y' v v' A B C. unfold StereoModel.parallel_transport, StereoModel.gyration, StereoModel.gyr_den. cbv zeta.
    rewrite (LM x x'), (LM y y') by auto. cong. }
  split; cbn [ball egrad2rgrad retr retr_transp component_inner projx proju fst snd]; intros; auto.
  - unfold StereoModel.egrad2rgrad. rewrite (LM x y) by auto. cong.
  - apply PX; cong.
  - assert (K : same n (StereoModel.project n StereoModel.e15 (/ 10 ^ 5) k (vadd x u)) (StereoModel.project n StereoModel.e15 (/ 10 ^ 5) k (vadd y v)))
      by (apply PX; cong). split; auto.
  - unfold StereoModel.inner. rewrite (LM x y) by auto. cong.
Qed.
Section Lorentz.
  Variables (d : nat) (k : R).
  Let n := S d.
  Import LorentzModel.
  Lemma l_inner x y u v : same n x y -> same n u v -> inner d x u = inner d y v.
  Proof.
    intros A B. unfold inner. cbv zeta. rewrite (A O), (B O) by (unfold n; lia). f_equal. apply Rsum_ext. intros i I.
    unfold LorentzModel.tl. rewrite A, B by (unfold n; lia). reflexivity.
  Qed.
  Lemma l_dist x y u v : same n x y -> same n u v -> dist d k x u = dist d k y v.
  Proof. intros. unfold dist. rewrite (l_inner x y u v) by auto. reflexivity. Qed.
  Lemma l_norm x y : same n x y -> norm d x = norm d y.
  Proof. intros. unfold norm. rewrite (l_inner x y x y) by auto. reflexivity. Qed.
  Lemma l_proj x y : same n x y -> same n (project d k x) (project d k y).
  Proof.
    intros A. assert (T : same d (LorentzModel.tl x) (LorentzModel.tl y)) by (intros i I; unfold LorentzModel.tl; apply A; unfold n; lia).
    intros i I. unfold project. rewrite (SphereProofs.nrm_same d _ _ T). unfold LorentzModel.cat. destruct i; [reflexivity|]. apply T. unfold n in I. lia.
  Qed.
  Lemma l_proju x y u v : same n x y -> same n u v -> same n (project_u d k x u) (project_u d k y v).
  Proof. intros. unfold project_u. rewrite (l_inner x y u v) by auto. cong. Qed.
  Lemma l_log x y u v : same n x y -> same n u v -> same n (logmap d k x u) (logmap d k y v).
  Proof.
    intros A B. unfold logmap. cbv zeta. rewrite (l_dist x y u v), (l_inner x y u v) by auto.
    assert (N : same n (vadd u (smul (1 / k * inner d y v) x)) (vadd v (smul (1 / k * inner d y v) y))) by cong.
    rewrite (l_norm _ _ N). apply c_div; [apply c_smul; auto|reflexivity].
  Qed.
  Lemma l_exp x y u v : same n x y -> same n u v -> same n (l_expmap d k true true x u) (l_expmap d k true true y v).
  Proof.
    intros A B. unfold l_expmap. cbv zeta. apply l_proj. pose proof (l_proju x y u v A B) as P. unfold expmap. cbv zeta. rewrite (l_norm _ _ P). cong.
  Qed.
  Lemma lorentz_rows : rows_of n (lorentz d k).
  Proof.
    split; cbn [lorentz OptimModel.egrad2rgrad retr retr_transp component_inner projx proju fst snd]; intros.
    - assert (F : same n (flip u) (flip v)) by (intros [|i] I; unfold flip; rewrite H0; auto).
      unfold egrad2rgrad. cbn [snd]. rewrite (l_inner x y _ _ H F). cong.
    - apply l_exp; auto.
    - pose proof (l_exp x y u v H H0) as E. split; auto. unfold parallel_transport. cbv zeta.
      pose proof (l_log _ _ _ _ H E) as L1. pose proof (l_log _ _ _ _ E H) as L2.
      rewrite (l_inner _ _ _ _ L1 H1), (l_dist _ _ _ _ H E). cong.
    - rewrite (l_inner u v u v) by auto. cong.
    - apply l_proj; auto.
    - apply l_proju; auto.
  Qed.
End Lorentz.
(** products may be nested *)
Fixpoint total (cs : list component) : nat := match cs with [] => O | c :: cs => fst c + total cs end.
Lemma start_total cs : forall j i, (j < length cs)%nat -> (i < extent cs j)%nat -> (start cs j + i < total cs)%nat.
Proof.
  induction cs as [|c cs IH]; intros [|j] i J I; unfold extent in *; cbn [length start total nth] in *; try lia. specialize (IH j i ltac:(lia) I). lia.
Qed.
Lemma cat_total cs : forall vs ws, length vs = length cs -> length ws = length cs ->
  (forall j, (j < length cs)%nat -> same (extent cs j) (nth j vs vzero) (nth j ws vzero)) -> same (total cs) (cat cs vs) (cat cs ws).
Proof.
  induction cs as [|c cs IH]; intros [|v vs] [|w ws] L1 L2 H i I; try discriminate; cbn [total] in I; [lia|]. cbn [cat].
  destruct (Nat.ltb_spec i (fst c)) as [A|A]; [apply (H O ltac:(cbn; lia) i A)|].
  apply (IH vs ws); [cbn in *; lia|cbn in *; lia| |lia]. intros j J. apply (H (S j)). cbn. lia.
Qed.
Lemma product_rows cs : Forall (fun c => rows_of (fst c) (snd c)) cs -> rows_of (total cs) (product cs).
Proof.
  intros RW.
  assert (T : forall x y j, (j < length cs)%nat -> same (total cs) x y -> same (extent cs j) (take cs j x) (take cs j y)).
  { intros x y j J H i I. unfold take. destruct (Nat.ltb_spec i (extent cs j)); [|lia]. apply H. apply start_total; auto. }
  assert (E : forall f g, (forall j, (j < length cs)%nat -> rows_of (extent cs j) (snd (nth j cs dft)) ->
      same (extent cs j) (f (snd (nth j cs dft)) j) (g (snd (nth j cs dft)) j)) -> same (total cs) (each_component cs f) (each_component cs g)).
  { intros f g H. unfold each_component. apply cat_total; [rewrite map_length, seq_length; reflexivity|rewrite map_length, seq_length; reflexivity|].
    intros j J. rewrite Forall_forall in RW.
    rewrite nth_indep with (d' := f (snd (nth O cs (O, euclidean))) O) by (rewrite map_length, seq_length; auto).
    rewrite (map_nth (fun j => f (snd (nth j cs (O, euclidean))) j)), seq_nth by auto.
    rewrite nth_indep with (d' := g (snd (nth O cs (O, euclidean))) O) by (rewrite map_length, seq_length; auto).
    rewrite (map_nth (fun j => g (snd (nth j cs (O, euclidean))) j)), seq_nth by auto. apply H; auto. apply RW, nth_In, J. }
  split; cbn [product egrad2rgrad retr retr_transp component_inner projx proju fst snd]; intros; try split; apply E; intros j J W.
  - apply (r_egrad _ _ W); auto.
  - apply (r_retr _ _ W); auto.
  - apply (r_move _ _ W); auto.
  - apply (r_move _ _ W); auto.
  - apply (r_inner _ _ W); auto.
  - apply (r_projx _ _ W); auto.
  - apply (r_proju _ _ W); auto.
Qed.

(** ** a concrete case: a circle and the hyperbolic plane, with the gradients x -> 2 x of the
    squared length *)
Definition pair_cs : list component := [(2%nat, sphere 2); (3%nat, lorentz 2 1)].
Definition x_both : vec := fun i => match i with O => 1 | 2%nat => 1 | _ => 0 end.
Definition first_axis : vec := fun i => match i with O => 1 | _ => 0 end.
Definition packed_at {S} : param S := {| man := Some (product pair_cs); val := x_both; grad := NoGrad; state := None |}.
Definition separate {S} : list (param S) :=
  [ {| man := Some (sphere 2); val := first_axis; grad := NoGrad; state := None |};
    {| man := Some (lorentz 2 1); val := first_axis; grad := NoGrad; state := None |} ].
Definition twice (_ : nat) (xs : list vec) (j : nat) : gradient := Dense (smul 2 (nth j xs vzero)).
Lemma pair_case {S} : pair_cs <> [] /\ Forall (fun c => rows_of (fst c) (snd c)) pair_cs /\ same_gradients pair_cs twice twice /\
  on_components pair_cs (@packed_at S) separate.
Proof.
  split; [discriminate|]. split; [constructor; [apply sphere_rows|constructor; [apply lorentz_rows|constructor]]|]. split.
  - intros t X xs H. exists (smul 2 X), (map (smul 2) xs). split; [reflexivity|].
    destruct xs as [|a [|b [|c xs]]]; cbn [joined pair_cs] in H; try tauto. split.
    + cbn [joined pair_cs map]. unfold smul. destruct H as [A [B _]]. repeat split; intros i I; [rewrite A|rewrite B]; auto.
    + intros [|[|j]] J; try reflexivity. cbn in J. lia.
  - split; [reflexivity|]. split; [reflexivity|]. split; [|split; [reflexivity|repeat constructor]].
    cbn [joined pair_cs map separate val packed_at]. split; [|split; [|exact I]].
    + intros i L. cbn [fst] in L. destruct i as [|[|]]; try lia; reflexivity.
    + intros i L. cbn [fst] in L. destruct i as [|[|[|]]]; try lia; reflexivity.
Qed.
