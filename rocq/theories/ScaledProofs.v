(** Lemmas about the Scaled model. *)
From Coq Require Import Reals ZArith List String Bool Lra Lia FunctionalExtensionality.
From Verif Require Import RVec ScaledModel LibraryModel ScaledClassModel.
Import ListNotations.
Local Open Scope R_scope.

Lemma smul_smul a b v : smul a (smul b v) = smul (a * b) v.
Proof. apply vec_ext; intro; unfold smul; ring. Qed.
Lemma smul_1 v : smul 1 v = v.
Proof. apply vec_ext; intro; unfold smul; ring. Qed.
Lemma smul_zero a : smul a vzero = vzero.
Proof. apply vec_ext; intro; unfold smul, vzero; ring. Qed.

Lemma rescale_value_eq v s p : rescale_value v s p = smul (powerRZ s p) v.
Proof.
  unfold rescale_value. destruct (Z.eqb_spec p 0) as [->|]; auto.
  simpl. now rewrite smul_1.
Qed.

Lemma rescale_value_compose v a b p : a <> 0 -> b <> 0 ->
  rescale_value (rescale_value v a p) b p = rescale_value v (a * b) p.
Proof.
  intros. rewrite !rescale_value_eq, smul_smul, powerRZ_mult by (right; now apply Rmult_integral_contrapositive_currified).
  now rewrite Rmult_comm.
Qed.
Lemma rescale_value_zero s p : rescale_value vzero s p = vzero.
Proof. rewrite rescale_value_eq. apply smul_zero. Qed.
Lemma rescale_value_one v p : rescale_value v 1 p = v.
Proof. rewrite rescale_value_eq, powerRZ_R1. apply smul_1. Qed.

(** rescaling one argument *)
Lemma rescale_argument_compose a b k p args : a <> 0 -> b <> 0 ->
  match rescale_argument a k p args with
  | Some x => rescale_argument b k p x
  | None => None
  end = rescale_argument (a * b) k p args.
Proof.
  intros Ha Hb. induction args as [|[k' v] r IH]; simpl; auto.
  destruct (String.eqb k' k) eqn:E; simpl.
  - rewrite E. now rewrite rescale_value_compose.
  - destruct (rescale_argument a k p r) as [x|]; simpl.
    + rewrite E. now rewrite IH.
    + now rewrite <- IH.
Qed.

Lemma rescale_argument_swap a b k k' p p' args : k <> k' ->
  match rescale_argument a k p args with
  | Some x => rescale_argument b k' p' x
  | None => None
  end =
  match rescale_argument b k' p' args with
  | Some x => rescale_argument a k p x
  | None => None
  end.
Proof.
  intros N. induction args as [|[k0 v] r IH]; simpl; auto.
  destruct (String.eqb_spec k0 k) as [<-|N1]; destruct (String.eqb_spec k0 k') as [<-|N2].
  - congruence.
  - simpl. destruct (String.eqb_spec k0 k'); [congruence|].
    destruct (rescale_argument b k' p' r); simpl; auto.
    now rewrite String.eqb_refl.
  - simpl. destruct (String.eqb_spec k0 k); [congruence|].
    destruct (rescale_argument a k p r); simpl; auto.
    now rewrite String.eqb_refl.
  - destruct (rescale_argument a k p r) as [x|]; destruct (rescale_argument b k' p' r) as [y|]; simpl in *;
      destruct (String.eqb_spec k0 k); destruct (String.eqb_spec k0 k'); try congruence;
      rewrite ?IH; simpl; auto; try (now rewrite <- IH).
Qed.

Lemma rescale_argument_arguments_swap a b k p kw args :
  ~ In k (map fst kw) ->
  match rescale_arguments a kw args with
  | Some x => rescale_argument b k p x
  | None => None
  end =
  match rescale_argument b k p args with
  | Some x => rescale_arguments a kw x
  | None => None
  end.
Proof.
  revert args. induction kw as [|[k' p'] kw IH]; simpl; intros args N.
  - destruct (rescale_argument b k p args); auto.
  - assert (H := rescale_argument_swap a b k' k p' p args ltac:(intro; subst; tauto)).
    destruct (rescale_argument a k' p' args) as [x|]; simpl in *.
    + rewrite IH by tauto. rewrite H. destruct (rescale_argument b k p args); auto.
    + destruct (rescale_argument b k p args) as [y|]; auto. now rewrite <- H.
Qed.

Lemma rescale_arguments_compose a b kw args : a <> 0 -> b <> 0 -> NoDup (map fst kw) ->
  match rescale_arguments b kw args with
  | Some x => rescale_arguments a kw x
  | None => None
  end = rescale_arguments (a * b) kw args.
Proof.
  intros Ha Hb. revert args. induction kw as [|[k p] kw IH]; intros args ND; [reflexivity|].
  inversion ND; subst. cbn [rescale_arguments].
  rewrite (Rmult_comm a b), <- (rescale_argument_compose b a k p args) by auto.
  rewrite Rmult_comm.
  destruct (rescale_argument b k p args) as [x|]; auto.
  assert (H := rescale_argument_arguments_swap b a k p kw x H1).
  destruct (rescale_arguments b kw x) as [y|] eqn:E; cbn [rescale_arguments] in *.
  - rewrite H. destruct (rescale_argument a k p x) as [z|] eqn:Ez; auto.
  - destruct (rescale_argument a k p x) as [z|] eqn:Ez; auto.
    rewrite <- IH by auto. now rewrite <- H.
Qed.

Lemma map_zero_rescale s ps : map (rescale_value vzero s) ps = map (fun _ => vzero) ps.
Proof. apply map_ext. intro. apply rescale_value_zero. Qed.

Lemma rescale_results_compose a b rs ps : a <> 0 -> b <> 0 ->
  rescale_results b (rescale_results a rs ps) ps = rescale_results (a * b) rs ps.
Proof.
  intros Ha Hb. revert ps. induction rs as [|r rs IH]; intros ps.
  - induction ps as [|p ps IHp]; simpl in *; auto.
    rewrite !rescale_value_zero. f_equal. exact IHp.
  - destruct ps as [|p ps]; simpl; rewrite IH; f_equal.
    now rewrite rescale_value_compose.
Qed.

Lemma rescale_results_ne s rs p ps : rescale_results s rs (p :: ps) =
  rescale_value (hd vzero rs) s p :: rescale_results s (tl rs) ps.
Proof. destruct rs; simpl; auto. Qed.

Lemma rescale_result_compose a b ps r : a <> 0 -> b <> 0 ->
  rescale_result b ps (rescale_result a ps r) = rescale_result (a * b) ps r.
Proof.
  intros Ha Hb. destruct ps as [|p ps]; auto.
  destruct r as [v|vs].
  - simpl. now rewrite rescale_value_compose.
  - unfold rescale_result, make_tuple_result. now rewrite rescale_results_compose.
Qed.

(** dict keys are unique *)
Definition wf_info (i : scaling_info) : Prop :=
  match i with NotCompatible => True | Info _ kw => NoDup (map fst kw) end.

Lemma rescale_compose f info a b : a <> 0 -> b <> 0 -> wf_info info ->
  rescale (rescale f info a) info b = rescale f info (a * b).
Proof.
  intros Ha Hb W. apply functional_extensionality. intro args.
  destruct info as [|res kw]; auto. unfold rescale. simpl in W.
  rewrite <- (rescale_arguments_compose a b kw args) by auto.
  destruct (rescale_arguments b kw args) as [x|]; auto.
  destruct (rescale_arguments a kw x) as [y|]; auto.
  destruct (f y); auto. now rewrite rescale_result_compose.
Qed.

Definition prod_list (l : list R) : R := fold_right Rmult 1 l.

Lemma rescale_argument_one k p args :
  rescale_argument 1 k p args = if mem k (map fst args) then Some args else None.
Proof.
  induction args as [|[k' v] r IH]; simpl; auto.
  rewrite String.eqb_sym. destruct (String.eqb_spec k k'); simpl.
  - now rewrite rescale_value_one.
  - rewrite IH. unfold mem. destruct (existsb (String.eqb k) (map fst r)); auto.
Qed.
Lemma rescale_results_one rs ps :
  rescale_results 1 rs ps = rs ++ repeat vzero (List.length ps - List.length rs).
Proof.
  revert ps. induction rs as [|r rs IH]; intros ps.
  - rewrite app_nil_l. simpl List.length. rewrite Nat.sub_0_r.
    simpl. induction ps; simpl; auto. rewrite rescale_value_zero. now f_equal.
  - destruct ps; simpl.
    + rewrite IH. reflexivity.
    + rewrite rescale_value_one, IH. reflexivity.
Qed.

Lemma fold_rescale f info scales s : wf_info info -> s <> 0 -> Forall (fun x => x <> 0) scales ->
  fold_left (fun f s => rescale f info s) scales (rescale f info s) =
  rescale f info (s * prod_list scales).
Proof.
  intros W. revert s. induction scales as [|a l IH]; intros s Hs F; simpl.
  - now rewrite Rmult_1_r.
  - inversion F; subst. rewrite rescale_compose by auto. rewrite IH; auto.
    f_equal. ring.
Qed.

(** reading the registry *)
Lemma reg_find_mem k r i : reg_find k r = Some i -> mem k (reg_names r) = true.
Proof.
  unfold reg_find, mem, reg_names. induction r as [|[k' i'] r IH]; simpl; [discriminate|].
  rewrite (String.eqb_sym k k'). destruct (String.eqb k' k); simpl; auto.
Qed.
Lemma scaled_call_registered c base gen s name info :
  reg_find name (c_registry c) = Some info ->
  scaled_call c base gen s name = Some (rescale (base name) info s).
Proof.
  intros E. unfold scaled_call, scaled_lookup. rewrite (reg_find_mem _ _ _ E). now rewrite E.
Qed.

Definition extends_manifold (c : cls) : Prop :=
  forall k i, In (k, i) manifold_registry -> reg_find k (c_registry c) = Some i.

Definition info_eq_dec (a b : scaling_info) : {a = b} + {a <> b}.
Proof. decide equality; repeat (decide equality). Defined.

Lemma library_extends : forall c, In c library -> extends_manifold c.
Proof.
  intros c H k i Hk.
  cut (forallb (fun c => forallb (fun e =>
     match reg_find (fst e) (c_registry c) with
     | Some j => if info_eq_dec j (snd e) then true else false
     | None => false end) manifold_registry) library = true).
  - intros F. rewrite forallb_forall in F. specialize (F c H).
    rewrite forallb_forall in F. specialize (F (k, i) Hk). simpl in F.
    destruct (reg_find k (c_registry c)); [|discriminate].
    destruct (info_eq_dec s i); [congruence|discriminate].
  - vm_compute. reflexivity.
Qed.

(** Results of the two shapes that occur *)
Lemma rescale_single_result f s p args v :
  f args = Returned (Single v) ->
  rescale f (Info [p] []) s args = Returned (Single (smul (powerRZ s p) v)).
Proof. intros E. unfold rescale. simpl. rewrite E. simpl. now rewrite rescale_value_eq. Qed.

Lemma powerRZ_m1 s : powerRZ s (-1) = / s.
Proof. simpl. now rewrite Rmult_1_r. Qed.
Lemma powerRZ_p1 s : powerRZ s 1 = s.
Proof. simpl. ring. Qed.
Lemma powerRZ_p2 s : powerRZ s 2 = s * s.
Proof. simpl. ring. Qed.

Lemma rescale_single_result_inv f s p args r : s <> 0 ->
  rescale f (Info [p] []) s args = Returned (Single r) ->
  exists v, f args = Returned (Single v) /\ r = smul (powerRZ s p) v.
Proof.
  intros Hs. unfold rescale. simpl. destruct (f args) as [[v|vs]| | |]; try discriminate.
  simpl. rewrite rescale_value_eq. intros E. injection E as <-. eauto.
Qed.

Lemma mem_In k l : mem k l = true <-> In k l.
Proof.
  unfold mem. rewrite existsb_exists. split.
  - intros (x & H & E). apply String.eqb_eq in E. now subst.
  - intros H. exists k. split; auto. apply String.eqb_refl.
Qed.
Lemma mem_false k l : mem k l = false <-> ~ In k l.
Proof. rewrite <- mem_In. destruct (mem k l); split; intros; congruence. Qed.

Lemma scaled_init_spec c r :
  (exists l, scaled_init c r = Some l) <-> (forall k, In k (map fst r) -> In k (map m_name (c_methods c))).
Proof.
  induction r as [|[k i] r IH]; simpl.
  - split; [intros _ k []|eauto].
  - destruct (mem k (method_names c)) eqn:E.
    + split.
      * intros (l & H). destruct (scaled_init c r) eqn:E'; [|discriminate].
        intros k' [<-|H']; [now apply mem_In|]. apply IH; eauto.
      * intros H. destruct (proj2 IH (fun k' h => H k' (or_intror h))) as (l & ->). simpl. eauto.
    + split.
      * intros (l & H). discriminate.
      * intros H. apply mem_false in E. exfalso. apply E. apply H. auto.
Qed.
