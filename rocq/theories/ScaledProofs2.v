(** Lemmas for the Scaled properties. *)
From Coq Require Import Reals ZArith List ListDec String Bool Lra Lia FunctionalExtensionality.
From Verif Require Import RVec ScaledModel LibraryModel ScaledClassModel ScaledSpec ScaledProofs.
Import ListNotations.
Local Open Scope string_scope.
Local Open Scope R_scope.

Lemma library_keeps : forall c, In c library -> keeps_manifold_registry c.
Proof. exact library_extends. Qed.

Section Laws.
  Variables (c : cls) (base generic : object) (s : R).
  Hypothesis K : keeps_manifold_registry c.

  Lemma reg1 name p kw : In (name, Info p kw) manifold_registry ->
    scaled_call c base generic s name = Some (rescale (base name) (Info p kw) s).
  Proof. intros H. apply scaled_call_registered. now apply K. Qed.

  Ltac inreg := unfold manifold_registry; simpl; tauto.

  Lemma gives_result name p args v : In (name, Info [p] []) manifold_registry ->
    base name args = ok v ->
    scaled_gives c base generic s name args (ok (smul (powerRZ s p) v)).
  Proof.
    intros H E. eexists. split; [exact (reg1 _ _ _ H)|]. now apply rescale_single_result.
  Qed.

  Lemma gives_result_inv name p args o : In (name, Info [p] []) manifold_registry ->
    scaled_gives c base generic s name args (ok o) ->
    exists v, base name args = ok v /\ o = smul (powerRZ s p) v.
  Proof.
    intros H (f & E & F). rewrite (reg1 _ _ _ H) in E. injection E as <-.
    revert F. unfold rescale, ok. simpl. destruct (base name args) as [[v|vs]| | |]; try discriminate.
    simpl. rewrite rescale_value_eq. intros E. injection E as <-. eauto.
  Qed.

  Lemma dist_scaled x y d : base "dist" (a_xy x y) = ok d ->
    scaled_gives c base generic s "dist" (a_xy x y) (ok (smul s d)).
  Proof. intros. rewrite <- (powerRZ_p1 s) at 2. apply gives_result; [inreg|auto]. Qed.
  Lemma dist2_scaled x y d : base "dist2" (a_xy x y) = ok d ->
    scaled_gives c base generic s "dist2" (a_xy x y) (ok (smul (s * s) d)).
  Proof. intros. rewrite <- (powerRZ_p2 s). apply gives_result; [inreg|auto]. Qed.
  Lemma logmap_scaled x y d : base "logmap" (a_xy x y) = ok d ->
    scaled_gives c base generic s "logmap" (a_xy x y) (ok (smul s d)).
  Proof. intros. rewrite <- (powerRZ_p1 s) at 2. apply gives_result; [inreg|auto]. Qed.

  Lemma dir_xu name x u : In (name, Info [] [("u", (-1)%Z)]) manifold_registry ->
    scaled_gives c base generic s name (a_xu x u) (base name (a_xu x (smul (/ s) u))).
  Proof.
    intros H. eexists. split; [exact (reg1 _ _ _ H)|].
    unfold rescale, a_xu. cbn [rescale_arguments rescale_argument String.eqb Ascii.eqb Bool.eqb option_map].
    rewrite rescale_value_eq, powerRZ_m1. destruct (base name _) as [r| | |]; auto.
  Qed.
  Lemma dir_xuv name x u v : In (name, Info [] [("u", (-1)%Z)]) manifold_registry ->
    scaled_gives c base generic s name (a_xuv x u v) (base name (a_xuv x (smul (/ s) u) v)).
  Proof.
    intros H. eexists. split; [exact (reg1 _ _ _ H)|].
    unfold rescale, a_xuv. cbn [rescale_arguments rescale_argument String.eqb Ascii.eqb Bool.eqb option_map].
    rewrite rescale_value_eq, powerRZ_m1. destruct (base name _) as [r| | |]; auto.
  Qed.

  Lemma gives_fun name args o o' : scaled_gives c base generic s name args o ->
    scaled_gives c base generic s name args o' -> o = o'.
  Proof. intros (f & E & F) (f' & E' & F'). congruence. Qed.

  Lemma dirs name : In name ["retr"; "expmap"; "expmap_transp"; "retr_transp"; "transp_follow_retr"; "transp_follow_expmap"] ->
    In (name, Info [] [("u", (-1)%Z)]) manifold_registry.
  Proof. simpl. intros H. repeat destruct H as [<-|H]; try tauto. Qed.

  Lemma exp_log_law x y (Hs : s <> 0) :
    (forall u, base "logmap" (a_xy x y) = ok u -> base "expmap" (a_xu x u) = ok y) ->
    forall u, scaled_gives c base generic s "logmap" (a_xy x y) (ok u) ->
              scaled_gives c base generic s "expmap" (a_xu x u) (ok y).
  Proof.
    intros L u H. destruct (gives_result_inv "logmap" 1 _ _ ltac:(inreg) H) as (v & E & ->).
    rewrite <- (L v E).
    replace (a_xu x v) with (a_xu x (smul (/ s) (smul (powerRZ s 1) v))).
    - apply dir_xu. apply dirs. simpl; tauto.
    - rewrite powerRZ_p1, smul_smul, Rinv_l, smul_1; auto.
  Qed.

  Lemma log_exp_law x y (Hs : s <> 0) :
    (forall u, base "expmap" (a_xu x u) = ok y -> base "logmap" (a_xy x y) = ok u) ->
    forall u, scaled_gives c base generic s "expmap" (a_xu x u) (ok y) ->
              scaled_gives c base generic s "logmap" (a_xy x y) (ok u).
  Proof.
    intros L u H.
    assert (E := gives_fun _ _ _ _ H (dir_xu "expmap" x u ltac:(apply dirs; simpl; tauto))).
    symmetry in E. apply L in E.
    replace u with (smul (powerRZ s 1) (smul (/ s) u)).
    - apply gives_result; [inreg|]. exact E.
    - rewrite powerRZ_p1, smul_smul, Rinv_r, smul_1; auto.
  Qed.
End Laws.

Lemma library_delegates c base generic s name : In c library ->
  In name ["inner"; "norm"; "proju"; "projx"; "egrad2rgrad"; "transp"] ->
  scaled_call c base generic s name = Some (base name).
Proof.
  intros H N.
  cut (forallb (fun c => forallb (fun n => match scaled_lookup c n with FoundScaledOwn => mem n delegated | _ => false end)
       ["inner"; "norm"; "proju"; "projx"; "egrad2rgrad"; "transp"]) library = true).
  - intros F. rewrite forallb_forall in F. specialize (F c H). rewrite forallb_forall in F.
    specialize (F name N). unfold scaled_call. destruct (scaled_lookup c name); try discriminate.
    now rewrite F.
  - vm_compute. reflexivity.
Qed.

Lemma norm_law c base generic s x y : In c library -> 0 < s ->
  (forall a u r, 0 < a -> base "norm" (a_xu x u) = ok r -> base "norm" (a_xu x (smul a u)) = ok (smul a r)) ->
  (forall u d, base "logmap" (a_xy x y) = ok u -> base "dist" (a_xy x y) = ok d -> base "norm" (a_xu x u) = ok d) ->
  forall u d, scaled_gives c base generic s "logmap" (a_xy x y) (ok u) ->
              scaled_gives c base generic s "dist" (a_xy x y) (ok d) ->
              scaled_gives c base generic s "norm" (a_xu x u) (ok d).
Proof.
  intros H Hs Hom L u d Hu Hd. assert (K := library_keeps c H).
  destruct (gives_result_inv c base generic s K "logmap" 1 _ _ ltac:(unfold manifold_registry; simpl; tauto) Hu) as (u0 & E & ->).
  destruct (gives_result_inv c base generic s K "dist" 1 _ _ ltac:(unfold manifold_registry; simpl; tauto) Hd) as (d0 & Ed & ->).
  rewrite powerRZ_p1. exists (base "norm"). split.
  - apply library_delegates; simpl; tauto.
  - apply Hom; auto.
Qed.

(** the extra entries of Stereographic and Lorentz *)
Definition geodesic_classes : list string :=
  ["Lorentz"; "Stereographic"; "StereographicExact"; "PoincareBall"; "PoincareBallExact";
   "SphereProjection"; "SphereProjectionExact"; "StereographicProductManifold"].

Lemma by_registry (P : cls -> bool) (Q : cls -> string -> option scaling_info) name i :
  forallb (fun c => if P c then match reg_find name (c_registry c) with
     | Some j => if info_eq_dec j i then true else false | None => false end else true) library = true ->
  forall c, In c library -> P c = true -> reg_find name (c_registry c) = Some i.
Proof.
  intros F c H HP. rewrite forallb_forall in F. specialize (F c H). rewrite HP in F.
  destruct (reg_find name (c_registry c)); [|discriminate].
  destruct (info_eq_dec s i); [congruence|discriminate].
Qed.

Lemma fam name i l :
  forallb (fun c => if mem (c_name c) l then match reg_find name (c_registry c) with
     | Some j => if info_eq_dec j i then true else false | None => false end else true) library = true ->
  forall c, In c library -> In (c_name c) l -> reg_find name (c_registry c) = Some i.
Proof.
  intros F c H Hc. apply (by_registry (fun c => mem (c_name c) l) (fun _ _ => None) name i F c H).
  now apply mem_In.
Qed.

Lemma one_result c base generic s name p args v :
  reg_find name (c_registry c) = Some (Info [p] []) -> base name args = ok v ->
  scaled_gives c base generic s name args (ok (smul (powerRZ s p) v)).
Proof.
  intros E H. eexists. split; [apply scaled_call_registered; exact E|]. now apply rescale_single_result.
Qed.

Lemma extra_dist0 c base generic s x d : In c library -> In (c_name c) geodesic_classes ->
  base "dist0" (a_x x) = ok d -> scaled_gives c base generic s "dist0" (a_x x) (ok (smul s d)).
Proof.
  intros H Hc E. rewrite <- (powerRZ_p1 s) at 2. apply one_result; auto.
  revert c H Hc E. intros c H Hc _. apply (fam "dist0" (Info [1%Z] []) geodesic_classes); auto.
Qed.
Lemma extra_logmap0 c base generic s y d : In c library -> In (c_name c) geodesic_classes ->
  base "logmap0" [("y", y)] = ok d -> scaled_gives c base generic s "logmap0" [("y", y)] (ok (smul s d)).
Proof.
  intros H Hc E. rewrite <- (powerRZ_p1 s) at 2. apply one_result; auto.
  apply (fam "logmap0" (Info [1%Z] []) geodesic_classes); auto.
Qed.
Lemma extra_dist2plane c base generic s args d : In c library -> In (c_name c) stereographic_family ->
  base "dist2plane" args = ok d -> scaled_gives c base generic s "dist2plane" args (ok (smul s d)).
Proof.
  intros H Hc E. rewrite <- (powerRZ_p1 s) at 2. apply one_result; auto.
  apply (fam "dist2plane" (Info [1%Z] []) stereographic_family); auto.
Qed.
Lemma extra_expmap0 c base generic s u : In c library -> In (c_name c) geodesic_classes ->
  scaled_gives c base generic s "expmap0" [("u", u)] (base "expmap0" [("u", smul (/ s) u)]).
Proof.
  intros H Hc. eexists. split.
  - apply scaled_call_registered. apply (fam "expmap0" (Info [] [("u", (-1)%Z)]) geodesic_classes); auto.
  - unfold rescale. cbn [rescale_arguments rescale_argument String.eqb Ascii.eqb Bool.eqb option_map].
    rewrite rescale_value_eq, powerRZ_m1. destruct (base "expmap0" _); auto.
Qed.
Lemma extra_geodesic c base generic s t x u : In c library -> In (c_name c) geodesic_classes ->
  scaled_gives c base generic s "geodesic_unit" (a_txu t x u) (base "geodesic_unit" (a_txu (smul (/ s) t) x u)).
Proof.
  intros H Hc. eexists. split.
  - apply scaled_call_registered. apply (fam "geodesic_unit" (Info [] [("t", (-1)%Z)]) geodesic_classes); auto.
  - unfold rescale, a_txu. cbn [rescale_arguments rescale_argument String.eqb Ascii.eqb Bool.eqb option_map].
    rewrite rescale_value_eq, powerRZ_m1. destruct (base "geodesic_unit" _); auto.
Qed.

Lemma incompatible c base generic s name args : In c library -> In (c_name c) stereographic_family ->
  In name ["mobius_fn_apply"; "mobius_fn_apply_chain"] ->
  scaled_gives c base generic s name args NotImplementedErr.
Proof.
  intros H Hc Hn.
  assert (E : reg_find name (c_registry c) = Some NotCompatible).
  { simpl in Hn. destruct Hn as [<-|[<-|[]]].
    - apply (fam "mobius_fn_apply" NotCompatible stereographic_family); auto.
    - apply (fam "mobius_fn_apply_chain" NotCompatible stereographic_family); auto. }
  eexists. split; [apply scaled_call_registered; exact E|]. reflexivity.
Qed.

(** unit speed survives scaling *)
Lemma unit_speed c base generic s x u : In c library -> In (c_name c) geodesic_classes -> 0 < s ->
  (forall a b p q, base "geodesic_unit" (a_txu (scalar a) x u) = ok p ->
                   base "geodesic_unit" (a_txu (scalar b) x u) = ok q ->
                   base "dist" (a_xy p q) = ok (scalar (Rabs (a - b)))) ->
  forall a b p q, scaled_gives c base generic s "geodesic_unit" (a_txu (scalar a) x u) (ok p) ->
                  scaled_gives c base generic s "geodesic_unit" (a_txu (scalar b) x u) (ok q) ->
                  scaled_gives c base generic s "dist" (a_xy p q) (ok (scalar (Rabs (a - b)))).
Proof.
  intros H Hc Hs L a b p q Hp Hq.
  assert (E : forall t, smul (/ s) (scalar t) = scalar (/ s * t)) by reflexivity.
  assert (Ep := gives_fun _ _ _ _ _ _ _ _ Hp (extra_geodesic c base generic s _ x u H Hc)).
  assert (Eq := gives_fun _ _ _ _ _ _ _ _ Hq (extra_geodesic c base generic s _ x u H Hc)).
  rewrite E in *. specialize (L _ _ p q (eq_sym Ep) (eq_sym Eq)).
  replace (scalar (Rabs (a - b))) with (smul s (scalar (Rabs (/ s * a - / s * b)))).
  - apply dist_scaled; auto. now apply library_keeps.
  - apply vec_ext. intro. unfold smul, scalar.
    replace (/ s * a - / s * b) with (/ s * (a - b)) by ring.
    rewrite Rabs_mult, (Rabs_right (/ s)).
    + field. lra.
    + apply Rle_ge, Rlt_le, Rinv_0_lt_compat; auto.
Qed.

(** nesting *)
Lemma library_wf : forall c, In c library -> forall k i, In (k, i) (c_registry c) -> wf_info i.
Proof.
  intros c H k i Hi.
  cut (forallb (fun c => forallb (fun e => match snd e with NotCompatible => true
      | Info _ kw => Nat.leb (List.length kw) 1 end) (c_registry c)) library = true).
  - intros F. rewrite forallb_forall in F. specialize (F c H). rewrite forallb_forall in F.
    specialize (F _ Hi). simpl in F. destruct i; simpl; auto.
    apply Nat.leb_le in F. destruct kwargs as [|a [|b l]]; simpl in *; try lia; repeat constructor; simpl; tauto.
  - vm_compute. reflexivity.
Qed.

Lemma reg_find_In k r i : reg_find k r = Some i -> In (k, i) r.
Proof.
  unfold reg_find. destruct (find _ r) as [[k' i']|] eqn:E; simpl; [|discriminate].
  apply find_some in E. simpl in E. destruct E as [E1 E2]. apply String.eqb_eq in E2. subst.
  intros E. injection E as ->. auto.
Qed.

Lemma nested_product c base generic name info s rest : In c library ->
  reg_find name (c_registry c) = Some info ->
  Forall (fun a => a <> 0) (s :: rest) ->
  scaled_object c base generic (s :: rest) name = rescale (base name) info (prod_list (s :: rest)).
Proof.
  intros H E F. assert (W : wf_info info) by (eapply library_wf; eauto using reg_find_In).
  revert s F. induction rest as [|b rest IH]; intros s F; inversion F; subst.
  - apply functional_extensionality. intro args. simpl scaled_object.
    rewrite (scaled_call_registered _ _ _ _ _ _ E). simpl. now rewrite Rmult_1_r.
  - specialize (IH b H3). apply functional_extensionality. intro args.
    change (scaled_object c base generic (s :: b :: rest) name args)
      with (match scaled_call c (scaled_object c base generic (b :: rest)) generic s name with
            | Some f => f args | None => TypeErr end).
    rewrite (scaled_call_registered _ _ _ _ _ _ E), IH, rescale_compose; auto.
    + f_equal. unfold prod_list. simpl. ring.
    + clear - H3. unfold prod_list. induction H3; simpl; [lra|].
      apply Rmult_integral_contrapositive_currified; auto.
Qed.

Lemma nested_is_single c base generic name info s rest : In c library ->
  reg_find name (c_registry c) = Some info ->
  Forall (fun a => a <> 0) (s :: rest) ->
  forall args, scaled_gives c base generic (prod_list (s :: rest)) name args
                 (scaled_object c base generic (s :: rest) name args).
Proof.
  intros H E F args. rewrite (nested_product _ _ _ _ _ _ _ H E F).
  eexists. split; [apply scaled_call_registered; exact E|reflexivity].
Qed.

Lemma nested_delegates c base generic name scales : In c library ->
  In name ["inner"; "norm"; "proju"; "projx"; "egrad2rgrad"; "transp"] ->
  scaled_object c base generic scales name = base name.
Proof.
  intros H N. induction scales as [|s r IH]; auto.
  apply functional_extensionality. intro args. simpl.
  rewrite library_delegates; auto. now rewrite IH.
Qed.

(** learnable scale *)
Lemma learnable_same s b : 0 < s -> stored_scale b s = s /\ stored_log_scale b s = ln s.
Proof. intros. destruct b; simpl; split; auto. now apply exp_ln. Qed.

(** forwarding *)
Definition shadowed_b (c : cls) (m : meth) : bool :=
  existsb (fun p => String.eqb (fst p) (c_name c) && String.eqb (snd p) (m_name m))%bool shadowed.
Lemma shadowed_b_In c m : shadowed_b c m = true <-> In (c_name c, m_name m) shadowed.
Proof.
  unfold shadowed_b. rewrite existsb_exists. split.
  - intros ([a b] & H & E). apply andb_true_iff in E. destruct E as [E1 E2].
    apply String.eqb_eq in E1, E2. simpl in *. now subst.
  - intros H. eexists. split; [exact H|]. simpl. now rewrite !String.eqb_refl.
Qed.

Definition forwarded_b (c : cls) (m : meth) : bool :=
  match scaled_lookup c (m_name m) with
  | FoundRescaled => match reg_find (m_name m) (c_registry c) with Some _ => true | None => false end
  | FoundScaledOwn => mem (m_name m) delegated
  | FoundBase => true
  | _ => false
  end.

Lemma forwarding_complete c m : In c library -> In m (c_methods c) -> m_owner m <> "Manifold" ->
  In (c_name c, m_name m) shadowed \/
  forall base generic s,
    scaled_call c base generic s (m_name m) = Some (base (m_name m)) \/
    exists info, reg_find (m_name m) (c_registry c) = Some info /\
      scaled_call c base generic s (m_name m) = Some (rescale (base (m_name m)) info s).
Proof.
  intros H Hm Ho.
  assert (F : forallb (fun c => forallb (fun m => String.eqb (m_owner m) "Manifold" || shadowed_b c m || forwarded_b c m)%bool (c_methods c)) library = true)
    by (vm_compute; reflexivity).
  rewrite forallb_forall in F. specialize (F c H). rewrite forallb_forall in F. specialize (F m Hm).
  apply orb_true_iff in F. destruct F as [F|F].
  - apply orb_true_iff in F. destruct F as [F|F].
    + apply String.eqb_eq in F. congruence.
    + left. now apply shadowed_b_In.
  - right. intros base generic s. unfold forwarded_b in F. unfold scaled_call.
    destruct (scaled_lookup c (m_name m)); try discriminate.
    + right. destruct (reg_find (m_name m) (c_registry c)) as [i|]; [|discriminate]. eauto.
    + left. now rewrite F.
    + now left.
Qed.

Lemma shadowed_generic c name : In c library -> In (c_name c, name) shadowed ->
  (exists m, In m (c_methods c) /\ m_name m = name /\ m_owner m <> "Manifold") /\
  forall base generic s, scaled_call c base generic s name = Some (generic name).
Proof.
  intros H S.
  assert (F : forallb (fun c => forallb (fun p => if String.eqb (fst p) (c_name c) then
      (existsb (fun m => String.eqb (m_name m) (snd p) && negb (String.eqb (m_owner m) "Manifold")) (c_methods c)
       && match scaled_lookup c (snd p) with FoundManifold => true | _ => false end) else true)%bool shadowed) library = true)
    by (vm_compute; reflexivity).
  rewrite forallb_forall in F. specialize (F c H). rewrite forallb_forall in F. specialize (F _ S).
  simpl in F. rewrite String.eqb_refl in F. apply andb_true_iff in F. destruct F as [F1 F2]. split.
  - rewrite existsb_exists in F1. destruct F1 as (m & Hm & E). apply andb_true_iff in E.
    destruct E as [E1 E2]. apply String.eqb_eq in E1. exists m. split; [auto|split; [auto|]].
    intro O. rewrite O in E2. discriminate.
  - intros. unfold scaled_call. destruct (scaled_lookup c name); try discriminate. reflexivity.
Qed.

Lemma component_inner_differs : exists u : vec,
  entrywise_inner u u 0%nat <> summed_inner 2 u u 0%nat.
Proof. exists (fun _ => 1). unfold entrywise_inner, summed_inner, dot. simpl. lra. Qed.

(** construction *)
Lemma constructible_iff c : 
  (exists l, construct_scaled c = Some l) <->
  (forall name, In name (map fst (c_registry c)) -> In name (map m_name (c_methods c))).
Proof. apply scaled_init_spec. Qed.

Lemma constructible_library c : In c library -> c_name c <> "StereographicProductManifold" ->
  exists l, construct_scaled c = Some l /\ forall name, In name (map fst (c_registry c)) <-> In name l.
Proof.
  intros H N.
  assert (G : forall r l, scaled_init c r = Some l -> l = map fst r).
  { induction r as [|[k i] r IH]; simpl; intros l.
    - congruence.
    - destruct (mem k (method_names c)); [|discriminate].
      destruct (scaled_init c r); [|discriminate]. simpl. intros E. injection E as <-. now rewrite <- (IH l0). }
  assert (F : forallb (fun c => String.eqb (c_name c) "StereographicProductManifold" ||
     match construct_scaled c with Some _ => true | None => false end)%bool library = true) by (vm_compute; reflexivity).
  rewrite forallb_forall in F. specialize (F c H). apply orb_true_iff in F. destruct F as [F|F].
  - apply String.eqb_eq in F. congruence.
  - unfold construct_scaled in *. destruct (scaled_init c (c_registry c)) as [l|] eqn:E; [|discriminate].
    exists l. split; auto. rewrite (G _ _ E). tauto.
Qed.

Lemma not_constructible : construct_scaled cls_StereographicProductManifold = None /\
  In cls_StereographicProductManifold library /\
  In "random_normal" (map fst (c_registry cls_StereographicProductManifold)) /\
  ~ In "random_normal" (map m_name (c_methods cls_StereographicProductManifold)).
Proof.
  split; [vm_compute; reflexivity|]. split; [unfold library; simpl; tauto|].
  split; [apply mem_In; vm_compute; reflexivity|]. apply mem_false. vm_compute. reflexivity.
Qed.

(** gradients *)
Lemma gradient_scaled c base generic s (F : vec -> R) x g (E : vec -> vec) r (I : vec -> vec) :
  In c library -> s <> 0 ->
  (forall u, base "expmap" (a_xu x u) = ok (E u)) ->
  base "egrad2rgrad" (a_xu x g) = ok r ->
  (forall v, base "inner" (a_xuv x r v) = ok (I v)) ->
  (forall a v, I (smul a v) = smul a (I v)) ->
  (forall v, derivable_pt_lim (fun t => F (E (smul t v))) 0 (I v 0%nat)) ->
  exists Es : vec -> vec,
    (forall u, scaled_gives c base generic s "expmap" (a_xu x u) (ok (Es u))) /\
    scaled_gives c base generic s "egrad2rgrad" (a_xu x g) (ok r) /\
    (forall v, scaled_gives c base generic s "inner" (a_xuv x r v) (ok (I v))) /\
    (forall v, derivable_pt_lim (fun t => F (Es (smul t v))) 0 (I v 0%nat / s)).
Proof.
  intros H Hs HE Hr HI Hom D. exists (fun u => E (smul (/ s) u)). split; [|split; [|split]].
  - intros u. rewrite <- HE. apply dir_xu; [now apply library_keeps|]. apply dirs. simpl; tauto.
  - exists (base "egrad2rgrad"). split; auto. apply library_delegates; simpl; tauto.
  - intros v. exists (base "inner"). split; auto. apply library_delegates; simpl; tauto.
  - intros v. specialize (D (smul (/ s) v)). rewrite Hom in D.
    replace (I v 0%nat / s) with (smul (/ s) (I v) 0%nat) by (unfold smul; field; auto).
    intros eps Heps. destruct (D eps Heps) as (d & Hd). exists d. intros h Hh Hh'.
    specialize (Hd h Hh Hh'). rewrite !smul_smul in Hd. rewrite !smul_smul.
    rewrite (Rmult_comm (/ s) (0 + h)), (Rmult_comm (/ s) 0). exact Hd.
Qed.

(** Euclidean space satisfies the hypotheses for linear functions. *)
Definition euclid2 : object := fun name args =>
  match args with
  | [(_, x); (_, u)] =>
      if String.eqb name "expmap" then ok (vadd x u)
      else if String.eqb name "egrad2rgrad" then ok u else TypeErr
  | [(_, x); (_, u); (_, v)] =>
      if String.eqb name "inner" then ok (scalar (dot 2 u v)) else TypeErr
  | _ => TypeErr
  end.

Lemma euclid_gradient g x : 
  (forall u, euclid2 "expmap" (a_xu x u) = ok (vadd x u)) /\
  euclid2 "egrad2rgrad" (a_xu x g) = ok g /\
  (forall v, euclid2 "inner" (a_xuv x g v) = ok (scalar (dot 2 g v))) /\
  (forall v, derivable_pt_lim (fun t => dot 2 g (vadd x (smul t v))) 0 (scalar (dot 2 g v) 0%nat)).
Proof.
  split; [reflexivity|split; [reflexivity|split; [reflexivity|]]].
  intros v. unfold scalar.
  replace (fun t => dot 2 g (vadd x (smul t v))) with (fun t => dot 2 g x + t * dot 2 g v).
  - intros eps He. exists (mkposreal 1 Rlt_0_1). intros h Hh _.
    replace ((dot 2 g x + (0 + h) * dot 2 g v - (dot 2 g x + 0 * dot 2 g v)) / h - dot 2 g v) with 0 by (field; auto).
    now rewrite Rabs_R0.
  - apply functional_extensionality. intro t. unfold dot, vadd, smul. simpl. ring.
Qed.

Lemma gradient_refuted : exists (x g v : vec) (F : vec -> R) (Es : vec -> vec),
  (forall u, scaled_gives cls_Euclidean euclid2 euclid2 2 "expmap" (a_xu x u) (ok (Es u))) /\
  scaled_gives cls_Euclidean euclid2 euclid2 2 "egrad2rgrad" (a_xu x g) (ok g) /\
  scaled_gives cls_Euclidean euclid2 euclid2 2 "inner" (a_xuv x g v) (ok (scalar 1)) /\
  (forall y, F y = dot 2 g y) /\
  ~ derivable_pt_lim (fun t => F (Es (smul t v))) 0 1 /\
  derivable_pt_lim (fun t => F (Es (smul t v))) 0 (1/2).
Proof.
  set (e := fun i : nat => match i with 0%nat => 1 | _ => 0 end : R).
  destruct (euclid_gradient e vzero) as (A & B & C & D).
  destruct (gradient_scaled cls_Euclidean euclid2 euclid2 2 (dot 2 e) vzero e (vadd vzero) e (fun v => scalar (dot 2 e v)))
    as (Es & H1 & H2 & H3 & H4); auto.
  - unfold library. simpl. tauto.
  - intros a v. apply vec_ext. intro. unfold scalar, smul, dot. simpl. ring.
  - exists vzero, e, e, (dot 2 e), Es. 
    assert (E1 : dot 2 e e = 1) by (unfold dot, e; simpl; ring).
    split; [exact H1|]. split; [exact H2|]. split; [rewrite <- E1; apply H3|].
    split; [reflexivity|]. specialize (H4 e). unfold scalar in H4. rewrite E1 in H4.
    split; [|exact H4]. intro X. assert (Y := uniqueness_limite _ _ _ _ X H4). lra.
Qed.

(** pickling *)
Definition restored_dec (a b : restored) : {a = b} + {a <> b}.
Proof. repeat decide equality. Defined.
Lemma pickle_lost c : In c library ->
  pickle_roundtrip c = None \/
  exists l, pickle_roundtrip c = Some l /\ In ("dist", RestoredGeneric "dist") l /\
            In ("expmap", RestoredNotImplemented) l.
Proof.
  intros H.
  assert (F : forallb (fun c => match pickle_roundtrip c with None => true | Some l =>
     (existsb (fun e => String.eqb (fst e) "dist" && if restored_dec (snd e) (RestoredGeneric "dist") then true else false) l &&
      existsb (fun e => String.eqb (fst e) "expmap" && if restored_dec (snd e) RestoredNotImplemented then true else false) l)%bool end) library = true)
    by (vm_compute; reflexivity).
  rewrite forallb_forall in F. specialize (F c H). destruct (pickle_roundtrip c) as [l|]; [|auto].
  right. exists l. split; auto. apply andb_true_iff in F. destruct F as [F1 F2].
  rewrite existsb_exists in F1, F2. destruct F1 as ([a b] & I1 & E1). destruct F2 as ([a' b'] & I2 & E2).
  simpl in *. apply andb_true_iff in E1, E2. destruct E1 as [E1 E1'], E2 as [E2 E2'].
  apply String.eqb_eq in E1, E2. subst.
  destruct (restored_dec b (RestoredGeneric "dist")); [|discriminate].
  destruct (restored_dec b' RestoredNotImplemented); [|discriminate]. subst. auto.
Qed.

Lemma pickle_fails c : In c library ->
  (pickle_roundtrip c = None <->
   exists e, In e (c_registry c) /\ restored_by_name (stored_name c e) = LoadFails).
Proof.
  intros _. unfold pickle_roundtrip. induction (c_registry c) as [|e r IH].
  - simpl. split; [discriminate|]. intros (? & [] & _).
  - destruct (restored_dec (restored_by_name (stored_name c e)) LoadFails) as [E|E].
    + simpl. rewrite E. split; intros; [|auto]. exists e. auto.
    + assert (G : unpickle_entries c (e :: r) =
        option_map (cons (fst e, restored_by_name (stored_name c e))) (unpickle_entries c r))
        by (simpl; destruct (restored_by_name (stored_name c e)); congruence).
      rewrite G. destruct (unpickle_entries c r) as [l|]; simpl; split.
      * discriminate.
      * intros (e' & [<-|I] & L); [congruence|]. discriminate (proj2 IH (ex_intro _ e' (conj I L))).
      * intros _. destruct (proj1 IH eq_refl) as (e' & I & L). exists e'. auto.
      * auto.
Qed.

Lemma pickle_stub c n : In (n, NotCompatible) (c_registry c) -> pickle_roundtrip c = None.
Proof.
  unfold pickle_roundtrip. induction (c_registry c) as [|e r IH]; [intros []|]. intros [->|I].
  - reflexivity.
  - cbn [unpickle_entries]. rewrite (IH I). destruct (restored_by_name (stored_name c e)); reflexivity.
Qed.

(** the calls bind *)
Lemma mem_In k l : mem k l = true <-> In k l.
Proof.
  unfold mem. rewrite existsb_exists. split.
  - intros (y & I & E). apply String.eqb_eq in E. congruence.
  - intros I. exists k. split; [exact I|apply String.eqb_refl].
Qed.
Lemma skipn_In {A} (k : A) n l : In k (skipn n l) <-> exists i, (n <= i)%nat /\ nth_error l i = Some k.
Proof.
  revert n; induction l as [|a l IH]; intros [|n].
  - split; [intros []|]. intros ([|i] & _ & E); discriminate.
  - split; [intros []|]. intros ([|i] & _ & E); discriminate.
  - rewrite skipn_O. split.
    + intros I. apply In_nth_error in I. destruct I as [i E]. exists i. split; [lia|exact E].
    + intros (i & _ & E). exact (nth_error_In _ _ E).
  - rewrite skipn_cons, IH. split.
    + intros (i & L & E). exists (S i). split; [lia|exact E].
    + intros ([|i] & L & E); [lia|]. exists i. split; [lia|exact E].
Qed.
Lemma nth_error_firstn_ {A} (l : list A) m i : nth_error (firstn m l) i = if Nat.ltb i m then nth_error l i else None.
Proof.
  revert m i; induction l as [|a l IH]; intros [|m] [|i]; try reflexivity.
  - cbn [firstn nth_error]. destruct (Nat.ltb (S i) (S m)); reflexivity.
  - cbn [firstn nth_error]. rewrite IH. reflexivity.
Qed.
Lemma accepts_iff pos req va kwo vk npos kws :
  accepts (Sig pos req va kwo vk) npos kws = true <->
  ((npos <= List.length pos)%nat \/ va = true) /\
  (forall k, In k kws -> (exists i, (npos <= i)%nat /\ nth_error pos i = Some k) \/ In k kwo \/ (vk = true /\ ~ In k pos)) /\
  (forall i k, (i < req)%nat -> nth_error pos i = Some k -> (i < npos)%nat \/ In k kws).
Proof.
  unfold accepts. rewrite !andb_true_iff, orb_true_iff, Nat.leb_le, !forallb_forall.
  assert (E1 : (forall k, In k kws -> (mem k (skipn npos pos) || mem k kwo || (vk && negb (mem k pos)))%bool = true) <->
    (forall k, In k kws -> (exists i, (npos <= i)%nat /\ nth_error pos i = Some k) \/ In k kwo \/ (vk = true /\ ~ In k pos))).
  { split; intros H k I; specialize (H k I).
    - rewrite !orb_true_iff, andb_true_iff, negb_true_iff, !mem_In, skipn_In in H.
      destruct H as [[H|H]|[V H]]; auto. right; right. split; [exact V|]. rewrite <- mem_In, H. discriminate.
    - rewrite !orb_true_iff, andb_true_iff, negb_true_iff, !mem_In, skipn_In.
      destruct H as [H|[H|[V H]]]; auto. right. split; [exact V|].
      destruct (mem k pos) eqn:E; [|reflexivity]. apply mem_In in E. contradiction. }
  assert (E2 : (forall k, In k (skipn npos (firstn req pos)) -> mem k kws = true) <->
    (forall i k, (i < req)%nat -> nth_error pos i = Some k -> (i < npos)%nat \/ In k kws)).
  { split; intros H.
    - intros i k L E. destruct (Nat.lt_ge_cases i npos) as [|G]; [auto|]. right. apply mem_In, H, skipn_In.
      exists i. split; [exact G|]. rewrite nth_error_firstn_. apply Nat.ltb_lt in L. rewrite L. exact E.
    - intros k I. apply skipn_In in I. destruct I as (i & G & E). rewrite nth_error_firstn_ in E.
      destruct (Nat.ltb i req) eqn:L; [|discriminate]. apply Nat.ltb_lt in L.
      destruct (H i k L E) as [|I]; [lia|]. apply mem_In, I. }
  tauto.
Qed.
Lemma delegating_calls_bind c call : In c library -> In call delegating_calls ->
  (call_binds c call = true <-> ~ (c_name c = "Lorentz" /\ fst (fst call) = "norm")).
Proof.
  intros H Hc.
  assert (F : forallb (fun c => forallb (fun call => Bool.eqb (call_binds c call)
     (negb (String.eqb (c_name c) "Lorentz" && String.eqb (fst (fst call)) "norm"))) delegating_calls) library = true)
    by (vm_compute; reflexivity).
  rewrite forallb_forall in F. specialize (F c H). rewrite forallb_forall in F. specialize (F _ Hc).
  apply Bool.eqb_prop in F. rewrite F, negb_true_iff, andb_false_iff, !String.eqb_neq.
  destruct (string_dec (c_name c) "Lorentz"), (string_dec (fst (fst call)) "norm"); tauto.
Qed.

Lemma registered_arguments_exist c e : In c library -> In e (c_registry c) ->
  c_name c <> "StereographicProductManifold" ->
  (registered_ok c e = true <-> ~ (c_name c = "Lorentz" /\ fst e = "random")).
Proof.
  intros H He N.
  assert (F : forallb (fun c => String.eqb (c_name c) "StereographicProductManifold" || forallb (fun e => Bool.eqb (registered_ok c e)
     (negb (String.eqb (c_name c) "Lorentz" && String.eqb (fst e) "random"))) (c_registry c))%bool library = true)
    by (vm_compute; reflexivity).
  rewrite forallb_forall in F. specialize (F c H). apply orb_true_iff in F. destruct F as [F|F].
  { apply String.eqb_eq in F. congruence. }
  rewrite forallb_forall in F. specialize (F _ He).
  apply Bool.eqb_prop in F. rewrite F, negb_true_iff, andb_false_iff, !String.eqb_neq.
  destruct (string_dec (c_name c) "Lorentz"), (string_dec (fst e) "random"); tauto.
Qed.

Lemma lorentz_random base generic s size : 
  scaled_gives cls_Lorentz base generic s "random" [("size", size)] KeyErr.
Proof.
  eexists. split; [apply scaled_call_registered; vm_compute; reflexivity|]. reflexivity.
Qed.

Lemma missing_argument_raises c base generic s name results kw k p args :
  reg_find name (c_registry c) = Some (Info results kw) -> In (k, p) kw -> ~ In k (map fst args) ->
  scaled_gives c base generic s name args KeyErr.
Proof.
  intros E Hk Ha. eexists. split; [apply scaled_call_registered; exact E|].
  cut (rescale_arguments s kw args = None); [unfold rescale; now intros ->|].
  assert (Keys : forall k p a a', rescale_argument s k p a = Some a' -> map fst a' = map fst a).
  { clear. intros k p a. induction a as [|[k' v] a IH]; simpl; intros a' H; [discriminate|].
    destruct (String.eqb k' k).
    - now injection H as <-.
    - destruct (rescale_argument s k p a); [|discriminate]. injection H as <-. simpl. now rewrite (IH _ eq_refl). }
  assert (Miss : forall k p a, ~ In k (map fst a) -> rescale_argument s k p a = None).
  { clear. intros k p a. induction a as [|[k' v] a IH]; simpl; intros N; auto.
    destruct (String.eqb_spec k' k); [tauto|]. now rewrite IH by tauto. }
  clear E. revert args Ha. induction kw as [|[k' p'] kw IH]; intros args Ha; [inversion Hk|]. simpl.
  destruct Hk as [E|Hk].
  - injection E as -> ->. now rewrite Miss.
  - destruct (rescale_argument s k' p' args) as [a'|] eqn:E; auto. apply IH; auto.
    now rewrite (Keys _ _ _ _ E).
Qed.

(** concrete cases *)
Definition const3 : object := fun _ _ => ok (scalar 3).
Lemma case_sphere2 : In cls_Sphere library /\
  exists d, scaled_gives cls_Sphere const3 const3 2 "dist" (a_xy vzero vzero) (ok d) /\ d 0%nat = 6.
Proof.
  assert (H : In cls_Sphere library) by (unfold library; simpl; tauto).
  split; [exact H|]. exists (smul 2 (scalar 3)). split.
  - apply dist_scaled; [now apply library_keeps|reflexivity].
  - unfold smul, scalar. lra.
Qed.

Definition line : object := fun name args =>
  match args with
  | [(_, x); (_, u)] =>
      if String.eqb name "expmap" then ok (vadd x u)
      else if String.eqb name "logmap" then ok (vsub u x) else TypeErr
  | _ => TypeErr
  end.
Lemma case_line : forall x y,
  (forall u, line "logmap" (a_xy x y) = ok u -> line "expmap" (a_xu x u) = ok y) /\
  (forall u, line "expmap" (a_xu x u) = ok y -> line "logmap" (a_xy x y) = ok u) /\
  line "logmap" (a_xy x y) = ok (vsub y x).
Proof.
  intros x y. unfold line, ok, a_xy, a_xu. simpl. split; [|split]; auto.
  - intros u H. injection H as <-. do 2 f_equal. apply vec_ext. intro. unfold vadd, vsub. ring.
  - intros u H. injection H as <-. do 2 f_equal. apply vec_ext. intro. unfold vadd, vsub. ring.
Qed.

Lemma case_pickle : pickle_roundtrip cls_PoincareBall = None /\
  exists l, pickle_roundtrip cls_Sphere = Some l /\ List.length l = 9%nat.
Proof.
  split; [vm_compute; reflexivity|]. 
  destruct (pickle_roundtrip cls_Sphere) as [l|] eqn:E.
  - exists l. split; auto. vm_compute in E. injection E as <-. reflexivity.
  - vm_compute in E. discriminate.
Qed.

Lemma lorentz_calls : call_binds cls_Lorentz ("norm", 2%nat, ["keepdim"]) = false /\
  forall base generic s size, scaled_gives cls_Lorentz base generic s "random" [("size", size)] KeyErr.
Proof. split; [vm_compute; reflexivity|exact lorentz_random]. Qed.

Lemma case_construct : exists l, construct_scaled cls_PoincareBall = Some l /\ List.length l = 19%nat.
Proof. exists (map fst (c_registry cls_PoincareBall)). split; vm_compute; reflexivity. Qed.
