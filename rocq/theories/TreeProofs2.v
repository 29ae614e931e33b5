(** Lemmas for TreeProps: the constructed data set. *)
From Coq Require Import Reals List Bool Arith ZArith Lra Lia.
From Verif Require Import RVec TreeModel TreeSpec TreeProofs.
Import ListNotations.

Lemma flat_map_uniform {A B} (f : A -> list B) m : (forall a, length (f a) = m) -> forall l j, (0 < m)%nat ->
  length (flat_map f l) = (m * length l)%nat /\
  nth_error (flat_map f l) j = match nth_error l (j / m) with Some a => nth_error (f a) (j mod m) | None => None end.
Proof.
  intros H. induction l as [|a l IH]; intros j M.
  - cbn. split; [lia|]. destruct j, (_ / m)%nat; reflexivity.
  - destruct (IH (j - m)%nat M) as [IH1 IH2]. cbn [flat_map length]. rewrite app_length, H, IH1. split; [nia|].
    destruct (Nat.lt_ge_cases j m) as [J|J].
    + rewrite nth_error_app1 by (rewrite H; exact J). rewrite Nat.div_small, Nat.mod_small by exact J. reflexivity.
    + rewrite nth_error_app2 by (rewrite H; exact J). rewrite H, IH2.
      replace (j / m)%nat with (S ((j - m) / m)). 2: { replace j with ((j - m) + 1 * m)%nat at 2 by lia. rewrite Nat.div_add by lia. lia. }
      replace (j mod m)%nat with ((j - m) mod m)%nat. 2: { replace j with ((j - m) + 1 * m)%nat at 2 by lia. rewrite Nat.mod_add by lia. reflexivity. }
      reflexivity.
Qed.
Lemma nth_error_ext {A} (l m : list A) : (forall i, nth_error l i = nth_error m i) -> l = m.
Proof.
  revert m. induction l as [|a l IH]; intros [|b m] H; auto; try (specialize (H O); discriminate H).
  pose proof (H O) as H0. injection H0 as ->. f_equal. apply IH. intros i. exact (H (S i)).
Qed.
Lemma flat_map_len {A B} (f : A -> list B) m : (forall a, length (f a) = m) -> forall l, length (flat_map f l) = (m * length l)%nat.
Proof. intros H. induction l as [|a l IH]; cbn [flat_map length]; [lia|]. rewrite app_length, H, IH. lia. Qed.
Lemma nth_error_combine_full {A} (l : list A) i : forall s, nth_error (combine (seq s (length l)) l) i = match nth_error l i with Some a => Some ((s + i)%nat, a) | None => None end.
Proof.
  revert i. induction l as [|b l IH]; intros [|i] s; cbn; auto; [f_equal; f_equal; lia|]. rewrite IH. destruct (nth_error l i); [|reflexivity]. f_equal. f_equal. lia.
Qed.
Lemma firstn_label c depth i l : (1 <= depth)%nat -> path c i l -> (length l <= depth)%nat ->
  max_of (firstn depth (tree_label depth i l)) = max_of (tree_label depth i l).
Proof.
  intros D P L. assert (E : tree_label depth i l = firstn depth (tree_label depth i l) ++ [(-1)%Z]).
  { unfold tree_label. destruct i as [|i].
    - destruct depth as [|d]; [lia|]. cbn [firstn app]. f_equal. rewrite <- (repeat_length (-1)%Z d) at 2. rewrite <- (Nat.add_0_r (length _)).
      assert (R : forall n, repeat (-1)%Z (S n) = repeat (-1)%Z n ++ [(-1)%Z]) by (induction n as [|n IHn]; [reflexivity|]; cbn [repeat app] in *; f_equal; exact IHn).
      rewrite R. rewrite firstn_app_2. cbn. rewrite app_nil_r. reflexivity.
    - replace (S depth - length l)%nat with (S (depth - length l)) by lia.
      assert (R : forall n, repeat (-1)%Z (S n) = repeat (-1)%Z n ++ [(-1)%Z]) by (induction n as [|n IHn]; [reflexivity|]; cbn [repeat app] in *; f_equal; exact IHn).
      rewrite R, app_assoc. f_equal. rewrite firstn_app. rewrite app_length, map_length, repeat_length.
      replace (depth - (length l + (depth - length l)))%nat with O by lia. rewrite firstn_O, app_nil_r. rewrite firstn_all2; [reflexivity|]. rewrite app_length, map_length, repeat_length. lia. }
  rewrite E at 2. rewrite max_app. pose proof (max_ge (firstn depth (tree_label depth i l))). cbn. lia.
Qed.
Lemma max_of_classes n : forall s, max_of (map Z.of_nat (seq s n)) = if (n =? 0)%nat then (-1)%Z else Z.of_nat (s + n - 1).
Proof.
  induction n as [|n IH]; intros s; [reflexivity|]. change (Z.max (Z.of_nat s) (max_of (map Z.of_nat (seq (S s) n))) = Z.of_nat (s + S n - 1)). rewrite IH.
  destruct n; cbn [Nat.eqb]; lia.
Qed.

Section Build.
  Variables (dim depth c siblings : nat) (dist_children sigma_sibling : R).
  Variable geo : R -> vec -> vec -> vec.
  Variable draw : nat -> nat -> vec.
  Variable sample : R -> nat -> nat -> vec -> vec.
  Variable root : vec.
  Notation dirs := (get_directions dim c draw).
  Notation N := (nodes_above c (S depth)).
  Notation build := (construct dim depth c siblings dist_children sigma_sibling geo draw sample root).
  Lemma root_good : good dim depth c dist_children geo draw root [(root, root_label depth, O)].
  Proof.
    intros [|i] e E; [|destruct i; discriminate]. injection E as <-. exists []. split; [constructor|]. cbn [fst snd length].
    split; [reflexivity|]. split; [lia|]. split; [|reflexivity]. unfold root_label, tree_label. cbn [repeat set_at]. reflexivity.
  Qed.
  Lemma loop_result fuel : (1 <= c)%nat -> (N < fuel)%nat -> exists L, good dim depth c dist_children geo draw root L /\ length L = N /\
    bst_loop dim depth c siblings dist_children sigma_sibling geo draw sample fuel 0 1 [(root, root_label depth, O)] [] [] =
      Some (map fst L, cl_of siblings sigma_sibling sample L (length L)).
  Proof.
    intros C F. apply (loop_ok dim depth c siblings dist_children sigma_sibling geo draw sample root C fuel 0 [(root, root_label depth, O)]).
    - apply root_good.
    - cbn. lia.
    - cbn. lia.
    - lia.
  Qed.
  Lemma expected_ok : (2 <= c)%nat -> expected depth c = Some (Z.of_nat N).
  Proof.
    intros C. unfold expected. destruct (Nat.eqb_spec c 1); [lia|]. f_equal. rewrite <- (nodes_above_closed c (S depth)). apply Z.quot_mul. lia.
  Qed.
  Lemma chain_raises fuel : c = 1%nat -> (N < fuel)%nat -> build fuel = Some (TRaise TZeroDivisionError).
  Proof.
    intros C F. unfold construct. destruct (loop_result fuel ltac:(lia) F) as (L & _ & _ & E). rewrite E. unfold expected. rewrite C. reflexivity.
  Qed.
  Lemma clones_length n v l : length (clones siblings sigma_sibling sample n v l) = siblings.
  Proof. unfold clones. rewrite map_length, seq_length. reflexivity. Qed.
  Lemma cl_length L : length (cl_of siblings sigma_sibling sample L (length L)) = (siblings * length L)%nat.
  Proof.
    unfold cl_of. rewrite (flat_map_len _ siblings) by (intros a; apply clones_length). rewrite combine_length, seq_length. f_equal. lia.
  Qed.
  Lemma unusable fuel : (2 <= c)%nat -> (depth = 0 \/ siblings = 0)%nat -> (N < fuel)%nat -> build fuel = Some (TRaise TRuntimeError).
  Proof.
    intros C Z F. unfold construct. destruct (loop_result fuel ltac:(lia) F) as (L & _ & Ln & E). rewrite E, (expected_ok C). assert (Lv : length (map fst L) = N) by (rewrite map_length; exact Ln). rewrite Lv, cl_length, Ln, Z.eqb_refl. cbn [negb].
    destruct (Nat.eqb_spec (siblings * N) 0) as [H|H]; [reflexivity|]. destruct Z as [Z|Z]; [|rewrite Z in H; lia].
    rewrite Nat2Z.inj_mul, Z.eqb_refl. cbn [negb]. rewrite Z. reflexivity.
  Qed.

  Lemma built fuel : (2 <= c)%nat -> (1 <= depth)%nat -> (1 <= siblings)%nat -> (N < fuel)%nat -> exists d, build fuel = Some (TOk d) /\ described dim depth c siblings dist_children sigma_sibling geo draw sample root d.
  Proof.
    intros C D Sb F. unfold construct. destruct (loop_result fuel ltac:(lia) F) as (L & G & Ln & E). rewrite E, (expected_ok C). assert (Lv : length (map fst L) = N) by (rewrite map_length; exact Ln). rewrite Lv, cl_length, Ln, Z.eqb_refl. cbn [negb].
    destruct (Nat.eqb_spec (siblings * N) 0) as [H|H]; [cbn [nodes_above] in H; nia|]. rewrite Nat2Z.inj_mul, Z.eqb_refl. cbn [negb].
    destruct (Nat.eqb_spec depth 0); [lia|]. eexists. split; [reflexivity|].
    assert (At : forall i, (i < N)%nat -> exists e, nth_error L i = Some e).
    { intros i Hi. destruct (nth_error L i) eqn:Q; [eexists; reflexivity|]. apply nth_error_None in Q. lia. }
    unfold described. cbn [origin_data origin_labels data labels num_classes size]. assert (Ln' : @length (vec * list BinNums.Z * nat) L = N) by exact Ln. rewrite !map_length, Ln'. split; [reflexivity|]. split; [reflexivity|].
    split; [unfold size; cbn [data]; rewrite map_length, <- Ln, cl_length; reflexivity|].
    assert (Cl : map max_of (map (fun x => firstn depth (snd x)) (map fst L)) = map Z.of_nat (seq 0 N)).
    { rewrite !map_map. apply nth_error_ext. intros i. rewrite !nth_error_map. destruct (Nat.lt_ge_cases i N) as [Hi|Hi].
      - destruct (At i Hi) as [e Ee]. rewrite Ee. destruct (G i e Ee) as (l & P & A & B & Fl & _). cbn [option_map]. rewrite Fl, (firstn_label c) by auto. rewrite (label_max c) by (auto; lia).
        rewrite (nth_error_nth' _ O) by (rewrite seq_length; exact Hi). rewrite seq_nth by exact Hi. reflexivity.
      - replace (nth_error L i) with (@None entry) by (symmetry; apply nth_error_None; lia). replace (nth_error (seq 0 N) i) with (@None nat) by (symmetry; apply nth_error_None; rewrite seq_length; lia). reflexivity. }
    split. { rewrite Cl, max_of_classes. destruct (Nat.eqb_spec N 0); [cbn [nodes_above] in *; lia|]. lia. }
    split.
    - intros i Hi. destruct (At i Hi) as [[[v lab] d] Ee]. destruct (G i _ Ee) as (l & P & A & B & Fl & V). cbn [fst snd] in *. exists l, v.
      split; [exact P|]. split; [exact B|]. rewrite !nth_error_map, Ee. cbn [option_map fst snd]. split; [reflexivity|]. split; [rewrite Fl; reflexivity|].
      split; [rewrite (firstn_label c) by auto; apply (label_max c); auto; lia|]. destruct i as [|i]; [exact V|].
      destruct V as (p & u & P1 & P2 & P3). exists (fst (fst p)), u. rewrite P1. split; [reflexivity|]. split; assumption.
    - intros j Hj. assert (Hi : (j / siblings < N)%nat) by (apply Nat.div_lt_upper_bound; lia). destruct (At _ Hi) as [[[v lab] d] Ee].
      destruct (G _ _ Ee) as (l & P & A & B & Fl & _). cbn [fst snd] in *. exists l, v. split; [exact P|]. rewrite !nth_error_map, Ee. split; [reflexivity|].
      unfold get_item. cbn [data labels]. rewrite !nth_error_map. unfold cl_of. rewrite <- Ln.
      match goal with |- context [nth_error (flat_map ?f ?q) j] => destruct (flat_map_uniform f siblings (fun a => clones_length _ _ _) q j ltac:(lia)) as [_ Q]; rewrite Q end.
      rewrite nth_error_combine_full, Ee. cbn [fst snd Nat.add]. unfold clones. rewrite !nth_error_map.
      assert (Hm : (j mod siblings < siblings)%nat) by (apply Nat.mod_upper_bound; lia).
      rewrite (nth_error_nth' _ O) by (rewrite seq_length; exact Hm). rewrite seq_nth by exact Hm. cbn [option_map fst snd Nat.add].
      rewrite Fl, (label_max c) by (auto; lia). reflexivity.
  Qed.
End Build.

(** * Directions *)
Local Open Scope R_scope.
Lemma reject_orth n p d : dot n p p = 1 -> dot n p (reject_from n p d) = 0.
Proof. intros H. unfold reject_from. vexp. rewrite H. ring. Qed.
Lemma directions_orth dim c draw n v u : / 10 ^ 15 <= nrm dim v -> In u (get_directions dim c draw n v) -> dot dim v u = 0.
Proof.
  intros V U. assert (P : 0 < nrm dim v) by (apply Rlt_le_trans with (/ 10 ^ 15); [apply Rinv_0_lt_compat; lra|exact V]).
  assert (H1 : dot dim (unit_of dim v) (unit_of dim v) = 1).
  { unfold unit_of. rewrite Rmax_left by exact V. rewrite dot_vdiv_l, dot_vdiv_r, <- nrm_sq. field. lra. }
  assert (H2 : forall d, dot dim v (reject_from dim (unit_of dim v) d) = 0).
  { intros d. pose proof (reject_orth dim (unit_of dim v) d H1) as Q. unfold unit_of at 1 in Q. rewrite Rmax_left in Q by exact V. rewrite dot_vdiv_l in Q.
    apply Rmult_eq_reg_r with (/ nrm dim v); [|apply Rinv_neq_0_compat; lra]. rewrite Rmult_0_l. exact Q. }
  unfold get_directions in U. destruct ((dim =? 2)%nat && (c =? 2)%nat).
  - destruct U as [<-|[<-|[]]]; [apply H2|]. rewrite dot_opp_r, H2. ring.
  - apply in_map_iff in U. destruct U as (r & <- & _). apply H2.
Qed.
(** at the root the draws are used as they are, and two children of a two-dimensional
    tree go in opposite directions *)
Lemma directions_root dim c draw n : (dim =? 2)%nat && (c =? 2)%nat = false -> get_directions dim c draw n vzero = map (draw n) (seq 0 c).
Proof.
  intros H. unfold get_directions. rewrite H. apply map_ext. intros r. apply vec_ext. intros i. unfold reject_from, unit_of, vsub, smul, vdiv, vzero. unfold Rdiv. rewrite !Rmult_0_l. ring.
Qed.
Lemma directions_two draw n v : exists d, get_directions 2 2 draw n v = [d; vopp d].
Proof. eexists. reflexivity. Qed.

Lemma path_case : path 2 5 [2; 5]%nat /\ tree_label 3 5 [2; 5]%nat = [2; 5; -1; -1]%Z /\ nodes_above 2 4 = 15%nat.
Proof.
  split; [|split; reflexivity]. change ([2; 5]%nat) with ([2%nat] ++ [5%nat]). constructor; [discriminate|]. change (parent 2 5) with 2%nat.
  change ([2%nat]) with ([] ++ [2%nat]). constructor; [discriminate|]. constructor.
Qed.
Lemma whole c i : (1 <= c)%nat ->
  exists l, path c i l /\ (forall l', path c i l' -> l' = l) /\ forall depth, (length l <= depth)%nat <-> (i < nodes_above c (S depth))%nat.
Proof.
  intros C. destruct (path_exists c i C) as [l P]. exists l. split; [exact P|]. split; [intros l' P'; symmetry; eapply path_unique; eassumption|].
  intros depth. pose proof (path_depth c C (S depth) i l P). lia.
Qed.
