(** Lemmas for TreeProps. *)
From Coq Require Import Reals List Bool Arith ZArith Lra Lia.
From Verif Require Import RVec TreeModel TreeSpec.
Import ListNotations.

(** * Numbering *)
Lemma parent_lt c i : (1 <= c)%nat -> i <> O -> (parent c i < i)%nat.
Proof. intros C I. unfold parent. apply Nat.div_lt_upper_bound; [lia|]. nia. Qed.
Lemma path_exists c i : (1 <= c)%nat -> exists l, path c i l.
Proof.
  intros C. induction i as [i IH] using lt_wf_ind. destruct (Nat.eq_dec i 0) as [->|N]; [exists []; constructor|].
  destruct (IH (parent c i) (parent_lt c i C N)) as [l P]. exists (l ++ [i]). constructor; assumption.
Qed.
Lemma path_unique c i l : path c i l -> forall l', path c i l' -> l = l'.
Proof.
  induction 1 as [|i l N P IH]; intros l' P'; inversion P'; subst; auto; try contradiction.
  f_equal. apply IH. assumption.
Qed.
Lemma path_depth c : (1 <= c)%nat -> forall e i l, path c i l -> (length l < e <-> i < nodes_above c e)%nat.
Proof.
  intros C. induction e as [|e IH]; intros i l P; [simpl; lia|]. inversion P; subst; cbn [nodes_above length].
  - lia.
  - rewrite app_length. cbn [length]. specialize (IH _ _ H0). unfold parent in IH.
    assert (Q : ((i - 1) / c < nodes_above c e <-> i - 1 < c * nodes_above c e)%nat).
    { split; intros K.
      - pose proof (Nat.mul_succ_div_gt (i - 1) c ltac:(lia)). nia.
      - apply Nat.div_lt_upper_bound; lia. }
    lia.
Qed.
Lemma nodes_above_closed c e : (Z.of_nat (nodes_above c e) * (Z.of_nat c - 1) = Z.of_nat c ^ Z.of_nat e - 1)%Z.
Proof.
  induction e as [|e IH]; [reflexivity|]. cbn [nodes_above]. replace (Z.of_nat (S e)) with (Z.succ (Z.of_nat e)) by lia. rewrite Z.pow_succ_r by lia. rewrite Nat2Z.inj_add, Nat2Z.inj_mul. nia.
Qed.
Lemma path_bound c i l : (1 <= c)%nat -> path c i l -> Forall (fun j => 1 <= j <= i)%nat l.
Proof.
  intros C. induction 1 as [|i l N P IH]; [constructor|]. apply Forall_app. split; [|repeat constructor; lia].
  pose proof (parent_lt c i C N). eapply Forall_impl; [|exact IH]. cbn. lia.
Qed.

(** * Labels *)
Lemma set_at_app l z a r : set_at (length l) z (l ++ a :: r) = l ++ z :: r.
Proof. induction l as [|b l IH]; simpl; [reflexivity|]. rewrite IH. reflexivity. Qed.
Lemma set_at_length i z l : length (set_at i z l) = length l.
Proof. revert i. induction l as [|a l IH]; intros [|i]; simpl; auto. Qed.
Lemma max_app l m : max_of (l ++ m) = Z.max (max_of l) (max_of m).
Proof.
  unfold max_of. induction l as [|a l IH]; simpl.
  - assert (-1 <= fold_right Z.max (-1) m)%Z by (induction m; simpl; lia). lia.
  - rewrite IH. lia.
Qed.
Lemma max_repeat n : max_of (repeat (-1)%Z n) = (-1)%Z.
Proof. unfold max_of. induction n as [|n IH]; simpl; lia. Qed.
Lemma max_ge l : (-1 <= max_of l)%Z.
Proof. unfold max_of. induction l; simpl; lia. Qed.
Lemma label_child c depth i l : i <> O -> path c (parent c i) l -> (length l < depth)%nat ->
  set_at (length l) (Z.of_nat i) (tree_label depth (parent c i) l) = tree_label depth i (l ++ [i]).
Proof.
  intros N P L. unfold tree_label. destruct i as [|i]; [contradiction|]. rewrite map_app, app_length, <- app_assoc. cbn [length map].
  assert (G : map Z.of_nat l ++ repeat (-1)%Z (S depth - length l) = map Z.of_nat l ++ (-1)%Z :: repeat (-1)%Z (S depth - (length l + 1))).
  { f_equal. replace (S depth - length l)%nat with (S (S depth - (length l + 1))) by lia. reflexivity. }
  inversion P as [Q|j m Nj Pj Q]; subst.
  - cbn [set_at length app map]. replace (S depth - (0 + 1))%nat with depth by lia. reflexivity.
  - destruct (parent c (S i)) eqn:K; [contradiction|]. rewrite <- K in *. rewrite G. rewrite <- (map_length Z.of_nat). rewrite set_at_app, map_length. reflexivity.
Qed.
Lemma label_max c depth i l : (1 <= c)%nat -> path c i l -> max_of (tree_label depth i l) = Z.of_nat i.
Proof.
  intros C P. unfold tree_label. destruct i as [|i].
  - change (Z.max 0 (max_of (repeat (-1)%Z depth)) = 0%Z). rewrite max_repeat. reflexivity.
  - rewrite max_app, max_repeat. inversion P as [|j m N Q]; subst. rewrite map_app, max_app.
    pose proof (path_bound c _ _ C Q) as B. pose proof (parent_lt c (S i) C N) as Lp.
    assert (M : (max_of (map Z.of_nat m) <= Z.of_nat (S i))%Z).
    { clear -B Lp. unfold max_of. induction B as [|b m Hb B IH]; cbn [map fold_right]; lia. }
    change (max_of (map Z.of_nat [S i])) with (Z.max (Z.of_nat (S i)) (-1)). lia.
Qed.
Lemma label_length c depth i l : path c i l -> (length l <= S depth)%nat -> length (tree_label depth i l) = S depth.
Proof. intros P L. unfold tree_label. destruct i; [cbn; rewrite repeat_length; reflexivity|]. rewrite app_length, map_length, repeat_length. lia. Qed.

(** * The loop *)
Section Loop.
  Variables (dim depth c siblings : nat) (dist_children sigma_sibling : R).
  Variable geo : R -> vec -> vec -> vec.
  Variable draw : nat -> nat -> vec.
  Variable sample : R -> nat -> nat -> vec -> vec.
  Variable root : vec.
  Hypothesis C : (1 <= c)%nat.
  Notation dirs := (get_directions dim c draw).
  Lemma dirs_length n v : length (dirs n v) = c.
  Proof.
    unfold get_directions. destruct (Nat.eqb_spec dim 2), (Nat.eqb_spec c 2); cbn [andb length]; auto; rewrite map_length, seq_length; reflexivity.
  Qed.
  Notation I := (nodes_above c depth).
  Notation N := (nodes_above c (S depth)).
  (** what the i-th generated entry must be, given the list of all generated entries *)
  Definition good (L : list entry) : Prop :=
    forall i e, nth_error L i = Some e -> exists l, path c i l /\ snd e = length l /\ (length l <= depth)%nat /\
      snd (fst e) = tree_label depth i l /\
      match i with
      | O => fst (fst e) = root
      | _ => exists p u, nth_error L (parent c i) = Some p /\ nth_error (dirs (parent c i) (fst (fst p))) (birth c i) = Some u /\
             fst (fst e) = geo dist_children (fst (fst p)) u
      end.
  Definition cl_of (L : list entry) (k : nat) : list (vec * list Z) :=
    flat_map (fun ie => clones siblings sigma_sibling sample (fst ie) (fst (fst (snd ie))) (snd (fst (snd ie)))) (combine (seq 0 k) L).
  Lemma nth_error_combine_seq {A} (l : list A) j a : forall s, nth_error (combine (seq s (length l)) l) j = Some a -> fst a = (s + j)%nat /\ nth_error l j = Some (snd a).
  Proof.
    revert j. induction l as [|b l IH]; intros [|j] s H; simpl in H; try discriminate.
    - injection H as <-. cbn. split; [lia|reflexivity].
    - destruct (IH j (S s) H) as [H1 H2]. split; [lia|exact H2].
  Qed.
  Lemma good_grow L k v l d : good L -> length L = (1 + c * k)%nat -> nth_error L k = Some (v, l, d) -> (d < depth)%nat ->
    good (L ++ offspring dim c dist_children geo draw k v l d (length L)).
  Proof.
    intros G Ln K D i e E. destruct (Nat.lt_ge_cases i (length L)) as [Hi|Hi].
    - rewrite nth_error_app1 in E by exact Hi. destruct (G i e E) as (m & P & A & B & F & H). exists m. repeat (split; [assumption|]).
      destruct i as [|i]; [exact H|]. destruct H as (p & u & H1 & H2). exists p, u. split; [|exact H2]. rewrite nth_error_app1; [exact H1|]. apply nth_error_Some. congruence.
    - rewrite nth_error_app2 in E by exact Hi. unfold offspring in E. rewrite nth_error_map in E.
      destruct (nth_error (combine (seq 0 (length (dirs k v))) (dirs k v)) (i - length L)) as [jr|] eqn:Q; [|discriminate]. injection E as <-.
      apply nth_error_combine_seq in Q. destruct Q as [Q1 Q2]. cbn [Nat.add] in Q1.
      assert (Lt : (i - length L < c)%nat) by (rewrite <- (dirs_length k v); apply nth_error_Some; congruence).
      destruct (G k _ K) as (m & P & A & B & F & _). cbn [fst snd] in A, F. 
      assert (Pi : parent c i = k). { unfold parent. symmetry. apply (Nat.div_unique (i - 1) c k (i - length L)); lia. }
      assert (Bi : birth c i = (i - length L)%nat). { unfold birth. symmetry. apply (Nat.mod_unique (i - 1) c k (i - length L)); lia. }
      assert (Ni : i <> O) by lia.
      exists (m ++ [i]). split; [constructor; [exact Ni|rewrite Pi; exact P]|]. cbn [fst snd]. rewrite app_length. cbn [length].
      split; [lia|]. split; [lia|]. split.
      + rewrite F, A, Q1. replace (length L + (i - length L))%nat with i by lia. rewrite <- Pi. apply label_child; [exact Ni|rewrite Pi; exact P|lia].
      + destruct i as [|i]; [lia|]. exists (v, l, d), (snd jr). rewrite Pi, Bi. split; [|split; [exact Q2|reflexivity]].
        rewrite nth_error_app1; [exact K|]. apply nth_error_Some. congruence.
  Qed.
  Lemma offspring_length k v l d m : length (offspring dim c dist_children geo draw k v l d m) = c.
  Proof. unfold offspring. rewrite map_length, combine_length, seq_length, dirs_length. lia. Qed.
  Lemma skipn_nth {A} (L : list A) k a r : skipn k L = a :: r -> nth_error L k = Some a /\ r = skipn (S k) L /\ (k < length L)%nat.
  Proof.
    revert L. induction k as [|k IH]; intros [|b L] E; cbn [skipn] in E; try discriminate.
    - injection E as -> ->. cbn. repeat split; lia.
    - destruct (IH L E) as (H1 & H2 & H3). cbn. repeat split; auto. lia.
  Qed.
  Lemma loop_ok : forall fuel k L, good L -> length L = (1 + c * Nat.min k I)%nat -> (k <= length L)%nat -> (N < k + fuel)%nat ->
    exists L', good L' /\ length L' = N /\
      bst_loop dim depth c siblings dist_children sigma_sibling geo draw sample fuel k (length L) (skipn k L) (map fst (firstn k L)) (cl_of L k)
      = Some (map fst L', cl_of L' (length L')).
  Proof.
    induction fuel as [|fuel IH]; intros k L G Ln K F; cbn [nodes_above] in *; [nia|].
    cbn [bst_loop]. destruct (skipn k L) as [|[[v l] d] q] eqn:Q.
    - assert (Kl : (length L <= k)%nat) by (pose proof (skipn_length k L) as Sl; rewrite Q in Sl; cbn in Sl; lia).
      assert (E : k = length L) by lia. exists L. split; [exact G|].
      assert (I <= k)%nat. { destruct (Nat.le_gt_cases I k) as [|H]; [assumption|]. rewrite Nat.min_l in Ln by lia. nia. }
      rewrite Nat.min_r in Ln by lia. split; [lia|]. rewrite E, firstn_all. reflexivity.
    - destruct (skipn_nth L k _ _ Q) as (Nk & -> & Lk). destruct (G k _ Nk) as (m & P & A & B & Fl & _). cbn [fst snd] in A, Fl.
      pose proof (path_depth c C depth k m P) as PD.
      assert (V : forall L2, map fst (firstn k L) ++ [(v, l)] = map fst (firstn (S k) (L ++ L2))).
      { intros L2. rewrite firstn_app. replace (S k - length L)%nat with O by lia. rewrite firstn_O, app_nil_r.
        assert (firstn (S k) L = firstn k L ++ [(v, l, d)]).
        { clear -Nk. revert k Nk. induction L as [|b L IHL]; intros [|k] E; cbn in E; try discriminate; [injection E as ->; reflexivity|]. cbn [firstn app]. f_equal. apply IHL, E. }
        rewrite H, map_app. reflexivity. }
      assert (Cc : forall L2, cl_of L k ++ clones siblings sigma_sibling sample k v l = cl_of (L ++ L2) (S k)).
      { intros L2. unfold cl_of. rewrite seq_S.
        assert (H : forall s, combine (seq s k ++ [(s + k)%nat]) (L ++ L2) = combine (seq s k) L ++ [((s + k)%nat, (v, l, d))]).
        { clear -Nk. revert k Nk. induction L as [|b L IHL]; intros [|k] E s; cbn in E; try discriminate; [injection E as ->; cbn; rewrite Nat.add_0_r; destruct (L ++ L2); reflexivity|].
          cbn [seq app combine]. f_equal. replace (s + S k)%nat with (S s + k)%nat by lia. apply IHL, E. }
        rewrite (H O), flat_map_app. cbn [Nat.add flat_map fst snd]. rewrite app_nil_r. reflexivity. }
      replace (d <=? depth)%nat with true by (symmetry; apply Nat.leb_le; lia).
      destruct (Nat.ltb_spec d depth) as [D|D].
      + rewrite (offspring_length k v l d (length L)). set (kids := offspring _ _ _ _ _ _ _ _ _ _).
        assert (LL : (length L + c)%nat = length (L ++ kids)) by (rewrite app_length; unfold kids; rewrite offspring_length; reflexivity).
        rewrite LL, (V kids), (Cc kids).
        replace (skipn (S k) L ++ kids) with (skipn (S k) (L ++ kids)) by (rewrite skipn_app; replace (S k - length L)%nat with O by lia; reflexivity).
        assert (Kd : (k < I)%nat) by (apply PD; lia). rewrite Nat.min_l in Ln by lia.
        apply IH; [apply good_grow; auto| | |lia].
        * rewrite <- LL, Ln. rewrite Nat.min_l by lia. nia.
        * rewrite <- LL. lia.
      + cbn [length]. rewrite Nat.add_0_r, app_nil_r.
        pose proof (V []) as V0. pose proof (Cc []) as C0. rewrite app_nil_r in V0, C0. rewrite V0, C0.
        assert (Kd : ~ (k < I)%nat) by (intros H; apply PD in H; lia). rewrite Nat.min_r in Ln by lia.
        apply IH; auto; [rewrite Nat.min_r by lia; exact Ln|lia].
  Qed.
End Loop.
