(** * C13: the synthesis tree answers like the list of slices *)
From Coq Require Import Reals Lra Bool List Arith Lia.
Import ListNotations.
From Verif Require Import Itv Arith Tube TubeSpec TubeFacts TubeOps TubeOpsFacts TubeOpsFacts2 TubeQueries TubeQueries2 Concrete Integral Tree.
Open Scope R_scope.
Local Arguments Nat.div2 : simpl never.
Local Arguments Nat.ltb : simpl never.

(** ** Shape: what the caches and flags do not change *)
Inductive sk : Type := SL (k : nat) (a b : R) | SN (n : nat) (a b : R) (s1 s2 : sk).
Fixpoint skel (t : tree) : sk :=
  match t with
  | Leaf k m => SL k (m_lb m) (m_ub m)
  | Node n m t1 t2 => SN n (m_lb m) (m_ub m) (skel t1) (skel t2)
  end.
Definition slb (s : sk) : R := match s with SL _ a _ | SN _ a _ _ _ => a end.
Definition sub_ (s : sk) : R := match s with SL _ _ b | SN _ _ b _ _ => b end.
Definition snb (s : sk) : nat := match s with SL _ _ _ => 1 | SN n _ _ _ _ => n end.
Lemma skel_lb t : m_lb (mem t) = slb (skel t). Proof. destruct t; auto. Qed.
Lemma skel_ub t : m_ub (mem t) = sub_ (skel t). Proof. destruct t; auto. Qed.
Lemma skel_nb t : nb t = snb (skel t). Proof. destruct t; auto. Qed.

Definition doms (x : tube) : list (R * R) := map (fun s => (s_lb s, s_ub s)) x.
Inductive shape : sk -> nat -> list (R * R) -> Prop :=
| sh_leaf k a b : shape (SL k a b) k [(a, b)]
| sh_node k n a b s1 s2 d1 d2 : shape s1 k d1 -> shape s2 (k + length d1) d2 -> n = (length d1 + length d2)%nat ->
    length d1 = Nat.div2 (S n) -> a = slb s1 -> b = sub_ s2 -> shape (SN n a b s1 s2) k (d1 ++ d2).

Lemma shape_leaf_inv k' a b k d : shape (SL k' a b) k d -> k' = k /\ d = [(a, b)].
Proof. intros H. inversion H; subst; auto. Qed.
Lemma shape_node_inv n a b s1 s2 k d : shape (SN n a b s1 s2) k d -> exists d1 d2, d = d1 ++ d2 /\ shape s1 k d1 /\
  shape s2 (k + length d1) d2 /\ n = (length d1 + length d2)%nat /\ length d1 = Nat.div2 (S n) /\ a = slb s1 /\ b = sub_ s2.
Proof. intros H. inversion H; subst. exists d1, d2. repeat split; auto. Qed.
Ltac sinv Hs :=
  first [apply shape_leaf_inv in Hs; destruct Hs as (-> & ->)
        |apply shape_node_inv in Hs; destruct Hs as (d1 & d2 & -> & S1 & S2 & Sn & Sl & Sa & Sb)].
Lemma shape_len s k d : shape s k d -> snb s = length d.
Proof. induction 1; cbn; auto. rewrite app_length. lia. Qed.
Lemma shape_ne s k d : shape s k d -> d <> [].
Proof. induction 1; [discriminate|]. destruct d1; [congruence|discriminate]. Qed.

Lemma doms_len x : length (doms x) = length x. Proof. apply map_length. Qed.
Lemma div2_pos n : (2 <= n)%nat -> (0 < Nat.div2 (S n) < n)%nat.
Proof.
  intros H. split.
  - destruct n as [|[|n]]; try lia. change (Nat.div2 (S (S (S n)))) with (S (Nat.div2 (S n))). lia.
  - rewrite Nat.div2_div. apply Nat.div_lt_upper_bound; lia.
Qed.

Lemma firstn_add' {A} : forall n m (l : list A), firstn (n + m) l = firstn n l ++ firstn m (skipn n l).
Proof. induction n; intros m [|a l]; cbn; auto; [destruct m; auto|]. f_equal. auto. Qed.
Lemma skipn_skipn' {A} : forall n m (l : list A), skipn n (skipn m l) = skipn (m + n) l.
Proof. intros n m. induction m; intros [|a l]; cbn; auto. destruct n; auto. Qed.

Lemma build_shape x : forall fuel k n, (1 <= n <= fuel)%nat -> (k + n <= length x)%nat ->
  shape (skel (build fuel k n x)) k (firstn n (skipn k (doms x))).
Proof.
  induction fuel as [|fuel IH]; intros k n Hn Hk; [lia|].
  destruct n as [|[|n]]; [lia| |].
  - cbn [build]. destruct (nth_error x k) as [s|] eqn:E.
    + assert (E' : nth_error (doms x) k = Some (s_lb s, s_ub s)) by (unfold doms; rewrite nth_error_map, E; auto).
      apply nth_error_split in E'. destruct E' as (l1 & l2 & E1 & E2). rewrite E1. rewrite skipn_app, <- E2.
      rewrite skipn_all, Nat.sub_diag. cbn. constructor.
    + apply nth_error_None in E. lia.
  - cbn [build]. set (n' := S (S n)) in *. change (S (S (S n))) with (S n').
    pose proof (div2_pos n' ltac:(unfold n'; lia)) as Hd. set (n1 := Nat.div2 (S n')) in *.
    assert (E : firstn n' (skipn k (doms x)) = firstn n1 (skipn k (doms x)) ++ firstn (n' - n1) (skipn (k + n1) (doms x))).
    { replace n' with (n1 + (n' - n1))%nat at 1 by lia. rewrite firstn_add'. f_equal. f_equal.
      apply skipn_skipn'. }
    assert (L1 : length (firstn n1 (skipn k (doms x))) = n1) by (rewrite firstn_length, skipn_length, doms_len; lia).
    assert (L2 : length (firstn (n' - n1) (skipn (k + n1) (doms x))) = (n' - n1)%nat) by (rewrite firstn_length, skipn_length, doms_len; lia).
    rewrite E. cbn [skel mem fresh_memo m_lb m_ub]. constructor.
    + apply IH; lia.
    + rewrite L1. apply IH; lia.
    + lia.
    + rewrite L1. reflexivity.
    + apply skel_lb.
    + apply skel_ub.
Qed.

Lemma tree_of_shape x : x <> [] -> shape (skel (tree_of x)) 0 (doms x).
Proof.
  intros H. unfold tree_of.
  pose proof (build_shape x (length x) 0 (length x)) as B. cbn [skipn] in B. rewrite firstn_all2 in B by (rewrite doms_len; lia).
  apply B; [|lia]. destruct x; [congruence|cbn; lia].
Qed.

(** ** Operations keep the shape *)
Lemma skel_update x : forall t, skel (update_values x t) = skel t.
Proof.
  induction t as [k m|n m t1 IH1 t2 IH2]; cbn.
  - destruct (m_vals m); auto. destruct (nth_error x k); auto.
  - destruct (m_vals m); auto. cbn. rewrite IH1, IH2. auto.
Qed.
Lemma skel_reqv : forall t i, skel (fst (request_values t i)) = skel t.
Proof.
  induction t as [k m|n m t1 IH1 t2 IH2]; intros i; cbn.
  - destruct (m_vals m); auto.
  - specialize (IH1 i). specialize (IH2 (i - nb t1)%nat). destruct (Nat.ltb i (nb t1)).
    + destruct (request_values t1 i) as (t1' & up). cbn in *. destruct (up && negb (m_vals m)); cbn; rewrite IH1; auto.
    + destruct (request_values t2 _) as (t2' & up). cbn in *. destruct (up && negb (m_vals m)); cbn; rewrite IH2; auto.
Qed.
Lemma skel_reqi1 : forall t i, skel (fst (request_ints1 t i)) = skel t.
Proof.
  induction t as [k m|n m t1 IH1 t2 IH2]; intros i; cbn.
  - destruct (m_ints m); auto.
  - specialize (IH1 i). specialize (IH2 (i - nb t1)%nat). destruct (Nat.ltb i (nb t1)).
    + destruct (request_ints1 t1 i) as (t1' & up). cbn in *. destruct (up && negb (m_ints m)); cbn; rewrite IH1; auto.
    + destruct (request_ints1 t2 _) as (t2' & up). cbn in *. destruct (up && negb (m_ints m)); cbn; rewrite IH2; auto.
Qed.
Lemma skel_reqi t i : skel (request_ints t i) = skel t.
Proof.
  unfold request_ints. destruct (leaf_ints t i); auto.
  assert (H : forall l t', skel t' = skel t -> skel (fold_left (fun t j => fst (request_ints1 t j)) l t') = skel t).
  { induction l as [|j l IH]; intros t' E; cbn; auto. apply IH. rewrite skel_reqi1. auto. }
  apply H. apply skel_reqi1.
Qed.
Lemma skel_write_leaves ps : forall t, skel (write_leaves ps t) = skel t.
Proof. induction t as [k m|n m t1 IH1 t2 IH2]; cbn; auto. rewrite IH1, IH2. auto. Qed.
Lemma skel_synth : forall t, skel (synth_ints t) = skel t.
Proof. induction t as [k m|n m t1 IH1 t2 IH2]; cbn; auto. destruct (m_vals m); cbn; auto. rewrite IH1, IH2. auto. Qed.
Lemma skel_update_ints x t : skel (update_ints x t) = skel t.
Proof. unfold update_ints. destruct (m_vals (mem t)); auto. rewrite skel_synth, skel_write_leaves. auto. Qed.

Fixpoint ssub (p : list bool) (s : sk) : sk :=
  match p, s with
  | b :: p', SN _ _ _ s1 s2 => ssub p' (if b then s1 else s2)
  | _, _ => s
  end.
Lemma skel_sub : forall p t, skel (sub p t) = ssub p (skel t).
Proof. induction p as [|b p IH]; intros [k m|n m t1 t2]; cbn; auto. destruct b; apply IH. Qed.
Lemma ssub_app : forall p q s, ssub (p ++ q) s = ssub q (ssub p s).
Proof.
  induction p as [|b p IH]; intros q [k a c|n a c s1 s2]; cbn; auto.
  destruct q; auto.
Qed.

(** ** Invariant of the values: a cleared flag means an exact cache, and cleared flags below *)
Fixpoint vinv (x : tube) (t : tree) : Prop :=
  match t with
  | Leaf k m => m_vals m = false -> cod_at x k = Some (m_cod m)
  | Node n m t1 t2 => vinv x t1 /\ vinv x t2 /\
      (m_vals m = false -> m_vals (mem t1) = false /\ m_vals (mem t2) = false /\ m_cod m = hull (m_cod (mem t1)) (m_cod (mem t2)))
  end.

Lemma hull_Emp_r i : hull i Emp = i. Proof. destruct i; auto. Qed.
Lemma hull_assoc i j k : hull i (hull j k) = hull (hull i j) k.
Proof.
  destruct i as [|l1 h1], j as [|l2 h2], k as [|l3 h3]; auto. cbn. f_equal.
  - destruct l1, l2, l3; cbn; auto. rewrite Rmin_assoc. auto.
  - destruct h1, h2, h3; cbn; auto. rewrite Rmax_assoc. auto.
Qed.
Definition hulls (l : list itv) : itv := fold_right hull Emp l.
Lemma hulls_app l1 l2 : hulls (l1 ++ l2) = hull (hulls l1) (hulls l2).
Proof. induction l1 as [|i l IH]; unfold hulls in *; cbn; auto. rewrite IH, hull_assoc. auto. Qed.
Lemma fold_left_hull : forall l i, fold_left hull l i = hull i (hulls l).
Proof. induction l as [|j l IH]; intros i; unfold hulls in *; cbn; [rewrite hull_Emp_r; auto|]. rewrite IH, hull_assoc. auto. Qed.

Definition part (x : tube) (k n : nat) : tube := firstn n (skipn k x).
Local Arguments part : simpl never.
Local Arguments hulls : simpl never.
Lemma part_app x k n m : part x k (n + m) = part x k n ++ part x (k + n) m.
Proof. unfold part. rewrite firstn_add', skipn_skipn'. auto. Qed.
Lemma part_one x k s : nth_error x k = Some s -> part x k 1 = [s].
Proof.
  intros E. apply nth_error_split in E. destruct E as (l1 & l2 & -> & <-). unfold part. rewrite skipn_app, skipn_all, Nat.sub_diag. auto.
Qed.
Lemma part_all x : part x 0 (length x) = x. Proof. apply firstn_all. Qed.

Lemma vinv_cod x : forall t k d, shape (skel t) k d -> vinv x t -> m_vals (mem t) = false ->
  m_cod (mem t) = hulls (map s_cod (part x k (length d))).
Proof.
  induction t as [k' m|n m t1 IH1 t2 IH2]; intros k d Hs Hv Hf; cbn [skel] in Hs; sinv Hs; cbn in *.
  - specialize (Hv Hf). unfold cod_at in Hv. destruct (nth_error x k) as [s|] eqn:E; [|discriminate]. cbn in Hv. inversion Hv; subst.
    rewrite (part_one _ _ _ E). unfold hulls; cbn. rewrite hull_Emp_r. auto.
  - destruct Hv as (V1 & V2 & V3). destruct (V3 Hf) as (F1 & F2 & ->). rewrite app_length, part_app, map_app, hulls_app.
    rewrite (IH1 _ _ S1 V1 F1), (IH2 _ _ S2 V2 F2). auto.
Qed.

Lemma vinv_sub x : forall p t, vinv x t -> vinv x (sub p t).
Proof. induction p as [|b p IH]; intros [k m|n m t1 t2] H; cbn; auto. apply IH. destruct H as (H1 & H2 & _). destruct b; auto. Qed.
Lemma vinv_sub_false x : forall p t, vinv x t -> m_vals (mem t) = false -> m_vals (mem (sub p t)) = false.
Proof.
  induction p as [|b p IH]; intros [k m|n m t1 t2] H Hf; cbn in *; auto. destruct H as (H1 & H2 & H3).
  destruct (H3 Hf) as (F1 & F2 & _). destruct b; auto.
Qed.

Lemma vinv_update x : forall t k d, shape (skel t) k d -> (k + length d <= length x)%nat -> vinv x t ->
  vinv x (update_values x t) /\ m_vals (mem (update_values x t)) = false.
Proof.
  induction t as [k' m|n m t1 IH1 t2 IH2]; intros k d Hs Hl Hv; cbn [skel] in Hs; sinv Hs; cbn.
  - destruct (m_vals m) eqn:Ef; [|split; auto].
    destruct (nth_error x k) as [s|] eqn:E; [|apply nth_error_None in E; cbn in Hl; lia].
    cbn. split; auto. intros _. unfold cod_at. rewrite E. auto.
  - rewrite app_length in Hl. destruct (m_vals m) eqn:Ef; [|split; auto]. cbn in Hv. destruct Hv as (V1 & V2 & _).
    destruct (IH1 _ _ S1 ltac:(lia) V1) as (A1 & B1). destruct (IH2 _ _ S2 ltac:(lia) V2) as (A2 & B2).
    cbn. repeat split; auto.
Qed.
Lemma skel_refresh x root p : skel (refresh x root p) = skel root.
Proof. unfold refresh. destruct (m_vals _); auto. apply skel_update. Qed.
Lemma vinv_refresh x root p k d : shape (skel root) k d -> (k + length d <= length x)%nat -> vinv x root ->
  vinv x (refresh x root p) /\ m_vals (mem (sub p (refresh x root p))) = false.
Proof.
  intros Hs Hl Hv. unfold refresh. destruct (m_vals (mem (sub p root))) eqn:Ef; auto.
  destruct (vinv_update x root k d Hs Hl Hv) as (A & B). split; auto. eapply vinv_sub_false; eauto.
Qed.

Lemma vinv_ext x x' : forall t k d, shape (skel t) k d -> (forall j, (k <= j < k + length d)%nat -> cod_at x' j = cod_at x j) ->
  vinv x t -> vinv x' t.
Proof.
  induction t as [k' m|n m t1 IH1 t2 IH2]; intros k d Hs He Hv; cbn [skel] in Hs; sinv Hs; cbn in *.
  - intros Hf. rewrite He; auto. lia.
  - rewrite app_length in He. destruct Hv as (V1 & V2 & V3). split; [|split; auto].
    + apply (IH1 k d1); auto. intros; apply He; lia.
    + apply (IH2 (k + length d1)%nat d2); auto. intros; apply He; lia.
Qed.
Lemma vinv_request x x' : forall t k d i, shape (skel t) k d -> (i < length d)%nat ->
  (forall j, (k <= j < k + length d)%nat -> j <> (k + i)%nat -> cod_at x' j = cod_at x j) -> vinv x t ->
  vinv x' (fst (request_values t i)) /\ m_vals (mem (fst (request_values t i))) = true /\
  snd (request_values t i) = negb (m_vals (mem t)).
Proof.
  induction t as [k' m|n m t1 IH1 t2 IH2]; intros k d i Hs Hi He Hv; cbn [skel] in Hs; sinv Hs; cbn in *.
  - destruct (m_vals m) eqn:Ef; cbn; rewrite ?Ef; repeat split; auto; congruence.
  - rewrite app_length in *. destruct Hv as (V1 & V2 & V3). rewrite (skel_nb t1), (shape_len _ _ _ S1).
    destruct (Nat.ltb i (length d1)) eqn:El.
    + apply Nat.ltb_lt in El. destruct (IH1 k d1 i S1 El) as (A & B & C); auto. { intros; apply He; lia. }
      destruct (request_values t1 i) as (t1' & up). cbn in *. subst up.
      assert (V2' : vinv x' t2) by (apply (vinv_ext x x' t2 _ _ S2); auto; intros; apply He; lia).
      destruct (m_vals m) eqn:Em; cbn.
      * rewrite andb_false_r. cbn. rewrite Em. repeat split; auto; congruence.
      * destruct (V3 eq_refl) as (F1 & F2 & _). rewrite F1. cbn. repeat split; auto; congruence.
    + apply Nat.ltb_ge in El. destruct (IH2 (k + length d1)%nat d2 (i - length d1)%nat S2 ltac:(lia)) as (A & B & C); auto. { intros; apply He; lia. }
      destruct (request_values t2 _) as (t2' & up). cbn in *. subst up.
      assert (V1' : vinv x' t1) by (apply (vinv_ext x x' t1 _ _ S1); auto; intros; apply He; lia).
      destruct (m_vals m) eqn:Em; cbn.
      * rewrite andb_false_r. cbn. rewrite Em. repeat split; auto; congruence.
      * destruct (V3 eq_refl) as (F1 & F2 & _). rewrite F2. cbn. repeat split; auto; congruence.
Qed.
(** the updates of integrals do not touch the values *)
Lemma reqi1_mem : forall t i, m_vals (mem (fst (request_ints1 t i))) = m_vals (mem t) /\ m_cod (mem (fst (request_ints1 t i))) = m_cod (mem t).
Proof.
  destruct t as [k m|n m t1 t2]; intros i; cbn.
  - destruct (m_ints m); auto.
  - destruct (if Nat.ltb i (nb t1) then _ else _) as ((t1', t2'), up). destruct (up && negb (m_ints m)); auto.
Qed.
Lemma vinv_reqi1 x : forall t i, vinv x t -> vinv x (fst (request_ints1 t i)).
Proof.
  induction t as [k m|n m t1 IH1 t2 IH2]; intros i H; cbn.
  - destruct (m_ints m); auto.
  - cbn in H. destruct H as (V1 & V2 & V3). specialize (IH1 i V1). specialize (IH2 (i - nb t1)%nat V2).
    pose proof (reqi1_mem t1 i) as (A1 & B1). pose proof (reqi1_mem t2 (i - nb t1)) as (A2 & B2).
    destruct (Nat.ltb i (nb t1)).
    + destruct (request_ints1 t1 i) as (t1' & up). cbn in *. destruct (up && negb (m_ints m)); cbn; rewrite A1, B1; auto.
    + destruct (request_ints1 t2 _) as (t2' & up). cbn in *. destruct (up && negb (m_ints m)); cbn; rewrite A2, B2; auto.
Qed.
Lemma vinv_reqi x t i : vinv x t -> vinv x (request_ints t i).
Proof.
  intros H. unfold request_ints. destruct (leaf_ints t i); auto.
  assert (G : forall l t', vinv x t' -> vinv x (fold_left (fun t j => fst (request_ints1 t j)) l t')).
  { induction l as [|j l IH]; intros t' E; cbn; auto. apply IH, vinv_reqi1; auto. }
  apply G, vinv_reqi1; auto.
Qed.
Lemma wl_mem ps t : m_vals (mem (write_leaves ps t)) = m_vals (mem t) /\ m_cod (mem (write_leaves ps t)) = m_cod (mem t).
Proof. destruct t; auto. Qed.
Lemma vinv_wl x ps : forall t, vinv x t -> vinv x (write_leaves ps t).
Proof.
  induction t as [k m|n m t1 IH1 t2 IH2]; cbn; auto. intros (V1 & V2 & V3).
  destruct (wl_mem ps t1) as (-> & ->). destruct (wl_mem ps t2) as (-> & ->). auto.
Qed.
Lemma synth_mem t : m_vals (mem (synth_ints t)) = m_vals (mem t) /\ m_cod (mem (synth_ints t)) = m_cod (mem t).
Proof. destruct t as [|n m t1 t2]; cbn; auto. destruct (m_vals m) eqn:E; cbn; auto. Qed.
Lemma vinv_synth x : forall t, vinv x t -> vinv x (synth_ints t).
Proof.
  induction t as [k m|n m t1 IH1 t2 IH2]; cbn; auto. intros (V1 & V2 & V3). destruct (m_vals m) eqn:Em; cbn; [|rewrite Em; auto].
  destruct (synth_mem t1) as (-> & ->). destruct (synth_mem t2) as (-> & ->). rewrite Em. auto.
Qed.
Lemma vinv_ints x t : vinv x t -> vinv x (update_ints x t).
Proof. intros H. unfold update_ints. destruct (m_vals (mem t)); auto. apply vinv_synth, vinv_wl; auto. Qed.

(** ** Slices of a part of the tube *)
Fixpoint dchain (a : R) (d : list (R * R)) (b : R) : Prop :=
  match d with
  | [] => a = b
  | p :: r => fst p = a /\ fst p < snd p /\ dchain (snd p) r b
  end.
Lemma dchain_of : forall x a b, chain_from a x b -> dchain a (doms x) b.
Proof. induction x as [|s r IH]; intros a b H; cbn in *; auto. intuition. Qed.
Lemma dchain_app : forall d1 d2 a b, dchain a (d1 ++ d2) b <-> exists c, dchain a d1 c /\ dchain c d2 b.
Proof.
  induction d1 as [|p d1 IH]; intros d2 a b; cbn.
  - split; [intros H; exists a; auto|]. intros (c & -> & H); auto.
  - rewrite IH. split; [intros (E & Hlt & c & H1 & H2); exists c; auto|]. intros (c & (E & Hlt & H1) & H2). eauto.
Qed.
Lemma dchain_le : forall d a b, dchain a d b -> a <= b /\ (d <> [] -> a < b).
Proof.
  induction d as [|p d IH]; intros a b H; cbn in *. { split; [lra|congruence]. }
  destruct H as (<- & Hlt & H). apply IH in H. split; [lra|intros; lra].
Qed.
Lemma dchain_in : forall d a b p, dchain a d b -> List.In p d -> a <= fst p /\ fst p < snd p /\ snd p <= b.
Proof.
  induction d as [|q d IH]; intros a b p H Hp; [destruct Hp|]. cbn in H. destruct H as (<- & Hlt & H).
  destruct (dchain_le _ _ _ H) as (Hle & _). destruct Hp as [->|Hp]; [lra|]. destruct (IH _ _ _ H Hp). lra.
Qed.
Lemma shape_bounds : forall s k d, shape s k d -> forall a b, dchain a d b -> slb s = a /\ sub_ s = b.
Proof.
  induction 1; intros u v Hc.
  - cbn in *. intuition.
  - apply dchain_app in Hc. destruct Hc as (c & H1' & H2'). cbn. destruct (IHshape1 _ _ H1'). destruct (IHshape2 _ _ H2'). subst. auto.
Qed.

(** a node at index [k] over the domains [d] of slices of the tube [x] *)
Definition placed (x : tube) (k : nat) (d : list (R * R)) : Prop :=
  forall i p, nth_error d i = Some p -> exists s, nth_error x (k + i) = Some s /\ (s_lb s, s_ub s) = p.
Lemma placed_all x : placed x 0 (doms x).
Proof.
  intros i p H. unfold doms in H. rewrite nth_error_map in H. cbn. destruct (nth_error x i) as [s|]; [|discriminate].
  cbn in H. inversion H; subst. eauto.
Qed.
Lemma placed_app x k d1 d2 : placed x k (d1 ++ d2) -> placed x k d1 /\ placed x (k + length d1) d2.
Proof.
  intros H. split; intros i p E.
  - apply H. rewrite nth_error_app1; auto. apply nth_error_Some. congruence.
  - destruct (H (length d1 + i)%nat p) as (s & E1 & E2).
    + rewrite nth_error_app2 by lia. replace (length d1 + i - length d1)%nat with i by lia. auto.
    + exists s. split; auto. rewrite <- E1. f_equal. lia.
Qed.
Lemma in_part x k d s : placed x k d -> List.In s (part x k (length d)) -> List.In (s_lb s, s_ub s) d.
Proof.
  intros H Hs. apply In_nth_error in Hs. destruct Hs as (i & E). unfold part in E.
  assert (Hi : (i < length d)%nat).
  { assert (i < length (firstn (length d) (skipn k x)))%nat by (apply nth_error_Some; congruence). rewrite firstn_length in H0. lia. }
  rewrite nth_error_firstn', nth_error_skipn' in E by auto.
  destruct (nth_error d i) as [p|] eqn:Ed; [|apply nth_error_None in Ed; lia].
  destruct (H i p Ed) as (s' & E1 & E2). rewrite E in E1. inversion E1; subst s'. rewrite E2. eapply nth_error_In; eauto.
Qed.
Lemma filter_none {A} (f : A -> bool) l : (forall a, List.In a l -> f a = false) -> filter f l = [].
Proof. induction l as [|a l IH]; cbn; auto. intros H. rewrite (H a) by auto. auto. Qed.
Lemma filter_all {A} (f : A -> bool) l : (forall a, List.In a l -> f a = true) -> filter f l = l.
Proof. induction l as [|a l IH]; cbn; auto. intros H. rewrite (H a) by auto. f_equal. auto. Qed.

Definition ov (u v : R) (s : slice) : bool := Rltb (s_lb s) v && Rltb u (s_ub s).
Lemma ov_true u v s : ov u v s = true <-> s_lb s < v /\ u < s_ub s.
Proof. unfold ov. rewrite andb_true_iff, !Rltb_true. tauto. Qed.
Lemma ov_false u v s : ov u v s = false <-> v <= s_lb s \/ s_ub s <= u.
Proof. unfold ov. rewrite andb_false_iff, !Rltb_false. tauto. Qed.

Lemma dom_skel t : dom t = Itv (Some (slb (skel t))) (Some (sub_ (skel t))).
Proof. unfold dom. rewrite skel_lb, skel_ub. auto. Qed.
Lemma deg_no u v : u < v -> is_degenerated (Itv (Some u) (Some v)) = false.
Proof. intros H. cbn. apply Reqb_false. lra. Qed.
Lemma inter_pts_max a b u v : a <= b -> inter (Itv (Some a) (Some b)) (Itv (Some u) (Some v)) = bnd (Rmax a u) (Rmin b v).
Proof. reflexivity. Qed.
Lemma bnd_lt a b : a <= b -> bnd a b = Itv (Some a) (Some b).
Proof. intros H. unfold bnd, mk. destruct (Rle_dec a b); auto. lra. Qed.
Lemma bnd_deg a b : b <= a -> is_degenerated (bnd a b) = true.
Proof. intros H. unfold bnd, mk. destruct (Rle_dec a b); auto. cbn. apply Reqb_true. lra. Qed.

Section Queries.
  Variables (x : tube) (a b : R).
  Hypothesis Hc : chain_from a x b.

  Definition good (root : tree) : Prop := vinv x root /\ shape (skel root) 0 (doms x).
  Lemma good_refresh root p : good root -> good (refresh x root p) /\ skel (refresh x root p) = skel root /\
    m_vals (mem (sub p (refresh x root p))) = false.
  Proof.
    intros (H1 & H2). destruct (vinv_refresh x root p 0 (doms x) H2) as (A & B); auto. { rewrite doms_len; lia. }
    repeat split; auto; rewrite skel_refresh; auto.
  Qed.
  Lemma node_cod_ok root p sh k d : good root -> ssub p (skel root) = skel sh -> shape (skel sh) k d ->
    node_cod (refresh x root p) p = hulls (map s_cod (part x k (length d))).
  Proof.
    intros Hg Hp Hs. destruct (good_refresh root p Hg) as ((A & _) & B & C). unfold node_cod. apply vinv_cod; auto.
    - rewrite skel_sub, B, Hp. auto.
    - apply vinv_sub; auto.
  Qed.

  Lemma top_ok : forall sh p root k d la lb u v, shape (skel sh) k d -> dchain la d lb -> placed x k d ->
    ssub p (skel root) = skel sh -> good root -> u < v -> la <= u -> v <= lb ->
    let r := top x sh p root (Itv (Some u) (Some v)) in
    fst r = hulls (map s_cod (filter (ov u v) (part x k (length d)))) /\ good (snd r) /\ skel (snd r) = skel root.
  Proof.
    induction sh as [k' m|n m t1 IH1 t2 IH2]; intros p root k d la lb u v Hs Hd Hpl Hp Hg Huv Hu Hv r; subst r.
    - pose proof (node_cod_ok root p _ k d Hg Hp Hs) as Hn. destruct (good_refresh root p Hg) as (G1 & G2 & _).
      destruct (shape_bounds _ _ _ Hs _ _ Hd) as (E1 & E2). cbn in E1, E2.
      cbn [top]. cbn [is_empty mem]. rewrite deg_no by auto.
      replace (lb_lt _ (m_lb m)) with false by (symmetry; cbn; apply Rltb_false; lra).
      replace (ub_gt _ (m_ub m)) with false by (symmetry; cbn; apply Rltb_false; lra).
      cbn [orb fst snd]. split; auto. rewrite Hn. rewrite filter_all; auto.
      intros s Hin. apply (in_part _ _ _ _ Hpl) in Hin. cbn [skel] in Hs. sinv Hs. cbn in Hd. destruct Hin as [Hin|[]]. inversion Hin; subst. apply ov_true. cbn in *; lra.
    - pose proof (node_cod_ok root p _ k d Hg Hp Hs) as Hn. destruct (good_refresh root p Hg) as (G1 & G2 & _).
      destruct (shape_bounds _ _ _ Hs _ _ Hd) as (E1 & E2). cbn in E1, E2.
      cbn [top]. cbn [is_empty mem]. rewrite deg_no by auto.
      replace (lb_lt _ (m_lb m)) with false by (symmetry; cbn; apply Rltb_false; lra).
      replace (ub_gt _ (m_ub m)) with false by (symmetry; cbn; apply Rltb_false; lra).
      cbn [orb].
      destruct (itv_eqb (Itv (Some u) (Some v)) (dom (Node n m t1 t2))) eqn:Ed.
      { apply itv_eqb_true in Ed. cbn in Ed. inversion Ed; subst u v. cbn [fst snd]. split; auto. rewrite Hn. rewrite filter_all; auto.
        intros s Hin. apply (in_part _ _ _ _ Hpl) in Hin. apply (dchain_in _ _ _ _ Hd) in Hin. cbn in Hin. apply ov_true. lra. }
      clear Ed. cbn [skel] in Hs, Hp. sinv Hs. apply dchain_app in Hd. destruct Hd as (c & D1 & D2).
      apply placed_app in Hpl. destruct Hpl as (P1 & P2).
      destruct (shape_bounds _ _ _ S1 _ _ D1) as (B1 & B2). destruct (shape_bounds _ _ _ S2 _ _ D2) as (B3 & B4).
      destruct (dchain_le _ _ _ D1) as (L1 & _). destruct (dchain_le _ _ _ D2) as (L2 & _).
      rewrite !dom_skel, B1, B2, B3, B4. rewrite !inter_pts_max by auto.
      rewrite app_length, part_app, filter_app, map_app, hulls_app.
      rewrite (Rmax_right la u), (Rmin_right lb v) by lra.
      assert (Q1 : ssub (p ++ [true]) (skel root) = skel t1) by (rewrite ssub_app, Hp; auto).
      assert (Q2 : forall root', skel root' = skel root -> ssub (p ++ [false]) (skel root') = skel t2) by (intros root' ->; rewrite ssub_app, Hp; auto).
      assert (F1 : forall v', (v <= v' \/ c <= v') -> (v' <= v) -> filter (ov u v') (part x k (length d1)) = filter (ov u v) (part x k (length d1))).
      { intros v' Hv1 Hv2. apply filter_ext_in. intros s Hin. apply (in_part _ _ _ _ P1) in Hin. apply (dchain_in _ _ _ _ D1) in Hin. cbn in Hin.
        destruct (ov u v s) eqn:Eo; [apply ov_true in Eo; apply ov_true; lra|apply ov_false in Eo; apply ov_false; lra]. }
      assert (F2 : forall u', (u' <= u \/ u' <= c) -> (u <= u') -> filter (ov u' v) (part x (k + length d1) (length d2)) = filter (ov u v) (part x (k + length d1) (length d2))).
      { intros u' Hv1 Hv2. apply filter_ext_in. intros s Hin. apply (in_part _ _ _ _ P2) in Hin. apply (dchain_in _ _ _ _ D2) in Hin. cbn in Hin.
        destruct (ov u v s) eqn:Eo; [apply ov_true in Eo; apply ov_true; lra|apply ov_false in Eo; apply ov_false; lra]. }
      destruct (Rle_lt_dec c u) as [Hcu|Hcu].
      + rewrite (bnd_deg u (Rmin c v)) by (unfold Rmin; destruct (Rle_dec c v); lra).
        rewrite (Rmax_right c u) by lra. rewrite (bnd_lt u v) by lra. rewrite deg_no by auto. cbn [negb andb].
        destruct (IH2 (p ++ [false]) root _ d2 c lb u v S2 D2 P2 (Q2 _ eq_refl) Hg Huv) as (R1 & R2 & R3); try lra.
        rewrite R1. split; auto. rewrite (filter_none (ov u v) (part x k (length d1))); auto.
        intros s Hin. apply (in_part _ _ _ _ P1) in Hin. apply (dchain_in _ _ _ _ D1) in Hin. cbn in Hin. apply ov_false. lra.
      + destruct (Rle_lt_dec v c) as [Hvc|Hvc].
        * rewrite (Rmin_right c v), (Rmax_left c u) by lra. rewrite (bnd_lt u v), deg_no by lra. rewrite (bnd_deg c v) by lra.
          cbn [negb andb].
          destruct (IH1 (p ++ [true]) root k d1 la c u v S1 D1 P1 Q1 Hg Huv) as (R1 & R2 & R3); try lra.
          rewrite R1. split; auto. rewrite (filter_none (ov u v) (part x (k + length d1) (length d2))). { rewrite hull_Emp_r; auto. }
          intros s Hin. apply (in_part _ _ _ _ P2) in Hin. apply (dchain_in _ _ _ _ D2) in Hin. cbn in Hin. apply ov_false. lra.
        * rewrite (Rmin_left c v), (Rmax_left c u) by lra. rewrite (bnd_lt u c), (bnd_lt c v), !deg_no by lra. cbn [negb andb].
          destruct (IH1 (p ++ [true]) root k d1 la c u c S1 D1 P1 Q1 Hg Hcu) as (R1 & R2 & R3); try lra.
          destruct (top x t1 (p ++ [true]) root (Itv (Some u) (Some c))) as (v1 & root1). cbn [fst snd] in *.
          destruct (IH2 (p ++ [false]) root1 _ d2 c lb c v S2 D2 P2 (Q2 _ R3) R2 Hvc) as (R4 & R5 & R6); try lra.
          destruct (top x t2 (p ++ [false]) root1 (Itv (Some c) (Some v))) as (v2 & root2). cbn [fst snd] in *.
          rewrite R1, R4. rewrite F1, F2 by lra. split; auto. split; auto. congruence.
  Qed.

  Hypothesis Hne : x <> [].
  (** the other queries keep the caches right *)
  Lemma tinvert_good : forall sh p root y search, good root -> good (snd (tinvert x sh p root y search)) /\ skel (snd (tinvert x sh p root y search)) = skel root.
  Proof.
    induction sh as [k' m|n m t1 IH1 t2 IH2]; intros p root y search Hg; cbn [tinvert];
      destruct (is_empty search); auto; destruct (_ || _); auto; destruct (good_refresh root p Hg) as (G1 & G2 & _);
      destruct (negb _); auto; destruct (inside_bounds _ _); auto.
    destruct (IH1 (p ++ [true]) (refresh x root p) y (inter search (dom t1)) G1) as (A1 & A2).
    destruct (tinvert x t1 _ _ _ _) as (v1 & root1). cbn [fst snd] in *.
    destruct (IH2 (p ++ [false]) root1 y (inter search (dom t2)) A1) as (B1 & B2).
    destruct (tinvert x t2 _ _ _ _) as (v2 & root2). cbn [fst snd] in *. split; auto. congruence.
  Qed.
  Lemma teval_good : forall sh p root t, good root -> good (snd (teval x sh p root t)) /\ skel (snd (teval x sh p root t)) = skel root.
  Proof.
    induction sh as [k' m|n m t1 IH1 t2 IH2]; intros p root t Hg; cbn [teval];
      destruct (is_degenerated t); auto; destruct (good_refresh root p Hg) as (G1 & G2 & _); destruct (itv_eqb _ _); auto.
    destruct (_ && _); auto. destruct (_ && _); auto.
    destruct (IH1 (p ++ [true]) root (inter (dom t1) t) Hg) as (A1 & A2).
    destruct (teval x t1 _ _ _) as (v1 & root1). cbn [fst snd] in *.
    destruct (IH2 (p ++ [false]) root1 (inter (dom t2) t) A1) as (B1 & B2).
    destruct (teval x t2 _ _ _) as (v2 & root2). cbn [fst snd] in *. split; auto. congruence.
  Qed.
  Lemma top_good : forall sh p root t, good root -> good (snd (top x sh p root t)) /\ skel (snd (top x sh p root t)) = skel root.
  Proof.
    induction sh as [k' m|n m t1 IH1 t2 IH2]; intros p root t Hg; cbn [top];
      destruct (is_empty t); auto; destruct (_ || _); auto; destruct (is_degenerated t); auto; destruct (good_refresh root p Hg) as (G1 & G2 & _); auto.
    destruct (itv_eqb _ _); auto.
    destruct (_ && _); auto. destruct (_ && _); auto.
    destruct (IH1 (p ++ [true]) root (inter (dom t1) t) Hg) as (A1 & A2).
    destruct (top x t1 _ _ _) as (v1 & root1). cbn [fst snd] in *.
    destruct (IH2 (p ++ [false]) root1 (inter (dom t2) t) A1) as (B1 & B2).
    destruct (top x t2 _ _ _) as (v2 & root2). cbn [fst snd] in *. split; auto. congruence.
  Qed.

  (** inversion: no instant is lost *)
  Lemma tinvert_in f y t : (forall s, List.In s x -> slice_ok s /\ slice_has s f) -> In (f t) y -> forall sh p root k d la lb search,
    shape (skel sh) k d -> dchain la d lb -> placed x k d -> ssub p (skel root) = skel sh -> good root ->
    In t search -> la <= t <= lb -> In t (fst (tinvert x sh p root y search)).
  Proof.
    intros Hf Hy. induction sh as [k' m|n m t1 IH1 t2 IH2]; intros p root k d la lb search Hs Hd Hpl Hp Hg Ht Hb.
    - pose proof (node_cod_ok root p _ k d Hg Hp Hs) as Hn.
      cbn [tinvert]. destruct (is_empty search) eqn:Ee. { apply is_empty_true in Ee. subst. destruct Ht. }
      destruct (_ || _); [apply In_ALL|].
      cbn [skel] in Hs. sinv Hs. cbn in Hd. destruct Hd as (D1 & D2 & D3).
      destruct (Hpl 0%nat _ eq_refl) as (s & Es & Ed). rewrite Nat.add_0_r in Es. inversion Ed; subst la. 
      cbn [length] in Hn. rewrite (part_one _ _ _ Es) in Hn. unfold hulls in Hn. cbn in Hn. rewrite hull_Emp_r in Hn.
      destruct (Hf s) as (Ok & Hh). { eapply nth_error_In; eauto. }
      pose proof (slice_has_closed s f Ok Hh t ltac:(lra)) as Hcl.
      rewrite Hn. replace (intersects (s_cod s) y) with true. 2:{ symmetry. apply intersects_spec. eauto. }
      cbn [negb]. destruct (inside_bounds _ _); auto.
    - pose proof (node_cod_ok root p _ k d Hg Hp Hs) as Hn.
      destruct (good_refresh root p Hg) as (G1 & G2 & _).
      cbn [tinvert]. destruct (is_empty search) eqn:Ee. { apply is_empty_true in Ee. subst. destruct Ht. }
      destruct (_ || _); [apply In_ALL|]. rewrite Hn.
      assert (Hin : In (f t) (hulls (map s_cod (part x k (length d))))).
      { assert (Hp2 : exists p0, List.In p0 d /\ fst p0 <= t <= snd p0).
        { assert (Hd0 : d <> []) by (eapply shape_ne; eauto).
          clear - Hd Hb Hd0. revert la Hd Hb Hd0. induction d as [|q d IH]; intros la Hd Hb Hd0; [congruence|].
          cbn in Hd. destruct Hd as (<- & D2 & D3). destruct (Rle_lt_dec t (snd q)).
          - exists q. split; [left; auto|lra].
          - destruct d as [|q' d']; [cbn in D3; lra|]. destruct (IH (snd q) D3) as (p0 & H1 & H2); [lra|discriminate|]. exists p0. split; auto. right; auto. }
        destruct Hp2 as (p0 & Hp0 & Hb0). apply In_nth_error in Hp0. destruct Hp0 as (i & Ei).
        assert (Hi : (i < length d)%nat) by (apply nth_error_Some; congruence).
        destruct (Hpl i _ Ei) as (s & Es & Ed). destruct (Hf s) as (Ok & Hh). { eapply nth_error_In; eauto. }
        pose proof (slice_has_closed s f Ok Hh t) as Hcl. rewrite <- Ed in Hb0. cbn in Hb0. specialize (Hcl Hb0).
        replace (hulls (map s_cod (part x k (length d)))) with (fold_left hull (map s_cod (part x k (length d))) Emp) by (rewrite fold_left_hull; auto).
        apply In_fold_hull. right. exists (s_cod s). split; auto. apply in_map. apply nth_error_In with (n := i).
        unfold part. rewrite nth_error_firstn', nth_error_skipn' by auto. auto. }
      replace (intersects _ y) with true. 2:{ symmetry. apply intersects_spec. eauto. }
      cbn [negb]. destruct (inside_bounds _ _); auto.
      cbn [skel] in Hs, Hp. sinv Hs. apply dchain_app in Hd. destruct Hd as (c & D1 & D2).
      apply placed_app in Hpl. destruct Hpl as (P1 & P2).
      destruct (shape_bounds _ _ _ S1 _ _ D1) as (B1 & B2). destruct (shape_bounds _ _ _ S2 _ _ D2) as (B3 & B4).
      rewrite !dom_skel, B1, B2, B3, B4.
      assert (Q1 : ssub (p ++ [true]) (skel (refresh x root p)) = skel t1) by (rewrite G2, ssub_app, Hp; auto).
      destruct (tinvert_good t1 (p ++ [true]) (refresh x root p) y (inter search (Itv (Some la) (Some c))) G1) as (A1 & A2).
      pose proof (IH1 (p ++ [true]) (refresh x root p) k d1 la c (inter search (Itv (Some la) (Some c))) S1 D1 P1 Q1 G1) as R1.
      destruct (tinvert x t1 _ _ _ _) as (v1 & root1). cbn [fst snd] in *.
      assert (Q2 : ssub (p ++ [false]) (skel root1) = skel t2) by (rewrite A2, G2, ssub_app, Hp; auto).
      pose proof (IH2 (p ++ [false]) root1 _ d2 c lb (inter search (Itv (Some c) (Some lb))) S2 D2 P2 Q2 A1) as R2.
      destruct (tinvert x t2 _ _ _ _) as (v2 & root2). cbn [fst snd] in *.
      destruct (Rle_lt_dec t c).
      + apply In_hull_l. apply R1; [apply In_inter; split; [auto|cbn; lra]|lra].
      + apply In_hull_r. apply R2; [apply In_inter; split; [auto|cbn; lra]|lra].
  Qed.
End Queries.

(** ** Positions *)
Lemma tslice_ok : forall t k d i, shape (skel t) k d -> (i < length d)%nat -> tslice t i = (k + i)%nat.
Proof.
  induction t as [k' m|n m t1 IH1 t2 IH2]; intros k d i Hs Hi; cbn [skel] in Hs; sinv Hs; cbn [tslice].
  - cbn in Hi. lia.
  - rewrite app_length in Hi. rewrite <- Sl. destruct (Nat.ltb i (length d1)) eqn:El.
    + apply Nat.ltb_lt in El. eauto.
    + apply Nat.ltb_ge in El. rewrite (IH2 _ _ _ S2) by lia. lia.
Qed.
Fixpoint dindex (r : R) (d : list (R * R)) : nat :=
  match d with
  | [] => 0%nat
  | p :: q => if Rltb r (snd p) then 0%nat else match q with [] => 0%nat | _ => S (dindex r q) end
  end.
Lemma dindex_doms r : forall x, dindex r (doms x) = time_to_index r x.
Proof. induction x as [|s x IH]; cbn; auto. destruct (Rltb r (s_ub s)); auto. destruct x as [|s' x]; auto. cbn [doms map] in *. rewrite IH. auto. Qed.
Lemma dindex_cons r p q : dindex r (p :: q) = if Rltb r (snd p) then 0%nat else match q with [] => 0%nat | _ => S (dindex r q) end.
Proof. reflexivity. Qed.
Lemma dindex_app r : forall d1 d2 a c b, dchain a d1 c -> dchain c d2 b -> d1 <> [] -> d2 <> [] ->
  dindex r (d1 ++ d2) = if Rltb r c then dindex r d1 else (length d1 + dindex r d2)%nat.
Proof.
  induction d1 as [|p d1 IH]; intros d2 a c b H1 H2 N1 N2; [congruence|]. cbn in H1. destruct H1 as (<- & Hlt & H1).
  destruct (dchain_le _ _ _ H1) as (Hle & _). rewrite <- app_comm_cons, !dindex_cons.
  destruct (Rltb r (snd p)) eqn:E.
  - apply Rltb_true in E. replace (Rltb r c) with true by (symmetry; apply Rltb_true; lra). auto.
  - destruct d1 as [|q d1].
    + cbn in H1. subst c. rewrite E. cbn [app]. destruct d2; [congruence|]. auto.
    + rewrite <- app_comm_cons. rewrite app_comm_cons. rewrite (IH d2 (snd p) c b); auto; try discriminate. destruct (Rltb r c); auto.
Qed.
Lemma dindex_end r : forall d a b, dchain a d b -> b <= r -> dindex r d = (length d - 1)%nat.
Proof.
  induction d as [|p d IH]; intros a b H Hr; cbn; auto. cbn in H. destruct H as (<- & Hlt & H). destruct (dchain_le _ _ _ H) as (Hle & _).
  replace (Rltb r (snd p)) with false by (symmetry; apply Rltb_false; lra). destruct d as [|q d]; auto.
  rewrite (IH _ _ H Hr). cbn. lia.
Qed.
Lemma tslice_t_ok r : forall t k d a b, shape (skel t) k d -> dchain a d b -> tslice_t t r = (k + dindex r d)%nat.
Proof.
  induction t as [k' m|n m t1 IH1 t2 IH2]; intros k d a b Hs Hd; cbn [skel] in Hs; sinv Hs; cbn [tslice_t].
  - cbn. destruct (Rltb r (m_ub m)); lia.
  - apply dchain_app in Hd. destruct Hd as (c & D1 & D2).
    destruct (shape_bounds _ _ _ S1 _ _ D1) as (B1 & B2). rewrite skel_ub, B2.
    rewrite (dindex_app r d1 d2 a c b D1 D2 (shape_ne _ _ _ S1) (shape_ne _ _ _ S2)).
    destruct (Rltb r c); [eauto|]. rewrite (IH2 _ _ _ _ S2 D2). lia.
Qed.
Lemma tindex_ok r : forall t k d a b, shape (skel t) k d -> dchain a d b -> r <= b -> tindex t r = dindex r d.
Proof.
  induction t as [k' m|n m t1 IH1 t2 IH2]; intros k d a b Hs Hd Hr; pose proof (shape_bounds _ _ _ Hs _ _ Hd) as (_ & Eb);
    pose proof (shape_len _ _ _ Hs) as El; cbn [skel] in Hs, Eb, El; cbn [sub_ snb] in Eb, El; sinv Hs; cbn [tindex mem nb].
  - cbn. destruct (Rltb r (m_ub m)), (Reqb r (m_ub m)); auto.
  - rewrite Eb. destruct (Reqb r b) eqn:E.
    + apply Reqb_true in E. rewrite (dindex_end r _ _ _ Hd) by lra. rewrite El. auto.
    + apply Reqb_false in E. apply dchain_app in Hd. destruct Hd as (c & D1 & D2).
      destruct (shape_bounds _ _ _ S1 _ _ D1) as (B1 & B2). rewrite skel_ub, B2.
      rewrite (dindex_app r d1 d2 a c b D1 D2 (shape_ne _ _ _ S1) (shape_ne _ _ _ S2)).
      destruct (Rltb r c) eqn:Ec; [apply Rltb_true in Ec; apply (IH1 _ _ _ _ S1 D1); lra|].
      rewrite (IH2 _ _ _ _ S2 D2 Hr), skel_nb, (shape_len _ _ _ S1). lia.
Qed.

(** ** Histories *)
Lemma doms_dom x : doms x = map TubeFacts.dom x. Proof. reflexivity. Qed.
Lemma write_doms w x : doms (write_tube w x) = doms x.
Proof.
  rewrite !doms_dom. destruct w; cbn [write_tube].
  - apply slice_set_dom.
  - apply set_envelope_dom.
  - unfold set_input_gate. apply put_gate_dom.
  - unfold set_output_gate. apply put_gate_dom.
Qed.
Lemma write_cod w x j : j <> write_index w -> cod_at (write_tube w x) j = cod_at x j.
Proof.
  destruct w; cbn [write_tube write_index]; intros Hj.
  - unfold slice_set. rewrite !put_gate_cod, cod_at_upd. rewrite (proj2 (Nat.eqb_neq _ _) Hj). auto.
  - unfold set_envelope. destruct (nth_error x k); auto. destruct consistency; rewrite ?put_gate_cod, cod_at_upd; rewrite (proj2 (Nat.eqb_neq _ _) Hj); auto.
  - unfold set_input_gate. apply put_gate_cod.
  - unfold set_output_gate. apply put_gate_cod.
Qed.
Lemma doms_chain x x' a b : doms x' = doms x -> chain_from a x b -> chain_from a x' b.
Proof.
  revert x' a. induction x as [|s x IH]; intros [|s' x'] a E H; cbn in E; try discriminate; auto.
  inversion E; subst. cbn in *. destruct H as (<- & Hlt & H). rewrite H1, H2. repeat split; auto.
Qed.
Lemma doms_nil x x' : doms x' = doms x -> x <> [] -> x' <> [].
Proof. destruct x, x'; cbn; congruence. Qed.

Definition inv (x0 : tube) (st : state) : Prop := doms (fst st) = doms x0 /\ good (fst st) (snd st).
Lemma build_flag x : forall fuel k n, m_vals (mem (build fuel k n x)) = true.
Proof. intros [|fuel] k [|[|n]]; cbn; try (destruct (nth_error x k)); auto. Qed.
Lemma build_vinv x : forall fuel k n, vinv x (build fuel k n x).
Proof.
  induction fuel as [|fuel IH]; intros k [|[|n]]; cbn [build].
  all: try (cbn; destruct (nth_error x k); cbn; discriminate).
  cbn [vinv]. split; [apply IH|]. split; [apply IH|]. cbn. discriminate.
Qed.
Lemma inv_init x : x <> [] -> inv x (x, tree_of x).
Proof. intros H. split; auto. split; [apply build_vinv|]. apply tree_of_shape; auto. Qed.
Lemma inv_step x0 st e : inv x0 st -> inv x0 (step st e).
Proof.
  destruct st as (x & root). intros (E & Hg). destruct e as [w|q]; cbn [step fst snd] in *.
  - destruct (Nat.ltb (write_index w) (length x)) eqn:El; [|split; auto]. apply Nat.ltb_lt in El.
    split; cbn [fst snd]; [rewrite write_doms; auto|]. destruct Hg as (Hv & Hs).
    destruct (vinv_request x (write_tube w x) root 0 (doms x) (write_index w) Hs) as (A & _); auto.
    { rewrite doms_len; auto. } { intros j _ Hj. apply write_cod. auto. }
    split.
    + destruct w; cbn [write_tree write_index] in *; auto; apply vinv_reqi; auto.
    + rewrite write_doms. destruct w; cbn [write_tree write_index]; rewrite ?skel_reqi, skel_reqv; auto.
  - destruct q; cbn [fst snd]; (split; [auto|]); cbn [fst snd].
    + apply good_refresh; auto.
    + apply top_good; auto.
    + apply tinvert_good; auto.
    + apply teval_good; auto.
    + destruct Hg as (Hv & Hs). unfold q_integral, tpartial. cbn [fst snd]. destruct (m_ints (mem root)); [|split; auto].
      split; [apply vinv_ints; auto|rewrite skel_update_ints; auto].
Qed.
Lemma inv_history x h : x <> [] -> inv x (history x h).
Proof.
  intros H. unfold history. assert (G : forall l st, inv x st -> inv x (fold_left step l st)).
  { induction l as [|e l IH]; intros st Hi; cbn; auto. apply IH, inv_step; auto. }
  apply G, inv_init; auto.
Qed.

(** ** The interval evaluation without tree visits the slices that overlap the interval *)
Lemma filter_lt : forall x a b v, chain_from a x b -> a < v -> v <= b ->
  firstn (match nth_error x (time_to_index v x) with
          | Some s => if Reqb (s_lb s) v then time_to_index v x else S (time_to_index v x)
          | None => S (time_to_index v x) end) x = filter (fun s => Rltb (s_lb s) v) x.
Proof.
  induction x as [|s x IH]; intros a b v Hc Ha Hb; [destruct (match _ with Some _ => _ | None => _ end); auto|].
  cbn [chain_from] in Hc. destruct Hc as (<- & Hlt & Hc). cbn [filter]. rewrite (proj2 (Rltb_true (s_lb s) v)) by auto.
  cbn [time_to_index]. destruct (Rltb v (s_ub s)) eqn:E.
  - apply Rltb_true in E. cbn [nth_error]. rewrite (Reqb_f (s_lb s) v) by lra. cbn [firstn]. f_equal.
    symmetry. apply filter_none. intros s' Hs'. destruct (chain_in_bounds _ _ _ _ Hc Hs') as (B1 & _). apply Rltb_false. lra.
  - apply Rltb_false in E. destruct x as [|s2 x].
    + cbn [nth_error]. rewrite (Reqb_f (s_lb s) v) by lra. auto.
    + cbn [nth_error]. destruct (Req_dec (s_ub s) v) as [Ev|Hn].
      * assert (Hs2 : s_lb s2 = s_ub s) by apply Hc. assert (Hs3 : s_lb s2 < s_ub s2) by apply Hc.
        assert (Et : time_to_index v (s2 :: x) = 0%nat) by (cbn; rewrite (Rltb_t v (s_ub s2)) by lra; auto).
        rewrite Et. cbn [nth_error]. rewrite (Reqb_t (s_lb s2) v) by lra. cbn [firstn]. f_equal.
        symmetry. apply filter_none. intros s' Hs'. destruct (chain_in_bounds _ _ _ _ Hc Hs') as (B1 & _). apply Rltb_false. lra.
      * rewrite <- (IH (s_ub s) b v Hc) by lra.
        destruct (nth_error (s2 :: x) (time_to_index v (s2 :: x))) as [s'|]; [destruct (Reqb (s_lb s') v)|]; reflexivity.
Qed.
Lemma eval_itv_filter a b x u v : chain_from a x b -> x <> [] -> a <= u -> u < v -> v <= b ->
  eval_itv x (Itv (Some u) (Some v)) = hulls (map s_cod (filter (ov u v) x)).
Proof.
  intros Hc Hne Hu Huv Hv. unfold eval_itv. rewrite (chain_t0 x a b), (chain_tf x a b) by auto.
  rewrite (Rltb_f u a), (Rltb_f b v) by lra. rewrite (Reqb_f u v) by lra. cbn [orb]. rewrite fold_left_hull. cbn [hull].
  change (hull Emp (hulls (map s_cod (filter (ov u v) x)))) with (hulls (map s_cod (filter (ov u v) x))). f_equal. f_equal.
  clear Hne. revert a Hc Hu. induction x as [|s x IH]; intros a Hc Hu; [rewrite skipn_nil, firstn_nil; auto|].
  pose proof Hc as Hc0. cbn [chain_from] in Hc. destruct Hc as (<- & Hlt & Hc).
  destruct (Rltb u (s_ub s)) eqn:E.
  - apply Rltb_true in E. assert (Et : time_to_index u (s :: x) = 0%nat) by (cbn; rewrite (Rltb_t u (s_ub s)) by lra; auto).
    rewrite Et, Nat.sub_0_r. cbn [skipn]. rewrite (filter_lt (s :: x) (s_lb s) b v Hc0) by lra.
    apply filter_ext_in. intros s' Hs'. unfold ov. rewrite (Rltb_t u (s_ub s')); [rewrite andb_true_r; auto|].
    destruct Hs' as [<-|Hs']; auto. destruct (chain_in_bounds _ _ _ _ Hc Hs'). lra.
  - apply Rltb_false in E. cbn [filter]. rewrite (proj2 (ov_false u v s)) by auto.
    destruct x as [|s2 x]. { cbn in Hc. lra. }
    rewrite <- (IH (s_ub s) Hc) by lra.
    assert (Et : forall r, s_ub s <= r -> time_to_index r (s :: s2 :: x) = S (time_to_index r (s2 :: x))).
    { intros r Hr. cbn [time_to_index]. rewrite (Rltb_f r (s_ub s)) by lra. reflexivity. }
    rewrite !Et by lra. cbn [nth_error skipn].
    destruct (nth_error (s2 :: x) (time_to_index v (s2 :: x))) as [s'|]; [destruct (Reqb (s_lb s') v)|]; reflexivity.
Qed.

(** ** C13 *)
(** After any history, each query gives the result of the list of slices. *)
Section C13.
  Variables (a b : R) (x0 : tube) (h : list event).
  Hypothesis Hx0 : tube_ok a b x0.
  Let st := history x0 h.
  Let x := fst st.
  Let root := snd st.

  Lemma C13_inv : doms x = doms x0 /\ chain_from a x b /\ x <> [] /\ good x root /\ shape (skel root) 0 (doms x) /\ dchain a (doms x) b.
  Proof.
    destruct (inv_history x0 h (ok_ne _ _ _ Hx0)) as (E & Hg). fold st in E, Hg. fold x root in E, Hg.
    assert (C : chain_from a x b) by (eapply doms_chain; eauto; apply Hx0).
    split; auto. split; auto. split; [eapply doms_nil; eauto; apply (ok_ne _ _ _ Hx0)|]. split; auto. split; [apply Hg|]. apply dchain_of; auto.
  Qed.
  Theorem C13_slice : forall i, (i < length x)%nat -> tslice root i = i.
  Proof. intros i Hi. destruct C13_inv as (_ & _ & _ & _ & Hs & _). rewrite (tslice_ok root 0 (doms x)); auto. rewrite doms_len; auto. Qed.
  Theorem C13_time_to_index : forall t, a <= t <= b -> tindex root t = time_to_index t x.
  Proof. intros t Ht. destruct C13_inv as (_ & _ & _ & _ & Hs & Hd). rewrite (tindex_ok t root 0 (doms x) a b), dindex_doms; auto. lra. Qed.
  Theorem C13_slice_at : forall t, a <= t <= b -> nth_error x (tslice_t root t) = slice_at x t.
  Proof.
    intros t Ht. destruct C13_inv as (_ & Hc & Hne & _ & Hs & Hd). rewrite (tslice_t_ok t root 0 (doms x) a b), dindex_doms; auto.
    unfold slice_at, in_tdomain. rewrite (chain_t0 x a b), (chain_tf x a b) by auto. destruct x as [|s r] eqn:Ex; [congruence|]. rewrite <- Ex in *.
    rewrite (Rleb_t a t), (Rleb_t t b) by lra. cbn [andb Nat.add]. symmetry. apply slice_find_index. auto.
  Qed.
  Theorem C13_codomain : fst (q_codomain (x, root)) = codomain x.
  Proof.
    destruct C13_inv as (_ & Hc & Hne & Hg & Hs & Hd). cbn. rewrite (node_cod_ok x root [] root 0 (doms x)); auto.
    unfold codomain. rewrite fold_left_hull, doms_len, part_all. auto.
  Qed.
  Theorem C13_eval : forall t, wf t -> fst (q_eval (x, root) t) = eval_itv x t.
  Proof.
    intros t Hw. destruct C13_inv as (_ & Hc & Hne & Hg & Hs & Hd). unfold q_eval. cbn [fst snd].
    destruct (shape_bounds _ _ _ Hs _ _ Hd) as (B1 & B2).
    assert (T : forall sh, top x sh [] root t = (if is_empty t then (Emp, root)
      else if lb_lt t (m_lb (mem sh)) || ub_gt t (m_ub (mem sh)) then (ALL, root)
      else if is_degenerated t then (eval_t x (lo t), root) else top x sh [] root t)).
    { intros sh. destruct sh; cbn [top]; destruct (is_empty t); auto; destruct (_ || _); auto; destruct (is_degenerated t); auto. }
    destruct t as [|[u|] [v|]]; rewrite T; cbn [is_empty lb_lt ub_gt orb]; rewrite ?orb_true_r; auto.
    rewrite skel_lb, skel_ub, B1, B2.
    assert (V : u < v -> a <= u -> v <= b -> fst (top x root [] root (Itv (Some u) (Some v))) = eval_itv x (Itv (Some u) (Some v))).
    { intros V1 V2 V3. rewrite (eval_itv_filter a b) by auto.
      destruct (top_ok x root [] root 0 (doms x) a b u v Hs Hd (placed_all x) eq_refl Hg V1 V2 V3) as (R & _).
      rewrite R, doms_len, part_all. auto. }
    assert (U : eval_itv x (Itv (Some u) (Some v)) = if Rltb u a || Rltb b v then ALL else if Reqb u v then eval_t x u else eval_itv x (Itv (Some u) (Some v))).
    { unfold eval_itv. rewrite (chain_t0 x a b), (chain_tf x a b) by auto. destruct (_ || _); auto. destruct (Reqb u v); auto. }
    rewrite U.
    destruct (Rltb u a || Rltb b v) eqn:E; auto. apply orb_false_elim in E. destruct E as (E1 & E2). apply Rltb_false in E1. apply Rltb_false in E2.
    cbn [is_degenerated]. destruct (Reqb u v) eqn:Er; auto. apply Reqb_false in Er.
    cbn in Hw. apply V; lra.
  Qed.
  Theorem C13_invert_sound : forall f y search t, tube_ok a b x -> has x f -> a <= t <= b -> In t search -> In (f t) y ->
    In t (fst (q_invert (x, root) y search)).
  Proof.
    intros f y search t Ok Hf Ht Hin Hy. destruct C13_inv as (_ & Hc & Hne & Hg & Hs & Hd). unfold q_invert. cbn [fst snd].
    apply (tinvert_in x f y t) with (k := 0%nat) (d := doms x) (la := a) (lb := b); auto; [|apply placed_all].
    intros s Hsl. split; [eapply ok_in; eauto|auto].
  Qed.
End C13.

(** The index is not tested: [Tube::slice(int)] (codac_Tube.cpp 338-361) returns [nullptr] after the last slice
    without tree (its guard [slice_id < 0 && slice_id >= nb_slices()] is never true), and a slice with the tree
    (the assertion of line 228 is not compiled in release builds). *)
Theorem C13_range_refuted : exists a b x i, tube_ok a b x /\ nth_error x i = None /\ nth_error x (tslice (tree_of x) i) <> None.
Proof. exists 0, 2, tA, 7%nat. split; [apply tA_ok|]. split; [reflexivity|]. cbn. discriminate. Qed.

(** Inversions differ: the tree also looks at the slice that starts at the end of the search domain. *)
Lemma tree_tA : tree_of tA = Node 2 (fresh_memo 0 2) (Leaf 0 (fresh_memo 0 1)) (Leaf 1 (fresh_memo 1 2)).
Proof. reflexivity. Qed.
Lemma up_tA : update_values tA (tree_of tA) =
  Node 2 (mkM 0 2 false true (I2 0 3) (I2 0 2, I2 1 3) (ALL, ALL))
    (Leaf 0 (mkM 0 1 false true (I2 0 2) (I2 0 1, I2 1 2) (ALL, ALL)))
    (Leaf 1 (mkM 1 2 false true (I2 1 3) (I2 1 2, I2 2 3) (ALL, ALL))).
Proof.
  rewrite tree_tA. cbn. unfold put_vals, leaf_bounds, add_bounds, pair_hull, fresh_memo, pt. cbn. reval. unfold I2. reflexivity.
Qed.
Theorem C13_invert_refuted : exists a b x y search, tube_ok a b x /\
  fst (q_invert (history x []) y search) <> invert x y search.
Proof.
  exists 0, 2, tA, (I2 (5/2) 3), (I2 0 1). split; [apply tA_ok|].
  assert (E1 : invert tA (I2 (5/2) 3) (I2 0 1) = Emp).
  { unfold invert, tA, slice_invert, intersects, bnd, mk, s_dom. cbn. reval. unfold mk; cbn. reval. unfold slice_invert, intersects, s_dom; cbn. unfold mk. reval. auto. }
  rewrite E1. unfold q_invert, history. cbn [fold_left fst snd].
  assert (E2 : refresh tA (tree_of tA) [] = update_values tA (tree_of tA)) by reflexivity. rewrite up_tA in E2.
  rewrite tree_tA in E2 |- *. unfold I2. cbn [tinvert is_empty lb_lt ub_gt mem m_lb m_ub fresh_memo]. rewrite E2. clear E1 E2.
  do 6 (unfold refresh, node_cod, node_cb, inside_bounds, intersects, inter, bnd, mk, dom, I2; cbn; reval).
  discriminate.
Qed.

(** *** A concrete history *)
Definition hA : list event :=
  [Query QCodomain; Write (WSet 1 (I2 1 2)); Query (QBounds (I2 0 2)); Write (WIn 1 (I2 1 2) true); Query (QIntegral 0 2)].
Definition tube_step (x : tube) (e : event) : tube :=
  match e with Write w => if Nat.ltb (write_index w) (length x) then write_tube w x else x | Query _ => x end.
Lemma history_tube x h : fst (history x h) = fold_left tube_step h x.
Proof.
  unfold history. assert (G : forall h st, fst (fold_left step h st) = fold_left tube_step h (fst st)).
  { clear h. induction h as [|e h IH]; intros st; cbn [fold_left]; auto. rewrite IH. f_equal.
    destruct e as [w|[]]; cbn [step tube_step]; auto. destruct st as (y & root); cbn [fst snd]. destruct (Nat.ltb _ _); auto. }
  apply G.
Qed.
Lemma hA_tube : fst (history tA hA) = [mkS 0 1 (I2 0 2) (I2 0 1) (I2 1 2); mkS 1 2 (I2 1 2) (I2 1 2) (I2 1 2)].
Proof.
  rewrite history_tube. cbn. unfold Nat.ltb; cbn. reval. unfold mk. reval. unfold I2. reflexivity.
Qed.
Example C13_case : exists f, tube_ok 0 2 tA /\ tube_ok 0 2 (fst (history tA hA)) /\ has (fst (history tA hA)) f /\
  In (1/2) (fst (q_invert (history tA hA) (I2 (1/2) (3/2)) (I2 0 2))).
Proof.
  exists (fun _ => 1). rewrite hA_tube.
  assert (K : tube_ok 0 2 [mkS 0 1 (I2 0 2) (I2 0 1) (I2 1 2); mkS 1 2 (I2 1 2) (I2 1 2) (I2 1 2)]) by tube_ok_tac.
  assert (H : has [mkS 0 1 (I2 0 2) (I2 0 1) (I2 1 2); mkS 1 2 (I2 1 2) (I2 1 2) (I2 1 2)] (fun _ => 1)) by has_tac.
  split; [apply tA_ok|]. split; [auto|]. split; [auto|].
  replace (history tA hA) with (fst (history tA hA), snd (history tA hA)) by (destruct (history tA hA); auto).
  apply (C13_invert_sound 0 2 tA hA tA_ok (fun _ => 1)); rewrite ?hA_tube; auto; try lra; cbn; lra.
Qed.
Print Assumptions C13_eval.
Print Assumptions C13_codomain.
Print Assumptions C13_invert_sound.
Print Assumptions C13_time_to_index.
Print Assumptions C13_invert_refuted.
