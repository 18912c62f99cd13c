(** * C60: assignment of trajectories is memory safe and copies the value *)

From Coq Require Import Reals Lra List Arith Lia.
From Verif Require Import Itv Trajectory TrajFacts Concrete PropsTraj TrajMem.
Import ListNotations.
Open Scope R_scope.

(** ** What a program of values would do: objects are values, copied as a whole *)

Definition env := nat -> option traj.
Definition vexec (e : env) (op : mop) : env :=
  match op with
  | MFun i a b f => match e i with Some _ => e | None => upd e i (Some (traj_fun a b f)) end
  | MMap i m => match e i with Some _ => e | None => upd e i (Some (traj_map m)) end
  | MCopy i j => match e i, e j with None, Some x => upd e i (Some x) | _, _ => e end
  | MAssign i j => match e i, e j with Some _, Some x => upd e i (Some x) | _, _ => e end
  | MSample i dt => match e i with
                    | Some x => match traj_sample dt x with Some x' => upd e i (Some x') | None => e end
                    | None => e end
  | MDestroy i => upd e i None
  end.
Definition vrun (l : list mop) (e : env) : env := fold_left vexec l e.

(** the values of the objects of a memory *)
Definition same_values (s : mem) (e : env) : Prop :=
  forall i, match m_objs s i, e i with
            | None, None => True
            | Some o, Some x => view s o = Some x
            | _, _ => False
            end.

(** the programs without self-assignment and without assignment to an object sampled before *)
Definition disciplined (l : list mop) : Prop :=
  forall l1 i j l2, l = l1 ++ MAssign i j :: l2 -> i <> j /\ forall dt, ~ List.In (MSample i dt) l1.

(** ** Invariant *)

Record inv (d : list nat) (s : mem) (e : env) : Prop := mkInv {
  i_val : same_values s e;
  i_fresh : forall a, (m_next s <= a)%nat -> m_heap s a = None;
  i_old : forall i o a, m_objs s i = Some o -> o_ptr o = Some a -> (a < m_next s)%nat;
  i_live : forall i o a, m_objs s i = Some o -> o_ptr o = Some a -> ~ List.In i d -> m_heap s a <> None;
  i_sep : forall i j o p a, i <> j -> m_objs s i = Some o -> m_objs s j = Some p -> o_ptr o = Some a -> o_ptr p <> Some a }.

Lemma upd_eq {A} (f : nat -> option A) i v : upd f i v i = v.
Proof. unfold upd. rewrite Nat.eqb_refl. auto. Qed.
Lemma upd_neq {A} (f : nat -> option A) i j v : j <> i -> upd f i v j = f j.
Proof. intros H. unfold upd. rewrite (proj2 (Nat.eqb_neq j i)); auto. Qed.

Lemma view_heap s s' o : (forall a, o_ptr o = Some a -> m_heap s' a = m_heap s a) -> view s' o = view s o.
Proof.
  intros H. unfold view, deref. destruct (o_ana o); auto. destruct (o_ptr o) as [a|]; auto. rewrite H; auto.
Qed.

Lemma inv_empty d : inv d m_empty (fun _ => None).
Proof. split; try (intros; discriminate); auto. intros i. cbn. auto. Qed.

(** replacing the object i by one with a fresh block *)
Lemma inv_alloc d s e i f dm c m : inv d s e ->
  inv d (put_obj i (Some (mkO dm c true (Some (m_next s)) m)) (snd (alloc f s))) (upd e i (Some (mkT dm c (Some f) []))).
Proof.
  intros [V F O L S]. split.
  - intros j. cbn. destruct (Nat.eq_dec j i) as [->|N].
    + rewrite !upd_eq. unfold view, deref. cbn. rewrite upd_eq. auto.
    + rewrite !upd_neq by auto. specialize (V j). destruct (m_objs s j) as [o|] eqn:E; auto. destruct (e j); auto.
      rewrite <- V. apply view_heap. intros a Ha. cbn. apply upd_neq. pose proof (O _ _ _ E Ha). lia.
  - intros a Ha. cbn in *. rewrite upd_neq by lia. apply F. lia.
  - intros j o a E Ha. cbn in *. destruct (Nat.eq_dec j i) as [->|N].
    + rewrite upd_eq in E. injection E as <-. cbn in Ha. injection Ha as <-. lia.
    + rewrite upd_neq in E by auto. pose proof (O _ _ _ E Ha). lia.
  - intros j o a E Ha Hd. cbn in *. destruct (Nat.eq_dec j i) as [->|N].
    + rewrite upd_eq in E. injection E as <-. cbn in Ha. injection Ha as <-. rewrite upd_eq. discriminate.
    + rewrite upd_neq in E by auto. pose proof (O _ _ _ E Ha). rewrite upd_neq by lia. eauto.
  - intros j k o p a N Ej Ek Ha Hb. cbn in *. destruct (Nat.eq_dec j i) as [->|Nj], (Nat.eq_dec k i) as [->|Nk]; try congruence.
    + rewrite upd_eq in Ej. injection Ej as <-. cbn in Ha. injection Ha as <-. rewrite upd_neq in Ek by auto. pose proof (O _ _ _ Ek Hb). lia.
    + rewrite upd_eq in Ek. injection Ek as <-. cbn in Hb. injection Hb as <-. rewrite upd_neq in Ej by auto. pose proof (O _ _ _ Ej Ha). lia.
    + rewrite upd_neq in Ej, Ek by auto. apply (S j k o p a); auto.
Qed.

(** the block of an object is not released *)
Definition live (s : mem) (o : obj) : Prop := forall a, o_ptr o = Some a -> m_heap s a <> None.
Lemma ana_live s o x : view s o = Some x -> o_ana o = true -> live s o.
Proof. unfold view, deref. intros V E a Ha. rewrite E, Ha in V. destruct (m_heap s a); discriminate. Qed.

(** releasing the block of the object i, whose pointer is not used any more *)
Lemma release_ok s o : live s o ->
  exists s1, release (o_ptr o) s = Some s1 /\ m_next s1 = m_next s /\ m_objs s1 = m_objs s /\
    (forall a, m_heap s1 a = m_heap s a \/ m_heap s1 a = None) /\
    forall a, o_ptr o <> Some a -> m_heap s1 a = m_heap s a.
Proof.
  intros H. unfold release. destruct (o_ptr o) as [a|] eqn:Ea.
  - pose proof (H a Ea) as Hl. destruct (m_heap s a); [|congruence]. eexists. split; [reflexivity|]. cbn.
    split; auto. split; auto. split.
    + intros b. destruct (Nat.eq_dec b a) as [->|N]; [rewrite upd_eq; auto|rewrite upd_neq; auto].
    + intros b Hb. apply upd_neq. congruence.
  - exists s. auto 10.
Qed.
(** the invariant without the object i *)
Lemma inv_release d s e i o s1 : inv d s e -> m_objs s i = Some o -> live s o -> release (o_ptr o) s = Some s1 ->
  inv d (put_obj i None s1) (upd e i None).
Proof.
  intros I E Hi R. destruct (release_ok s o Hi) as (s1' & R' & N1 & O1 & H1 & K1). rewrite R in R'. injection R' as <-.
  destruct I as [V F O L S]. assert (K : forall j p a, j <> i -> m_objs s j = Some p -> o_ptr p = Some a -> m_heap s1 a = m_heap s a).
  { intros j p a N Ej Ha. apply K1. intros Hb. apply (S j i p o a); auto. }
  split.
  - intros j. cbn. destruct (Nat.eq_dec j i) as [->|N].
    + rewrite !upd_eq. auto.
    + rewrite !upd_neq by auto. rewrite O1. specialize (V j). destruct (m_objs s j) as [p|] eqn:Ej; auto. destruct (e j); auto.
      rewrite <- V. apply view_heap. intros a Ha. cbn. eauto.
  - intros a Ha. cbn in *. rewrite N1 in Ha. destruct (H1 a) as [->|]; auto.
  - intros j p a Ej Ha. cbn in *. rewrite N1. rewrite O1 in Ej. destruct (Nat.eq_dec j i) as [->|N]; [rewrite upd_eq in Ej; discriminate|].
    rewrite upd_neq in Ej by auto. eauto.
  - intros j p a Ej Ha Hd. cbn in *. rewrite O1 in Ej. destruct (Nat.eq_dec j i) as [->|N]; [rewrite upd_eq in Ej; discriminate|].
    rewrite upd_neq in Ej by auto. rewrite (K j p a); eauto.
  - intros j k p q a N Ej Ek Ha. cbn in *. rewrite O1 in Ej, Ek. destruct (Nat.eq_dec j i) as [->|Nj]; [rewrite upd_eq in Ej; discriminate|].
    destruct (Nat.eq_dec k i) as [->|Nk]; [rewrite upd_eq in Ek; discriminate|]. rewrite upd_neq in Ej, Ek by auto. eauto.
Qed.
(** forgetting an object *)
Lemma inv_forget d s e i : inv d s e -> inv d (put_obj i None s) (upd e i None).
Proof.
  intros [V F O L S]. split; auto.
  - intros j. cbn. destruct (Nat.eq_dec j i) as [->|N]; [rewrite !upd_eq; auto|rewrite !upd_neq by auto; apply V].
  - intros j p a Ej Ha. cbn in *. destruct (Nat.eq_dec j i) as [->|N]; [rewrite upd_eq in Ej; discriminate|rewrite upd_neq in Ej by auto; eauto].
  - intros j p a Ej Ha Hd. cbn in *. destruct (Nat.eq_dec j i) as [->|N]; [rewrite upd_eq in Ej; discriminate|rewrite upd_neq in Ej by auto; eauto].
  - intros j k p q a N Ej Ek Ha. cbn in *. destruct (Nat.eq_dec j i) as [->|Nj]; [rewrite upd_eq in Ej; discriminate|].
    destruct (Nat.eq_dec k i) as [->|Nk]; [rewrite upd_eq in Ek; discriminate|]. rewrite upd_neq in Ej, Ek by auto. eauto.
Qed.
(** rewriting an object with a map, its pointer being null, its own, or released (then in d) *)
Lemma inv_map d s e i o dm c p m : inv d s e -> m_objs s i = Some o -> (p = None \/ p = o_ptr o) ->
  inv d (put_obj i (Some (mkO dm c false p m)) s) (upd e i (Some (mkT dm c None m))).
Proof.
  intros [V F O L S] E Hp. split; auto.
  - intros j. cbn. destruct (Nat.eq_dec j i) as [->|N]; [rewrite !upd_eq; reflexivity|rewrite !upd_neq by auto; apply V].
  - intros j q a Ej Ha. cbn in *. destruct (Nat.eq_dec j i) as [->|N]; [rewrite upd_eq in Ej|rewrite upd_neq in Ej by auto; eauto].
    injection Ej as <-. cbn in Ha. destruct Hp as [->| ->]; [discriminate|eauto].
  - intros j q a Ej Ha Hd. cbn in *. destruct (Nat.eq_dec j i) as [->|N]; [rewrite upd_eq in Ej|rewrite upd_neq in Ej by auto; eauto].
    injection Ej as <-. cbn in Ha. destruct Hp as [->| ->]; [discriminate|eauto].
  - intros j k q r a N Ej Ek Ha Hb. cbn in *. destruct (Nat.eq_dec j i) as [->|Nj], (Nat.eq_dec k i) as [->|Nk]; try congruence.
    + rewrite upd_eq in Ej. injection Ej as <-. rewrite upd_neq in Ek by auto. cbn in Ha. destruct Hp as [->| ->]; [discriminate|]. apply (S i k o r a); auto.
    + rewrite upd_eq in Ek. injection Ek as <-. rewrite upd_neq in Ej by auto. cbn in Hb. destruct Hp as [->| ->]; [discriminate|]. apply (S i j o q a); auto.
    + rewrite upd_neq in Ej, Ek by auto. apply (S j k q r a); auto.
Qed.
Lemma inv_ext d s e e' : inv d s e -> (forall i, e' i = e i) -> inv d s e'.
Proof. intros [V F O L S] H. split; auto. intros i. rewrite H. apply V. Qed.
Lemma inv_mono d d' s e : inv d s e -> incl d d' -> inv d' s e.
Proof. intros [V F O L S] H. split; eauto. Qed.
Lemma upd_upd {A} (f : nat -> option A) i u v j : upd (upd f i u) i v j = upd f i v j.
Proof. unfold upd. destruct (Nat.eqb j i); auto. Qed.

Lemma inv_val d s e i o : inv d s e -> m_objs s i = Some o -> exists x, e i = Some x /\ view s o = Some x.
Proof. intros I E. pose proof (i_val _ _ _ I i) as V. rewrite E in V. destruct (e i) as [x|]; [eauto|destruct V]. Qed.
Lemma inv_none d s e i : inv d s e -> m_objs s i = None -> e i = None.
Proof. intros I E. pose proof (i_val _ _ _ I i) as V. rewrite E in V. destruct (e i); auto. destruct V. Qed.

Lemma assign_ok d s e i j : inv d s e -> (forall o, m_objs s i = Some o -> live s o) -> i <> j ->
  exists s', assign i j s = Some s' /\ inv d s' (vexec e (MAssign i j)).
Proof.
  intros I Hi N. unfold assign. cbn [vexec]. destruct (m_objs s i) as [o|] eqn:Ei.
  2:{ rewrite (inv_none _ _ _ _ I Ei). exists s. auto. }
  destruct (inv_val _ _ _ _ _ I Ei) as (xi & -> & _). destruct (m_objs s j) as [x|] eqn:Ej.
  2:{ rewrite (inv_none _ _ _ _ I Ej). exists s. auto. }
  destruct (inv_val _ _ _ _ _ I Ej) as (xj & -> & Vj). unfold view in Vj. destruct (o_ana x).
  - destruct (release_ok s o (Hi o eq_refl)) as (s1 & R & N1 & O1 & _ & K1). rewrite R.
    destruct (deref (o_ptr x) s) as [f|] eqn:D; [|discriminate]. injection Vj as <-.
    assert (D1 : deref (o_ptr x) s1 = Some f).
    { unfold deref in *. destruct (o_ptr x) as [a|] eqn:Ea; [|discriminate]. rewrite K1; auto. intros Hb. apply (i_sep _ _ _ I i j o x a); auto. }
    rewrite D1. unfold alloc. cbn zeta. eexists. split; [reflexivity|].
    pose proof (inv_release _ _ _ _ _ _ I Ei (Hi o eq_refl) R) as I1.
    pose proof (inv_alloc _ _ _ i f (o_dom x) (o_cod x) (o_map o) I1) as I2'.
    destruct I2' as [V F O L S]. cbn in *. split; cbn.
    + intros k. specialize (V k). cbn in *. rewrite !upd_upd in V. auto.
    + auto.
    + intros k q a. specialize (O k q a). rewrite upd_upd in O. auto.
    + intros k q a. specialize (L k q a). rewrite upd_upd in L. auto.
    + intros k l q r a. specialize (S k l q r a). rewrite !upd_upd in S. auto.
  - injection Vj as <-. eexists. split; [reflexivity|]. apply inv_map with o; auto.
Qed.

Lemma inv_new d s e i : inv d s e -> m_objs s i = None -> inv d (put_obj i (Some o_new) s) (upd e i (Some traj_new)).
Proof.
  intros [V F O L S] E. split; auto.
  - intros j. cbn. destruct (Nat.eq_dec j i) as [->|N]; [rewrite !upd_eq; reflexivity|rewrite !upd_neq by auto; apply V].
  - intros j q a Ej Ha. cbn in *. destruct (Nat.eq_dec j i) as [->|N]; [rewrite upd_eq in Ej|rewrite upd_neq in Ej by auto; eauto].
    injection Ej as <-. discriminate.
  - intros j q a Ej Ha Hd. cbn in *. destruct (Nat.eq_dec j i) as [->|N]; [rewrite upd_eq in Ej|rewrite upd_neq in Ej by auto; eauto].
    injection Ej as <-. discriminate.
  - intros j k q r a N Ej Ek Ha Hb. cbn in *. destruct (Nat.eq_dec j i) as [->|Nj]; [rewrite upd_eq in Ej; injection Ej as <-; discriminate|].
    destruct (Nat.eq_dec k i) as [->|Nk]; [rewrite upd_eq in Ek; injection Ek as <-; discriminate|].
    rewrite upd_neq in Ej, Ek by auto. apply (S j k q r a); auto.
Qed.
(** an object sampled: the block is released and the pointer kept *)
Lemma inv_sample d s e i o dm c m s1 : inv d s e -> m_objs s i = Some o -> live s o -> release (o_ptr o) s = Some s1 ->
  inv (i :: d) (put_obj i (Some (mkO dm c false (o_ptr o) m)) s1) (upd e i (Some (mkT dm c None m))).
Proof.
  intros I E Hl R. destruct (release_ok s o Hl) as (s1' & R' & N1 & O1 & H1 & K1). rewrite R in R'. injection R' as <-.
  destruct I as [V F O L S]. assert (K : forall j p a, j <> i -> m_objs s j = Some p -> o_ptr p = Some a -> m_heap s1 a = m_heap s a).
  { intros j p a N Ej Ha. apply K1. intros Hb. apply (S j i p o a); auto. }
  split.
  - intros j. cbn. destruct (Nat.eq_dec j i) as [->|N].
    + rewrite !upd_eq. reflexivity.
    + rewrite !upd_neq by auto. rewrite O1. specialize (V j). destruct (m_objs s j) as [p|] eqn:Ej; auto. destruct (e j); auto.
      rewrite <- V. apply view_heap. intros a Ha. cbn. eauto.
  - intros a Ha. cbn in *. rewrite N1 in Ha. destruct (H1 a) as [->|]; auto.
  - intros j p a Ej Ha. cbn in *. rewrite N1. rewrite O1 in Ej. destruct (Nat.eq_dec j i) as [->|N].
    + rewrite upd_eq in Ej. injection Ej as <-. cbn in Ha. eauto.
    + rewrite upd_neq in Ej by auto. eauto.
  - intros j p a Ej Ha Hd. cbn in *. rewrite O1 in Ej. destruct (Nat.eq_dec j i) as [->|N]; [exfalso; auto|].
    rewrite upd_neq in Ej by auto. rewrite (K j p a); eauto.
  - intros j k p q a N Ej Ek Ha Hb. cbn in *. rewrite O1 in Ej, Ek. destruct (Nat.eq_dec j i) as [->|Nj], (Nat.eq_dec k i) as [->|Nk]; try congruence.
    + rewrite upd_eq in Ej. injection Ej as <-. rewrite upd_neq in Ek by auto. apply (S i k o q a); auto.
    + rewrite upd_eq in Ek. injection Ek as <-. rewrite upd_neq in Ej by auto. apply (S i j o p a); auto.
    + rewrite upd_neq in Ej, Ek by auto. apply (S j k p q a); auto.
Qed.
Lemma inv_fresh_map d s e i x : inv d s e -> m_objs s i = None -> t_fun x = None ->
  inv d (put_obj i (Some (mkO (t_dom x) (t_cod x) false None (t_map x))) s) (upd e i (Some x)).
Proof.
  intros I E Hf. pose proof (inv_new _ _ _ _ I E) as I1.
  assert (E1 : m_objs (put_obj i (Some o_new) s) i = Some o_new) by (cbn; apply upd_eq).
  pose proof (inv_map _ _ _ i o_new (t_dom x) (t_cod x) None (t_map x) I1 E1 (or_introl eq_refl)) as [V F O L S]. cbn in *.
  destruct x as [dm c f m]. cbn in *. subst f. split; cbn.
  - intros k. specialize (V k). cbn in *. rewrite !upd_upd in V. auto.
  - auto.
  - intros k q a. specialize (O k q a). rewrite upd_upd in O. auto.
  - intros k q a. specialize (L k q a). rewrite upd_upd in L. auto.
  - intros k l q r a. specialize (S k l q r a). rewrite !upd_upd in S. auto.
Qed.
Lemma sample_shape dt x x' : traj_sample dt x = Some x' -> x' = mkT (t_dom x) (t_cod x) None (t_map x').
Proof.
  unfold traj_sample. destruct (t_dom x) as [|[a|] [b|]]; try discriminate. destruct (Rltb 0 dt); [|discriminate].
  destruct (sample_loop _ _ _ _ _ _); [|discriminate]. destruct (traj_at x b); [|discriminate]. intros E. injection E as <-. auto.
Qed.
Lemma view_dom s o x : view s o = Some x -> t_dom x = o_dom o /\ t_cod x = o_cod o.
Proof. unfold view. destruct (o_ana o); [destruct (deref _ _)|]; intros E; try discriminate; injection E as <-; auto. Qed.

Lemma mexec_ok d s e op : inv d s e -> (forall i j, op = MAssign i j -> i <> j /\ ~ List.In i d) ->
  exists s', mexec s op = Some s' /\ inv (match op with MSample i _ => i :: d | _ => d end) s' (vexec e op).
Proof.
  intros I H. destruct op as [i a b f|i m|i j|i j|i dt|i]; cbn [mexec].
  - destruct (m_objs s i) as [o|] eqn:Ei; cbn [vexec].
    + destruct (inv_val _ _ _ _ _ I Ei) as (xi & -> & _). eauto.
    + rewrite (inv_none _ _ _ _ I Ei). unfold alloc. cbn zeta. eexists. split; [reflexivity|].
      apply (inv_alloc _ _ _ i f (bnd a b) (f_itv f (bnd a b)) [] I).
  - destruct (m_objs s i) as [o|] eqn:Ei; cbn [vexec].
    + destruct (inv_val _ _ _ _ _ I Ei) as (xi & -> & _). eauto.
    + rewrite (inv_none _ _ _ _ I Ei). eexists. split; [reflexivity|]. apply (inv_fresh_map _ _ _ i (traj_map m)); auto.
      destruct m as [|[k v] m]; auto.
  - destruct (m_objs s i) as [o|] eqn:Ei; cbn [vexec].
    { destruct (inv_val _ _ _ _ _ I Ei) as (xi & -> & _). eauto. }
    rewrite (inv_none _ _ _ _ I Ei). destruct (m_objs s j) as [x|] eqn:Ej.
    2:{ rewrite (inv_none _ _ _ _ I Ej). eauto. }
    destruct (inv_val _ _ _ _ _ I Ej) as (xj & Ex & Vj). rewrite Ex.
    assert (N : i <> j) by congruence.
    destruct (assign_ok d _ _ i j (inv_new _ _ _ _ I Ei)) as (s' & E' & I'); auto.
    { intros o Eo. cbn in Eo. rewrite upd_eq in Eo. injection Eo as <-. intros a Ha. discriminate. }
    exists s'. split; auto. apply (inv_ext _ _ _ _ I'). intros k. cbn [vexec]. rewrite upd_eq, (upd_neq e i j), Ex, upd_upd by auto. auto.
  - destruct (H i j eq_refl) as [N Hd]. apply assign_ok; auto. intros o Ei a Ha. apply (i_live _ _ _ I _ _ _ Ei Ha Hd).
  - destruct (m_objs s i) as [o|] eqn:Ei; cbn [vexec].
    2:{ rewrite (inv_none _ _ _ _ I Ei). exists s. split; auto. apply (inv_mono d); auto. red; intros; right; auto. }
    destruct (inv_val _ _ _ _ _ I Ei) as (x & -> & Vx). rewrite Vx. destruct (traj_sample dt x) as [x'|] eqn:Es.
    2:{ exists s. split; auto. apply (inv_mono d); auto. red; intros; right; auto. }
    pose proof (sample_shape _ _ _ Es) as Sh. destruct (view_dom _ _ _ Vx) as [D C]. rewrite D, C in Sh. rewrite Sh. cbn [t_map].
    destruct (o_ana o) eqn:Ea.
    + pose proof (ana_live _ _ _ Vx Ea) as Hl. destruct (release_ok _ _ Hl) as (s1 & R & _). rewrite R. eexists. split; [reflexivity|].
      apply inv_sample with s; auto.
    + eexists. split; [reflexivity|]. apply (inv_mono d); [|red; intros; right; auto]. apply inv_map with o; auto.
  - destruct (m_objs s i) as [o|] eqn:Ei; cbn [vexec].
    2:{ exists s. split; auto. apply (inv_ext _ _ _ _ I). intros k. unfold upd. destruct (Nat.eqb_spec k i) as [->|]; auto. symmetry. apply (inv_none _ _ _ _ I Ei). }
    destruct (inv_val _ _ _ _ _ I Ei) as (x & _ & Vx). destruct (o_ana o) eqn:Ea.
    + pose proof (ana_live _ _ _ Vx Ea) as Hl. destruct (release_ok _ _ Hl) as (s1 & R & _). rewrite R. eexists. split; [reflexivity|].
      apply inv_release with s o; auto.
    + eexists. split; [reflexivity|]. apply inv_forget; auto.
Qed.

Lemma mrun_ok : forall l d s e l0, inv d s e -> (forall i, List.In i d -> exists dt, List.In (MSample i dt) l0) ->
  disciplined (l0 ++ l) -> exists s', mrun l s = Some s' /\ exists d', inv d' s' (vrun l e).
Proof.
  induction l as [|op l IH]; intros d s e l0 I Hd D; cbn [mrun]; [exists s; split; auto; exists d; auto|].
  destruct (mexec_ok d s e op I) as (s1 & E1 & I1).
  { intros i j ->. destruct (D l0 i j l eq_refl) as [N Hs]. split; auto. intros Hi. destruct (Hd i Hi) as [dt Ht]. apply (Hs dt Ht). }
  rewrite E1. apply (IH _ _ _ (l0 ++ [op]) I1).
  - intros i Hi. assert (G : (exists dt, op = MSample i dt) \/ List.In i d).
    { destruct op; auto. destruct Hi as [->|Hi]; eauto. }
    destruct G as [[dt ->]|G].
    + exists dt. apply in_or_app. right; left; auto.
    + destruct (Hd i G) as [dt Ht]. exists dt. apply in_or_app. auto.
  - rewrite <- app_assoc. exact D.
Qed.

(** ** C60 *)

(** Every program in which no object is assigned to itself, and in which an object that was sampled is
    not assigned to afterwards, is free of undefined behaviour, and its objects have the values that
    the program gives when the objects are values. *)
Theorem C60_partial l : disciplined l -> exists s, mrun l m_empty = Some s /\ same_values s (vrun l (fun _ => None)).
Proof.
  intros D. destruct (mrun_ok l [] m_empty (fun _ => None) []) as (s & E & d & I); auto using inv_empty.
  - intros i [].
  - exists s. split; auto. apply (i_val _ _ _ I).
Qed.
Definition fid : tfun := mkF (fun t => t) (fun i => i).
Example C60_case : disciplined [MFun 0 0 2 fid; MCopy 1 0; MSample 1 1; MMap 2 mE; MAssign 0 2; MAssign 0 1; MDestroy 1; MAssign 2 0; MSample 0 1].
Proof.
  intros l1 i j l2 E.
  do 9 (destruct l1 as [|? l1]; cbn [app] in E;
    [first [discriminate E
           |injection E as <- <- _; split; [discriminate|intros dt Hin; cbn in Hin; repeat (destruct Hin as [Hin|Hin]; [discriminate Hin|]); exact Hin]]
    |injection E as <- E]).
  destruct l1; discriminate.
Qed.

(** An analytic trajectory that was sampled keeps the pointer to its released expression: assigning an
    analytic trajectory to it releases the expression twice.  x is analytic, x.sample(1), x = y. *)
Lemma sample_fid : exists x', traj_sample 1 (traj_fun 0 1 fid) = Some x'.
Proof.
  unfold traj_sample. assert (Ed : t_dom (traj_fun 0 1 fid) = Itv (Some 0) (Some 1)) by (cbn; unfold bnd, mk; reval; auto). rewrite Ed, (Rltb_t 0 1) by lra.
  assert (K : forall n t m, 0 <= t -> exists m', sample_loop n (traj_fun 0 1 fid) t 1 1 m = Some m').
  { induction n as [|n IH]; intros t m Ht; cbn [sample_loop]; eauto. destruct (Rltb t 1) eqn:El; eauto. apply Rltb_true in El.
    unfold sample_key. destruct (lookup t m); [apply IH; lra|]. unfold traj_at. cbn [traj_fun t_dom]. rewrite (proj2 (contains_true _ _)); [|apply In_bnd; lra].
    cbn [t_fun f_pt]. apply IH; lra. }
  destruct (K (S (Z.to_nat (up ((1 - 0) / 1)))) 0 (sample_start (traj_fun 0 1 fid))) as [m' Em]; [lra|]. rewrite Em.
  unfold traj_at. cbn [traj_fun t_dom]. rewrite (proj2 (contains_true _ _)); [|apply In_bnd; lra]. cbn [t_fun traj_fun]. eauto.
Qed.
Theorem C60_refuted : mrun [MFun 0 0 1 fid; MFun 1 0 1 fid; MSample 0 1; MAssign 0 1] m_empty = None.
Proof.
  destruct sample_fid as [x' Es]. cbn -[traj_sample bnd].
  change (mkT (bnd 0 1) (bnd 0 1) (Some fid) []) with (traj_fun 0 1 fid). rewrite Es. reflexivity.
Qed.
(** assigning an analytic trajectory to itself reads its released expression *)
Theorem C60_self_refuted : mrun [MFun 0 0 1 fid; MAssign 0 0] m_empty = None.
Proof. reflexivity. Qed.
(** assigning a sampled trajectory to an analytic one never releases the expression of the latter: there
    is a program whose objects are all destroyed and that still owns a block *)
Theorem C60_leak_refuted : exists s a, mrun [MFun 0 0 1 fid; MMap 1 mE; MAssign 0 1; MDestroy 0; MDestroy 1] m_empty = Some s /\
  (forall i, m_objs s i = None) /\ m_heap s a <> None.
Proof.
  eexists. exists 0%nat. split; [reflexivity|]. split; [|discriminate].
  intros i. cbn. unfold upd. destruct (Nat.eqb i 1); auto. destruct (Nat.eqb i 0); auto.
Qed.
(** assigning a vector of trajectories to itself replaces its components by empty trajectories;
    assigning another one copies it *)
Theorem C60_vector_partial s i j x y : i <> j -> s i = Some x -> s j = Some y ->
  vec_assign i j s i = Some y /\ forall k, k <> i -> vec_assign i j s k = s k.
Proof.
  intros N Ei Ej. unfold vec_assign. rewrite Ei, Ej, upd_neq, Ej by auto. split; [apply upd_eq|]. intros k Hk. rewrite !upd_neq; auto.
Qed.
Theorem C60_vector_refuted : exists s x, s 0%nat = Some [x] /\ vec_assign 0 0 s 0%nat <> Some [x].
Proof.
  exists (fun i => match i with O => Some [traj_map mE] | _ => None end), (traj_map mE). split; auto.
  unfold vec_assign. cbn. intros E. injection E as E. discriminate.
Qed.

Print Assumptions C60_partial.
Print Assumptions C60_refuted.
