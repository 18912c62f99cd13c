(** * Contractor network: properties C28 (no loss), C29 (contraction), C30 (queue), C31 (fixed point) *)

From Coq Require Import Reals Lra Bool List Arith Lia FunctionalExtensionality.
Import ListNotations.
From Verif Require Import Itv Concrete PropsDyn2 Static PropsStatic CN.
Open Scope R_scope.

Lemma has_spec c l : has c l = true <-> List.In c l.
Proof.
  unfold has. rewrite existsb_exists. split.
  - intros (x & Hx & E). apply Nat.eqb_eq in E. subst; auto.
  - intros Hc. exists c. split; auto. apply Nat.eqb_refl.
Qed.
Lemma upd_same {A} (f : nat -> A) i v : upd f i v i = v.
Proof. unfold upd. rewrite Nat.eqb_refl. auto. Qed.
Lemma upd_other {A} (f : nat -> A) i v j : j <> i -> upd f i v j = f j.
Proof. intros Hn. unfold upd. destruct (Nat.eqb_spec j i); congruence. Qed.

Section Generic.
  Variable H : Type.
  Variable run : nat -> H -> H.
  Variable volume : nat -> H -> vol.
  Variable typ : nat -> ctype.
  Variable cdoms dctcs dcomps : nat -> list nat.
  Variable ratio : R.
  Notation state := (CN.state H).
  Notation step := (CN.step H run volume typ cdoms dctcs dcomps ratio).
  Notation loop := (CN.loop H run volume typ cdoms dctcs dcomps ratio).
  Notation contract := (CN.contract H run volume typ cdoms dctcs dcomps ratio).
  Notation trigger := (CN.trigger H volume typ dctcs dcomps ratio).
  Notation trigger1 := (CN.trigger1 H volume typ dctcs ratio).
  Notation trigger_all := (CN.trigger_all H typ).
  Notation add_ctc := (CN.add_ctc H typ).
  Notation ordered := (CN.ordered H run volume cdoms ratio).
  Notation ordered_iter := (CN.ordered_iter H run volume cdoms ratio).
  Notation exec := (CN.exec H run volume typ cdoms dctcs dcomps ratio).
  Notation apply := (CN.apply H run volume typ cdoms dctcs dcomps ratio).
  Notation save_volumes := (CN.save_volumes H volume).
  Notation heap := (CN.heap H).
  Notation active := (CN.active H).
  Notation saved := (CN.saved H).
  Notation deque := (CN.deque H).
  Notation known := (CN.known H).
  Notation activate := (CN.activate typ).
  Notation enqueue := (CN.add_ctc_to_queue typ).

  (** ** The memory changes by calls of contractors only *)
  Lemma trigger1_heap d a s : heap (trigger1 d a s) = heap s /\ known (trigger1 d a s) = known s.
  Proof. unfold trigger1. destruct (shrunk _ _ _); [destruct (activate _ _ _ _)|]; auto. Qed.
  Lemma trigger1s_heap a l : forall s, heap (fold_left (fun s i => trigger1 i a s) l s) = heap s
    /\ known (fold_left (fun s i => trigger1 i a s) l s) = known s.
  Proof.
    induction l as [|d l IH]; intros s; cbn [fold_left]; auto.
    destruct (IH (trigger1 d a s)) as (-> & ->). apply trigger1_heap.
  Qed.
  (** the sequence of single-domain triggers of one call *)
  Definition touched (c : nat) : list nat := flat_map (fun d => d :: dcomps d) (cdoms c).
  Lemma triggers_flat a l : forall s, fold_left (fun s d => trigger d a s) l s
    = fold_left (fun s i => trigger1 i a s) (flat_map (fun d => d :: dcomps d) l) s.
  Proof.
    induction l as [|d l IH]; intros s; auto.
    change (flat_map (fun d => d :: dcomps d) (d :: l)) with ((d :: dcomps d) ++ flat_map (fun d => d :: dcomps d) l).
    rewrite fold_left_app. cbn [fold_left]. rewrite IH. unfold trigger. reflexivity.
  Qed.
  Definition called (c : nat) (q : list nat) (s : state) : state :=
    CN.mkSt H (run c (heap s)) (if is_cn (typ c) then active s else upd (active s) c false) (saved s) q (known s).
  Lemma step_eq c q s : deque s = c :: q ->
    step s = fold_left (fun s i => trigger1 i (Some c) s) (touched c) (called c q s).
  Proof. intros E. unfold step. rewrite E. rewrite triggers_flat. reflexivity. Qed.
  Lemma step_heap c q s : deque s = c :: q -> heap (step s) = run c (heap s) /\ known (step s) = known s.
  Proof. intros E. rewrite (step_eq c q s E). destruct (trigger1s_heap (Some c) (touched c) (called c q s)) as (-> & ->). auto. Qed.

  Lemma trigger_heap d a s : heap (trigger d a s) = heap s /\ known (trigger d a s) = known s.
  Proof.
    unfold trigger. destruct (trigger1s_heap a (dcomps d) (trigger1 d a s)) as (-> & ->). apply trigger1_heap.
  Qed.
  Lemma trigger_all_heap s : heap (trigger_all s) = heap s /\ known (trigger_all s) = known s.
  Proof.
    unfold trigger_all. set (s0 := CN.mkSt H (heap s) (active s) (saved s) [] (known s)).
    enough (G : forall l s0, heap (fold_left (fun s c =>
      if is_contracting (typ c) then CN.mkSt H (heap s) (upd (active s) c true) (saved s) (enqueue c (deque s)) (known s)
      else CN.mkSt H (heap s) (upd (active s) c false) (saved s) (deque s) (known s)) l s0) = heap s0
      /\ known (fold_left (fun s c =>
      if is_contracting (typ c) then CN.mkSt H (heap s) (upd (active s) c true) (saved s) (enqueue c (deque s)) (known s)
      else CN.mkSt H (heap s) (upd (active s) c false) (saved s) (deque s) (known s)) l s0) = known s0) by (apply (G (known s) s0)).
    induction l as [|c l IH]; intros s1; cbn [fold_left]; auto.
    destruct (is_contracting (typ c)); edestruct IH as (E1 & E2); rewrite E1, E2; auto.
  Qed.
  Lemma add_heap c s : heap (add_ctc c s) = heap s.
  Proof. unfold add_ctc. destruct (has _ _); auto. Qed.

  (** ** Queue invariant *)
  Definition subset (a b : list nat) := forall x, List.In x a -> List.In x b.
  Definition queue_ok (s : state) : Prop :=
    NoDup (deque s) /\ NoDup (known s) /\
    (forall c, List.In c (deque s) -> active s c = true) /\
    (forall c, active s c = true -> List.In c (known s)) /\
    (forall c, active s c = true -> typ c <> T_CN -> List.In c (deque s)).

  Lemma enqueue_in c q x : List.In x (enqueue c q) <-> x = c \/ List.In x q.
  Proof. unfold enqueue. destruct (is_component _); [rewrite in_app_iff|]; cbn; intuition. Qed.
  Lemma enqueue_nodup c q : ~ List.In c q -> NoDup q -> NoDup (enqueue c q).
  Proof.
    intros Hn Hd. unfold enqueue. destruct (is_component _); [|constructor; auto].
    apply NoDup_Add with (a := c) (l := q). { rewrite <- (app_nil_r q) at 1. apply Add_app. } auto.
  Qed.
  Lemma push_all (l : list nat) : forall q : list nat, fold_left (fun q c => c :: q) l q = rev l ++ q.
  Proof. induction l as [|c l IH]; intros q; cbn [fold_left rev]; auto. rewrite IH, <- app_assoc. reflexivity. Qed.

  (** contractors activated: those of the list, not avoided and not active *)
  Lemma activate_spec a : forall l act local act' local', activate l a act local = (act', local') ->
    NoDup local -> (forall c, List.In c local -> act c = true) ->
    NoDup local' /\ (forall c, List.In c local' <-> List.In c local \/ (act' c = true /\ act c = false)) /\
    (forall c, act c = true -> act' c = true) /\
    (forall c, act' c = true -> act c = true \/ List.In c l) /\
    (forall c, List.In c l -> a <> Some c -> act' c = true).
  Proof.
    induction l as [|c l IH]; intros act local act' local' E Hd Hl; cbn [CN.activate] in E.
    { inversion E; subst. split; [auto|split; [|split; [auto|split; [auto|intros c []]]]].
      intros c. split; auto. intros [Hc|[H1 H2]]; [auto|congruence]. }
    set (av := match a with Some a => Nat.eqb c a | None => false end) in E.
    assert (Hav : av = true <-> a = Some c).
    { unfold av. destruct a as [n|]; [|intuition discriminate]. rewrite Nat.eqb_eq. intuition congruence. }
    destruct (negb av && negb (act c)) eqn:Ec.
    - apply andb_true_iff in Ec. destruct Ec as [E1 E2]. rewrite negb_true_iff in E1, E2.
      assert (Hc : ~ List.In c local) by (intros Hc; apply Hl in Hc; congruence).
      destruct (IH _ _ _ _ E) as (I1 & I2 & I3 & I4 & I5).
      { apply enqueue_nodup; auto. }
      { intros x Hx. apply enqueue_in in Hx. destruct (Nat.eq_dec x c) as [->|Hn]; [apply upd_same|].
        rewrite upd_other by auto. apply Hl. destruct Hx; [congruence|auto]. }
      repeat split; auto.
      + intros Hx. apply I2 in Hx. destruct Hx as [Hx|[Hx Hu]].
        * apply enqueue_in in Hx. destruct Hx as [->|Hx]; auto. right. split; auto. apply I3, upd_same.
        * destruct (Nat.eq_dec c0 c) as [->|Hn]; [rewrite upd_same in Hu; discriminate|]. rewrite upd_other in Hu by auto. auto.
      + intros Hx. apply I2. rewrite enqueue_in. destruct (Nat.eq_dec c0 c) as [->|Hn]; auto.
        rewrite upd_other by auto. tauto.
      + intros x Hx. apply I3. destruct (Nat.eq_dec x c) as [->|Hn]; [apply upd_same|rewrite upd_other; auto].
      + intros x Hx. apply I4 in Hx. destruct Hx as [Hx|Hx]; [|right; right; auto].
        destruct (Nat.eq_dec x c) as [->|Hn]; [right; left; auto|]. rewrite upd_other in Hx; auto.
      + intros x [<-|Hx] Ha; auto. apply I3, upd_same.
    - destruct (IH _ _ _ _ E Hd Hl) as (I1 & I2 & I3 & I4 & I5). repeat split; auto; try apply I2.
      + intros x Hx. apply I4 in Hx. cbn. tauto.
      + intros x [<-|Hx] Ha; auto. apply I3. apply andb_false_iff in Ec. rewrite !negb_false_iff in Ec.
        destruct Ec as [Ec|Ec]; auto. apply Hav in Ec. congruence.
  Qed.

  (** what one trigger does *)
  Lemma trigger1_spec d a s : queue_ok s -> queue_ok (trigger1 d a s) /\
    (forall c, active s c = true -> active (trigger1 d a s) c = true) /\
    (shrunk ratio (volume d (heap s)) (saved s d) = true ->
       forall c, List.In c (dctcs d) -> List.In c (known s) -> a <> Some c -> active (trigger1 d a s) c = true) /\
    saved (trigger1 d a s) d = volume d (heap s) /\
    (forall e, e <> d -> saved (trigger1 d a s) e = saved s e).
  Proof.
    intros (Q1 & Q2 & Q3 & Q4 & Q5). unfold trigger1.
    destruct (shrunk _ _ _) eqn:Es.
    2:{ cbn. repeat split; auto; try discriminate; [apply upd_same|intros; apply upd_other; auto]. }
    destruct (activate _ _ _ _) as [act' local'] eqn:Ea.
    destruct (activate_spec a _ _ _ _ _ Ea) as (I1 & I2 & I3 & I4 & I5); [constructor|intros c []|].
    assert (I2' : forall c, List.In c local' <-> act' c = true /\ active s c = false).
    { intros c. rewrite I2. cbn. tauto. }
    rewrite push_all. unfold queue_ok. cbn [CN.heap CN.active CN.saved CN.deque CN.known].
    assert (Hq : forall c, List.In c (rev local' ++ deque s) -> act' c = true).
    { intros c Hc. apply in_app_iff in Hc. destruct Hc as [Hc|Hc]; [apply in_rev, I2' in Hc; tauto|apply I3; auto]. }
    split; [|split; [auto|split; [|split; [apply upd_same|intros; apply upd_other; auto]]]].
    - split; [|split; [auto|split; [auto|split]]].
      + clear - I1 I2' Q1 Q3.
        assert (Hs : forall l q : list nat, NoDup l -> NoDup q -> (forall c, List.In c l -> ~ List.In c q) -> NoDup (l ++ q)).
        { induction l as [|x l IH]; intros q Hl Hq Hn; cbn; auto. inversion Hl; subst. constructor.
          - rewrite in_app_iff. intros [Hc|Hc]; auto. apply (Hn x); [left; auto|auto].
          - apply IH; auto. intros c Hc. apply Hn. right; auto. }
        apply Hs; auto. { apply NoDup_rev; auto. }
        intros c Hc Hc'. apply in_rev, I2' in Hc. apply Q3 in Hc'. destruct Hc; congruence.
      + intros c Hc. apply I4 in Hc. destruct Hc as [Hc|Hc]; auto. apply filter_In in Hc. destruct Hc as [_ Hc]. apply has_spec; auto.
      + intros c Hc Ht. apply in_app_iff. destruct (active s c) eqn:Eac; [right; auto|]. left. apply -> in_rev. apply I2'. auto.
    - intros _ c Hc Hk Ha. apply I5; auto. apply filter_In. split; auto. apply has_spec; auto.
  Qed.

  Lemma trigger1s_spec a : forall l s, queue_ok s ->
    let s' := fold_left (fun s i => trigger1 i a s) l s in
    queue_ok s' /\ (forall c, active s c = true -> active s' c = true) /\
    (forall d, List.In d l -> shrunk ratio (volume d (heap s)) (saved s d) = true ->
       forall c, List.In c (dctcs d) -> List.In c (known s) -> a <> Some c -> active s' c = true) /\
    (forall d, List.In d l -> saved s' d = volume d (heap s)) /\
    (forall d, ~ List.In d l -> saved s' d = saved s d).
  Proof.
    induction l as [|i l IH]; intros s Q; cbn [fold_left].
    { split; [auto|split; [auto|split; [intros d []|split; [intros d []|auto]]]]. }
    destruct (trigger1_spec i a s Q) as (Q1 & A1 & B1 & S1 & S1').
    destruct (trigger1_heap i a s) as (Hh & Hk).
    destruct (IH (trigger1 i a s) Q1) as (Q2 & A2 & B2 & S2 & S2'). rewrite Hh in *. rewrite Hk in *.
    split; [auto|split; [auto|split; [|split]]].
    - intros d Hd Hs c Hc Hkn Ha. destruct (Nat.eq_dec d i) as [->|Hn]; [apply A2, B1; auto|].
      destruct Hd as [Hd|Hd]; [congruence|]. apply (B2 d Hd); auto. rewrite S1' by auto. auto.
    - intros d Hd. destruct (in_dec Nat.eq_dec d l) as [Hl|Hl]; [apply S2; auto|].
      destruct Hd as [->|Hd]; [|contradiction]. rewrite S2' by auto. apply S1.
    - intros d Hd. cbn in Hd. rewrite S2' by tauto. apply S1'. intros E. apply Hd. auto.
  Qed.

  Lemma called_ok c q s : deque s = c :: q -> queue_ok s -> queue_ok (called c q s).
  Proof.
    intros E (Q1 & Q2 & Q3 & Q4 & Q5). rewrite E in *. inversion Q1; subst. unfold queue_ok, called; cbn.
    repeat split; auto.
    - intros x Hx. destruct (is_cn (typ c)); [apply Q3; right; auto|]. rewrite upd_other; [apply Q3; right; auto|]. intros ->. contradiction.
    - intros x Hx. apply Q4. destruct (is_cn (typ c)); auto. destruct (Nat.eq_dec x c) as [->|Hn]; [rewrite upd_same in Hx; discriminate|].
      rewrite upd_other in Hx by auto. auto.
    - intros x Hx Ht. destruct (Nat.eq_dec x c) as [->|Hn].
      + destruct (typ c); try congruence; cbn in Hx; rewrite upd_same in Hx; discriminate.
      + assert (Ha : active s x = true) by (destruct (is_cn (typ c)); [auto|rewrite upd_other in Hx; auto]).
        destruct (Q5 x Ha Ht); [congruence|auto].
  Qed.
  Lemma step_ok s : queue_ok s -> queue_ok (step s).
  Proof.
    intros Q. destruct (deque s) as [|c q] eqn:E; [unfold step; rewrite E; auto|]. rewrite (step_eq c q s E).
    apply trigger1s_spec, called_ok; auto.
  Qed.
  Lemma loop_ok n : forall s, queue_ok s -> queue_ok (loop n s).
  Proof. induction n as [|n IH]; intros s Q; cbn [CN.loop]; auto. destruct (deque s); auto. apply IH, step_ok; auto. Qed.
  Lemma trigger_all_ok s : queue_ok s -> queue_ok (trigger_all s).
  Proof.
    intros (Q1 & Q2 & Q3 & Q4 & Q5). unfold trigger_all.
    enough (G : forall l s1, subset l (known s1) -> NoDup l -> NoDup (deque s1) -> NoDup (known s1) ->
      (forall c, List.In c (deque s1) -> active s1 c = true /\ ~ List.In c l) ->
      (forall c, active s1 c = true -> List.In c (known s1)) ->
      (forall c, active s1 c = true -> typ c <> T_CN -> List.In c (deque s1) \/ List.In c l) ->
      queue_ok (fold_left (fun s c =>
      if is_contracting (typ c) then CN.mkSt H (heap s) (upd (active s) c true) (saved s) (enqueue c (deque s)) (known s)
      else CN.mkSt H (heap s) (upd (active s) c false) (saved s) (deque s) (known s)) l s1)).
    { apply G; cbn; auto; try (intros x; tauto); try constructor. }
    induction l as [|c l IH]; intros s1 L1 L2 L3 L4 L5 L6 L7; cbn [fold_left].
    { split; [auto|split; [auto|split; [intros c Hc; apply L5; auto|split; [auto|]]]]. intros c Hc Ht. destruct (L7 c Hc Ht) as [Hx|[]]; auto. }
    inversion L2; subst.
    assert (Hcq : ~ List.In c (deque s1)) by (intros Hc; apply L5 in Hc; destruct Hc as [_ Hc]; apply Hc; left; auto).
    destruct (is_contracting (typ c)) eqn:Ec; apply IH; cbn; auto.
    - intros x Hx. apply L1. right; auto.
    - apply enqueue_nodup; auto.
    - intros x Hx. apply enqueue_in in Hx. destruct (Nat.eq_dec x c) as [->|Hn]; [split; auto; apply upd_same|].
      destruct Hx as [Hx|Hx]; [congruence|]. apply L5 in Hx. rewrite upd_other by auto. split; [tauto|]. intros Hl. apply Hx. right; auto.
    - intros x Hx. destruct (Nat.eq_dec x c) as [->|Hn]; [apply L1; left; auto|]. rewrite upd_other in Hx by auto. auto.
    - intros x Hx Ht. rewrite enqueue_in. destruct (Nat.eq_dec x c) as [->|Hn]; auto. rewrite upd_other in Hx by auto.
      destruct (L7 x Hx Ht) as [Hy|[Hy|Hy]]; auto; try congruence.
    - intros x Hx. apply L1. right; auto.
    - intros x Hx. apply L5 in Hx as Hx'. destruct (Nat.eq_dec x c) as [->|Hn]; [contradiction|]. rewrite upd_other by auto. split; [tauto|].
      intros Hl. apply (proj2 Hx'). right; auto.
    - intros x Hx. destruct (Nat.eq_dec x c) as [->|Hn]; [apply L1; left; auto|]. rewrite upd_other in Hx by auto. auto.
    - intros x Hx Ht. destruct (Nat.eq_dec x c) as [->|Hn]; [rewrite upd_same in Hx; discriminate|]. rewrite upd_other in Hx by auto.
      destruct (L7 x Hx Ht) as [Hy|[Hy|Hy]]; auto; try congruence.
  Qed.
  Lemma add_ok c s : queue_ok s -> queue_ok (add_ctc c s).
  Proof.
    intros (Q1 & Q2 & Q3 & Q4 & Q5). unfold add_ctc. destruct (has c (known s)) eqn:Eh; [repeat split; auto|].
    assert (Hk : ~ List.In c (known s)) by (intros Hk; apply has_spec in Hk; congruence).
    unfold queue_ok; cbn. split; [|split; [constructor; auto|split; [|split]]].
    - apply enqueue_nodup; auto.
    - intros x Hx. apply enqueue_in in Hx. destruct (Nat.eq_dec x c) as [->|Hn]; [apply upd_same|]. rewrite upd_other by auto.
      destruct Hx; [congruence|auto].
    - intros x Hx. destruct (Nat.eq_dec x c) as [->|Hn]; auto. rewrite upd_other in Hx by auto. auto.
    - intros x Hx Ht. rewrite enqueue_in. destruct (Nat.eq_dec x c) as [->|Hn]; auto. rewrite upd_other in Hx by auto. auto.
  Qed.
  Lemma ordered_queue n : forall s, deque (ordered n s) = deque s /\ known (ordered n s) = known s /\ active (ordered n s) = active s.
  Proof.
    induction n as [|n IH]; intros s; cbn [CN.ordered]; auto.
    unfold ordered_iter. cbn zeta. destruct (forallb _ _); auto.
    edestruct IH as (E1 & E2 & E3). rewrite E1, E2, E3. auto.
  Qed.
  Lemma queue_ext s s' : deque s' = deque s -> known s' = known s -> active s' = active s -> queue_ok s -> queue_ok s'.
  Proof. intros E1 E2 E3. unfold queue_ok. rewrite E1, E2, E3. auto. Qed.
  Lemma apply_ok o s : queue_ok s -> queue_ok (apply o s).
  Proof.
    intros Q. destruct o; cbn [CN.apply].
    - apply add_ok; auto.
    - apply loop_ok. apply (queue_ext s); auto.
    - destruct (ordered_queue n s) as (E1 & E2 & E3). apply (queue_ext s); auto.
    - apply trigger_all_ok; auto.
    - unfold trigger. apply (trigger1s_spec None (dcomps d)). apply trigger1_spec; auto.
  Qed.

  (** C30: in every history of a network, a contractor is at most once in the queue, the active flag
      of a contractor that is not a sub-network tells exactly whether it is waiting, and only contractors
      of the network are waiting. *)
  Theorem C30_queue : forall ops h, let s := exec ops (CN.init H h) in
    NoDup (deque s) /\ (forall c, List.In c (deque s) -> active s c = true /\ List.In c (known s)) /\
    (forall c, typ c <> T_CN -> (active s c = true <-> List.In c (deque s))).
  Proof.
    intros ops h.
    enough (Q : queue_ok (exec ops (CN.init H h))).
    { destruct Q as (Q1 & Q2 & Q3 & Q4 & Q5). split; [auto|split; [intros c Hc; split; auto|]]. intros c Ht. split; auto. }
    unfold exec. assert (Q : queue_ok (CN.init H h)).
    { unfold queue_ok; cbn. split; [constructor|split; [constructor|split; [intros c []|split; intros; discriminate]]]. }
    revert Q. generalize (CN.init H h). induction ops as [|o ops IH]; intros s Q; cbn [fold_left]; auto. apply IH, apply_ok; auto.
  Qed.

  (** C30: [contract] either made the [n] calls allowed by the time limit or ends with an empty queue. *)
  Fixpoint calls (k : nat) (s : state) : state := match k with O => s | S k => calls k (step s) end.
  Theorem C30_returns : forall n s, exists k, (k <= n)%nat /\ contract n s = calls k (save_volumes s) /\
    (forall j, (j < k)%nat -> deque (calls j (save_volumes s)) <> []) /\
    (deque (contract n s) = [] \/ k = n).
  Proof.
    intros n s. unfold contract. generalize (save_volumes s). clear s.
    induction n as [|n IH]; intros s; cbn [CN.loop].
    { exists O. repeat split; auto. intros j Hj. inversion Hj. }
    destruct (deque s) as [|c q] eqn:E.
    { exists O. repeat split; auto; [lia|]. intros j Hj. inversion Hj. }
    destruct (IH (step s)) as (k & K1 & K2 & K3 & K4). exists (S k). repeat split; auto; [lia| |destruct K4; auto; right; lia].
    intros [|j] Hj; cbn [calls]; [congruence|]. apply K3. lia.
  Qed.

  (** C30: when a call contracts a domain of the contractor (or a component of it) by more than the ratio,
      the other contractors of that domain are waiting after the call.  Missing: contractions made by
      several calls, none of them significant (see [C30_drift_refuted]), and sub-networks (see
      [C30_subnetwork_refuted]). *)
  Theorem C30_waiting_partial : forall ops h c q d c',
    let s := exec ops (CN.init H h) in
    deque s = c :: q -> List.In d (touched c) -> shrunk ratio (volume d (run c (heap s))) (saved s d) = true ->
    List.In c' (dctcs d) -> List.In c' (known s) -> c' <> c -> typ c' <> T_CN ->
    List.In c' (deque (step s)).
  Proof.
    intros ops h c q d c' s E Hd Hs Hc' Hk Hn Ht.
    assert (Q : queue_ok s).
    { unfold s, exec. assert (Q : queue_ok (CN.init H h)).
      { unfold queue_ok; cbn. split; [constructor|split; [constructor|split; [intros c0 []|split; intros; discriminate]]]. }
      revert Q. generalize (CN.init H h). clear. induction ops as [|o ops IH]; intros s Q; cbn [fold_left]; auto. apply IH, apply_ok; auto. }
    rewrite (step_eq c q s E).
    destruct (trigger1s_spec (Some c) (touched c) (called c q s) (called_ok c q s E Q)) as (Q' & _ & B & _).
    destruct Q' as (_ & _ & _ & _ & Q5). apply Q5; auto. apply (B d); auto. congruence.
  Qed.

  (** ** No schedule loses a solution; domains only shrink *)
  Section Invariant.
    (** a property of the memory kept by each call of a contractor of the network *)
    Variable P : H -> Prop.
    Variable ok : nat -> Prop.
    Hypothesis run_ok : forall c h, ok c -> P h -> P (run c h).
    Definition all_ok (s : state) := (forall c, List.In c (known s) -> ok c).
    Lemma step_inv s : queue_ok s -> all_ok s -> P (heap s) -> P (heap (step s)).
    Proof.
      intros Q A Hp. destruct (deque s) as [|c q] eqn:E; [unfold step; rewrite E; auto|].
      destruct (step_heap c q s E) as (-> & _). apply run_ok; auto. apply A.
      destruct Q as (_ & _ & Q3 & Q4 & _). apply Q4, Q3. rewrite E. left; auto.
    Qed.
    Lemma step_all_ok s : all_ok s -> all_ok (step s).
    Proof.
      intros A. destruct (deque s) as [|c q] eqn:E; [unfold step; rewrite E; auto|].
      unfold all_ok. destruct (step_heap c q s E) as (_ & ->). auto.
    Qed.
    Lemma loop_inv n : forall s, queue_ok s -> all_ok s -> P (heap s) -> P (heap (loop n s)) /\ all_ok (loop n s).
    Proof.
      induction n as [|n IH]; intros s Q A Hp; cbn [CN.loop]; auto. destruct (deque s); auto.
      apply IH; [apply step_ok|apply step_all_ok|apply step_inv]; auto.
    Qed.
    Lemma run_all_inv l : (forall c, List.In c l -> ok c) -> forall h, P h -> P (CN.run_all H run l h).
    Proof.
      unfold CN.run_all. induction l as [|c l IH]; intros A h Hp; cbn [fold_left]; auto.
      apply IH; [intros x Hx; apply A; right; auto|]. apply run_ok; auto. apply A. left; auto.
    Qed.
    Lemma ordered_inv n : forall s, queue_ok s -> all_ok s -> P (heap s) -> P (heap (ordered n s)).
    Proof.
      induction n as [|n IH]; intros s Q A Hp; cbn [CN.ordered]; auto.
      assert (Hq : forall c, List.In c (deque s) -> ok c).
      { intros c Hc. apply A. destruct Q as (_ & _ & Q3 & Q4 & _). auto. }
      unfold ordered_iter. cbn zeta.
      set (s' := CN.mkSt H _ _ _ _ _).
      assert (Hp' : P (heap s')).
      { unfold s'; cbn. apply run_all_inv.
        - intros c Hc. apply Hq. destruct (deque s); [contradiction|right; auto].
        - apply run_all_inv; auto. intros c Hc. apply Hq. apply in_rev; auto. }
      destruct (forallb _ _); auto.
    Qed.
    Lemma exec_inv ops : forall s, queue_ok s -> all_ok s -> (forall c, List.In (Add c) ops -> ok c) ->
      P (heap s) -> P (heap (exec ops s)).
    Proof.
      unfold exec. induction ops as [|o ops IH]; intros s Q A Ho Hp; cbn [fold_left]; auto.
      assert (Q' := apply_ok o s Q).
      assert (G : P (heap (apply o s)) /\ all_ok (apply o s)).
      { destruct o; cbn [CN.apply].
        - rewrite add_heap. split; auto. unfold all_ok, add_ctc. destruct (has _ _); auto. cbn. intros x [<-|Hx]; auto. apply Ho. left; auto.
        - apply loop_inv; auto.
        - split; [apply ordered_inv; auto|]. unfold all_ok. destruct (ordered_queue n s) as (_ & -> & _). auto.
        - destruct (trigger_all_heap s) as (E1 & E2). unfold all_ok. rewrite E1, E2. auto.
        - destruct (trigger_heap d None s) as (E1 & E2). unfold all_ok. rewrite E1, E2. auto. }
      apply IH; try tauto. intros c Hc. apply Ho. right; auto.
    Qed.
  End Invariant.

  (** C28, any kind of domain: [holds h] says that a given assignment of the variables is in the domains
      [h].  If each added contractor keeps it, so does the network. *)
  Theorem C28_schedules : forall (holds : H -> Prop) ops h,
    (forall c, List.In (Add c) ops -> forall h, holds h -> holds (run c h)) ->
    holds h -> holds (heap (exec ops (CN.init H h))).
  Proof.
    intros holds ops h Hc Hh. apply (exec_inv holds (fun c => forall h, holds h -> holds (run c h))); auto.
    - unfold queue_ok; cbn. split; [constructor|split; [constructor|split; [intros c0 []|split; intros; discriminate]]].
    - intros c [].
  Qed.
End Generic.

(** ** Interval domains *)
Definition typ_of (c : contractor) : ctype :=
  match c with Ibex _ _ => T_IBEX | Equality _ _ => T_EQUALITY | Component => T_COMPONENT end.
Definition cells_of (c : contractor) : list nat :=
  match c with Ibex _ l => l | Equality a b => [a; b] | Component => [] end.

Lemma write_back_all (Q : nat -> itv -> Prop) : forall cells b m,
  (forall x, Q x (m x)) -> Forall2 Q cells b -> forall x, Q x (write_back cells b m x).
Proof.
  induction cells as [|c cells IH]; intros b m Hm Hb x; inversion Hb; subst; cbn [write_back]; auto.
  apply IH; auto. intros z. unfold upd. destruct (Nat.eqb_spec z c); subst; auto.
Qed.
Lemma write_back_other : forall cells b m x, ~ List.In x cells -> write_back cells b m x = m x.
Proof.
  induction cells as [|c cells IH]; intros b m x Hx; [destruct b; auto|]. destruct b as [|i b]; auto. cbn [write_back].
  cbn in Hx. rewrite IH by tauto. apply upd_other. intros ->. tauto.
Qed.
Lemma F2_map_l {A B C} (f : A -> B) (Q : B -> C -> Prop) l l' : Forall2 Q (map f l) l' <-> Forall2 (fun a => Q (f a)) l l'.
Proof.
  revert l'. induction l as [|a l IH]; intros l'; cbn; split; intros H; inversion H; subst; constructor; auto; apply IH; auto.
Qed.
Lemma F2_map_r {A B C} (f : A -> B) (Q : C -> B -> Prop) l l' : Forall2 Q l' (map f l) <-> Forall2 (fun c a => Q c (f a)) l' l.
Proof.
  revert l'. induction l as [|a l IH]; intros l'; cbn; split; intros H; inversion H; subst; constructor; auto; apply IH; auto.
Qed.
Lemma F2_diag {A} (Q : A -> A -> Prop) l : (forall a, Q a a) -> Forall2 Q l l.
Proof. intros H. induction l; auto. Qed.
Lemma F2_flip {A B} (Q : A -> B -> Prop) l l' : Forall2 Q l l' -> Forall2 (fun b a => Q a b) l' l.
Proof. induction 1; auto. Qed.

(** meaning of a contractor: the assignment [v] satisfies its constraint and the contractor is correct *)
Definition satisfies (v : nat -> R) (c : contractor) : Prop :=
  match c with
  | Ibex f cells => exists P, keeps P f /\ P (map v cells)
  | Equality a b => v a = v b
  | Component => True
  end.
Definition contracting (c : contractor) : Prop := match c with Ibex f _ => contracts f | _ => True end.
Definition in_mem (v : nat -> R) (m : mem) : Prop := forall x, In (v x) (m x).
Definition msub (m m' : mem) : Prop := forall x, sub (m x) (m' x).

Lemma run_keeps v c m : satisfies v c -> in_mem v m -> in_mem v (run_ctc c m).
Proof.
  intros Hs Hv. destruct c as [f cells|a b|]; cbn [run_ctc satisfies] in *; auto.
  - destruct Hs as (P & Hk & HP). intros x. apply (write_back_all (fun x i => In (v x) i)); auto.
    apply F2_map_l. apply Hk; auto. apply F2_map_l, F2_map_r. apply F2_diag. auto.
  - intros x. unfold upd. destruct (Nat.eqb_spec x b); [|destruct (Nat.eqb_spec x a); auto]; subst;
      apply In_inter; split; auto; try (rewrite Hs; apply Hv); rewrite <- Hs; apply Hv.
Qed.
Lemma run_contracts c m : contracting c -> msub (run_ctc c m) m.
Proof.
  intros Hs. destruct c as [f cells|a b|]; cbn [run_ctc contracting] in *; try (intros x; apply sub_refl).
  - intros x. apply (write_back_all (fun x i => sub i (m x))); [intros y; apply sub_refl|].
    specialize (Hs (map m cells)). apply F2_flip. apply (F2_map_r m sub). exact Hs.
  - intros x. unfold upd. destruct (Nat.eqb_spec x b); [|destruct (Nat.eqb_spec x a)]; subst;
      [apply sub_inter_r|apply sub_inter_l|apply sub_refl].
Qed.

(** a network on intervals and boxes *)
Record net := mkNet { n_ctc : nat -> contractor; n_doms : nat -> list nat; n_ctcs : nat -> list nat;
                      n_comps : nat -> list nat; n_cells : nat -> list nat; n_ratio : R }.
Definition net_exec (g : net) (ops : list op) (m : mem) : state mem :=
  exec mem (fun c => run_ctc (n_ctc g c)) (fun d => dom_volume (n_cells g d)) (fun c => typ_of (n_ctc g c))
       (n_doms g) (n_ctcs g) (n_comps g) (n_ratio g) ops (init mem m).
Definition final (g : net) (ops : list op) (m : mem) : mem := heap mem (net_exec g ops m).

(** C28: whatever the history of the network (additions, contractions stopped at any moment, ordered mode,
    triggers), an assignment of the initial domains satisfying all the added contractors is in the final
    domains. *)
Theorem C28_no_loss : forall g ops m v, in_mem v m ->
  (forall c, List.In (Add c) ops -> satisfies v (n_ctc g c)) ->
  in_mem v (final g ops m).
Proof.
  intros g ops m v Hm Hs. unfold final, net_exec.
  apply (C28_schedules mem _ _ _ _ _ _ _ (in_mem v)); auto.
  intros c Hc h Hh. apply run_keeps; auto.
Qed.

Lemma queue_ok_init H typ h : queue_ok H typ (init H h).
Proof. unfold queue_ok; cbn. split; [constructor|split; [constructor|split; [intros c0 []|split; intros; discriminate]]]. Qed.
Lemma exec_queue_ok H run volume typ cdoms dctcs dcomps ratio ops : forall s, queue_ok H typ s ->
  queue_ok H typ (exec H run volume typ cdoms dctcs dcomps ratio ops s).
Proof. unfold exec. induction ops as [|o ops IH]; intros s Q; cbn [fold_left]; auto. apply IH, apply_ok; auto. Qed.
Lemma exec_known H run volume typ cdoms dctcs dcomps ratio ops : forall s c,
  List.In c (known H (exec H run volume typ cdoms dctcs dcomps ratio ops s)) -> List.In c (known H s) \/ List.In (Add c) ops.
Proof.
  unfold exec. induction ops as [|o ops IH]; intros s c Hc; cbn [fold_left] in *; auto.
  apply IH in Hc. destruct Hc as [Hc|Hc]; [|right; right; auto].
  destruct o; cbn [apply] in Hc.
  - unfold add_ctc in Hc. destruct (has _ _); auto. cbn in Hc. destruct Hc as [->|Hc]; auto. right; left; auto.
  - unfold contract in Hc. left. revert Hc.
    assert (G : forall n s, known H (loop H run volume typ cdoms dctcs dcomps ratio n s) = known H s).
    { clear. induction n as [|n IH]; intros s; cbn [loop]; auto. destruct (deque H s) as [|c q] eqn:E; auto. rewrite IH. eapply step_heap; eauto. }
    rewrite G. auto.
  - left. revert Hc. destruct (ordered_queue H run volume cdoms ratio n s) as (_ & -> & _). auto.
  - left. revert Hc. destruct (trigger_all_heap H typ s) as (_ & ->). auto.
  - left. revert Hc. destruct (trigger_heap H volume typ dctcs dcomps ratio d None s) as (_ & ->). auto.
Qed.

(** C29: each further operation leaves each domain included in its previous value. *)
Theorem C29_domains_shrink : forall g ops more m,
  (forall c, List.In (Add c) (ops ++ more) -> contracting (n_ctc g c)) ->
  msub (final g (ops ++ more) m) (final g ops m).
Proof.
  intros g ops more m Hc. unfold final, net_exec, exec. rewrite fold_left_app.
  fold (exec mem (fun c => run_ctc (n_ctc g c)) (fun d => dom_volume (n_cells g d)) (fun c => typ_of (n_ctc g c))
       (n_doms g) (n_ctcs g) (n_comps g) (n_ratio g) ops (init mem m)).
  set (s := exec _ _ _ _ _ _ _ _ ops (init mem m)).
  apply (exec_inv mem (fun c => run_ctc (n_ctc g c)) _ (fun c => typ_of (n_ctc g c)) _ _ _ _
    (fun h => msub h (heap mem s)) (fun c => contracting (n_ctc g c))).
  - intros c h H1 H2 x. apply (sub_trans _ (h x)); [|apply H2]. apply run_contracts; auto.
  - apply exec_queue_ok, queue_ok_init.
  - intros c Hk. apply exec_known in Hk. destruct Hk as [[]|Hk]. apply Hc. apply in_app_iff. auto.
  - intros c Hk. apply Hc. apply in_app_iff. auto.
  - intros x. apply sub_refl.
Qed.

(** *** Concrete networks *)
(** [x >= 0] on cell 0; [x = y] on cells 0 and 1, as contractors on boxes *)
Definition ctc_pos : list itv -> list itv := clip [POS].
Definition ctc_eq (b : list itv) : list itv := match b with [x; y] => [inter x y; inter x y] | _ => b end.
Lemma ctc_eq_keeps : keeps (fun p => match p with [x; y] => x = y | _ => True end) ctc_eq.
Proof.
  intros b p Hp HP. inversion Hp as [|x i p1 b1 H1 Hp1]; subst; cbn; auto.
  inversion Hp1 as [|y j p2 b2 H2 Hp2]; subst; cbn; auto. inversion Hp2; subst; cbn; auto.
  subst. repeat constructor; apply In_inter; auto.
Qed.
Lemma ctc_eq_contracts : contracts ctc_eq.
Proof.
  intros b. destruct b as [|x [|y [|z b]]]; cbn [ctc_eq]; try apply F2_sub_refl.
  repeat constructor; [apply sub_inter_l|apply sub_inter_r].
Qed.
Definition ex_ctc (c : nat) : contractor :=
  match c with 0%nat => Ibex (clip [bnd 2 5]) [0%nat] | 1%nat => Ibex ctc_eq [0%nat; 1%nat] | _ => Component end.
Definition ex_net : net := mkNet ex_ctc (fun c => cells_of (ex_ctc c)) (fun d => match d with 0%nat => [0%nat; 1%nat] | 1%nat => [1%nat] | _ => [] end)
  (fun _ => []) (fun d => [d]) 0.
Definition ex_mem : mem := fun _ => bnd 0 10.
Example C28_example : in_mem (fun _ => 3) (final ex_net [Add 0; Add 1; Contract 7; TriggerAll; Ordered 2] ex_mem).
Proof.
  apply C28_no_loss.
  - intros x. apply In_bnd; lra.
  - intros c Hc. repeat destruct Hc as [Hc|Hc]; try discriminate; try contradiction; inversion Hc; subst; cbn [ex_net n_ctc ex_ctc satisfies].
    + eexists. split; [apply clip_keeps|]. repeat constructor; apply In_bnd; lra.
    + eexists. split; [apply ctc_eq_keeps|]. reflexivity.
Qed.

(** C29 is not vacuous: here the domain of the first variable is strictly contracted. *)
Lemma clip1 i j : i <> Emp -> j <> Emp -> inter i j <> Emp -> clip [j] [i] = [inter i j].
Proof.
  intros Hi Hj Hij. unfold clip, ctc_box, b_inter, b_is_empty, map2. cbn [length Nat.eqb].
  apply is_empty_false in Hi, Hj, Hij. rewrite Hi, Hj. cbn. rewrite Hij. reflexivity.
Qed.
Lemma clip1_bnd a b c d : a <= c -> c <= d -> d <= b -> clip [bnd c d] [bnd a b] = [bnd c d].
Proof.
  intros H1 H2 H3.
  assert (E : inter (bnd a b) (bnd c d) = bnd c d).
  { rewrite inter_comm. apply inter_sub_eq; [|intros x Hx; apply In_bnd in Hx; apply In_bnd; lra].
    unfold bnd, mk. destruct (Rle_dec c d); cbn; auto. }
  assert (Hn : forall u v, u <= v -> bnd u v <> Emp) by (intros u v Huv; unfold bnd, mk; destruct (Rle_dec u v); [discriminate|lra]).
  rewrite clip1; rewrite ?E; auto; apply Hn; lra.
Qed.

(** a call with no significant contraction *)
Section Quiet.
  Variable H : Type.
  Variable run : nat -> H -> H.
  Variable volume : nat -> H -> vol.
  Variable typ : nat -> ctype.
  Variable cdoms dctcs dcomps : nat -> list nat.
  Variable ratio : R.
  Lemma trigger1_quiet d a s : shrunk ratio (volume d (heap H s)) (saved H s d) = false ->
    trigger1 H volume typ dctcs ratio d a s = mkSt H (heap H s) (active H s) (upd (saved H s) d (volume d (heap H s))) (deque H s) (known H s).
  Proof. intros E. unfold trigger1. rewrite E. reflexivity. Qed.
  Lemma trigger1s_quiet a : forall l s, NoDup l -> (forall d, List.In d l -> shrunk ratio (volume d (heap H s)) (saved H s d) = false) ->
    let s' := fold_left (fun s i => trigger1 H volume typ dctcs ratio i a s) l s in
    deque H s' = deque H s /\ active H s' = active H s /\
    (forall d, saved H s' d = if has d l then volume d (heap H s) else saved H s d).
  Proof.
    induction l as [|i l IH]; intros s Hd Hq; cbn [fold_left]; auto.
    inversion Hd; subst. rewrite trigger1_quiet by (apply Hq; left; auto).
    match goal with |- context [fold_left _ l ?s1] => set (s1' := s1) end.
    destruct (IH s1') as (E1 & E2 & E3); auto.
    { intros d Hl. cbn. rewrite upd_other; [apply Hq; right; auto|]. intros ->. contradiction. }
    rewrite E1, E2. split; [auto|split; auto]. intros d. rewrite E3. unfold s1'; cbn [CN.heap CN.saved].
    unfold has at 2. cbn [existsb]. fold (has d l).
    destruct (Nat.eqb_spec d i) as [->|Hn]; cbn [orb].
    - destruct (has i l); auto. apply upd_same.
    - destruct (has d l); auto. apply upd_other; auto.
  Qed.
  Lemma step_quiet s c q : deque H s = c :: q -> NoDup (touched cdoms dcomps c) ->
    (forall d, List.In d (touched cdoms dcomps c) -> shrunk ratio (volume d (run c (heap H s))) (saved H s d) = false) ->
    let s' := step H run volume typ cdoms dctcs dcomps ratio s in
    deque H s' = q /\ heap H s' = run c (heap H s) /\
    active H s' = (if is_cn (typ c) then active H s else upd (active H s) c false) /\
    (forall d, saved H s' d = if has d (touched cdoms dcomps c) then volume d (run c (heap H s)) else saved H s d).
  Proof.
    intros E Hd Hq. cbn zeta. split; [|split; [eapply step_heap; eauto|]]; rewrite (step_eq _ _ _ _ _ _ _ _ c q s E);
      destruct (trigger1s_quiet (Some c) (touched cdoms dcomps c) (called H run typ c q s) Hd Hq) as (E1 & E2 & E3); auto.
  Qed.
  Lemma loop_S n s c q : deque H s = c :: q ->
    loop H run volume typ cdoms dctcs dcomps ratio (S n) s = loop H run volume typ cdoms dctcs dcomps ratio n (step H run volume typ cdoms dctcs dcomps ratio s).
  Proof. intros E. cbn [loop]. rewrite E. reflexivity. Qed.
  Lemma loop_nil n s : deque H s = [] -> loop H run volume typ cdoms dctcs dcomps ratio n s = s.
  Proof. intros E. destruct n; cbn [loop]; auto. rewrite E. reflexivity. Qed.
End Quiet.

Example C29_example :
  final ex_net [Add 0] ex_mem 0%nat = bnd 0 10 /\ final ex_net [Add 0; Contract 1] ex_mem 0%nat = bnd 2 5 /\
  msub (final ex_net ([Add 0] ++ [Contract 1]) ex_mem) (final ex_net [Add 0] ex_mem).
Proof.
  split; [reflexivity|]. split.
  - unfold final, net_exec, exec. cbn [fold_left apply]. unfold contract.
    rewrite (loop_S _ _ _ _ _ _ _ _ _ _ 0 []) by reflexivity. cbn [loop].
    rewrite (fun s E => proj1 (step_heap mem _ _ _ _ _ _ _ 0%nat [] s E)) by reflexivity. cbn [n_ctc ex_net ex_ctc run_ctc map].
    change (heap mem (save_volumes _ _ _)) with ex_mem. unfold ex_mem at 1. rewrite clip1_bnd by lra. reflexivity.
  - apply C29_domains_shrink. intros c Hc. repeat destruct Hc as [Hc|Hc]; try discriminate; try contradiction; inversion Hc; subst.
    apply clip_contracts.
Qed.

(** ** C31: fixed point *)
Definition stable (c : contractor) (m : mem) : Prop := forall x, run_ctc c m x = m x.
Definition idempotent (c : contractor) : Prop := forall m, stable c (run_ctc c m).
Definition boxes (c : contractor) : Prop := match c with Ibex f _ => gives_boxes f | _ => True end.

Lemma write_back_ext : forall cells b m m' x, length b = length cells -> List.In x cells -> write_back cells b m x = write_back cells b m' x.
Proof.
  induction cells as [|c cells IH]; intros b m m' x Hl Hx; [contradiction|].
  destruct b as [|i b]; [discriminate|]. cbn [write_back]. injection Hl as Hl.
  destruct (in_dec Nat.eq_dec x cells) as [Hc|Hc]; [apply IH; auto|].
  rewrite !write_back_other by auto. destruct Hx as [->|Hx]; [|contradiction]. rewrite !upd_same. reflexivity.
Qed.
Lemma stable_local c m m' : contracting c -> stable c m -> (forall x, List.In x (cells_of c) -> m' x = m x) -> stable c m'.
Proof.
  intros Hc Hs He x. destruct c as [f cells|a b|]; cbn [run_ctc cells_of contracting] in *; auto.
  - destruct (in_dec Nat.eq_dec x cells) as [Hx|Hx]; [|apply write_back_other; auto].
    replace (map m' cells) with (map m cells) by (apply map_ext_in; intros; symmetry; auto).
    rewrite (write_back_ext cells _ m' m); auto.
    + rewrite He by auto. apply (Hs x).
    + rewrite (F2_len _ _ _ (Hc (map m cells))). apply map_length.
  - specialize (Hs x). cbn [run_ctc] in Hs. unfold upd in *. rewrite !He by (cbn; auto).
    destruct (Nat.eqb_spec x b); [|destruct (Nat.eqb_spec x a)]; subst; auto; rewrite He by (cbn; auto); auto.
Qed.
Lemma run_other c m x : ~ List.In x (cells_of c) -> run_ctc c m x = m x.
Proof.
  destruct c as [f cells|a b|]; cbn [run_ctc cells_of]; intros Hx; auto.
  - apply write_back_other; auto.
  - cbn in Hx. rewrite !upd_other; auto; intros ->; tauto.
Qed.
Lemma run_wf c m : boxes c -> contracting c -> (forall x, wf (m x)) -> forall x, wf (run_ctc c m x).
Proof.
  intros Hb Hc Hm. destruct c as [f cells|a b|]; cbn [run_ctc boxes contracting] in *; auto.
  - apply (write_back_all (fun _ i => wf i)); auto.
    assert (Hl := F2_len _ _ _ (Hc (map m cells))). rewrite map_length in Hl.
    assert (Hf : Forall wf (f (map m cells))) by (apply Hb; apply Forall_forall; intros i Hi; apply in_map_iff in Hi; destruct Hi as (y & <- & _); auto).
    revert Hl Hf. generalize (f (map m cells)). clear. induction cells as [|c cells IH]; intros [|i l] Hl Hf; try discriminate; constructor;
      inversion Hf; subst; auto.
  - intros x. unfold upd. destruct (Nat.eqb x b); [|destruct (Nat.eqb x a)]; auto; apply wf_inter.
Qed.
Lemma shrunk_strict i j : wf i -> wf j -> sub i j -> i <> Emp -> is_unbounded j = false -> i <> j ->
  shrunk 0 (itv_volume i) (itv_volume j) = true.
Proof.
  intros Wi Wj Hs Hi Hu Hn.
  destruct i as [|[a|] [b|]]; try congruence.
  - destruct j as [|[c|] [d|]]; try discriminate; [destruct (Hs a); split; cbn in *; lra|].
    unfold itv_volume; cbn [is_empty is_unbounded diam_r]. cbn in Wi, Wj.
    destruct (Hs a) as [H1 H2]; [split; cbn; lra|]. destruct (Hs b) as [H3 H4]; [split; cbn; lra|]. cbn in *.
    assert (Hlt : b - a < d - c).
    { destruct (Req_EM_T a c); [destruct (Req_EM_T b d); [subst; congruence|lra]|lra]. }
    rewrite (proj2 (Reqb_false (d - c) 0)) by lra. apply Rltb_true.
    replace (1 - 0) with ((d - c) / (d - c)) by (rewrite Rminus_0_r; apply Rinv_r; lra).
    apply Rmult_lt_compat_r; [apply Rinv_0_lt_compat; lra|auto].
  - destruct j as [|[c|] [d|]]; try discriminate; [destruct (Hs a); split; cbn; lra|].
    destruct (Hs (Rmax a d + 1)) as [_ H2]; [split; cbn; auto|]; cbn in *; pose proof (Rmax_l a d); pose proof (Rmax_r a d); lra.
  - destruct j as [|[c|] [d|]]; try discriminate; [destruct (Hs b); split; cbn; auto; lra|].
    destruct (Hs (Rmin b c - 1)) as [H2 _]; [split; cbn; auto|]; cbn in *; pose proof (Rmin_l b c); pose proof (Rmin_r b c); lra.
  - destruct j as [|[c|] [d|]]; try discriminate; [destruct (Hs 0); split; cbn; auto|].
    destruct (Hs (c - 1)) as [H2 _]; [split; cbn; auto|]; cbn in *; lra.
Qed.

Section FixedPoint.
  Variable g : net.
  (** scalar domains, numbered as their cells; the graph links the contractors and their variables; ratio 0 *)
  Definition scalar_net : Prop :=
    n_ratio g = 0 /\ (forall d, n_comps g d = []) /\ (forall d, n_cells g d = [d]) /\
    (forall c, n_doms g c = cells_of (n_ctc g c)) /\ (forall c d, List.In d (cells_of (n_ctc g c)) -> List.In c (n_ctcs g d)).
  Definition good (c : nat) : Prop := contracting (n_ctc g c) /\ boxes (n_ctc g c) /\ idempotent (n_ctc g c).
  Hypothesis Hnet : scalar_net.

  Let run := fun c => run_ctc (n_ctc g c).
  Let volume := fun d => dom_volume (n_cells g d).
  Let typ := fun c => typ_of (n_ctc g c).
  Let step := step mem run volume typ (n_doms g) (n_ctcs g) (n_comps g) (n_ratio g).
  Let loop := loop mem run volume typ (n_doms g) (n_ctcs g) (n_comps g) (n_ratio g).

  Definition thin (m : mem) : Prop := forall x, wf (m x) /\ is_unbounded (m x) = false.
  Definition non_empty (m : mem) : Prop := forall x, m x <> Emp.
  Definition waiting_or_stable (s : state mem) : Prop :=
    forall c, List.In c (known mem s) -> List.In c (deque mem s) \/ stable (n_ctc g c) (heap mem s).
  Definition J (s : state mem) : Prop :=
    queue_ok mem typ s /\ thin (heap mem s) /\ (forall c, List.In c (known mem s) -> good c) /\ waiting_or_stable s.
  Definition in_step (s : state mem) : Prop := forall d, saved mem s d = itv_volume (heap mem s d).

  Lemma thin_run c m : good c -> thin m -> thin (run c m).
  Proof.
    intros (G1 & G2 & G3) Ht x. split; [apply run_wf; auto; intros y; apply Ht|].
    pose proof (run_contracts _ m G1 x) as Hs. fold run in Hs.
    assert (Hw : wf (run c m x)) by (apply run_wf; auto; intros y; apply Ht).
    destruct (Ht x) as (W & B). unfold run in *.
    destruct (run_ctc (n_ctc g c) m x) as [|[a|] [b|]]; auto; exfalso;
      destruct (m x) as [|[p|] [q|]]; try discriminate; try (destruct (Hs 0); cbn; auto; fail).
    - destruct (Hs a); cbn; lra.
    - destruct (Hs (Rmax a q + 1)) as [_ H2]; cbn in *; pose proof (Rmax_l a q); pose proof (Rmax_r a q); try split; auto; lra.
    - destruct (Hs b); cbn; auto; lra.
    - destruct (Hs (Rmin b p - 1)) as [H2 _]; cbn in *; pose proof (Rmin_l b p); pose proof (Rmin_r b p); try split; auto; lra.
    - destruct (Hs (p - 1)) as [H2 _]; cbn in *; auto; lra.
  Qed.
  Lemma sub_non_empty m m' : (forall x, wf (m' x)) -> msub m' m -> non_empty m' -> non_empty m.
  Proof.
    intros Hw Hs Hn x E. specialize (Hs x). rewrite E in Hs. specialize (Hn x). specialize (Hw x).
    destruct (m' x) as [|[a|] [b|]]; try congruence; [destruct (Hs a)|destruct (Hs a)|destruct (Hs b)|destruct (Hs 0)]; cbn in *; auto; lra.
  Qed.
  Lemma touched_scalar c : touched (n_doms g) (n_comps g) c = cells_of (n_ctc g c).
  Proof.
    destruct Hnet as (_ & N2 & _ & N4 & _). unfold touched. rewrite N4. induction (cells_of (n_ctc g c)) as [|d l IH]; cbn; auto.
    rewrite N2, IH. reflexivity.
  Qed.
  Lemma volume_scalar d m : volume d m = itv_volume (m d).
  Proof. destruct Hnet as (_ & _ & N3 & _). unfold volume. rewrite N3. reflexivity. Qed.

  Lemma step_J s : J s -> in_step s -> non_empty (heap mem (step s)) -> J (step s) /\ in_step (step s).
  Proof.
    intros (Q & Ht & Hg & Hw) Hi Hn. destruct (deque mem s) as [|c q] eqn:E.
    { assert (Es : step s = s) by (unfold step, CN.step; rewrite E; auto). rewrite Es. split; [exact (conj Q (conj Ht (conj Hg Hw)))|auto]. }
    destruct (step_heap mem run volume typ (n_doms g) (n_ctcs g) (n_comps g) (n_ratio g) c q s E) as (Eh & Ek).
    fold step in Eh, Ek.
    assert (Hcg : good c).
    { apply Hg. destruct Q as (_ & _ & Q3 & Q4 & _). apply Q4, Q3. rewrite E. left; auto. }
    assert (Q' : queue_ok mem typ (step s)) by (apply step_ok; auto).
    assert (Ht' : thin (heap mem (step s))) by (rewrite Eh; apply thin_run; auto).
    pose proof (trigger1s_spec mem run volume typ (n_doms g) (n_ctcs g) (n_comps g) (n_ratio g) (Some c) (touched (n_doms g) (n_comps g) c) (called mem run typ c q s)
      (called_ok mem run typ c q s E Q)) as G. cbn zeta in G.
    rewrite <- (step_eq mem run volume typ (n_doms g) (n_ctcs g) (n_comps g) (n_ratio g) c q s E) in G. fold step in G.
    destruct G as (_ & A & B & S1 & S2). rewrite touched_scalar in *.
    cbn [CN.heap CN.active CN.saved CN.deque CN.known called] in A, B, S1, S2.
    split.
    - split; [auto|split; [auto|split; [rewrite Ek; auto|]]].
      intros c' Hc'. rewrite Ek in Hc'.
      destruct (Nat.eq_dec c' c) as [->|Hne]; [right; rewrite Eh; apply Hcg|].
      destruct (Hw c' Hc') as [Hd|Hs].
      + left. rewrite E in Hd. destruct Hd as [Hd|Hd]; [congruence|].
        destruct Q' as (_ & _ & _ & _ & Q5). apply Q5; [|unfold typ; destruct (n_ctc g c'); discriminate].
        apply A. destruct Q as (_ & _ & Q3 & _). assert (Ha : active mem s c' = true) by (apply Q3; rewrite E; right; auto).
        destruct (is_cn _); auto. rewrite upd_other; auto.
      + destruct (existsb (fun x => negb (itv_eqb (heap mem (step s) x) (heap mem s x))) (cells_of (n_ctc g c'))) eqn:Ee.
        * apply existsb_exists in Ee. destruct Ee as (x & Hx & Ex). apply negb_true_iff, itv_eqb_false in Ex.
          left. destruct Q' as (_ & _ & _ & _ & Q5). apply Q5; [|unfold typ; destruct (n_ctc g c'); discriminate].
          assert (Hxc : List.In x (cells_of (n_ctc g c))).
          { destruct (in_dec Nat.eq_dec x (cells_of (n_ctc g c))); auto. exfalso. apply Ex. rewrite Eh. apply run_other; auto. }
          apply (B x); auto; [|apply Hnet; auto|congruence].
          destruct Hnet as (N1 & _). rewrite N1, volume_scalar, Hi. rewrite Eh in Ex.
          apply shrunk_strict; [rewrite <- Eh; apply Ht'|apply Ht|apply run_contracts; apply Hcg|rewrite <- Eh; apply Hn|apply Ht|exact Ex].
        * right. apply (stable_local _ (heap mem s)); auto; [apply Hg; auto|].
          intros x Hx. destruct (itv_eqb (heap mem (step s) x) (heap mem s x)) eqn:Ex; [apply itv_eqb_true; auto|].
          exfalso. apply not_true_iff_false in Ee. apply Ee. apply existsb_exists. exists x. split; auto. rewrite Ex. auto.
    - intros d. rewrite Eh. destruct (in_dec Nat.eq_dec d (cells_of (n_ctc g c))) as [Hd|Hd].
      + rewrite (S1 d Hd). apply volume_scalar.
      + rewrite (S2 d Hd). rewrite Hi. f_equal. symmetry. apply run_other; auto.
  Qed.

  Lemma loop_known n : forall s, known mem (loop n s) = known mem s.
  Proof.
    unfold loop. induction n as [|n IH]; intros s; cbn [CN.loop]; auto. destruct (deque mem s) as [|c q] eqn:E; auto.
    rewrite IH. eapply step_heap; eauto.
  Qed.
  Lemma loop_sub n : forall s, queue_ok mem typ s -> (forall c, List.In c (known mem s) -> good c) -> msub (heap mem (loop n s)) (heap mem s).
  Proof.
    intros s Q Hg.
    apply (loop_inv mem run volume typ (n_doms g) (n_ctcs g) (n_comps g) (n_ratio g) (fun h => msub h (heap mem s)) (fun c => good c)); auto.
    - intros c h Hc Hh x. apply (sub_trans _ (h x)); [|apply Hh]. apply run_contracts. apply Hc.
    - intros x. apply sub_refl.
  Qed.
  Lemma loop_thin n s : queue_ok mem typ s -> (forall c, List.In c (known mem s) -> good c) -> thin (heap mem s) -> thin (heap mem (loop n s)).
  Proof.
    intros Q Hg Ht.
    apply (loop_inv mem run volume typ (n_doms g) (n_ctcs g) (n_comps g) (n_ratio g) thin (fun c => good c)); auto.
    intros c h Hc Hh. apply thin_run; auto.
  Qed.
  Lemma loop_J n : forall s, J s -> in_step s -> non_empty (heap mem (loop n s)) -> J (loop n s).
  Proof.
    induction n as [|n IH]; intros s HJ Hi Hn; [auto|].
    destruct (deque mem s) as [|c q] eqn:E.
    { assert (El : loop (S n) s = s) by (apply loop_nil; auto). rewrite El. auto. }
    assert (El : loop (S n) s = loop n (step s)) by (apply (loop_S _ _ _ _ _ _ _ _ _ _ c q E)). rewrite El in *.
    assert (HJ' := HJ). destruct HJ' as (Q & Ht & Hg & Hw).
    destruct (step_heap mem run volume typ (n_doms g) (n_ctcs g) (n_comps g) (n_ratio g) c q s E) as (Eh & Ek). fold step in Eh, Ek.
    assert (Hgs : forall c, List.In c (known mem (step s)) -> good c) by (rewrite Ek; auto).
    assert (Qs : queue_ok mem typ (step s)) by (apply step_ok; auto).
    assert (Hn' : non_empty (heap mem (step s))).
    { apply (sub_non_empty _ (heap mem (loop n (step s)))); auto.
      - intros x. apply loop_thin; auto. rewrite Eh. apply thin_run; auto. apply Hg.
        destruct Q as (_ & _ & Q3 & Q4 & _). apply Q4, Q3. rewrite E. left; auto.
      - apply loop_sub; auto. }
    destruct (step_J s HJ Hi Hn') as (HJs & His). apply IH; auto.
  Qed.

  Lemma same_heap_J s s' : J s -> queue_ok mem typ s' -> heap mem s' = heap mem s -> known mem s' = known mem s ->
    (forall c, List.In c (deque mem s) -> stable (n_ctc g c) (heap mem s) \/ List.In c (deque mem s')) -> J s'.
  Proof.
    intros (Q & Ht & Hg & Hw) Q' E1 E2 Hd. unfold J, waiting_or_stable. rewrite E1, E2. split; [auto|split; [auto|split; [auto|]]].
    intros c Hc. destruct (Hw c Hc) as [H1|H1]; auto. destruct (Hd c H1); auto.
  Qed.
  Lemma trigger_all_queues : forall s c, queue_ok mem typ s -> List.In c (known mem s) ->
    List.In c (deque mem (trigger_all mem typ s)) \/ typ c = T_COMPONENT.
  Proof.
    intros s c Q Hc.
    assert (Q' := trigger_all_ok mem run volume typ (n_doms g) (n_ctcs g) (n_comps g) s Q). destruct Q' as (_ & _ & _ & _ & Q5).
    destruct (is_contracting (typ c)) eqn:Ec; [left|right; unfold typ in *; destruct (n_ctc g c); try discriminate; reflexivity].
    apply Q5; [|intros Et; rewrite Et in Ec; discriminate]. clear Q5. unfold trigger_all.
    assert (Hd : NoDup (known mem s)) by apply Q. revert Hc Hd.
    generalize (mkSt mem (heap mem s) (active mem s) (saved mem s) [] (known mem s)).
    induction (known mem s) as [|x l IH]; intros s1 Hc Hd; [contradiction|]. cbn [fold_left]. inversion Hd; subst.
    destruct Hc as [->|Hc]; [|apply IH; auto]. rewrite Ec.
    match goal with |- context [fold_left ?f l ?s2] => assert (G : forall l' s3, ~ List.In c l' -> active mem (fold_left f l' s3) c = active mem s3 c) end.
    { induction l' as [|y l' IH']; intros s3 Hn; cbn [fold_left]; auto. cbn in Hn. rewrite IH' by tauto.
      destruct (is_contracting (typ y)); cbn; apply upd_other; intros ->; tauto. }
    rewrite G by auto. cbn. apply upd_same.
  Qed.
  Lemma trigger_J d s : J s -> J (trigger mem volume typ (n_ctcs g) (n_comps g) (n_ratio g) d None s).
  Proof.
    intros HJ. pose proof HJ as (Q & Ht & Hg & Hw).
    assert (Q' : queue_ok mem typ (trigger mem volume typ (n_ctcs g) (n_comps g) (n_ratio g) d None s)).
    { apply (apply_ok mem run volume typ (n_doms g) (n_ctcs g) (n_comps g) (n_ratio g) (Trigger d)); auto. }
    destruct (trigger_heap mem volume typ (n_ctcs g) (n_comps g) (n_ratio g) d None s) as (E1 & E2).
    apply (same_heap_J s); auto. intros c Hc. right. destruct Q' as (_ & _ & _ & _ & Q5).
    apply Q5; [|unfold typ; destruct (n_ctc g c); discriminate].
    destruct (trigger1_spec mem run volume typ (n_doms g) (n_ctcs g) (n_comps g) (n_ratio g) d None s Q) as (Q1 & A1 & _).
    destruct (trigger1s_spec mem run volume typ (n_doms g) (n_ctcs g) (n_comps g) (n_ratio g) None (n_comps g d) _ Q1) as (_ & A2 & _).
    apply A2, A1. destruct Q as (_ & _ & Q3 & _). auto.
  Qed.
  Lemma add_J c s : good c -> J s -> J (add_ctc mem typ c s).
  Proof.
    intros Hc HJ. pose proof HJ as (Q & Ht & Hg & Hw). assert (Q' := add_ok mem run volume typ (n_doms g) (n_ctcs g) (n_comps g) c s Q).
    unfold J, waiting_or_stable. split; [auto|].
    unfold add_ctc in *. destruct (has c (known mem s)); [auto|]. cbn. split; [auto|split].
    - intros x [<-|Hx]; auto.
    - intros x Hx. rewrite (enqueue_in mem run volume typ (n_doms g) (n_ctcs g) (n_comps g) c). destruct Hx as [<-|Hx]; auto. destruct (Hw x Hx); auto.
  Qed.

  (** C31 for bounded scalar domains, when no domain becomes empty: whatever the history of the network, if no
      contractor is waiting, calling any contractor of the network changes nothing.
      Missing: unbounded domains and empty results, for which the claim is false
      ([C31_unbounded_refuted], [C31_degenerate_refuted]), vector domains, the ordered mode (tubes and tube vectors: [C117_fixed_point] of PropsDomNet.v). *)
  Theorem C31_fixed_point_partial : forall ops m,
    (forall x, wf (m x) /\ is_unbounded (m x) = false) ->
    (forall c, List.In (Add c) ops -> good c) -> (forall n, ~ List.In (Ordered n) ops) ->
    (forall x, final g ops m x <> Emp) ->
    deque mem (net_exec g ops m) = [] ->
    forall c, List.In c (known mem (net_exec g ops m)) -> stable (n_ctc g c) (final g ops m).
  Proof.
    intros ops m Hm Hg Ho Hn Hd.
    enough (HJ : J (net_exec g ops m)).
    { intros c Hc. destruct HJ as (_ & _ & _ & Hw). destruct (Hw c Hc) as [H1|H1]; auto. rewrite Hd in H1. destruct H1. }
    unfold final, net_exec in *. clear Hd.
    assert (HJ : J (init mem m)).
    { split; [apply queue_ok_init|split; [auto|split; [intros c []|intros c []]]]. }
    revert HJ Hg Ho Hn. generalize (init mem m). clear m Hm. unfold exec.
    induction ops as [|o ops IH]; intros s HJ Hg Ho Hn; cbn [fold_left] in *; auto.
    pose proof HJ as (Q & Ht & Hgk & Hw).
    apply IH; auto.
    2:{ intros c Hc. apply Hg. right; auto. }
    2:{ intros n Hc. apply (Ho n). right; auto. }
    assert (Hne : non_empty (heap mem (apply mem run volume typ (n_doms g) (n_ctcs g) (n_comps g) (n_ratio g) o s))).
    { set (s1 := apply mem run volume typ (n_doms g) (n_ctcs g) (n_comps g) (n_ratio g) o s) in *.
      assert (Q1 : queue_ok mem typ s1) by (apply apply_ok; auto).
      assert (K1 : forall c, List.In c (known mem s1) -> good c).
      { intros c Hc. destruct (exec_known mem run volume typ (n_doms g) (n_ctcs g) (n_comps g) (n_ratio g) [o] s c Hc) as [Hk|[->|[]]]; auto.
        apply Hg. left; auto. }
      assert (T1 : thin (heap mem s1)).
      { apply (exec_inv mem run volume typ (n_doms g) (n_ctcs g) (n_comps g) (n_ratio g) thin good) with (ops := [o]); auto.
        - intros c h Hc Hh. apply thin_run; auto.
        - intros c [->|[]]. apply Hg. left; auto. }
      apply (sub_non_empty _ (heap mem (exec mem run volume typ (n_doms g) (n_ctcs g) (n_comps g) (n_ratio g) ops s1))).
      - intros x. apply (exec_inv mem run volume typ (n_doms g) (n_ctcs g) (n_comps g) (n_ratio g) thin good); auto.
        + intros c h Hc Hh. apply thin_run; auto.
        + intros c Hc. apply Hg. right; auto.
      - apply (exec_inv mem run volume typ (n_doms g) (n_ctcs g) (n_comps g) (n_ratio g) (fun h => msub h (heap mem s1)) good); auto.
        + intros c h Hc Hh x. apply (sub_trans _ (h x)); [|apply Hh]. apply run_contracts. apply Hc.
        + intros c Hc. apply Hg. right; auto.
        + intros x. apply sub_refl.
      - exact Hn. }
    destruct o; cbn [apply] in Hne |- *.
    - apply add_J; auto. apply Hg. left; auto.
    - unfold contract in *. apply loop_J; [|intros d; apply volume_scalar|exact Hne].
      apply (same_heap_J s); auto.
    - exfalso. apply (Ho n). left; auto.
    - assert (Q' := trigger_all_ok mem run volume typ (n_doms g) (n_ctcs g) (n_comps g) s Q). destruct (trigger_all_heap mem typ s) as (E1 & E2).
      apply (same_heap_J s); auto. intros c Hc.
      destruct (trigger_all_queues s c Q) as [Hq|Ht']; auto.
      { destruct Q as (_ & _ & Q3 & Q4 & _). auto. }
      left. unfold typ in Ht'. intros x. destruct (n_ctc g c); try discriminate. reflexivity.
    - apply trigger_J; auto.
  Qed.
End FixedPoint.

(** *** An example and two counterexamples *)
Lemma clip_one i j : clip [j] [i] = [inter i j].
Proof.
  unfold clip, ctc_box, b_inter, b_is_empty, map2, b_set_empty. cbn [length Nat.eqb existsb map].
  destruct i as [|a b]; cbn [is_empty]; [reflexivity|]. destruct j as [|c d]; cbn [is_empty]; [reflexivity|].
  destruct (inter (Itv a b) (Itv c d)) eqn:E; cbn; rewrite ?E; reflexivity.
Qed.
Lemma clip_good j x g c : n_ctc g c = Ibex (clip [j]) [x] -> good g c.
Proof.
  intros E. unfold good. rewrite E. split; [apply clip_contracts|split; [apply clip_boxes|]].
  intros m y. cbn [run_ctc map write_back]. rewrite !clip_one. cbn [write_back]. unfold upd.
  rewrite Nat.eqb_refl. destruct (Nat.eqb y x); auto. apply wf_ext; auto using wf_inter. intro; rewrite !In_inter; tauto.
Qed.
Lemma eq_good x y g c : x <> y -> n_ctc g c = Ibex ctc_eq [x; y] -> good g c.
Proof.
  intros Hn E. unfold good. rewrite E. split; [apply ctc_eq_contracts|split].
  - intros b Hb. destruct b as [|i [|j [|k b]]]; cbn [ctc_eq]; auto. repeat constructor; apply wf_inter.
  - intros m z. cbn [run_ctc map write_back ctc_eq]. unfold upd. rewrite !Nat.eqb_refl.
    destruct (Nat.eqb_spec x y); [contradiction|]. cbn.
    assert (G : forall i, inter (inter i (m y)) (inter i (m y)) = inter i (m y)).
    { intros i. apply wf_ext; auto using wf_inter. intro; rewrite !In_inter; tauto. }
    destruct (Nat.eqb z y); [apply G|]. destruct (Nat.eqb z x); [apply G|reflexivity].
Qed.
Lemma bnd_volume a b : a <= b -> itv_volume (bnd a b) = Fin (b - a).
Proof. intros H. unfold bnd, mk. destruct (Rle_dec a b); [reflexivity|lra]. Qed.
Lemma bnd_thin a b : a <= b -> wf (bnd a b) /\ is_unbounded (bnd a b) = false /\ bnd a b <> Emp.
Proof. intros H. unfold bnd, mk. destruct (Rle_dec a b); [cbn; repeat split; auto; discriminate|lra]. Qed.
Lemma inter_bnd a b c d : a <= c -> c <= d -> d <= b -> inter (bnd a b) (bnd c d) = bnd c d.
Proof.
  intros. rewrite inter_comm. apply inter_sub_eq; [apply bnd_thin; lra|]. intros x Hx. apply In_bnd in Hx. apply In_bnd. lra.
Qed.
Lemma ratio_of (c s r : R) : 0 < s -> shrunk r (Fin c) (Fin s) = Rltb c ((1 - r) * s).
Proof.
  intros Hs. unfold shrunk. rewrite (proj2 (Reqb_false s 0)) by lra.
  destruct (Rltb c ((1 - r) * s)) eqn:E.
  - apply Rltb_true in E. apply Rltb_true. apply Rmult_lt_reg_r with s; auto. unfold Rdiv. rewrite Rmult_assoc, Rinv_l by lra. lra.
  - apply Rltb_false in E. apply Rltb_false. apply Rmult_le_reg_r with s; auto. unfold Rdiv. rewrite Rmult_assoc, Rinv_l by lra. lra.
Qed.

Lemma ex_scalar : scalar_net ex_net.
Proof.
  split; [reflexivity|]. split; [reflexivity|]. split; [reflexivity|]. split; [reflexivity|].
  intros c d Hd. destruct c as [|[|c]]; cbn in Hd.
  - destruct Hd as [<-|[]]. cbn; auto.
  - destruct Hd as [<-|[<-|[]]]; cbn; auto.
  - destruct Hd.
Qed.
Lemma step_loud H run volume typ cdoms dctcs dcomps ratio s c q d act local :
  deque H s = c :: q -> touched cdoms dcomps c = [d] ->
  shrunk ratio (volume d (run c (heap H s))) (saved H s d) = true ->
  activate typ (filter (fun c => has c (known H s)) (dctcs d)) (Some c) (if is_cn (typ c) then active H s else upd (active H s) c false) [] = (act, local) ->
  let s' := step H run volume typ cdoms dctcs dcomps ratio s in
  deque H s' = rev local ++ q /\ heap H s' = run c (heap H s) /\ active H s' = act /\
  (forall e, saved H s' e = if Nat.eqb e d then volume d (run c (heap H s)) else saved H s e).
Proof.
  intros E Et Es Ea. cbn zeta. rewrite (step_eq _ _ _ _ _ _ _ _ c q s E), Et. cbn [fold_left]. unfold trigger1.
  cbn [CN.heap CN.active CN.saved CN.deque CN.known called] in *. rewrite Es, Ea, push_all. cbn. auto.
Qed.
(** [x in [2,5]] and [x = y] with [x], [y] initially [[0,10]]: three calls, then the queue is empty *)
Lemma ex_run : let s := net_exec ex_net [Add 0; Add 1; Contract 3] ex_mem in
  deque mem s = [] /\ heap mem s 0%nat = bnd 2 5 /\ heap mem s 1%nat = bnd 2 5 /\ forall x, (2 <= x)%nat -> heap mem s x = bnd 0 10.
Proof.
  unfold net_exec, exec. cbn [fold_left apply]. unfold contract.
  set (run := fun c => _). set (volume := fun d => _). set (typ := fun c => typ_of _).
  rewrite (loop_S mem _ _ _ _ _ _ _ 2 _ 1%nat [0%nat]) by reflexivity.
  set (s0 := save_volumes _ _ _).
  assert (Hh0 : forall x, heap mem s0 x = bnd 0 10) by reflexivity.
  assert (Hs0 : forall x, saved mem s0 x = itv_volume (bnd 0 10)) by reflexivity.
  assert (H1 : forall x, run 1%nat (heap mem s0) x = bnd 0 10).
  { intros x. unfold run. cbn [n_ctc ex_net ex_ctc run_ctc map ctc_eq write_back]. unfold upd. rewrite !Hh0, inter_bnd by lra.
    destruct (Nat.eqb x 1); auto. destruct (Nat.eqb x 0); auto. }
  destruct (step_quiet mem run volume typ (n_doms ex_net) (n_ctcs ex_net) (n_comps ex_net) (n_ratio ex_net) s0 1%nat [0%nat] eq_refl) as (D1 & Hp1 & A1 & S1).
  { repeat constructor; cbn; intuition discriminate. }
  { intros d _. rewrite Hs0. unfold volume. cbn [n_cells ex_net dom_volume]. rewrite H1, bnd_volume, ratio_of by lra. apply Rltb_false. cbn; lra. }
  pose proof (proj2 (step_heap mem run volume typ (n_doms ex_net) (n_ctcs ex_net) (n_comps ex_net) (n_ratio ex_net) 1%nat [0%nat] s0 eq_refl)) as K1.
  set (s1 := step _ _ _ _ _ _ _ _ s0) in *. change (known mem s0) with [1%nat; 0%nat] in K1.
  assert (Hh1 : forall x, heap mem s1 x = bnd 0 10) by (intros x; rewrite Hp1; apply H1).
  assert (Hs1 : forall x, saved mem s1 x = Fin (10 - 0)).
  { intros x. rewrite S1. rewrite <- bnd_volume by lra. destruct (has _ _); [|apply Hs0]. unfold volume. cbn [n_cells ex_net dom_volume]. rewrite H1. auto. }
  assert (H2 : forall x, run 0%nat (heap mem s1) x = if Nat.eqb x 0 then bnd 2 5 else bnd 0 10).
  { intros x. unfold run. cbn [n_ctc ex_net ex_ctc run_ctc map]. rewrite clip_one, Hh1, inter_bnd by lra. cbn [write_back]. unfold upd.
    destruct (Nat.eqb x 0); auto. }
  rewrite (loop_S mem _ _ _ _ _ _ _ 1 _ 0%nat []) by exact D1.
  destruct (step_loud mem run volume typ (n_doms ex_net) (n_ctcs ex_net) (n_comps ex_net) (n_ratio ex_net) s1 0%nat [] 0%nat
    (upd (upd (active mem s1) 0%nat false) 1%nat true) [1%nat] D1 eq_refl) as (D2 & Hp2 & A2 & S2).
  { rewrite Hs1. unfold volume. cbn [n_cells ex_net dom_volume]. rewrite H2. cbn [Nat.eqb]. rewrite bnd_volume, ratio_of by lra. apply Rltb_true. cbn; lra. }
  { rewrite K1, A1. reflexivity. }
  pose proof (proj2 (step_heap mem run volume typ (n_doms ex_net) (n_ctcs ex_net) (n_comps ex_net) (n_ratio ex_net) 0%nat [] s1 D1)) as K2.
  set (s2 := step _ _ _ _ _ _ _ _ s1) in *. rewrite K1 in K2. cbn [rev app] in D2.
  assert (Hh2 : forall x, heap mem s2 x = if Nat.eqb x 0 then bnd 2 5 else bnd 0 10) by (intros x; rewrite Hp2; apply H2).
  assert (H3 : forall x, run 1%nat (heap mem s2) x = if Nat.ltb x 2 then bnd 2 5 else bnd 0 10).
  { intros x. unfold run. cbn [n_ctc ex_net ex_ctc run_ctc map ctc_eq write_back]. rewrite !Hh2. cbn [Nat.eqb]. rewrite inter_comm, inter_bnd by lra.
    unfold upd. destruct x as [|[|x]]; cbn; auto. rewrite Hh2. auto. }
  rewrite (loop_S mem _ _ _ _ _ _ _ 0 _ 1%nat []) by exact D2. cbn [loop].
  split.
  - rewrite (step_eq _ _ _ _ _ _ _ _ 1%nat [] s2 D2). cbn [touched n_doms ex_net cells_of ex_ctc flat_map n_comps app fold_left].
    rewrite (trigger1_quiet _ _ _ _ _ 0%nat).
    + unfold trigger1. cbn [CN.heap CN.active CN.saved CN.deque CN.known called]. rewrite K2. destruct (shrunk _ _ _); reflexivity.
    + cbn [CN.heap CN.saved called]. rewrite S2. cbn [Nat.eqb]. unfold volume. cbn [n_cells ex_net dom_volume]. rewrite H3, H2. cbn [Nat.eqb Nat.ltb Nat.leb].
      rewrite bnd_volume, ratio_of by lra. apply Rltb_false. cbn; lra.
  - rewrite (proj1 (step_heap _ _ _ _ _ _ _ _ 1%nat [] s2 D2)). rewrite !H3. split; [reflexivity|split; [reflexivity|]].
    intros x Hx. rewrite H3. destruct (Nat.ltb_spec x 2); auto. lia.
Qed.
Example C31_example : forall c, (c < 2)%nat -> stable (ex_ctc c) (final ex_net [Add 0; Add 1; Contract 3] ex_mem).
Proof.
  pose proof ex_run as (D & H0 & H1 & H2). cbn zeta in *.
  intros c Hc. apply (C31_fixed_point_partial ex_net ex_scalar); auto.
  - intros x. destruct (bnd_thin 0 10) as (B1 & B2 & _); [lra|]. auto.
  - intros x Hx. repeat destruct Hx as [Hx|Hx]; try discriminate; try contradiction; inversion Hx; subst.
    + apply (clip_good (bnd 2 5) 0); reflexivity.
    + apply (eq_good 0 1); [discriminate|reflexivity].
  - intros n Hx. repeat destruct Hx as [Hx|Hx]; try discriminate; contradiction.
  - intros x. unfold final. destruct x as [|[|x]]; [rewrite H0|rewrite H1|rewrite H2 by lia]; apply bnd_thin; lra.
  - clear - Hc. assert (K : known mem (net_exec ex_net [Add 0; Add 1; Contract 3] ex_mem) = [1%nat; 0%nat]).
    { unfold net_exec, exec. cbn [fold_left apply]. unfold contract.
      assert (G : forall n s, known mem (loop mem (fun c => run_ctc (n_ctc ex_net c)) (fun d => dom_volume (n_cells ex_net d)) (fun c => typ_of (n_ctc ex_net c))
        (n_doms ex_net) (n_ctcs ex_net) (n_comps ex_net) (n_ratio ex_net) n s) = known mem s).
      { intros n s. apply (loop_known ex_net). }
      rewrite G. reflexivity. }
    rewrite K. destruct c as [|[|c]]; cbn; auto. lia.
Qed.

(** a run of calls without significant contraction *)
Section QuietRun.
  Variable H : Type.
  Variable run : nat -> H -> H.
  Variable volume : nat -> H -> vol.
  Variable typ : nat -> ctype.
  Variable cdoms dctcs dcomps : nat -> list nat.
  Variable ratio : R.
  Fixpoint quiet (l : list nat) (m : H) : Prop :=
    match l with
    | [] => True
    | c :: l => NoDup (touched cdoms dcomps c) /\
        (forall d, List.In d (touched cdoms dcomps c) -> shrunk ratio (volume d (run c m)) (volume d m) = false) /\
        (forall d, ~ List.In d (touched cdoms dcomps c) -> volume d (run c m) = volume d m) /\ quiet l (run c m)
    end.
  Lemma loop_quiet : forall l s, deque H s = l -> (forall d, saved H s d = volume d (heap H s)) -> quiet l (heap H s) ->
    deque H (loop H run volume typ cdoms dctcs dcomps ratio (length l) s) = [] /\
    heap H (loop H run volume typ cdoms dctcs dcomps ratio (length l) s) = fold_left (fun h c => run c h) l (heap H s).
  Proof.
    induction l as [|c l IH]; intros s E Hs Hq; cbn [length fold_left]; [cbn [loop]; auto|].
    destruct Hq as (Q1 & Q2 & Q3 & Q4). rewrite (loop_S _ _ _ _ _ _ _ _ _ _ c l E).
    destruct (step_quiet H run volume typ cdoms dctcs dcomps ratio s c l E Q1) as (D & Hh & _ & Sv).
    { intros d Hd. rewrite Hs. auto. }
    rewrite <- Hh in Q4 |- *. apply IH; auto.
    intros d. rewrite Sv, Hh. destruct (has d (touched cdoms dcomps c)) eqn:Ed; auto.
    rewrite Hs. symmetry. apply Q3. intros Hd. apply has_spec in Hd. congruence.
  Qed.
End QuietRun.

(** two contractors on [x] and one linking [x] and [y]: [f] on cell 0, then [x = y] *)
Definition two_ctc (f g : list itv -> list itv) (c : nat) : contractor :=
  match c with 0%nat => Ibex f [0%nat] | 1%nat => Ibex ctc_eq [0%nat; 1%nat] | 2%nat => Ibex g [0%nat] | _ => Component end.
Definition two_net (f g : list itv -> list itv) (r : R) : net :=
  mkNet (two_ctc f g) (fun c => cells_of (two_ctc f g c)) (fun d => match d with 0%nat => [0%nat; 1%nat; 2%nat] | 1%nat => [1%nat] | _ => [] end)
    (fun _ => []) (fun d => [d]) r.
Lemma two_scalar f g : scalar_net (two_net f g 0).
Proof.
  split; [reflexivity|]. split; [reflexivity|]. split; [reflexivity|]. split; [reflexivity|].
  intros c d Hd. destruct c as [|[|[|c]]]; cbn in Hd.
  - destruct Hd as [<-|[]]. cbn; auto.
  - destruct Hd as [<-|[<-|[]]]; cbn; auto.
  - destruct Hd as [<-|[]]. cbn; auto.
  - destruct Hd.
Qed.
Lemma known_contract g ops n m : known mem (net_exec g (ops ++ [Contract n]) m) = known mem (net_exec g ops m).
Proof.
  unfold net_exec, exec. rewrite fold_left_app. cbn [fold_left apply]. unfold contract.
  rewrite (loop_known g). reflexivity.
Qed.
Lemma net_quiet g ops l m :
  deque mem (net_exec g ops m) = l ->
  heap mem (net_exec g ops m) = m ->
  quiet mem (fun c => run_ctc (n_ctc g c)) (fun d => dom_volume (n_cells g d)) (n_doms g) (n_comps g) (n_ratio g) l m ->
  deque mem (net_exec g (ops ++ [Contract (length l)]) m) = [] /\
  final g (ops ++ [Contract (length l)]) m = fold_left (fun h c => run_ctc (n_ctc g c) h) l m.
Proof.
  intros D Hh Hq. unfold final, net_exec, exec in *. rewrite fold_left_app. cbn [fold_left apply]. unfold contract.
  match goal with |- context [save_volumes _ _ ?s0] => set (s := s0) in * end.
  edestruct (loop_quiet mem (fun c => run_ctc (n_ctc g c)) (fun d => dom_volume (n_cells g d)) (fun c => typ_of (n_ctc g c)) (n_doms g) (n_ctcs g) (n_comps g)
    (n_ratio g) l (save_volumes mem (fun d => dom_volume (n_cells g d)) s)) as (E1 & E2); auto.
  - cbn. rewrite Hh. auto.
  - split; [exact E1|]. etransitivity; [exact E2|]. cbn. rewrite Hh. reflexivity.
Qed.

(** C31 fails with unbounded domains: with [x], [y] initially (-oo,+oo), contracting [x = y] then [x >= 0], the
    volume 999999 of [x] does not change, [x = y] is not called again, and [y] stays (-oo,+oo). *)
Theorem C31_unbounded_refuted : exists g ops m c,
  scalar_net g /\ (forall c, List.In (Add c) ops -> good g c) /\ (forall x, wf (m x)) /\ (forall n, ~ List.In (Ordered n) ops) /\
  (forall x, final g ops m x <> Emp) /\ deque mem (net_exec g ops m) = [] /\ List.In c (known mem (net_exec g ops m)) /\
  ~ stable (n_ctc g c) (final g ops m).
Proof.
  set (g := two_net (clip [POS]) (clip [POS]) 0). set (m := (fun _ => ALL) : mem).
  assert (E : inter ALL ALL = ALL) by reflexivity.
  assert (E0 : inter ALL POS = POS) by (cbn; reflexivity).
  assert (Hv : itv_volume ALL = Fin 999999) by reflexivity.
  assert (Hv' : itv_volume POS = Fin 999999) by reflexivity.
  assert (R1 : forall x, run_ctc (n_ctc g 1%nat) m x = ALL).
  { intros x. cbn [g two_net n_ctc two_ctc run_ctc map ctc_eq write_back]. unfold m, upd. rewrite E. destruct (Nat.eqb x 1); auto. destruct (Nat.eqb x 0); auto. }
  assert (R2 : forall h, (forall x, h x = ALL) -> forall x, run_ctc (n_ctc g 0%nat) h x = if Nat.eqb x 0 then POS else ALL).
  { intros h Hh x. cbn [g two_net n_ctc two_ctc run_ctc map]. rewrite clip_one, Hh, E0. cbn [write_back]. unfold upd. rewrite Hh. auto. }
  destruct (net_quiet g [Add 0; Add 1] [1%nat; 0%nat] m eq_refl eq_refl) as (D & F).
  { cbn [quiet]. unfold touched. cbn [g two_net n_doms n_comps n_cells cells_of two_ctc flat_map app dom_volume n_ratio].
    assert (Sf : shrunk 0 (Fin 999999) (Fin 999999) = false).
    { rewrite ratio_of by lra. apply Rltb_false. lra. }
    repeat split.
    - repeat constructor; cbn; intuition discriminate.
    - intros d _. rewrite (R1 d). unfold m. rewrite Hv. apply Sf.
    - intros d _. rewrite (R1 d). reflexivity.
    - repeat constructor; cbn; intuition discriminate.
    - intros d _. rewrite (R2 _ R1 d), (R1 d). destruct (Nat.eqb d 0); rewrite ?Hv, ?Hv'; apply Sf.
    - intros d _. rewrite (R2 _ R1 d), (R1 d). destruct (Nat.eqb d 0); rewrite ?Hv, ?Hv'; reflexivity. }
  cbn [length app fold_left] in D, F.
  assert (Ff : forall x, final g [Add 0; Add 1; Contract 2] m x = if Nat.eqb x 0 then POS else ALL).
  { intros x. rewrite F. apply (R2 _ R1). }
  exists g, [Add 0; Add 1; Contract 2], m, 1%nat.
  split; [apply two_scalar|]. split; [|split; [|split; [|split; [|split; [|split]]]]].
  - intros c Hx. repeat destruct Hx as [Hx|Hx]; try discriminate; try contradiction; inversion Hx; subst.
    + apply (clip_good POS 0); reflexivity.
    + apply (eq_good 0 1); [discriminate|reflexivity].
  - intros x. cbn. auto.
  - intros n Hx. repeat destruct Hx as [Hx|Hx]; try discriminate; contradiction.
  - intros x. rewrite Ff. destruct (Nat.eqb x 0); discriminate.
  - exact D.
  - rewrite (known_contract g [Add 0; Add 1] 2). cbn. auto.
  - intros Hs. specialize (Hs 1%nat). cbn [g two_net n_ctc two_ctc run_ctc map ctc_eq write_back] in Hs. fold g in Hs.
    rewrite !Ff in Hs. cbn in Hs. discriminate.
Qed.

(** C31 fails when a degenerate domain becomes empty: both volumes are 0, so nothing is triggered and
    [y] is left non-empty. *)
Theorem C31_degenerate_refuted : exists g ops m c,
  scalar_net g /\ (forall c, List.In (Add c) ops -> good g c) /\ (forall x, wf (m x) /\ is_unbounded (m x) = false) /\
  (forall n, ~ List.In (Ordered n) ops) /\ deque mem (net_exec g ops m) = [] /\ List.In c (known mem (net_exec g ops m)) /\
  ~ stable (n_ctc g c) (final g ops m).
Proof.
  set (g := two_net (clip [bnd 2 3]) (clip [bnd 2 3]) 0). set (m := (fun _ => pt 1) : mem).
  assert (E : inter (pt 1) (pt 1) = pt 1).
  { apply inter_sub_eq; [cbn; lra|apply sub_refl]. }
  assert (E0 : inter (pt 1) (bnd 2 3) = Emp).
  { apply wf_ext; [apply wf_inter|exact I|]. intros x. rewrite In_inter, In_bnd. cbn. lra. }
  assert (Hv : itv_volume (pt 1) = Fin 0) by (unfold itv_volume; cbn; f_equal; lra).
  assert (Hv' : itv_volume Emp = Fin 0) by reflexivity.
  assert (R1 : forall x, run_ctc (n_ctc g 1%nat) m x = pt 1).
  { intros x. cbn [g two_net n_ctc two_ctc run_ctc map ctc_eq write_back]. unfold m, upd. rewrite E. destruct (Nat.eqb x 1); auto. destruct (Nat.eqb x 0); auto. }
  assert (R2 : forall h, (forall x, h x = pt 1) -> forall x, run_ctc (n_ctc g 0%nat) h x = if Nat.eqb x 0 then Emp else pt 1).
  { intros h Hh x. cbn [g two_net n_ctc two_ctc run_ctc map]. rewrite clip_one, Hh, E0. cbn [write_back]. unfold upd. rewrite Hh. auto. }
  destruct (net_quiet g [Add 0; Add 1] [1%nat; 0%nat] m eq_refl eq_refl) as (D & F).
  { cbn [quiet]. unfold touched. cbn [g two_net n_doms n_comps n_cells cells_of two_ctc flat_map app dom_volume n_ratio].
    assert (Sf : shrunk 0 (Fin 0) (Fin 0) = false).
    { unfold shrunk. rewrite Reqb_refl, (proj2 (Rltb_false 0 0)) by lra. reflexivity. }
    repeat split.
    - repeat constructor; cbn; intuition discriminate.
    - intros d _. rewrite (R1 d). unfold m. rewrite Hv. apply Sf.
    - intros d _. rewrite (R1 d). reflexivity.
    - repeat constructor; cbn; intuition discriminate.
    - intros d _. rewrite (R2 _ R1 d), (R1 d). destruct (Nat.eqb d 0); rewrite ?Hv, ?Hv'; apply Sf.
    - intros d _. rewrite (R2 _ R1 d), (R1 d). destruct (Nat.eqb d 0); rewrite ?Hv, ?Hv'; reflexivity. }
  cbn [length app fold_left] in D, F.
  assert (Ff : forall x, final g [Add 0; Add 1; Contract 2] m x = if Nat.eqb x 0 then Emp else pt 1).
  { intros x. rewrite F. apply (R2 _ R1). }
  exists g, [Add 0; Add 1; Contract 2], m, 1%nat.
  split; [apply two_scalar|]. split; [|split; [|split; [|split; [|split]]]].
  - intros c Hx. repeat destruct Hx as [Hx|Hx]; try discriminate; try contradiction; inversion Hx; subst.
    + apply (clip_good (bnd 2 3) 0); reflexivity.
    + apply (eq_good 0 1); [discriminate|reflexivity].
  - intros x. cbn. split; auto. lra.
  - intros n Hx. repeat destruct Hx as [Hx|Hx]; try discriminate; contradiction.
  - exact D.
  - rewrite (known_contract g [Add 0; Add 1] 2). cbn. auto.
  - intros Hs. specialize (Hs 1%nat). cbn [g two_net n_ctc two_ctc run_ctc map ctc_eq write_back] in Hs. fold g in Hs.
    rewrite !Ff in Hs. cbn in Hs. discriminate.
Qed.

(** C30 fails for contractions made of several small ones: [x = y] is called first, then two contractors
    reduce [x] to 60% and 67% of its width with a ratio 0.5; [x] has lost 60% of its width since the only
    call of [x = y], which is not waiting. *)
Theorem C30_drift_refuted : exists g ops m c q d n,
  deque mem (net_exec g ops m) = c :: q /\ List.In d (n_doms g c) /\ List.In c (n_ctcs g d) /\ n_ratio g = 1 / 2 /\
  shrunk (n_ratio g) (dom_volume (n_cells g d) (final g (ops ++ [Contract n]) m)) (dom_volume (n_cells g d) (final g (ops ++ [Contract 1]) m)) = true /\
  deque mem (net_exec g (ops ++ [Contract n]) m) = [].
Proof.
  set (g := two_net (clip [bnd 0 6]) (clip [bnd 0 4]) (1 / 2)). set (m := (fun _ => bnd 0 10) : mem).
  assert (R1 : forall x, run_ctc (n_ctc g 1%nat) m x = bnd 0 10).
  { intros x. cbn [g two_net n_ctc two_ctc run_ctc map ctc_eq write_back]. unfold m, upd. rewrite inter_bnd by lra. destruct (Nat.eqb x 1); auto. destruct (Nat.eqb x 0); auto. }
  assert (R2 : forall h, (forall x, h x = bnd 0 10) -> forall x, run_ctc (n_ctc g 0%nat) h x = if Nat.eqb x 0 then bnd 0 6 else bnd 0 10).
  { intros h Hh x. cbn [g two_net n_ctc two_ctc run_ctc map]. rewrite clip_one, Hh, inter_bnd by lra. cbn [write_back]. unfold upd. rewrite Hh. auto. }
  assert (R3 : forall h, (forall x, h x = if Nat.eqb x 0 then bnd 0 6 else bnd 0 10) -> forall x, run_ctc (n_ctc g 2%nat) h x = if Nat.eqb x 0 then bnd 0 4 else bnd 0 10).
  { intros h Hh x. cbn [g two_net n_ctc two_ctc run_ctc map]. rewrite clip_one, Hh. cbn [Nat.eqb]. rewrite inter_bnd by lra. cbn [write_back]. unfold upd. rewrite Hh.
    destruct (Nat.eqb x 0); auto. }
  destruct (net_quiet g [Add 2; Add 0; Add 1] [1%nat; 0%nat; 2%nat] m eq_refl eq_refl) as (D & F).
  { cbn [quiet]. unfold touched. cbn [g two_net n_doms n_comps n_cells cells_of two_ctc flat_map app dom_volume n_ratio].
    repeat split.
    - repeat constructor; cbn; intuition discriminate.
    - intros d _. rewrite (R1 d). unfold m. rewrite bnd_volume, ratio_of by lra. apply Rltb_false. lra.
    - intros d _. rewrite (R1 d). reflexivity.
    - repeat constructor; cbn; intuition discriminate.
    - intros d _. rewrite (R2 _ R1 d), (R1 d). destruct (Nat.eqb d 0); rewrite !bnd_volume, ratio_of by lra; apply Rltb_false; lra.
    - intros d Hd. rewrite (R2 _ R1 d), (R1 d). destruct (Nat.eqb_spec d 0); auto. cbn in Hd. exfalso; auto.
    - repeat constructor; cbn; intuition discriminate.
    - intros d _. rewrite (R3 _ (R2 _ R1) d), (R2 _ R1 d). destruct (Nat.eqb d 0); rewrite !bnd_volume, ratio_of by lra; apply Rltb_false; lra.
    - intros d Hd. rewrite (R3 _ (R2 _ R1) d), (R2 _ R1 d). destruct (Nat.eqb_spec d 0); auto. cbn in Hd. exfalso; auto. }
  exists g, [Add 2; Add 0; Add 1], m, 1%nat, [0%nat; 2%nat], 0%nat, 3%nat.
  split; [reflexivity|]. split; [cbn; auto|]. split; [cbn; auto|]. split; [reflexivity|]. split; [|exact D].
  cbn [length fold_left] in F. rewrite F. cbn [g two_net n_cells dom_volume n_ratio]. fold g.
  rewrite (R3 _ (R2 _ R1) 0%nat). cbn [Nat.eqb].
  assert (F1 : final g ([Add 2; Add 0; Add 1] ++ [Contract 1]) m = run_ctc (n_ctc g 1%nat) m).
  { unfold final, net_exec, exec. rewrite fold_left_app. cbn [fold_left apply]. unfold contract.
    rewrite (loop_S _ _ _ _ _ _ _ _ _ _ 1%nat [0%nat; 2%nat]) by reflexivity. cbn [loop].
    rewrite (fun s E => proj1 (step_heap mem _ _ _ _ _ _ _ 1%nat [0%nat; 2%nat] s E)) by reflexivity. reflexivity. }
  rewrite F1, R1, !bnd_volume, ratio_of by lra. apply Rltb_true. lra.
Qed.

(** C30 fails for sub-networks: contractor 0 stands for a sub-network (it contains [x = y]); once called it stays
    active, so a later significant contraction of [x] by contractor 1 does not queue it again. *)
Definition sub_ctc (c : nat) : contractor :=
  match c with 0%nat => Ibex ctc_eq [0%nat; 1%nat] | 1%nat => Ibex (clip [bnd 0 1]) [0%nat] | _ => Component end.
Definition sub_typ (c : nat) : ctype := match c with 0%nat => T_CN | _ => T_IBEX end.
Definition sub_dctcs (d : nat) : list nat := match d with 0%nat => [0%nat; 1%nat] | 1%nat => [0%nat] | _ => [] end.
Definition sub_exec ops : state mem :=
  exec mem (fun c => run_ctc (sub_ctc c)) (fun d => dom_volume [d]) sub_typ (fun c => cells_of (sub_ctc c)) sub_dctcs (fun _ => []) 0 ops (init mem ex_mem).
Theorem C30_subnetwork_refuted : exists ops c q d c',
  let s := sub_exec ops in
  deque mem s = c :: q /\ List.In d (cells_of (sub_ctc c)) /\ List.In c' (sub_dctcs d) /\ List.In c' (known mem s) /\ c' <> c /\
  shrunk 0 (dom_volume [d] (run_ctc (sub_ctc c) (heap mem s))) (dom_volume [d] (heap mem s)) = true /\
  ~ List.In c' (deque mem (step mem (fun c => run_ctc (sub_ctc c)) (fun d => dom_volume [d]) sub_typ (fun c => cells_of (sub_ctc c)) sub_dctcs (fun _ => []) 0 s)).
Proof.
  exists [Add 1; Add 0; Contract 1], 1%nat, [], 0%nat, 0%nat. cbn zeta.
  unfold sub_exec, exec. cbn [fold_left apply]. unfold contract.
  set (run := fun c => _). set (volume := fun d => dom_volume _). set (cdoms := fun c => cells_of _). set (dcomps := fun _ : nat => []).
  rewrite (loop_S _ _ _ _ _ _ _ _ _ _ 0%nat [1%nat]) by reflexivity. cbn [loop].
  set (s0 := save_volumes _ _ _).
  assert (H0 : forall x, run 0%nat (heap mem s0) x = bnd 0 10).
  { intros x. unfold run. cbn [sub_ctc run_ctc map ctc_eq write_back]. change (heap mem s0) with ex_mem. unfold ex_mem, upd. rewrite inter_bnd by lra.
    destruct (Nat.eqb x 1); auto. destruct (Nat.eqb x 0); auto. }
  assert (Hs0 : forall d, saved mem s0 d = Fin (10 - 0)).
  { intros d. change (saved mem s0 d) with (itv_volume (bnd 0 10)). apply bnd_volume. lra. }
  destruct (step_quiet mem run volume sub_typ cdoms sub_dctcs dcomps 0 s0 0%nat [1%nat] eq_refl) as (D1 & Hp1 & A1 & S1).
  { repeat constructor; cbn; intuition discriminate. }
  { intros d _. rewrite Hs0. unfold volume. cbn [dom_volume]. rewrite H0, bnd_volume, ratio_of by lra. apply Rltb_false. lra. }
  pose proof (proj2 (step_heap mem run volume sub_typ cdoms sub_dctcs dcomps 0 0%nat [1%nat] s0 eq_refl)) as K1.
  set (s1 := step _ _ _ _ _ _ _ _ s0) in *. change (known mem s0) with [0%nat; 1%nat] in K1.
  assert (H1 : run 1%nat (heap mem s1) 0%nat = bnd 0 1).
  { unfold run. cbn [sub_ctc run_ctc map]. rewrite clip_one, Hp1, H0, inter_bnd by lra. cbn [write_back]. unfold upd. auto. }
  assert (Sh : shrunk 0 (Fin (1 - 0)) (Fin (10 - 0)) = true).
  { rewrite ratio_of by lra. apply Rltb_true. lra. }
  split; [exact D1|]. split; [cbn; auto|]. split; [cbn; auto|]. split; [rewrite K1; cbn; auto|]. split; [discriminate|]. split.
  { unfold volume in *. cbn [dom_volume]. fold (run 1%nat). rewrite H1, Hp1, H0, !bnd_volume by lra. exact Sh. }
  destruct (step_loud mem run volume sub_typ cdoms sub_dctcs dcomps 0 s1 1%nat [] 0%nat (upd (active mem s1) 1%nat false) [] D1 eq_refl) as (D2 & _).
  { unfold volume. cbn [dom_volume]. rewrite H1. rewrite bnd_volume by lra. replace (saved mem s1 0%nat) with (Fin (10 - 0)); [exact Sh|].
    rewrite S1. destruct (has _ _); auto. unfold volume. cbn [dom_volume]. rewrite H0, bnd_volume by lra. auto. }
  { rewrite K1, A1. reflexivity. }
  cbn zeta in D2. rewrite D2. cbn. auto.
Qed.

(** [C30_waiting_partial] on the first network: after the call of [x in [2,5]], [x = y] is waiting. *)
Example C30_waiting_example : let s := net_exec ex_net [Add 0; Contract 0] ex_mem in
  deque mem s = [0%nat] /\ touched (n_doms ex_net) (n_comps ex_net) 0 = [0%nat] /\
  shrunk 0 (dom_volume [0%nat] (run_ctc (ex_ctc 0) (heap mem s))) (saved mem s 0%nat) = true.
Proof.
  cbn zeta. split; [reflexivity|]. split; [reflexivity|].
  change (heap mem (net_exec ex_net [Add 0; Contract 0] ex_mem)) with ex_mem.
  change (saved mem (net_exec ex_net [Add 0; Contract 0] ex_mem) 0%nat) with (itv_volume (bnd 0 10)).
  cbn [dom_volume ex_ctc run_ctc map]. unfold ex_mem at 1. rewrite clip_one, inter_bnd by lra. cbn [write_back]. rewrite upd_same.
  rewrite !bnd_volume, ratio_of by lra. apply Rltb_true. lra.
Qed.

Print Assumptions C28_schedules.
Print Assumptions C28_no_loss.
Print Assumptions C29_domains_shrink.
Print Assumptions C30_queue.
Print Assumptions C30_returns.
Print Assumptions C30_waiting_partial.
Print Assumptions C30_drift_refuted.
Print Assumptions C30_subnetwork_refuted.
Print Assumptions C31_fixed_point_partial.
Print Assumptions C31_unbounded_refuted.
Print Assumptions C31_degenerate_refuted.
