(** * Facts on sampled trajectories *)

From Coq Require Import Reals Lra Bool List ZArith Lia.
From Verif Require Import Itv Trajectory.
Import ListNotations.
Open Scope R_scope.

(** ** Specification vocabulary *)

(** [i] is the smallest interval that contains the values satisfying [P] *)
Definition smallest (P : R -> Prop) (i : itv) : Prop :=
  wf i /\ (forall v, P v -> In v i) /\ (forall j, (forall v, P v -> In v j) -> sub i j).

(** the keys of a std::map are increasing *)
Fixpoint sorted (m : smap) : Prop :=
  match m with [] => True | (k, _) :: r => Forall (fun kv => k < fst kv) r /\ sorted r end.

Definition is_key (m : smap) (t : R) : Prop := exists v, List.In (t, v) m.
Definition is_val (m : smap) (v : R) : Prop := exists t, List.In (t, v) m.

(** a sampled trajectory whose cached domain and codomain are those of its samples *)
Definition traj_ok (x : traj) : Prop :=
  t_fun x = None /\ sorted (t_map x) /\ smallest (is_key (t_map x)) (t_dom x) /\
  smallest (is_val (t_map x)) (t_cod x).

(** ** smallest *)
Lemma smallest_ext P Q i : (forall v, P v <-> Q v) -> smallest P i -> smallest Q i.
Proof.
  intros H (W & A & B). split; auto. split; [intros v Hv; apply A, H; auto|].
  intros j Hj. apply B. intros v Hv. apply Hj, H; auto.
Qed.
Lemma smallest_uniq P i j : smallest P i -> smallest P j -> i = j.
Proof. intros (Wi & Ai & Bi) (Wj & Aj & Bj). apply sub_antisym; auto. Qed.
Lemma smallest_none P : (forall v, ~ P v) -> smallest P Emp.
Proof. intros H. split; [exact I|]. split; [intros v Hv; destruct (H v Hv)|]. intros; apply sub_Emp. Qed.
Lemma smallest_pt r : smallest (fun v => v = r) (pt r).
Proof.
  split; [apply wf_pt|]. split; [intros v ->; apply In_pt; auto|].
  intros j Hj v Hv. apply In_pt in Hv. auto.
Qed.
Lemma smallest_hull P Q i j : smallest P i -> smallest Q j -> smallest (fun v => P v \/ Q v) (hull i j).
Proof.
  intros (Wi & Ai & Bi) (Wj & Aj & Bj). split; [apply wf_hull; auto|]. split.
  - intros v [H|H]; [apply In_hull_l|apply In_hull_r]; auto.
  - intros k Hk. apply hull_least; auto.
Qed.
Lemma smallest_add P i r : smallest P i -> smallest (fun v => P v \/ v = r) (hull i (pt r)).
Proof. intros H. apply smallest_hull; auto using smallest_pt. Qed.
Lemma smallest_fold : forall (m : smap) P i, smallest P i ->
  smallest (fun v => P v \/ is_val m v) (fold_left (fun c kv => hull c (pt (snd kv))) m i).
Proof.
  induction m as [|[k v] r IH]; intros P i H; cbn.
  - apply (smallest_ext P); auto. intros w; split; auto. intros [Hw|[t []]]; auto.
  - apply (smallest_ext (fun w => (P w \/ w = v) \/ is_val r w)).
    + intros w. unfold is_val. cbn. split.
      * intros [[Hw| ->]|[t Ht]]; auto; right; eauto.
      * intros [Hw|[t [E|Ht]]]; auto; [injection E as E1 E2; auto|right; eauto].
    + apply IH, smallest_add; auto.
Qed.
Lemma smallest_cod m : smallest (is_val m) (cod_of_map m).
Proof.
  unfold cod_of_map. apply (smallest_ext (fun v => False \/ is_val m v)); [tauto|].
  apply smallest_fold, smallest_none; auto.
Qed.
Lemma smallest_between P i v w u : smallest P i -> P v -> P w -> v <= u <= w -> In u i.
Proof. intros (_ & A & _) Hv Hw Hu. apply (In_convex v u w); auto. Qed.
(** enlarging the set by values that lie between others *)
Lemma smallest_fill (P Q : R -> Prop) i : smallest P i -> (forall v, P v -> Q v) ->
  (forall v, Q v -> exists p q, P p /\ P q /\ p <= v <= q) -> smallest Q i.
Proof.
  intros H Hpq Hq. pose proof H as (W & A & B). split; auto. split.
  - intros v Hv. destruct (Hq v Hv) as (p & q & Hp & Hq' & L). apply (smallest_between P i p q); auto.
  - intros j Hj. apply B. auto.
Qed.
(** ** Maps *)
Lemma sorted_tail p r : sorted (p :: r) -> sorted r.
Proof. destruct p. cbn. tauto. Qed.
Lemma sorted_head k v r k' v' : sorted ((k, v) :: r) -> List.In (k', v') r -> k < k'.
Proof. cbn. intros [H _] Hi. rewrite Forall_forall in H. apply (H _ Hi). Qed.
Lemma sorted_inj : forall m k v v', sorted m -> List.In (k, v) m -> List.In (k, v') m -> v = v'.
Proof.
  induction m as [|[k0 v0] r IH]; intros k v v' Hs H1 H2; [destruct H1|].
  destruct H1 as [E|H], H2 as [E'|H']; try congruence.
  - injection E as -> ->. apply (sorted_head _ _ _ _ _ Hs) in H'. lra.
  - injection E' as -> ->. apply (sorted_head _ _ _ _ _ Hs) in H. lra.
  - apply (IH k); auto. apply (sorted_tail _ _ Hs).
Qed.
Lemma lookup_in : forall m t v, lookup t m = Some v -> List.In (t, v) m.
Proof.
  induction m as [|[k w] r IH]; intros t v H; cbn in H; [discriminate|].
  destruct (Reqb k t) eqn:E; [|right; auto]. apply Reqb_true in E. left. congruence.
Qed.
Lemma in_lookup m t v : sorted m -> List.In (t, v) m -> lookup t m = Some v.
Proof.
  revert v. induction m as [|[k w] r IH]; intros v Hs H; [destruct H|]. cbn.
  destruct H as [E|H].
  - injection E as -> ->. rewrite Reqb_refl. auto.
  - pose proof (sorted_head _ _ _ _ _ Hs H). destruct (Reqb k t) eqn:E; [apply Reqb_true in E; lra|].
    apply IH; auto. apply (sorted_tail _ _ Hs).
Qed.
Lemma lookup_none m t : lookup t m = None <-> ~ is_key m t.
Proof.
  split.
  - intros H [v Hv]. induction m as [|[k w] r IH]; [destruct Hv|]. cbn in H.
    destruct (Reqb k t) eqn:E; [discriminate|]. apply Reqb_false in E. destruct Hv as [E'|Hv]; [congruence|auto].
  - intros H. destruct (lookup t m) eqn:E; auto. apply lookup_in in E. exfalso. apply H. red; eauto.
Qed.
Lemma in_put : forall m t y k v, sorted m ->
  (List.In (k, v) (put t y m) <-> (k = t /\ v = y) \/ (k <> t /\ List.In (k, v) m)).
Proof.
  induction m as [|[k0 v0] r IH]; intros t y k v Hs; cbn [put].
  - cbn. split; [intros [E|[]]; injection E; auto|]. intros [[-> ->]|[_ []]]; auto.
  - assert (Hh : forall v', List.In (t, v') r -> k0 < t) by (intros v' H'; apply (sorted_head _ _ _ _ _ Hs H')).
    destruct (Rltb t k0) eqn:E1.
    + apply Rltb_true in E1. cbn. split.
      * intros [E|[E|H]].
        -- injection E; auto.
        -- right. split; auto. injection E; intros; lra.
        -- right. split; auto. intros ->. specialize (Hh v H). lra.
      * intros [[-> ->]|[Hk H]]; auto.
    + apply Rltb_false in E1. destruct (Reqb k0 t) eqn:E2.
      * apply Reqb_true in E2. subst k0. cbn. split.
        -- intros [E|H]; [injection E; auto|]. right. split; auto. intros ->. specialize (Hh v H). lra.
        -- intros [[-> ->]|[Hk [E|H]]]; auto. injection E as E _. congruence.
      * apply Reqb_false in E2. cbn [List.In]. rewrite IH by (apply (sorted_tail _ _ Hs)). split.
        -- intros [E|[H|[Hk H]]]; auto. injection E as <- <-. auto.
        -- intros [H|[Hk [E|H]]]; auto.
Qed.
Lemma sorted_put : forall m t y, sorted m -> sorted (put t y m).
Proof.
  induction m as [|[k v] r IH]; intros t y Hs; cbn [put]; [cbn; auto|].
  destruct (Rltb t k) eqn:E1.
  - apply Rltb_true in E1. destruct Hs as [Hf Hs]. split; [|split; auto].
    constructor; auto. eapply Forall_impl; [|exact Hf]. intros a Ha. cbn in Ha. lra.
  - apply Rltb_false in E1. destruct (Reqb k t) eqn:E2.
    + apply Reqb_true in E2. subst. exact Hs.
    + apply Reqb_false in E2. destruct Hs as [Hf Hs]. split; [|apply IH; auto].
      apply Forall_forall. intros [k' v'] H'. apply in_put in H'; auto. cbn. destruct H' as [[-> _]|[_ H']]; [lra|].
      rewrite Forall_forall in Hf. apply (Hf _ H').
Qed.
Lemma is_key_put m t y k : sorted m -> (is_key (put t y m) k <-> is_key m k \/ k = t).
Proof.
  intros Hs. unfold is_key. split.
  - intros [v H]. apply in_put in H; auto. destruct H as [[-> _]|[_ H]]; eauto.
  - intros [[v H]| ->].
    + destruct (Req_dec k t) as [->|Hn]; [exists y|exists v]; apply in_put; auto.
    + exists y. apply in_put; auto.
Qed.
Lemma is_val_put_new m t y v : sorted m -> ~ is_key m t -> (is_val (put t y m) v <-> is_val m v \/ v = y).
Proof.
  intros Hs Hk. unfold is_val. split.
  - intros [k H]. apply in_put in H; auto. destruct H as [[_ ->]|[_ H]]; eauto.
  - intros [[k H]| ->]; [exists k|exists t]; apply in_put; auto. right. split; auto. intros ->. apply Hk. red; eauto.
Qed.
Lemma sorted_filter p : forall m, sorted m -> sorted (filter p m).
Proof.
  induction m as [|[k v] r IH]; intros Hs; cbn [filter]; auto. destruct Hs as [Hf Hs].
  assert (Forall (fun kv => k < fst kv) (filter p r)).
  { apply Forall_forall. intros a Ha. apply filter_In in Ha. rewrite Forall_forall in Hf. apply Hf. tauto. }
  destruct (p (k, v)); [|auto]. split; auto.
Qed.

(** ** Evaluation *)

(** the interpolation written on the list; used in the proofs only *)
Fixpoint pl (m : smap) (t : R) : option R :=
  match m with
  | [] => None
  | (k, v) :: r =>
      if Reqb k t then Some v
      else if Rltb t k then None
      else match r with
           | [] => None
           | (k2, v2) :: _ => if Rltb t k2 then Some (lerp t (k, v) (k2, v2)) else pl r t
           end
  end.

Lemma pl_cons k v r t : pl ((k, v) :: r) t =
  if Reqb k t then Some v
  else if Rltb t k then None
  else match r with
       | [] => None
       | (k2, v2) :: _ => if Rltb t k2 then Some (lerp t (k, v) (k2, v2)) else pl r t
       end.
Proof. destruct r as [|[? ?] ?]; reflexivity. Qed.
Lemma bracket_pl : forall r t k v, sorted ((k, v) :: r) -> k < t -> lookup t r = None ->
  match bracket (Some (k, v)) t r with Some (p, q) => Some (lerp t p q) | None => None end = pl ((k, v) :: r) t.
Proof.
  induction r as [|[k2 v2] r IH]; intros t k v Hs Hk Hl; cbn [bracket]; rewrite pl_cons.
  - destruct (Reqb k t) eqn:E; [apply Reqb_true in E; lra|]. destruct (Rltb t k) eqn:E'; auto.
  - destruct (Reqb k t) eqn:E; [apply Reqb_true in E; lra|]. destruct (Rltb t k) eqn:E'; [apply Rltb_true in E'; lra|].
    cbn in Hl. destruct (Reqb k2 t) eqn:E2; [discriminate|]. apply Reqb_false in E2.
    destruct (Rleb t k2) eqn:E3.
    + apply Rleb_true in E3. destruct (Rltb t k2) eqn:E4; auto. apply Rltb_false in E4. lra.
    + apply Rleb_false in E3. destruct (Rltb t k2) eqn:E4; [apply Rltb_true in E4; lra|].
      rewrite (IH t k2 v2 (sorted_tail _ _ Hs) E3 Hl). rewrite pl_cons.
      rewrite (proj2 (Reqb_false k2 t)) by auto. rewrite E4. auto.
Qed.
Lemma map_at_pl m t : sorted m -> map_at m t = pl m t.
Proof.
  intros Hs. unfold map_at. destruct m as [|[k v] r]; auto. cbn [lookup bracket].
  destruct (Reqb k t) eqn:E; [rewrite pl_cons; rewrite E; auto|]. apply Reqb_false in E.
  destruct (lookup t r) eqn:El.
  - apply lookup_in in El. assert (Ht : is_key r t) by (red; eauto).
    assert (G : forall r k v, sorted ((k, v) :: r) -> List.In (t, r0) r -> pl ((k, v) :: r) t = Some r0).
    { clear. induction r as [|[k2 v2] r IH]; intros k v Hs H; [destruct H|]. pose proof (sorted_head _ _ _ _ _ Hs H) as Hh.
      rewrite pl_cons. destruct (Reqb k t) eqn:E; [apply Reqb_true in E; lra|]. destruct (Rltb t k) eqn:E'; [apply Rltb_true in E'; lra|].
      destruct H as [H|H].
      - injection H as -> ->. rewrite (proj2 (Rltb_false t t)) by lra. rewrite pl_cons, Reqb_refl. auto.
      - pose proof (sorted_head _ _ _ _ _ (sorted_tail _ _ Hs) H). rewrite (proj2 (Rltb_false t k2)) by lra.
        apply IH; auto. apply (sorted_tail _ _ Hs). }
    symmetry. apply G; auto.
  - destruct (Rleb t k) eqn:E1.
    + apply Rleb_true in E1. rewrite pl_cons. rewrite (proj2 (Reqb_false k t)) by auto. rewrite (proj2 (Rltb_true t k)) by lra. auto.
    + apply Rleb_false in E1. apply bracket_pl; auto.
Qed.
Lemma pl_key m t v : sorted m -> List.In (t, v) m -> pl m t = Some v.
Proof. intros Hs H. rewrite <- map_at_pl by auto. unfold map_at. rewrite (in_lookup _ _ _ Hs H). auto. Qed.

Lemma lerp_l p q : lerp (fst p) p q = snd p.
Proof. unfold lerp. replace (fst p - fst p) with 0 by ring. unfold Rdiv. ring. Qed.
Lemma lerp_r p q : fst p < fst q -> lerp (fst q) p q = snd q.
Proof. intros. unfold lerp. field. lra. Qed.
Lemma lerp_between t p q : fst p <= t <= fst q -> fst p < fst q ->
  Rmin (snd p) (snd q) <= lerp t p q <= Rmax (snd p) (snd q).
Proof.
  intros H Hlt. unfold lerp. set (d := (t - fst p) / (fst q - fst p)).
  assert (0 <= d <= 1).
  { unfold d. split; [apply Rmult_le_pos; [lra|apply Rlt_le, Rinv_0_lt_compat; lra]|].
    apply Rmult_le_reg_r with (fst q - fst p); [lra|]. unfold Rdiv. rewrite Rmult_assoc, Rinv_l by lra. lra. }
  replace ((t - fst p) * (snd q - snd p) / (fst q - fst p)) with (d * (snd q - snd p)) by (unfold d; field; lra).
  unfold Rmin, Rmax. destruct (Rle_dec (snd p) (snd q)); split; nra.
Qed.

Lemma pl_seg m l k1 v1 k2 v2 r t : sorted m -> m = l ++ (k1, v1) :: (k2, v2) :: r -> k1 <= t <= k2 ->
  pl m t = Some (lerp t (k1, v1) (k2, v2)).
Proof.
  intros Hs ->. revert Hs. induction l as [|[k v] l IH]; intros Hs Ht; cbn [app] in *.
  - assert (k1 < k2) by (apply (sorted_head _ _ _ k2 v2 Hs); left; auto). rewrite pl_cons.
    destruct (Reqb k1 t) eqn:E; [apply Reqb_true in E; subst; f_equal; symmetry; apply (lerp_l (t, v1))|]. apply Reqb_false in E.
    rewrite (proj2 (Rltb_false t k1)) by lra. destruct (Rltb t k2) eqn:E'; auto. apply Rltb_false in E'.
    assert (t = k2) by lra. subst t. rewrite pl_cons, Reqb_refl. f_equal. symmetry. apply (lerp_r (k1, v1) (k2, v2)); auto.
  - assert (k < k1) by (apply (sorted_head _ _ _ k1 v1 Hs), in_or_app; right; left; auto).
    rewrite pl_cons. rewrite (proj2 (Reqb_false k t)) by lra. rewrite (proj2 (Rltb_false t k)) by lra.
    destruct (l ++ (k1, v1) :: (k2, v2) :: r) as [|[k3 v3] r3] eqn:El; [destruct l; discriminate|].
    assert (k3 <= k1).
    { destruct l as [|[k4 v4] l]; cbn in El; injection El as E1 E2 E3; subst; [lra|].
      apply Rlt_le. apply (sorted_head k3 v3 (l ++ (k1, v1) :: (k2, v2) :: r) k1 v1); [apply (sorted_tail _ _ Hs)|]. apply in_or_app. right; left; auto. }
    rewrite (proj2 (Rltb_false t k3)) by lra. apply IH; auto. apply (sorted_tail _ _ Hs).
Qed.

(** where the interpolation is defined: between the first and the last key *)
Lemma pl_def : forall m t, sorted m ->
  ((exists v, pl m t = Some v) <-> exists k1 k2, is_key m k1 /\ is_key m k2 /\ k1 <= t <= k2).
Proof.
  intros m t Hs. split.
  - revert Hs. induction m as [|[k v] r IH]; intros Hs [w Hw]; [discriminate|rewrite pl_cons in Hw].
    destruct (Reqb k t) eqn:E.
    + apply Reqb_true in E. subst. exists t, t. split; [exists v; left; auto|]. split; [exists v; left; auto|lra].
    + destruct (Rltb t k) eqn:E'; [discriminate|]. apply Rltb_false in E'.
      destruct r as [|[k2 v2] r]; [discriminate|]. destruct (Rltb t k2) eqn:E2.
      * apply Rltb_true in E2. exists k, k2. split; [exists v; left; auto|]. split; [exists v2; right; left; auto|lra].
      * destruct IH as (a & b & [va Ha] & [vb Hb] & H); [apply (sorted_tail _ _ Hs)|eauto|].
        exists a, b. split; [exists va; right; auto|]. split; [exists vb; right; auto|auto].
  - intros (k1 & k2 & [v1 H1] & [v2 H2] & Ht). revert Hs k1 v1 H1 H2 Ht. induction m as [|[k v] r IH]; intros Hs k1 v1 H1 H2 Ht; [destruct H1|].
    rewrite pl_cons. destruct (Reqb k t) eqn:E; [eauto|]. apply Reqb_false in E.
    assert (k <= k1) by (destruct H1 as [H1|H1]; [injection H1; intros; lra|apply (sorted_head _ _ _ _ _ Hs) in H1; lra]).
    rewrite (proj2 (Rltb_false t k)) by lra. destruct H2 as [H2|H2]; [injection H2 as -> ->; lra|].
    destruct r as [|[k3 v3] r]; [destruct H2|]. destruct (Rltb t k3) eqn:E3; [eauto|]. apply Rltb_false in E3.
    apply (IH (sorted_tail _ _ Hs) k3 v3); auto; [left; auto|lra].
Qed.

(** the key just before (or at) a time and the key just after (or at) it *)
Lemma pl_split : forall m t v, sorted m -> pl m t = Some v ->
  List.In (t, v) m \/
  exists l k1 v1 k2 v2 r, m = l ++ (k1, v1) :: (k2, v2) :: r /\ k1 < t < k2 /\ v = lerp t (k1, v1) (k2, v2).
Proof.
  induction m as [|[k w] r IH]; intros t v Hs H; [discriminate|rewrite pl_cons in H].
  destruct (Reqb k t) eqn:E; [apply Reqb_true in E; left; left; congruence|]. apply Reqb_false in E.
  destruct (Rltb t k) eqn:E'; [discriminate|]. apply Rltb_false in E'.
  destruct r as [|[k2 v2] r]; [discriminate|]. destruct (Rltb t k2) eqn:E2.
  - apply Rltb_true in E2. right. exists [], k, w, k2, v2, r. repeat split; auto; try lra. congruence.
  - destruct (IH t v (sorted_tail _ _ Hs) H) as [Hi|(l & a & va & b & vb & r' & E1 & E3 & E4)]; [left; right; auto|].
    right. exists ((k, w) :: l), a, va, b, vb, r'. rewrite E1. auto.
Qed.

(** on a segment, the interpolation is between its values at two surrounding times *)
Lemma lerp_mono a t b p q : fst p < fst q -> a <= t <= b ->
  (lerp a p q <= lerp t p q <= lerp b p q) \/ (lerp b p q <= lerp t p q <= lerp a p q).
Proof.
  intros H Ht. unfold lerp. set (s := (snd q - snd p) / (fst q - fst p)).
  assert (E : forall u, (u - fst p) * (snd q - snd p) / (fst q - fst p) = (u - fst p) * s) by (intros; unfold s; field; lra).
  rewrite !E. destruct (Rle_dec 0 s); [left|right]; nra.
Qed.

Lemma pl_between m a t b va v vb : sorted m -> a <= t <= b -> pl m a = Some va -> pl m t = Some v -> pl m b = Some vb ->
  exists p q, (p = va \/ p = vb \/ exists k, a <= k <= b /\ List.In (k, p) m) /\
              (q = va \/ q = vb \/ exists k, a <= k <= b /\ List.In (k, q) m) /\ p <= v <= q.
Proof.
  intros Hs Ht Ha Hv Hb. destruct (pl_split _ _ _ Hs Hv) as [Hi|(l & k1 & v1 & k2 & v2 & r & E & Hk & Ev)].
  - exists v, v. repeat split; try lra; right; right; exists t; auto.
  - assert (Hin1 : List.In (k1, v1) m) by (rewrite E; apply in_or_app; right; left; auto).
    assert (Hin2 : List.In (k2, v2) m) by (rewrite E; apply in_or_app; right; right; left; auto).
    assert (P : exists u p, (p = va \/ p = vb \/ exists k, a <= k <= b /\ List.In (k, p) m) /\ k1 <= u <= t /\ p = lerp u (k1, v1) (k2, v2)).
    { destruct (Rle_dec k1 a).
      - exists a, va. split; auto. split; [lra|]. assert (pl m a = Some (lerp a (k1, v1) (k2, v2))) by (apply (pl_seg m l k1 v1 k2 v2 r); auto; lra). congruence.
      - exists k1, v1. split; [right; right; exists k1; split; auto; lra|]. split; [lra|]. symmetry. apply (lerp_l (k1, v1)). }
    assert (Q : exists u p, (p = va \/ p = vb \/ exists k, a <= k <= b /\ List.In (k, p) m) /\ t <= u <= k2 /\ p = lerp u (k1, v1) (k2, v2)).
    { destruct (Rle_dec b k2).
      - exists b, vb. split; auto. split; [lra|]. assert (pl m b = Some (lerp b (k1, v1) (k2, v2))) by (apply (pl_seg m l k1 v1 k2 v2 r); auto; lra). congruence.
      - exists k2, v2. split; [right; right; exists k2; split; auto; lra|]. split; [lra|]. symmetry. apply (lerp_r (k1, v1) (k2, v2)). cbn; lra. }
    destruct P as (u & p & Hp & Hu & ->), Q as (w & q & Hq & Hw & ->).
    destruct (lerp_mono u t w (k1, v1) (k2, v2)) as [L|L]; [cbn; lra|lra| |];
      [exists (lerp u (k1, v1) (k2, v2)), (lerp w (k1, v1) (k2, v2))|exists (lerp w (k1, v1) (k2, v2)), (lerp u (k1, v1) (k2, v2))]; repeat split; auto; rewrite Ev; lra.
Qed.

(** ** The cached domain *)
Lemma dom_contains x t : traj_ok x -> (In t (t_dom x) <-> exists v, pl (t_map x) t = Some v).
Proof.
  intros (_ & Hs & Hd & _). rewrite pl_def by auto. destruct Hd as (W & A & B). split.
  - intros Ht.
    (* the set of the times between two keys is an interval *)
    assert (G : forall m, sorted m -> (forall v, is_key m v -> exists k1 k2, is_key m k1 /\ is_key m k2 /\ forall k, is_key m k -> k1 <= k <= k2)).
    { clear. induction m as [|[k v] r IH]; intros Hs t [w Hw]; [destruct Hw|].
      destruct r as [|[k' v'] r].
      - exists k, k. split; [exists v; left; auto|]. split; [exists v; left; auto|]. intros k0 [w0 [E|[]]]. injection E; intros; lra.
      - destruct (IH (sorted_tail _ _ Hs) k') as (a & b & Ha & [vb Hb] & H); [exists v'; left; auto|].
        exists k, b. split; [exists v; left; auto|]. split; [exists vb; right; auto|]. intros k0 [w0 [E|H0]].
        + injection E as <- <-. apply (sorted_head _ _ _ _ _ Hs) in Hb. lra.
        + pose proof (sorted_head _ _ _ _ _ Hs H0). assert (a <= k0 <= b) by (apply H; red; eauto). lra. }
    destruct (t_map x) as [|[k v] r] eqn:Em.
    + exfalso. assert (Hz : sub (t_dom x) Emp) by (apply B; intros u [w []]). apply (Hz t Ht).
    + destruct (G _ Hs k) as (a & b & Ha & Hb & H); [exists v; left; auto|].
      exists a, b. split; auto. split; auto. assert (S : sub (t_dom x) (bnd a b)).
      { apply B. intros u Hu. apply In_bnd. apply H; auto. }
      apply In_bnd. apply S; auto.
  - intros (k1 & k2 & H1 & H2 & H). apply (In_convex k1 t k2); auto.
Qed.
Lemma traj_at_pl x t : traj_ok x -> traj_at x t = pl (t_map x) t.
Proof.
  intros Hx. pose proof Hx as (Hf & Hs & _). unfold traj_at. rewrite Hf, map_at_pl by auto.
  destruct (contains (t_dom x) t) eqn:E; auto. apply contains_false in E.
  destruct (pl (t_map x) t) eqn:Ep; auto. exfalso. apply E. apply dom_contains; eauto.
Qed.
(** the samples bound the values *)
Lemma pl_vals m t v : sorted m -> pl m t = Some v -> exists p q, is_val m p /\ is_val m q /\ p <= v <= q.
Proof.
  intros Hs H. destruct (pl_split _ _ _ Hs H) as [Hi|(l & k1 & v1 & k2 & v2 & r & E & Hk & Ev)].
  - exists v, v. repeat split; try lra; exists t; auto.
  - assert (Hin1 : is_val m v1) by (exists k1; rewrite E; apply in_or_app; right; left; auto).
    assert (Hin2 : is_val m v2) by (exists k2; rewrite E; apply in_or_app; right; right; left; auto).
    pose proof (lerp_between t (k1, v1) (k2, v2)) as L. cbn in L. rewrite <- Ev in L.
    specialize (L ltac:(lra) ltac:(lra)). unfold Rmin, Rmax in L. destruct (Rle_dec v1 v2); [exists v1, v2|exists v2, v1]; auto.
Qed.

(** ** Constructors and operations keep the cached values up to date *)
Lemma ok_new : traj_ok traj_new.
Proof.
  split; auto. split; [exact I|]. split; apply smallest_none; intros v [t []].
Qed.
Lemma last_key : forall m k v d, sorted ((k, v) :: m) -> is_key ((k, v) :: m) (fst (last ((k, v) :: m) d)) /\
  forall t, is_key ((k, v) :: m) t -> k <= t <= fst (last ((k, v) :: m) d).
Proof.
  induction m as [|[k2 v2] r IH]; intros k v d Hs.
  - split; [exists v; left; auto|]. intros t [w [E|[]]]. injection E as <- <-. cbn. lra.
  - destruct (IH k2 v2 d (sorted_tail _ _ Hs)) as [[w Hw] H].
    change (last ((k, v) :: (k2, v2) :: r) d) with (last ((k2, v2) :: r) d). split; [exists w; right; auto|].
    intros t [w0 [E|H0]].
    + injection E as <- <-. apply (sorted_head _ _ _ _ _ Hs) in Hw. lra.
    + pose proof (sorted_head _ _ _ _ _ Hs H0). assert (k2 <= t <= fst (last ((k2, v2) :: r) d)) by (apply H; red; eauto). lra.
Qed.
Lemma ok_map m : sorted m -> traj_ok (traj_map m).
Proof.
  intros Hs. destruct m as [|[k v] r]; [apply ok_new|]. cbn [traj_map].
  destruct (last_key r k v (0,0) Hs) as [H1 H2]. split; auto. split; auto. split; [|apply smallest_cod].
  cbn [t_dom compute_codomain]. split; [apply wf_mk|]. split.
  - intros t Ht. apply In_bnd. cbn [t_map] in Ht. apply H2; auto.
  - intros j Hj t Ht. apply In_bnd in Ht. apply (In_convex k t (fst (last ((k, v) :: r) (0,0)))); auto; apply Hj; auto. exists v; left; auto.
Qed.
Lemma ok_compute d c m : sorted m -> smallest (is_key m) d -> traj_ok (compute_codomain (mkT d c None m)).
Proof. intros Hs Hd. split; auto. split; auto. split; auto. apply smallest_cod. Qed.
Lemma ok_set y t x x' : traj_ok x -> traj_set y t x = Some x' -> traj_ok x'.
Proof.
  intros (Hf & Hs & Hd & Hc) H. unfold traj_set in H. rewrite Hf in H. injection H as <-.
  assert (Hd' : smallest (is_key (put t y (t_map x))) (hull (t_dom x) (pt t))).
  { apply (smallest_ext (fun k => is_key (t_map x) k \/ k = t)); [intros; symmetry; apply is_key_put; auto|]. apply smallest_add; auto. }
  destruct (lookup t (t_map x)) eqn:El.
  - assert (Hi : contains (t_cod x) r = true).
    { apply contains_true. destruct Hc as (_ & A & _). apply A. exists t. apply lookup_in; auto. }
    rewrite Hi. apply ok_compute; auto using sorted_put.
  - split; auto. split; [cbn; auto using sorted_put|]. split; auto. cbn [t_cod t_map].
    apply (smallest_ext (fun v => is_val (t_map x) v \/ v = y)); [|apply smallest_add; auto].
    intros v; symmetry; apply is_val_put_new; auto. apply lookup_none; auto.
Qed.
Lemma set_map y t x x' : traj_set y t x = Some x' -> t_map x' = put t y (t_map x).
Proof.
  unfold traj_set. destruct (t_fun x); [discriminate|]. intros H. injection H as <-.
  destruct (match lookup t (t_map x) with Some v => contains (t_cod x) v | None => false end); auto.
Qed.
Lemma set_def y t x : traj_ok x -> exists x', traj_set y t x = Some x'.
Proof. intros (Hf & _). unfold traj_set. rewrite Hf. eauto. Qed.

Lemma in_dom_is_subset x a b : a <= b -> is_superset (t_dom x) (bnd a b) = true -> In a (t_dom x) /\ In b (t_dom x).
Proof.
  intros Hab H. apply is_subset_sub in H. split; apply H; apply In_bnd; lra.
Qed.
Lemma truncate_map a b x x' : traj_ok x -> traj_truncate a b x = Some x' -> a < b /\
  exists ya yb, pl (t_map x) a = Some ya /\ pl (t_map x) b = Some yb /\
    x' = compute_codomain (mkT (inter (t_dom x) (bnd a b)) (t_cod x) None
           (put b yb (put a ya (filter (fun kv => contains (bnd a b) (fst kv)) (t_map x))))).
Proof.
  intros Hx H. pose proof Hx as (Hf & Hs & Hd & Hc). unfold traj_truncate in H.
  destruct (Rltb a b && is_superset (t_dom x) (bnd a b)) eqn:E; [|discriminate].
  apply andb_true_iff in E. destruct E as [E1 E2]. apply Rltb_true in E1. rewrite Hf in H. rewrite !traj_at_pl in H by auto.
  destruct (pl (t_map x) a) as [ya|] eqn:Ea; [|discriminate]. destruct (pl (t_map x) b) as [yb|] eqn:Eb; [|discriminate].
  injection H as <-. split; auto. exists ya, yb. auto.
Qed.
Lemma ok_truncate a b x x' : traj_ok x -> traj_truncate a b x = Some x' -> traj_ok x'.
Proof.
  intros Hx H. destruct (truncate_map _ _ _ _ Hx H) as (Hab & ya & yb & Ea & Eb & ->). pose proof Hx as (Hf & Hs & Hd & Hc).
  assert (Hin : is_superset (t_dom x) (bnd a b) = true).
  { unfold traj_truncate in H. destruct (is_superset (t_dom x) (bnd a b)); auto. rewrite andb_false_r in H. discriminate. }
  set (m := filter (fun kv => contains (bnd a b) (fst kv)) (t_map x)). assert (Sm : sorted m) by (apply sorted_filter; auto).
  apply ok_compute; [auto using sorted_put|].
  apply is_subset_sub in Hin.
  assert (Ei : forall t, In t (inter (t_dom x) (bnd a b)) <-> a <= t <= b).
  { intros t. rewrite In_inter, In_bnd. split; [tauto|]. intros Ht. split; auto. apply Hin, In_bnd; auto. }
  split; [apply wf_inter|]. split.
  - intros t Ht. apply Ei. apply is_key_put in Ht; auto using sorted_put. destruct Ht as [Ht| ->]; [|lra].
    apply is_key_put in Ht; auto. destruct Ht as [[v Ht]| ->]; [|lra]. apply filter_In in Ht. destruct Ht as [_ Ht].
    apply contains_true in Ht. apply In_bnd in Ht. auto.
  - intros j Hj t Ht. apply Ei in Ht. apply (In_convex a t b); auto; apply Hj; apply is_key_put; auto using sorted_put.
    left. apply is_key_put; auto.
Qed.
(** Shifting rebuilds the map in the same order *)
Lemma put_last : forall m t y, Forall (fun kv => fst kv < t) m -> put t y m = m ++ [(t, y)].
Proof.
  induction m as [|[k v] r IH]; intros t y H; cbn [put app]; auto. inversion H as [|? ? H1 H2]; subst. cbn in H1.
  rewrite (proj2 (Rltb_false t k)) by lra. rewrite (proj2 (Reqb_false k t)) by lra. rewrite IH; auto.
Qed.
Lemma rebuild s : forall m acc, sorted m -> (forall k v k' v', List.In (k, v) acc -> List.In (k', v') m -> k < k' + s) ->
  fold_left (fun m kv => put (fst kv + s) (snd kv) m) m acc = acc ++ map (fun kv => (fst kv + s, snd kv)) m.
Proof.
  induction m as [|[k v] r IH]; intros acc Hs H; cbn [fold_left map]; [rewrite app_nil_r; auto|].
  rewrite put_last.
  - rewrite IH.
    + rewrite <- app_assoc. auto.
    + apply (sorted_tail _ _ Hs).
    + intros a va b vb Ha Hb. apply in_app_or in Ha. destruct Ha as [Ha|[Ha|[]]].
      * apply (H a va b vb); auto. right; auto.
      * injection Ha as <- <-. apply (sorted_head _ _ _ _ _ Hs) in Hb. cbn. lra.
  - apply Forall_forall. intros [a va] Ha. cbn. apply (H a va k v); auto. left; auto.
Qed.
Lemma sorted_shift s : forall m, sorted m -> sorted (map (fun kv => (fst kv + s, snd kv)) m).
Proof.
  induction m as [|[k v] r IH]; intros Hs; cbn [map]; [exact I|]. destruct Hs as [Hf Hs]. split; auto.
  apply Forall_forall. intros a Ha. apply in_map_iff in Ha. destruct Ha as ([k' v'] & <- & Ha). cbn.
  rewrite Forall_forall in Hf. specialize (Hf _ Ha). cbn in Hf. lra.
Qed.
Lemma shift_map s x : t_fun x = None -> sorted (t_map x) -> t_map (traj_shift s x) = map (fun kv => (fst kv + s, snd kv)) (t_map x).
Proof.
  intros Hf Hs. unfold traj_shift. rewrite Hf. cbn [compute_codomain t_map]. rewrite rebuild; auto. intros ? ? ? ? [].
Qed.
Lemma In_shift_itv s i t : In t (shift_itv s i) <-> In (t - s) i.
Proof. destruct i as [|[a|] [b|]]; cbn; try tauto; split; intros [? ?]; split; auto; lra. Qed.
Lemma wf_shift_itv s i : wf i -> wf (shift_itv s i).
Proof. destruct i as [|[a|] [b|]]; cbn; auto. lra. Qed.
Lemma ok_shift s x : traj_ok x -> traj_ok (traj_shift s x).
Proof.
  intros (Hf & Hs & Hd & Hc). pose proof (shift_map s x Hf Hs) as E. revert E. unfold traj_shift. rewrite Hf. cbn [compute_codomain t_map]. intros E. rewrite E.
  apply ok_compute; [apply sorted_shift; auto|]. destruct Hd as (W & A & B).
  split; [apply wf_shift_itv; auto|]. split.
  - intros t [v Ht]. apply in_map_iff in Ht. destruct Ht as ([k w] & E' & Hk). injection E' as <- <-. cbn.
    apply In_shift_itv. replace (k + s - s) with k by ring. apply A. exists w; auto.
  - intros j Hj t Ht. apply In_shift_itv in Ht.
    assert (S : sub (t_dom x) (shift_itv (- s) j)).
    { apply B. intros k [v Hk]. apply In_shift_itv. replace (k - - s) with (k + s) by ring. apply Hj. exists v.
      apply in_map_iff. exists (k, v). auto. }
    apply S in Ht. rewrite In_shift_itv in Ht. replace (t - s - - s) with t in Ht by ring. auto.
Qed.

(** adding samples of the interpolation changes neither the domain nor the codomain *)
Definition refines (x : traj) (m : smap) : Prop :=
  sorted m /\ (forall t v, List.In (t, v) (t_map x) -> List.In (t, v) m) /\ (forall t v, List.In (t, v) m -> pl (t_map x) t = Some v).
Lemma refines_ok x m : traj_ok x -> refines x m -> traj_ok (mkT (t_dom x) (t_cod x) None m).
Proof.
  intros Hx (Sm & Hi & Hp). pose proof Hx as (Hf & Hs & Hd & Hc). split; auto. split; auto. split; cbn [t_dom t_cod t_map].
  - destruct Hd as (W & A & B). split; auto. split.
    + intros t [v Ht]. apply dom_contains; auto. exists v. apply Hp; auto.
    + intros j Hj. apply B. intros t [v Ht]. apply Hj. exists v. auto.
  - apply (smallest_fill (is_val (t_map x))); auto.
    + intros v [t Ht]. exists t; auto.
    + intros v [t Ht]. apply (pl_vals _ t); auto.
Qed.
Lemma refines_refl x : traj_ok x -> refines x (t_map x).
Proof. intros (Hf & Hs & _). split; auto. split; auto. intros; apply pl_key; auto. Qed.
Lemma refines_put x m t v : traj_ok x -> refines x m -> pl (t_map x) t = Some v -> refines x (put t v m).
Proof.
  intros Hx (Sm & Hi & Hp) Hv. split; [apply sorted_put; auto|]. split.
  - intros k w H. apply in_put; auto. destruct (Req_dec k t) as [->|Hn]; [left|right; auto].
    split; auto. assert (pl (t_map x) t = Some w) by (apply Hp; auto). congruence.
  - intros k w H. apply in_put in H; auto. destruct H as [[-> ->]|[_ H]]; auto.
Qed.
Lemma refines_key x m t m' : traj_ok x -> refines x m -> sample_key x t m = Some m' -> refines x m'.
Proof.
  intros Hx Hm H. unfold sample_key in H. destruct (lookup t m); [injection H as <-; auto|].
  rewrite traj_at_pl in H by auto. destruct (pl (t_map x) t) eqn:E; [|discriminate]. injection H as <-. apply refines_put; auto.
Qed.
Lemma refines_loop x dt b : traj_ok x -> forall n t m m', refines x m -> sample_loop n x t b dt m = Some m' -> refines x m'.
Proof.
  intros Hx. induction n as [|n IH]; intros t m m' Hm H; cbn in H; [injection H as <-; auto|].
  destruct (Rltb t b); [|injection H as <-; auto]. destruct (sample_key x t m) eqn:E; [|discriminate].
  apply (IH _ _ _ (refines_key _ _ _ _ Hx Hm E) H).
Qed.
Lemma refines_keys x : traj_ok x -> forall l m m', refines x m -> sample_keys x l m = Some m' -> refines x m'.
Proof.
  intros Hx. induction l as [|t l IH]; intros m m' Hm H; cbn in H; [injection H as <-; auto|].
  destruct (sample_key x t m) eqn:E; [|discriminate]. apply (IH _ _ (refines_key _ _ _ _ Hx Hm E) H).
Qed.
Lemma sample_refines dt x x' : traj_ok x -> traj_sample dt x = Some x' ->
  exists m, x' = mkT (t_dom x) (t_cod x) None m /\ refines x m.
Proof.
  intros Hx H. pose proof Hx as (Hf & _). unfold traj_sample in H. destruct (t_dom x) as [|[a|] [b|]] eqn:Ed; try discriminate.
  destruct (Rltb 0 dt); [|discriminate]. destruct (sample_loop _ x a b dt (sample_start x)) eqn:El; [|discriminate].
  rewrite traj_at_pl in H by auto. destruct (pl (t_map x) b) eqn:Eb; [|discriminate]. injection H as <-.
  eexists. split; [reflexivity|]. apply refines_put; auto. eapply refines_loop; [auto| |exact El].
  unfold sample_start. rewrite Hf. apply refines_refl; auto.
Qed.
Lemma sample_as_refines y x x' : traj_ok x -> traj_sample_as y x = Some x' ->
  exists m, x' = mkT (t_dom x) (t_cod x) None m /\ refines x m.
Proof.
  intros Hx H. pose proof Hx as (Hf & _). unfold traj_sample_as in H. destruct (t_fun y); [discriminate|].
  destruct (itv_eqb (t_dom x) (t_dom y)); [|discriminate]. destruct (sample_keys _ _ _) eqn:El; [|discriminate]. injection H as <-.
  eexists. split; [reflexivity|]. eapply refines_keys; [auto| |exact El]. unfold sample_start. rewrite Hf. apply refines_refl; auto.
Qed.
Lemma ok_sample dt x x' : traj_ok x -> traj_sample dt x = Some x' -> traj_ok x'.
Proof. intros Hx H. destruct (sample_refines _ _ _ Hx H) as (m & -> & Hm). apply refines_ok; auto. Qed.
Lemma ok_sample_as y x x' : traj_ok x -> traj_sample_as y x = Some x' -> traj_ok x'.
Proof. intros Hx H. destruct (sample_as_refines _ _ _ Hx H) as (m & -> & Hm). apply refines_ok; auto. Qed.

(** same keys *)
Lemma sorted_keys : forall m m', map fst m = map fst m' -> sorted m -> sorted m'.
Proof.
  induction m as [|[k v] r IH]; intros [|[k' v'] r'] E Hs; try discriminate; auto. cbn in E. injection E as -> E.
  destruct Hs as [Hf Hs]. split; [|apply (IH r'); auto].
  apply Forall_forall. intros a Ha. rewrite Forall_forall in Hf.
  assert (H : List.In (fst a) (map fst r)) by (rewrite E; apply in_map; auto). apply in_map_iff in H. destruct H as (c & <- & Hc). apply Hf; auto.
Qed.
Lemma is_key_fst m t : is_key m t <-> List.In t (map fst m).
Proof.
  split; [intros [v H]; apply (in_map fst) in H; auto|]. intros H. apply in_map_iff in H. destruct H as ([k v] & <- & H). exists v. auto.
Qed.
Lemma ok_same_keys x m : traj_ok x -> map fst (t_map x) = map fst m -> traj_ok (mkT (t_dom x) (cod_of_map m) None m).
Proof.
  intros (Hf & Hs & Hd & Hc) E. split; auto. split; [apply (sorted_keys _ _ E); auto|]. split; [|apply smallest_cod].
  cbn. apply (smallest_ext (is_key (t_map x))); auto. intros t. rewrite !is_key_fst, E. tauto.
Qed.
Lemma continuous_keys d : forall m p md, map fst (continuous_loop d p md m) = map fst m.
Proof. induction m as [|[k v] r IH]; intros p md; cbn; auto. rewrite IH. auto. Qed.
Lemma ok_continuous x x' : traj_ok x -> traj_continuous x = Some x' -> traj_ok x'.
Proof.
  intros Hx H. pose proof Hx as (Hf & _). unfold traj_continuous in H. rewrite Hf in H. injection H as <-.
  apply ok_same_keys; auto. symmetry. apply continuous_keys.
Qed.
Lemma ok_set_all : forall l x x', traj_ok x -> set_all l x = Some x' -> traj_ok x'.
Proof.
  induction l as [|[t y] l IH]; intros x x' Hx H; cbn in H; [injection H as <-; auto|].
  destruct (traj_set y t x) eqn:E; [|discriminate]. apply (IH t0); auto. apply (ok_set _ _ _ _ Hx E).
Qed.
Lemma set_all_map : forall l x, traj_ok x -> sorted l -> (forall k v k' v', List.In (k, v) (t_map x) -> List.In (k', v') l -> k < k') ->
  exists x', set_all l x = Some x' /\ t_map x' = t_map x ++ l /\ traj_ok x'.
Proof.
  induction l as [|[t y] l IH]; intros x Hx Hs H; cbn [set_all]; [exists x; rewrite app_nil_r; auto|].
  destruct (set_def y t x Hx) as [x1 E1]. rewrite E1. pose proof (ok_set _ _ _ _ Hx E1) as H1.
  assert (Em : t_map x1 = t_map x ++ [(t, y)]).
  { rewrite (set_map _ _ _ _ E1). apply put_last. apply Forall_forall. intros [a va] Ha. cbn. apply (H a va t y); auto. left; auto. }
  destruct (IH x1 H1 (sorted_tail _ _ Hs)) as (x' & E' & Em' & Hx').
  - rewrite Em. intros a va b vb Ha Hb. apply in_app_or in Ha. destruct Ha as [Ha|[Ha|[]]].
    + apply (H a va b vb); auto. right; auto.
    + injection Ha as <- <-. apply (sorted_head _ _ _ _ _ Hs Hb).
  - exists x'. rewrite E', Em', Em, <- app_assoc. auto.
Qed.
Lemma prim_keys : forall m p c, map fst (prim_loop p c m) = map fst m.
Proof. induction m as [|[k v] r IH]; intros p c; cbn; auto. rewrite IH. auto. Qed.
Lemma primitive_def c x : traj_ok x -> exists p, traj_primitive c x = Some p /\ t_map p = prim_loop None c (t_map x) /\ traj_ok p.
Proof.
  intros (Hf & Hs & _). unfold traj_primitive. rewrite Hf.
  destruct (set_all_map (prim_loop None c (t_map x)) traj_new) as (p & E & Em & Hp); [apply ok_new| |intros ? ? ? ? []|].
  - apply (sorted_keys (t_map x)); auto. symmetry. apply prim_keys.
  - exists p. auto.
Qed.
Lemma ok_prim_dt_loop x a b dt : forall n t pt' val p r, traj_ok p -> prim_dt_loop n x a b dt t pt' val p = Some r -> traj_ok (fst (fst r)).
Proof.
  induction n as [|n IH]; intros t pt' val p r Hp H; cbn [prim_dt_loop] in H; [injection H as <-; auto|].
  destruct (Rltb t b); [|injection H as <-; auto].
  destruct (if Reqb t a then Some val else _) as [val'|]; [|discriminate].
  destruct (traj_set val' t p) eqn:E; [|discriminate]. apply (IH _ _ _ _ _ (ok_set _ _ _ _ Hp E) H).
Qed.
Lemma ok_primitive_dt c dt x x' : traj_primitive_dt c dt x = Some x' -> traj_ok x'.
Proof.
  unfold traj_primitive_dt. destruct (t_dom x) as [|[a|] [b|]]; try discriminate. destruct (Rltb 0 dt); [|discriminate].
  destruct (prim_dt_loop _ _ _ _ _ _ _ _ _) as [[[p pt'] val]|] eqn:E; [|discriminate]. intros H.
  destruct (traj_at x pt'); [|discriminate]. destruct (traj_at x b); [|discriminate].
  apply (ok_set _ _ _ _ (ok_prim_dt_loop _ _ _ _ _ _ _ _ _ _ ok_new E) H).
Qed.
Lemma ok_primitive c x x' : traj_primitive c x = Some x' -> traj_ok x'.
Proof. unfold traj_primitive. destruct (t_fun x); [discriminate|]. apply ok_set_all, ok_new. Qed.
Lemma map_vals_keys f m : map fst (map_vals f m) = map fst m.
Proof. unfold map_vals. rewrite map_map. apply map_ext. auto. Qed.
Lemma ok_unary f x x' : traj_ok x -> traj_unary f x = Some x' -> traj_ok x'.
Proof.
  intros (Hf & Hs & _) H. unfold traj_unary in H. rewrite Hf in H. injection H as <-. apply ok_map.
  apply (sorted_keys (t_map x)); auto. symmetry. apply map_vals_keys.
Qed.
Lemma ok_diff_loop m h : forall l d d', traj_ok d -> diff_loop m h l d = Some d' -> traj_ok d'.
Proof.
  induction l as [|[k v] r IH]; intros d d' Hd H; cbn in H; [injection H as <-; auto|].
  destruct (finite_diff m k h); [|discriminate]. destruct (traj_set r0 k d) eqn:E; [|discriminate].
  apply (IH _ _ (ok_set _ _ _ _ Hd E) H).
Qed.
Lemma ok_diff x x' : traj_diff x = Some x' -> traj_ok x'.
Proof.
  unfold traj_diff. destruct (t_fun x); [discriminate|]. destruct (constant_timestep (t_map x)) as [[[|] h]|]; [| |discriminate].
  - apply ok_diff_loop, ok_new.
  - destruct (t_dom x) as [|[a|] [b|]]; try discriminate. destruct (resample_loop _ _ _ _ _ _) as [dc|]; [|discriminate].
    destruct (constant_timestep (t_map dc)) as [[[|] h']|]; try discriminate.
    destruct (diff_loop _ _ _ _) eqn:E; [|discriminate]. intros H. apply (ok_truncate _ _ _ _ (ok_diff_loop _ _ _ _ _ ok_new E) H).
Qed.
Lemma assign_keys op x : forall m l, assign_loop op x m = Some l -> map fst l = map fst m.
Proof.
  induction m as [|[k v] r IH]; intros l H; cbn in H; [injection H as <-; auto|].
  destruct (traj_at x k); [|discriminate]. destruct (assign_loop op x r); [|discriminate]. injection H as <-. cbn. f_equal; apply IH; auto.
Qed.
