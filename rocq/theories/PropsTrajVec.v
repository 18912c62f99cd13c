(** * Matrix products and vector products of trajectories (C102) *)

From Coq Require Import Reals Lra Lia Bool List Arith.
From Verif Require Import Itv Trajectory TrajFacts PropsTraj PropsTrajArith TrajVec.
Import ListNotations.
Open Scope R_scope.

(** ** Specification *)

(** the value of the vector of trajectories at [t] *)
Definition value_of (x : tvec) (t : R) (v : list R) : Prop := Forall2 (fun a r => traj_at a t = Some r) x v.
(** sum of the products *)
Definition lin (r v : list R) : R := fold_right Rplus 0 (map (fun p => fst p * snd p) (combine r v)).
(** well formed sampled trajectories, all on the temporal domain [D] *)
Definition good (D : itv) (x : tvec) : Prop := forall a, List.In a x -> traj_ok a /\ t_dom a = D.
(** every sample time of a component is one of [b] *)
Definition keys_in (x : tvec) (b : traj) : Prop := forall a k, List.In a x -> is_key (t_map a) k -> is_key (t_map b) k.

(** ** Proofs *)

Lemma smallest_In P i v : smallest P i -> P v -> In v i.
Proof. intros H Hv. apply (smallest_between P i v v v H Hv Hv). lra. Qed.

Lemma dot_lin : forall r v, dot r v = lin r v.
Proof. unfold lin. induction r as [|a r IH]; intros [|b v]; cbn; auto. rewrite IH. auto. Qed.

Lemma values_iff : forall x t v, tv_values x t = Some v <-> value_of x t v.
Proof.
  unfold value_of. induction x as [|a x IH]; intros t v; cbn [tv_values].
  - split; [intros H; injection H as <-; constructor|intros H; inversion H; auto].
  - split.
    + destruct (traj_at a t) as [r|] eqn:E; [|discriminate]. destruct (tv_values x t) as [l|] eqn:E'; [|discriminate].
      intros H; injection H as <-. constructor; auto. apply IH; auto.
    + intros H. inversion H as [|? r ? l H1 H2]; subst. rewrite H1. rewrite (proj2 (IH t l) H2). auto.
Qed.
Lemma value_len x t v : value_of x t v -> length v = length x.
Proof. unfold value_of. induction 1; cbn; auto. Qed.
Lemma values_def D x t : good D x -> In t D -> exists v, tv_values x t = Some v.
Proof.
  intros G Ht. induction x as [|a x IH]; cbn [tv_values]; [eauto|].
  destruct (G a) as [Oa Da]; [left; auto|]. rewrite traj_at_pl by auto. rewrite <- Da in Ht. apply dom_contains in Ht; auto. destruct Ht as [w Hw]. rewrite Hw.
  destruct IH as [l Hl]; [intros b Hb; apply G; right; auto|]. rewrite Hl. eauto.
Qed.

(** a component whose samples are among those of [b] is affine between two consecutive samples of [b] *)
Lemma affine_between a b l k1 w1 k2 w2 r t : traj_ok a -> traj_ok b -> t_dom a = t_dom b -> (forall k, is_key (t_map a) k -> is_key (t_map b) k) ->
  t_map b = l ++ (k1, w1) :: (k2, w2) :: r -> k1 <= t <= k2 ->
  exists p q, traj_at a k1 = Some p /\ traj_at a k2 = Some q /\ traj_at a t = Some (lerp t (k1, p) (k2, q)).
Proof.
  intros Oa Ob Ed K Em Ht. pose proof Ob as (Fb & Sb & _). pose proof Oa as (Fa & Sa & _).
  destruct (sample_as_def b a (fun _ => Oa) Fb Ob Ed) as [a' Ea].
  destruct (sample_as_spec _ _ _ (fun _ => Oa) Ea) as (_ & _ & Fa' & Da' & Sa' & Ka' & Va').
  assert (E : map fst (t_map b) = map fst (t_map a')).
  { apply same_keys; auto. intros k. rewrite Ka'. unfold sample_start. rewrite Fa. split; auto. intros [H|H]; auto. }
  destruct (split_keys _ _ _ _ _ _ _ _ E Em) as (l' & p & q & r' & Em').
  exists p, q. split; [apply Va'; rewrite Em'; apply in_or_app; right; left; auto|].
  split; [apply Va'; rewrite Em'; apply in_or_app; right; right; left; auto|].
  destruct (C61_values a Oa) as (_ & H & _). destruct (H _ _ Ea) as [H' _]. rewrite <- H'.
  rewrite traj_at_pl by (apply (ok_sample_as _ _ _ Oa Ea)). apply (pl_seg _ _ _ _ _ _ _ _ Sa' Em' Ht).
Qed.

Lemma dot_affine D b l k1 w1 k2 w2 r t : traj_ok b -> t_dom b = D -> t_map b = l ++ (k1, w1) :: (k2, w2) :: r -> k1 < t < k2 ->
  forall x, good D x -> keys_in x b -> forall u w v row,
  tv_values x k1 = Some u -> tv_values x k2 = Some w -> tv_values x t = Some v ->
  dot row v = lerp t (k1, dot row u) (k2, dot row w).
Proof.
  intros Ob Db Em Ht. induction x as [|a x IH]; intros G K u w v row Hu Hw Hv; cbn [tv_values] in *.
  - injection Hu as <-. injection Hw as <-. injection Hv as <-. destruct row; unfold lerp; cbn; field; lra.
  - destruct (G a) as [Oa Da]; [left; auto|].
    destruct (affine_between a b l k1 w1 k2 w2 r t Oa Ob) as (p & q & Ep & Eq & Et); auto; [congruence|intros k Hk; apply (K a k); auto; left; auto|lra|].
    rewrite Ep in Hu. rewrite Eq in Hw. rewrite Et in Hv.
    destruct (tv_values x k1) as [u'|]; [|discriminate]. destruct (tv_values x k2) as [w'|]; [|discriminate]. destruct (tv_values x t) as [v'|]; [|discriminate].
    injection Hu as <-. injection Hw as <-. injection Hv as <-. destruct row as [|c row]; cbn [dot]; [unfold lerp; cbn; field; lra|].
    rewrite (IH (fun a' H => G a' (or_intror H)) (fun a' k H => K a' k (or_intror H)) u' w' v' row eq_refl eq_refl eq_refl).
    unfold lerp. cbn [fst snd]. field. lra.
Qed.

(** one call of set: each component takes its value *)
Lemma tv_set_spec y t : forall z, length y = length z -> Forall traj_ok z ->
  exists z', tv_set_loop y t z = Some z' /\ length z' = length z /\ Forall traj_ok z' /\
    forall i a, nth_error z i = Some a -> exists a', nth_error z' i = Some a' /\ traj_set (nth i y 0) t a = Some a'.
Proof.
  induction y as [|b y IH]; intros [|a z] L F; try discriminate.
  - exists []. cbn. repeat split; auto. intros [|i] ? H; discriminate.
  - cbn in L. apply Forall_cons_iff in F. destruct F as [Oa F]. destruct (IH z ltac:(lia) F) as (z' & E & L' & F' & N).
    destruct (set_def b t a Oa) as [a' Ea]. exists (a' :: z'). cbn [tv_set_loop length]. rewrite Ea, E. split; auto. split; [lia|]. split.
    + constructor; auto. apply (ok_set _ _ _ _ Oa Ea).
    + intros [|i] c H; cbn in *; [injection H as <-; eauto|auto].
Qed.

Lemma build_spec f x V n : forall keys z, (forall k, List.In k keys -> tv_at x k = Some (V k) /\ length (f (V k)) = n) ->
  length z = n -> Forall traj_ok z ->
  exists z', tv_build f x keys z = Some z' /\ length z' = n /\ Forall traj_ok z' /\
    forall i a, nth_error z i = Some a -> exists a', nth_error z' i = Some a' /\ set_all (map (fun k => (k, nth i (f (V k)) 0)) keys) a = Some a'.
Proof.
  induction keys as [|k keys IH]; intros z H L F; cbn [tv_build].
  - exists z. repeat split; auto. intros i a E. exists a. auto.
  - destruct (H k) as [Ek Lk]; [left; auto|]. rewrite Ek.
    destruct (tv_set_spec (f (V k)) k z ltac:(lia) F) as (z1 & E1 & L1 & F1 & N1).
    assert (Es : tv_set (f (V k)) k z = Some z1).
    { unfold tv_set. destruct z; auto. cbn in L. rewrite Lk, <- L. exact E1. }
    rewrite Es. destruct (IH z1) as (z2 & E2 & L2 & F2 & N2); [intros k' Hk'; apply H; right; auto|lia|auto|].
    exists z2. split; auto. split; auto. split; auto. intros i a E. destruct (N1 i a E) as (a1 & Ea1 & Sa1). destruct (N2 i a1 Ea1) as (a2 & Ea2 & Sa2).
    exists a2. split; auto. cbn [map set_all]. rewrite Sa1. exact Sa2.
Qed.

Lemma no_key_between : forall l m k1 w1 k2 w2 r, sorted m -> m = l ++ (k1, w1) :: (k2, w2) :: r ->
  forall t w, List.In (t, w) m -> k1 < t < k2 -> False.
Proof.
  induction l as [|[k0 w0] l IH]; intros m k1 w1 k2 w2 r Hs -> t w Hi Ht; cbn [app] in *.
  - destruct Hi as [E|[E|Hi]]; [injection E; intros; lra|injection E; intros; lra|].
    pose proof (sorted_head _ _ _ _ _ (sorted_tail _ _ Hs) Hi). lra.
  - destruct Hi as [E|Hi]; [|apply (IH _ k1 w1 k2 w2 r (sorted_tail _ _ Hs) eq_refl t w Hi Ht)].
    injection E as <- <-. assert (Hi : List.In (k1, w1) (l ++ (k1, w1) :: (k2, w2) :: r)) by (apply in_or_app; right; left; auto).
    pose proof (sorted_head _ _ _ _ _ Hs Hi). lra.
Qed.
Lemma sorted_map_keys g : forall m, sorted m -> sorted (map (fun k => (k, g k)) (map fst m)).
Proof. intros m Hs. apply (sorted_keys m); auto. rewrite !map_map. cbn. apply map_ext. auto. Qed.

(** the loop over the samples of the first component, for a linear function of the value *)
Lemma build_linear D b c x A : traj_ok b -> t_dom b = D -> good D (c :: x) ->
  exists z, tv_build (mat_vec A) (c :: x) (map fst (t_map b)) (repeat traj_new (length A)) = Some z /\ length z = length A /\
    forall i r, nth_error A i = Some r -> exists zi, nth_error z i = Some zi /\ traj_ok zi /\ t_dom zi = D /\
      forall t v, tv_values (c :: x) t = Some v -> is_key (t_map b) t \/ keys_in (c :: x) b -> traj_at zi t = Some (dot r v).
Proof.
  intros Ob Db G. destruct (G c) as [Oc Dc]; [left; auto|]. pose proof Ob as (Fb & Sb & Sm & Cb). rewrite Db in Sm.
  set (X := c :: x) in *. pose (V := fun k => match tv_values X k with Some v => v | None => [] end).
  assert (HK : forall k, List.In k (map fst (t_map b)) -> In k D) by (intros k Hk; apply (smallest_In _ _ _ Sm); apply is_key_fst; auto).
  assert (HV : forall k, In k D -> tv_values X k = Some (V k)).
  { intros k Hk. unfold V. destruct (values_def D X k G Hk) as [v ->]. auto. }
  destruct (build_spec (mat_vec A) X V (length A) (map fst (t_map b)) (repeat traj_new (length A))) as (z & Ez & Lz & Fz & Nz).
  - intros k Hk. split; [|unfold mat_vec; apply map_length]. unfold tv_at, X. apply HK in Hk. fold X. rewrite Dc. rewrite (proj2 (contains_true D k) Hk). auto.
  - apply repeat_length.
  - apply Forall_forall. intros a Ha. apply repeat_spec in Ha. subst. apply ok_new.
  - exists z. split; auto. split; auto. intros i r Er.
    assert (Ei : nth_error (repeat traj_new (length A)) i = Some traj_new).
    { assert (Hi : (i < length A)%nat) by (apply nth_error_Some; congruence). rewrite nth_error_repeat; auto. }
    destruct (Nz i _ Ei) as (zi & Ezi & Sz).
    assert (El : map (fun k => (k, nth i (mat_vec A (V k)) 0)) (map fst (t_map b)) = map (fun k => (k, dot r (V k))) (map fst (t_map b))).
    { apply map_ext. intros k. f_equal. unfold mat_vec. apply nth_error_nth. apply map_nth_error with (f := fun r => dot r (V k)) in Er. exact Er. }
    rewrite El in Sz. pose (g := fun k => dot r (V k)). fold g in Sz. change (fun k => (k, dot r (V k))) with (fun k => (k, g k)) in Sz.
    destruct (set_all_map (map (fun k => (k, g k)) (map fst (t_map b))) traj_new) as (zi' & E' & Em & Oz); [apply ok_new|apply sorted_map_keys; auto|intros ? ? ? ? []|].
    rewrite E' in Sz. injection Sz as ->. cbn [traj_new t_map app] in Em.
    assert (Kz : map fst (t_map zi) = map fst (t_map b)) by (rewrite Em, map_map; cbn; apply map_id).
    exists zi. split; auto. split; auto. pose proof Oz as (Fz' & Sz' & Dz' & _).
    assert (EdD : t_dom zi = D).
    { apply (smallest_uniq (is_key (t_map zi))); auto. apply (smallest_ext (is_key (t_map b))); auto. intros k. rewrite !is_key_fst, Kz. tauto. }
    split; auto. intros t v Hv HKk.
    assert (Ht : In t D).
    { unfold X in Hv. cbn [tv_values] in Hv. destruct (traj_at c t) as [w|] eqn:Ew; [|discriminate]. rewrite <- Dc. apply dom_contains; auto. rewrite <- traj_at_pl by auto. eauto. }
    rewrite traj_at_pl by auto. rewrite <- EdD in Ht. apply dom_contains in Ht; auto. destruct Ht as [w Hw]. rewrite Hw. f_equal.
    assert (Hg : forall k w', List.In (k, w') (t_map zi) -> w' = g k).
    { intros k w' Hk. rewrite Em in Hk. apply in_map_iff in Hk. destruct Hk as (k' & Hk & _). congruence. }
    destruct (pl_split _ _ _ Sz' Hw) as [Hi|(la & k1 & a1 & k2 & a2 & rr & Em1 & Hk & Ew)].
    + rewrite (Hg _ _ Hi). unfold g, V. rewrite Hv. auto.
    + destruct (split_keys _ _ _ _ _ _ _ _ Kz Em1) as (lb & b1 & b2 & rb & Emb).
      assert (K : keys_in X b).
      { destruct HKk as [Hkt|K]; auto. exfalso. destruct Hkt as [w' Hw']. apply (no_key_between _ _ _ _ _ _ _ Sb Emb t w'); auto. }
      rewrite Ew. rewrite (Hg k1 a1), (Hg k2 a2); [|rewrite Em1; apply in_or_app; right; right; left; auto|rewrite Em1; apply in_or_app; right; left; auto].
      unfold g. symmetry. apply (dot_affine D b lb k1 b1 k2 b2 rb t Ob Db Emb Hk X G K); auto; apply HV; apply HK; rewrite Emb, map_app; apply in_or_app; right; cbn; auto.
Qed.

(** *** The common sampling *)

(** what sampling keeps *)
Definition kept (a a' : traj) : Prop := traj_ok a' /\ t_dom a' = t_dom a /\ (forall t, traj_at a' t = traj_at a t) /\ (forall k, is_key (t_map a) k -> is_key (t_map a') k).
Definition keptv (x x' : tvec) : Prop := Forall2 kept x x'.

Lemma kept_refl a : traj_ok a -> kept a a. Proof. unfold kept. auto. Qed.
Lemma keptv_refl x : (forall a, List.In a x -> traj_ok a) -> keptv x x.
Proof. unfold keptv. induction x as [|a x IH]; intros H; constructor; [apply kept_refl, H; left; auto|apply IH; intros; apply H; right; auto]. Qed.
Lemma keptv_trans : forall x y z, keptv x y -> keptv y z -> keptv x z.
Proof.
  unfold keptv. intros x y z H. revert z. induction H as [|a b x y H H' IH]; intros z Hz; inversion Hz; subst; constructor; auto.
  destruct H as (O1 & D1 & V1 & K1). match goal with H : kept b _ |- _ => destruct H as (O2 & D2 & V2 & K2) end.
  unfold kept. split; auto. split; [congruence|]. split; [intros t; rewrite V2; auto|auto].
Qed.
Lemma keptv_len x y : keptv x y -> length y = length x.
Proof. unfold keptv. induction 1; cbn; auto. Qed.
Lemma keptv_nth : forall x y i a, keptv x y -> nth_error x i = Some a -> exists a', nth_error y i = Some a' /\ kept a a'.
Proof. unfold keptv. intros x y i a H. revert i. induction H as [|p q x y H H' IH]; intros [|i] E; cbn in *; try discriminate; [injection E as <-; eauto|auto]. Qed.
Lemma keptv_good D x y : keptv x y -> good D x -> good D y.
Proof.
  unfold keptv. induction 1 as [|p q x y H H' IH]; intros G a Ha; [destruct Ha|]. destruct Ha as [<-|Ha].
  - destruct H as (O & D' & _). split; auto. rewrite D'. apply G. left; auto.
  - apply IH; auto. intros b Hb. apply G. right; auto.
Qed.
Lemma keptv_values : forall x y t, keptv x y -> tv_values y t = tv_values x t.
Proof. unfold keptv. intros x y t H. induction H as [|p q x y H H' IH]; cbn; auto. destruct H as (_ & _ & V & _). rewrite V, IH. auto. Qed.

Lemma keptv_upd : forall x i a a', nth_error x i = Some a -> kept a a' -> (forall b, List.In b x -> traj_ok b) ->
  keptv x (firstn i x ++ a' :: skipn (S i) x) /\ nth_error (firstn i x ++ a' :: skipn (S i) x) i = Some a'.
Proof.
  unfold keptv. induction x as [|b x IH]; intros [|i] a a' E H O; try discriminate.
  - cbn in *. injection E as ->. split; auto. constructor; auto. apply keptv_refl. intros c Hc. apply O. right; auto.
  - cbn [nth_error] in E. destruct (IH i a a' E H) as [H1 H2]; [intros c Hc; apply O; right; auto|].
    cbn [firstn skipn app nth_error]. split; auto. constructor; auto. apply kept_refl, O. left; auto.
Qed.

Lemma sample_ij_spec D x i j : good D x -> (i < length x)%nat -> (j < length x)%nat ->
  exists x', tv_sample_ij i j x = Some x' /\ keptv x x' /\
    (forall a a' k, nth_error x j = Some a -> nth_error x' i = Some a' -> is_key (t_map a) k -> is_key (t_map a') k).
Proof.
  intros G Hi Hj. unfold tv_sample_ij.
  destruct (nth_error x i) as [a|] eqn:Ei; [|apply nth_error_None in Ei; lia]. destruct (nth_error x j) as [b|] eqn:Ej; [|apply nth_error_None in Ej; lia].
  destruct (G a (nth_error_In _ _ Ei)) as [Oa Da]. destruct (G b (nth_error_In _ _ Ej)) as [Ob Db].
  destruct (sample_as_def b a (fun _ => Oa) (proj1 Ob) Ob ltac:(congruence)) as [a' Ea]. rewrite Ea.
  destruct (sample_as_spec _ _ _ (fun _ => Oa) Ea) as (_ & _ & Fa & D' & S' & K' & _).
  assert (Hk : kept a a').
  { split; [apply (ok_sample_as _ _ _ Oa Ea)|]. split; auto. split.
    - destruct (C61_values a Oa) as (_ & H & _). apply (H _ _ Ea).
    - intros k Hk. apply K'. left. unfold sample_start. rewrite (proj1 Oa). auto. }
  destruct (keptv_upd x i a a' Ei Hk) as [H1 H2]; [intros c Hc; apply (G c Hc)|].
  eexists. split; [reflexivity|]. split; auto. intros c c' k Ec Ec' Hc. rewrite H2 in Ec'. injection Ec' as <-. injection Ec as <-. apply K'. auto.
Qed.

Lemma sample_row_spec D i : forall js x, good D x -> (i < length x)%nat -> (forall j, List.In j js -> (j < length x)%nat) ->
  exists x', tv_sample_row i js x = Some x' /\ keptv x x' /\
    (forall j a a' k, List.In j js -> nth_error x j = Some a -> nth_error x' i = Some a' -> is_key (t_map a) k -> is_key (t_map a') k).
Proof.
  induction js as [|j js IH]; intros x G Hi Hj; cbn [tv_sample_row].
  - exists x. split; auto. split; [apply keptv_refl; intros a Ha; apply (G a Ha)|intros j a a' k []].
  - destruct (Nat.eqb i j) eqn:Eij.
    + apply Nat.eqb_eq in Eij. subst j. destruct (IH x G Hi) as (x' & E & Kv & K); [intros; apply Hj; right; auto|].
      exists x'. split; auto. split; auto. intros j a a' k [<-|Hin] Ea Ea' Hk; [|apply (K j a a' k); auto].
      destruct (keptv_nth _ _ _ _ Kv Ea) as (c & Ec & Hc). rewrite Ec in Ea'. injection Ea' as <-. apply Hc. auto.
    + destruct (sample_ij_spec D x i j G Hi) as (x1 & E1 & Kv1 & K1); [apply Hj; left; auto|]. rewrite E1.
      pose proof (keptv_len _ _ Kv1) as L1.
      destruct (IH x1) as (x' & E & Kv & K); [apply (keptv_good D x); auto|lia|intros j' Hj'; rewrite L1; apply Hj; right; auto|].
      exists x'. split; auto. split; [apply (keptv_trans x x1); auto|]. intros j' a a' k [<-|Hin] Ea Ea' Hk.
      * destruct (nth_error x1 i) as [c|] eqn:Ec; [|apply nth_error_None in Ec; lia].
        pose proof (K1 _ _ k Ea eq_refl Hk) as Hc. destruct (keptv_nth _ _ _ _ Kv Ec) as (c' & Ec' & Hc'). rewrite Ec' in Ea'. injection Ea' as <-. apply Hc'. auto.
      * destruct (keptv_nth _ _ _ _ Kv1 Ea) as (c & Ec & Hc). apply (K j' c a' k); auto. apply Hc. auto.
Qed.

Lemma sample_all_kept D : forall is x, good D x -> (forall i, List.In i is -> (i < length x)%nat) ->
  exists x', tv_sample_all is x = Some x' /\ keptv x x'.
Proof.
  induction is as [|i is IH]; intros x G Hi; cbn [tv_sample_all].
  - exists x. split; auto. apply keptv_refl. intros a Ha; apply (G a Ha).
  - destruct (sample_row_spec D i (seq 0 (length x)) x G) as (x1 & E1 & K1 & _); [apply Hi; left; auto|intros j Hj; apply in_seq in Hj; lia|].
    rewrite E1. destruct (IH x1) as (x' & E & K); [apply (keptv_good D x); auto|intros j Hj; rewrite (keptv_len _ _ K1); apply Hi; right; auto|].
    exists x'. split; auto. apply (keptv_trans x x1); auto.
Qed.

(** after a row of samplings, nothing new is left for this component to take from the others: the loops
    of the product leave in the first component all the sample times of all the components *)
Lemma sample_as_keys_in D b x : good D (b :: x) -> exists b' x', tv_sample_all (seq 0 (length (b :: x))) (b :: x) = Some (b' :: x') /\
  keptv (b :: x) (b' :: x') /\ keys_in (b :: x) b'.
Proof.
  intros G. cbn [length seq tv_sample_all].
  destruct (sample_row_spec D 0 (seq 0 (length (b :: x))) (b :: x) G) as (x1 & E1 & K1 & H1); [cbn; lia|intros j Hj; apply in_seq in Hj; cbn in *; lia|].
  cbn [length seq] in E1. rewrite E1. pose proof (keptv_len _ _ K1) as L1. cbn [length] in L1.
  destruct (sample_all_kept D (seq 1 (length x)) x1) as (x2 & E2 & K2); [apply (keptv_good D (b :: x)); auto|intros i Hi; apply in_seq in Hi; lia|].
  rewrite E2. pose proof (keptv_len _ _ K2) as L2. destruct x2 as [|b' x']; [cbn in L2; lia|]. exists b', x'. split; auto. split; [apply (keptv_trans _ x1); auto|].
  intros a k Ha Hk. apply In_nth_error in Ha. destruct Ha as [j Ej].
  destruct x1 as [|c x1]; [cbn in L1; lia|].
  assert (Hc : is_key (t_map c) k).
  { apply (H1 j a c k); auto. apply in_seq. assert (j < length (b :: x))%nat by (apply nth_error_Some; congruence). cbn [length] in *. lia. }
  destruct (keptv_nth (c :: x1) (b' :: x') 0 c K2 eq_refl) as (c' & Ec' & Hc'). cbn in Ec'. injection Ec' as <-. apply Hc'. auto.
Qed.

Lemma tv_at_kept c x c' x' t : keptv (c :: x) (c' :: x') -> tv_at (c' :: x') t = tv_at (c :: x) t.
Proof.
  intros H. unfold tv_at. rewrite (keptv_values _ _ t H). unfold keptv in H. inversion H as [|? ? ? ? (_ & D & _) _]; subst. rewrite D. auto.
Qed.
Lemma build_ext f g x y : (forall t, tv_at y t = tv_at x t) -> (forall t v, tv_at x t = Some v -> f v = g v) ->
  forall keys z, tv_build f y keys z = tv_build g x keys z.
Proof.
  intros Hx Hf. induction keys as [|k keys IH]; intros z; cbn [tv_build]; auto. rewrite Hx. destruct (tv_at x k) as [v|] eqn:E; auto. rewrite (Hf _ _ E).
  destruct (tv_set (g v) k z); auto.
Qed.
Lemma tv_at_len x t v : tv_at x t = Some v -> length v = length x.
Proof. unfold tv_at. destruct x as [|a x]; [discriminate|]. destruct (contains (t_dom a) t); [|discriminate]. intros H. apply values_iff in H. apply (value_len _ t); auto. Qed.

(** the matrix product once the first component [b] of the common sampling is known *)
Lemma mat_mul_build D A c x : good D (c :: x) -> nb_cols A = length (c :: x) ->
  exists b, traj_ok b /\ t_dom b = D /\ keys_in (c :: x) b /\
    mat_mul A (c :: x) = tv_build (mat_vec A) (c :: x) (map fst (t_map b)) (repeat traj_new (length (c :: x))).
Proof.
  intros G Hc. destruct (sample_as_keys_in D c x G) as (b & x' & E & Kv & K). exists b.
  destruct (keptv_good D _ _ Kv G b) as [Ob Db]; [left; auto|]. split; auto. split; auto. split; auto.
  unfold mat_mul. rewrite Hc, Nat.eqb_refl, E. unfold tv_new. replace (Nat.eqb (length (c :: x)) 0) with false by auto.
  unfold first_keys. rewrite (proj1 Ob). apply build_ext; auto. intros t. apply tv_at_kept; auto.
Qed.

(** A square matrix times a vector of sampled trajectories given on the same temporal domain, whatever
    the sample times of the components: the product is defined on this temporal domain and is the matrix
    times the value at every time, between the samples too.  Missing: the matrices that are not
    square (refuted below). *)
Theorem C102_matrix_partial D A x : x <> [] -> good D x -> length A = length x -> (forall r, List.In r A -> length r = length x) ->
  exists z, mat_mul A x = Some z /\ length z = length x /\ good D z /\
    forall t v, value_of x t v -> value_of z t (map (fun r => lin r v) A).
Proof.
  intros Hx G LA LR. destruct x as [|c x]; [congruence|]. set (X := c :: x) in *.
  assert (Hc : nb_cols A = length X). { destruct A as [|r A]; [discriminate|]. apply LR. left; auto. }
  destruct (mat_mul_build D A c x G Hc) as (b & Ob & Db & K & E). fold X in E. rewrite E.
  destruct (build_linear D b c x A Ob Db G) as (z & Ez & Lz & N). fold X in Ez. rewrite <- LA. exists z. split; auto. split; auto. split.
  - intros a Ha. apply In_nth_error in Ha. destruct Ha as [i Ei]. assert (Hi : (i < length A)%nat) by (rewrite <- Lz; apply nth_error_Some; congruence).
    destruct (nth_error A i) as [r|] eqn:Er; [|apply nth_error_None in Er; lia]. destruct (N i r Er) as (zi & Ezi & Oi & Di & _). rewrite Ezi in Ei. injection Ei as <-. auto.
  - intros t v Hv. apply values_iff in Hv. assert (N' : forall i r, nth_error A i = Some r -> exists zi, nth_error z i = Some zi /\ traj_at zi t = Some (lin r v)).
    { intros i r Er. destruct (N i r Er) as (zi & Ezi & _ & _ & V). exists zi. split; auto. rewrite <- dot_lin. apply V; auto. }
    clear - Lz N'. unfold value_of. revert z Lz N'. induction A as [|r A IH]; intros [|a z] L N; try discriminate; constructor.
    + destruct (N 0%nat r eq_refl) as (zi & E & H). cbn in E. injection E as <-. auto.
    + apply IH; [cbn in L; lia|]. intros i r' Er. apply (N (Datatypes.S i) r' Er).
Qed.

Lemma set_loop_len y t : forall z, length y <> length z -> tv_set_loop y t z = None.
Proof.
  induction y as [|b y IH]; intros [|a z] H; cbn [tv_set_loop]; auto; [cbn in H; congruence|]. rewrite IH by (cbn in H; lia). destruct (traj_set b t a); auto.
Qed.

(** With a matrix that is not square the product of sampled trajectories always fails (the result is
    created with the dimension of the operand, the assertion of set does not hold). *)
Theorem C102_matrix_nonsquare D A x k : x <> [] -> good D x -> In k D -> length A <> length x -> mat_mul A x = None.
Proof.
  intros Hx G Hk LA. destruct x as [|c x]; [congruence|]. destruct (Nat.eq_dec (nb_cols A) (length (c :: x))) as [Hc|Hc];
    [|unfold mat_mul; apply Nat.eqb_neq in Hc; rewrite Hc; auto].
  destruct (mat_mul_build D A c x G Hc) as (b & Ob & Db & K & ->). rewrite <- Db in Hk. pose proof (proj1 (dom_contains b k Ob) Hk) as [w Hw].
  pose proof Ob as (_ & Sb & Sm & _). destruct (t_map b) as [|[k0 w0] r] eqn:Em; [discriminate|]. cbn [map fst tv_build].
  assert (Hk0 : In k0 D) by (rewrite <- Db; apply (smallest_In _ _ _ Sm); exists w0; left; auto).
  destruct (values_def D (c :: x) k0 G Hk0) as [v Ev]. unfold tv_at. destruct (G c) as [Oc Dc]; [left; auto|]. rewrite Dc, (proj2 (contains_true D k0) Hk0), Ev.
  unfold tv_set. cbn [length repeat]. rewrite set_loop_len; auto. unfold mat_vec. rewrite map_length. cbn [length repeat] in *. rewrite repeat_length. auto.
Qed.
Theorem C102_matrix_refuted : exists A x t v, good (bnd 0 2) x /\ (forall r, List.In r A -> length r = length x) /\ value_of x t v /\ mat_mul A x = None.
Proof.
  exists [[1; 1]], [traj_map [(0, 1); (2, 3)]; traj_map [(0, 2); (1, 5); (2, 4)]], 0, [1; 2].
  assert (S1 : sorted [(0, 1); (2, 3)]) by (cbn; repeat split; repeat constructor; cbn; lra).
  assert (S2 : sorted [(0, 2); (1, 5); (2, 4)]) by (cbn; repeat split; repeat constructor; cbn; lra).
  assert (G : good (bnd 0 2) [traj_map [(0, 1); (2, 3)]; traj_map [(0, 2); (1, 5); (2, 4)]]).
  { intros a [<-|[<-|[]]]; (split; [apply ok_map; auto|reflexivity]). }
  split; auto. split; [intros r [<-|[]]; auto|]. split.
  - constructor; [|constructor; [|constructor]]; rewrite traj_at_pl by (apply ok_map; auto); rewrite map_of_traj; apply pl_key; auto; left; auto.
  - apply (C102_matrix_nonsquare (bnd 0 2) _ _ 0); auto; [discriminate|apply In_bnd; lra|cbn; lia].
Qed.

(** ** Vector product *)

(** the cross product with [w] on the right is linear *)
Definition crossm (w : list R) : list (list R) :=
  let c i := nth i w 0 in [[0; c 2%nat; - c 1%nat]; [- c 2%nat; 0; c 0%nat]; [c 1%nat; - c 0%nat; 0]].
Lemma cross_lin w a : length a = 3%nat -> cross a w = mat_vec (crossm w) a.
Proof.
  destruct a as [|a1 [|a2 [|a3 [|? ?]]]]; try discriminate. intros _. unfold cross, mat_vec, crossm. cbn [map dot nth].
  repeat (f_equal; [ring|]). f_equal; ring.
Qed.

Lemma vecto_r_build D x1 x2 x3 w1 w2 w3 : good D [x1; x2; x3] ->
  exists z1 z2 z3, vecto_r [x1; x2; x3] [w1; w2; w3] = Some [z1; z2; z3] /\ good D [z1; z2; z3] /\
    forall t a1 a2 a3, value_of [x1; x2; x3] t [a1; a2; a3] -> is_key (t_map x1) t \/ keys_in [x2; x3] x1 ->
      value_of [z1; z2; z3] t [a2 * w3 - a3 * w2; a3 * w1 - a1 * w3; a1 * w2 - a2 * w1].
Proof.
  intros G. destruct (G x1) as [O1 D1]; [left; auto|].
  destruct (build_linear D x1 x1 [x2; x3] (crossm [w1; w2; w3]) O1 D1 G) as (z & Ez & Lz & N).
  destruct z as [|z1 [|z2 [|z3 [|? ?]]]]; try discriminate. exists z1, z2, z3.
  destruct (N 0%nat _ eq_refl) as (y1 & E1 & Y1 & B1 & V1). destruct (N 1%nat _ eq_refl) as (y2 & E2 & Y2 & B2 & V2). destruct (N 2%nat _ eq_refl) as (y3 & E3 & Y3 & B3 & V3).
  cbn in E1, E2, E3. injection E1 as <-. injection E2 as <-. injection E3 as <-. split; [|split].
  - unfold vecto_r. cbn [length Nat.eqb andb]. unfold first_keys. rewrite (proj1 O1). cbn [tv_new Nat.eqb]. refine (eq_trans _ Ez). cbn [length crossm].
    apply build_ext; auto. intros t v Hv. apply cross_lin. apply tv_at_len in Hv. auto.
  - intros a [<-|[<-|[<-|[]]]]; auto.
  - intros t a1 a2 a3 Hv HK. apply values_iff in Hv.
    assert (HK' : is_key (t_map x1) t \/ keys_in [x1; x2; x3] x1).
    { destruct HK as [HK|HK]; auto. right. intros a k [<-|Ha] Hk; auto. apply (HK a k); auto. }
    constructor; [|constructor; [|constructor; [|constructor]]]; [rewrite (V1 _ _ Hv HK')|rewrite (V2 _ _ Hv HK')|rewrite (V3 _ _ Hv HK')]; f_equal; cbn; ring.
Qed.

(** Vector product of a trajectory by a constant vector on the right: defined, exact at the sample times
    of the first component, and exact everywhere when the two other components have no other sample
    time.  Missing: components sampled at other times (refuted below). *)
Theorem C102_vecto_partial D x1 x2 x3 w1 w2 w3 : good D [x1; x2; x3] ->
  exists z1 z2 z3, vecto_r [x1; x2; x3] [w1; w2; w3] = Some [z1; z2; z3] /\ good D [z1; z2; z3] /\
    forall t a1 a2 a3, value_of [x1; x2; x3] t [a1; a2; a3] -> is_key (t_map x1) t \/ keys_in [x2; x3] x1 ->
      value_of [z1; z2; z3] t [a2 * w3 - a3 * w2; a3 * w1 - a1 * w3; a1 * w2 - a2 * w1].
Proof. apply vecto_r_build. Qed.

Lemma pl_neg : forall m t, pl (map_vals Ropp m) t = option_map Ropp (pl m t).
Proof.
  induction m as [|[k v] r IH]; intros t; auto. cbn [map_vals map fst snd]. rewrite !pl_cons. destruct (Reqb k t); auto. destruct (Rltb t k); auto.
  destruct r as [|[k2 v2] r]; auto. cbn [map_vals map fst snd] in *. destruct (Rltb t k2); [cbn; f_equal; unfold lerp; cbn; unfold Rdiv; ring|]. apply IH.
Qed.
Lemma neg_spec x : traj_ok x -> exists z, traj_unary Ropp x = Some z /\ traj_ok z /\ t_dom z = t_dom x /\ forall t v, traj_at x t = Some v -> traj_at z t = Some (- v).
Proof.
  intros O. destruct (C59_unary Ropp x O) as (z & E & Oz & K & _). exists z. split; auto. split; auto. pose proof O as (Fx & Sx & Dx & _).
  split.
  - pose proof Oz as (_ & _ & Dz & _). apply (smallest_uniq (is_key (t_map z))); auto. apply (smallest_ext (is_key (t_map x))); auto. intros k. rewrite !is_key_fst, K. tauto.
  - intros t v Hv. rewrite traj_at_pl in Hv |- * by auto. unfold traj_unary in E. rewrite Fx in E. injection E as <-. rewrite map_of_traj, pl_neg, Hv. auto.
Qed.

(** The same with the constant vector on the left. *)
Theorem C102_vecto_left_partial D x1 x2 x3 w1 w2 w3 : good D [x1; x2; x3] ->
  exists z1 z2 z3, vecto_l [w1; w2; w3] [x1; x2; x3] = Some [z1; z2; z3] /\ good D [z1; z2; z3] /\
    forall t a1 a2 a3, value_of [x1; x2; x3] t [a1; a2; a3] -> is_key (t_map x1) t \/ keys_in [x2; x3] x1 ->
      value_of [z1; z2; z3] t [w2 * a3 - w3 * a2; w3 * a1 - w1 * a3; w1 * a2 - w2 * a1].
Proof.
  intros G. destruct (vecto_r_build D x1 x2 x3 w1 w2 w3 G) as (z1 & z2 & z3 & E & Gz & V).
  destruct (Gz z1) as [O1 D1]; [left; auto|]. destruct (Gz z2) as [O2 D2]; [right; left; auto|]. destruct (Gz z3) as [O3 D3]; [right; right; left; auto|].
  destruct (neg_spec z1 O1) as (y1 & E1 & Y1 & B1 & V1). destruct (neg_spec z2 O2) as (y2 & E2 & Y2 & B2 & V2). destruct (neg_spec z3 O3) as (y3 & E3 & Y3 & B3 & V3).
  exists y1, y2, y3. split; [|split].
  - unfold vecto_l. cbn [length Nat.eqb andb]. rewrite E. cbn [tv_neg]. rewrite E1, E2, E3. auto.
  - intros a [<-|[<-|[<-|[]]]]; split; auto; congruence.
  - intros t a1 a2 a3 Hv HK. pose proof (V t a1 a2 a3 Hv HK) as H. inversion H as [|? ? ? ? H1 T1]; subst. inversion T1 as [|? ? ? ? H2 T2]; subst. inversion T2 as [|? ? ? ? H3 T3]; subst.
    constructor; [|constructor; [|constructor; [|constructor]]]; [rewrite (V1 _ _ H1)|rewrite (V2 _ _ H2)|rewrite (V3 _ _ H3)]; f_equal; ring.
Qed.

(** the second component has a sample time that the first one has not *)
Definition xA : traj := traj_map [(0, 0); (2, 0)].
Definition xB : traj := traj_map [(0, 0); (1, 1); (2, 0)].
Lemma xA_ok : traj_ok xA /\ t_dom xA = bnd 0 2.
Proof. split; [apply ok_map; cbn; repeat split; repeat constructor; cbn; lra|reflexivity]. Qed.
Lemma xB_ok : traj_ok xB /\ t_dom xB = bnd 0 2.
Proof. split; [apply ok_map; cbn; repeat split; repeat constructor; cbn; lra|reflexivity]. Qed.
Lemma xAB_good : good (bnd 0 2) [xA; xB; xA].
Proof. intros a [<-|[<-|[<-|[]]]]; [apply xA_ok|apply xB_ok|apply xA_ok]. Qed.
Lemma xA_0 t : 0 <= t <= 2 -> traj_at xA t = Some 0.
Proof.
  intros Ht. rewrite traj_at_pl by apply xA_ok. unfold xA. rewrite map_of_traj.
  rewrite (pl_seg [(0, 0); (2, 0)] [] 0 0 2 0 [] t) by (auto; cbn; repeat split; repeat constructor; cbn; lra). f_equal. unfold lerp. cbn. field.
Qed.
Lemma xB_1 : traj_at xB 1 = Some 1.
Proof. rewrite traj_at_pl by apply xB_ok. unfold xB. rewrite map_of_traj. apply pl_key; [cbn; repeat split; repeat constructor; cbn; lra|right; left; auto]. Qed.

Theorem C102_vecto_refuted : exists x1 x2 x3 w1 w2 w3 z1 z2 z3 t a1 a2 a3 r, good (bnd 0 2) [x1; x2; x3] /\
  vecto_r [x1; x2; x3] [w1; w2; w3] = Some [z1; z2; z3] /\ value_of [x1; x2; x3] t [a1; a2; a3] /\
  traj_at z1 t = Some r /\ r <> a2 * w3 - a3 * w2.
Proof.
  destruct (vecto_r_build (bnd 0 2) xA xB xA 0 0 1 xAB_good) as (z1 & z2 & z3 & E & G & V).
  exists xA, xB, xA, 0, 0, 1, z1, z2, z3, 1, 0, 1, 0, 0. split; [apply xAB_good|]. split; auto. split.
  - constructor; [apply xA_0; lra|constructor; [apply xB_1|constructor; [apply xA_0; lra|constructor]]].
  - split; [|lra]. unfold vecto_r in E. cbn [length Nat.eqb andb] in E. unfold first_keys in E. rewrite (proj1 (proj1 xA_ok)) in E. cbn [tv_new Nat.eqb length repeat] in E.
    change (map fst (t_map xA)) with [0; 2] in E. cbn [tv_build] in E.
    assert (B0 : traj_at xB 0 = Some 0) by (rewrite traj_at_pl by apply xB_ok; unfold xB; rewrite map_of_traj; apply pl_key; [cbn; repeat split; repeat constructor; cbn; lra|left; auto]).
    assert (B2 : traj_at xB 2 = Some 0) by (rewrite traj_at_pl by apply xB_ok; unfold xB; rewrite map_of_traj; apply pl_key; [cbn; repeat split; repeat constructor; cbn; lra|right; right; left; auto]).
    assert (T : forall t, 0 <= t <= 2 -> traj_at xB t = Some 0 -> tv_at [xA; xB; xA] t = Some [0; 0; 0]).
    { intros t Ht H. unfold tv_at. rewrite (proj2 xA_ok). rewrite (proj2 (contains_true (bnd 0 2) t)) by (apply In_bnd; lra). cbn [tv_values]. rewrite xA_0, H by lra. auto. }
    rewrite (T 0) in E by (auto; lra). 
    assert (Ec : forall l, tv_set (cross [0; 0; 0] [0; 0; 1]) l = tv_set [0; 0; 0] l).
    { intros l. f_equal. unfold cross. cbn [nth]. repeat (f_equal; [ring|]). f_equal; ring. }
    rewrite Ec in E. destruct (tv_set [0; 0; 0] 0 _) as [r1|] eqn:E1; [|discriminate]. rewrite (T 2), Ec in E by (auto; lra).
    destruct (tv_set [0; 0; 0] 2 r1) as [r2|] eqn:E2; [|discriminate]. injection E as ->.
    unfold tv_set in E1. destruct (set_def 0 0 traj_new ok_new) as [s0 S0]. cbn [tv_set_loop] in E1. rewrite S0 in E1. injection E1 as <-.
    pose proof (ok_set _ _ _ _ ok_new S0) as Os0. destruct (set_def 0 2 s0 Os0) as [s2 S2]. unfold tv_set in E2. cbn [tv_set_loop] in E2. rewrite S2 in E2. injection E2 as <- _ _.
    pose proof (ok_set _ _ _ _ Os0 S2) as Os2. rewrite traj_at_pl by auto. rewrite (set_map _ _ _ _ S2), (set_map _ _ _ _ S0).
    cbn [traj_new t_map put]. rewrite (proj2 (Rltb_false 2 0)), (proj2 (Reqb_false 0 2)) by lra.
    rewrite (pl_seg [(0, 0); (2, 0)] [] 0 0 2 0 [] 1) by (auto; cbn; repeat split; repeat constructor; cbn; lra). f_equal. unfold lerp. cbn. field.
Qed.

(** ** Concrete cases *)

Example C102_matrix_ex : good (bnd 0 2) [xA; xB] /\ value_of [xA; xB] 1 [0; 1] /\
  exists z, mat_mul [[1; 2]; [3; -1]] [xA; xB] = Some z /\ value_of z 1 [2; -1].
Proof.
  assert (G : good (bnd 0 2) [xA; xB]) by (intros a [<-|[<-|[]]]; [apply xA_ok|apply xB_ok]).
  assert (V : value_of [xA; xB] 1 [0; 1]) by (constructor; [apply xA_0; lra|constructor; [apply xB_1|constructor]]).
  split; auto. split; auto. destruct (C102_matrix_partial (bnd 0 2) [[1; 2]; [3; -1]] [xA; xB]) as (z & E & _ & _ & H); auto; [discriminate|intros r [<-|[<-|[]]]; auto|].
  exists z. split; auto. specialize (H 1 _ V). cbn in H. replace 2 with (1 * 0 + (2 * 1 + 0)) by ring. replace (-1) with (3 * 0 + (-1 * 1 + 0)) by ring. exact H.
Qed.
Example C102_vecto_ex : good (bnd 0 2) [xB; xA; xA] /\ keys_in [xA; xA] xB /\ value_of [xB; xA; xA] 1 [1; 0; 0] /\
  exists z1 z2 z3, vecto_r [xB; xA; xA] [0; 0; 1] = Some [z1; z2; z3] /\ traj_at z2 1 = Some (-1).
Proof.
  assert (G : good (bnd 0 2) [xB; xA; xA]) by (intros a [<-|[<-|[<-|[]]]]; [apply xB_ok|apply xA_ok|apply xA_ok]).
  assert (K : keys_in [xA; xA] xB).
  { intros a k Ha [w Hw]. assert (Ea : a = xA) by (destruct Ha as [<-|[<-|[]]]; auto). subst a. unfold xA in Hw. rewrite map_of_traj in Hw. unfold xB, is_key. rewrite map_of_traj.
    destruct Hw as [E|[E|[]]]; injection E as <- <-; [exists 0; left; auto|exists 0; right; right; left; auto]. }
  assert (V : value_of [xB; xA; xA] 1 [1; 0; 0]) by (constructor; [apply xB_1|constructor; [apply xA_0; lra|constructor; [apply xA_0; lra|constructor]]]).
  split; auto. split; auto. split; auto. destruct (C102_vecto_partial (bnd 0 2) xB xA xA 0 0 1 G) as (z1 & z2 & z3 & E & _ & H).
  exists z1, z2, z3. split; auto. pose proof (H 1 1 0 0 V (or_intror K)) as Hv. inversion Hv as [|? ? ? ? H1 T1]; subst. inversion T1 as [|? ? ? ? H2 T2]; subst.
  rewrite H2. f_equal. ring.
Qed.

Print Assumptions C102_matrix_partial.
Print Assumptions C102_matrix_nonsquare.
Print Assumptions C102_matrix_refuted.
Print Assumptions C102_vecto_partial.
Print Assumptions C102_vecto_left_partial.
Print Assumptions C102_vecto_refuted.
