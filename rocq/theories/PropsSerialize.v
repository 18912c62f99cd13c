(** * C38, C39: serialization round trips *)

From Coq Require Import Reals Lra Lia ZArith Bool List Arith.
From Verif Require Import Itv Arith Tube TubeSpec TubeOps TubeFacts TubeOpsFacts TubeOpsFacts2 Trajectory TrajFacts Double Serialize Concrete.
Import ListNotations.
Open Scope R_scope.

(** ** Specification *)
(** the finite bounds are doubles *)
Definition dbl (o : option R) : Prop := match o with Some a => is_double a | None => True end.
Definition dbl_itv (i : itv) : Prop := match i with Emp => True | Itv l h => dbl l /\ dbl h end.
(** an interval that an [Interval] object can hold *)
Definition storable (i : itv) : Prop := wf i /\ dbl_itv i.
(** a tube whose times and bounds are doubles *)
Definition dbl_slice (s : slice) : Prop :=
  is_double (s_lb s) /\ is_double (s_ub s) /\ dbl_itv (s_cod s) /\ dbl_itv (s_in s) /\ dbl_itv (s_out s).
Definition dbl_traj (x : traj) : Prop := Forall (fun kv => is_double (fst kv) /\ is_double (snd kv)) (t_map x).

(** ** Bytes *)
Lemma le_length : forall n z, length (le n z) = n.
Proof. induction n; intros; cbn; auto. Qed.
Lemma unle_le : forall n z, unle (le n z) = (z mod 256 ^ Z.of_nat n)%Z.
Proof.
  induction n as [|n IH]; intros z.
  - cbn. symmetry. apply Z.mod_1_r.
  - cbn [le unle]. rewrite IH, Nat2Z.inj_succ, Z.pow_succ_r by lia.
    rewrite Z.rem_mul_r by lia. reflexivity.
Qed.
Lemma read_app : forall n l s, length l = n -> read n (l ++ s) = Ok (unle l) s.
Proof.
  intros n l s H. unfold read. rewrite app_length.
  replace (Nat.ltb (length l + length s) n) with false by (symmetry; apply Nat.ltb_ge; lia).
  rewrite firstn_app, skipn_app, H, Nat.sub_diag. rewrite <- H, firstn_all, skipn_all. cbn.
  rewrite app_nil_r. reflexivity.
Qed.
Lemma read_le : forall n z s, read n (le n z ++ s) = Ok (z mod 256 ^ Z.of_nat n)%Z s.
Proof. intros. rewrite read_app by apply le_length. rewrite unle_le. reflexivity. Qed.
Lemma read_int2 : forall z s, (- 32768 <= z < 32768)%Z -> read_int 2 (le 2 z ++ s) = Ok z s.
Proof.
  intros z s H. unfold read_int. rewrite read_le. cbn [bind]. f_equal. unfold signed.
  change (256 ^ Z.of_nat 2)%Z with 65536%Z. change (2 ^ (8 * Z.of_nat 2 - 1))%Z with 32768%Z.
  change (2 ^ (8 * Z.of_nat 2))%Z with 65536%Z.
  destruct (Z.ltb_spec (z mod 65536) 32768); Z.div_mod_to_equations; lia.
Qed.
Lemma read_int4 : forall z s, (- 2147483648 <= z < 2147483648)%Z -> read_int 4 (le 4 z ++ s) = Ok z s.
Proof.
  intros z s H. unfold read_int. rewrite read_le. cbn [bind]. f_equal. unfold signed.
  change (256 ^ Z.of_nat 4)%Z with 4294967296%Z. change (2 ^ (8 * Z.of_nat 4 - 1))%Z with 2147483648%Z.
  change (2 ^ (8 * Z.of_nat 4))%Z with 4294967296%Z.
  destruct (Z.ltb_spec (z mod 4294967296) 2147483648); Z.div_mod_to_equations; lia.
Qed.
Lemma de_double_ser : forall x s, x_ok x -> de_double (ser_double x ++ s) = Ok x s.
Proof.
  intros x s H. unfold de_double, ser_double. rewrite read_le. cbn [bind].
  change (256 ^ Z.of_nat 8)%Z with (2 ^ 64)%Z. rewrite Z.mod_small by apply bits_of_range.
  rewrite of_bits_of by auto. reflexivity.
Qed.
Lemma short_small : forall n, (Z.of_nat n < 32768)%Z -> short_of n = Z.of_nat n.
Proof.
  intros n H. unfold short_of. rewrite Z.mod_small by lia. unfold signed.
  change (2 ^ (8 * Z.of_nat 2 - 1))%Z with 32768%Z.
  destruct (Z.ltb_spec (Z.of_nat n) 32768); lia.
Qed.

(** ** C38: intervals and boxes *)
Theorem C38_interval : forall i rest, storable i -> de_itv (ser_itv i ++ rest) = Ok i rest.
Proof.
  intros i rest [W D]. unfold ser_itv.
  destruct (itv_eqb i Emp) eqn:E1; [apply itv_eqb_true in E1; subst; unfold de_itv; rewrite read_int4 by lia; reflexivity|].
  destruct (itv_eqb i ALL) eqn:E2; [apply itv_eqb_true in E2; subst; unfold de_itv; rewrite read_int4 by lia; reflexivity|].
  destruct (itv_eqb i POS) eqn:E3; [apply itv_eqb_true in E3; subst; unfold de_itv; rewrite read_int4 by lia; reflexivity|].
  destruct (itv_eqb i NEG) eqn:E4; [apply itv_eqb_true in E4; subst; unfold de_itv; rewrite read_int4 by lia; reflexivity|].
  apply itv_eqb_false in E1. apply itv_eqb_false in E2.
  unfold de_itv. rewrite <- app_assoc, read_int4 by lia. cbn [bind].
  destruct i as [|l h]; [congruence|]. destruct D as [D1 D2].
  rewrite <- app_assoc, de_double_ser by (destruct l; cbn; auto). cbn [bind].
  rewrite de_double_ser by (destruct h; cbn; auto). cbn [bind].
  destruct l as [a|], h as [b|]; cbn; auto.
  cbn in W. replace (Rltb b a) with false by (symmetry; apply Rltb_false; lra). reflexivity.
Qed.

Lemma de_list_ser {A} (de : list Z -> res A) (ser : A -> list Z) (P : A -> Prop) :
  (forall a s, P a -> de (ser a ++ s) = Ok a s) ->
  forall l s, Forall P l -> de_list de (length l) (flat_map ser l ++ s) = Ok l s.
Proof.
  intros H. induction l as [|a l IH]; intros s F; [reflexivity|]. inversion F; subst.
  cbn [length de_list flat_map]. rewrite <- app_assoc, H by auto. cbn [bind]. rewrite IH by auto. reflexivity.
Qed.

Theorem C38_box : forall b rest, (1 <= Z.of_nat (length b) < 2 ^ 15)%Z -> Forall storable b -> de_box (ser_box b ++ rest) = Ok b rest.
Proof.
  intros b rest L F. unfold de_box, ser_box. rewrite short_small by lia.
  rewrite <- app_assoc, read_int2 by lia. cbn [bind].
  destruct (Z.ltb_spec (Z.of_nat (length b)) 1); [lia|]. rewrite Nat2Z.id, firstn_all.
  apply (de_list_ser de_itv ser_itv storable); auto. intros; apply C38_interval; auto.
Qed.

(** With 65537 components the size, a short int, wraps to 1: one component is written, and read back without any
    error. *)
Theorem C38_box_refuted : exists b b', Forall storable b /\ de_box (ser_box b) = Ok b' [] /\ b' <> b.
Proof.
  assert (L : length (repeat (I2 0 1) (Z.to_nat 65537)) = Z.to_nat 65537) by apply repeat_length.
  assert (S01 : storable (I2 0 1)).
  { split; [cbn; lra|]. split; cbn; apply (double_IZR 0) || apply (double_IZR 1); lia. }
  exists (repeat (I2 0 1) (Z.to_nat 65537)), [I2 0 1]. split; [|split].
  - apply Forall_forall. intros i Hi. apply repeat_spec in Hi. subst. auto.
  - unfold ser_box. rewrite L. unfold short_of. rewrite Z2Nat.id by lia.
    change (signed 2 (65537 mod 2 ^ 16)) with 1%Z.
    replace (firstn (Z.to_nat 1) (repeat (I2 0 1) (Z.to_nat 65537))) with [I2 0 1].
    2:{ replace (Z.to_nat 65537) with (S (Z.to_nat 65536)) by lia. reflexivity. }
    unfold de_box. rewrite read_int2 by lia. cbn [bind Z.ltb Z.compare Pos.compare Pos.compare_cont].
    change (Z.to_nat 1) with (length [I2 0 1]).
    rewrite <- (app_nil_r (flat_map ser_itv [I2 0 1])).
    apply (de_list_ser de_itv ser_itv storable); auto. intros; apply C38_interval; auto.
  - intros E. assert (length [I2 0 1] = Z.to_nat 65537) by (rewrite E; auto). cbn in H. lia.
Qed.

(** ** C38: trajectories *)
Lemma de_samples_ser : forall m x s, Forall (fun kv => is_double (fst kv) /\ is_double (snd kv)) m ->
  de_samples (length m) x (flat_map (fun kv => ser_double (XFin (fst kv)) ++ ser_double (XFin (snd kv))) m ++ s) =
  match set_all m x with Some x' => Ok x' s | None => Undef end.
Proof.
  induction m as [|[t y] m IH]; intros x s F; [reflexivity|]. inversion F as [|? ? [F1 F2] F3]; subst.
  cbn [length de_samples flat_map set_all fst snd]. rewrite <- !app_assoc.
  rewrite de_double_ser by exact F1. cbn [bind]. rewrite de_double_ser by exact F2. cbn [bind].
  destruct (traj_set y t x) as [x'|]; [apply IH; auto|reflexivity].
Qed.

(** A sampled trajectory with consistent domain and codomain ([traj_ok]) comes back identical. *)
Theorem C38_trajectory : forall x l rest, traj_ok x -> dbl_traj x -> (Z.of_nat (length (t_map x)) < 2 ^ 31)%Z ->
  ser_traj 2 x = Some l -> de_traj (l ++ rest) = Ok x rest.
Proof.
  intros x l rest Hx D L E. pose proof Hx as (Hf & Hs & Hd & Hc). unfold ser_traj in E. rewrite Hf in E. cbn [Z.eqb Pos.eqb] in E.
  match type of E with Some ?a = Some l => assert (E' : a = l) by congruence end. subst l. clear E. unfold de_traj. rewrite <- !app_assoc, read_int2 by lia. cbn [bind Z.eqb Pos.eqb].
  rewrite read_int4 by lia. cbn [bind]. rewrite Nat2Z.id, de_samples_ser by exact D.
  destruct (set_all_map (t_map x) traj_new) as (x' & E & Em & Hx'); [apply ok_new|auto|intros ? ? ? ? []|].
  rewrite E. f_equal. destruct Hx' as (Hf' & Hs' & Hd' & Hc'). cbn in Em. rewrite Em in *.
  destruct x as [d c f m], x' as [d' c' f' m']. cbn in *. subst.
  f_equal; eapply smallest_uniq; eauto.
Qed.

(** A trajectory built from two lists of values has no codomain: it comes back different. *)
Theorem C38_trajectory_refuted : exists x l y, x = traj_lists [0; 1] [2; 3] /\ dbl_traj x /\
  ser_traj 2 x = Some l /\ de_traj l = Ok y [] /\ y <> x.
Proof.
  assert (D : forall z, (Z.abs z <= 2 ^ 53)%Z -> is_double (IZR z)) by apply double_IZR.
  assert (M : traj_lists [0; 1] [2; 3] = mkT (bnd 0 1) Emp None [(0, 2); (1, 3)]).
  { unfold traj_lists. cbn -[bnd hull put Rltb Reqb]. cbn [put]. replace (Rltb 1 0) with false by (symmetry; apply Rltb_false; lra).
    replace (Reqb 0 1) with false by (symmetry; apply Reqb_false; lra). f_equal.
    apply wf_ext; [apply wf_hull; [apply wf_hull|]; cbn; auto; lra|apply wf_mk|].
    intros v. rewrite In_bnd. cbn. unfold Rmin, Rmax. destruct (Rle_dec 0 1); [cbn; tauto|lra]. }
  set (y := traj_map [(0, 2); (1, 3)]).
  destruct (ser_traj 2 y) as [l|] eqn:E; [|discriminate E].
  assert (S2 : sorted [(0, 2); (1, 3)]) by (repeat split; repeat (constructor; cbn; try lra)).
  exists (traj_lists [0; 1] [2; 3]), l, y. split; [reflexivity|]. rewrite M. split; [|split; [|split]].
  - unfold dbl_traj. cbn [t_map]. repeat constructor; cbn [fst snd]; apply D; lia.
  - rewrite <- E. reflexivity.
  - rewrite <- (app_nil_r l). apply (C38_trajectory y); auto.
    + apply ok_map. exact S2.
    + unfold dbl_traj, y. cbn [traj_map compute_codomain t_map]. repeat constructor; cbn [fst snd]; apply D; lia.
    + unfold y. cbn. lia.
  - unfold y. cbn. intros H. discriminate (f_equal t_cod H).
Qed.

(** ** Vectors *)
Lemma all_some_map {A} (ser : A -> option (list Z)) : forall xs l, all_some (map ser xs) = Some l -> Forall2 (fun x r => ser x = Some r) xs l.
Proof.
  induction xs as [|x xs IH]; intros l H; cbn in H.
  - injection H; intros <-. constructor.
  - destruct (ser x) as [r|] eqn:E; [|discriminate]. destruct (all_some (map ser xs)) as [l'|] eqn:E'; [|discriminate].
    injection H; intros <-. constructor; auto.
Qed.
Lemma de_list_ser2 {A} (de : list Z -> res A) (ser : A -> option (list Z)) (P : A -> Prop) :
  (forall a r s, P a -> ser a = Some r -> de (r ++ s) = Ok a s) ->
  forall xs l s, Forall P xs -> Forall2 (fun x r => ser x = Some r) xs l -> de_list de (length xs) (concat l ++ s) = Ok xs s.
Proof.
  intros H. induction xs as [|x xs IH]; intros l s F G; inversion G; subst; [reflexivity|]. inversion F; subst.
  cbn [length de_list concat]. rewrite <- app_assoc, (H x) by auto. cbn [bind]. rewrite IH by auto. reflexivity.
Qed.
Lemma vector_trip {A} (de : list Z -> res A) (ser : A -> option (list Z)) (copy : A -> A) (P : A -> Prop) :
  (forall a r s, P a -> ser a = Some r -> de (r ++ s) = Ok a s) -> (forall a, P a -> copy a = a) ->
  forall xs l s, (Z.of_nat (length xs) < 2 ^ 15)%Z -> Forall P xs -> ser_vector ser xs = Some l ->
  de_vector de copy (l ++ s) = Ok xs s.
Proof.
  intros H Hc xs l s L F E. unfold ser_vector in E. rewrite short_small in E by lia. rewrite Nat2Z.id, firstn_all in E.
  destruct (all_some (map ser xs)) as [ls|] eqn:E'; [|discriminate].
  match type of E with Some ?a = Some l => assert (E2 : a = l) by congruence end. subst l. clear E.
  unfold de_vector. rewrite <- app_assoc, read_int2 by lia. cbn [bind].
  destruct (Z.ltb_spec (Z.of_nat (length xs)) 0); [lia|]. rewrite Nat2Z.id.
  rewrite (de_list_ser2 de ser P H xs ls s F (all_some_map ser xs ls E')). cbn [bind]. f_equal.
  clear E' H0 L. induction F as [|a xs Pa F IH]; [reflexivity|]. cbn. rewrite Hc, IH; auto.
Qed.
(** the trajectories that come back identical *)
Definition traj_kept (x : traj) : Prop := traj_ok x /\ dbl_traj x /\ (Z.of_nat (length (t_map x)) < 2 ^ 31)%Z.
Theorem C38_trajectory_vector : forall xs l rest, (Z.of_nat (length xs) < 2 ^ 15)%Z -> Forall traj_kept xs ->
  ser_vector (ser_traj 2) xs = Some l -> de_vector de_traj (fun x => x) (l ++ rest) = Ok xs rest.
Proof.
  intros xs l rest L F E. apply (vector_trip de_traj (ser_traj 2) (fun x => x) traj_kept); auto.
  intros a r s (K1 & K2 & K3). apply C38_trajectory; auto.
Qed.

(** ** Wrong versions and truncated inputs *)
(** A version number other than 2 is rejected. *)
Theorem C38_version : forall v s, (- 2 ^ 15 <= v < 2 ^ 15)%Z -> v <> 2%Z ->
  de_traj (le 2 v ++ s) = Throw /\ de_tube (le 2 v ++ s) = Throw.
Proof.
  intros v s H N. unfold de_traj, de_tube. rewrite read_int2 by lia. cbn [bind].
  destruct (Z.eqb_spec v 2); [lia|]. auto.
Qed.
(** So is an interval of unknown type. *)
Theorem C38_type : forall v s, (- 2 ^ 31 <= v < 2 ^ 31)%Z -> (v < 0 \/ 4 < v)%Z -> de_itv (le 4 v ++ s) = Throw.
Proof.
  intros v s H N. unfold de_itv. rewrite read_int4 by lia. cbn [bind].
  destruct v as [|[[[p|p|]|[p|p|]|]|[[p|p|]|[p|p|]|]|]|p]; auto; lia.
Qed.

(** A reading that succeeds or throws does not depend on what follows. *)
Definition stable {A} (de : list Z -> res A) : Prop :=
  forall s t, match de s with Ok a r => de (s ++ t) = Ok a (r ++ t) | Throw => de (s ++ t) = Throw | Undef => True end.
Lemma stable_bind {A B} (de : list Z -> res A) (f : A -> list Z -> res B) :
  stable de -> (forall a, stable (f a)) -> stable (fun s => bind (de s) f).
Proof.
  intros H1 H2 s t. specialize (H1 s t). destruct (de s) as [a r| |]; cbn [bind]; auto.
  - rewrite H1. cbn [bind]. apply H2.
  - rewrite H1. reflexivity.
Qed.
Lemma stable_ok {A} (a : A) : stable (fun s => Ok a s). Proof. intros s t. reflexivity. Qed.
Lemma stable_throw {A} : stable (fun _ => @Throw A). Proof. intros s t. reflexivity. Qed.
Lemma stable_undef {A} : stable (fun _ => @Undef A). Proof. intros s t. exact I. Qed.
Lemma stable_read n : stable (read n).
Proof.
  intros s t. unfold read. rewrite app_length. destruct (Nat.ltb_spec (length s) n) as [H|H]; [exact I|].
  replace (Nat.ltb (length s + length t) n) with false by (symmetry; apply Nat.ltb_ge; lia).
  rewrite firstn_app, skipn_app. replace (n - length s)%nat with 0%nat by lia. cbn. rewrite app_nil_r. reflexivity.
Qed.
Lemma stable_read_int n : stable (read_int n).
Proof. apply stable_bind; [apply stable_read|intros; apply stable_ok]. Qed.
Lemma stable_double : stable de_double.
Proof. apply stable_bind; [apply stable_read|intros; apply stable_ok]. Qed.
Lemma stable_itv : stable de_itv.
Proof.
  apply stable_bind; [apply stable_read_int|]. intros v.
  destruct v as [|[[[p|p|]|[p|p|]|]|[[p|p|]|[p|p|]|]|]|p];
    try apply stable_ok; try apply stable_throw.
  apply stable_bind; [apply stable_double|]. intros l. apply stable_bind; [apply stable_double|]. intros u.
  destruct (itv_of l u); [apply stable_ok|apply stable_undef].
Qed.
Lemma stable_list {A} (de : list Z -> res A) n : stable de -> stable (de_list de n).
Proof.
  intros H. induction n as [|n IH]; [apply stable_ok|].
  apply stable_bind; [auto|]. intros a. apply stable_bind; [auto|]. intros l. apply stable_ok.
Qed.
Lemma stable_box : stable de_box.
Proof.
  apply stable_bind; [apply stable_read_int|]. intros n. destruct (n <? 1)%Z; [apply stable_undef|].
  apply stable_list, stable_itv.
Qed.
Lemma stable_samples n : forall x, stable (de_samples n x).
Proof.
  induction n as [|n IH]; intros x; [apply stable_ok|].
  apply stable_bind; [apply stable_double|]. intros [t| | |]; apply stable_bind; try apply stable_double; intros [y| | |];
    try apply stable_undef. destruct (traj_set y t x); [apply IH|apply stable_undef].
Qed.
Lemma stable_traj : stable de_traj.
Proof.
  apply stable_bind; [apply stable_read_int|]. intros v. destruct (v =? 2)%Z; [|apply stable_throw].
  apply stable_bind; [apply stable_read_int|]. intros n. apply stable_samples.
Qed.
Lemma stable_slices n : forall lb, stable (de_slices n lb).
Proof.
  induction n as [|n IH]; intros lb; [apply stable_ok|].
  apply stable_bind; [apply stable_double|]. intros [u| | |]; try apply stable_undef.
  destruct (Rltb lb u); [|apply stable_undef]. apply stable_bind; [apply IH|]. intros x. apply stable_ok.
Qed.
Lemma stable_cods n : forall k x, stable (de_cods n k x).
Proof. induction n as [|n IH]; intros k x; [apply stable_ok|]. apply stable_bind; [apply stable_itv|]. intros y. apply IH. Qed.
Lemma stable_gates n : forall k x, stable (de_gates n k x).
Proof. induction n as [|n IH]; intros k x; [apply stable_ok|]. apply stable_bind; [apply stable_itv|]. intros y. apply IH. Qed.
Lemma stable_tube : stable de_tube.
Proof.
  apply stable_bind; [apply stable_read_int|]. intros v. destruct (v =? 2)%Z; [|apply stable_throw].
  apply stable_bind; [apply stable_read_int|]. intros n. destruct (n <? 1)%Z; [apply stable_throw|]. cbv zeta.
  apply stable_bind; [apply stable_double|]. intros [lb| | |]; try apply stable_undef.
  apply stable_bind; [apply stable_slices|]. intros x.
  apply stable_bind; [apply stable_cods|]. intros x'.
  apply stable_bind; [apply stable_itv|]. intros g. apply stable_gates.
Qed.
Lemma truncated {A} (de : list Z -> res A) : stable de ->
  forall a p t, de (p ++ t) = Ok a [] -> t <> [] -> de p = Undef.
Proof.
  intros H a p t E N. specialize (H p t). destruct (de p) as [b r| |]; auto.
  - rewrite E in H. injection H; intros Hr _. symmetry in Hr. apply app_eq_nil in Hr. tauto.
  - congruence.
Qed.

(** A truncated input never gives a value: the program uses variables that were never written.  No exception is
    thrown. *)
Theorem C38_truncated_partial :
  (forall i p t, storable i -> ser_itv i = p ++ t -> t <> [] -> de_itv p = Undef) /\
  (forall b p t, (1 <= Z.of_nat (length b) < 2 ^ 15)%Z -> Forall storable b -> ser_box b = p ++ t -> t <> [] -> de_box p = Undef) /\
  (forall x p t, traj_kept x -> ser_traj 2 x = Some (p ++ t) -> t <> [] -> de_traj p = Undef).
Proof.
  split; [|split].
  - intros i p t S E N. apply (truncated _ stable_itv i p t); auto. rewrite <- E, <- (app_nil_r (ser_itv i)).
    apply C38_interval; auto.
  - intros b p t L S E N. apply (truncated _ stable_box b p t); auto. rewrite <- E, <- (app_nil_r (ser_box b)).
    apply C38_box; auto.
  - intros x p t (K1 & K2 & K3) E N. apply (truncated _ stable_traj x p t); auto. rewrite <- (app_nil_r (p ++ t)).
    apply C38_trajectory; auto.
Qed.
Theorem C38_truncated_refuted : exists i p t, storable i /\ ser_itv i = p ++ t /\ t <> [] /\ de_itv p <> Throw.
Proof.
  assert (S01 : storable (I2 0 1)).
  { split; [cbn; lra|]. split; cbn; apply (double_IZR 0) || apply (double_IZR 1); lia. }
  exists (I2 0 1), (firstn 4 (ser_itv (I2 0 1))), (skipn 4 (ser_itv (I2 0 1))).
  assert (N : skipn 4 (ser_itv (I2 0 1)) <> []).
  { intros E. apply (f_equal (@length Z)) in E. rewrite skipn_length in E.
    assert (L : length (ser_itv (I2 0 1)) = 20%nat).
    { unfold ser_itv. replace (itv_eqb (I2 0 1) Emp) with false by reflexivity. replace (itv_eqb (I2 0 1) ALL) with false by reflexivity.
      replace (itv_eqb (I2 0 1) POS) with false by (symmetry; apply itv_eqb_false; discriminate).
      replace (itv_eqb (I2 0 1) NEG) with false by (symmetry; apply itv_eqb_false; discriminate).
      rewrite !app_length. unfold ser_double. rewrite !le_length. reflexivity. }
    rewrite L in E. discriminate E. }
  split; [auto|]. split; [symmetry; apply firstn_skipn|]. split; [auto|].
  rewrite (proj1 C38_truncated_partial (I2 0 1) _ (skipn 4 (ser_itv (I2 0 1))) S01); [discriminate| |auto].
  symmetry; apply firstn_skipn.
Qed.

(** ** Examples *)
Ltac dbl_goal := repeat match goal with |- _ /\ _ => split end;
  try exact I; try (apply double_IZR; lia); try (apply (double_half 1); lia).
Lemma storable_examples : Forall storable [Emp; ALL; POS; NEG; I2 (1/2) 3; Itv None (Some 7)].
Proof.
  repeat (apply Forall_cons || apply Forall_nil); (split; [cbn; auto; lra|]); unfold dbl_itv, dbl, POS, NEG, ALL, I2; dbl_goal.
Qed.
Example C38_box_example : forall rest,
  de_box (ser_box [Emp; ALL; POS; NEG; I2 (1/2) 3; Itv None (Some 7)] ++ rest) = Ok [Emp; ALL; POS; NEG; I2 (1/2) 3; Itv None (Some 7)] rest.
Proof. intros rest. apply C38_box; [cbn; lia|exact storable_examples]. Qed.
Definition trS : traj := traj_map [(0, 2); (1, 3); (3, 1/2)].
Lemma trS_kept : traj_kept trS.
Proof.
  split; [|split; [|cbn; lia]].
  - apply ok_map. repeat split; repeat (constructor; cbn; try lra).
  - unfold dbl_traj, trS. cbn [traj_map compute_codomain t_map].
    repeat (apply Forall_cons || apply Forall_nil); cbn [fst snd]; dbl_goal.
Qed.
Example C38_trajectory_example : exists l, ser_traj 2 trS = Some l /\ de_traj (l ++ [1%Z; 2%Z]) = Ok trS [1%Z; 2%Z].
Proof.
  destruct (ser_traj 2 trS) as [l|] eqn:E; [|discriminate E]. exists l. split; auto.
  destruct trS_kept as (K1 & K2 & K3). apply C38_trajectory; auto.
Qed.
Example C38_trajectory_vector_example : exists l, ser_vector (ser_traj 2) [trS; traj_new] = Some l /\
  de_vector de_traj (fun x => x) (l ++ []) = Ok [trS; traj_new] [].
Proof.
  destruct (ser_vector (ser_traj 2) [trS; traj_new]) as [l|] eqn:E; [|discriminate E]. exists l. split; auto.
  apply C38_trajectory_vector; [cbn; lia| |auto]. repeat (apply Forall_cons || apply Forall_nil).
  - apply trS_kept.
  - split; [apply ok_new|]. split; [constructor|cbn; lia].
Qed.
Example C38_version_example : de_traj (le 2 3 ++ [1%Z]) = Throw /\ de_itv (le 4 9 ++ []) = Throw.
Proof. split; [apply C38_version; lia|apply C38_type; lia]. Qed.
Example C38_truncated_example : de_itv (le 4 0) = Undef /\ de_traj (le 2 2) = Undef.
Proof. split; reflexivity. Qed.

Print Assumptions C38_interval.
Print Assumptions C38_box.
Print Assumptions C38_box_refuted.
Print Assumptions C38_trajectory.
Print Assumptions C38_trajectory_refuted.
Print Assumptions C38_trajectory_vector.
Print Assumptions C38_version.
Print Assumptions C38_type.
Print Assumptions C38_truncated_partial.
Print Assumptions C38_truncated_refuted.
