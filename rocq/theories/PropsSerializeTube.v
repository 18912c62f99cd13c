(** * C39: serialization round trip of tubes *)

From Coq Require Import Reals Lra Lia ZArith Bool List Arith.
From Verif Require Import Itv Arith Tube TubeSpec TubeOps TubeFacts TubeOpsFacts TubeOpsFacts2 Trajectory TrajFacts Double Serialize Concrete
  PropsSerialize.
Import ListNotations.
Open Scope R_scope.

(** the slices just created *)
Definition blank (s : slice) : slice := slice_new (s_lb s) (s_ub s) ALL.

Lemma times_shift : forall x a b, chain_from a x b -> x <> [] ->
  flat_map (fun s => ser_double (XFin (s_lb s))) x ++ ser_double (XFin (tf x)) =
  ser_double (XFin a) ++ flat_map (fun s => ser_double (XFin (s_ub s))) x.
Proof.
  induction x as [|s r IH]; intros a b H N; [congruence|]. destruct H as (E & L & H). subst a. cbn [flat_map].
  destruct r as [|s' r].
  - cbn [flat_map tf app]. rewrite <- app_assoc. cbn. rewrite ?app_nil_r. reflexivity.
  - rewrite tf_cons by discriminate. rewrite <- app_assoc. f_equal. apply (IH (s_ub s) b); [auto|discriminate].
Qed.
Lemma de_slices_ser : forall x a b s, chain_from a x b -> Forall dbl_slice x ->
  de_slices (length x) a (flat_map (fun s => ser_double (XFin (s_ub s))) x ++ s) = Ok (map blank x) s.
Proof.
  induction x as [|c r IH]; intros a b s H F; [reflexivity|]. destruct H as (E & L & H). subst a. inversion F as [|? ? D F']; subst.
  cbn [length de_slices flat_map map]. rewrite <- app_assoc. rewrite de_double_ser by (cbn; apply D). cbn [bind].
  replace (Rltb (s_lb c) (s_ub c)) with true by (symmetry; apply Rltb_true; auto).
  rewrite (IH _ b) by auto. reflexivity.
Qed.

(** writing codomains, then gates *)
Definition write_cods (k : nat) (l : list itv) (x : tube) : tube :=
  fold_left (fun x p => slice_set (fst p) (snd p) x) (combine (seq k (length l)) l) x.
Lemma de_cods_ser : forall l k x s, Forall storable l ->
  de_cods (length l) k x (flat_map ser_itv l ++ s) = Ok (write_cods k l x) s.
Proof.
  induction l as [|y l IH]; intros k x s F; [reflexivity|]. inversion F; subst.
  cbn [length de_cods flat_map]. rewrite <- app_assoc, C38_interval by auto. cbn [bind]. rewrite IH by auto. reflexivity.
Qed.
Definition write_gates (k : nat) (l : list itv) (x : tube) : tube :=
  fold_left (fun x p => set_output_gate (fst p) (snd p) true x) (combine (seq k (length l)) l) x.
Lemma de_gates_ser : forall l k x s, Forall storable l ->
  de_gates (length l) k x (flat_map ser_itv l ++ s) = Ok (write_gates k l x) s.
Proof.
  induction l as [|y l IH]; intros k x s F; [reflexivity|]. inversion F; subst.
  cbn [length de_gates flat_map]. rewrite <- app_assoc, C38_interval by auto. cbn [bind]. rewrite IH by auto. reflexivity.
Qed.

Lemma slice_set_cod k y x j : cod_at (slice_set k y x) j =
  if Nat.eqb j k then match nth_error x j with Some _ => Some y | None => None end else cod_at x j.
Proof. unfold slice_set. rewrite !put_gate_cod. apply cod_at_upd. Qed.
Lemma write_cods_dom : forall l k x, map dom (write_cods k l x) = map dom x.
Proof.
  induction l as [|y l IH]; intros k x; [reflexivity|]. unfold write_cods in *. cbn [length seq combine fold_left fst snd].
  rewrite IH. apply slice_set_dom.
Qed.
Lemma write_cods_cod : forall l k x j, (k + length l <= length x)%nat -> cod_at (write_cods k l x) j =
  if andb (Nat.leb k j) (Nat.ltb j (k + length l)) then nth_error l (j - k) else cod_at x j.
Proof.
  induction l as [|y l IH]; intros k x j L.
  - cbn [length]. replace (Nat.leb k j && Nat.ltb j (k + 0))%bool with false; [reflexivity|].
    symmetry. apply andb_false_iff. rewrite Nat.leb_gt, Nat.ltb_ge. lia.
  - unfold write_cods in *. cbn [length seq combine fold_left fst snd]. cbn [length] in L.
    rewrite IH by (rewrite slice_set_length; lia). rewrite slice_set_cod.
    destruct (Nat.leb_spec (S k) j); destruct (Nat.ltb_spec j (S k + length l)); cbn [andb];
      destruct (Nat.leb_spec k j); destruct (Nat.ltb_spec j (k + S (length l))); cbn [andb]; try lia.
    + replace (j - k)%nat with (S (j - S k)) by lia. reflexivity.
    + destruct (Nat.eqb_spec j k); [lia|auto].
    + destruct (Nat.eqb_spec j k); [|lia]. subst j. rewrite Nat.sub_diag. cbn [nth_error].
      destruct (nth_error x k) eqn:E; [reflexivity|]. apply nth_error_None in E. lia.
    + destruct (Nat.eqb_spec j k); [lia|auto].
Qed.

(** same domains and codomains *)
Definition body (s : slice) : R * R * itv := (s_lb s, s_ub s, s_cod s).
Lemma put_gate_body k g x : map body (put_gate k g x) = map body x.
Proof. unfold put_gate. rewrite map_upd by reflexivity. destruct k; auto. rewrite map_upd by reflexivity. auto. Qed.
Lemma body_nth x y k s : map body x = map body y -> nth_error x k = Some s -> exists s', nth_error y k = Some s' /\ body s = body s'.
Proof.
  intros E H. assert (M : nth_error (map body x) k = Some (body s)) by (apply map_nth_error; auto).
  rewrite E in M. destruct (nth_error y k) as [s'|] eqn:E'.
  - rewrite (map_nth_error _ _ _ E') in M. exists s'. split; [reflexivity|congruence].
  - apply nth_error_None in E'. assert (length (map body y) <= k)%nat by (rewrite map_length; auto).
    apply nth_error_None in H0. congruence.
Qed.
Lemma body_cod x y k : map body x = map body y -> cod_at x k = cod_at y k.
Proof.
  intros E. unfold cod_at. destruct (nth_error x k) as [s|] eqn:H.
  - destruct (body_nth x y k s E H) as (s' & H' & B). rewrite H'. cbn. unfold body in B. congruence.
  - destruct (nth_error y k) as [s'|] eqn:H'; auto.
    destruct (body_nth y x k s' (eq_sym E) H') as (s'' & H'' & _). congruence.
Qed.

Lemma inter_opt_id g o : wf g -> (forall c, o = Some c -> sub g c) -> inter_opt g o = g.
Proof. intros W H. destruct o as [c|]; cbn; auto. apply inter_sub_eq; auto. Qed.

(** gates written so far *)
Definition gates_upto (k : nat) (x z : tube) : Prop :=
  (forall j s s', nth_error x j = Some s -> nth_error z j = Some s' -> (j <= k)%nat -> s_in s' = s_in s) /\
  (forall j s s', nth_error x j = Some s -> nth_error z j = Some s' -> (j < k)%nat -> s_out s' = s_out s).

Lemma write_gates_step : forall a b x z k s, tube_ok a b x -> map body z = map body x -> gates_upto k x z ->
  nth_error x k = Some s ->
  map body (set_output_gate k (s_out s) true z) = map body x /\ gates_upto (S k) x (set_output_gate k (s_out s) true z).
Proof.
  intros a b x z k s H B [G1 G2] E.
  pose proof (ok_slices _ _ _ H) as HF. rewrite Forall_nth in HF. pose proof (ok_shared _ _ _ H) as HS. rewrite gates_shared_nth in HS.
  assert (V : inter_opt (inter_opt (s_out s) (cod_at z k)) (cod_at z (S k)) = s_out s).
  { destruct (HF _ _ E) as (_ & _ & W & _ & T).
    rewrite (inter_opt_id (s_out s) (cod_at z k)); [|auto|].
    - apply inter_opt_id; auto. rewrite (body_cod z x (S k) B). unfold cod_at. intros c.
      destruct (nth_error x (S k)) as [s'|] eqn:E'; [|discriminate]. cbn. intros Hc. injection Hc; intros <-.
      rewrite (HS k s s' E E'). apply (HF _ _ E').
    - rewrite (body_cod z x k B). unfold cod_at. rewrite E. cbn. intros c Hc. injection Hc; intros <-. auto. }
  unfold set_output_gate. rewrite V. split; [rewrite put_gate_body; auto|].
  split.
  - intros j sj s' Hj. rewrite put_gate_nth.
    destruct (nth_error z j) as [sz|] eqn:Ez; [|destruct (Nat.eqb j (S k)); [discriminate|destruct (Nat.eqb (S j) (S k)); discriminate]].
    destruct (Nat.eqb_spec j (S k)) as [->|Nj].
    + intros Hs _. injection Hs; intros <-. cbn. apply (HS k s sj E Hj).
    + destruct (Nat.eqb_spec (S j) (S k)); intros Hs Lj; injection Hs; intros <-; cbn; apply (G1 j sj sz); auto; lia.
  - intros j sj s' Hj. rewrite put_gate_nth.
    destruct (nth_error z j) as [sz|] eqn:Ez; [|destruct (Nat.eqb j (S k)); [discriminate|destruct (Nat.eqb (S j) (S k)); discriminate]].
    destruct (Nat.eqb_spec j (S k)) as [->|Nj]; [intros _ L; lia|].
    destruct (Nat.eqb_spec (S j) (S k)) as [Ej|Nj']; intros Hs Lj; injection Hs; intros <-; cbn.
    + assert (j = k) by lia. subst j. congruence.
    + apply (G2 j sj sz); auto; lia.
Qed.
Lemma write_gates_all : forall a b x, tube_ok a b x -> forall r k z, skipn k x = r -> map body z = map body x -> gates_upto k x z ->
  map body (write_gates k (map s_out r) z) = map body x /\ gates_upto (k + length r) x (write_gates k (map s_out r) z).
Proof.
  intros a b x H. induction r as [|s r IH]; intros k z Er B G.
  - cbn. rewrite Nat.add_0_r. auto.
  - assert (E : nth_error x k = Some s).
    { rewrite <- (Nat.add_0_r k), <- nth_error_skipn', Er. reflexivity. }
    destruct (write_gates_step a b x z k s H B G E) as [B' G'].
    unfold write_gates in *. cbn [map length seq combine fold_left fst snd].
    replace (k + S (length r))%nat with (S k + length r)%nat by lia. apply IH; auto.
    apply nth_error_ext. intros i. rewrite nth_error_skipn'. replace (S k + i)%nat with (k + S i)%nat by lia.
    rewrite <- nth_error_skipn', Er. reflexivity.
Qed.

(** the tubes that come back identical *)
Definition tube_kept (x : tube) : Prop :=
  (exists a b, tube_ok a b x) /\ Forall dbl_slice x /\ (Z.of_nat (length x) < 2 ^ 31)%Z.

(** C39, for tubes whose gates are included in the adjacent codomains ([tube_ok]) *)
Theorem C39_partial : forall x l rest, tube_kept x -> ser_tube 2 x = Some l -> de_tube (l ++ rest) = Ok x rest.
Proof.
  intros x l rest ((a & b & H) & D & L) E.
  pose proof (ok_slices _ _ _ H) as HF. rewrite Forall_nth in HF. rewrite Forall_nth in D.
  assert (D' : Forall dbl_slice x) by (apply Forall_nth; auto).
  unfold ser_tube in E. cbn [Z.eqb Pos.eqb] in E. destruct x as [|s0 r] eqn:Ex; [discriminate|]. rewrite <- Ex in *.
  assert (N : x <> []) by (rewrite Ex; discriminate).
  match type of E with Some ?u = Some l => assert (E' : u = l) by congruence end. subst l. clear E.
  unfold de_tube. rewrite <- !app_assoc. rewrite read_int2 by lia. cbn [bind Z.eqb Pos.eqb]. rewrite read_int4 by lia. cbn [bind].
  assert (Lx : (0 < length x)%nat) by (rewrite Ex; cbn; lia).
  destruct (Z.ltb_spec (Z.of_nat (length x)) 1); [lia|]. rewrite Nat2Z.id. cbv zeta.
  rewrite (app_assoc _ (ser_double (XFin (tf x)))).
  rewrite (times_shift x a b (ok_chain _ _ _ H) N). rewrite <- !app_assoc.
  assert (Da : is_double a).
  { pose proof (ok_chain _ _ _ H) as Hc. rewrite Ex in Hc. destruct Hc as (<- & _). apply (D 0%nat). rewrite Ex. reflexivity. }
  rewrite de_double_ser by exact Da. cbn [bind].
  rewrite (de_slices_ser x a b) by (auto; apply H). cbn [bind].
  assert (Sc : Forall storable (map s_cod x)).
  { apply Forall_forall. intros i Hi. apply in_map_iff in Hi. destruct Hi as (s & <- & Hs). apply In_nth_error in Hs. destruct Hs as [k Hk].
    split; [apply (HF _ _ Hk)|apply (D _ _ Hk)]. }
  assert (So : Forall storable (map s_out x)).
  { apply Forall_forall. intros i Hi. apply in_map_iff in Hi. destruct Hi as (s & <- & Hs). apply In_nth_error in Hs. destruct Hs as [k Hk].
    split; [apply (HF _ _ Hk)|apply (D _ _ Hk)]. }
  rewrite (flat_map_concat_map (fun s => ser_itv (s_cod s))), <- (map_map s_cod ser_itv), <- flat_map_concat_map.
  rewrite (flat_map_concat_map (fun s => ser_itv (s_out s))), <- (map_map s_out ser_itv), <- flat_map_concat_map.
  replace (length x) with (length (map s_cod x)) by apply map_length.
  rewrite de_cods_ser by exact Sc. cbn [bind].
  assert (E0 : nth_error x 0 = Some s0) by (rewrite Ex; reflexivity).
  rewrite C38_interval by (split; [apply (HF _ _ E0)|apply (D _ _ E0)]). cbn [bind].
  replace (length (map s_cod x)) with (length (map s_out x)) by (rewrite !map_length; reflexivity).
  rewrite de_gates_ser by exact So. f_equal.
  set (y := write_cods 0 (map s_cod x) (map blank x)).
  assert (By : map body y = map body x).
  { assert (Dy : map dom y = map dom x).
    { unfold y. rewrite write_cods_dom, map_map. apply map_ext. intros s. reflexivity. }
    assert (Cy : forall j, cod_at y j = cod_at x j).
    { intros j. unfold y. rewrite write_cods_cod by (rewrite !map_length; lia). rewrite map_length, Nat.add_0_l, Nat.sub_0_r.
      cbn [Nat.leb andb]. destruct (Nat.ltb_spec j (length x)) as [Hj|Hj].
      - unfold cod_at. destruct (nth_error x j) as [s|] eqn:Ej.
        + apply map_nth_error. auto.
        + apply nth_error_None in Ej. lia.
      - unfold cod_at. replace (nth_error (map blank x) j) with (@None slice) by (symmetry; apply nth_error_None; rewrite map_length; lia).
        replace (nth_error x j) with (@None slice) by (symmetry; apply nth_error_None; lia). reflexivity. }
    apply nth_error_ext. intros k. rewrite !nth_error_map.
    specialize (Cy k). unfold cod_at in Cy.
    destruct (nth_error y k) as [s|] eqn:Ey; destruct (nth_error x k) as [s'|] eqn:Exk; cbn in *; try discriminate; auto.
    destruct (nth_dom y x k s Dy Ey) as (s2 & E2 & E3 & E4). rewrite Exk in E2. injection E2; intros <-. unfold body.
    rewrite E3, E4. congruence. }
  set (z := set_input_gate 0 (s_in s0) true y).
  assert (Vz : z = put_gate 0 (s_in s0) y).
  { unfold z, set_input_gate. f_equal. destruct (HF _ _ E0) as (_ & W & _ & T & _).
    rewrite (body_cod y x 0 By). unfold cod_at. rewrite E0. cbn. apply inter_sub_eq; auto. }
  assert (Bz : map body z = map body x) by (rewrite Vz, put_gate_body; auto).
  assert (Gz : gates_upto 0 x z).
  { split; intros j s s' Hs; rewrite Vz, put_gate_nth; intros Hs' Lj; [|lia]. assert (j = 0)%nat by lia. subst j. cbn [Nat.eqb] in Hs'.
    destruct (nth_error y 0); [|discriminate]. injection Hs'; intros <-. cbn. congruence. }
  destruct (write_gates_all a b x H x 0 z (eq_refl _) Bz Gz) as [Bf [Gf1 Gf2]].
  apply nth_error_ext. intros k.
  destruct (nth_error x k) as [s|] eqn:Ek.
  - destruct (body_nth x (write_gates 0 (map s_out x) z) k s (eq_sym Bf) Ek) as (s' & E' & Bs). rewrite E'. f_equal.
    assert (Lk : (k < length x)%nat) by (apply nth_error_Some; congruence).
    specialize (Gf1 k s s' Ek E'). specialize (Gf2 k s s' Ek E'). cbn in Gf1, Gf2.
    destruct s, s'; unfold body in Bs; cbn in *. injection Bs; intros; subst. rewrite Gf1, Gf2 by lia. reflexivity.
  - destruct (nth_error (write_gates 0 (map s_out x) z) k) as [s'|] eqn:E'; auto.
    destruct (body_nth _ x k s' Bf E') as (? & E2 & _). congruence.
Qed.

Theorem C39_vector : forall xs l rest, (Z.of_nat (length xs) < 2 ^ 15)%Z -> Forall tube_kept xs ->
  ser_vector (ser_tube 2) xs = Some l -> de_vector de_tube copy_tube (l ++ rest) = Ok xs rest.
Proof.
  intros xs l rest L F E. apply (vector_trip de_tube (ser_tube 2) copy_tube tube_kept); auto.
  - intros a r s K Ea. apply C39_partial; auto.
  - intros x ((a & b & H) & _). apply copy_tube_eq. apply H.
Qed.

(** Files written by Tube::serialize, with or without a trajectory *)
Theorem C39_file : forall x y l, tube_kept x -> (forall y', y = Some y' -> traj_kept y') ->
  ser_file x y = Some l -> de_file l = Ok (x, y) [].
Proof.
  intros x y l K Ky E. unfold ser_file in E. destruct (ser_tube 2 x) as [lx|] eqn:Ex; [|discriminate].
  assert (C : copy_tube x = x) by (destruct K as ((a & b & H) & _); apply copy_tube_eq; apply H).
  unfold de_file. destruct y as [y|].
  - destruct (ser_traj 2 y) as [ly|] eqn:Ey; [|discriminate]. injection E; intros <-.
    rewrite (C39_partial x lx (0%Z :: ly) K Ex). cbn [bind]. rewrite C. cbn [bind].
    destruct (Ky y (eq_refl _)) as (K1 & K2 & K3). rewrite <- (app_nil_r ly).
    rewrite (C38_trajectory y ly [] K1 K2 K3 Ey). reflexivity.
  - injection E; intros <-. rewrite <- (app_nil_r lx). rewrite (C39_partial x lx [] K Ex). cbn [bind]. rewrite C. reflexivity.
Qed.

(** ** Whatever is read is well formed *)
Lemma bind_ok {A B} (r : res A) (f : A -> list Z -> res B) b t :
  bind r f = Ok b t -> exists a s, r = Ok a s /\ f a s = Ok b t.
Proof. destruct r as [a s| |]; cbn; intros H; try discriminate. exists a, s. auto. Qed.
Lemma de_itv_wf s i t : de_itv s = Ok i t -> wf i.
Proof.
  unfold de_itv. intros H. apply bind_ok in H. destruct H as (v & s1 & _ & H).
  destruct v as [|[[[p|p|]|[p|p|]|]|[[p|p|]|[p|p|]|]|]|p]; try discriminate;
    try (injection H; intros; subst; cbn; auto; fail).
  apply bind_ok in H. destruct H as (l & s2 & _ & H). apply bind_ok in H. destruct H as (u & s3 & _ & H).
  destruct (itv_of l u) as [j|] eqn:E; [|discriminate]. injection H; intros _ <-.
  destruct l as [a| | |], u as [b| | |]; cbn in E; try discriminate; injection E; intros <-; cbn; auto.
  destruct (Rltb b a) eqn:L; cbn; auto. apply Rltb_false in L. lra.
Qed.
Lemma de_slices_shape : forall n a s x t, de_slices n a s = Ok x t ->
  length x = n /\ (exists b, chain_from a x b) /\ Forall (fun s => s_cod s = ALL /\ s_in s = ALL /\ s_out s = ALL) x.
Proof.
  induction n as [|n IH]; intros a s x t H; cbn [de_slices] in H.
  - injection H; intros; subst. repeat split; auto. exists a. reflexivity.
  - apply bind_ok in H. destruct H as (u & s1 & _ & H). destruct u as [u| | |]; try discriminate.
    destruct (Rltb a u) eqn:L; [|discriminate]. apply bind_ok in H. destruct H as (x' & s2 & H' & H).
    injection H; intros _ <-. destruct (IH _ _ _ _ H') as (E1 & (b & E2) & E3).
    apply Rltb_true in L. split; [cbn; auto|]. split; [exists b; cbn; auto|]. constructor; cbn; auto.
Qed.
Lemma all_shared : forall x, Forall (fun s => s_cod s = ALL /\ s_in s = ALL /\ s_out s = ALL) x -> gates_shared x.
Proof.
  induction x as [|s r IH]; intros F; cbn; auto. inversion F as [|? ? (E1 & E2 & E3) F']; subst. split; [|auto].
  destruct r as [|s2 r]; auto. inversion F' as [|? ? (G1 & G2 & G3) _]; subst. congruence.
Qed.
Lemma de_cods_ok a b : forall n k x s x' t, tube_ok a b x -> (k + n <= length x)%nat -> de_cods n k x s = Ok x' t ->
  tube_ok a b x'.
Proof.
  induction n as [|n IH]; intros k x s x' t H L E; cbn [de_cods] in E.
  - injection E; intros; subst; auto.
  - apply bind_ok in E. destruct E as (y & s1 & Ey & E). apply (IH (S k) (slice_set k y x) s1 x' t); auto.
    + apply slice_set_ok; auto; [lia|]. eapply de_itv_wf; eauto.
    + rewrite slice_set_length. lia.
Qed.
Lemma de_gates_ok a b : forall n k x s x' t, tube_ok a b x -> de_gates n k x s = Ok x' t -> tube_ok a b x'.
Proof.
  induction n as [|n IH]; intros k x s x' t H E; cbn [de_gates] in E.
  - injection E; intros; subst; auto.
  - apply bind_ok in E. destruct E as (g & s1 & Eg & E). apply (IH (S k) (set_output_gate k g true x) s1 x' t); auto.
    apply set_output_gate_ok; auto. eapply de_itv_wf; eauto.
Qed.
(** A tube that is read, from any sequence of bytes, is a well-formed tube. *)
Theorem C39_read_ok : forall s x rest, de_tube s = Ok x rest -> exists a b, tube_ok a b x.
Proof.
  intros s x rest E. unfold de_tube in E.
  apply bind_ok in E. destruct E as (v & s1 & _ & E). destruct (v =? 2)%Z; [|discriminate].
  apply bind_ok in E. destruct E as (n & s2 & _ & E). destruct (Z.ltb_spec n 1); [discriminate|]. cbv zeta in E.
  apply bind_ok in E. destruct E as (l & s3 & _ & E). destruct l as [a| | |]; try discriminate.
  apply bind_ok in E. destruct E as (x1 & s4 & E1 & E).
  apply bind_ok in E. destruct E as (x2 & s5 & E2 & E).
  apply bind_ok in E. destruct E as (g & s6 & E3 & E).
  destruct (de_slices_shape _ _ _ _ _ E1) as (L & (b & C) & F). exists a, b.
  assert (H1 : tube_ok a b x1).
  { constructor; auto using all_shared.
    - intros ->. cbn in L. lia.
    - eapply Forall_impl; [|exact F]. intros s0 (G1 & G2 & G3). unfold slice_ok. rewrite G1, G2, G3.
      repeat split; cbn; auto; intros v0; auto. }
  eapply de_gates_ok; [|exact E]. apply set_input_gate_ok; [|eapply de_itv_wf; eauto].
  eapply de_cods_ok; [exact H1| |exact E2]. lia.
Qed.

(** A truncated tube is never taken for a tube, but no exception is thrown. *)
Theorem C39_truncated_partial : forall x p t, tube_kept x -> ser_tube 2 x = Some (p ++ t) -> t <> [] -> de_tube p = Undef.
Proof.
  intros x p t K E N. apply (truncated _ stable_tube x p t); auto. rewrite <- (app_nil_r (p ++ t)). apply C39_partial; auto.
Qed.

Ltac dbl_tac := repeat (apply Forall_cons || apply Forall_nil); unfold dbl_slice, dbl_itv, dbl, POS, NEG, ALL, I2;
  cbn [s_lb s_ub s_cod s_in s_out set_in fst snd]; repeat match goal with |- _ /\ _ => split end;
  try exact I; try (apply double_IZR; lia); try (apply (double_half 1); lia).
(** A gate set without consistency (set_input_gate with slice_consistency = false) outside of the codomain is
    written, but is not the gate read. *)
Theorem C39_refuted : exists x l, x = set_input_gate 0 (I2 5 6) false tA /\ Forall dbl_slice x /\ ser_tube 2 x = Some l /\
  forall rest, de_tube (l ++ rest) <> Ok x rest.
Proof.
  destruct (ser_tube 2 (set_input_gate 0 (I2 5 6) false tA)) as [l|] eqn:E; [|discriminate E].
  exists (set_input_gate 0 (I2 5 6) false tA), l. split; [auto|]. split; [|split; [auto|]].
  - cbn [set_input_gate put_gate upd tA set_in]. dbl_tac.
  - intros rest H. destruct (C39_read_ok _ _ _ H) as (a & b & K). pose proof (ok_slices _ _ _ K) as F.
    cbn in F. inversion F as [|? ? (_ & _ & _ & S & _) _]; subst. cbn in S. specialize (S 5). cbn in S. lra.
Qed.

(** ** Examples *)
Lemma tA_kept : tube_kept tA.
Proof.
  split; [exists 0, 2; exact tA_ok|]. split; [|cbn; lia].
  unfold tA. dbl_tac.
Qed.
(** half-lines, empty and unbounded codomains, a time that is not an integer *)
Definition tS : tube := [mkS 0 (1/2) POS (I2 0 2) (I2 1 2); mkS (1/2) 2 ALL (I2 1 2) Emp; mkS 2 3 Emp Emp Emp].
Lemma tS_kept : tube_kept tS.
Proof.
  split; [exists 0, 3; unfold tS|split; [|cbn; lia]].
  - constructor; [discriminate|cbn; repeat split; lra|cbn; auto|].
    apply Forall_forall. intros s [<-|[<-|[<-|[]]]]; unfold slice_ok, sub; cbn; repeat split; intros; try tauto; lra.
  - unfold tS. dbl_tac.
Qed.
Example C39_example : exists l, ser_tube 2 tS = Some l /\ de_tube (l ++ [7%Z]) = Ok tS [7%Z].
Proof.
  destruct (ser_tube 2 tS) as [l|] eqn:E; [|discriminate E]. exists l. split; auto. apply C39_partial; auto using tS_kept.
Qed.
Example C39_vector_example : exists l, ser_vector (ser_tube 2) [tA; tS] = Some l /\
  de_vector de_tube copy_tube (l ++ []) = Ok [tA; tS] [].
Proof.
  destruct (ser_vector (ser_tube 2) [tA; tS]) as [l|] eqn:E; [|discriminate E]. exists l. split; auto.
  apply C39_vector; auto using tA_kept, tS_kept. cbn. lia.
Qed.
Example C39_file_example : (exists l, ser_file tS (Some trS) = Some l /\ de_file l = Ok (tS, Some trS) []) /\
  (exists l, ser_file tA None = Some l /\ de_file l = Ok (tA, None) []).
Proof.
  split.
  - destruct (ser_file tS (Some trS)) as [l|] eqn:E; [|discriminate E]. exists l. split; auto.
    apply C39_file; auto using tS_kept. intros y H. injection H; intros <-. apply trS_kept.
  - destruct (ser_file tA None) as [l|] eqn:E; [|discriminate E]. exists l. split; auto.
    apply C39_file; auto using tA_kept. discriminate.
Qed.
(** the first two bytes of a tube *)
Example C39_truncated_example : exists p t, ser_tube 2 tA = Some (p ++ t) /\ t <> [] /\ p <> [] /\ de_tube p = Undef.
Proof.
  destruct (ser_tube 2 tA) as [l|] eqn:E; [|discriminate E]. exists (le 2 2).
  assert (exists t, l = le 2 2 ++ t /\ t <> []) as (t & -> & N).
  { unfold tA, ser_tube in E. cbn [Z.eqb Pos.eqb] in E.
    match type of E with Some (_ ++ ?t) = Some l => exists t end. split; [congruence|]. cbn. discriminate. }
  exists t. split; [auto|]. split; [auto|]. split; [discriminate|]. apply (C39_truncated_partial tA _ t); auto using tA_kept.
Qed.

Print Assumptions C39_partial.
Print Assumptions C39_vector.
Print Assumptions C39_file.
Print Assumptions C39_read_ok.
Print Assumptions C39_truncated_partial.
Print Assumptions C39_refuted.
