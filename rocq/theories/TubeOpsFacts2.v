(** * Proofs about tube constructors and editing operations *)
From Coq Require Import Reals Lra Bool List Arith Lia ZArith.
From Verif Require Import Itv Arith Tube TubeSpec TubeFacts TubeOps TubeOpsFacts.
Import ListNotations.
Open Scope R_scope.
Local Arguments Nat.eqb : simpl never.
Local Arguments seq : simpl never.

(** ** constructors *)
Theorem tube_one_ok a b y : a < b -> wf y -> tube_ok a b (tube_one a b y).
Proof.
  intros H Hw. constructor; simpl; auto; try discriminate.
  repeat constructor; simpl; auto using sub_refl.
Qed.

Lemma timestep_loop_shape : forall n lb b dt, 0 < dt -> lb < b -> (b - lb) / dt < INR n ->
  chain_from lb (timestep_loop n lb b dt) b /\
  Forall (fun s => s_cod s = ALL /\ s_in s = ALL /\ s_out s = ALL /\ s_ub s - s_lb s <= dt) (timestep_loop n lb b dt).
Proof.
  induction n as [|n IH]; intros lb b dt Hdt Hlt Hn.
  - simpl in Hn. exfalso. assert (0 < (b - lb) / dt) by (apply Rdiv_lt_0_compat; lra). lra.
  - cbn [timestep_loop]. rewrite S_INR in Hn.
    destruct (Rltb (Rmin (lb + dt) b) b) eqn:E.
    + apply Rltb_true in E. assert (Rmin (lb + dt) b = lb + dt) as Em.
      { unfold Rmin in *. destruct (Rle_dec (lb + dt) b); lra. }
      rewrite Em in *. assert ((b - (lb + dt)) / dt < INR n) as Hn'.
      { replace ((b - (lb + dt)) / dt) with ((b - lb) / dt - 1) by (field; lra). lra. }
      destruct (IH (lb + dt) b dt Hdt E Hn') as [I1 I2]. split.
      * simpl. repeat split; auto; lra.
      * constructor; auto. simpl. repeat split; auto. lra.
    + apply Rltb_false in E. assert (Rmin (lb + dt) b = b) as Em.
      { unfold Rmin in *. destruct (Rle_dec (lb + dt) b); lra. }
      rewrite Em. split.
      * simpl. repeat split; auto; lra.
      * constructor; auto. simpl. repeat split; auto.
        unfold Rmin in *. destruct (Rle_dec (lb + dt) b); lra.
Qed.

Lemma all_ALL_ok a b x : x <> [] -> chain_from a x b ->
  Forall (fun s => s_cod s = ALL /\ s_in s = ALL /\ s_out s = ALL) x -> tube_ok a b x.
Proof.
  intros Hne Hc HF. constructor; auto.
  - apply gates_shared_nth. rewrite Forall_nth in HF. intros k s1 s2 E1 E2.
    destruct (HF _ _ E1) as (_ & _ & ->). destruct (HF _ _ E2) as (_ & -> & _). auto.
  - eapply Forall_impl; [|exact HF]. intros s (H1 & H2 & H3). unfold slice_ok. rewrite H1, H2, H3.
    repeat split; auto using sub_refl; exact I.
Qed.

(** ** set *)
Lemma tube_set_prefix y x m : wf y -> (m <= length x)%nat ->
  forall j, nth_error (fold_left (fun acc k => slice_set k y acc) (seq 0 m) x) j =
  match nth_error x j with
  | None => None
  | Some s =>
    if Nat.ltb j m then
      Some (mkS (s_lb s) (s_ub s) y y (if Nat.ltb (S j) m then y else inter_opt y (cod_at x (S j))))
    else if Nat.eqb j m then Some (match m with O => s | _ => set_in (inter y (s_cod s)) s end)
    else Some s
  end.
Proof.
  intros Hw. induction m as [|m IH]; intros Hm j.
  - unfold seq; simpl. destruct (nth_error x j); auto.
    replace (Nat.ltb j 0) with false by (symmetry; apply Nat.ltb_ge; lia).
    destruct (Nat.eqb j 0); auto.
  - rewrite seq_S_end, fold_left_app. simpl fold_left at 1.
    set (x' := fold_left (fun acc k => slice_set k y acc) (seq 0 m) x) in *.
    destruct (nth_error x m) as [sm|] eqn:Em; [|apply nth_error_None in Em; lia].
    assert (nth_error x' m = Some (match m with O => sm | _ => set_in (inter y (s_cod sm)) sm end)) as Em'.
    { rewrite IH by lia. rewrite Em. replace (Nat.ltb m m) with false by (symmetry; apply Nat.ltb_ge; lia).
      rewrite Nat.eqb_refl. auto. }
    assert (Hcm : prev_cod x' m = match m with O => None | _ => Some y end).
    { destruct m as [|m']; auto. unfold prev_cod, cod_at. rewrite IH by lia.
      destruct (nth_error x m') eqn:E'; [|apply nth_error_None in E'; lia].
      replace (Nat.ltb m' (S m')) with true by (symmetry; apply Nat.ltb_lt; lia). reflexivity. }
    assert (Hcn : cod_at x' (S m) = cod_at x (S m)).
    { unfold cod_at. rewrite IH by lia. destruct (nth_error x (S m)); auto.
      replace (Nat.ltb (S m) m) with false by (symmetry; apply Nat.ltb_ge; lia).
      replace (Nat.eqb (S m) m) with false by (symmetry; apply Nat.eqb_neq; lia). reflexivity. }
    rewrite (slice_set_nth m y x' _ j Em'). rewrite Hcm, Hcn.
    assert (inter y y = y) as Hy by (apply inter_sub_eq; auto using sub_refl).
    destruct (Nat.eqb_spec j m) as [->|n1].
    + rewrite Em. replace (Nat.ltb m (S m)) with true by (symmetry; apply Nat.ltb_lt; lia).
      replace (Nat.ltb (S m) (S m)) with false by (symmetry; apply Nat.ltb_ge; lia).
      f_equal. destruct m; simpl; rewrite ?Hy; reflexivity.
    + rewrite IH by lia. destruct (nth_error x j) as [s|] eqn:E; [|neq; reflexivity].
      destruct (Nat.eqb_spec (S j) m) as [e|n2].
      * subst m. replace (Nat.ltb j (S j)) with true by (symmetry; apply Nat.ltb_lt; lia).
        replace (Nat.ltb j (S (S j))) with true by (symmetry; apply Nat.ltb_lt; lia).
        replace (Nat.ltb (S j) (S (S j))) with true by (symmetry; apply Nat.ltb_lt; lia).
        replace (Nat.ltb (S j) (S j)) with false by (symmetry; apply Nat.ltb_ge; lia).
        unfold set_out. simpl. rewrite Hy. reflexivity.
      * destruct (Nat.eqb_spec j (S m)) as [->|n3].
        -- replace (Nat.ltb (S m) m) with false by (symmetry; apply Nat.ltb_ge; lia).
           replace (Nat.ltb (S m) (S m)) with false by (symmetry; apply Nat.ltb_ge; lia).
           replace (Nat.eqb (S m) m) with false by (symmetry; apply Nat.eqb_neq; lia).
           simpl. unfold cod_at. rewrite E. reflexivity.
        -- repeat match goal with |- context [Nat.ltb ?a ?b] => destruct (Nat.ltb_spec a b); try lia end;
           repeat match goal with |- context [Nat.eqb ?a ?b] => destruct (Nat.eqb_spec a b); try lia end; auto.
Qed.

Theorem tube_set_eq y x : wf y -> tube_set y x = map (fun s => mkS (s_lb s) (s_ub s) y y y) x.
Proof.
  intros Hw. apply nth_error_ext. intros j. unfold tube_set. rewrite tube_set_prefix by auto.
  rewrite nth_error_map. destruct (nth_error x j) as [s|] eqn:E; auto. simpl.
  assert (j < length x)%nat as Hj by (apply nth_error_Some; congruence).
  replace (Nat.ltb j (length x)) with true by (symmetry; apply Nat.ltb_lt; lia).
  destruct (Nat.ltb_spec (S j) (length x)); auto.
  assert (nth_error x (S j) = None) as En by (apply nth_error_None; lia).
  unfold cod_at. rewrite En. reflexivity.
Qed.

Theorem tube_set_ok a b y x : wf y -> tube_ok a b x -> tube_ok a b (tube_set y x).
Proof.
  intros Hw H. rewrite tube_set_eq by auto. eapply tube_ok_dom; eauto.
  - rewrite map_map. reflexivity.
  - apply gates_shared_nth. intros k s1 s2. rewrite !nth_error_map.
    destruct (nth_error x k); destruct (nth_error x (S k)); simpl; try discriminate.
    intros E1 E2; inversion E1; inversion E2; reflexivity.
  - apply Forall_forall. intros s Hs. apply in_map_iff in Hs. destruct Hs as (s0 & <- & _).
    repeat split; simpl; auto using sub_refl.
Qed.

Theorem tube_set_has a b y x f : wf y -> tube_ok a b x ->
  (has (tube_set y x) f <-> forall t, a <= t <= b -> In (f t) y).
Proof.
  intros Hw H. rewrite tube_set_eq by auto. split.
  - intros Hf t Ht. destruct (idx_spec x a b t) as (s & E & B & _); try apply H; auto.
    assert (slice_has (mkS (s_lb s) (s_ub s) y y y) f) as Hs.
    { apply Hf. apply in_map_iff. exists s; split; auto. eapply nth_error_In; eauto. }
    change (In (f t) (s_cod (mkS (s_lb s) (s_ub s) y y y))). apply slice_has_closed; auto.
    repeat split; simpl; auto using sub_refl.
  - intros Hf s Hs. apply in_map_iff in Hs. destruct Hs as (s0 & <- & Hs).
    destruct (chain_in_bounds _ _ _ _ (ok_chain _ _ _ H) Hs). repeat split; simpl; intros; apply Hf; lra.
Qed.

Theorem tube_timestep_ok a b dt y : a < b -> 0 <= dt -> wf y -> tube_ok a b (tube_timestep a b dt y).
Proof.
  intros Hab Hdt Hw. unfold tube_timestep.
  set (d := if Reqb dt 0 then b - a else dt).
  assert (0 < d) as Hd. { unfold d. destruct (Reqb dt 0) eqn:E; [lra|]. apply Reqb_false in E. lra. }
  assert ((b - a) / d < INR (S (Z.to_nat (up ((b - a) / d))))) as Hf.
  { rewrite S_INR. destruct (archimed ((b - a) / d)) as [H1 _].
    assert (0 < (b - a) / d) by (apply Rdiv_lt_0_compat; lra).
    assert (0 < IZR (up ((b - a) / d))) as H2 by lra. apply lt_IZR in H2.
    rewrite INR_IZR_INZ, Z2Nat.id by lia. lra. }
  destruct (timestep_loop_shape _ a b d Hd Hab Hf) as [H1 H2].
  assert (tube_ok a b (timestep_loop (S (Z.to_nat (up ((b - a) / d)))) a b d)) as Hok.
  { apply all_ALL_ok; auto; [discriminate|]. eapply Forall_impl; [|exact H2]. intros s; tauto. }
  destruct (itv_eqb y ALL); auto. apply tube_set_ok; auto.
Qed.
Theorem tube_timestep_has a b dt y f : a < b -> 0 <= dt -> wf y ->
  (has (tube_timestep a b dt y) f <-> forall t, a <= t <= b -> In (f t) y).
Proof.
  intros Hab Hdt Hw. pose proof (tube_timestep_ok a b dt ALL Hab Hdt wf_ALL) as Hok.
  unfold tube_timestep in *. rewrite itv_eqb_refl in Hok.
  destruct (itv_eqb y ALL) eqn:E.
  - apply itv_eqb_true in E. subst y. split; [intros; apply In_ALL|]. intros _ s Hs.
    set (d := if Reqb dt 0 then b - a else dt) in *.
    assert (0 < d) as Hd. { unfold d. destruct (Reqb dt 0) eqn:E; [lra|]. apply Reqb_false in E. lra. }
    assert ((b - a) / d < INR (S (Z.to_nat (up ((b - a) / d))))) as Hf.
    { rewrite S_INR. destruct (archimed ((b - a) / d)) as [H1 _].
      assert (0 < (b - a) / d) by (apply Rdiv_lt_0_compat; lra).
      assert (0 < IZR (up ((b - a) / d))) as H2 by lra. apply lt_IZR in H2.
      rewrite INR_IZR_INZ, Z2Nat.id by lia. lra. }
    destruct (timestep_loop_shape _ a b d Hd Hab Hf) as [H1 H2]. rewrite Forall_forall in H2.
    destruct (H2 _ Hs) as (E1 & E2 & E3 & _). unfold slice_has. rewrite E1, E2, E3. repeat split; intros; apply In_ALL.
  - apply tube_set_has; auto.
Qed.

(** ** copy *)
Theorem copy_tube_eq x : gates_shared x -> copy_tube x = x.
Proof.
  destruct x as [|s r]; [reflexivity|]. intros H. unfold copy_tube.
  assert (forall r acc, acc <> [] -> gates_shared (acc ++ r) ->
    fold_left (fun acc s => acc ++ [set_in (s_out (last acc s)) s]) r acc = acc ++ r) as A.
  { clear H. intros r'. induction r' as [|s0 r0 IH]; intros acc Hne Hs; simpl.
    - symmetry; apply app_nil_r.
    - assert (set_in (s_out (last acc s0)) s0 = s0) as E.
      { apply gates_shared_app in Hs. destruct Hs as (_ & _ & Hs). rewrite Hs by auto. destruct s0; reflexivity. }
      rewrite E. rewrite IH.
      + rewrite <- app_assoc. reflexivity.
      + destruct acc; discriminate.
      + rewrite <- app_assoc. exact Hs. }
  rewrite A; auto. discriminate.
Qed.

(** ** gates: remove_gate, merge_similar_slices *)
Lemma set_envelope_enlarge k y x s : nth_error x k = Some s -> gates_shared x ->
  wf (s_in s) -> wf (s_out s) -> sub (s_in s) y -> sub (s_out s) y ->
  set_envelope k y true x = upd k (set_cod y) x.
Proof.
  intros E Hs W1 W2 S1 S2. apply nth_error_ext. intros j. rewrite (set_envelope_nth k y x s j E), nth_error_upd.
  rewrite !inter_sub_eq by auto. rewrite gates_shared_nth in Hs.
  destruct (Nat.eqb_spec j k) as [->|n]. { rewrite E. reflexivity. }
  destruct (Nat.eqb_spec (S j) k) as [<-|n2].
  { destruct (nth_error x j) as [sj|] eqn:Ej; auto. simpl. rewrite <- (Hs _ _ _ Ej E). destruct sj; reflexivity. }
  destruct (Nat.eqb_spec j (S k)) as [->|n3]; auto.
  destruct (nth_error x (S k)) as [sj|] eqn:Ej; auto. simpl. rewrite (Hs _ _ _ E Ej). destruct sj; reflexivity.
Qed.

Definition merged (s1 s2 : slice) := mkS (s_lb s1) (s_ub s2) (hull (s_cod s1) (s_cod s2)) (s_in s1) (s_out s2).
Lemma merge_at_shape a b x k s1 s2 : tube_ok a b x ->
  nth_error x k = Some s1 -> nth_error x (S k) = Some s2 ->
  exists l1 l2, x = l1 ++ s1 :: s2 :: l2 /\ length l1 = k /\ merge_at k x = l1 ++ merged s1 s2 :: l2.
Proof.
  intros H E1 E2.
  destruct (nth_error_split _ _ E1) as (l1 & l2' & -> & Hl).
  destruct l2' as [|s2' l2].
  { exfalso. rewrite nth_error_app2 in E2 by lia. replace (S k - length l1)%nat with 1%nat in E2 by lia. discriminate. }
  assert (s2' = s2).
  { rewrite nth_error_app2 in E2 by lia. replace (S k - length l1)%nat with 1%nat in E2 by lia. simpl in E2. congruence. }
  subst s2'. exists l1, l2. split; [auto|split; auto].
  pose proof (ok_slices _ _ _ H) as HF. rewrite Forall_nth in HF.
  destruct (HF _ _ E1) as (W1 & W2 & W3 & S1 & S2). destruct (HF _ _ E2) as (V1 & V2 & V3 & T1 & T2).
  unfold merge_at. rewrite E1, E2.
  rewrite (set_envelope_enlarge k _ _ s1); auto; try apply H.
  2:{ eapply sub_trans; [exact S1|apply sub_hull_l]. }
  2:{ eapply sub_trans; [exact S2|apply sub_hull_l]. }
  rewrite <- Hl. rewrite upd_app. rewrite upd_app.
  assert (In1 : List.In s1 (l1 ++ s1 :: s2 :: l2)) by (apply in_elt).
  assert (In2 : List.In s2 (l1 ++ s1 :: s2 :: l2)) by (apply in_app_iff; right; right; left; auto).
  pose proof (chain_in_bounds _ _ _ _ (ok_chain _ _ _ H) In1) as B1.
  pose proof (chain_in_bounds _ _ _ _ (ok_chain _ _ _ H) In2) as B2.
  pose proof (chain_from_nth _ _ _ _ _ _ (ok_chain _ _ _ H) E1 E2) as EU.
  rewrite Rmin_left, Rmax_right by lra.
  unfold set_out, set_dom, set_cod. cbn [s_lb s_ub s_cod s_in s_out].
  assert (forall (l : tube) u v w, firstn (S (length l)) (l ++ u :: v :: w) ++ skipn (S (S (length l))) (l ++ u :: v :: w) = l ++ u :: w) as A.
  { clear. induction l as [|c l IH]; intros u v w; simpl in *; auto. f_equal. apply IH. }
  rewrite A. reflexivity.
Qed.

Theorem merge_at_ok a b x k s1 s2 : tube_ok a b x ->
  nth_error x k = Some s1 -> nth_error x (S k) = Some s2 ->
  tube_ok a b (merge_at k x) /\ (forall f, has x f -> has (merge_at k x) f) /\ length x = S (length (merge_at k x)).
Proof.
  intros H E1 E2. destruct (merge_at_shape a b x k s1 s2 H E1 E2) as (l1 & l2 & -> & Hl & ->).
  pose proof (ok_slices _ _ _ H) as HF. rewrite Forall_nth in HF.
  pose proof (HF _ _ E1) as O1. pose proof (HF _ _ E2) as O2.
  destruct O1 as (W1 & W2 & W3 & S1 & S2). destruct O2 as (V1 & V2 & V3 & T1 & T2).
  destruct H as [N C G F].
  apply chain_app in C. destruct C as (c & C1 & C2). simpl in C2. destruct C2 as (<- & L1 & EU & L2 & C2).
  split; [|split].
  - constructor.
    + destruct l1; discriminate.
    + apply chain_app. exists (s_lb s1); split; auto. simpl. repeat split; auto. lra.
    + apply gates_shared_app in G. destruct G as (G1 & G2 & G3).
      rewrite gates_shared_cons in G2. destruct G2 as [G2 G4]. apply gates_shared_app. split; [auto|split].
      * exact G4.
      * intros Hne. simpl. rewrite <- G3 by auto. f_equal. apply last_default; auto.
    + rewrite Forall_app in *. destruct F as [F1 F2]. split; auto. inversion F2 as [|? ? _ F3]; subst. inversion F3; subst.
      constructor; auto. repeat split; simpl; auto using wf_hull.
      * eapply sub_trans; [exact S1|apply sub_hull_l].
      * eapply sub_trans; [exact T2|apply sub_hull_r].
  - intros f. rewrite !has_app, !has_cons. intros (H1 & H2 & H3 & H4). split; [exact H1|split; [|exact H4]]. split; [|split].
    + apply H2.
    + apply H3.
    + intros t Ht. simpl in *. destruct (Rle_dec t (s_ub s1)).
      * apply In_hull_l. apply slice_has_closed; auto; [repeat split; auto|lra].
      * apply In_hull_r. apply slice_has_closed; auto; [repeat split; auto|lra].
  - rewrite !app_length. simpl. lia.
Qed.

Theorem remove_gate_ok a b x t : tube_ok a b x ->
  tube_ok a b (remove_gate t x) /\ (forall f, has x f -> has (remove_gate t x) f).
Proof.
  intros H. unfold remove_gate. destruct (time_to_index t x) as [|k] eqn:Ek; auto.
  assert (nth_error x (S k) <> None) as Hn.
  { rewrite <- Ek. rewrite <- slice_find_index by apply H. clear Ek k.
    assert (x <> []) as Hne by apply H. clear H. induction x as [|s r IH]; [congruence|].
    simpl. destruct (Rltb t (s_ub s)); [discriminate|]. destruct r; [discriminate|]. apply IH. discriminate. }
  apply nth_error_Some in Hn.
  destruct (nth_error x k) as [s1|] eqn:E1; [|apply nth_error_None in E1; lia].
  destruct (nth_error x (S k)) as [s2|] eqn:E2; [|apply nth_error_None in E2; lia].
  destruct (merge_at_ok a b x k s1 s2 H E1 E2) as (A & B & _). auto.
Qed.

Theorem merge_loop_ok a b close : forall n k x, tube_ok a b x ->
  tube_ok a b (merge_loop n close k x) /\ (forall f, has x f -> has (merge_loop n close k x) f).
Proof.
  induction n as [|n IH]; intros k x H; cbn [merge_loop]; auto.
  destruct (nth_error x k) as [s1|] eqn:E1; auto. destruct (nth_error x (S k)) as [s2|] eqn:E2; auto.
  destruct (close (s_cod s1) (s_cod s2)).
  - destruct (merge_at_ok a b x k s1 s2 H E1 E2) as (A & B & _). destruct (IH k _ A) as [I1 I2]. split; [exact I1|]. intros f Hf. apply I2, B, Hf.
  - apply IH; auto.
Qed.

(** ** set at an instant or on an interval *)
Theorem sample_gate_ok a b x t g : tube_ok a b x -> a <= t <= b -> wf g -> tube_ok a b (sample_gate t g x).
Proof.
  intros H Ht Hw. unfold sample_gate. pose proof (sample_ok a b x t H Ht) as H1.
  destruct (nth_error (sample t x) (time_to_index t (sample t x))) as [s|]; auto.
  destruct (Reqb t (s_lb s)); [apply set_input_gate_ok|apply set_output_gate_ok]; auto.
Qed.
Lemma set_itv_loop_ok a b y t : wf y -> forall n k x, tube_ok a b x -> tube_ok a b (set_itv_loop n k y t x).
Proof.
  intros Hw. induction n as [|n IH]; intros k x H; cbn [set_itv_loop]; auto.
  destruct (nth_error x k) as [s|] eqn:E; auto. destruct (is_degenerated _); auto.
  apply IH. apply slice_set_ok; auto. apply nth_error_Some; congruence.
Qed.
Theorem tube_set_itv_ok a b y u v x : wf y -> a <= u <= b -> a <= v <= b -> tube_ok a b x -> tube_ok a b (tube_set_itv y u v x).
Proof.
  intros Hw Hu Hv H. unfold tube_set_itv. destruct (Reqb u v).
  - apply sample_gate_ok; auto.
  - apply set_itv_loop_ok; auto. apply sample_ok; auto. apply sample_ok; auto.
Qed.

(** ** C01: any sequence of editing operations *)
Definition legal (a b : R) (e : edit) (x : tube) : Prop :=
  match e with
  | ESample t => a <= t <= b
  | ESampleAs y | EInter y | EUnion y => tube_ok a b y
  | ESetAll y => wf y
  | ESetId y k => wf y /\ (k < length x)%nat
  | ESetAt y t => wf y /\ a <= t <= b
  | ESetItv y u v => wf y /\ a <= u <= b /\ a <= v <= b
  | EEnvelope _ y | EInGate _ y | EOutGate _ y => wf y
  | ERemoveGate _ | EMerge _ | ECopy => True
  end.
Fixpoint all_legal (a b : R) (l : list edit) (x : tube) : Prop :=
  match l with
  | [] => True
  | e :: r => legal a b e x /\ all_legal a b r (exec e x)
  end.

Theorem exec_ok a b e x : tube_ok a b x -> legal a b e x -> tube_ok a b (exec e x).
Proof.
  intros H L. destruct e; simpl in *.
  - apply sample_ok; auto.
  - apply sample_as_spec; auto.
  - apply tube_set_ok; auto.
  - apply slice_set_ok; tauto.
  - apply sample_gate_ok; tauto.
  - apply tube_set_itv_ok; tauto.
  - apply set_envelope_ok; auto.
  - apply set_input_gate_ok; auto.
  - apply set_output_gate_ok; auto.
  - apply remove_gate_ok; auto.
  - apply merge_loop_ok; auto.
  - apply tube_binary_ok; auto using mono2_inter.
  - apply tube_binary_ok; auto using mono2_hull.
  - rewrite copy_tube_eq by apply H. auto.
Qed.
Theorem run_ok a b : forall l x, tube_ok a b x -> all_legal a b l x -> tube_ok a b (run l x).
Proof.
  induction l as [|e l IH]; intros x H L; simpl in *; auto. apply IH; [apply exec_ok|]; tauto.
Qed.

(** ** shift *)
Theorem shift_ok a b c x : tube_ok a b x -> tube_ok (a + c) (b + c) (shift_tdomain c x).
Proof.
  intros [N C G F]. constructor.
  - intros E. apply map_eq_nil in E. auto.
  - clear N G F. revert a C. induction x as [|s r IH]; intros a C; simpl in *. lra.
    destruct C as (<- & L & C). repeat split; auto; lra.
  - apply gates_shared_nth. rewrite gates_shared_nth in G. intros k s1 s2. unfold shift_tdomain. rewrite !nth_error_map.
    destruct (nth_error x k) eqn:E1; destruct (nth_error x (S k)) eqn:E2; simpl; try discriminate.
    intros H1 H2; inversion H1; inversion H2; subst; simpl. eapply G; eauto.
  - apply Forall_forall. intros s Hs. apply in_map_iff in Hs. destruct Hs as (s0 & <- & Hs). rewrite Forall_forall in F.
    destruct (F _ Hs) as (W1 & W2 & W3 & S1 & S2). repeat split; simpl; auto.
Qed.
Theorem shift_has c x f : has (shift_tdomain c x) (fun t => f (t - c)) <-> has x f.
Proof.
  assert (forall s, slice_has (shift_slice c s) (fun t => f (t - c)) <-> slice_has s f) as A.
  { intros s. unfold slice_has; simpl. replace (s_lb s + c - c) with (s_lb s) by ring.
    replace (s_ub s + c - c) with (s_ub s) by ring. split; intros (H1 & H2 & H3); repeat split; auto.
    - intros t Ht. replace t with (t + c - c) by ring. apply H3. lra.
    - intros t Ht. apply H3. lra. }
  unfold has, shift_tdomain. split.
  - intros H s Hs. apply A. apply H. apply in_map; auto.
  - intros H s Hs. apply in_map_iff in Hs. destruct Hs as (s0 & <- & Hs). apply A; auto.
Qed.
Theorem shift_shift c x : shift_tdomain (- c) (shift_tdomain c x) = x.
Proof.
  unfold shift_tdomain. rewrite map_map. rewrite <- (map_id x) at 2. apply map_ext. intros s.
  unfold shift_slice, set_dom; simpl. destruct s; simpl. f_equal; ring.
Qed.

(** ** inflate *)
Theorem inflate_has A a b x r f d : arith_ok A -> tube_ok a b x -> 0 <= r ->
  has x f -> (forall t, a <= t <= b -> Rabs (d t) <= r) -> has (inflate A r x) (fun t => f t + d t).
Proof.
  intros HA H Hr Hf Hd.
  assert (forall t, a <= t <= b -> In (d t) (bnd (- r) r)) as B.
  { intros t Ht. apply In_bnd. specialize (Hd t Ht). revert Hd. unfold Rabs. destruct (Rcase_abs (d t)); lra. }
  eapply map_loop_has; [apply H|]. intros k s E. rewrite (sl_nth _ _ _ E).
  assert (List.In s x) as Hin by (eapply nth_error_In; eauto).
  destruct (chain_in_bounds _ _ _ _ (ok_chain _ _ _ H) Hin) as (B1 & B2 & B3).
  destruct (Hf _ Hin) as (F1 & F2 & F3). split; [|split].
  - apply iadd_in; auto. apply B; lra.
  - intros t Ht. apply iadd_in; auto. apply B; lra.
  - intros Hk. rewrite (last_rank x k s), (sl_nth _ _ _ E) by auto. apply iadd_in; auto. apply B; lra.
Qed.
