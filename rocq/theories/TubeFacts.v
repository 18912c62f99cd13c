(** * Proofs about the tube model *)
From Coq Require Import Reals Lra Bool List Arith Lia.
From Verif Require Import Itv Arith Tube TubeSpec.
Import ListNotations.
Open Scope R_scope.

(** ** lists *)
Lemma nth_error_upd {A} (f : A -> A) : forall l k j,
  nth_error (upd k f l) j = if Nat.eqb j k then option_map f (nth_error l j) else nth_error l j.
Proof.
  induction l as [|a r IH]; intros k j; simpl.
  - destruct j; simpl; destruct k; simpl; auto; match goal with |- context [if ?b then _ else _] => destruct b; auto end.
  - destruct k; destruct j; simpl; auto.
Qed.
Lemma upd_length {A} (f : A -> A) : forall l k, length (upd k f l) = length l.
Proof. induction l; intros [|k]; simpl; auto. Qed.
Lemma upd_out {A} (f : A -> A) : forall l k, (length l <= k)%nat -> upd k f l = l.
Proof. induction l; intros [|k] H; simpl in *; auto; try lia. f_equal; apply IHl; lia. Qed.
Lemma upd_app {A} (f : A -> A) l1 a l2 : upd (length l1) f (l1 ++ a :: l2) = l1 ++ f a :: l2.
Proof. induction l1; simpl; auto. f_equal; auto. Qed.
Lemma Forall_upd {A} (P : A -> Prop) (f : A -> A) : forall l k,
  Forall P l -> (forall a, nth_error l k = Some a -> P a -> P (f a)) -> Forall P (upd k f l).
Proof.
  induction l as [|a r IH]; intros k H Hf; destruct k; simpl; auto; inversion H; subst; constructor; auto.
Qed.
Lemma map_upd {A B} (g : A -> B) (f : A -> A) : (forall a, g (f a) = g a) ->
  forall l k, map g (upd k f l) = map g l.
Proof. intros Hg; induction l; intros [|k]; simpl; auto; f_equal; auto. Qed.
Lemma nth_error_ext {A} : forall (l1 l2 : list A), (forall k, nth_error l1 k = nth_error l2 k) -> l1 = l2.
Proof.
  induction l1; destruct l2; intros H; auto; try (specialize (H 0%nat); discriminate).
  pose proof (H 0%nat) as H0; injection H0; intros ->. f_equal. apply IHl1. intros k; apply (H (S k)).
Qed.

(** ** characterisations by rank *)
Local Arguments Nat.eqb : simpl never.
Lemma gates_shared_nth : forall x,
  gates_shared x <-> forall k a b, nth_error x k = Some a -> nth_error x (S k) = Some b -> s_out a = s_in b.
Proof.
  induction x as [|s r IH]; simpl.
  - split; auto. intros _ k a b H; destruct k; discriminate.
  - rewrite IH. split.
    + intros [H1 H2] k a b Ha Hb. destruct k; simpl in *.
      * destruct r; simpl in *; congruence.
      * eapply H2; eauto.
    + intros H; split.
      * destruct r; auto. apply (H 0%nat); auto.
      * intros k a b Ha Hb; apply (H (S k)); auto.
Qed.
Lemma Forall_nth {A} (P : A -> Prop) (l : list A) :
  Forall P l <-> forall k a, nth_error l k = Some a -> P a.
Proof.
  rewrite Forall_forall. split.
  - intros H k a Hk; apply H. eapply nth_error_In; eauto.
  - intros H a Ha. apply In_nth_error in Ha; destruct Ha as [k Hk]; eauto.
Qed.
Lemma has_nth x f : has x f <-> forall k s, nth_error x k = Some s -> slice_has s f.
Proof. unfold has. rewrite <- Forall_forall, Forall_nth. tauto. Qed.
Lemma has_cons s x f : has (s :: x) f <-> slice_has s f /\ has x f.
Proof. unfold has; simpl; split; [intros H; split; auto | intros [H1 H2] s' [->|H]; auto]. Qed.
Lemma has_nil f : has [] f. Proof. intros s []. Qed.
Lemma has_app x y f : has (x ++ y) f <-> has x f /\ has y f.
Proof. unfold has; split; [intros H; split; intros s Hs; apply H, in_app_iff; auto|intros [H1 H2] s Hs; apply in_app_iff in Hs; destruct Hs; auto]. Qed.

Definition dom (s : slice) := (s_lb s, s_ub s).
Lemma chain_from_dom : forall x y a b, map dom x = map dom y -> chain_from a x b -> chain_from a y b.
Proof.
  induction x as [|s r IH]; intros [|s' r'] a b H; simpl in H; try discriminate; auto.
  injection H; intros H1 H2 H3. simpl. rewrite H2, H3. intros (E1 & E2 & E3); repeat split; auto.
Qed.
Lemma chain_from_lt : forall x a b, chain_from a x b -> x <> [] -> a < b.
Proof.
  induction x as [|s r IH]; intros a b H Hne; [congruence|].
  simpl in H; destruct H as (<- & H1 & H2). destruct r.
  - simpl in H2; lra.
  - apply IH in H2; [lra|discriminate].
Qed.
Lemma chain_from_le : forall x a b, chain_from a x b -> a <= b.
Proof. intros [|s r] a b H. simpl in H; lra. apply chain_from_lt in H; [lra|discriminate]. Qed.
Lemma chain_t0 x a b : chain_from a x b -> x <> [] -> t0 x = a.
Proof. destruct x; [congruence|]. simpl; tauto. Qed.
Lemma tf_cons s x : x <> [] -> tf (s :: x) = tf x.
Proof. destruct x; [congruence|reflexivity]. Qed.
Lemma chain_tf : forall x a b, chain_from a x b -> x <> [] -> tf x = b.
Proof.
  induction x as [|s r IH]; intros a b H Hne; [congruence|].
  simpl in H. destruct H as (_ & _ & H2). destruct r; auto.
  rewrite tf_cons by discriminate. eapply IH; eauto. discriminate.
Qed.
Lemma chain_app : forall x y a b, chain_from a (x ++ y) b <-> exists c, chain_from a x c /\ chain_from c y b.
Proof.
  induction x as [|s r IH]; intros y a b; simpl.
  - split; [intros H; exists a; auto | intros (c & -> & H); auto].
  - rewrite IH. split.
    + intros (H1 & H2 & c & H3 & H4). exists c; auto.
    + intros (c & (H1 & H2 & H3) & H4); repeat split; auto. exists c; auto.
Qed.
Lemma chain_in_bounds : forall x a b s, chain_from a x b -> List.In s x -> a <= s_lb s /\ s_lb s < s_ub s /\ s_ub s <= b.
Proof.
  induction x as [|s0 r IH]; intros a b s H [].
  - subst s0. simpl in H. destruct H as (<- & H1 & H2). apply chain_from_le in H2. lra.
  - simpl in H. destruct H as (<- & H1 & H2). specialize (IH _ _ _ H2 H0). lra.
Qed.
Lemma chain_from_nth : forall x a b k s1 s2, chain_from a x b ->
  nth_error x k = Some s1 -> nth_error x (S k) = Some s2 -> s_ub s1 = s_lb s2.
Proof.
  induction x as [|s r IH]; intros a b k s1 s2 H H1 H2; [destruct k; discriminate|].
  simpl in H; destruct H as (<- & Hlt & H). destruct k; simpl in *.
  - destruct r; [discriminate|]. injection H1; injection H2; intros; subst. simpl in H. symmetry; tauto.
  - eapply IH; eauto.
Qed.

Lemma put_gate_nth k g x j : nth_error (put_gate k g x) j =
  if Nat.eqb j k then option_map (set_in g) (nth_error x j)
  else if Nat.eqb (S j) k then option_map (set_out g) (nth_error x j) else nth_error x j.
Proof.
  unfold put_gate. rewrite nth_error_upd.
  destruct k as [|k'].
  - destruct (Nat.eqb_spec j 0); auto.
  - rewrite !nth_error_upd. destruct (Nat.eqb_spec j (S k')).
    + subst j. replace (Nat.eqb (S k') k') with false; auto. symmetry; apply Nat.eqb_neq; lia.
    + replace (Nat.eqb (S j) (S k')) with (Nat.eqb j k') by reflexivity.
      destruct (Nat.eqb_spec j k'); auto.
Qed.
Lemma put_gate_dom k g x : map dom (put_gate k g x) = map dom x.
Proof. unfold put_gate. rewrite map_upd by reflexivity. destruct k; auto. rewrite map_upd by reflexivity. auto. Qed.
Lemma put_gate_length k g x : length (put_gate k g x) = length x.
Proof. unfold put_gate. rewrite upd_length. destruct k; auto. rewrite upd_length; auto. Qed.

Ltac neq := repeat match goal with
  | |- context [Nat.eqb ?a ?b] => destruct (Nat.eqb_spec a b); try lia
  | H : context [Nat.eqb ?a ?b] |- _ => destruct (Nat.eqb_spec a b); try lia
  end.

Lemma put_gate_shared k g x : gates_shared x -> gates_shared (put_gate k g x).
Proof.
  rewrite !gates_shared_nth. intros H j a b. rewrite !put_gate_nth.
  destruct (nth_error x j) eqn:E1; destruct (nth_error x (S j)) eqn:E2; simpl;
  neq; simpl; intros Ha Hb; try discriminate; inversion Ha; inversion Hb; subst; simpl; auto;
  try (eapply H; eauto; fail).
Qed.

Lemma put_gate_cod k g x j : cod_at (put_gate k g x) j = cod_at x j.
Proof.
  unfold cod_at. rewrite put_gate_nth. neq; destruct (nth_error x j); reflexivity.
Qed.
Lemma put_gate_prev k g x j : prev_cod (put_gate k g x) j = prev_cod x j.
Proof. destruct j; simpl; auto. apply put_gate_cod. Qed.

(** writing a gate included in both adjacent codomains keeps slices consistent *)
Lemma put_gate_ok k g x : wf g ->
  (forall c, cod_at x k = Some c -> sub g c) ->
  (forall c, prev_cod x k = Some c -> sub g c) ->
  Forall slice_ok x -> Forall slice_ok (put_gate k g x).
Proof.
  intros Hw H1 H2 H. apply Forall_nth. intros j s. rewrite put_gate_nth.
  rewrite Forall_nth in H.
  unfold prev_cod, cod_at in *.
  destruct (nth_error x j) as [s0|] eqn:E; [|neq; discriminate].
  specialize (H _ _ E). destruct H as (W1 & W2 & W3 & S1 & S2).
  neq; simpl; intros Hs; inversion Hs; subst; clear Hs.
  - rewrite E in H1. specialize (H1 _ eq_refl). repeat split; auto.
  - rewrite E in H2. specialize (H2 _ eq_refl). repeat split; auto.
  - repeat split; auto.
Qed.

Lemma inter_opt_wf g o : wf g -> wf (inter_opt g o).
Proof. destruct o; simpl; auto. intros; apply wf_inter. Qed.
Lemma inter_opt_sub_l g o : sub (inter_opt g o) g.
Proof. destruct o; simpl; [apply sub_inter_l | apply sub_refl]. Qed.
Lemma inter_opt_sub_r g o c : o = Some c -> sub (inter_opt g o) c.
Proof. intros ->; simpl. apply sub_inter_r. Qed.
Lemma In_inter_opt v g o : In v (inter_opt g o) <-> In v g /\ forall c, o = Some c -> In v c.
Proof.
  destruct o; simpl.
  - rewrite In_inter. split; intros [H1 H2]; split; auto. intros c H; inversion H; subst; auto.
  - split; [intros H; split; auto; discriminate|tauto].
Qed.

Lemma tube_ok_dom a b x y : tube_ok a b x -> map dom y = map dom x -> gates_shared y -> Forall slice_ok y -> tube_ok a b y.
Proof.
  intros [H1 H2 H3 H4] E Hs Hf. constructor; auto.
  - intros ->. destruct x; [congruence|discriminate].
  - eapply chain_from_dom; [symmetry; exact E|auto].
Qed.

Lemma set_input_gate_ok a b x k g : tube_ok a b x -> wf g -> tube_ok a b (set_input_gate k g true x).
Proof.
  intros H Hw. unfold set_input_gate. eapply tube_ok_dom; eauto.
  - apply put_gate_dom.
  - apply put_gate_shared, H.
  - apply put_gate_ok; auto using inter_opt_wf.
    + intros c Hc. eapply sub_trans; [apply inter_opt_sub_l|]. apply inter_opt_sub_r; auto.
    + intros c Hc. apply inter_opt_sub_r; auto.
    + apply H.
Qed.
Lemma set_output_gate_ok a b x k g : tube_ok a b x -> wf g -> tube_ok a b (set_output_gate k g true x).
Proof.
  intros H Hw. unfold set_output_gate. eapply tube_ok_dom; eauto.
  - apply put_gate_dom.
  - apply put_gate_shared, H.
  - apply put_gate_ok; auto using inter_opt_wf.
    + intros c Hc. apply inter_opt_sub_r; auto.
    + intros c Hc. eapply sub_trans; [apply inter_opt_sub_l|]. apply inter_opt_sub_r; auto.
    + apply H.
Qed.

Lemma upd_cod_shared k y x : gates_shared x -> gates_shared (upd k (set_cod y) x).
Proof.
  rewrite !gates_shared_nth. intros H j a b. rewrite !nth_error_upd.
  destruct (nth_error x j) eqn:E1; destruct (nth_error x (S j)) eqn:E2; neq; simpl; intros Ha Hb;
  try discriminate; inversion Ha; inversion Hb; subst; simpl; eapply H; eauto.
Qed.
Lemma upd_cod_dom k y x : map dom (upd k (set_cod y) x) = map dom x.
Proof. apply map_upd; reflexivity. Qed.

Lemma gate_prev x k s s' : gates_shared x -> nth_error x (S k) = Some s -> nth_error x k = Some s' -> s_out s' = s_in s.
Proof. rewrite gates_shared_nth; eauto. Qed.

(** what a set_envelope does, slice by slice *)
Lemma set_envelope_nth k y x s j : nth_error x k = Some s ->
  nth_error (set_envelope k y true x) j =
    if Nat.eqb j k then Some (mkS (s_lb s) (s_ub s) y (inter (s_in s) y) (inter (s_out s) y))
    else if Nat.eqb (S j) k then option_map (set_out (inter (s_in s) y)) (nth_error x j)
    else if Nat.eqb j (S k) then option_map (set_in (inter (s_out s) y)) (nth_error x j)
    else nth_error x j.
Proof.
  intros E. unfold set_envelope. rewrite E. rewrite !put_gate_nth, nth_error_upd. simpl.
  destruct (Nat.eqb_spec j k).
  - subst j. rewrite E. neq. reflexivity.
  - neq; destruct (nth_error x j); reflexivity.
Qed.
Lemma set_envelope_shared k y c x : gates_shared x -> gates_shared (set_envelope k y c x).
Proof.
  intros H. unfold set_envelope. destruct (nth_error x k); auto. destruct c.
  - apply put_gate_shared, put_gate_shared, upd_cod_shared; auto.
  - apply upd_cod_shared; auto.
Qed.
Lemma set_envelope_dom k y c x : map dom (set_envelope k y c x) = map dom x.
Proof.
  unfold set_envelope. destruct (nth_error x k); auto. destruct c.
  - rewrite !put_gate_dom. apply upd_cod_dom.
  - apply upd_cod_dom.
Qed.
Lemma set_envelope_ok a b x k y : tube_ok a b x -> wf y -> tube_ok a b (set_envelope k y true x).
Proof.
  intros H Hw. eapply tube_ok_dom; eauto using set_envelope_dom.
  - apply set_envelope_shared, H.
  - destruct (nth_error x k) as [s|] eqn:E.
    2:{ unfold set_envelope; rewrite E; apply H. }
    apply Forall_nth. intros j s'. rewrite (set_envelope_nth k y x s j E).
    pose proof (ok_slices _ _ _ H) as HF. rewrite Forall_nth in HF.
    pose proof (HF _ _ E) as (W1 & W2 & W3 & S1 & S2).
    pose proof (ok_shared _ _ _ H) as HS. rewrite gates_shared_nth in HS.
    destruct (Nat.eqb_spec j k).
    { intros Hs; inversion Hs; subst. repeat split; simpl; auto using wf_inter, sub_inter_r. }
    destruct (nth_error x j) as [sj|] eqn:Ej; [|neq; simpl; discriminate].
    pose proof (HF _ _ Ej) as (V1 & V2 & V3 & T1 & T2).
    neq; simpl; intros Hs; inversion Hs; subst; clear Hs.
    + assert (s_out sj = s_in s) as Eg by (eapply HS; eauto).
      repeat split; simpl; auto using wf_inter. rewrite <- Eg. eapply sub_trans; [apply sub_inter_l|auto].
    + assert (s_out s = s_in sj) as Eg by (eapply HS; eauto).
      repeat split; simpl; auto using wf_inter. rewrite Eg. eapply sub_trans; [apply sub_inter_l|auto].
    + repeat split; auto.
Qed.

Lemma cod_at_upd k y x j : cod_at (upd k (set_cod y) x) j =
  if Nat.eqb j k then match nth_error x j with Some _ => Some y | None => None end else cod_at x j.
Proof. unfold cod_at. rewrite nth_error_upd. neq; destruct (nth_error x j); reflexivity. Qed.

(** what a set does, slice by slice *)
Lemma slice_set_dom k y x : map dom (slice_set k y x) = map dom x.
Proof. unfold slice_set. rewrite !put_gate_dom. apply upd_cod_dom. Qed.
Lemma slice_set_nth k y x s j : nth_error x k = Some s ->
  nth_error (slice_set k y x) j =
    if Nat.eqb j k then Some (mkS (s_lb s) (s_ub s) y (inter_opt y (prev_cod x k)) (inter_opt y (cod_at x (S k))))
    else if Nat.eqb (S j) k then option_map (set_out (inter_opt y (prev_cod x k))) (nth_error x j)
    else if Nat.eqb j (S k) then option_map (set_in (inter_opt y (cod_at x (S k)))) (nth_error x j)
    else nth_error x j.
Proof.
  intros E. unfold slice_set. rewrite !put_gate_nth, nth_error_upd, put_gate_cod, cod_at_upd.
  assert (prev_cod (upd k (set_cod y) x) k = prev_cod x k) as ->.
  { destruct k; [reflexivity|]. unfold prev_cod. rewrite cod_at_upd. neq; auto. }
  destruct (Nat.eqb_spec j k).
  - subst j. rewrite E. simpl. neq. reflexivity.
  - neq; simpl; destruct (nth_error x j); reflexivity.
Qed.
Lemma slice_set_shared k y x : gates_shared x -> gates_shared (slice_set k y x).
Proof. intros H. unfold slice_set. apply put_gate_shared, put_gate_shared, upd_cod_shared; auto. Qed.
Lemma slice_set_ok a b x k y : tube_ok a b x -> (k < length x)%nat -> wf y -> tube_ok a b (slice_set k y x).
Proof.
  intros H Hk Hw. eapply tube_ok_dom; eauto using slice_set_dom.
  - apply slice_set_shared, H.
  - destruct (nth_error x k) as [s|] eqn:E; [|apply nth_error_None in E; lia].
    apply Forall_nth. intros j s'. rewrite (slice_set_nth k y x s j E).
    pose proof (ok_slices _ _ _ H) as HF. rewrite Forall_nth in HF.
    destruct (Nat.eqb_spec j k).
    { intros Hs; inversion Hs; subst. repeat split; simpl; auto using inter_opt_wf, inter_opt_sub_l. }
    destruct (nth_error x j) as [sj|] eqn:Ej; [|neq; simpl; discriminate].
    pose proof (HF _ _ Ej) as (V1 & V2 & V3 & T1 & T2).
    neq; simpl; intros Hs; inversion Hs; subst; clear Hs.
    + repeat split; simpl; auto using inter_opt_wf. apply inter_opt_sub_r. unfold cod_at; rewrite Ej; auto.
    + repeat split; simpl; auto using inter_opt_wf. apply inter_opt_sub_r. unfold cod_at; rewrite Ej; auto.
    + repeat split; auto.
Qed.
Lemma slice_set_length k y x : length (slice_set k y x) = length x.
Proof. unfold slice_set. rewrite !put_gate_length, upd_length; auto. Qed.

(** ** sample *)
Lemma chain_rest_id a rest : wf (s_out a) -> gates_shared (a :: rest) -> chain_rest a rest = (a, rest).
Proof.
  intros Hw H. unfold chain_rest. destruct rest as [|b r]; auto.
  simpl in H. destruct H as [H _]. rewrite <- H.
  rewrite inter_sub_eq by auto using sub_refl.
  unfold set_out, set_in. destruct a as [l u c i o], b as [l2 u2 c2 i2 o2]; simpl in *. subst; auto.
Qed.

Lemma sample_slice_eq t s rest : slice_ok s -> gates_shared (s :: rest) ->
  sample_slice t s rest =
    if Reqb (s_lb s) t || Reqb (s_ub s) t then s :: rest
    else mkS (s_lb s) t (s_cod s) (s_in s) (s_cod s) :: mkS t (s_ub s) (s_cod s) (s_cod s) (s_out s) :: rest.
Proof.
  intros (W1 & W2 & W3 & S1 & S2) Hs. unfold sample_slice.
  destruct (Reqb (s_lb s) t || Reqb (s_ub s) t); auto.
  rewrite chain_rest_id; auto.
  simpl. rewrite !(inter_sub_eq (s_cod s)) by auto using sub_refl. reflexivity.
Qed.

Lemma sample_head t x : x <> [] -> sample t x <> [].
Proof.
  destruct x as [|s r]; [congruence|]. intros _. simpl.
  assert (forall s r, sample_slice t s r <> []) as A.
  { intros s0 r0. unfold sample_slice. destruct (_ || _); [discriminate|]. destruct (chain_rest _ _); discriminate. }
  destruct (Rltb t (s_ub s)); auto. destruct r; auto. discriminate.
Qed.

Definition left_part (t : R) (s : slice) := mkS (s_lb s) t (s_cod s) (s_in s) (s_cod s).
Definition right_part (t : R) (s : slice) := mkS t (s_ub s) (s_cod s) (s_cod s) (s_out s).

Lemma sample_shape : forall x a b t,
  chain_from a x b -> gates_shared x -> Forall slice_ok x -> a <= t <= b ->
  sample t x = x \/
  exists l1 s l2, x = l1 ++ s :: l2 /\ s_lb s < t < s_ub s /\
    sample t x = l1 ++ left_part t s :: right_part t s :: l2.
Proof.
  induction x as [|s r IH]; intros a b t Hc Hs Ho Ht; [left; reflexivity|].
  simpl in Hc. destruct Hc as (Ha & Hlt & Hc).
  assert (slice_ok s) as Hos by (inversion Ho; auto).
  assert (forall r0, r0 = r -> (t < s_ub s \/ r = []) -> sample_slice t s r0 = s :: r \/
    exists l1 s' l2, s :: r = l1 ++ s' :: l2 /\ s_lb s' < t < s_ub s' /\
      sample_slice t s r0 = l1 ++ left_part t s' :: right_part t s' :: l2) as A.
  { intros r0 -> Hcase. rewrite sample_slice_eq by auto.
    destruct (Reqb (s_lb s) t) eqn:E1; [left; reflexivity|].
    destruct (Reqb (s_ub s) t) eqn:E2; [left; reflexivity|].
    apply Reqb_false in E1. apply Reqb_false in E2. simpl.
    right. exists [], s, r. split; [reflexivity|]. split.
    - destruct Hcase as [Hcase|Hcase]; [lra|]. subst r. simpl in Hc. lra.
    - reflexivity. }
  simpl sample. destruct (Rltb t (s_ub s)) eqn:E.
  - apply Rltb_true in E. apply A; auto.
  - apply Rltb_false in E. destruct r as [|s2 r2].
    + apply A; auto.
    + destruct (IH (s_ub s) b t) as [H|(l1 & s' & l2 & H1 & H2 & H3)]; auto.
      * exact (proj2 Hs).
      * inversion Ho; auto.
      * lra.
      * left. rewrite H. reflexivity.
      * right. exists (s :: l1), s', l2. rewrite H1. repeat split; try tauto.
        rewrite H1 in H3. rewrite H3. reflexivity.
Qed.

Lemma gates_shared_cons s1 s2 r : gates_shared (s1 :: s2 :: r) <-> s_out s1 = s_in s2 /\ gates_shared (s2 :: r).
Proof. reflexivity. Qed.
Lemma last_cons {A} (a b d : A) l : last (a :: b :: l) d = last (b :: l) d.
Proof. reflexivity. Qed.
Lemma gates_shared_app : forall l1 s l2,
  gates_shared (l1 ++ s :: l2) <->
  gates_shared l1 /\ gates_shared (s :: l2) /\ (l1 <> [] -> s_out (last l1 s) = s_in s).
Proof.
  induction l1 as [|a l1 IH]; intros s l2.
  - simpl app. split; [intros H; split; [exact I|split; [exact H|congruence]] | tauto].
  - destruct l1 as [|a2 l1].
    + simpl app. rewrite gates_shared_cons. simpl last. split.
      * intros [H1 H2]. split; [split; exact I|split; [exact H2|auto]].
      * intros (_ & H1 & H2). split; auto. apply H2; discriminate.
    + specialize (IH s l2). simpl app in *. rewrite !gates_shared_cons, last_cons, IH.
      assert (a :: a2 :: l1 <> []) by discriminate. assert (a2 :: l1 <> []) by discriminate. tauto.
Qed.
Lemma last_default {A} (l : list A) d1 d2 : l <> [] -> last l d1 = last l d2.
Proof. induction l as [|a [|a2 l] IH]; intros H; [congruence|reflexivity|]. rewrite !last_cons. apply IH; discriminate. Qed.

Lemma tube_ok_split a b l1 s l2 t : tube_ok a b (l1 ++ s :: l2) -> s_lb s < t < s_ub s ->
  tube_ok a b (l1 ++ left_part t s :: right_part t s :: l2).
Proof.
  intros [H1 H2 H3 H4] Ht. constructor.
  - destruct l1; discriminate.
  - apply chain_app in H2. destruct H2 as (c & H5 & H6). apply chain_app. exists c; split; auto.
    simpl in *. destruct H6 as (<- & H7 & H8). repeat split; try tauto; lra.
  - apply gates_shared_app in H3. destruct H3 as (H5 & H6 & H7).
    apply gates_shared_app. split; [auto|split].
    + simpl in *. split; [reflexivity|]. destruct H6 as [H6 H8]. split; auto.
    + intros Hne. simpl. rewrite <- H7 by auto. f_equal. apply last_default; auto.
  - rewrite Forall_app in *. destruct H4 as [H4 H5]. split; auto. inversion H5; subst.
    destruct H3 as (W1 & W2 & W3 & S1 & S2) || (destruct H6 as (W1 & W2 & W3 & S1 & S2)).
    constructor; [|constructor]; auto; repeat split; simpl; auto using sub_refl.
Qed.

Theorem sample_ok a b x t : tube_ok a b x -> a <= t <= b -> tube_ok a b (sample t x).
Proof.
  intros H Ht. destruct (sample_shape x a b t) as [->|(l1 & s & l2 & -> & H2 & ->)]; auto; try apply H.
  apply tube_ok_split; auto.
Qed.

Lemma slice_split_has t s f : s_lb s < t < s_ub s ->
  (slice_has s f <-> slice_has (left_part t s) f /\ slice_has (right_part t s) f).
Proof.
  intros Ht. unfold slice_has; simpl. split.
  - intros (H1 & H2 & H3). repeat split; auto; intros; apply H3; lra.
  - intros ((H1 & H2 & H3) & (H4 & H5 & H6)). repeat split; auto. intros u Hu.
    destruct (Rtotal_order u t) as [Hl|[->|Hl]]; auto. apply H3; lra. apply H6; lra.
Qed.

Theorem sample_has a b x t f : tube_ok a b x -> a <= t <= b -> (has (sample t x) f <-> has x f).
Proof.
  intros H Ht. destruct (sample_shape x a b t) as [->|(l1 & s & l2 & -> & H2 & ->)]; try apply H; auto; [tauto|].
  rewrite !has_app, !has_cons. rewrite (slice_split_has t s f H2). tauto.
Qed.

(** ** time_to_index / slice(t) *)
Lemma slice_find_index : forall x t, x <> [] -> slice_find t x = nth_error x (time_to_index t x).
Proof.
  induction x as [|s r IH]; intros t Hne; [congruence|]. simpl.
  destruct (Rltb t (s_ub s)); auto. destruct r as [|s2 r]; auto. rewrite IH by discriminate. reflexivity.
Qed.
Lemma slice_find_spec : forall x a b t, chain_from a x b -> x <> [] -> a <= t <= b ->
  exists s, slice_find t x = Some s /\ List.In s x /\ s_lb s <= t <= s_ub s /\ (t = s_ub s -> t = b).
Proof.
  induction x as [|s r IH]; intros a b t Hc Hne Ht; [congruence|].
  simpl in Hc. destruct Hc as (Ha & Hlt & Hc). simpl.
  destruct (Rltb t (s_ub s)) eqn:E.
  - apply Rltb_true in E. exists s. repeat split; auto; lra.
  - apply Rltb_false in E. destruct r as [|s2 r].
    + simpl in Hc. exists s. repeat split; auto; lra.
    + destruct (IH (s_ub s) b t) as (s' & H1 & H2 & H3 & H4); auto; [discriminate|lra|].
      exists s'. repeat split; auto; lra.
Qed.
Lemma in_tdomain_true x a b t : chain_from a x b -> x <> [] -> (in_tdomain x t = true <-> a <= t <= b).
Proof.
  intros Hc Hne. unfold in_tdomain. rewrite (chain_t0 _ _ _ Hc Hne), (chain_tf _ _ _ Hc Hne).
  destruct x; [congruence|]. rewrite andb_true_iff, !Rleb_true. tauto.
Qed.

(** ** C04 evaluation *)
Theorem eval_t_in a b x f t : tube_ok a b x -> has x f -> In (f t) (eval_t x t).
Proof.
  intros H Hf. unfold eval_t, slice_at. destruct (in_tdomain x t) eqn:E; [|apply In_ALL].
  rewrite (in_tdomain_true x a b) in E by apply H.
  destruct (slice_find_spec x a b t) as (s & -> & H2 & H3 & H4); try apply H; auto.
  specialize (Hf _ H2). destruct Hf as (F1 & F2 & F3). unfold slice_eval.
  destruct (negb _); [apply In_ALL|]. destruct (Reqb t (s_lb s)) eqn:E1.
  { apply Reqb_true in E1; subst; auto. }
  destruct (Reqb t (s_ub s)) eqn:E2. { apply Reqb_true in E2; subst; auto. }
  apply Reqb_false in E1. apply Reqb_false in E2. apply F3; lra.
Qed.
