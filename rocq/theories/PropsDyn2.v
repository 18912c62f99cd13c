(** * Properties of [CtcDelay] (C22) and [CtcStatic] (C23) *)
From Coq Require Import Reals Lra Bool List Arith Lia.
From Verif Require Import Itv Arith Tube TubeSpec TubeFacts TubeOps TubeOpsFacts TubeOpsFacts2
  TubeQueries TubeQueries2 TubeCtc Concrete DynSpec CtcDeriv CtcDerivFacts CtcEvalFacts CtcDelay.
Import ListNotations.
Open Scope R_scope.
Local Arguments seq : simpl never.

Lemma F2_impl {A B} (P Q : A -> B -> Prop) l m : (forall x y, P x y -> Q x y) -> Forall2 P l m -> Forall2 Q l m.
Proof. intros H. induction 1; constructor; auto. Qed.

(** ** C22 *)
Section Delay.
  Variables (sh bk : itv -> itv -> itv) (sigma : R -> R) (a0 xa xb ya yb : R) (y : tube) (f g : R -> R).
  Hypothesis Hsh : forall t d a, In t d -> In a0 a -> In (sigma t) (sh d a).
  Hypothesis Hbk : forall t i d, In (sigma t) i -> In t d -> In a0 (bk i d).
  Hypothesis Hs : forall t t', t < t' -> sigma t < sigma t'.
  Hypothesis Hy : tube_ok ya yb y.
  Hypothesis Hg : has y g.
  Hypothesis Hfg : forall t, xa <= t <= xb -> ya <= sigma t <= yb -> f t = g (sigma t).

  Lemma delay_eval t i : xa <= t <= xb -> In (sigma t) i -> In (f t) (eval_itv y i).
  Proof.
    intros Ht Hi. destruct (Rle_dec ya (sigma t)) as [H1|H1]; [destruct (Rle_dec (sigma t) yb) as [H2|H2]|].
    - rewrite Hfg by lra. apply (eval_itv_in ya yb); auto.
    - destruct i as [|[u|] [v|]]; cbn in Hi; try contradiction; try apply In_ALL.
      unfold eval_itv. rewrite (chain_t0 y ya yb), (chain_tf y ya yb) by apply Hy.
      rewrite (proj2 (Rltb_true yb v)) by lra. rewrite orb_true_r. apply In_ALL.
    - destruct i as [|[u|] [v|]]; cbn in Hi; try contradiction; try apply In_ALL.
      unfold eval_itv. rewrite (chain_t0 y ya yb), (chain_tf y ya yb) by apply Hy.
      rewrite (proj2 (Rltb_true u ya)) by lra. apply In_ALL.
  Qed.
  Lemma delay_invert t t' z i : xa <= t <= xb -> In (sigma t) i -> In (sigma t') i -> t < t' -> In (f t) z -> In (sigma t) (invert y z i).
  Proof.
    intros Ht Hi Hi' Hlt Hz. pose proof (Hs t t' Hlt) as Hlt'.
    destruct i as [|[u|] [v|]]; cbn in Hi, Hi'; try contradiction; try apply In_ALL.
    destruct (Rle_dec ya (sigma t)) as [H1|H1]; [destruct (Rle_dec (sigma t) yb) as [H2|H2]|].
    - apply (invert_in ya yb y g); auto; try lra. rewrite <- Hfg by lra. auto.
    - unfold invert. rewrite (chain_t0 y ya yb), (chain_tf y ya yb) by apply Hy.
      rewrite (proj2 (Rltb_true yb v)) by lra. rewrite orb_true_r. apply In_ALL.
    - unfold invert. rewrite (chain_t0 y ya yb), (chain_tf y ya yb) by apply Hy.
      rewrite (proj2 (Rltb_true u ya)) by lra. apply In_ALL.
  Qed.
  Lemma slice_not_empty s h : slice_ok s -> s_lb s < s_ub s -> slice_has s h -> slice_is_empty s = false.
  Proof.
    intros Ok Hlt H. pose proof (slice_has_closed s h Ok H) as HC. destruct H as (H1 & H2 & _). unfold slice_is_empty.
    rewrite (not_emp _ _ H1), (not_emp _ _ H2), (not_emp _ _ (HC (s_lb s) (conj (Rle_refl _) (Rlt_le _ _ Hlt)))). reflexivity.
  Qed.
  Lemma delay_slice_sound k a x : tube_ok xa xb x -> has x f -> In a0 a -> (k < length x)%nat ->
    exists a' x', delay_slice sh bk y k a x = Some (a', x') /\ In a0 a' /\ tube_ok xa xb x' /\ has x' f /\ length x' = length x.
  Proof.
    intros Hx Hf Ha Hk. unfold delay_slice.
    destruct (nth_error x k) as [s|] eqn:E; [|apply nth_error_None in E; lia].
    assert (List.In s x) as Hin by (eapply nth_error_In; eauto).
    pose proof (ok_in _ _ _ _ Hx Hin) as Ok. pose proof (Hf s Hin) as Hfs.
    destruct (chain_in_bounds _ _ _ _ (ok_chain _ _ _ Hx) Hin) as (G1 & G2 & G3).
    pose proof (slice_has_closed s f Ok Hfs) as HC.
    set (d := s_dom s).
    assert (forall t, s_lb s <= t <= s_ub s -> In t d) as Hd by (intros; unfold d; cbn; lra).
    set (r := if is_interior_subset _ _ then _ else _).
    assert (exists a1 sy1, r = (a1, sy1, false) /\ In a0 a1 /\ forall t, s_lb s <= t <= s_ub s -> In (f t) sy1) as (a1 & sy1 & -> & Ha1 & Hsy).
    { assert (forall t, s_lb s <= t <= s_ub s -> In (f t) (eval_itv y (sh d a))) as Hev.
      { intros t Ht. apply delay_eval; [lra|]. apply Hsh; auto. }
      unfold r. destruct (is_interior_subset _ _); [eauto|].
      set (a1 := inter a _). assert (In a0 a1) as Ha1.
      { apply In_inter. split; auto. apply (Hbk (s_lb s)); [|apply Hd; lra].
        apply (delay_invert (s_lb s) (s_ub s)); try lra; try (apply Hsh; auto; apply Hd; lra). apply HC; lra. }
      destruct (diam_lt a1 a); [|eauto]. rewrite (not_emp _ _ Ha1). exists a1. eexists. split; [reflexivity|]. split; auto.
      intros t Ht. apply delay_eval; [lra|]. apply Hsh; auto. }
    set (x1 := set_envelope k _ true x).
    assert (tube_ok xa xb x1) as O1 by (apply set_envelope_ok; auto using wf_inter).
    assert (has x1 f) as H1.
    { apply (set_envelope_has xa xb x k s); auto. intros t Ht. apply In_inter. split; [apply HC; lra|auto]. }
    assert (map dom x1 = map dom x) as D1 by apply set_envelope_dom.
    destruct (nth_dom x x1 k s (eq_sym D1) E) as (s1 & E1 & L1 & U1). rewrite E1.
    set (x2 := set_input_gate k _ true x1).
    assert (tube_ok xa xb x2) as O2 by (apply set_input_gate_ok; auto using wf_inter).
    assert (has x2 f) as H2.
    { apply (set_input_gate_has xa xb x1 k s1); auto. apply In_inter. split.
      - apply (H1 s1). eapply nth_error_In; eauto.
      - rewrite L1. apply delay_eval; [lra|]. apply Hsh; auto. apply In_pt; auto. }
    assert (map dom x2 = map dom x1) as D2 by apply put_gate_dom.
    destruct (nth_dom x1 x2 k s1 (eq_sym D2) E1) as (s2 & E2 & L2 & U2). rewrite E2.
    set (x3 := set_output_gate k _ true x2).
    assert (tube_ok xa xb x3) as O3 by (apply set_output_gate_ok; auto using wf_inter).
    assert (has x3 f) as H3.
    { apply (set_output_gate_has xa xb x2 k s2); auto. apply In_inter. split.
      - apply (H2 s2). eapply nth_error_In; eauto.
      - rewrite U2, U1. apply delay_eval; [lra|]. apply Hsh; auto. apply In_pt; auto. }
    assert (map dom x3 = map dom x2) as D3 by apply put_gate_dom.
    destruct (nth_dom x2 x3 k s2 (eq_sym D3) E2) as (s3 & E3 & L3 & U3). rewrite E3.
    assert (List.In s3 x3) as Hin3 by (eapply nth_error_In; eauto).
    rewrite (slice_not_empty s3 f); [|exact (ok_in _ _ _ _ O3 Hin3)|lra|apply H3; auto].
    exists a1, x3. split; [reflexivity|]. split; [auto|]. split; [auto|]. split; [auto|].
    apply length_dom. congruence.
  Qed.
  Lemma delay_loop_sound n : forall k a x, tube_ok xa xb x -> has x f -> In a0 a -> (k + n = length x)%nat ->
    exists a' x', delay_loop sh bk y n k a x = Some (a', x') /\ In a0 a' /\ tube_ok xa xb x' /\ has x' f.
  Proof.
    induction n as [|n IH]; intros k a x Hx Hf Ha Hk; cbn [delay_loop]; [eauto 6|].
    destruct (delay_slice_sound k a x) as (a' & x' & -> & Ha' & Hx' & Hf' & Hl); auto; [lia|]. apply IH; auto. lia.
  Qed.
End Delay.

(** the constraint: [f(t) = g(t+a)] whenever both instants are in the temporal domains *)
Definition delayed (xa xb ya yb a : R) (f g : R -> R) : Prop :=
  forall t, xa <= t <= xb -> ya <= t + a <= yb -> f t = g (t + a).

Theorem C22_no_loss : forall A xa xb ya yb a x y a0 f g, arith_ok A -> tube_ok xa xb x -> tube_ok ya yb y ->
  In a0 a -> has x f -> has y g -> delayed xa xb ya yb a0 f g ->
  let '(a', x', y') := ctc_delay A a x y in In a0 a' /\ has x' f /\ has y' g.
Proof.
  intros A xa xb ya yb a x y a0 f g HA Hx Hy Ha Hf Hg HD. unfold ctc_delay.
  rewrite (not_emp _ _ Ha), (ok_not_empty xa xb x f), (ok_not_empty ya yb y g) by auto. cbn [orb].
  destruct (delay_loop_sound (iadd A) (fun ty tx => isub A ty tx) (fun t => t + a0) a0 xa xb ya yb y f g) with
    (n := length x) (k := 0%nat) (a := a) (x := x) as (a1 & x1 & -> & Ha1 & Hx1 & Hf1); auto.
  { intros t d a' Ht Ha'. apply iadd_in; auto. }
  { intros t i d H1 H2. replace a0 with ((t + a0) - t) by lra. apply isub_in; auto. }
  { intros; lra. }
  destruct (delay_loop_sound (isub A) (fun tx ty => isub A ty tx) (fun t => t - a0) a0 ya yb xa xb x1 g f) with
    (n := length y) (k := 0%nat) (a := a1) (x := y) as (a2 & y1 & -> & Ha2 & Hy1 & Hg1); auto.
  { intros t d a' Ht Ha'. apply isub_in; auto. }
  { intros t i d H1 H2. replace a0 with (t - (t - a0)) by lra. apply isub_in; auto. }
  { intros; lra. }
  { intros t H1 H2. rewrite (HD (t - a0)) by lra. f_equal. lra. }
  rewrite (not_emp _ _ Ha2), (ok_not_empty xa xb x1 f), (ok_not_empty ya yb y1 g) by auto. cbn [orb]. auto.
Qed.

Lemma tube_set_Emp_tsub x : tsub (tube_set Emp x) x.
Proof.
  rewrite tube_set_eq by exact I. unfold tsub. induction x as [|s x IH]; cbn; [constructor|].
  constructor; auto. split; [reflexivity|]. split; [reflexivity|]. cbn. auto using sub_Emp.
Qed.
Lemma tube_set_Emp_dom x x' : map dom x = map dom x' -> tube_set Emp x = tube_set Emp x'.
Proof.
  intros D. rewrite !tube_set_eq by exact I. revert x' D. induction x as [|s x IH]; intros [|s' x'] D; cbn in *; try discriminate; auto.
  injection D as D1 D2 D3. rewrite D1, D2, (IH x'); auto.
Qed.
Lemma delay_slice_sub sh bk y k a x a' x' xa xb : tube_ok xa xb x -> delay_slice sh bk y k a x = Some (a', x') ->
  sub a' a /\ tsub x' x /\ tube_ok xa xb x'.
Proof.
  intros Hx. unfold delay_slice. destruct (nth_error x k) as [s|] eqn:E.
  2:{ intros H. inversion H; subst. auto using sub_refl, tsub_refl. }
  set (r := if is_interior_subset _ _ then _ else _). destruct r as [[a1 sy1] stop] eqn:Er.
  assert (sub a1 a) as Ha.
  { unfold r in Er. destruct (is_interior_subset _ _); [inversion Er; subst; apply sub_refl|].
    destruct (diam_lt _ _); [destruct (is_empty _)|]; inversion Er; subst; apply sub_inter_l. }
  clearbody r. destruct stop; [discriminate|].
  set (x1 := set_envelope k _ true x).
  assert (tube_ok xa xb x1) as O1 by (apply set_envelope_ok; auto using wf_inter).
  assert (tsub x1 x) as T1 by (apply (set_envelope_tsub x k s); auto; [apply Hx|apply sub_inter_l]).
  assert (map dom x1 = map dom x) as D1 by apply set_envelope_dom.
  destruct (nth_dom x x1 k s (eq_sym D1) E) as (s1 & E1 & L1 & U1). rewrite E1.
  set (x2 := set_input_gate k _ true x1).
  assert (tube_ok xa xb x2) as O2 by (apply set_input_gate_ok; auto using wf_inter).
  assert (tsub x2 x1) as T2 by (apply (set_input_gate_tsub x1 k s1); auto; [apply O1|apply sub_inter_l]).
  assert (map dom x2 = map dom x1) as D2 by apply put_gate_dom.
  destruct (nth_dom x1 x2 k s1 (eq_sym D2) E1) as (s2 & E2 & L2 & U2). rewrite E2.
  set (x3 := set_output_gate k _ true x2).
  assert (tube_ok xa xb x3) as O3 by (apply set_output_gate_ok; auto using wf_inter).
  assert (tsub x3 x2) as T3 by (apply (set_output_gate_tsub x2 k s2); auto; [apply O2|apply sub_inter_l]).
  destruct (nth_error x3 k) as [s3|]; [destruct (slice_is_empty s3); [discriminate|]|]; intros H; inversion H; subst;
    (split; [auto|split; [|auto]]); (eapply tsub_trans; [exact T3|]; eapply tsub_trans; [exact T2|exact T1]).
Qed.
Lemma delay_loop_sub sh bk y xa xb n : forall k a x a' x', tube_ok xa xb x -> delay_loop sh bk y n k a x = Some (a', x') ->
  sub a' a /\ tsub x' x /\ tube_ok xa xb x'.
Proof.
  induction n as [|n IH]; intros k a x a' x' Hx H; cbn [delay_loop] in H.
  - inversion H; subst. auto using sub_refl, tsub_refl.
  - destruct (delay_slice sh bk y k a x) as [[a1 x1]|] eqn:E; [|discriminate].
    destruct (delay_slice_sub _ _ _ _ _ _ _ _ xa xb Hx E) as (S1 & T1 & O1).
    destruct (IH _ _ _ _ _ O1 H) as (S2 & T2 & O2). split; [eapply sub_trans; eauto|]. split; [eapply tsub_trans; eauto|auto].
Qed.
(** a, x and y only shrink *)
Theorem C22_contracts : forall A xa xb ya yb a x y, tube_ok xa xb x -> tube_ok ya yb y ->
  let '(a', x', y') := ctc_delay A a x y in sub a' a /\ tsub x' x /\ tsub y' y /\ tube_ok xa xb x' /\ tube_ok ya yb y'.
Proof.
  intros A xa xb ya yb a x y Hx Hy. unfold ctc_delay.
  assert (sub Emp a /\ tsub (tube_set Emp x) x /\ tsub (tube_set Emp y) y /\ tube_ok xa xb (tube_set Emp x) /\ tube_ok ya yb (tube_set Emp y)) as HE.
  { split; [apply sub_Emp|]. split; [apply tube_set_Emp_tsub|]. split; [apply tube_set_Emp_tsub|]. split; apply tube_set_ok; auto; exact I. }
  destruct (is_empty a || tube_is_empty x || tube_is_empty y); [exact HE|].
  destruct (delay_loop _ _ y _ _ a x) as [[a1 x1]|] eqn:E1; [|exact HE].
  destruct (delay_loop_sub _ _ _ xa xb _ _ _ _ _ _ Hx E1) as (S1 & T1 & O1).
  destruct (delay_loop _ _ x1 _ _ a1 y) as [[a2 y1]|] eqn:E2; [|exact HE].
  destruct (delay_loop_sub _ _ _ ya yb _ _ _ _ _ _ Hy E2) as (S2 & T2 & O2).
  destruct (is_empty a2 || tube_is_empty x1 || tube_is_empty y1).
  - split; [apply sub_Emp|]. split; [eapply tsub_trans; [apply tube_set_Emp_tsub|exact T1]|].
    split; [eapply tsub_trans; [apply tube_set_Emp_tsub|exact T2]|]. split; apply tube_set_ok; auto; exact I.
  - split; [eapply sub_trans; eauto|]. auto.
Qed.

(** vectors of tubes: the same delay for each component *)
Theorem C22_vector_no_loss : forall A xa xb ya yb a xys a0 fgs, arith_ok A ->
  Forall (fun p => tube_ok xa xb (fst p) /\ tube_ok ya yb (snd p)) xys -> In a0 a ->
  Forall2 (fun p q => has (fst p) (fst q) /\ has (snd p) (snd q) /\ delayed xa xb ya yb a0 (fst q) (snd q)) xys fgs ->
  let '(a', xys') := ctc_delay_vec A a xys in In a0 a' /\ Forall2 (fun p q => has (fst p) (fst q) /\ has (snd p) (snd q)) xys' fgs.
Proof.
  intros A xa xb ya yb a xys a0 fgs HA HO Ha H. unfold ctc_delay_vec.
  assert (forall a xys, In a0 a -> Forall (fun p => tube_ok xa xb (fst p) /\ tube_ok ya yb (snd p)) xys ->
    Forall2 (fun p q => has (fst p) (fst q) /\ has (snd p) (snd q)) xys fgs -> delay_any_empty a xys = false) as NE.
  { clear. intros a xys Ha HO H. unfold delay_any_empty. rewrite (not_emp _ _ Ha). cbn [orb].
    induction H as [|p q xys fgs (H1 & H2) H IH]; cbn; auto. inversion HO as [|? ? (O1 & O2) HO']; subst.
    rewrite (ok_not_empty xa xb (fst p) (fst q)), (ok_not_empty ya yb (snd p) (snd q)) by auto. cbn [orb]. auto. }
  rewrite NE; auto.
  2:{ eapply F2_impl; [|exact H]. cbn. intros ? ? (H1 & H2 & _). auto. }
  assert (let '(a', xys') := delay_comps A a xys in In a0 a' /\ Forall (fun p => tube_ok xa xb (fst p) /\ tube_ok ya yb (snd p)) xys' /\
    Forall2 (fun p q => has (fst p) (fst q) /\ has (snd p) (snd q)) xys' fgs) as R.
  { clear NE. revert a Ha. induction H as [|[x y] [f g] xys fgs (H1 & H2 & H3) H IH]; intros a Ha; cbn [delay_comps]; [auto|].
    inversion HO as [|? ? (O1 & O2) HO']; subst. cbn [fst snd] in *.
    pose proof (C22_no_loss A xa xb ya yb a x y a0 f g HA O1 O2 Ha H1 H2 H3) as R.
    pose proof (C22_contracts A xa xb ya yb a x y O1 O2) as R'.
    destruct (ctc_delay A a x y) as [[a1 x1] y1]. destruct R as (R1 & R2 & R3). destruct R' as (_ & _ & _ & R4 & R5).
    specialize (IH HO' a1 R1). destruct (delay_comps A a1 xys) as [a2 r]. destruct IH as (I1 & I2 & I3). auto. }
  destruct (delay_comps A a xys) as [a' xys']. destruct R as (R1 & R2 & R3). rewrite NE; auto.
Qed.

(** the delay of 1/2 between [fA] and a tube of its delayed version *)
Definition tD : tube := [mkS 0 1 (I2 (-1) 2) (I2 (-1) 1) (I2 0 2); mkS 1 2 (I2 0 3) (I2 0 2) (I2 0 3)].
Definition fD (t : R) : R := t.
Lemma tD_ok : tube_ok 0 2 tD. Proof. tube_ok_tac. Qed.
Lemma tD_fD : has tD fD. Proof. unfold fD. has_tac. Qed.
Lemma delayed_AD : delayed 0 2 0 2 (1/2) fA fD.
Proof. intros t _ _. unfold fA, fD. lra. Qed.
Example C22_example : let '(a', x', y') := ctc_delay exact (I2 0 1) tA tD in In (1/2) a' /\ has x' fA /\ has y' fD /\ sub a' (I2 0 1) /\ tsub x' tA /\ tsub y' tD.
Proof.
  pose proof (C22_no_loss exact 0 2 0 2 (I2 0 1) tA tD (1/2) fA fD exact_ok tA_ok tD_ok) as R1.
  pose proof (C22_contracts exact 0 2 0 2 (I2 0 1) tA tD tA_ok tD_ok) as R2.
  destruct (ctc_delay _ _ _ _) as [[a' x'] y']. destruct R1 as (R & R' & R''); [cbn; lra|exact tA_fA|exact tD_fD|exact delayed_AD|]. tauto.
Qed.

(** ** C23 *)
(** What is expected of the static contractor: it keeps the points of a box that satisfy the
    constraint [P], only contracts, and returns boxes. *)
Definition keeps (P : list R -> Prop) (ctc : list itv -> list itv) : Prop :=
  forall box p, Forall2 In p box -> P p -> Forall2 In p (ctc box).
Definition contracts (ctc : list itv -> list itv) : Prop := forall box, Forall2 sub (ctc box) box.
Definition gives_boxes (ctc : list itv -> list itv) : Prop := forall box, Forall wf box -> Forall wf (ctc box).
(** the point to which the constraint applies at instant [t] *)
Definition point_at (temporal : bool) (fs : list (R -> R)) (t : R) : list R :=
  let v := map (fun f => f t) fs in if temporal then t :: v else v.

Section OnComps.
  Context {B : Type}.
  Lemma on_comps_F2 (I J : tube -> B -> Prop) (Q : itv -> B -> Prop) F : forall xs es bs,
    Forall2 I xs bs -> Forall2 Q es bs -> (forall x e b, I x b -> Q e b -> J (F e x) b) -> Forall2 J (on_comps F es xs) bs.
  Proof.
    intros xs es bs H. revert es. induction H as [|x b xs bs Hx H IH]; intros es HQ HF; inversion HQ; subst; cbn; constructor; eauto.
  Qed.
  Lemma slices_F2 (I : tube -> B -> Prop) (J : slice -> B -> Prop) k : forall xs bs, Forall2 I xs bs ->
    (forall x b, I x b -> exists s, nth_error x k = Some s /\ J s b) -> Forall2 J (slices_at k xs) bs.
  Proof.
    intros xs bs H HI. unfold slices_at. induction H as [|x b xs bs Hx H IH]; cbn; [constructor|].
    destruct (HI x b Hx) as (s & E & Hs). rewrite E. cbn. constructor; auto.
  Qed.
End OnComps.
Lemma F2_swap {A B} (P : A -> B -> Prop) l m : Forall2 P l m -> Forall2 (fun b a => P a b) m l.
Proof. induction 1; constructor; auto. Qed.
Lemma F2_and {A B} (P Q : A -> B -> Prop) l m : Forall2 P l m -> Forall2 Q l m -> Forall2 (fun a b => P a b /\ Q a b) l m.
Proof. induction 1; intros H1; inversion H1; subst; constructor; auto. Qed.
Lemma F2_wf {A B} (P : A -> Prop) (l : list A) (m : list B) : length l = length m -> Forall P l -> Forall2 (fun a _ => P a) l m.
Proof. revert m. induction l; intros [|b m] E H; cbn in E; try discriminate; inversion H; subst; constructor; auto. Qed.
Lemma F2_len {A B} (P : A -> B -> Prop) l m : Forall2 P l m -> length l = length m.
Proof. induction 1; cbn; auto. Qed.
Lemma F2_all (T : R -> Prop) t1 fs : T t1 -> forall es, (forall t, T t -> Forall2 In (map (fun f => f t) fs) es) ->
  Forall2 (fun e (f : R -> R) => forall t, T t -> In (f t) e) es fs.
Proof.
  intros Ht. induction fs as [|f fs IH]; intros es H.
  - pose proof (H t1 Ht) as H1. inversion H1; subst. constructor.
  - pose proof (H t1 Ht) as H1. cbn in H1. inversion H1 as [|? e ? es' Hh Htl]; subst. constructor.
    + intros t Hti. specialize (H t Hti). inversion H; auto.
    + apply IH. intros t Hti. specialize (H t Hti). inversion H; auto.
Qed.

Section Static.
  Variables (ctc : list itv -> list itv) (temporal : bool) (rt : itv) (a b : R) (D : list (R * R)).
  Hypothesis Hw : gives_boxes ctc.

  (** contraction of a box of slices, with or without time, at the instants [T] *)
  Lemma ctc_vals P fs tt box (T : R -> Prop) t1 : keeps P ctc -> T t1 -> (forall t, T t -> In t tt) -> wf tt -> Forall wf box ->
    (forall t, T t -> P (point_at temporal fs t)) ->
    Forall2 (fun e (f : R -> R) => forall t, T t -> In (f t) e) box fs ->
    let r := without_time temporal (ctc (with_time temporal tt box)) in
    Forall2 (fun e (f : R -> R) => wf e /\ forall t, T t -> In (f t) e) r fs.
  Proof.
    intros HK Ht1 Htt Wt Wb HP HB r.
    assert (forall t, T t -> Forall2 In (map (fun f => f t) fs) r) as HR.
    { intros t Ht. assert (Forall2 In (map (fun f => f t) fs) box) as Hbox.
      { clear - HB Ht. induction HB; cbn; constructor; auto. }
      unfold r, with_time, without_time. specialize (HP t Ht). unfold point_at in HP. destruct temporal.
      - assert (Forall2 In (t :: map (fun f => f t) fs) (ctc (tt :: box))) as H by (apply HK; auto).
        inversion H; subst; auto.
      - apply HK; auto. }
    assert (Forall wf r) as Wr.
    { unfold r, with_time, without_time. destruct temporal.
      - assert (Forall wf (ctc (tt :: box))) as H by (apply Hw; constructor; auto). destruct (ctc (tt :: box)); [constructor|inversion H; auto].
      - apply Hw; auto. }
    pose proof (F2_all T t1 fs Ht1 r HR) as H1.
    apply F2_and; auto. apply F2_wf; auto. eapply F2_len; eauto.
  Qed.

  Definition sinv (x : tube) (f : R -> R) : Prop := tube_ok a b x /\ map dom x = D /\ has x f.
  Lemma sinv_nth k x f l u : nth_error D k = Some (l, u) -> sinv x f ->
    exists s, nth_error x k = Some s /\ slice_ok s /\ slice_has s f /\ s_lb s = l /\ s_ub s = u /\ a <= l /\ l < u /\ u <= b.
  Proof.
    intros E (Ho & Hd & Hf). rewrite <- Hd, nth_error_map in E. destruct (nth_error x k) as [s|] eqn:Es; [|discriminate].
    cbn in E. injection E as <- <-. assert (List.In s x) as Hin by (eapply nth_error_In; eauto).
    exists s. split; [auto|]. split; [exact (ok_in _ _ _ _ Ho Hin)|]. split; [auto|].
    destruct (chain_in_bounds _ _ _ _ (ok_chain _ _ _ Ho) Hin). auto.
  Qed.
  Lemma static_slice_sound P fs k last xs l u : keeps P ctc -> (forall t, a <= t <= b -> P (point_at temporal fs t)) ->
    nth_error D k = Some (l, u) -> Forall2 sinv xs fs -> Forall2 sinv (static_slice ctc temporal rt k last xs) fs.
  Proof.
    intros HK HP ED HX. unfold static_slice.
    pose proof (slices_F2 sinv _ k xs fs HX (fun x f H => sinv_nth k x f l u ED H)) as HS.
    destruct (slices_at k xs) as [|s0 ss] eqn:ES; [auto|]. set (S0 := s0 :: ss) in *.
    destruct (negb _); [auto|].
    assert (s_lb s0 = l /\ s_ub s0 = u /\ a <= l /\ l < u /\ u <= b) as (L0 & U0 & B1 & B2 & B3).
    { inversion HS as [|? f ? fs' (_ & _ & H) _]; subst. exact H. }
    assert (Forall2 (fun e (f : R -> R) => wf e /\ forall t, l <= t <= u -> In (f t) e)
      (without_time temporal (ctc (with_time temporal (s_dom s0) (map s_cod S0)))) fs) as HEnv.
    { apply (ctc_vals P fs (s_dom s0) (map s_cod S0) (fun t => l <= t <= u) l); auto; try lra.
      - intros t Ht. cbn. lra.
      - cbn. lra.
      - apply Forall_map. clear - HS. induction HS as [|s f ? ? ((W & _) & _) _ IH]; constructor; auto.
      - intros t Ht. apply HP. lra.
      - clear - HS. induction HS as [|s f ? ? (O1 & O2 & O3 & O4 & _) _ IH]; cbn; constructor; auto.
        intros t Ht. apply (slice_has_closed s f); auto. lra. }
    assert (Forall2 (fun e (f : R -> R) => wf e /\ forall t, t = l -> In (f t) e)
      (without_time temporal (ctc (with_time temporal (pt (s_lb s0)) (map s_in S0)))) fs) as HIn.
    { apply (ctc_vals P fs (pt (s_lb s0)) (map s_in S0) (fun t => t = l) l); auto; try lra.
      - intros t ->. apply In_pt. auto.
      - apply wf_pt.
      - apply Forall_map. clear - HS. induction HS as [|s f ? ? ((_ & W & _) & _) _ IH]; constructor; auto.
      - intros t ->. apply HP. lra.
      - clear - HS. induction HS as [|s f ? ? (O1 & (F & _) & O3 & O4 & _) _ IH]; cbn; constructor; auto.
        intros t ->. rewrite <- O3. exact F. }
    set (env := without_time temporal (ctc (with_time temporal (s_dom s0) _))) in *.
    set (ing := without_time temporal (ctc (with_time temporal (pt (s_lb s0)) _))) in *.
    assert (Forall2 sinv (on_comps (fun e x => set_envelope k e true x) env xs) fs) as H1.
    { refine (on_comps_F2 sinv sinv _ _ xs env fs HX HEnv _). intros x e f HI (We & He).
      destruct (sinv_nth k x f l u ED HI) as (s & E & _ & _ & L & U & _). destruct HI as (Ho & Hd & Hf).
      split; [apply set_envelope_ok; auto|]. split; [rewrite set_envelope_dom; auto|].
      apply (set_envelope_has a b x k s); auto. intros t Ht. apply He. lra. }
    set (xs1 := on_comps _ env xs) in *.
    assert (Forall2 sinv (on_comps (fun g x => set_input_gate k g true x) ing xs1) fs) as H2.
    { refine (on_comps_F2 sinv sinv _ _ xs1 ing fs H1 HIn _). intros x e f HI (We & He).
      destruct (sinv_nth k x f l u ED HI) as (s & E & _ & _ & L & U & _). destruct HI as (Ho & Hd & Hf).
      split; [apply set_input_gate_ok; auto|]. split; [unfold set_input_gate; rewrite put_gate_dom; auto|].
      apply (set_input_gate_has a b x k s); auto. }
    set (xs2 := on_comps _ ing xs1) in *.
    destruct last; auto.
    pose proof (slices_F2 sinv _ k xs2 fs H2 (fun x f H => sinv_nth k x f l u ED H)) as HS2.
    assert (Forall2 (fun e (f : R -> R) => wf e /\ forall t, t = u -> In (f t) e)
      (without_time temporal (ctc (with_time temporal (pt (s_ub s0)) (map s_out (slices_at k xs2))))) fs) as HOut.
    { apply (ctc_vals P fs (pt (s_ub s0)) (map s_out (slices_at k xs2)) (fun t => t = u) u); auto; try lra.
      - intros t ->. apply In_pt. auto.
      - apply wf_pt.
      - apply Forall_map. clear - HS2. induction HS2 as [|s f ? ? ((_ & _ & W & _) & _) _ IH]; constructor; auto.
      - intros t ->. apply HP. lra.
      - clear - HS2. induction HS2 as [|s f ? ? (O1 & (_ & F & _) & O3 & O4 & _) _ IH]; cbn; constructor; auto.
        intros t ->. rewrite <- O4. exact F. }
    refine (on_comps_F2 sinv sinv _ (fun g x => set_output_gate k g true x) xs2 _ fs H2 HOut _). intros x e f HI (We & He).
    destruct (sinv_nth k x f l u ED HI) as (s & E & _ & _ & L & U & _). destruct HI as (Ho & Hd & Hf).
    split; [apply set_output_gate_ok; auto|]. split; [unfold set_output_gate; rewrite put_gate_dom; auto|].
    apply (set_output_gate_has a b x k s); auto.
  Qed.
End Static.

Theorem C23_no_loss : forall P ctc temporal rt a b xs fs, keeps P ctc -> gives_boxes ctc ->
  Forall (tube_ok a b) xs -> (forall x x', List.In x xs -> List.In x' xs -> map dom x = map dom x') ->
  Forall2 has xs fs -> (forall t, a <= t <= b -> P (point_at temporal fs t)) ->
  Forall2 has (ctc_static ctc temporal rt xs) fs.
Proof.
  intros P ctc temporal rt a b xs fs HK HW HO HD HH HP. unfold ctc_static. destruct xs as [|x0 xs]; [auto|].
  set (D := map dom x0). assert (Forall2 (sinv a b D) (x0 :: xs) fs) as HI.
  { assert (Forall2 (fun x _ => tube_ok a b x /\ map dom x = D) (x0 :: xs) fs) as H.
    { apply F2_wf; [eapply F2_len; eauto|]. apply Forall_forall. intros x Hx. rewrite Forall_forall in HO. split; auto. apply HD; auto. left; auto. }
    eapply F2_impl; [|exact (F2_and _ _ _ _ H HH)]. cbn. unfold sinv. tauto. }
  assert (forall l ys, (forall k, List.In k l -> (k < length D)%nat) -> Forall2 (sinv a b D) ys fs ->
    Forall2 (sinv a b D) (fold_left (fun xs k => static_slice ctc temporal rt k (Nat.eqb (S k) (length x0)) xs) l ys) fs) as HF.
  { induction l as [|k l IH]; intros ys Hl Hys; cbn; [auto|]. apply IH; [intros; apply Hl; right; auto|].
    destruct (nth_error D k) as [[lo hi]|] eqn:ED.
    - eapply static_slice_sound; eauto.
    - apply nth_error_None in ED. specialize (Hl k (or_introl eq_refl)). lia. }
  assert (Forall2 (sinv a b D) (fold_left (fun xs k => static_slice ctc temporal rt k (Nat.eqb (S k) (length x0)) xs) (seq 0 (length x0)) (x0 :: xs)) fs) as R.
  { apply HF; auto. intros k Hk. apply in_seq in Hk. unfold D. rewrite map_length. lia. }
  eapply F2_impl; [|exact R]. unfold sinv. tauto.
Qed.

(** only contracts *)
Section StaticSub.
  Variables (ctc : list itv -> list itv) (temporal : bool) (rt : itv) (a b : R) (D : list (R * R)).
  Hypothesis Hw : gives_boxes ctc.
  Hypothesis Hc : contracts ctc.
  Definition cinv (x x0 : tube) : Prop := tube_ok a b x /\ tube_ok a b x0 /\ map dom x = D /\ trel sub x x0.
  Lemma ctc_subs tt box : wf tt -> Forall wf box -> Forall2 (fun e i => wf e /\ sub e i) (without_time temporal (ctc (with_time temporal tt box))) box.
  Proof.
    intros Wt Wb. apply F2_and.
    - unfold with_time, without_time. destruct temporal.
      + pose proof (Hc (tt :: box)) as H. pose proof (Hw (tt :: box) (Forall_cons _ Wt Wb)) as W. inversion H as [|? ? ? l' H1 H2 H3]. rewrite <- H3 in W.
        cbn. inversion W; subst. apply F2_wf; auto. eapply F2_len; eauto.
      + apply F2_wf; [eapply F2_len; apply Hc|auto].
    - unfold with_time, without_time. destruct temporal; [|apply Hc]. pose proof (Hc (tt :: box)) as H. inversion H; subst. auto.
  Qed.
  Lemma cinv_nth k x x0 l u : nth_error D k = Some (l, u) -> cinv x x0 ->
    exists s, nth_error x k = Some s /\ slice_ok s /\ s_lb s = l /\ s_ub s = u /\ l < u /\
      exists s0, nth_error x0 k = Some s0 /\ srel sub s s0.
  Proof.
    intros E (Ho & Ho0 & Hd & Ht). rewrite <- Hd, nth_error_map in E. destruct (nth_error x k) as [s|] eqn:Es; [|discriminate].
    cbn in E. injection E as <- <-. assert (List.In s x) as Hin by (eapply nth_error_In; eauto).
    exists s. split; [auto|]. split; [exact (ok_in _ _ _ _ Ho Hin)|].
    destruct (chain_in_bounds _ _ _ _ (ok_chain _ _ _ Ho) Hin) as (_ & H & _). split; [auto|]. split; [auto|]. split; [auto|].
    destruct Ht as [Hl Ht]. destruct (nth_error x0 k) as [s0|] eqn:E0; [eauto|].
    apply nth_error_None in E0. assert (k < length x)%nat by (apply nth_error_Some; congruence). lia.
  Qed.
  Lemma map_F2 {A B C} (g : A -> C) (P : A -> B -> Prop) (Q : itv -> C -> Prop) : forall l es m, Forall2 P l m -> Forall2 Q es (map g l) ->
    Forall2 (fun e y => exists x, P x y /\ Q e (g x)) es m.
  Proof.
    intros l es m H. revert es. induction H; intros es HQ; cbn in HQ; inversion HQ; subst; constructor; eauto.
  Qed.
  Lemma static_slice_sub k last xs xs0 l u : nth_error D k = Some (l, u) -> Forall2 cinv xs xs0 ->
    Forall2 cinv (static_slice ctc temporal rt k last xs) xs0.
  Proof.
    intros ED HX. unfold static_slice.
    pose proof (slices_F2 cinv _ k xs xs0 HX (fun x f H => cinv_nth k x f l u ED H)) as HS.
    destruct (slices_at k xs) as [|s0 ss] eqn:ES; [auto|]. set (S0 := s0 :: ss) in *.
    destruct (negb _); [auto|].
    assert (s_lb s0 = l /\ s_ub s0 = u /\ l < u) as (L0 & U0 & B2).
    { inversion HS as [|? f ? fs' (_ & H1 & H2 & H3 & _) _]; subst. auto. }
    set (env := without_time temporal (ctc (with_time temporal (s_dom s0) _))) in *.
    set (ing := without_time temporal (ctc (with_time temporal (pt (s_lb s0)) _))) in *.
    assert (Forall2 (fun e x0 => wf e /\ exists q, nth_error x0 k = Some q /\ sub e (s_cod q)) env xs0) as HEnv.
    { assert (Forall wf (map s_cod S0)) as W by (apply Forall_map; clear - HS; induction HS as [|s f ? ? ((W & _) & _) _ IH]; constructor; auto).
      pose proof (map_F2 s_cod _ _ _ _ _ HS (ctc_subs (s_dom s0) (map s_cod S0) ltac:(cbn; lra) W)) as H.
      eapply F2_impl; [|exact H]. cbn. intros e x0 (s & (_ & _ & _ & _ & q & Eq & R) & We & He). split; auto. exists q. split; auto.
      eapply sub_trans; [exact He|]. apply R. }
    assert (Forall2 (fun e x0 => wf e /\ exists q, nth_error x0 k = Some q /\ sub e (s_in q)) ing xs0) as HIn.
    { assert (Forall wf (map s_in S0)) as W by (apply Forall_map; clear - HS; induction HS as [|s f ? ? ((_ & W & _) & _) _ IH]; constructor; auto).
      pose proof (map_F2 s_in _ _ _ _ _ HS (ctc_subs (pt (s_lb s0)) (map s_in S0) (wf_pt _) W)) as H.
      eapply F2_impl; [|exact H]. cbn. intros e x0 (s & (_ & _ & _ & _ & q & Eq & R) & We & He). split; auto. exists q. split; auto.
      eapply sub_trans; [exact He|]. apply R. }
    assert (Forall2 cinv (on_comps (fun e x => set_envelope k e true x) env xs) xs0) as H1.
    { refine (on_comps_F2 cinv cinv _ _ xs env xs0 HX HEnv _). intros x e x0 (Ho & Ho0 & Hd & Ht) (We & q & Eq & He).
      split; [apply set_envelope_ok; auto|]. split; [auto|]. split; [rewrite set_envelope_dom; auto|].
      apply (trel_set_envelope sub x x0 k q); auto; [apply downward_sub|apply Ho0]. }
    set (xs1 := on_comps _ env xs) in *.
    assert (Forall2 cinv (on_comps (fun g x => set_input_gate k g true x) ing xs1) xs0) as H2.
    { refine (on_comps_F2 cinv cinv _ _ xs1 ing xs0 H1 HIn _). intros x e x0 (Ho & Ho0 & Hd & Ht) (We & q & Eq & He).
      split; [apply set_input_gate_ok; auto|]. split; [auto|]. split; [unfold set_input_gate; rewrite put_gate_dom; auto|].
      apply (trel_set_input_gate sub x x0 k q); auto; [apply downward_sub|apply Ho0]. }
    set (xs2 := on_comps _ ing xs1) in *. destruct last; auto.
    pose proof (slices_F2 cinv _ k xs2 xs0 H2 (fun x f H => cinv_nth k x f l u ED H)) as HS2.
    assert (Forall2 (fun e x0 => wf e /\ exists q, nth_error x0 k = Some q /\ sub e (s_out q))
      (without_time temporal (ctc (with_time temporal (pt (s_ub s0)) (map s_out (slices_at k xs2))))) xs0) as HOut.
    { assert (Forall wf (map s_out (slices_at k xs2))) as W by (apply Forall_map; clear - HS2; induction HS2 as [|s f ? ? ((_ & _ & W & _) & _) _ IH]; constructor; auto).
      pose proof (map_F2 s_out _ _ _ _ _ HS2 (ctc_subs (pt (s_ub s0)) _ (wf_pt _) W)) as H.
      eapply F2_impl; [|exact H]. cbn. intros e x0 (s & (_ & _ & _ & _ & q & Eq & R) & We & He). split; auto. exists q. split; auto.
      eapply sub_trans; [exact He|]. apply R. }
    refine (on_comps_F2 cinv cinv _ (fun g x => set_output_gate k g true x) xs2 _ xs0 H2 HOut _). intros x e x0 (Ho & Ho0 & Hd & Ht) (We & q & Eq & He).
    split; [apply set_output_gate_ok; auto|]. split; [auto|]. split; [unfold set_output_gate; rewrite put_gate_dom; auto|].
    apply (trel_set_output_gate sub x x0 k q); auto; [apply downward_sub|apply Ho0].
  Qed.
End StaticSub.
Theorem C23_contracts : forall ctc temporal rt a b xs, contracts ctc -> gives_boxes ctc -> Forall (tube_ok a b) xs ->
  (forall x x', List.In x xs -> List.In x' xs -> map dom x = map dom x') ->
  Forall2 tsub (ctc_static ctc temporal rt xs) xs /\ Forall (tube_ok a b) (ctc_static ctc temporal rt xs).
Proof.
  intros ctc temporal rt a b xs HC HW HO HD. unfold ctc_static. destruct xs as [|x0 xs]; [split; constructor|].
  set (D := map dom x0). assert (Forall2 (cinv a b D) (x0 :: xs) (x0 :: xs)) as HI.
  { assert (forall l, (forall x, List.In x l -> List.In x (x0 :: xs)) -> Forall2 (cinv a b D) l l) as H; [|apply H; auto].
    induction l as [|x l IH]; intros Hl; constructor; [|apply IH; intros; apply Hl; right; auto].
    rewrite Forall_forall in HO. assert (List.In x (x0 :: xs)) as Hx by (apply Hl; left; auto).
    split; [auto|]. split; [auto|]. split; [apply HD; [auto|left; auto]|]. apply trel_refl. apply sub_refl. }
  assert (forall l ys, (forall k, List.In k l -> (k < length D)%nat) -> Forall2 (cinv a b D) ys (x0 :: xs) ->
    Forall2 (cinv a b D) (fold_left (fun xs k => static_slice ctc temporal rt k (Nat.eqb (S k) (length x0)) xs) l ys) (x0 :: xs)) as HF.
  { induction l as [|k l IH]; intros ys Hl Hys; cbn; [auto|]. apply IH; [intros; apply Hl; right; auto|].
    destruct (nth_error D k) as [[lo hi]|] eqn:ED.
    - eapply static_slice_sub; eauto.
    - apply nth_error_None in ED. specialize (Hl k (or_introl eq_refl)). lia. }
  assert (Forall2 (cinv a b D) (fold_left (fun xs k => static_slice ctc temporal rt k (Nat.eqb (S k) (length x0)) xs) (seq 0 (length x0)) (x0 :: xs)) (x0 :: xs)) as R.
  { apply HF; auto. intros k Hk. apply in_seq in Hk. unfold D. rewrite map_length. lia. }
  split.
  - eapply F2_impl; [|exact R]. intros x y (_ & _ & _ & H). apply trel_tsub; auto.
  - assert (forall l m, Forall2 (cinv a b D) l m -> Forall (tube_ok a b) l) as HH by (induction 1 as [|x y l m (H & _) _ IH]; constructor; auto).
    eapply HH, R.
Qed.

(** the constraint "first component <= second component", kept by a contractor on the upper bounds *)
Definition ctc_ge (box : list itv) : list itv :=
  match box with
  | [x; y] => [match ubound y with Some u => inter x (Itv None (Some u)) | None => x end; y]
  | _ => box
  end.
Definition le2 (p : list R) : Prop := match p with [x; y] => x <= y | _ => True end.
Lemma ctc_ge_keeps : keeps le2 ctc_ge.
Proof.
  intros box p H HP. destruct H as [|x i p box Hx H]; [constructor|]. destruct H as [|y j p box Hy H]; [repeat constructor; auto|].
  destruct H; [|cbn; repeat constructor; auto]. cbn. constructor; [|repeat constructor; auto].
  destruct j as [|l [h|]]; cbn; auto. apply In_inter. split; auto. cbn in *. destruct Hy. split; [auto|lra].
Qed.
Lemma ctc_ge_contracts : contracts ctc_ge.
Proof.
  intros box. assert (forall l, Forall2 sub l l) as HR by (induction l; constructor; auto using sub_refl).
  destruct box as [|x [|y [|z box]]]; try apply HR. cbn. constructor; [|apply HR].
  destruct (ubound y); [apply sub_inter_l|apply sub_refl].
Qed.
Lemma ctc_ge_boxes : gives_boxes ctc_ge.
Proof.
  intros box H. destruct box as [|x [|y [|z box]]]; auto. cbn. inversion H; subst. constructor; auto. destruct (ubound y); auto using wf_inter.
Qed.
Definition tU : tube := [mkS 0 1 (I2 0 9) (I2 0 9) (I2 0 9); mkS 1 2 (I2 0 9) (I2 0 9) (I2 0 9)].
Lemma tU_ok : tube_ok 0 2 tU. Proof. tube_ok_tac. Qed.
Lemma tU_fA : has tU fA. Proof. unfold fA. has_tac. Qed.
Example C23_example : Forall2 has (ctc_static ctc_ge false ALL [tU; tA]) [fA; fA] /\ Forall2 tsub (ctc_static ctc_ge false ALL [tU; tA]) [tU; tA].
Proof.
  assert (Forall (tube_ok 0 2) [tU; tA]) as HO by (apply Forall_cons; [exact tU_ok|apply Forall_cons; [exact tA_ok|apply Forall_nil]]).
  assert (forall x x', List.In x [tU; tA] -> List.In x' [tU; tA] -> map dom x = map dom x') as HD.
  { intros x y [ <- | [ <- | [] ] ] [ <- | [ <- | [] ] ]; reflexivity. }
  split.
  - apply (C23_no_loss le2 ctc_ge false ALL 0 2); auto using ctc_ge_keeps, ctc_ge_boxes.
    + constructor; [exact tU_fA|constructor; [exact tA_fA|constructor]].
    + intros t _. cbn. lra.
  - apply (C23_contracts ctc_ge false ALL 0 2); auto using ctc_ge_contracts, ctc_ge_boxes.
Qed.

Print Assumptions C22_no_loss.
Print Assumptions C22_contracts.
Print Assumptions C22_vector_no_loss.
Print Assumptions C23_no_loss.
Print Assumptions C23_contracts.
