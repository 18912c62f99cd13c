(** * [CtcEval] over an interval of instants: what is kept *)
From Coq Require Import Reals Lra Bool List Arith Lia.
From Verif Require Import Itv Arith Tube TubeSpec TubeFacts TubeOps TubeOpsFacts TubeOpsFacts2
  TubeQueries TubeQueries2 TubeCtc DynSpec CtcDeriv CtcDerivFacts CtcEval CtcEvalFacts CtcEvalFronts.
Import ListNotations.
Open Scope R_scope.
Local Arguments Nat.eqb : simpl never.
Local Arguments seq : simpl never.

(** the intersection of a polygon with a box is given as well-formed intervals *)
Definition pint_wf (pint : slice -> slice -> itv -> itv -> itv * itv) : Prop :=
  forall s sv T Y, wf T -> wf Y -> wf (fst (pint s sv T Y)) /\ wf (snd (pint s sv T Y)).
Lemma pint_box_wf : pint_wf pint_box.
Proof. intros s sv T Y H1 H2. split; auto. Qed.
(** ... and is not reduced to one instant (as is the case with outward rounding) *)
Definition pint_thick (pint : slice -> slice -> itv -> itv -> itv * itv) : Prop :=
  forall s sv T Y p, (exists u v, In u T /\ In v T /\ u < v) -> In p (fst (pint s sv T Y)) ->
    sub (fst (pint s sv T Y)) T /\ exists q, In q (fst (pint s sv T Y)) /\ q <> p.
Lemma pint_box_thick : pint_thick pint_box.
Proof.
  intros s sv T Y p (u & v & Hu & Hv & Huv) Hp. split; [intros r Hr; exact Hr|].
  destruct (Req_EM_T u p) as [->|n]; [exists v; split; auto; lra|exists u; auto].
Qed.

Lemma slice_invert_v_two c s sv y u v p : pint_thick (e_pint c) -> u < v -> s_lb s < v -> u < s_ub s -> s_lb s < s_ub s ->
  In p (slice_invert_v c s sv y (inter (bnd u v) (s_dom s))) -> u <= p <= v ->
  exists q, In q (slice_invert_v c s sv y (inter (bnd u v) (s_dom s))) /\ u <= q <= v /\ q <> p.
Proof.
  intros HP Huv H1 H2 Hs Hp Hpb. rewrite inter_dom in * by (unfold Rmax, Rmin; repeat destruct (Rle_dec _ _); lra).
  set (l := Rmax u (s_lb s)) in *. set (h := Rmin v (s_ub s)) in *.
  assert (l < h /\ u <= l /\ s_lb s <= l /\ h <= v /\ h <= s_ub s) as (Hlh & L1 & L2 & L3 & L4).
  { unfold l, h, Rmax, Rmin; repeat destruct (Rle_dec _ _); lra. }
  set (T := Itv (Some l) (Some h)) in *.
  assert (exists x x', In x T /\ In x' T /\ x < x') as HT by (exists l, h; simpl; lra).
  assert (forall x, In x T -> u <= x <= v) as HTb by (intros x Hx; simpl in Hx; lra).
  assert (exists q, In q T /\ q <> p) as (q0 & Q1 & Q2).
  { destruct (Req_EM_T l p) as [->|n]; [exists h; simpl; lra|exists l; simpl; lra]. }
  unfold slice_invert_v in *. 
  destruct (is_empty T); [destruct Hp|].
  destruct (lb_lt T (s_lb s) || ub_gt T (s_ub s)). { exists q0. split; [apply In_ALL|auto]. }
  destruct (itv_eqb (inter (s_dom s) T) (s_dom s) && is_subset (s_cod s) y).
  { exists q0. split; [simpl in *; lra|auto]. }
  destruct (itv_eqb T (pt (s_lb s))) eqn:E1. { apply itv_eqb_true in E1. unfold T, pt in E1. injection E1 as E1 E2. lra. }
  destruct (itv_eqb T (pt (s_ub s))) eqn:E2. { apply itv_eqb_true in E2. unfold T, pt in E2. injection E2 as E2 E3. lra. }
  destruct (itv_eqb (s_cod sv) ALL).
  - destruct (intersects _ _); [|destruct Hp]. exists q0. split; [apply In_inter; split; [auto|simpl in *; lra]|auto].
  - destruct (HP s sv T y p HT Hp) as [S1 (q & Hq & Hn)]. exists q. auto.
Qed.
Lemma invert_v_two c a b y w f g z u v t : pint_ok (e_pint c) -> pint_thick (e_pint c) -> esol a b y w f g ->
  a <= u -> u < v -> v <= b -> u <= t <= v -> In (f t) z ->
  exists q, In q (invert_v c y w z (bnd u v)) /\ u <= q <= v /\ q <> t.
Proof.
  intros HP HP2 HS Ha Huv Hb Ht Hz. pose proof HS as (Hy & Hw & D & _). unfold invert_v. rewrite bnd_eq by lra.
  rewrite (chain_t0 y a b), (chain_tf y a b) by apply Hy.
  rewrite (proj2 (Rltb_false u a)), (proj2 (Rltb_false b v)) by lra. simpl orb. cbv iota.
  assert (a <= t <= b) as Htb by lra.
  destruct (pick a b y u v t Hy Ha ltac:(lra) Hb Ht (or_introl Huv)) as (k & s & E & Hk & Hl & B).
  destruct (nth_dom y w k s D E) as (sw & Ew & _).
  destruct (esol_slice a b y w f g k s sw HS E Ew) as (Ok & Hs & Wv & Hlt & Hr & _).
  assert (u < s_ub s) as Hus.
  { destruct (idx_spec y a b u) as (s0 & E0 & B0 & B0'); try apply Hy; try lra.
    pose proof (chain_lb_mono y a b _ k s0 s Hy E0 E Hk). 
    destruct (Nat.eq_dec k (time_to_index u y)) as [->|n].
    - rewrite E in E0. injection E0 as <-. lra.
    - pose proof (chain_order y a b _ k s0 s (ok_chain _ _ _ Hy) E0 E ltac:(lia)). lra. }
  destruct (slice_invert_v_two c s sw z u v t) as (q & Hq & Hqb & Hn); auto.
  { apply slice_invert_v_in with (f := f); auto.
    + apply In_inter. split; [apply In_bnd; lra|simpl; lra].
    + apply sub_inter_r. }
  exists q. split; [|auto]. rewrite <- (idx_dom u y w D).
  apply (invert_v_loop_in c z u v q _ _ (k - time_to_index u y)%nat s sw); auto.
  - intros j s' Hj Ej. rewrite nth_error_skipn' in Ej.
    pose proof (chain_lb_mono y a b _ k s' s Hy Ej E ltac:(lia)). lra.
  - rewrite nth_error_skipn'. replace (time_to_index u y + (k - time_to_index u y))%nat with k by lia. auto.
  - rewrite nth_error_skipn'. replace (time_to_index u y + (k - time_to_index u y))%nat with k by lia. auto.
Qed.

Lemma wf_slice_interpol c s sv t : pint_wf (e_pint c) -> slice_ok s -> wf t -> wf (slice_interpol c s sv t).
Proof.
  intros HP Ok Wt. unfold slice_interpol. destruct (_ || _); [exact I|]. destruct (is_subset _ _); [apply Ok|].
  destruct (is_degenerated t); [apply wf_inter|]. apply HP; [apply wf_inter|apply Ok].
Qed.
Lemma wf_interpol_loop c : pint_wf (e_pint c) -> forall x v a b, Forall slice_ok x -> wf (interpol_loop c x v a b).
Proof.
  intros HP. induction x as [|s x IH]; intros v a b H; destruct v; simpl; try exact I.
  destruct (Rltb _ _); [|exact I]. apply wf_hull.
  - apply wf_slice_interpol; auto; [exact (Forall_inv H)|apply wf_inter].
  - apply IH. exact (Forall_inv_tail H).
Qed.
Lemma wf_interpol c a b x v u u' : pint_wf (e_pint c) -> tube_ok a b x -> wf (interpol c x v u u').
Proof.
  intros HP H. apply wf_interpol_loop; auto. apply Forall_forall. intros s Hs. apply in_skipn in Hs. exact (ok_in _ _ _ _ H Hs).
Qed.
Lemma wf_slice_eval s t : slice_ok s -> wf (slice_eval s t).
Proof.
  intros (W1 & W2 & W3 & _). unfold slice_eval. repeat match goal with |- context [if ?b then _ else _] => destruct b end; auto; exact I.
Qed.
Lemma wf_interpol_t c a b x v t : pint_wf (e_pint c) -> tube_ok a b x -> wf (interpol_t c x v t).
Proof.
  intros HP H. unfold interpol_t. destruct (nth_error _ _) eqn:E; [|exact I]. destruct (_ || _).
  - apply wf_slice_eval. exact (ok_in _ _ _ _ H (nth_error_In _ _ E)).
  - eapply wf_interpol; eauto.
Qed.

(** ** clipping *)
Lemma mono1_clip : mono1 (fun v => inter v clip).
Proof. split; [intros; apply wf_inter|]. intros X X' _ _ H v. rewrite !In_inter. intros [H1 H2]. auto. Qed.
Lemma clip_ok a b x : tube_ok a b x -> tube_ok a b (tube_assign_itv inter x clip).
Proof. apply tube_unary_ok, mono1_clip. Qed.
Lemma clip_has a b x f : tube_ok a b x -> has x f -> bounded_on a b f -> has (tube_assign_itv inter x clip) f.
Proof.
  intros H Hf HB. apply (tube_unary_has a b _ x f f (fun u v => u = v /\ - binf <= v <= binf)); auto.
  intros v w X Hv [-> Hw]. apply In_inter. split; auto.
Qed.
Lemma clip_dom x : map dom (tube_assign_itv inter x clip) = map dom x.
Proof. unfold tube_assign_itv, tube_unary. apply map_loop_dom. Qed.
Lemma clip_esol a b y w f g : esol a b y w f g -> bounded_on a b f -> bounded_on a b g ->
  esol a b (tube_assign_itv inter y clip) (tube_assign_itv inter w clip) f g.
Proof.
  intros (Hy & Hw & D & Hf & Hg & HF) B1 B2.
  split; [apply clip_ok; auto|split; [apply clip_ok; auto|split; [|split; [eapply clip_has; eauto|split; [eapply clip_has; eauto|auto]]]]].
  exact (eq_trans (clip_dom y) (eq_trans D (eq_sym (clip_dom w)))).
Qed.

(** ** the gates strictly between two instants that contain a value *)
Definition hits (x : tube) (a b v : R) : Prop := forall n s, nth_error x n = Some s -> a < s_lb s < b -> In v (s_in s).
Lemma hits_narrow x a b a' b' v : hits x a b v -> a <= a' -> b' <= b -> hits x a' b' v.
Proof. intros H H1 H2 n s E B. apply (H n s E). lra. Qed.
Lemma hits_clip x a b v : hits x a b v -> - binf <= v <= binf -> hits (tube_assign_itv inter x clip) a b v.
Proof.
  intros H Hv n s E B. unfold tube_assign_itv, tube_unary in E. rewrite map_loop_nth in E.
  destruct (nth_error x n) as [q|] eqn:Eq; [|discriminate]. injection E as <-. cbn in *.
  rewrite (sl_nth _ _ _ Eq). apply In_inter. split; [apply (H n q Eq B)|simpl; lra].
Qed.
Lemma sample_lbs_inv a b x t u : tube_ok a b x -> a <= t <= b -> List.In u (map s_lb (sample t x)) -> List.In u (map s_lb x) \/ u = t.
Proof.
  intros H Ht Hu. destruct (sample_shape x a b t) as [E|(l1 & s & l2 & E1 & B & E)]; try apply H; auto; rewrite E in Hu; auto.
  rewrite E1. rewrite map_app in *. cbn in *. rewrite in_app_iff in *. cbn in *. intuition.
Qed.
Lemma hits_set_at a0 b0 x a b v y u : tube_ok a0 b0 x -> a0 <= u <= b0 -> wf y -> (u <= a \/ b <= u) -> hits x a b v ->
  hits (tube_set_at y u x) a b v.
Proof.
  intros H Hu Wy Hout Hh n s E B.
  assert (tube_ok a0 b0 (tube_set_at y u x)) as Ok by (apply sample_gate_ok; auto).
  destruct (chain_in_bounds _ _ _ _ (ok_chain _ _ _ Ok) (nth_error_In _ _ E)) as (B1 & B2 & B3).
  assert (s_in s = eval_t x (s_lb s)) as ->.
  { rewrite <- (slice_eval_lb s) by lra. rewrite <- (eval_t_slice a0 b0 _ n s (s_lb s) Ok E) by lra.
    apply (set_at_eval a0 b0); auto. lra. }
  assert (List.In (s_lb s) (map s_lb x)) as Hin.
  { assert (List.In (s_lb s) (map s_lb (sample u x))) as Hi.
    { assert (map s_lb (tube_set_at y u x) = map s_lb (sample u x)) as <-.
      { pose proof (tube_set_at_dom y u x) as D. apply (f_equal (map fst)) in D. rewrite !map_map in D. exact D. }
      apply in_map. eapply nth_error_In; eauto. }
    destruct (sample_lbs_inv a0 b0 x u _ H Hu Hi); auto. lra. }
  apply in_map_iff in Hin. destruct Hin as (q & Eq & Hq). apply In_nth_error in Hq. destruct Hq as [m Em].
  destruct (chain_in_bounds _ _ _ _ (ok_chain _ _ _ H) (nth_error_In _ _ Em)) as (C1 & C2 & C3).
  rewrite <- Eq in *. rewrite (eval_t_slice a0 b0 x m q (s_lb q) H Em) by lra. rewrite slice_eval_lb by lra. apply (Hh m q); auto.
Qed.

Lemma set_at_lbs y u x : map s_lb (tube_set_at y u x) = map s_lb (sample u x).
Proof. pose proof (tube_set_at_dom y u x) as D. apply (f_equal (map fst)) in D. rewrite !map_map in D. exact D. Qed.
Lemma set_at_ubs y u x : ubs (tube_set_at y u x) = ubs (sample u x).
Proof. pose proof (tube_set_at_dom y u x) as D. apply (f_equal (map snd)) in D. rewrite !map_map in D. exact D. Qed.
Lemma sample_lb_at a b x u : tube_ok a b x -> a <= u < b -> List.In u (map s_lb (sample u x)).
Proof.
  intros H Hu. destruct (sample_gate_at a b x u H ltac:(lra)) as (k & s & E & _ & [E1|[E1 E2]]); [|lra].
  rewrite <- E1 at 1. apply in_map. eapply nth_error_In; eauto.
Qed.

(** ** end of the contraction *)
Lemma esol_set_envelope a b y w f g k s e : esol a b y w f g -> nth_error y k = Some s -> wf e -> (forall t, s_lb s <= t <= s_ub s -> In (f t) e) ->
  esol a b (set_envelope k e true y) w f g.
Proof.
  intros (Hy & Hw & D & Hf & H) E We He. split; [apply set_envelope_ok; auto|split; [auto|split; [|split; [|auto]]]].
  - exact (eq_trans (set_envelope_dom k e true y) D).
  - eapply set_envelope_has; eauto.
Qed.
Lemma esol_unclip_slice a b y w f g k : esol a b y w f g -> esol a b (unclip_slice y k) w f g.
Proof.
  intros HS. unfold unclip_slice.
  set (y1 := match nth_error y k with Some s => set_envelope k _ true y | None => y end).
  assert (esol a b y1 w f g) as S1.
  { unfold y1. destruct (nth_error y k) as [s|] eqn:E; auto. pose proof HS as (Hy & _ & _ & Hf & _).
    pose proof (ok_in _ _ _ _ Hy (nth_error_In _ _ E)) as Ok.
    eapply esol_set_envelope; eauto. apply wf_unclip, Ok.
    intros t Ht. apply unclip_sub. apply (slice_has_closed s f); auto. apply Hf. eapply nth_error_In; eauto. }
  set (y2 := match nth_error y1 k with Some s => set_input_gate k _ true y1 | None => y1 end).
  assert (esol a b y2 w f g) as S2.
  { unfold y2. destruct (nth_error y1 k) as [s|] eqn:E; auto. pose proof S1 as (Hy & _ & _ & Hf & _).
    pose proof (ok_in _ _ _ _ Hy (nth_error_In _ _ E)) as Ok.
    eapply esol_set_input_gate; eauto. apply wf_unclip, Ok. apply unclip_sub. apply Hf. eapply nth_error_In; eauto. }
  destruct (nth_error y2 k) as [s|] eqn:E; auto. pose proof S2 as (Hy & _ & _ & Hf & _).
  pose proof (ok_in _ _ _ _ Hy (nth_error_In _ _ E)) as Ok.
  eapply esol_set_output_gate; eauto. apply wf_unclip, Ok. apply unclip_sub. apply Hf. eapply nth_error_In; eauto.
Qed.
Lemma esol_unclip a b y w f g : esol a b y w f g -> esol a b (unclip_tube y) w f g.
Proof.
  unfold unclip_tube. generalize (seq 0 (length y)). intros l. revert y. induction l as [|k l IH]; intros y HS; cbn [fold_left]; auto.
  apply IH, esol_unclip_slice, HS.
Qed.
Lemma esol_unsample A a b f g : arith_ok A -> bounded_on a b f -> forall l y w, esol a b y w f g ->
  esol a b (fst (fold_left (eval_unsample A) l (y, w))) (snd (fold_left (eval_unsample A) l (y, w))) f g.
Proof.
  intros HA HB. induction l as [|u l IH]; intros y w HS; cbn [fold_left]; auto.
  unfold eval_unsample at 2 4. apply IH. apply esol_remove.
  set (y1 := deriv_slice A ALL w y _). assert (esol a b y1 w f g) as S1 by (apply esol_deriv_slice; auto).
  destruct (_ <? _)%nat; auto. apply esol_deriv_slice; auto.
Qed.

(** ** an interval of instants *)
Theorem ctc_eval_body_sound c a0 b0 a b z y w f g ts : arith_ok (e_arith c) -> pint_ok (e_pint c) -> pint_wf (e_pint c) -> pint_thick (e_pint c) ->
  esol a0 b0 y w f g -> bounded_on a0 b0 f -> (forall t, a0 <= t <= b0 -> continuity_pt f t) ->
  a0 <= a -> a < b -> b <= b0 -> wf z -> a <= ts <= b -> In (f ts) z -> hits y a b (f ts) ->
  let '(t', z', y', w') := ctc_eval_body c a b z y w in In ts t' /\ In (f ts) z' /\ esol a0 b0 y' w' f g.
Proof.
  intros HA HP HW HT HS HB Hc Ha Hab Hb Wz Hts Hz Hh. unfold ctc_eval_body.
  pose proof HS as (Hy & _).
  set (y1 := tube_set_at (interpol_t c y w a) a y). set (w1 := sample a w).
  assert (esol a0 b0 y1 w1 f g) as S1.
  { apply esol_set_at; auto; try lra; [eapply wf_interpol_t; eauto|eapply interpol_t_in; eauto; lra]. }
  assert (hits y1 a b (f ts)) as H1.
  { apply (hits_set_at a0 b0); auto; try lra. eapply wf_interpol_t; eauto. }
  pose proof S1 as (Hy1 & _).
  set (y2 := tube_set_at (interpol_t c y1 w1 b) b y1). set (w2 := sample b w1).
  assert (esol a0 b0 y2 w2 f g) as S2.
  { apply esol_set_at; auto; try lra; [eapply wf_interpol_t; eauto|eapply interpol_t_in; eauto; lra]. }
  assert (hits y2 a b (f ts)) as H2.
  { apply (hits_set_at a0 b0); auto; try lra. eapply wf_interpol_t; eauto. }
  pose proof S2 as (Hy2 & _).
  set (y3 := eval_fronts (e_arith c) a b z y2 w2).
  assert (esol a0 b0 y3 w2 f g) as S3.
  { assert (List.In a (map s_lb y2)) as La.
    { unfold y2. rewrite set_at_lbs. apply (sample_lbs a0 b0); auto; try lra. unfold y1. rewrite set_at_lbs. apply (sample_lb_at a0 b0); auto. lra. }
    assert (List.In b (ubs y2)) as Lb.
    { unfold y2. rewrite set_at_ubs. apply (sample_ubs a0 b0); auto; try lra. }
    apply in_map_iff in La. destruct La as (s & Es & Hs). apply In_nth_error in Hs. destruct Hs as [i Ei].
    apply in_map_iff in Lb. destruct Lb as (q & Eq & Hq). apply In_nth_error in Hq. destruct Hq as [j Ej].
    apply (eval_fronts_sound (e_arith c) a0 b0 f g w2 a b ts z HA Wz Hc Hts Hz y2 i s j q); auto. }
  set (y4 := if e_propag c then _ else y3).
  assert (esol a0 b0 y4 w2 f g) as S4.
  { unfold y4. destruct (e_propag c); auto. apply esol_deriv_tube; auto. }
  set (t' := inter (bnd a b) (invert_v c y4 w2 z (bnd a b))).
  assert (In ts t') as Ht'.
  { apply In_inter. split; [apply In_bnd; auto|]. apply (invert_v_in c a0 b0 y4 w2 f g); auto; lra. }
  assert (wf t') as Wt' by apply wf_inter.
  set (z' := match t' with Itv (Some u) (Some v) => _ | _ => z end).
  assert (exists q, In q t' /\ q <> ts) as (q & Hq & Hn).
  { destruct (invert_v_two c a0 b0 y4 w2 f g z a b ts) as (q & Hq & Hqb & Hn); auto. exists q. split; auto. apply In_inter. split; auto. apply In_bnd; auto. }
  assert (In (f ts) z') as Hz'.
  { unfold z'. assert (forall r, In r t' -> a <= r <= b) as Hsub.
    { intros r Hr. apply In_inter in Hr. destruct Hr as [Hr _]. apply In_bnd in Hr. auto. }
    destruct t' as [|[u|] [v|]]; auto. simpl in Ht', Wt', Hq.
    assert (a <= u <= b) by (apply Hsub; simpl; lra). assert (a <= v <= b) by (apply Hsub; simpl; lra).
    apply In_inter. split; auto. apply (interpol_in c a0 b0 y4 w2 f g); auto; lra. }
  pose proof (esol_unsample (e_arith c) a0 b0 f g HA HB (if e_preserve c then (if gate_exists y a then [] else [a]) ++ (if gate_exists y b then [] else [b]) else []) y4 w2 S4) as S5.
  destruct (fold_left _ _ _) as [y5 w5]. cbn [fst snd] in S5. auto.
Qed.

Theorem ctc_eval_sound c a0 b0 t z y w f g ts t1 t2 : arith_ok (e_arith c) -> pint_ok (e_pint c) -> pint_wf (e_pint c) -> pint_thick (e_pint c) ->
  esol a0 b0 y w f g -> bounded_on a0 b0 f -> bounded_on a0 b0 g -> (forall t, a0 <= t <= b0 -> continuity_pt f t) -> wf t -> wf z ->
  In t1 t -> In t2 t -> a0 <= t1 -> t1 < t2 -> t2 <= b0 ->
  In ts t -> a0 <= ts <= b0 -> In (f ts) z ->
  (forall s, List.In s y -> In (s_lb s) t -> In (f ts) (s_in s)) ->
  let '(t', z', y', w') := ctc_eval c t z y w in In ts t' /\ In (f ts) z' /\ esol a0 b0 y' w' f g.
Proof.
  intros HA HP HW HT HS HB HBg Hc Wt Wz I1 I2 Ht1 H12 Ht2 Hts Htsb Hz Hh.
  pose proof HS as (Hy0 & _ & _ & Hf0 & _). unfold ctc_eval.
  rewrite (not_emp _ _ Hts), (not_emp _ _ Hz), (ok_not_empty a0 b0 y f) by auto. cbn [orb].
  destruct (is_degenerated t) eqn:Ed.
  { rewrite (pt_of_degenerated t ts Ed Hts) in *. apply In_pt in I1. apply In_pt in I2. lra. }
  set (y0 := tube_assign_itv inter y clip). set (w0 := tube_assign_itv inter w clip).
  assert (esol a0 b0 y0 w0 f g) as S0 by (apply clip_esol; auto).
  pose proof S0 as (Hy & _). rewrite (chain_t0 y0 a0 b0), (chain_tf y0 a0 b0) by apply Hy.
  set (td := inter t (bnd a0 b0)). assert (wf td) as Wtd by apply wf_inter.
  assert (forall r, In r td <-> In r t /\ a0 <= r <= b0) as Htd.
  { intros r. unfold td. rewrite In_inter, In_bnd. tauto. }
  assert (exists u v, td = Itv (Some u) (Some v) /\ a0 <= u /\ u < v /\ v <= b0) as (u & v & Etd & Hu & Huv & Hv).
  { pose proof (proj2 (Htd t1)) as J1. pose proof (proj2 (Htd t2)) as J2. 
    destruct td as [|[u|] [v|]].
    - destruct J1. split; auto; lra.
    - exists u, v. simpl in *. pose proof (proj1 (Htd u)). pose proof (proj1 (Htd v)). 
      destruct J1; [split; auto; lra|]. destruct J2; [split; auto; lra|]. split; auto. lra.
    - exfalso. destruct (proj1 (Htd (Rmax u b0 + 1))) as [_ N]; [simpl; pose proof (Rmax_l u b0); lra|]. pose proof (Rmax_r u b0). lra.
    - exfalso. destruct (proj1 (Htd (Rmin v a0 - 1))) as [_ N]; [simpl; pose proof (Rmin_l v a0); lra|]. pose proof (Rmin_r v a0). lra.
    - exfalso. destruct (proj1 (Htd (b0 + 1))) as [_ N]; [simpl; auto|]. lra. }
  rewrite Etd in *. replace (Itv (Some u) (Some v)) with (bnd u v) in * by (apply bnd_eq; lra).
  assert (u <= ts <= v) as Htuv. { apply In_bnd, Htd. auto. }
  set (ti := inter (bnd u v) (invert_v c y0 w0 z (bnd u v))).
  assert (In ts ti) as Hti. { apply In_inter. split; [apply In_bnd; auto|]. apply (invert_v_in c a0 b0 y0 w0 f g); auto; lra. }
  assert (wf ti) as Wti by apply wf_inter.
  assert (forall r, In r ti -> u <= r <= v) as Hsub. { intros r Hr. apply In_inter in Hr. destruct Hr as [Hr _]. apply In_bnd in Hr. auto. }
  destruct ti as [|[a|] [b|]]; [destruct Hti| | | |].
  2:{ exfalso. pose proof (Hsub (Rmax a v + 1)) as N. pose proof (Rmax_l a v). pose proof (Rmax_r a v). destruct N; [simpl; lra|lra]. }
  2:{ exfalso. pose proof (Hsub (Rmin b u - 1)) as N. pose proof (Rmin_l b u). pose proof (Rmin_r b u). destruct N; [simpl; lra|lra]. }
  2:{ exfalso. destruct (Hsub (v + 1)) as [_ N]; [simpl; auto|lra]. }
  simpl in Hti, Wti. assert (u <= a <= v) as Ba by (apply Hsub; simpl; lra). assert (u <= b <= v) as Bb by (apply Hsub; simpl; lra).
  destruct (Reqb a b) eqn:Eab.
  - apply Reqb_true in Eab. subst b. assert (ts = a) as -> by lra.
    pose proof (ctc_eval_t_sound c a0 b0 a z y0 w0 f g HA HP S0 HB ltac:(lra) Hz) as R.
    destruct (ctc_eval_t c a z y0 w0) as [[z' y'] w']. destruct R as [R1 R2]. split; [simpl; lra|auto].
  - apply Reqb_false in Eab. set (z1 := inter z (interpol c y0 w0 a b)).
    assert (In (f ts) z1) as Hz1. { apply In_inter. split; auto. apply (interpol_in c a0 b0 y0 w0 f g); auto; lra. }
    rewrite (not_emp _ _ Hz1).
    assert (hits y0 a b (f ts)) as H0.
    { apply hits_clip; [|apply HB; lra]. intros n s E B. apply Hh; [eapply nth_error_In; eauto|].
      apply Htd. apply In_bnd. lra. }
    pose proof (ctc_eval_body_sound c a0 b0 a b z1 y0 w0 f g ts HA HP HW HT S0 HB Hc ltac:(lra) ltac:(lra) ltac:(lra) (wf_inter _ _) ltac:(lra) Hz1 H0) as R.
    destruct (ctc_eval_body c a b z1 y0 w0) as [[[t' z'] y'] w']. destruct R as (R1 & R2 & R3).
    pose proof (esol_unclip a0 b0 y' w' f g R3) as R4. pose proof R4 as (Hy4 & _ & _ & Hf4 & _).
    rewrite (not_emp _ _ R1), (not_emp _ _ R2), (ok_not_empty a0 b0 (unclip_tube y') f) by auto. cbn [orb]. auto.
Qed.
