(** * Properties of [CtcEval] (C20, C21) *)
From Coq Require Import Reals Lra Bool List Arith Lia.
From Verif Require Import Itv Arith Tube TubeSpec TubeFacts TubeOps TubeOpsFacts TubeOpsFacts2
  TubeQueries TubeQueries2 TubeCtc Concrete DynSpec CtcDeriv CtcDerivFacts CtcEval CtcEvalFacts CtcEvalFronts CtcEvalBody PropsDyn.
Import ListNotations.
Open Scope R_scope.

(** ** C20: with derivative *)
(** A known instant: solutions with values up to FLT_MAX are kept. *)
Theorem C20_instant_partial : forall c a b t z y w f g,
  arith_ok (e_arith c) -> pint_ok (e_pint c) ->
  tube_ok a b y -> tube_ok a b w -> map dom y = map dom w -> derivative_on a b f g ->
  a <= t <= b -> has y f -> has w g -> In (f t) z -> (forall t, a <= t <= b -> - binf <= f t <= binf) ->
  let '(z', y', w') := ctc_eval_t c t z y w in In (f t) z' /\ has y' f /\ has w' g.
Proof.
  intros c a b t z y w f g HA HP Hy Hw D Hd Ht Hf Hg Hz HB.
  pose proof (ctc_eval_t_sound c a b t z y w f g HA HP) as R.
  destruct (ctc_eval_t c t z y w) as [[z' y'] w'].
  destruct R as (R1 & (_ & _ & _ & R2 & R3 & _)); auto.
  split; [auto|split; [auto|split; [auto|split; [auto|split; [auto|apply follows_derivative; auto]]]]].
Qed.

(** An interval of instants: kept if the gates inside [t] contain the value at the solution's
    instant (which is always the case when [t] is inside one slice), for values and derivatives up
    to FLT_MAX, when [t] meets the domain of the tube in more than one instant. *)
Theorem C20_interval_partial : forall c a b t z y w f g ts t1 t2,
  arith_ok (e_arith c) -> pint_ok (e_pint c) -> pint_wf (e_pint c) -> pint_thick (e_pint c) ->
  tube_ok a b y -> tube_ok a b w -> map dom y = map dom w -> derivative_on a b f g -> wf t -> wf z ->
  has y f -> has w g -> (forall t, a <= t <= b -> - binf <= f t <= binf) -> (forall t, a <= t <= b -> - binf <= g t <= binf) ->
  In t1 t -> In t2 t -> a <= t1 -> t1 < t2 -> t2 <= b ->
  In ts t -> a <= ts <= b -> In (f ts) z ->
  (forall s, List.In s y -> In (s_lb s) t -> In (f ts) (s_in s)) ->
  let '(t', z', y', w') := ctc_eval c t z y w in In ts t' /\ In (f ts) z' /\ has y' f /\ has w' g.
Proof.
  intros c a b t z y w f g ts t1 t2 HA HP HW HT Hy Hw D Hd Wt Wz Hf Hg HB HBg I1 I2 H1 H12 H2 Hts Htsb Hz Hh.
  pose proof (ctc_eval_sound c a b t z y w f g ts t1 t2 HA HP HW HT) as R.
  destruct (ctc_eval c t z y w) as [[[t' z'] y'] w'].
  destruct R as (R0 & R1 & (_ & _ & _ & R2 & R3 & _)); auto.
  - split; [auto|split; [auto|split; [auto|split; [auto|split; [auto|apply follows_derivative; auto]]]]].
  - apply Hd.
Qed.

(** Without that condition on the gates, solutions are lost, whatever the intersection of polygons
    with boxes, as soon as it keeps the gates (their bounds are vertices of the polygon,
    codac_Slice_polygon.cpp 104-107, 153-157, 203): the front propagated from the left is emptied by
    a gate, then is replaced by [z]. *)
Definition keeps_gates (pint : slice -> slice -> itv -> itv -> itv * itv) : Prop :=
  forall s sv T Y, s_lb s < s_ub s ->
    (In (s_lb s) T -> (exists v, In v (s_in s) /\ In v Y) -> In (s_lb s) (fst (pint s sv T Y))) /\
    (In (s_ub s) T -> (exists v, In v (s_out s) /\ In v Y) -> In (s_ub s) (fst (pint s sv T Y))).
Lemma pint_box_keeps : keeps_gates pint_box.
Proof. intros s sv T Y _. split; auto. Qed.

Definition yE : tube := [mkS 0 1 (I2 (-100) 100) (I2 (-40) 5) (I2 0 0); mkS 1 2 (I2 (-100) 100) (I2 0 0) (I2 (-50) 10)].
Definition wE : tube := [mkS 0 1 (I2 20 60) (I2 20 60) (I2 20 20); mkS 1 2 (I2 (-20) 20) (I2 20 20) (I2 (-20) 20)].
Definition fE (t : R) : R := 5 - 20 * ((t - 3/2) * (t - 3/2)).
Definition gE (t : R) : R := - 20 * (2 * (t - 3/2)).
Lemma yE_ok : tube_ok 0 2 yE. Proof. tube_ok_tac. Qed.
Lemma wE_ok : tube_ok 0 2 wE. Proof. tube_ok_tac. Qed.
Lemma fE_der t : derivable_pt_lim fE t (gE t).
Proof.
  assert (derivable_pt_lim (fct_cte 5 - mult_real_fct 20 ((id - fct_cte (3/2)) * (id - fct_cte (3/2))))%F t
            (0 - 20 * ((1 - 0) * ((id - fct_cte (3/2))%F t) + ((id - fct_cte (3/2))%F t) * (1 - 0)))) as H.
  { apply derivable_pt_lim_minus; [apply derivable_pt_lim_const|]. apply derivable_pt_lim_scal.
    apply derivable_pt_lim_mult; (apply derivable_pt_lim_minus; [apply derivable_pt_lim_id|apply derivable_pt_lim_const]). }
  replace (gE t) with (0 - 20 * ((1 - 0) * ((id - fct_cte (3/2))%F t) + ((id - fct_cte (3/2))%F t) * (1 - 0))).
  - exact H.
  - unfold gE, id, fct_cte, minus_fct. ring.
Qed.
Lemma fE_derivative : derivative_on 0 2 fE gE.
Proof. split; intros; [|apply fE_der]. apply derivable_continuous_pt. exists (gE t). apply fE_der. Qed.
Lemma yE_fE : has yE fE.
Proof.
  unfold fE. repeat (apply has_cons; split; [|]); [| |apply has_nil];
  (split; [|split]); intros; cbn in *; unfold I2; simpl; try nra.
Qed.
Lemma wE_gE : has wE gE. Proof. unfold gE. has_tac. Qed.
Lemma yE_clip : tube_assign_itv inter yE clip = yE.
Proof.
  pose proof binf_big. unfold tube_assign_itv, tube_unary, map_loop, yE, clip. cbn. unfold I2, mk. cbn. reval. reflexivity.
Qed.
Lemma wE_clip : tube_assign_itv inter wE clip = wE.
Proof.
  pose proof binf_big. unfold tube_assign_itv, tube_unary, map_loop, wE, clip. cbn. unfold I2, mk. cbn. reval. reflexivity.
Qed.

(** the tube after the propagation of the fronts *)
Definition yE3 : tube := [mkS 0 1 (I2 (-100) 100) (I2 (-40) (-20)) (I2 0 0); mkS 1 2 (I2 (-100) 100) (I2 0 0) (I2 5 6)].
Ltac ieq := unfold I2, pt; cbn; unfold mk, min4, max4; reval; try reflexivity; repeat f_equal; lra.
Lemma fwd_E : eval_fwd exact yE wE (I2 5 6) 2 (I2 5 5) [I2 5 5] = [I2 5 6; Emp; I2 5 5].
Proof.
  unfold yE, wE. cbn [eval_fwd s_lb s_ub s_out s_cod].
  rewrite (Rltb_t 0 2), (Rltb_t 1 2) by lra.
  set (F1 := inter (hull _ _) (I2 0 0)). assert (F1 = Emp) as E1 by (unfold F1; ieq). rewrite E1.
  set (F2 := inter (hull _ _) (I2 (-50) 10)). assert (F2 = I2 5 6) as E2 by (unfold F2; ieq). rewrite E2. reflexivity.
Qed.
Lemma bwd_E : eval_bwd exact 1 wE (I2 5 6) 0 (I2 5 6) [I2 5 6; Emp; I2 5 5]
   [mkS 0 1 (I2 (-100) 100) (I2 (-40) 5) (I2 0 0); mkS 1 2 (I2 (-100) 100) (I2 0 0) (I2 5 6)] = yE3.
Proof.
  unfold wE. cbn [eval_bwd nth_error s_lb s_ub s_in s_cod tl hd]. rewrite (Rleb_t 0 1) by lra.
  set (B1 := inter _ (I2 0 0)). assert (B1 = I2 0 0) as -> by (unfold B1; ieq).
  set (y1 := set_input_gate 1 _ true _). assert (y1 = [mkS 0 1 (I2 (-100) 100) (I2 (-40) 5) (I2 0 0); mkS 1 2 (I2 (-100) 100) (I2 0 0) (I2 5 6)]) as ->.
  { unfold y1, set_input_gate. set (g := inter_opt _ _). assert (g = I2 0 0) as -> by (unfold g, cod_at, prev_cod; ieq). reflexivity. }
  set (y2 := deriv_gates _ _ _ _). assert (y2 = [mkS 0 1 (I2 (-100) 100) (I2 (-40) 5) (I2 0 0); mkS 1 2 (I2 (-100) 100) (I2 0 0) (I2 5 6)]) as ->.
  { unfold y2, deriv_gates. cbn [nth_error s_lb s_ub s_in s_out s_cod].
    set (o := inter (I2 5 6) _). assert (o = I2 5 6) as -> by (unfold o; ieq).
    set (i := inter (I2 0 0) _). assert (i = I2 0 0) as -> by (unfold i; ieq).
    unfold set_input_gate, set_output_gate.
    set (g := inter_opt (inter_opt (I2 5 6) _) _). assert (g = I2 5 6) as -> by (unfold g, cod_at; ieq).
    cbn [put_gate upd set_in set_out s_lb s_ub s_cod s_in s_out].
    set (g := inter_opt (inter_opt (I2 0 0) _) _). assert (g = I2 0 0) as -> by (unfold g, cod_at, prev_cod; ieq). reflexivity. }
  cbn [nth_error s_lb s_ub s_in s_cod]. rewrite (Rleb_t 0 0) by lra.
  set (B0 := inter _ (I2 (-40) 5)). assert (B0 = I2 (-40) 5) as -> by (unfold B0; ieq).
  set (y3 := set_input_gate 0 _ true _). assert (y3 = [mkS 0 1 (I2 (-100) 100) (I2 (-40) 5) (I2 0 0); mkS 1 2 (I2 (-100) 100) (I2 0 0) (I2 5 6)]) as ->.
  { unfold y3, set_input_gate. set (g := inter_opt _ _). assert (g = I2 (-40) 5) as -> by (unfold g, cod_at, prev_cod; ieq). reflexivity. }
  unfold deriv_gates. cbn [nth_error s_lb s_ub s_in s_out s_cod].
  set (o := inter (I2 0 0) _). assert (o = I2 0 0) as -> by (unfold o; ieq).
  set (i := inter (I2 (-40) 5) _). assert (i = I2 (-40) (-20)) as -> by (unfold i; ieq).
  unfold set_input_gate, set_output_gate.
  set (g := inter_opt (inter_opt (I2 0 0) _) _). assert (g = I2 0 0) as -> by (unfold g, cod_at; ieq).
  cbn [put_gate upd set_in set_out s_lb s_ub s_cod s_in s_out].
  set (g := inter_opt (inter_opt (I2 (-40) (-20)) _) _). assert (g = I2 (-40) (-20)) as -> by (unfold g, cod_at, prev_cod; ieq). reflexivity.
Qed.
Lemma fronts_E : eval_fronts exact 0 2 (I2 5 6) yE wE = yE3.
Proof.
  unfold eval_fronts.
  assert (time_to_index 0 yE = 0%nat) as -> by (cbn; reval; reflexivity).
  assert (index_before 2 yE = 1%nat) as -> by (cbn; reval; reflexivity).
  cbn [yE nth_error s_in s_out skipn]. cbn [skipn wE]. fold yE. fold wE.
  assert (first_front (I2 (-40) 5) (I2 5 6) = I2 5 5) as -> by (unfold first_front; ieq).
  assert (first_front (I2 (-50) 10) (I2 5 6) = I2 5 6) as -> by (unfold first_front; ieq).
  rewrite fwd_E. cbn [hd].
  set (y1 := set_output_gate 1 _ true _). assert (y1 = [mkS 0 1 (I2 (-100) 100) (I2 (-40) 5) (I2 0 0); mkS 1 2 (I2 (-100) 100) (I2 0 0) (I2 5 6)]) as ->.
  { unfold y1, set_output_gate. set (g := inter_opt _ _). assert (g = I2 5 6) as -> by (unfold g, cod_at; ieq). reflexivity. }
  exact bwd_E.
Qed.

Ltac dom_eq := unfold s_dom, bnd; cbn [s_lb s_ub]; unfold mk; reval; ieq.
Lemma inter_pts a b T : a <= b -> In a T -> In b T -> inter (bnd a b) T = bnd a b.
Proof.
  intros H Ha Hb. rewrite (bnd_eq a b H). destruct T as [|l h]; [destruct Ha|].
  destruct l as [l|], h as [h|]; cbn in Ha, Hb; cbn; unfold mk;
    rewrite ?(Rmax_left a l), ?(Rmin_left b h) by lra; reval; reflexivity.
Qed.
Lemma set_at_E0 : tube_set_at (I2 (-40) 5) 0 yE = yE.
Proof.
  unfold tube_set_at, sample_gate. assert (sample 0 yE = yE) as -> by (unfold yE; cbn; reval; unfold sample_slice; cbn; reval; reflexivity).
  assert (time_to_index 0 yE = 0%nat) as -> by (cbn; reval; reflexivity).
  cbn [yE nth_error s_lb]. rewrite (Reqb_t 0 0) by lra. unfold set_input_gate.
  set (g := inter_opt _ _). assert (g = I2 (-40) 5) as -> by (unfold g, cod_at, prev_cod; ieq). reflexivity.
Qed.
Lemma set_at_E2 : tube_set_at (I2 (-50) 10) 2 yE = yE.
Proof.
  unfold tube_set_at, sample_gate. assert (sample 2 yE = yE) as -> by (unfold yE; cbn; reval; unfold sample_slice; cbn; reval; reflexivity).
  assert (time_to_index 2 yE = 1%nat) as -> by (cbn; reval; reflexivity).
  cbn [yE nth_error s_lb]. rewrite (Reqb_f 2 1) by lra. unfold set_output_gate.
  set (g := inter_opt _ _). assert (g = I2 (-50) 10) as -> by (unfold g, cod_at; ieq). reflexivity.
Qed.
Lemma sample_E0 : sample 0 wE = wE. Proof. unfold wE; cbn; reval; unfold sample_slice; cbn; reval; reflexivity. Qed.
Lemma sample_E2 : sample 2 wE = wE. Proof. unfold wE; cbn; reval; unfold sample_slice; cbn; reval; reflexivity. Qed.
Lemma unclip_I2 a b : - binf < a -> b < binf -> unclip (I2 a b) = I2 a b.
Proof. intros. unfold unclip, I2. reval. reflexivity. Qed.
Lemma unclip_E : unclip_tube yE3 = yE3.
Proof.
  pose proof binf_big.
  unfold unclip_tube, yE3. cbn [length seq fold_left]. cbn [seq fold_left].
  assert (forall k, (k < 2)%nat -> unclip_slice yE3 k = yE3) as K.
  { intros k Hk. unfold unclip_slice. destruct k as [|[|k]]; [| |lia]; unfold yE3; cbn [nth_error s_cod s_in s_out];
    rewrite ?unclip_I2 by lra.
    - unfold set_envelope. cbn. unfold mk; reval. unfold I2. cbn. unfold mk. reval. reflexivity.
    - unfold set_envelope. cbn. unfold mk; reval. unfold I2. cbn. unfold mk. reval. reflexivity. }
  fold yE3. rewrite K by lia. apply K; lia.
Qed.
Lemma fE_lost : ~ has yE3 fE.
Proof.
  intros H. apply has_cons in H. destruct H as [_ H]. apply has_cons in H. destruct H as [(_ & H & _) _].
  unfold fE in H. cbn in H. lra.
Qed.
Lemma set_emp_lost y f : y <> [] -> ~ has (tube_set Emp y) f.
Proof.
  intros Hne H. destruct y as [|s r]; [congruence|].
  assert (exists q, nth_error (tube_set Emp (s :: r)) 0 = Some q /\ s_in q = Emp) as (q & E & Eq).
  { eexists. split; [unfold tube_set; rewrite (tube_set_prefix Emp (s :: r) (length (s :: r)) I (le_n _) 0); cbn; reflexivity|reflexivity]. }
  apply nth_error_In in E. destruct (H q E) as (H0 & _). rewrite Eq in H0. exact H0.
Qed.
Lemma invert_E c : keeps_gates (e_pint c) -> In 0 (invert_v c yE wE (I2 5 6) (bnd 0 2)) /\ In 2 (invert_v c yE wE (I2 5 6) (bnd 0 2)).
Proof.
  intros HK. rewrite bnd_eq by lra. unfold invert_v.
  rewrite (Rltb_f 0 (t0 yE)), (Rltb_f (tf yE) 2) by (cbn; lra). cbn [orb].
  assert (time_to_index 0 yE = 0%nat) as -> by (cbn; reval; reflexivity).
  assert (time_to_index 0 wE = 0%nat) as -> by (cbn; reval; reflexivity).
  cbn [skipn]. cbn [yE wE skipn invert_v_loop s_lb]. rewrite (Rltb_t 0 2), (Rltb_t 1 2) by lra.
  set (s0 := mkS 0 1 _ _ _). set (s1 := mkS 1 2 _ _ _). set (sv0 := mkS 0 1 _ _ _). set (sv1 := mkS 1 2 _ _ _).
  destruct (HK s0 sv0 (I2 0 1) (I2 5 6)) as [K0 _]; [cbn; lra|].
  destruct (HK s1 sv1 (I2 1 2) (I2 5 6)) as [_ K1]; [cbn; lra|].
  assert (In 0 (slice_invert_v c s0 sv0 (I2 5 6) (inter (bnd 0 2) (s_dom s0)))) as P0.
  { assert (inter (bnd 0 2) (s_dom s0) = I2 0 1) as -> by dom_eq.
    unfold slice_invert_v. cbn. unfold mk. reval. apply K0; [cbn; lra|]. exists 5. cbn. lra. }
  assert (In 2 (slice_invert_v c s1 sv1 (I2 5 6) (inter (bnd 0 2) (s_dom s1)))) as P1.
  { assert (inter (bnd 0 2) (s_dom s1) = I2 1 2) as -> by dom_eq.
    unfold slice_invert_v. cbn. unfold mk. reval. apply K1; [cbn; lra|]. exists 5. cbn. lra. }
  split; [apply In_hull_l; exact P0|apply In_hull_r, In_hull_l; exact P1].
Qed.
Lemma interpol_E c : interpol c yE wE 0 2 = I2 (-100) 100.
Proof.
  unfold interpol.
  assert (time_to_index 0 yE = 0%nat) as -> by (cbn; reval; reflexivity).
  assert (time_to_index 0 wE = 0%nat) as -> by (cbn; reval; reflexivity).
  cbn [skipn]. cbn [yE wE skipn interpol_loop s_lb]. rewrite (Rltb_t 0 2), (Rltb_t 1 2) by lra.
  set (u := slice_interpol _ _ _ _). set (v := slice_interpol _ _ _ _).
  assert (u = I2 (-100) 100) as ->.
  { unfold u. match goal with |- context [inter (bnd 0 2) ?d] => assert (inter (bnd 0 2) d = I2 0 1) as -> by dom_eq end.
    unfold slice_interpol, s_dom. cbn. unfold mk. reval. reflexivity. }
  assert (v = I2 (-100) 100) as ->.
  { unfold v. match goal with |- context [inter (bnd 0 2) ?d] => assert (inter (bnd 0 2) d = I2 1 2) as -> by dom_eq end.
    unfold slice_interpol, s_dom. cbn. unfold mk. reval. reflexivity. }
  ieq.
Qed.
Lemma interpol_t_E0 c : interpol_t c yE wE 0 = I2 (-40) 5.
Proof.
  unfold interpol_t. assert (time_to_index 0 yE = 0%nat) as -> by (cbn; reval; reflexivity).
  cbn [nth_error yE s_lb s_ub]. reval. unfold slice_eval. cbn. reval. reflexivity.
Qed.
Lemma interpol_t_E2 c : interpol_t c yE wE 2 = I2 (-50) 10.
Proof.
  unfold interpol_t. assert (time_to_index 2 yE = 1%nat) as -> by (cbn; reval; reflexivity).
  cbn [nth_error yE s_lb s_ub]. reval. unfold slice_eval. cbn. reval. reflexivity.
Qed.
Lemma ctc_eval_E pint rt : keeps_gates pint ->
  let '(_, _, y', _) := ctc_eval (mkE exact pint false false rt) (I2 0 2) (I2 5 6) yE wE in y' = yE3 \/ y' = tube_set Emp yE3.
Proof.
  intros HK. set (c := mkE exact pint false false rt). unfold ctc_eval.
  assert (tube_is_empty yE = false) as -> by (unfold tube_is_empty; cbn; reflexivity).
  cbn [is_empty I2 orb]. replace (is_degenerated (I2 0 2)) with false by (cbn; reval; reflexivity).
  rewrite yE_clip, wE_clip.
  replace (inter (I2 0 2) (bnd (t0 yE) (tf yE))) with (bnd 0 2) by (symmetry; unfold bnd, mk; cbn; unfold mk; reval; ieq).
  destruct (invert_E c) as [I0 I1]; [exact HK|]. 
  rewrite (inter_pts 0 2) by (auto; lra). rewrite bnd_eq by lra. rewrite (Reqb_f 0 2) by lra.
  rewrite interpol_E. replace (inter (I2 5 6) (I2 (-100) 100)) with (I2 5 6) by (symmetry; ieq).
  cbn [is_empty I2]. unfold ctc_eval_body. rewrite interpol_t_E0, set_at_E0, sample_E0, interpol_t_E2, set_at_E2, sample_E2.
  cbn [e_preserve e_propag e_arith c fold_left]. rewrite fronts_E, unclip_E.
  match goal with |- context [if ?b then _ else _] => destruct b; auto end.
Qed.
Theorem C20_interval_refuted : forall pint rt, keeps_gates pint ->
  exists a b t z y w f g ts, tube_ok a b y /\ tube_ok a b w /\ map dom y = map dom w /\ derivative_on a b f g /\ wf t /\ wf z /\
    has y f /\ has w g /\ (forall t, a <= t <= b -> - binf <= f t <= binf /\ - binf <= g t <= binf) /\
    In ts t /\ a < ts < b /\ In (f ts) z /\
    let '(t', z', y', w') := ctc_eval (mkE exact pint false false rt) t z y w in ~ has y' f.
Proof.
  intros pint rt HK. exists 0, 2, (I2 0 2), (I2 5 6), yE, wE, fE, gE, (3/2).
  split; [exact yE_ok|]. split; [exact wE_ok|]. split; [reflexivity|]. split; [exact fE_derivative|].
  split; [cbn; lra|]. split; [cbn; lra|]. split; [exact yE_fE|]. split; [exact wE_gE|].
  split. { intros t Ht. pose proof binf_big. unfold fE, gE. split; nra. }
  split; [cbn; lra|]. split; [lra|]. split; [unfold fE; cbn; lra|].
  pose proof (ctc_eval_E pint rt HK) as R. destruct (ctc_eval _ _ _ _ _) as [[[t' z'] y'] w'].
  destruct R as [ -> | -> ]; [exact fE_lost|]. apply set_emp_lost. discriminate.
Qed.
Example C20_interval_refuted_hyps : keeps_gates pint_box.
Proof. exact pint_box_keeps. Qed.

(** An interval of instants that meets the domain of the tube at its first instant only: the
    solution at that instant is lost (Tube::invert visits no slice), whatever the configuration. *)
Theorem C20_bound_refuted : forall c, exists a b t z y w f g ts, tube_ok a b y /\ tube_ok a b w /\ map dom y = map dom w /\
    derivative_on a b f g /\ wf t /\ wf z /\ has y f /\ has w g /\ In ts t /\ a <= ts <= b /\ In (f ts) z /\
    let '(t', z', y', w') := ctc_eval c t z y w in t' = Emp /\ z' = Emp /\ ~ has y' f.
Proof.
  intros c. exists 0, 2, (I2 (-1) 0), (I2 0 1), tA, vA, fA, (fun _ => 1), 0.
  split; [exact tA_ok|]. split; [exact vA_ok|]. split; [reflexivity|]. split; [exact fA_derivative|].
  split; [cbn; lra|]. split; [cbn; lra|]. split; [exact tA_fA|]. split; [exact vA_one|].
  split; [cbn; lra|]. split; [lra|]. split; [unfold fA; cbn; lra|].
  unfold ctc_eval. cbn [is_empty I2 orb]. assert (tube_is_empty tA = false) as -> by reflexivity.
  cbn [orb]. replace (is_degenerated (I2 (-1) 0)) with false by (cbn; reval; reflexivity).
  pose proof binf_big.
  assert (tube_assign_itv inter tA clip = tA) as -> by (unfold tube_assign_itv, tube_unary, map_loop, tA, clip; cbn; unfold I2, mk; cbn; reval; reflexivity).
  assert (inter (I2 (-1) 0) (bnd (t0 tA) (tf tA)) = I2 0 0) as -> by (unfold bnd, mk; cbn; unfold mk; reval; ieq).
  unfold invert_v at 1. cbn [I2]. rewrite (Rltb_f 0 (t0 tA)), (Rltb_f (tf tA) 0) by (cbn; lra). cbn [orb].
  assert (time_to_index 0 tA = 0%nat) as -> by (cbn; reval; reflexivity). cbn [skipn tA].
  set (v := skipn _ _).
  assert (invert_v_loop c tA v (I2 0 1) 0 0 = Emp) as ->.
  { unfold tA. destruct v as [|sv rv]; cbn [invert_v_loop s_lb]; rewrite ?(Rltb_f 0 0) by lra; reflexivity. }
  cbn [inter]. split; [reflexivity|split; [reflexivity|]]. apply set_emp_lost. discriminate.
Qed.

(** [t] and [z] only shrink. *)
Lemma ctc_eval_t_sub c t z y w : let '(z', _, _) := ctc_eval_t c t z y w in sub z' z.
Proof.
  unfold ctc_eval_t. destruct (is_empty z || tube_is_empty y || tube_is_empty w); [intros v []|].
  set (p := if e_propag c then _ else _). destruct p as [y' w'].
  match goal with |- context [if ?b then _ else _] => destruct b end; [intros v []|]. apply sub_inter_l.
Qed.
Theorem C20_shrinks : forall c t z y w, let '(t', z', _, _) := ctc_eval c t z y w in sub t' t /\ sub z' z.
Proof.
  intros c t z y w. unfold ctc_eval.
  destruct (is_empty t || is_empty z || tube_is_empty y); [split; intros v []|].
  destruct (is_degenerated t).
  - destruct t as [|[u|] h]; try (split; apply sub_refl).
    pose proof (ctc_eval_t_sub c u z y w) as R. destruct (ctc_eval_t c u z y w) as [[z' y'] w']. split; [apply sub_refl|exact R].
  - set (y1 := tube_assign_itv _ y _). set (w1 := tube_assign_itv _ w _). set (t1 := inter t _).
    set (t2 := inter t1 _). assert (sub t2 t) as T2 by (intros v Hv; apply In_inter in Hv; destruct Hv as [Hv _]; apply In_inter in Hv; tauto).
    destruct t2 as [|[u|] [v|]] eqn:E2; try (split; intros x []).
    destruct (Reqb u v).
    + pose proof (ctc_eval_t_sub c u z y1 w1) as R. destruct (ctc_eval_t c u z y1 w1) as [[z' y'] w']. split; auto.
    + set (z1 := inter z _). assert (sub z1 z) as Z1 by apply sub_inter_l.
      destruct (is_empty z1) eqn:Ez.
      * match goal with |- context [if ?b then _ else _] => destruct b end; split; auto; intros x [].
      * assert (let '(t', z', _, _) := ctc_eval_body c u v z1 y1 w1 in sub t' t /\ sub z' z) as B.
        { unfold ctc_eval_body. set (y2 := if e_propag c then _ else _). set (w2 := sample v _).
          set (t' := inter (bnd u v) _).
          assert (sub t' t) as T' by (intros x Hx; apply T2; apply In_inter in Hx; destruct Hx as [Hx _]; apply In_bnd in Hx; exact Hx).
          set (z' := match t' with Emp => _ | _ => _ end).
          assert (sub z' z) as Z' by (unfold z'; destruct t' as [|[?|] [?|]]; auto; intros x Hx; apply In_inter in Hx; apply Z1; tauto).
          match goal with |- context [fold_left ?a ?b ?d] => destruct (fold_left a b d) as [y3 w3] end. split; auto. }
        destruct (ctc_eval_body c u v z1 y1 w1) as [[[t' z'] y'] w'].
        match goal with |- context [if ?b then _ else _] => destruct b end; [split; intros x []|exact B].
Qed.

Example C20_instant_example : let '(z', y', w') := ctc_eval_t (mkE exact pint_box true true ALL) 1 (I2 1 2) tA vA in
  In (3/2) z' /\ has y' fA /\ has w' (fun _ => 1).
Proof.
  pose proof (C20_instant_partial (mkE exact pint_box true true ALL) 0 2 1 (I2 1 2) tA vA fA (fun _ => 1) exact_ok pint_box_ok
    tA_ok vA_ok eq_refl fA_derivative) as R.
  destruct (ctc_eval_t _ _ _ _ _) as [[z' y'] w']. replace (3/2) with (fA 1) by (unfold fA; lra).
  pose proof binf_big. apply R; try exact tA_fA; try exact vA_one; try lra; [unfold fA; cbn; lra|]. intros. unfold fA. lra.
Qed.
(** a search interval inside of the first slice *)
Example C20_interval_example : let '(t', z', y', w') := ctc_eval (mkE exact pint_box true true ALL) (I2 (1/4) (3/4)) (I2 1 2) tA vA in
  In (1/2) t' /\ In 1 z' /\ has y' fA /\ has w' (fun _ => 1).
Proof.
  pose proof (C20_interval_partial (mkE exact pint_box true true ALL) 0 2 (I2 (1/4) (3/4)) (I2 1 2) tA vA fA (fun _ => 1) (1/2) (1/4) (3/4)
    exact_ok pint_box_ok pint_box_wf pint_box_thick tA_ok vA_ok eq_refl fA_derivative) as R.
  destruct (ctc_eval _ _ _ _ _) as [[[t' z'] y'] w']. replace 1 with (fA (1/2)) at 2 by (unfold fA; lra).
  pose proof binf_big. apply R; try exact tA_fA; try exact vA_one; try (unfold I2; cbn; lra); try (unfold fA; cbn; lra).
  - intros. unfold fA. lra.
  - intros. lra.
  - intros s [ <- | [ <- | [] ] ]; cbn; lra.
Qed.
(** a search interval over a gate that contains the value at the solution's instant *)
Example C20_interval_example2 : let '(t', z', y', w') := ctc_eval (mkE exact pint_box true true ALL) (I2 (1/4) (3/2)) (I2 1 2) tA vA in
  In (3/4) t' /\ In (5/4) z' /\ has y' fA /\ has w' (fun _ => 1).
Proof.
  pose proof (C20_interval_partial (mkE exact pint_box true true ALL) 0 2 (I2 (1/4) (3/2)) (I2 1 2) tA vA fA (fun _ => 1) (3/4) (1/4) (3/4)
    exact_ok pint_box_ok pint_box_wf pint_box_thick tA_ok vA_ok eq_refl fA_derivative) as R.
  destruct (ctc_eval _ _ _ _ _) as [[[t' z'] y'] w']. replace (5/4) with (fA (3/4)) by (unfold fA; lra).
  pose proof binf_big. apply R; try exact tA_fA; try exact vA_one; try (unfold I2; cbn; lra); try (unfold fA; cbn; lra).
  - intros. unfold fA. lra.
  - intros. lra.
  - intros s [ <- | [ <- | [] ] ]; unfold fA; cbn; lra.
Qed.

(** ** C21: without derivative *)
Lemma fold_hull_in t : forall l acc, (In t acc \/ exists i, List.In i l /\ In t i) -> In t (fold_left hull l acc).
Proof.
  induction l as [|j l IH]; intros acc H; cbn.
  - destruct H as [H|(i & [] & _)]; auto.
  - apply IH. destruct H as [H|(i & [ <- |H] & Hi)]; [left; apply In_hull_l; auto|left; apply In_hull_r; auto|right; eauto].
Qed.
Lemma invert_list_any a b x f y i t : tube_ok a b x -> has x f -> In t i -> In (f t) y ->
  exists j, List.In j (invert_list x y i) /\ In t j.
Proof.
  intros H Hf Ht Hy. destruct i as [|[u|] [v|]]; [destruct Ht| | | |].
  - apply (invert_list_in a b x f); auto.
  - exists ALL. split; [left; reflexivity|apply In_ALL].
  - exists ALL. split; [left; reflexivity|apply In_ALL].
  - exists ALL. split; [left; reflexivity|apply In_ALL].
Qed.
(** The instant is always kept. *)
Theorem C21_scalar_instant : forall a b t z y f ts, tube_ok a b y -> has y f -> In ts t -> a <= ts <= b -> In (f ts) z ->
  In ts (fst (ctc_eval_noderiv t z y)).
Proof.
  intros a b t z y f ts H Hf Ht Hts Hz. unfold ctc_eval_noderiv.
  rewrite (not_emp _ _ Ht), (not_emp _ _ Hz), (ok_not_empty a b y f) by auto. cbn [orb fst].
  apply In_inter. split; auto. apply fold_hull_in. right. eapply invert_list_any; eauto.
Qed.
(** The value is kept when the inversion gives one subset. *)
Theorem C21_scalar_value_partial : forall a b t z y f ts, tube_ok a b y -> has y f -> In ts t -> a <= ts <= b -> In (f ts) z ->
  (length (invert_list y z t) <= 1)%nat -> In (f ts) (snd (ctc_eval_noderiv t z y)).
Proof.
  intros a b t z y f ts H Hf Ht Hts Hz HL. unfold ctc_eval_noderiv.
  rewrite (not_emp _ _ Ht), (not_emp _ _ Hz), (ok_not_empty a b y f) by auto. cbn [orb snd].
  destruct (invert_list_any a b y f z t ts) as (j & Hj & Hin); auto.
  destruct (invert_list y z t) as [|i [|i' l]]; [destruct Hj| |cbn in HL; lia].
  destruct Hj as [ -> | [] ]. cbn. apply In_inter. split; auto. apply (eval_itv_in a b); auto.
Qed.
(** In general it is lost: the values of all the subsets are intersected, instead of united. *)
Definition yW : tube := [mkS 0 1 (I2 0 5) (I2 0 5) (I2 5 5); mkS 1 2 (I2 5 6) (I2 5 5) (I2 5 5); mkS 2 3 (I2 2 5) (I2 5 5) (I2 2 5)].
Definition fW (t : R) : R := if Rle_dec t 1 then 5 * t else 5.
Lemma yW_ok : tube_ok 0 3 yW. Proof. tube_ok_tac. Qed.
Lemma yW_fW : has yW fW.
Proof.
  unfold fW, yW. repeat (apply has_cons; split; [|]); [| | |apply has_nil];
  (split; [|split]); intros; cbn in *; unfold I2; simpl; destruct (Rle_dec _ _); lra.
Qed.
Lemma yW_windows : invert_list yW (I2 0 3) (I2 0 3) = [I2 0 1; I2 2 3].
Proof.
  unfold invert_list. cbn [I2]. rewrite (Rltb_f 0 (t0 yW)), (Rltb_f (tf yW) 3) by (cbn; lra). cbn [orb].
  assert (time_to_index 0 yW = 0%nat) as -> by (cbn; reval; reflexivity). cbn [skipn yW invert_list_loop s_lb].
  rewrite (Rleb_t 0 3), (Rleb_t 1 3), (Rleb_t 2 3) by lra.
  set (l0 := slice_invert _ _ _). set (l1 := slice_invert _ _ _). set (l2 := slice_invert _ _ _).
  assert (l0 = I2 0 1) as ->.
  { unfold l0. set (q := inter _ _). assert (q = I2 0 1) as -> by (unfold q; dom_eq). unfold slice_invert, s_dom; cbn; unfold mk; reval; unfold intersects, I2; cbn; unfold mk; reval; try reflexivity. }
  assert (l1 = Emp) as ->.
  { unfold l1. set (q := inter _ _). assert (q = I2 1 2) as -> by (unfold q; dom_eq). unfold slice_invert, s_dom; cbn; unfold mk; reval; unfold intersects, I2; cbn; unfold mk; reval; try reflexivity. }
  assert (l2 = I2 2 3) as ->.
  { unfold l2. set (q := inter _ _). assert (q = I2 2 3) as -> by (unfold q; dom_eq). unfold slice_invert, s_dom; cbn; unfold mk; reval; unfold intersects, I2; cbn; unfold mk; reval; try reflexivity. }
  cbn. reflexivity.
Qed.
Lemma yW_vals : eval_itv yW (I2 0 1) = I2 0 5 /\ eval_itv yW (I2 2 3) = I2 2 5.
Proof.
  split; unfold eval_itv, I2.
  - rewrite (Rltb_f 0 (t0 yW)), (Rltb_f (tf yW) 1), (Reqb_f 0 1) by (cbn; lra). cbn [orb].
    assert (time_to_index 0 yW = 0%nat) as -> by (cbn; reval; reflexivity).
    assert (time_to_index 1 yW = 1%nat) as -> by (cbn; reval; reflexivity).
    cbn [yW nth_error s_lb]. rewrite (Reqb_t 1 1) by lra. cbn. reflexivity.
  - rewrite (Rltb_f 2 (t0 yW)), (Rltb_f (tf yW) 3), (Reqb_f 2 3) by (cbn; lra). cbn [orb].
    assert (time_to_index 2 yW = 2%nat) as -> by (cbn; reval; reflexivity).
    assert (time_to_index 3 yW = 2%nat) as -> by (cbn; reval; reflexivity).
    cbn [yW nth_error s_lb]. rewrite (Reqb_f 2 3) by lra. cbn. reflexivity.
Qed.
Theorem C21_scalar_value_refuted : exists a b t z y f ts, tube_ok a b y /\ has y f /\ wf t /\ wf z /\ In ts t /\ a <= ts <= b /\ In (f ts) z /\
  ~ In (f ts) (snd (ctc_eval_noderiv t z y)).
Proof.
  exists 0, 3, (I2 0 3), (I2 0 3), yW, fW, 0. split; [exact yW_ok|]. split; [exact yW_fW|].
  assert (fW 0 = 0) as E by (unfold fW; destruct (Rle_dec 0 1); lra). rewrite E.
  split; [cbn; lra|]. split; [cbn; lra|]. split; [cbn; lra|]. split; [lra|]. split; [cbn; lra|].
  unfold ctc_eval_noderiv. rewrite yW_windows. cbn [is_empty I2 orb]. assert (tube_is_empty yW = false) as -> by reflexivity.
  cbn [fold_left snd]. destruct yW_vals as [V1 V2]. rewrite V1, V2. intros H. apply In_inter in H. destruct H as [_ H]. cbn in H. lra.
Qed.
Example C21_scalar_example : In (1/2) (fst (ctc_eval_noderiv (I2 0 1) (I2 1 1) tA)) /\
  (length (invert_list tA (I2 1 1) (I2 0 1)) <= 1)%nat /\ In 1 (snd (ctc_eval_noderiv (I2 0 1) (I2 1 1) tA)).
Proof.
  assert (length (invert_list tA (I2 1 1) (I2 0 1)) <= 1)%nat as HL.
  { unfold invert_list. cbn [I2]. rewrite (Rltb_f 0 (t0 tA)), (Rltb_f (tf tA) 1) by (cbn; lra). cbn [orb].
    assert (time_to_index 0 tA = 0%nat) as -> by (cbn; reval; reflexivity). cbn [skipn tA invert_list_loop s_lb].
    rewrite (Rleb_t 0 1), (Rleb_t 1 1) by lra. cbn [is_empty negb andb hull]. rewrite andb_false_r.
    match goal with |- context [if ?b then _ else _] => destruct b end; [cbn; lia|].
    match goal with |- context [if ?b then _ else _] => destruct b end; cbn; lia. }
  split; [|split]; auto.
  - apply (C21_scalar_instant 0 2 (I2 0 1) (I2 1 1) tA fA); try exact tA_ok; try exact tA_fA; unfold fA; cbn; lra.
  - assert (fA (1/2) = 1) as E by (unfold fA; lra). rewrite <- E at 1.
    apply (C21_scalar_value_partial 0 2 (I2 0 1) (I2 1 1) tA fA); try exact tA_ok; try exact tA_fA; auto; unfold fA; cbn; lra.
Qed.

(** *** vectors *)
Lemma fold_inter_in t : forall l acc, In t acc -> (forall i, List.In i l -> In t i) -> In t (fold_left inter l acc).
Proof.
  induction l as [|j l IH]; intros acc H HA; cbn; auto. apply IH.
  - apply In_inter. split; auto. apply HA. left; reflexivity.
  - intros i Hi. apply HA. right; auto.
Qed.
Lemma windows_cur t : forall l cur, In t cur -> exists i, List.In i (windows l cur) /\ In t i.
Proof.
  induction l as [|j l IH]; intros cur H; cbn.
  - rewrite (not_emp _ _ H). exists cur. split; [left; reflexivity|auto].
  - destruct (is_empty j && negb (is_empty cur)); [exists cur; split; [left; reflexivity|auto]|]. apply IH, In_hull_l; auto.
Qed.
Lemma windows_in t : forall l cur i, List.In i l -> In t i -> exists j, List.In j (windows l cur) /\ In t j.
Proof.
  induction l as [|j l IH]; intros cur i Hi Ht; [destruct Hi|]. cbn. destruct Hi as [ -> | Hi ].
  - rewrite (not_emp _ _ Ht). cbn. apply windows_cur, In_hull_r; auto.
  - destruct (is_empty j && negb (is_empty cur)).
    + destruct (IH Emp i Hi Ht) as (k & Hk & H). exists k. split; [right; auto|auto].
    + apply (IH _ i); auto.
Qed.
Lemma map2_nth {A B C} (h : A -> B -> C) : forall l m c, List.In c (map2 h l m) ->
  exists j x y, nth_error l j = Some x /\ nth_error m j = Some y /\ c = h x y.
Proof.
  intros l. induction l as [|x l IH]; intros m c H; [destruct H|]. destruct m as [|y m]; [destruct H|].
  destruct H as [H|H]; [exists 0%nat, x, y; auto|]. destruct (IH m c H) as (j & x' & y' & E). exists (S j), x', y'. exact E.
Qed.
Lemma map2_length {A B C} (h : A -> B -> C) : forall l m, length l = length m -> length (map2 h l m) = length l.
Proof. intros l m E. unfold map2. rewrite map_length, combine_length, E. apply Nat.min_id. Qed.
Lemma map2_nth_error {A B C} (h : A -> B -> C) : forall l m j x y, nth_error l j = Some x -> nth_error m j = Some y ->
  nth_error (map2 h l m) j = Some (h x y).
Proof.
  induction l as [|a l IH]; intros m j x y E1 E2; [destruct j; discriminate|]. destruct m as [|b m]; [destruct j; discriminate|].
  destruct j; cbn in *; [congruence|]. apply IH; auto.
Qed.

(** [vsol ys z fs ts]: the values of the trajectories [fs] of the tubes [ys] at [ts] are in the box [z] *)
Definition vsol (ys : list tube) (z : list itv) (fs : list (R -> R)) (ts : R) : Prop :=
  length z = length ys /\ length fs = length ys /\
  forall j y f zj, nth_error ys j = Some y -> nth_error fs j = Some f -> nth_error z j = Some zj -> has y f /\ In (f ts) zj.

Lemma vinvert_locs_in a b z fs t : forall x0 xs k s,
  length z = S (length xs) -> length fs = S (length xs) ->
  (forall j y f zj, nth_error (x0 :: xs) j = Some y -> nth_error fs j = Some f -> nth_error z j = Some zj ->
     map dom y = map dom x0 /\ (forall s, List.In s y -> slice_ok s /\ slice_has s f) /\ In (f t) zj) ->
  (forall j s', (j <= k)%nat -> nth_error x0 j = Some s' -> s_lb s' <= b) ->
  nth_error x0 k = Some s -> a <= t <= b -> s_lb s <= t <= s_ub s ->
  exists i, List.In i (vinvert_locs x0 xs z a b) /\ In t i.
Proof.
  induction x0 as [|s0 r IH]; intros xs k s HL1 HL2 H Hlt E Ht Hs; [destruct k; discriminate|].
  cbn [vinvert_locs]. rewrite (proj2 (Rleb_true (s_lb s0) b)) by (apply (Hlt 0%nat); auto; lia).
  destruct k as [|k]; cbn in E.
  - inversion E; subst s0. eexists. split; [left; reflexivity|]. apply fold_inter_in; [apply In_ALL|].
    intros i Hi. apply map2_nth in Hi. destruct Hi as (j & sj & zj & E1 & E2 & ->).
    assert (exists y f, nth_error ((s :: r) :: xs) j = Some y /\ nth_error fs j = Some f) as (y & f & Ey & Ef).
    { assert (j < length z)%nat as L by (apply nth_error_Some; congruence).
      destruct (nth_error ((s :: r) :: xs) j) eqn:E3; [|apply nth_error_None in E3; cbn in E3; lia].
      destruct (nth_error fs j) eqn:E4; [|apply nth_error_None in E4; lia]. eauto. }
    destruct (H j y f zj Ey Ef E2) as (D & Hy & Hz).
    destruct y as [|s' y']; [discriminate|]. cbn in D. injection D as D1 D2 D3.
    assert (sj = s') as ->.
    { destruct j as [|j]; cbn in E1, Ey; [congruence|]. rewrite nth_error_map in E1. rewrite Ey in E1. cbn in E1. congruence. }
    destruct (Hy s' (or_introl eq_refl)) as [Ok Hh].
    apply slice_invert_in with (f := f); auto; try lra.
    + apply In_inter. split; [apply In_bnd; lra|cbn; lra].
    + apply sub_inter_r.
  - destruct (IH (map (@tl slice) xs) k s) as (i & Hi & Hin); auto.
    + rewrite map_length. auto.
    + rewrite map_length. auto.
    + intros j y f zj E1 E2 E3.
      assert (exists y0, nth_error ((s0 :: r) :: xs) j = Some y0 /\ y = tl y0) as (y0 & E0 & ->).
      { destruct j as [|j]; cbn in E1 |- *; [injection E1 as <-; eauto|]. rewrite nth_error_map in E1.
        destruct (nth_error xs j) eqn:E4; [|discriminate]. cbn in E1. injection E1 as <-. eauto. }
      destruct (H j y0 f zj E0 E2 E3) as (D & Hy & Hz). split; [|split; auto].
      * destruct y0 as [|s' y0]; [discriminate|]. cbn in D |- *. injection D; auto.
      * intros s' Hs'. apply Hy. destruct y0; [destruct Hs'|right; auto].
    + intros j s' Hj Ej. apply (Hlt (S j)); auto. lia.
    + exists i. split; [right; auto|auto].
Qed.
Lemma map_skipn_dom n (x : tube) : map dom (skipn n x) = skipn n (map dom x).
Proof. revert n. induction x as [|s x IH]; intros [|n]; cbn; auto. Qed.
Lemma vinvert_list_in a b ys z fs i ts : ys <> [] -> Forall (tube_ok a b) ys ->
  (forall y y', List.In y ys -> List.In y' ys -> map dom y = map dom y') -> vsol ys z fs ts -> In ts i -> a <= ts <= b ->
  exists j, List.In j (vinvert_list ys z i) /\ In ts j.
Proof.
  intros Hne HF HD (HL1 & HL2 & HV) Ht Hts. destruct ys as [|x0 xs]; [congruence|]. unfold vinvert_list.
  assert (exists j, List.In j [ALL] /\ In ts j) as A by (exists ALL; split; [left; reflexivity|apply In_ALL]).
  destruct i as [|[u|] [v|]]; auto; [destruct Ht|]. cbn in Ht.
  assert (tube_ok a b x0) as H0 by (inversion HF; auto).
  rewrite (chain_t0 x0 a b), (chain_tf x0 a b) by apply H0.
  destruct (Rltb u a) eqn:E1; [exact A|]. destruct (Rltb b v) eqn:E2; [exact A|]. cbn [orb].
  apply Rltb_false in E1. apply Rltb_false in E2.
  destruct (idx_spec x0 a b ts) as (s & E & B & _); try apply H0; try lra.
  destruct (idx_spec x0 a b u) as (su & Eu & Bu & _); try apply H0; try lra.
  assert (time_to_index u x0 <= time_to_index ts x0)%nat as Hle by (apply (idx_ge x0 a b ts _ su); auto; [apply H0|lra]).
  destruct (vinvert_locs_in u v z fs ts (skipn (time_to_index u x0) x0) (map (fun x => skipn (time_to_index u x) x) xs)
              (time_to_index ts x0 - time_to_index u x0)%nat s) as (i & Hi & Hin).
  - rewrite map_length. exact HL1.
  - rewrite map_length. exact HL2.
  - intros j y f zj Ey Ef Ez.
    assert (exists y0, nth_error (x0 :: xs) j = Some y0 /\ y = skipn (time_to_index u y0) y0) as (y0 & E0 & ->).
    { destruct j as [|j]; cbn in Ey |- *; [injection Ey as <-; eauto|]. rewrite nth_error_map in Ey.
      destruct (nth_error xs j) eqn:E4; [|discriminate]. cbn in Ey. injection Ey as <-. eauto. }
    destruct (HV j y0 f zj E0 Ef Ez) as [Hh Hz]. apply nth_error_In in E0.
    assert (map dom y0 = map dom x0) as D by (apply HD; auto; left; auto).
    split; [|split; auto].
    + rewrite !map_skipn_dom, D, (idx_dom u y0 x0 D). reflexivity.
    + intros s' Hs'. apply in_skipn in Hs'. rewrite Forall_forall in HF. split; [exact (ok_in _ _ _ _ (HF _ E0) Hs')|auto].
  - intros j s' Hj Ej. rewrite nth_error_skipn' in Ej.
    destruct (Rle_dec (s_lb s') v) as [|n]; auto. exfalso.
    assert (List.In s' x0) as Hin by (eapply nth_error_In; eauto).
    destruct (chain_in_bounds _ _ _ _ (ok_chain _ _ _ H0) Hin) as (G1 & G2 & G3).
    assert (time_to_index ts x0 <= time_to_index u x0 + j)%nat by (apply (idx_le x0 ts _ s' Ej); lra).
    assert (time_to_index u x0 + j = time_to_index ts x0)%nat as Eq by lia.
    rewrite Eq, E in Ej. inversion Ej; subst. lra.
  - rewrite nth_error_skipn'. replace (time_to_index u x0 + (time_to_index ts x0 - time_to_index u x0))%nat with (time_to_index ts x0) by lia. auto.
  - lra.
  - lra.
  - apply (windows_in ts _ Emp i); auto.
Qed.
Lemma vec_not_empty a b ys z fs ts : Forall (tube_ok a b) ys -> vsol ys z fs ts ->
  existsb is_empty z = false /\ existsb tube_is_empty ys = false.
Proof.
  intros HF (HL1 & HL2 & HV). split; apply not_true_is_false; intros H; apply existsb_exists in H; destruct H as (e & He & Hem);
    apply In_nth_error in He; destruct He as (j & Ej).
  - assert (j < length z)%nat as L by (apply nth_error_Some; congruence).
    destruct (nth_error ys j) eqn:E3; [|apply nth_error_None in E3; lia].
    destruct (nth_error fs j) eqn:E4; [|apply nth_error_None in E4; lia].
    destruct (HV j _ _ _ E3 E4 Ej) as [_ Hz]. rewrite (not_emp _ _ Hz) in Hem. discriminate.
  - assert (j < length ys)%nat as L by (apply nth_error_Some; congruence).
    destruct (nth_error z j) eqn:E3; [|apply nth_error_None in E3; lia].
    destruct (nth_error fs j) eqn:E4; [|apply nth_error_None in E4; lia].
    destruct (HV j _ _ _ Ej E4 E3) as [Hh _]. apply nth_error_In in Ej. rewrite Forall_forall in HF.
    rewrite (ok_not_empty a b e _ (HF _ Ej) Hh) in Hem. discriminate.
Qed.
(** The instant is always kept, for tubes with the same slicing. *)
Theorem C21_vector_instant : forall a b t z ys fs ts, ys <> [] -> Forall (tube_ok a b) ys ->
  (forall y y', List.In y ys -> List.In y' ys -> map dom y = map dom y') -> vsol ys z fs ts -> In ts t -> a <= ts <= b ->
  In ts (fst (ctc_eval_vec t z ys)).
Proof.
  intros a b t z ys fs ts Hne HF HD HV Ht Hts. unfold ctc_eval_vec.
  destruct (vec_not_empty a b ys z fs ts HF HV) as [-> ->]. rewrite (not_emp _ _ Ht). cbn [orb fst].
  apply In_inter. split; auto. apply fold_hull_in. right. eapply vinvert_list_in; eauto.
Qed.
(** The values are kept when the inversion gives one subset. *)
Theorem C21_vector_value_partial : forall a b t z ys fs ts, ys <> [] -> Forall (tube_ok a b) ys ->
  (forall y y', List.In y ys -> List.In y' ys -> map dom y = map dom y') -> vsol ys z fs ts -> In ts t -> a <= ts <= b ->
  (length (vinvert_list ys z t) <= 1)%nat ->
  forall j f, nth_error fs j = Some f -> exists zj, nth_error (snd (ctc_eval_vec t z ys)) j = Some zj /\ In (f ts) zj.
Proof.
  intros a b t z ys fs ts Hne HF HD HV Ht Hts HL j f Ef. unfold ctc_eval_vec.
  destruct (vec_not_empty a b ys z fs ts HF HV) as [-> ->]. rewrite (not_emp _ _ Ht). cbn [orb snd].
  destruct (vinvert_list_in a b ys z fs t ts) as (i & Hi & Hin); auto.
  destruct HV as (HL1 & HL2 & HV).
  assert (j < length fs)%nat as L by (apply nth_error_Some; congruence).
  destruct (nth_error ys j) as [y|] eqn:Ey; [|apply nth_error_None in Ey; lia].
  destruct (nth_error z j) as [zj|] eqn:Ez; [|apply nth_error_None in Ez; lia].
  eexists. split; [apply map2_nth_error; eassumption|]. destruct (HV j y f zj Ey Ef Ez) as [Hh Hz].
  destruct (vinvert_list ys z t) as [|i0 [|i' l]]; [destruct Hi| |cbn in HL; lia].
  destruct Hi as [ -> | [] ]. cbn. apply In_inter. split; auto. apply nth_error_In in Ey. rewrite Forall_forall in HF.
  apply (eval_itv_in a b); auto.
Qed.
Lemma yW_vwindows : vinvert_list [yW] [I2 0 3] (I2 0 3) = [I2 0 1; I2 2 3].
Proof.
  unfold vinvert_list. cbn [I2]. rewrite (Rltb_f 0 (t0 yW)), (Rltb_f (tf yW) 3) by (cbn; lra). cbn [orb].
  assert (time_to_index 0 yW = 0%nat) as -> by (cbn; reval; reflexivity). cbn [skipn yW vinvert_locs s_lb map hd tl].
  rewrite (Rleb_t 0 3), (Rleb_t 1 3), (Rleb_t 2 3) by lra. unfold map2. cbn [combine map fst snd fold_left].
  set (l0 := slice_invert _ _ _). set (l1 := slice_invert _ _ _). set (l2 := slice_invert _ _ _).
  assert (l0 = I2 0 1) as ->.
  { unfold l0. set (q := inter _ _). assert (q = I2 0 1) as -> by (unfold q; dom_eq). unfold slice_invert, s_dom; cbn; unfold mk; reval; unfold intersects, I2; cbn; unfold mk; reval; try reflexivity. }
  assert (l1 = Emp) as ->.
  { unfold l1. set (q := inter _ _). assert (q = I2 1 2) as -> by (unfold q; dom_eq). unfold slice_invert, s_dom; cbn; unfold mk; reval; unfold intersects, I2; cbn; unfold mk; reval; try reflexivity. }
  assert (l2 = I2 2 3) as ->.
  { unfold l2. set (q := inter _ _). assert (q = I2 2 3) as -> by (unfold q; dom_eq). unfold slice_invert, s_dom; cbn; unfold mk; reval; unfold intersects, I2; cbn; unfold mk; reval; try reflexivity. }
  cbn. unfold mk; reval. cbn. reflexivity.
Qed.
Theorem C21_vector_value_refuted : exists a b t z ys fs ts j f zj, Forall (tube_ok a b) ys /\
  (forall y y', List.In y ys -> List.In y' ys -> map dom y = map dom y') /\ vsol ys z fs ts /\ In ts t /\ a <= ts <= b /\
  nth_error fs j = Some f /\ nth_error (snd (ctc_eval_vec t z ys)) j = Some zj /\ ~ In (f ts) zj.
Proof.
  exists 0, 3, (I2 0 3), [I2 0 3], [yW], [fW], 0, 0%nat, fW, (inter (inter (I2 0 3) (I2 0 5)) (I2 2 5)).
  split; [apply Forall_cons; [exact yW_ok|apply Forall_nil]|].
  split; [intros y y' [ <- | [] ] [ <- | [] ]; reflexivity|].
  assert (fW 0 = 0) as E by (unfold fW; destruct (Rle_dec 0 1); lra).
  split. { split; [reflexivity|]. split; [reflexivity|]. intros [|[|j]] y f zj E1 E2 E3; cbn in *; try discriminate.
    injection E1 as <-. injection E2 as <-. injection E3 as <-. split; [exact yW_fW|]. rewrite E. cbn; lra. }
  split; [cbn; lra|]. split; [lra|]. split; [reflexivity|]. split.
  - unfold ctc_eval_vec. rewrite yW_vwindows. cbn [is_empty I2 orb existsb]. assert (tube_is_empty yW = false) as -> by reflexivity.
    cbn [orb snd]. unfold map2. cbn [combine map fst snd fold_left nth_error]. destruct yW_vals as [V1 V2]. rewrite V1, V2. reflexivity.
  - rewrite E. intros H. apply In_inter in H. destruct H as [_ H]. cbn in H. lra.
Qed.
(** two components, one subset *)
Example C21_vector_example : vsol [tA; tA] [I2 1 1; I2 1 2] [fA; fA] (1/2) /\
  In (1/2) (fst (ctc_eval_vec (I2 0 1) [I2 1 1; I2 1 2] [tA; tA])) /\ (length (vinvert_list [tA; tA] [I2 1 1; I2 1 2] (I2 0 1)) <= 1)%nat.
Proof.
  assert (vsol [tA; tA] [I2 1 1; I2 1 2] [fA; fA] (1/2)) as HV.
  { split; [reflexivity|]. split; [reflexivity|]. intros [|[|[|j]]] y f zj E1 E2 E3; cbn in *; try discriminate;
    injection E1 as <-; injection E2 as <-; injection E3 as <-; (split; [exact tA_fA|]); unfold fA; cbn; lra. }
  split; [exact HV|]. split.
  - apply (C21_vector_instant 0 2 _ _ _ [fA; fA]); try exact HV; try (cbn; lra); [discriminate| |].
    + repeat (apply Forall_cons; [exact tA_ok|]). apply Forall_nil.
    + intros y y' [ <- | [ <- | [] ] ] [ <- | [ <- | [] ] ]; reflexivity.
  - unfold vinvert_list. cbn [I2]. rewrite (Rltb_f 0 (t0 tA)), (Rltb_f (tf tA) 1) by (cbn; lra). cbn [orb].
    assert (time_to_index 0 tA = 0%nat) as -> by (cbn; reval; reflexivity). cbn [skipn tA vinvert_locs s_lb map hd tl].
    rewrite (Rleb_t 0 1), (Rleb_t 1 1) by lra. cbn [windows is_empty negb andb hull]. rewrite andb_false_r.
    match goal with |- context [if ?b then _ else _] => destruct b end; [cbn; lia|].
    match goal with |- context [if ?b then _ else _] => destruct b end; cbn; lia.
Qed.
(** [t] and [z] only shrink. *)
Lemma fold_inter_sub (h : itv -> itv) : forall l z, sub (fold_left (fun z ti => inter z (h ti)) l z) z.
Proof.
  induction l as [|i l IH]; intros z; cbn; [apply sub_refl|]. eapply sub_trans; [apply IH|]. apply sub_inter_l.
Qed.
Theorem C21_shrinks : forall t z y, sub (fst (ctc_eval_noderiv t z y)) t /\ sub (snd (ctc_eval_noderiv t z y)) z.
Proof.
  intros t z y. unfold ctc_eval_noderiv. destruct (is_empty t || is_empty z || tube_is_empty y); [split; apply sub_Emp|].
  split; [apply sub_inter_l|]. apply fold_inter_sub.
Qed.

Print Assumptions C20_instant_partial.
Print Assumptions C20_interval_partial.
Print Assumptions C20_interval_refuted.
Print Assumptions C20_bound_refuted.
Print Assumptions C20_shrinks.
Print Assumptions C21_scalar_instant.
Print Assumptions C21_scalar_value_partial.
Print Assumptions C21_scalar_value_refuted.
Print Assumptions C21_vector_instant.
Print Assumptions C21_vector_value_partial.
Print Assumptions C21_vector_value_refuted.
Print Assumptions C21_shrinks.
