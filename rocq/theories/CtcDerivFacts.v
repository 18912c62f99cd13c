(** * CtcDeriv: no solution is lost, domains only shrink *)
From Coq Require Import Reals Lra Psatz Bool List Arith Lia.
From Verif Require Import Itv Arith Tube TubeSpec TubeFacts TubeOps TubeOpsFacts TubeOpsFacts2 TubeQueries TubeQueries2
  TubeCtc DynSpec CtcDeriv.
Import ListNotations.
Open Scope R_scope.
Local Arguments Nat.eqb : simpl never.
Local Arguments seq : simpl never.

Lemma binf_pos : 0 < binf.
Proof.
  unfold binf. apply Rmult_lt_0_compat; [|apply pow_lt; lra].
  assert (/ 2 ^ 23 <= 1); [|lra]. rewrite <- Rinv_1. apply Rinv_le_contravar; [lra|]. apply pow_R1_Rle; lra.
Qed.
Lemma binf_big : 10000 < binf.
Proof. unfold binf. cbn [pow]. lra. Qed.
Global Opaque binf.

(** ** contraction relations on tubes, for a given relation [P] on intervals *)
Definition srel (P : itv -> itv -> Prop) (s' s : slice) : Prop :=
  s_lb s' = s_lb s /\ s_ub s' = s_ub s /\ P (s_cod s') (s_cod s) /\ P (s_in s') (s_in s) /\ P (s_out s') (s_out s).
Definition trel (P : itv -> itv -> Prop) (x' x : tube) : Prop :=
  length x' = length x /\ forall k s' s, nth_error x' k = Some s' -> nth_error x k = Some s -> srel P s' s.
Lemma trel_tsub x' x : trel sub x' x <-> tsub x' x.
Proof. rewrite tsub_nth. unfold trel, srel, slice_sub. tauto. Qed.
Lemma trel_nth P x' x k s : trel P x' x -> nth_error x k = Some s -> exists s', nth_error x' k = Some s' /\ srel P s' s.
Proof.
  intros [Hl H] E. destruct (nth_error x' k) as [s'|] eqn:E'; eauto.
  apply nth_error_None in E'. assert (nth_error x k <> None) as N by congruence. apply nth_error_Some in N. lia.
Qed.
Lemma trel_refl (P : itv -> itv -> Prop) x : (forall i, P i i) -> trel P x x.
Proof. intros H. split; auto. intros k s' s E1 E2. assert (s' = s) by congruence. subst. repeat split; auto. Qed.
Lemma trel_trans (P : itv -> itv -> Prop) x y z : (forall i j k, P i j -> P j k -> P i k) -> trel P x y -> trel P y z -> trel P x z.
Proof.
  intros T H1 H2. split; [destruct H1, H2; congruence|]. intros k s' s E1 E2.
  destruct (trel_nth _ _ _ _ _ H2 E2) as (q & Eq & (A1 & A2 & A3 & A4 & A5)).
  destruct H1 as [_ H1]. destruct (H1 _ _ _ E1 Eq) as (B1 & B2 & B3 & B4 & B5). repeat split; try congruence; eauto.
Qed.
Definition downward (P : itv -> itv -> Prop) := forall i j k, sub i j -> P j k -> P i k.
Lemma trel_put_gate P x y k g : trel P x y ->
  (forall s, nth_error y k = Some s -> P g (s_in s)) ->
  (forall k' s, k = S k' -> nth_error y k' = Some s -> P g (s_out s)) ->
  trel P (put_gate k g x) y.
Proof.
  intros [Hl H] H1 H2. split; [rewrite put_gate_length; auto|]. intros j s' s. rewrite put_gate_nth. intros E1 E2.
  destruct (Nat.eqb_spec j k) as [->|].
  - destruct (nth_error x k) as [q|] eqn:E; [|discriminate]. inversion E1; subst s'.
    destruct (H _ _ _ E E2) as (A1 & A2 & A3 & A4 & A5). repeat split; simpl; auto.
  - destruct (Nat.eqb_spec (S j) k) as [Hk|]; [|eapply H; eauto].
    destruct (nth_error x j) as [q|] eqn:E; [|discriminate]. inversion E1; subst s'.
    destruct (H _ _ _ E E2) as (A1 & A2 & A3 & A4 & A5). repeat split; simpl; eauto.
Qed.
Lemma gate_base (P : itv -> itv -> Prop) y k s g : gates_shared y -> nth_error y k = Some s -> P g (s_in s) ->
  (forall q, nth_error y k = Some q -> P g (s_in q)) /\ (forall k' q, k = S k' -> nth_error y k' = Some q -> P g (s_out q)).
Proof.
  intros Hs E Hp. split.
  - intros q Eq. assert (q = s) by congruence. subst; auto.
  - intros k' q -> Eq. rewrite (gates_agree y k' s q); auto.
Qed.
Lemma gate_base_out (P : itv -> itv -> Prop) y k s g : gates_shared y -> nth_error y k = Some s -> P g (s_out s) ->
  (forall q, nth_error y (S k) = Some q -> P g (s_in q)) /\ (forall k' q, S k = S k' -> nth_error y k' = Some q -> P g (s_out q)).
Proof.
  intros Hs E Hp. split.
  - intros q Eq. rewrite <- (gates_agree y k q s); auto.
  - intros k' q Ek Eq. inversion Ek; subst. assert (q = s) by congruence. subst; auto.
Qed.
Lemma trel_set_input_gate P x y k s g c : downward P -> gates_shared y -> trel P x y -> nth_error y k = Some s ->
  P g (s_in s) -> trel P (set_input_gate k g c x) y.
Proof.
  intros D Hs H E Hg. unfold set_input_gate.
  assert (P (if c then inter_opt (inter_opt g (cod_at x k)) (prev_cod x k) else g) (s_in s)) as Hi.
  { destruct c; auto. eapply D; [|exact Hg]. eapply sub_trans; apply inter_opt_sub_l. }
  destruct (gate_base P y k s _ Hs E Hi). apply trel_put_gate; auto.
Qed.
Lemma trel_set_output_gate P x y k s g c : downward P -> gates_shared y -> trel P x y -> nth_error y k = Some s ->
  P g (s_out s) -> trel P (set_output_gate k g c x) y.
Proof.
  intros D Hs H E Hg. unfold set_output_gate.
  assert (P (if c then inter_opt (inter_opt g (cod_at x k)) (cod_at x (S k)) else g) (s_out s)) as Hi.
  { destruct c; auto. eapply D; [|exact Hg]. eapply sub_trans; apply inter_opt_sub_l. }
  destruct (gate_base_out P y k s _ Hs E Hi). apply trel_put_gate; auto.
Qed.
Lemma trel_set_envelope P x y k s e c : downward P -> gates_shared y -> trel P x y -> nth_error y k = Some s ->
  P e (s_cod s) -> trel P (set_envelope k e c x) y.
Proof.
  intros D Hs H E He. destruct (trel_nth _ _ _ _ _ H E) as (q & Eq & (A1 & A2 & A3 & A4 & A5)).
  unfold set_envelope. rewrite Eq.
  assert (trel P (upd k (set_cod e) x) y) as H1.
  { destruct H as [Hl H]. split; [rewrite upd_length; auto|]. intros j s' s0. rewrite nth_error_upd. intros E1 E2.
    destruct (Nat.eqb_spec j k) as [->|]; [|eapply H; eauto]. rewrite Eq in E1. inversion E1; subst s'.
    assert (s0 = s) by congruence. subst s0. repeat split; simpl; auto. }
  destruct c; auto.
  assert (P (inter (s_in q) e) (s_in s)) as G1 by (eapply D; [apply sub_inter_l|auto]).
  assert (P (inter (s_out q) e) (s_out s)) as G2 by (eapply D; [apply sub_inter_l|auto]).
  destruct (gate_base P y k s _ Hs E G1). destruct (gate_base_out P y k s _ Hs E G2).
  apply trel_put_gate; auto. apply trel_put_gate; auto.
Qed.
Lemma downward_sub : downward sub. Proof. intros i j k; apply sub_trans. Qed.

(** ** the polygon of a slice *)
Lemma fold_pt_hull w : forall l acc, (In w acc \/ (exists y1 y2, (In y1 acc \/ List.In y1 l) /\ (In y2 acc \/ List.In y2 l) /\ y1 <= w <= y2)) ->
  In w (fold_left (fun box y => hull box (pt y)) l acc).
Proof.
  induction l as [|y l IH]; intros acc H; cbn [fold_left].
  - destruct H as [H|(y1 & y2 & [H1|[]] & [H2|[]] & H)]; auto. exact (In_convex y1 w y2 acc H1 H2 H).
  - apply IH. destruct H as [H|(y1 & y2 & H1 & H2 & H)]; [left; apply In_hull_l; auto|].
    right; exists y1, y2. split; [|split; auto].
    + destruct H1 as [H1|[->|H1]]; auto; left; [apply In_hull_l|apply In_hull_r, In_pt]; auto.
    + destruct H2 as [H2|[->|H2]]; auto; left; [apply In_hull_l|apply In_hull_r, In_pt]; auto.
Qed.

Lemma low_ok lb ub il ol cl V w t : lb < ub -> lb <= t <= ub -> wf V -> V <> Emp -> V <> ALL ->
  (forall vl, lbound V = Some vl -> il + vl * (t - lb) <= w) ->
  (forall vu, ubound V = Some vu -> ol + vu * (t - ub) <= w) -> lo_le cl w ->
  exists y, (y = il \/ List.In y (low_pts lb ub il ol cl V) \/ y = ol) /\ y <= w.
Proof.
  intros Hd Ht Hw Hne Hna Hl Hu Hc. unfold low_pts.
  destruct V as [|[vl|] [vu|]]; simpl in *; try congruence; [| | |destruct (Hna eq_refl)].
  - specialize (Hl _ eq_refl). specialize (Hu _ eq_refl).
    destruct (Reqb vl vu) eqn:E.
    { apply Reqb_true in E; subst vu. destruct (Rle_dec 0 vl); [exists il|exists ol]; split; auto; nra. }
    apply Reqb_false in E. assert (vl < vu) as Hlt by lra.
    set (ti := lines_lb lb ub il ol vl vu).
    assert (il + vl * (ti - lb) = ol + vu * (ti - ub)) as Et.
    { unfold ti, lines_lb. field. lra. }
    destruct (Rleb lb ti && Rleb ti ub) eqn:B.
    + apply andb_true_iff in B. rewrite !Rleb_true in B.
      rewrite Et. rewrite Rmin_left, Rmax_left by lra. set (y := ol + vu * (ti - ub)) in *.
      assert (exists z, (z = il \/ z = y \/ z = ol) /\ z <= w) as (z & Hz & Hzw).
      { destruct (Rle_dec t ti).
        - destruct (Rle_dec 0 vl); [exists il|exists y]; split; auto; [nra|]. rewrite <- Et. nra.
        - destruct (Rle_dec vu 0); [exists ol|exists y]; split; auto; [nra|]. unfold y; nra. }
      destruct cl as [c|]; simpl in *.
      * destruct (Rleb c y) eqn:C; [exists z; split; [simpl; destruct Hz as [ -> | [ -> | -> ] ]; auto|exact Hzw]|exists c; split; [simpl; auto|exact Hc]].
      * exists z; split; [simpl; destruct Hz as [ -> | [ -> | -> ] ]; auto|exact Hzw].
    + apply andb_false_iff in B. rewrite !Rleb_false in B. destruct B as [B|B].
      * destruct (Rle_dec vu 0); [exists ol|exists il]; split; auto; nra.
      * destruct (Rle_dec 0 vl); [exists il|exists ol]; split; auto; nra.
  - specialize (Hl _ eq_refl). rewrite (proj2 (Rleb_true _ _)) by lra. rewrite (proj2 (Rleb_true _ _)) by lra. simpl.
    set (y := il + vl * (ub - lb)).
    assert (exists z, (z = il \/ z = y \/ z = ol) /\ z <= w) as (z & Hz & Hzw).
    { destruct (Rle_dec 0 vl); [exists il|exists y]; split; auto; [nra|]. unfold y; nra. }
    destruct cl as [c|]; simpl in *; [destruct (Rleb c y) eqn:C; [exists z; split; [simpl; destruct Hz as [ -> | [ -> | -> ] ]; auto|exact Hzw]|exists c; split; [simpl; auto|exact Hc]]|exists z; split; [simpl; destruct Hz as [ -> | [ -> | -> ] ]; auto|exact Hzw]].
  - specialize (Hu _ eq_refl). rewrite (proj2 (Rleb_true _ _)) by lra. rewrite (proj2 (Rleb_true _ _)) by lra. simpl.
    set (y := ol + vu * (lb - ub)).
    assert (exists z, (z = il \/ z = y \/ z = ol) /\ z <= w) as (z & Hz & Hzw).
    { destruct (Rle_dec vu 0); [exists ol|exists y]; split; auto; [nra|]. unfold y; nra. }
    destruct cl as [c|]; simpl in *; [destruct (Rleb c y) eqn:C; [exists z; split; [simpl; destruct Hz as [ -> | [ -> | -> ] ]; auto|exact Hzw]|exists c; split; [simpl; auto|exact Hc]]|exists z; split; [simpl; destruct Hz as [ -> | [ -> | -> ] ]; auto|exact Hzw]].
Qed.

Lemma upp_ok lb ub iu ou cu V w t : lb < ub -> lb <= t <= ub -> wf V -> V <> Emp -> V <> ALL ->
  (forall vu, ubound V = Some vu -> w <= iu + vu * (t - lb)) ->
  (forall vl, lbound V = Some vl -> w <= ou + vl * (t - ub)) -> le_hi w cu ->
  exists y, (y = iu \/ List.In y (upp_pts lb ub iu ou cu V) \/ y = ou) /\ w <= y.
Proof.
  intros Hd Ht Hw Hne Hna Hu Hl Hc. unfold upp_pts.
  destruct V as [|[vl|] [vu|]]; simpl in *; try congruence; [| | |destruct (Hna eq_refl)].
  - specialize (Hl _ eq_refl). specialize (Hu _ eq_refl).
    destruct (Reqb vl vu) eqn:E.
    { apply Reqb_true in E; subst vu. destruct (Rle_dec 0 vl); [exists ou|exists iu]; split; auto; nra. }
    apply Reqb_false in E. assert (vl < vu) as Hlt by lra.
    set (ti := lines_ub lb ub iu ou vl vu).
    assert (iu + vu * (ti - lb) = ou + vl * (ti - ub)) as Et.
    { unfold ti, lines_ub. field. lra. }
    destruct (Rleb lb ti && Rleb ti ub) eqn:B.
    + apply andb_true_iff in B. rewrite !Rleb_true in B.
      rewrite Et. rewrite Rmin_left, Rmax_left by lra. set (y := ou + vl * (ti - ub)) in *.
      assert (exists z, (z = iu \/ z = y \/ z = ou) /\ w <= z) as (z & Hz & Hzw).
      { destruct (Rle_dec t ti).
        - destruct (Rle_dec vu 0); [exists iu|exists y]; split; auto; [nra|]. rewrite <- Et. nra.
        - destruct (Rle_dec 0 vl); [exists ou|exists y]; split; auto; [nra|]. unfold y; nra. }
      destruct cu as [c|]; simpl in *.
      * destruct (Rleb y c) eqn:C; [exists z; split; [simpl; destruct Hz as [ -> | [ -> | -> ] ]; auto|exact Hzw]|exists c; split; [simpl; auto|exact Hc]].
      * exists z; split; [simpl; destruct Hz as [ -> | [ -> | -> ] ]; auto|exact Hzw].
    + apply andb_false_iff in B. rewrite !Rleb_false in B. destruct B as [B|B].
      * destruct (Rle_dec 0 vl); [exists ou|exists iu]; split; auto; nra.
      * destruct (Rle_dec vu 0); [exists iu|exists ou]; split; auto; nra.
  - specialize (Hl _ eq_refl). rewrite (proj2 (Rleb_true _ _)) by lra. rewrite (proj2 (Rleb_true _ _)) by lra. simpl.
    set (y := ou + vl * (lb - ub)).
    assert (exists z, (z = iu \/ z = y \/ z = ou) /\ w <= z) as (z & Hz & Hzw).
    { destruct (Rle_dec 0 vl); [exists ou|exists y]; split; auto; [nra|]. unfold y; nra. }
    destruct cu as [c|]; simpl in *; [destruct (Rleb y c) eqn:C; [exists z; split; [simpl; destruct Hz as [ -> | [ -> | -> ] ]; auto|exact Hzw]|exists c; split; [simpl; auto|exact Hc]]|exists z; split; [simpl; destruct Hz as [ -> | [ -> | -> ] ]; auto|exact Hzw]].
  - specialize (Hu _ eq_refl). rewrite (proj2 (Rleb_true _ _)) by lra. rewrite (proj2 (Rleb_true _ _)) by lra. simpl.
    set (y := iu + vu * (ub - lb)).
    assert (exists z, (z = iu \/ z = y \/ z = ou) /\ w <= z) as (z & Hz & Hzw).
    { destruct (Rle_dec vu 0); [exists iu|exists y]; split; auto; [nra|]. unfold y; nra. }
    destruct cu as [c|]; simpl in *; [destruct (Rleb y c) eqn:C; [exists z; split; [simpl; destruct Hz as [ -> | [ -> | -> ] ]; auto|exact Hzw]|exists c; split; [simpl; auto|exact Hc]]|exists z; split; [simpl; destruct Hz as [ -> | [ -> | -> ] ]; auto|exact Hzw]].
Qed.

(** bounds given by the slopes *)
Lemma rises_bounds f V lb ub t1 t2 : rises f V lb ub -> lb <= t1 <= t2 -> t2 <= ub ->
  (forall vl, lbound V = Some vl -> vl * (t2 - t1) <= f t2 - f t1) /\
  (forall vu, ubound V = Some vu -> f t2 - f t1 <= vu * (t2 - t1)).
Proof.
  intros H H1 H2. destruct (Req_EM_T t1 t2) as [->|N]; [split; intros; lra|].
  destruct (rises_step f V lb ub t1 t2 H) as (p & Hp & E); try lra.
  rewrite E. destruct V as [|[vl|] [vu|]]; simpl in *; try tauto; split; intros v Ev; inversion Ev; subst; nra.
Qed.

Definition bounded_itv (i : itv) : Prop := exists l h, i = Itv (Some l) (Some h).

Lemma polygon_in s sv f t : s_lb s < s_ub s -> slice_ok s -> wf (s_cod sv) -> slice_has s f ->
  rises f (s_cod sv) (s_lb s) (s_ub s) ->
  bounded_itv (s_in s) -> bounded_itv (s_out s) ->
  s_lb s <= t <= s_ub s -> In (f t) (polygon_y s sv).
Proof.
  intros Hd Hok Hwv Hs Hr (il & iu & Ei) (ol & ou & Eo) Ht.
  pose proof (slice_has_closed s f Hok Hs t Ht) as Hc.
  unfold polygon_y. destruct (s_cod s) as [|cl cu]; [destruct Hc|].
  destruct (itv_eqb (s_cod sv) ALL) eqn:EA; [auto|]. apply itv_eqb_false in EA.
  destruct Hs as (Hin & Hout & _). rewrite Ei in *. rewrite Eo in *.
  assert (s_cod sv <> Emp) as Hne.
  { intros E. specialize (Hr (s_lb s) (s_ub s)). rewrite E in Hr. apply Hr; lra. }
  destruct (rises_bounds f _ _ _ (s_lb s) t Hr) as [L1 U1]; try lra.
  destruct (rises_bounds f _ _ _ t (s_ub s) Hr) as [L2 U2]; try lra.
  simpl in Hin, Hout.
  destruct (low_ok (s_lb s) (s_ub s) il ol cl (s_cod sv) (f t) t) as (y1 & H1 & H1'); auto.
  { intros vl E. specialize (L1 vl E). lra. }
  { intros vu E. specialize (U2 vu E). nra. }
  { apply Hc. }
  destruct (upp_ok (s_lb s) (s_ub s) iu ou cu (s_cod sv) (f t) t) as (y2 & H2 & H2'); auto.
  { intros vu E. specialize (U1 vu E). lra. }
  { intros vl E. specialize (L2 vl E). nra. }
  { apply Hc. }
  apply fold_pt_hull. right. exists y1, y2. split; [|split; [|lra]]; right.
  - rewrite !in_app_iff. simpl. intuition.
  - rewrite !in_app_iff. simpl. intuition.
Qed.

(** ** one slice *)
Lemma unclip_sub i : sub i (unclip i).
Proof.
  destruct i as [|l h]; [apply sub_refl|]. intros w [H1 H2]. split.
  - destruct l as [a|]; simpl in *; auto. destruct (Reqb a (- binf)); simpl; auto.
  - destruct h as [b|]; simpl in *; auto. destruct (Reqb b binf); simpl; auto.
Qed.
Lemma wf_unclip i : wf i -> wf (unclip i).
Proof.
  destruct i as [|[a|] [b|]]; simpl; auto; repeat match goal with |- context [Reqb ?u ?v] => destruct (Reqb u v) end; simpl; auto.
Qed.
(** no value of [-binf,binf] is added *)
Definition sub_binf (i j : itv) : Prop := forall w, - binf <= w <= binf -> In w i -> In w j.
Lemma downward_sub_binf : downward sub_binf. Proof. intros i j k H1 H2 w Hw Hi; auto. Qed.
Lemma unclip_sub_binf i : wf i -> sub_binf (unclip i) i.
Proof.
  intros W w Hw. pose proof binf_pos. destruct i as [|[a|] [b|]]; simpl in *; auto;
   repeat match goal with |- context [Reqb ?u ?v] => destruct (Reqb u v) eqn:?E end; simpl;
   rewrite ?Reqb_true, ?Reqb_false in *; intuition lra.
Qed.

Lemma dom_nth (x y : tube) k s s' : map dom x = map dom y -> nth_error x k = Some s -> nth_error y k = Some s' ->
  s_lb s = s_lb s' /\ s_ub s = s_ub s'.
Proof.
  intros D E E'. destruct (nth_dom x y k s D E) as (q & Eq & H1 & H2). rewrite E' in Eq; inversion Eq; subst. auto.
Qed.
Lemma set_input_gate_dom k g c x : map dom (set_input_gate k g c x) = map dom x.
Proof. apply put_gate_dom. Qed.
Lemma set_output_gate_dom k g c x : map dom (set_output_gate k g c x) = map dom x.
Proof. apply put_gate_dom. Qed.

(** three writes in a row, as done twice by CtcDeriv *)
Definition write3 k e i o x := set_output_gate k o true (set_input_gate k i true (set_envelope k e true x)).
Lemma write3_ok a b x k e i o : tube_ok a b x -> wf e -> wf i -> wf o -> tube_ok a b (write3 k e i o x).
Proof. intros. unfold write3. auto using set_output_gate_ok, set_input_gate_ok, set_envelope_ok. Qed.
Lemma write3_dom k e i o x : map dom (write3 k e i o x) = map dom x.
Proof. unfold write3. rewrite set_output_gate_dom, set_input_gate_dom. apply set_envelope_dom. Qed.
Lemma write3_has a b x k s e i o f : tube_ok a b x -> wf e -> wf i -> nth_error x k = Some s -> has x f ->
  (forall t, s_lb s <= t <= s_ub s -> In (f t) e) -> In (f (s_lb s)) i -> In (f (s_ub s)) o -> has (write3 k e i o x) f.
Proof.
  intros H We Wi E Hf He Hi Ho. unfold write3.
  set (x1 := set_envelope k e true x). assert (tube_ok a b x1) as H1 by (apply set_envelope_ok; auto).
  assert (map dom x = map dom x1) as D1 by (symmetry; apply set_envelope_dom).
  destruct (nth_dom x x1 k s D1 E) as (s1 & E1 & L1 & U1).
  set (x2 := set_input_gate k i true x1). assert (tube_ok a b x2) as H2 by (apply set_input_gate_ok; auto).
  assert (map dom x = map dom x2) as D2 by (unfold x2; rewrite set_input_gate_dom; auto).
  destruct (nth_dom x x2 k s D2 E) as (s2 & E2 & L2 & U2).
  apply (set_output_gate_has a b x2 k s2); auto; [|congruence].
  apply (set_input_gate_has a b x1 k s1); auto; [|congruence].
  apply (set_envelope_has a b x k s); auto.
Qed.
Lemma write3_trel P x y k s e i o : downward P -> gates_shared y -> trel P x y -> nth_error y k = Some s ->
  P e (s_cod s) -> P i (s_in s) -> P o (s_out s) -> trel P (write3 k e i o x) y.
Proof.
  intros D Hs H E He Hi Ho. unfold write3.
  eapply trel_set_output_gate; eauto. eapply trel_set_input_gate; eauto. eapply trel_set_envelope; eauto.
Qed.
Lemma inter_opt_sub_r g o c : o = Some c -> sub (inter_opt g o) c.
Proof. intros ->. apply sub_inter_r. Qed.
(** the values at rank [k] after the three writes *)
Lemma write3_nth a b x k s e i o s1 : tube_ok a b x -> nth_error x k = Some s -> nth_error (write3 k e i o x) k = Some s1 ->
  s_cod s1 = e /\ sub (s_in s1) e /\ sub (s_out s1) e.
Proof.
  intros H E. unfold write3, set_output_gate, set_input_gate. 
  set (x1 := set_envelope k e true x).
  assert (nth_error x1 k = Some (mkS (s_lb s) (s_ub s) e (inter (s_in s) e) (inter (s_out s) e))) as E1.
  { unfold x1. rewrite (set_envelope_nth k e x s k E), Nat.eqb_refl. auto. }
  assert (cod_at x1 k = Some e) as C1 by (unfold cod_at; rewrite E1; auto).
  rewrite put_gate_nth. destruct (Nat.eqb_spec k (S k)); [lia|]. rewrite Nat.eqb_refl, put_gate_nth, Nat.eqb_refl, E1.
  simpl. intros E2; inversion E2; subst s1; simpl. split; auto. split.
  - eapply sub_trans; [apply inter_opt_sub_l|]. rewrite C1. apply inter_opt_sub_r; auto.
  - eapply sub_trans; [apply inter_opt_sub_l|]. rewrite put_gate_cod, C1. apply inter_opt_sub_r; auto.
Qed.

Lemma sub_bounded i l h : wf i -> sub i (Itv (Some l) (Some h)) -> (exists w, In w i) -> bounded_itv i.
Proof.
  intros W H (w & Hw). apply sub_is_subset in H; auto. destruct i as [|[p|] [q|]]; simpl in *; try tauto; try discriminate.
  - exists p, q; auto.
  - rewrite andb_false_r in H; discriminate.
Qed.

Lemma deriv_slice_ok A a b rt v x k : arith_ok A -> tube_ok a b x -> tube_ok a b (deriv_slice A rt v x k).
Proof.
  intros HA H. unfold deriv_slice. destruct (nth_error x k) as [s|] eqn:E; auto. destruct (nth_error v k) as [sv|]; auto.
  destruct (negb _); auto. cbv zeta. destruct (_ || _).
  - apply write3_ok; auto using wf_unclip, wf_inter.
    + apply write3_ok; auto using wf_inter.
    + apply wf_unclip. match goal with |- wf (match ?m with _ => _ end) => destruct m end; auto using wf_inter.
  - apply write3_ok; auto using wf_inter.
Qed.
Lemma deriv_slice_dom A rt v x k : map dom (deriv_slice A rt v x k) = map dom x.
Proof.
  unfold deriv_slice. destruct (nth_error x k); auto. destruct (nth_error v k); auto. destruct (negb _); auto. cbv zeta.
  destruct (_ || _); [eapply eq_trans; [apply write3_dom|]|]; apply write3_dom.
Qed.

(** the constraint on one slice *)
Lemma deriv_slice_has A a b rt v x k f : arith_ok A -> tube_ok a b x -> has x f ->
  (forall t, a <= t <= b -> - binf <= f t <= binf) ->
  (forall sv, nth_error v k = Some sv -> wf (s_cod sv)) ->
  (forall s sv, nth_error x k = Some s -> nth_error v k = Some sv -> rises f (s_cod sv) (s_lb s) (s_ub s)) ->
  has (deriv_slice A rt v x k) f.
Proof.
  intros HA H Hf HM Hwv Hr. unfold deriv_slice. destruct (nth_error x k) as [s|] eqn:E; auto. destruct (nth_error v k) as [sv|] eqn:Ev; auto.
  specialize (Hwv _ eq_refl). specialize (Hr _ _ eq_refl eq_refl).
  destruct (negb _); auto. cbv zeta.
  pose proof (nth_error_In _ _ E) as Hin. destruct (chain_in_bounds _ _ _ _ (ok_chain _ _ _ H) Hin) as (B1 & B2 & B3).
  pose proof (ok_in _ _ _ _ H Hin) as Hok. pose proof (Hf _ Hin) as Hs.
  pose proof (slice_has_closed s f Hok Hs) as Hcl. destruct Hs as (Hsi & Hso & _).
  set (d := s_ub s - s_lb s).
  set (ing := inter (s_in s) (isub A (s_out s) (imul A (pt d) (s_cod sv)))).
  set (outg := inter (s_out s) (iadd A (s_in s) (imul A (pt d) (s_cod sv)))).
  destruct (rises_step f _ _ _ (s_lb s) (s_ub s) Hr) as (p & Hp & Ep); try lra.
  assert (In (d * p) (imul A (pt d) (s_cod sv))) as Hdp by (apply (imul_in _ HA); auto; apply In_pt; auto).
  assert (In (f (s_lb s)) ing) as Hi.
  { apply In_inter; split; auto. replace (f (s_lb s)) with (f (s_ub s) - d * p) by (unfold d; lra). apply (isub_in _ HA); auto. }
  assert (In (f (s_ub s)) outg) as Ho.
  { apply In_inter; split; auto. rewrite Ep. apply (iadd_in _ HA); auto. }
  destruct (is_superset outg (s_out s) || is_superset ing (s_in s)).
  - set (e1 := inter (s_cod s) (Itv (Some (- binf)) (Some binf))).
    fold (write3 k e1 ing outg x). set (x1 := write3 k e1 ing outg x).
    assert (forall t, s_lb s <= t <= s_ub s -> In (f t) e1) as He1.
    { intros t Ht. apply In_inter; split; [apply Hcl; auto|]. simpl. apply HM; lra. }
    assert (tube_ok a b x1) as H1 by (apply write3_ok; unfold e1, ing, outg; auto using wf_inter).
    assert (has x1 f) as Hf1 by (apply (write3_has a b x k s); unfold e1, ing, outg; auto using wf_inter).
    assert (map dom x = map dom x1) as D1 by (symmetry; apply write3_dom).
    destruct (nth_dom x x1 k s D1 E) as (s1 & E1 & L1 & U1). rewrite E1.
    destruct (write3_nth a b x k s e1 ing outg s1 H E E1) as (C1 & C2 & C3).
    pose proof (nth_error_In _ _ E1) as Hin1. pose proof (ok_in _ _ _ _ H1 Hin1) as Hok1. pose proof (Hf1 _ Hin1) as Hs1.
    fold (write3 k (unclip (inter e1 (polygon_y s1 sv))) (unclip ing) (unclip outg) x1).
    apply (write3_has a b x1 k s1); auto; try (apply wf_unclip; unfold ing; auto using wf_inter).
    + intros t Ht. apply unclip_sub, In_inter. split; [apply He1; lra|].
      destruct Hok1 as (W1 & W2 & W3 & _). 
      apply (polygon_in s1 sv f t); auto; try lra.
      * apply (ok_in _ _ _ _ H1 Hin1).
      * rewrite L1, U1. auto.
      * eapply sub_bounded; auto. eapply sub_trans; [exact C2|apply sub_inter_r]. exists (f (s_lb s1)). apply Hs1.
      * eapply sub_bounded; auto. eapply sub_trans; [exact C3|apply sub_inter_r]. exists (f (s_ub s1)). apply Hs1.
    + rewrite L1. apply unclip_sub; auto.
    + rewrite U1. apply unclip_sub; auto.
  - apply (write3_has a b x k s); auto; try (unfold ing; auto using wf_inter).
    intros t Ht. apply In_inter; split; [apply In_inter; split; [apply Hcl; auto|]|].
    + destruct (Req_EM_T t (s_lb s)) as [->|N].
      * replace (f (s_lb s)) with (f (s_lb s) + 0 * p) by lra. apply (iadd_in _ HA); auto. apply (imul_in _ HA); auto. unfold d; simpl; lra.
      * destruct (rises_step f _ _ _ (s_lb s) t Hr) as (q & Hq & ->); try lra.
        apply (iadd_in _ HA); auto. apply (imul_in _ HA); auto. unfold d; simpl; lra.
    + destruct (Req_EM_T t (s_ub s)) as [->|N].
      * replace (f (s_ub s)) with (f (s_ub s) - 0 * p) by lra. apply (isub_in _ HA); auto. apply (imul_in _ HA); auto. unfold d; simpl; lra.
      * destruct (rises_step f _ _ _ t (s_ub s) Hr) as (q & Hq & Eq); try lra.
        replace (f t) with (f (s_ub s) - (s_ub s - t) * q) by lra.
        apply (isub_in _ HA); auto. apply (imul_in _ HA); auto. unfold d; simpl; lra.
Qed.

(** ** the whole tube *)
Lemma deriv_fold_ok A a b rt v : arith_ok A -> forall l x, tube_ok a b x ->
  tube_ok a b (fold_left (deriv_slice A rt v) l x) /\ map dom (fold_left (deriv_slice A rt v) l x) = map dom x.
Proof.
  intros HA. induction l as [|k l IH]; intros x H; cbn [fold_left]; auto.
  destruct (IH (deriv_slice A rt v x k)) as [H1 H2]; [apply deriv_slice_ok; auto|]. rewrite H2. split; auto. apply deriv_slice_dom.
Qed.
Definition deriv_sol (a b : R) (v x : tube) (f : R -> R) : Prop :=
  (forall t, a <= t <= b -> - binf <= f t <= binf) /\
  (forall k s sv, nth_error x k = Some s -> nth_error v k = Some sv -> wf (s_cod sv) /\ rises f (s_cod sv) (s_lb s) (s_ub s)).
Lemma deriv_fold_has A a b rt v f : arith_ok A -> forall l x, tube_ok a b x -> has x f -> deriv_sol a b v x f ->
  has (fold_left (deriv_slice A rt v) l x) f.
Proof.
  intros HA. induction l as [|k l IH]; intros x H Hf [HM HS]; cbn [fold_left]; auto.
  apply IH.
  - apply deriv_slice_ok; auto.
  - destruct (nth_error x k) as [s|] eqn:E; [|unfold deriv_slice; rewrite E; auto].
    apply (deriv_slice_has A a b); auto.
    + intros sv Ev. apply (HS k s sv); auto.
    + intros s' sv Es Ev. apply (HS k s' sv); auto.
  - split; auto. intros j s' sv E1 E2. 
    destruct (nth_dom _ x j s' (deriv_slice_dom A rt v x k) E1) as (s & E & L & U). rewrite <- L, <- U. eapply HS; eauto.
Qed.

Theorem deriv_tube_ok A a b rt fwd bwd v x : arith_ok A -> tube_ok a b x ->
  tube_ok a b (deriv_tube A rt fwd bwd v x) /\ map dom (deriv_tube A rt fwd bwd v x) = map dom x.
Proof.
  intros HA H. unfold deriv_tube. 
  assert (tube_ok a b (if fwd then fold_left (deriv_slice A rt v) (seq 0 (length x)) x else x) /\
    map dom (if fwd then fold_left (deriv_slice A rt v) (seq 0 (length x)) x else x) = map dom x) as [H1 D1].
  { destruct fwd; auto. apply deriv_fold_ok; auto. }
  destruct bwd; auto. destruct (deriv_fold_ok A a b rt v HA (rev (seq 0 (length x))) _ H1) as [H2 D2]. split; auto. exact (eq_trans D2 D1).
Qed.
Theorem deriv_tube_has A a b rt fwd bwd v x f : arith_ok A -> tube_ok a b x -> has x f -> deriv_sol a b v x f ->
  has (deriv_tube A rt fwd bwd v x) f.
Proof.
  intros HA H Hf HS. unfold deriv_tube. 
  assert (has (if fwd then fold_left (deriv_slice A rt v) (seq 0 (length x)) x else x) f) as H1.
  { destruct fwd; auto. apply (deriv_fold_has A a b); auto. }
  destruct bwd; auto.
  assert (tube_ok a b (if fwd then fold_left (deriv_slice A rt v) (seq 0 (length x)) x else x) /\
    map dom (if fwd then fold_left (deriv_slice A rt v) (seq 0 (length x)) x else x) = map dom x) as [H2 D2].
  { destruct fwd; auto. apply deriv_fold_ok; auto. }
  apply (deriv_fold_has A a b); auto. destruct HS as [HM HS]. split; auto. intros k s' sv E1 E2.
  destruct (nth_dom _ x k s' D2 E1) as (s & E & L & U). rewrite <- L, <- U. eapply HS; eauto.
Qed.

(** ** contraction *)
Lemma deriv_slice_trel P A a b rt v x y k : arith_ok A -> downward P ->
  tube_ok a b x -> trel P x x -> 
  (forall s, nth_error x k = Some s -> forall i, wf i ->
     (sub i (s_cod s) -> P (unclip (inter i (Itv (Some (- binf)) (Some binf)))) (s_cod s)) /\
     (sub i (s_in s) -> P (unclip i) (s_in s)) /\ (sub i (s_out s) -> P (unclip i) (s_out s))) ->
  y = deriv_slice A rt v x k -> trel P y x.
Proof.
  intros HA D H Hr HP ->. unfold deriv_slice. destruct (nth_error x k) as [s|] eqn:E; auto. destruct (nth_error v k) as [sv|] eqn:Ev; auto.
  specialize (HP _ eq_refl).
  destruct (negb _); auto. cbv zeta.
  destruct (trel_nth P x x k s Hr E) as (s0 & E0 & (_ & _ & P1 & P2 & P3)). rewrite E in E0; inversion E0; subst s0.
  pose proof (ok_shared _ _ _ H) as Hsh.
  destruct (_ || _).
  - assert (forall e, sub e (s_cod s) -> P e (s_cod s)) as Q1 by (intros e He; eapply D; eauto).
    assert (forall e, sub e (s_in s) -> P e (s_in s)) as Q2 by (intros e He; eapply D; eauto).
    assert (forall e, sub e (s_out s) -> P e (s_out s)) as Q3 by (intros e He; eapply D; eauto).
    apply write3_trel with (s := s); auto.
    + apply write3_trel with (s := s); auto using sub_inter_l.
    + match goal with |- context [match ?m with Some _ => _ | None => _ end] => destruct m as [s1|] end.
      * rewrite inter_assoc, (inter_comm _ (polygon_y s1 sv)), <- inter_assoc.
        apply HP; auto using wf_inter, sub_inter_l.
      * assert (wf (s_cod s)) as W by (apply (ok_in _ _ _ s H), (nth_error_In _ _ E)).
        apply HP; auto using sub_refl.
    + apply HP; auto using wf_inter, sub_inter_l.
    + apply HP; auto using wf_inter, sub_inter_l.
  - apply write3_trel with (s := s); auto; eapply D; eauto using sub_inter_l, sub_trans.
Qed.

(** for all tubes: no value of [-binf,binf] is added *)
Theorem deriv_slice_binf A a b rt v x k : arith_ok A -> tube_ok a b x -> trel sub_binf (deriv_slice A rt v x k) x.
Proof.
  intros HA H. eapply (deriv_slice_trel sub_binf A a b); eauto using downward_sub_binf.
  - apply trel_refl. intros i w _ Hi; auto.
  - intros s E i W. split; [|split]; intros Hi w Hw Hu; apply Hi; apply unclip_sub_binf in Hu; auto using wf_inter.
    eapply sub_inter_l; eauto.
Qed.
(** for tubes with values strictly inside of [-binf,binf]: contraction *)
Definition tame (i : itv) : Prop := i = Emp \/ exists l h, i = Itv (Some l) (Some h) /\ - binf < l /\ h < binf.
Definition tame_slice (s : slice) : Prop := tame (s_cod s) /\ tame (s_in s) /\ tame (s_out s).
Lemma tame_sub i j : wf i -> sub i j -> tame j -> tame i.
Proof.
  intros W H [->|(l & h & -> & H1 & H2)].
  - left. apply wf_ext; auto using wf_Emp. intros w; split; [apply H|intros []].
  - destruct i as [|p q]; [left; auto|]. right. apply sub_is_subset in H; auto.
    destruct p as [p|], q as [q|]; simpl in H; rewrite ?andb_false_r in H; try discriminate.
    apply andb_true_iff in H. rewrite !Rleb_true in H. exists p, q. split; auto. lra.
Qed.
Lemma tame_unclip i : tame i -> unclip i = i.
Proof.
  intros [->|(l & h & -> & H1 & H2)]; auto. pose proof (Rle_dec (- binf) binf). simpl.
  destruct (Reqb l (- binf)) eqn:E1; [apply Reqb_true in E1; lra|]. destruct (Reqb h binf) eqn:E2; [apply Reqb_true in E2; lra|]. auto.
Qed.
Lemma deriv_slice_tame A a b rt v x k : arith_ok A -> tube_ok a b x -> Forall tame_slice x -> tsub (deriv_slice A rt v x k) x.
Proof.
  intros HA H HT. apply trel_tsub. eapply (deriv_slice_trel sub A a b); eauto using downward_sub.
  - apply trel_refl, sub_refl.
  - intros s E i W. apply nth_error_In in E. rewrite Forall_forall in HT. destruct (HT _ E) as (T1 & T2 & T3).
    split; [|split]; intros Hi; rewrite tame_unclip; auto.
    + eapply sub_trans; [apply sub_inter_l|auto].
    + eapply tame_sub; [apply wf_inter| |exact T1]. eapply sub_trans; [apply sub_inter_l|auto].
    + eapply tame_sub; eauto.
    + eapply tame_sub; eauto.
Qed.
Lemma tame_tsub a b x' x : tube_ok a b x' -> tsub x' x -> Forall tame_slice x -> Forall tame_slice x'.
Proof.
  intros H Hs HT. rewrite Forall_forall in *. intros s' Hin. destruct (In_nth_error _ _ Hin) as (k & E').
  pose proof (ok_in _ _ _ _ H Hin) as (W1 & W2 & W3 & _).
  apply tsub_nth in Hs. destruct Hs as [Hl Hs]. destruct (nth_error x k) as [s|] eqn:E.
  - destruct (Hs _ _ _ E' E) as (_ & _ & S1 & S2 & S3). destruct (HT s (nth_error_In _ _ E)) as (T1 & T2 & T3).
    split; [|split]; eapply tame_sub; eauto.
  - apply nth_error_None in E. assert (nth_error x' k <> None) as N by congruence. apply nth_error_Some in N. lia.
Qed.
Lemma deriv_fold_tame A a b rt v : arith_ok A -> forall l x, tube_ok a b x -> Forall tame_slice x ->
  tsub (fold_left (deriv_slice A rt v) l x) x.
Proof.
  intros HA. induction l as [|k l IH]; intros x H HT; cbn [fold_left]; [apply tsub_refl|].
  assert (tsub (deriv_slice A rt v x k) x) as H1 by (apply (deriv_slice_tame A a b); auto).
  assert (tube_ok a b (deriv_slice A rt v x k)) as H2 by (apply deriv_slice_ok; auto).
  eapply tsub_trans; [apply IH; auto|auto]. eapply tame_tsub; eauto.
Qed.
Theorem deriv_tube_tame A a b rt fwd bwd v x : arith_ok A -> tube_ok a b x -> Forall tame_slice x ->
  tsub (deriv_tube A rt fwd bwd v x) x.
Proof.
  intros HA H HT. unfold deriv_tube.
  set (x1 := if fwd then _ else x).
  assert (tsub x1 x) as S1. { unfold x1. destruct fwd; [apply (deriv_fold_tame A a b); auto|apply tsub_refl]. }
  assert (tube_ok a b x1) as O1. { unfold x1. destruct fwd; auto. apply deriv_fold_ok; auto. }
  destruct bwd; auto. eapply tsub_trans; [|exact S1]. apply (deriv_fold_tame A a b); auto. eapply tame_tsub; eauto.
Qed.
Lemma deriv_fold_binf A a b rt v : arith_ok A -> forall l x, tube_ok a b x ->
  trel sub_binf (fold_left (deriv_slice A rt v) l x) x.
Proof.
  assert (forall i j k, sub_binf i j -> sub_binf j k -> sub_binf i k) as T by (intros i j k H1 H2 w Hw Hi; auto).
  intros HA. induction l as [|k l IH]; intros x H; cbn [fold_left].
  - apply trel_refl. intros i w _ Hi; auto.
  - eapply trel_trans; [exact T|apply IH; apply deriv_slice_ok; auto|eapply deriv_slice_binf; eauto].
Qed.
Theorem deriv_tube_binf A a b rt fwd bwd v x : arith_ok A -> tube_ok a b x -> trel sub_binf (deriv_tube A rt fwd bwd v x) x.
Proof.
  assert (forall i j k, sub_binf i j -> sub_binf j k -> sub_binf i k) as T by (intros i j k H1 H2 w Hw Hi; auto).
  intros HA H. unfold deriv_tube. set (x1 := if fwd then _ else x).
  assert (trel sub_binf x1 x) as S1.
  { unfold x1. destruct fwd; [apply (deriv_fold_binf A a b); auto|]. apply trel_refl. intros i w _ Hi; auto. }
  assert (tube_ok a b x1) as O1. { unfold x1. destruct fwd; auto. apply deriv_fold_ok; auto. }
  destruct bwd; auto. eapply trel_trans; [exact T| |exact S1]. apply (deriv_fold_binf A a b); auto.
Qed.

(** ** contract_gates *)
Theorem deriv_gates_spec A a b v x k f : arith_ok A -> tube_ok a b x ->
  tube_ok a b (deriv_gates A v x k) /\ tsub (deriv_gates A v x k) x /\
  (has x f -> (forall s sv, nth_error x k = Some s -> nth_error v k = Some sv -> rises f (s_cod sv) (s_lb s) (s_ub s)) ->
   has (deriv_gates A v x k) f).
Proof.
  intros HA H. unfold deriv_gates. destruct (nth_error x k) as [s|] eqn:E; [|auto using tsub_refl]. destruct (nth_error v k) as [sv|] eqn:Ev; [|auto using tsub_refl].
  cbv zeta. set (outg := inter _ (iadd _ _ _)). set (ing := inter _ (isub _ _ _)).
  assert (tube_ok a b (set_output_gate k outg true x)) as H1 by (apply set_output_gate_ok; auto; apply wf_inter).
  assert (tsub (set_output_gate k outg true x) x) as S1 by (eapply set_output_gate_tsub; eauto; [apply H|apply sub_inter_l]).
  split; [|split].
  - apply set_input_gate_ok; auto. apply wf_inter.
  - apply trel_tsub. apply (trel_set_input_gate sub _ x k s); auto using downward_sub. apply H. apply trel_tsub; auto. apply sub_inter_l.
  - intros Hf Hr. specialize (Hr _ _ eq_refl eq_refl).
    pose proof (nth_error_In _ _ E) as Hin. destruct (chain_in_bounds _ _ _ _ (ok_chain _ _ _ H) Hin) as (B1 & B2 & B3).
    destruct (Hf _ Hin) as (F1 & F2 & _).
    destruct (rises_step f _ _ _ (s_lb s) (s_ub s) Hr) as (p & Hp & Ep); try lra.
    assert (In ((s_ub s - s_lb s) * p) (imul A (pt (s_ub s - s_lb s)) (s_cod sv))) as Hdp by (apply (imul_in _ HA); auto; apply In_pt; auto).
    assert (In (f (s_ub s)) outg) as Ho by (apply In_inter; split; auto; rewrite Ep; apply (iadd_in _ HA); auto).
    assert (In (f (s_lb s)) ing) as Hi.
    { apply In_inter; split; auto. replace (f (s_lb s)) with (f (s_ub s) - (s_ub s - s_lb s) * p) by lra. apply (isub_in _ HA); auto. }
    destruct (nth_dom x (set_output_gate k outg true x) k s) as (s1 & E1 & L1 & U1); auto.
    { symmetry; apply set_output_gate_dom. }
    apply (set_input_gate_has a b _ k s1); auto; [|congruence].
    apply (set_output_gate_has a b x k s); auto.
Qed.

(** ** with a derivative *)
Lemma follows_sol a b f g v x : follows a b f g -> tube_ok a b x -> tube_ok a b v -> map dom x = map dom v -> has v g ->
  (forall t, a <= t <= b -> - binf <= f t <= binf) -> deriv_sol a b v x f.
Proof.
  intros HF Hx Hv D Hg HM. split; auto. intros k s sv E Ev.
  pose proof (nth_error_In _ _ E) as Hin. destruct (chain_in_bounds _ _ _ _ (ok_chain _ _ _ Hx) Hin) as (B1 & B2 & B3).
  pose proof (nth_error_In _ _ Ev) as Hinv. destruct (dom_nth x v k s sv D E Ev) as [L U].
  split; [apply (ok_in _ _ _ _ Hv Hinv)|]. apply HF; auto. intros t Ht. apply (Hg _ Hinv). lra.
Qed.

(** ** slices whose codomain is out of the clipping range *)
Lemma deriv_slice_emp A a b rt v x k s s1 : tube_ok a b x -> nth_error x k = Some s -> s_cod s = Emp ->
  nth_error (deriv_slice A rt v x k) k = Some s1 -> s_cod s1 = Emp.
Proof.
  intros H E C. unfold deriv_slice. rewrite E. destruct (nth_error v k) as [sv|] eqn:Ev; [|congruence].
  destruct (negb _); [congruence|]. cbv zeta. rewrite C.
  set (ing := inter (s_in s) _). set (outg := inter (s_out s) _).
  destruct (_ || _).
  - match goal with |- nth_error (set_output_gate k ?o true (set_input_gate k ?i true (set_envelope k ?e true ?y))) k = _ -> _ =>
      set (o' := o); set (i' := i); set (y' := y); set (e' := e); fold (write3 k e' i' o' y') end.
    assert (tube_ok a b y') as Hy by (apply write3_ok; auto using wf_inter; unfold ing, outg; auto using wf_inter).
    intros Es. assert (exists q, nth_error y' k = Some q) as [q Eq].
    { destruct (nth_dom (write3 k e' i' o' y') y' k s1) as (q & Eq & _); eauto. apply write3_dom. }
    apply (write3_nth a b y' k q e' i' o' s1) in Es; auto. destruct Es as [-> _].
    unfold e'. match goal with |- unclip (match ?m with _ => _ end) = _ => destruct m end; reflexivity.
  - intros Es. match type of Es with nth_error (set_output_gate k ?o true (set_input_gate k ?i true (set_envelope k ?e true ?y))) k = _ =>
      fold (write3 k e i o y) in Es end.
    apply (write3_nth a b x k s) in Es; auto. destruct Es as [-> _]. reflexivity.
Qed.
(** the branch that clips *)
Lemma deriv_slice_clip A a b rt v x k s sv s1 : tube_ok a b x -> nth_error x k = Some s -> nth_error v k = Some sv ->
  intersects (s_dom s) rt = true ->
  is_superset (inter (s_out s) (iadd A (s_in s) (imul A (pt (s_ub s - s_lb s)) (s_cod sv)))) (s_out s) = true ->
  nth_error (deriv_slice A rt v x k) k = Some s1 ->
  exists p, s_cod s1 = unclip (inter (inter (s_cod s) (Itv (Some (- binf)) (Some binf))) p).
Proof.
  intros H E Ev Hi Hs. unfold deriv_slice. rewrite E, Ev, Hi, Hs. cbv zeta. cbn [negb orb].
  set (ing := inter (s_in s) _). set (outg := inter (s_out s) _).
  match goal with |- nth_error (set_output_gate k ?o true (set_input_gate k ?i true (set_envelope k ?e true ?y))) k = _ -> _ =>
    set (o' := o); set (i' := i); set (y' := y); set (e' := e); fold (write3 k e' i' o' y') end.
  assert (tube_ok a b y') as Hy by (apply write3_ok; auto using wf_inter; unfold ing, outg; auto using wf_inter).
  intros Es. assert (exists q, nth_error y' k = Some q) as [q Eq].
  { destruct (nth_dom (write3 k e' i' o' y') y' k s1) as (q & Eq & _); eauto. apply write3_dom. }
  apply (write3_nth a b y' k q e' i' o' s1) in Es; auto. destruct Es as [-> _].
  exists (polygon_y q sv). unfold e', y' in *. rewrite Eq. auto.
Qed.

(** ** pointwise reading of [trel] *)
Lemma trel_eval (P : itv -> itv -> Prop) a b x' x t : (forall i, P i i) -> (forall i j k l, P i j -> P k l -> P (inter i k) (inter j l)) ->
  tube_ok a b x' -> tube_ok a b x -> trel P x' x -> P (eval_t x' t) (eval_t x t).
Proof.
  intros HR HI H' H Hs. destruct (Rle_dec a t) as [H1|H1]; [destruct (Rle_dec t b) as [H2|H2]|].
  2,3: rewrite (eval_t_out a b x), (eval_t_out a b x') by (auto; lra); apply HR.
  destruct (cover x a b t H) as (k & s & E & B); [lra|].
  destruct (trel_nth P x' x k s Hs E) as (s' & E' & L & U & A3 & A4 & A5).
  rewrite (eval_t_slice a b x k s), (eval_t_slice a b x' k s') by (auto; lra).
  unfold slice_eval. rewrite L, U. repeat match goal with |- P (if ?c then _ else _) _ => destruct c end; auto.
Qed.
