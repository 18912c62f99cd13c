(** * The forward / backward propagation of an evaluation in [CtcEval] *)
From Coq Require Import Reals Lra Bool List Arith Lia Ranalysis5.
From Verif Require Import Itv Arith Tube TubeSpec TubeFacts TubeOps TubeOpsFacts TubeOpsFacts2
  TubeQueries TubeQueries2 TubeCtc DynSpec CtcDeriv CtcDerivFacts CtcEval CtcEvalFacts.
Import ListNotations.
Open Scope R_scope.
Local Arguments Nat.eqb : simpl never.
Local Arguments seq : simpl never.

(** The front [F] knows how the values of a gate [g] are placed with respect to [z]. *)
Definition anch (F g z : itv) : Prop := forall h, In h g ->
  (In h z -> In h F) /\
  ((forall v, In v z -> h < v) -> exists u, In u F /\ h <= u /\ forall v, In v z -> u <= v) /\
  ((forall v, In v z -> v < h) -> exists u, In u F /\ u <= h /\ forall v, In v z -> v <= u).

Lemma below_bound z h v0 : wf z -> In v0 z -> (forall v, In v z -> h < v) -> exists l, lbound z = Some l /\ In l z /\ h < l /\ forall v, In v z -> l <= v.
Proof.
  intros W H0 H. destruct z as [|[l|] u]; [destruct H0| |].
  - exists l. assert (In l (Itv (Some l) u)) as Hl. { destruct u; simpl in *; lra. }
    split; [auto|split; [auto|split; [auto|]]]. intros v Hv. destruct u; simpl in Hv; lra.
  - exfalso. assert (In (Rmin v0 h) (Itv None u)) as Hl.
    { pose proof (Rmin_l v0 h). destruct u; simpl in *; auto. split; auto. lra. }
    specialize (H _ Hl). pose proof (Rmin_r v0 h). lra.
Qed.
Lemma above_bound z h v0 : wf z -> In v0 z -> (forall v, In v z -> v < h) -> exists u, ubound z = Some u /\ In u z /\ u < h /\ forall v, In v z -> v <= u.
Proof.
  intros W H0 H. destruct z as [|l [u|]]; [destruct H0| |].
  - exists u. assert (In u (Itv l (Some u))) as Hl. { destruct l; simpl in *; lra. }
    split; [auto|split; [auto|split; [auto|]]]. intros v Hv. destruct l; simpl in Hv; lra.
  - exfalso. assert (In (Rmax v0 h) (Itv l None)) as Hl.
    { pose proof (Rmax_l v0 h). destruct l; simpl in *; auto. split; auto. lra. }
    specialize (H _ Hl). pose proof (Rmax_r v0 h). lra.
Qed.

Lemma anch_meet F g z : wf z -> (forall v, In v g -> In v z -> In v F) -> (exists v, In v g /\ In v z) -> anch F g z.
Proof.
  intros W H (v0 & G0 & Z0) h Hh. split; [auto|split].
  - intros Hb. destruct (below_bound z h v0 W Z0 Hb) as (l & _ & Hl & Hlt & Hmin). exists l. split; [|split; [lra|auto]].
    apply H; auto. apply (In_convex h l v0); auto. specialize (Hmin _ Z0). lra.
  - intros Hb. destruct (above_bound z h v0 W Z0 Hb) as (u & _ & Hu & Hlt & Hmax). exists u. split; [|split; [lra|auto]].
    apply H; auto. apply (In_convex v0 u h); auto. specialize (Hmax _ Z0). lra.
Qed.
Lemma anch_sub F g g' z : sub g' g -> anch F g z -> anch F g' z.
Proof. intros Hs H h Hh. apply H, Hs, Hh. Qed.
Lemma ubound_In g u : ubound g = Some u -> forall v, In v g -> v <= u.
Proof. destruct g as [|l [b|]]; simpl; try discriminate. intros E v [_ Hv]. injection E as ->. auto. Qed.
Lemma anch_first g z : wf g -> wf z -> (exists v, In v z) -> anch (first_front g z) g z.
Proof.
  intros Wg W (v0 & Z0). unfold first_front. destruct (is_empty (inter g z)) eqn:E.
  - apply is_empty_true in E.
    assert (forall v, In v g -> In v z -> False) as Hd.
    { intros v Hg Hz. assert (In v (inter g z)) as H by (apply In_inter; auto). rewrite E in H. destruct H. }
    intros h Hh. split; [intros Hz; destruct (Hd h Hh Hz)|split].
    + intros Hb. destruct (below_bound z h v0 W Z0 Hb) as (l & El & Hl & Hlt & Hmin).
      assert (exists u, ubound g = Some u /\ u < l) as (u & Eu & Hu).
      { destruct g as [|gl [gu|]]; [destruct Hh| |].
        - exists gu. split; auto. destruct (Rlt_dec gu l); auto. exfalso. apply (Hd l); auto.
          apply (In_convex h l gu); auto; [|lra]. destruct gl; simpl in *; lra.
        - exfalso. apply (Hd l); auto. destruct gl; simpl in *; lra. }
      exists l. split; [|split; [lra|auto]].
      destruct z as [|[zl|] [zu|]]; try discriminate; simpl in El; injection El as ->; rewrite Eu, (proj2 (Rltb_true _ _) Hu); apply In_pt; auto.
    + intros Hb. destruct (above_bound z h v0 W Z0 Hb) as (u & Eu & Hu & Hlt & Hmax).
      exists u. split; [|split; [lra|auto]].
      destruct z as [|[zl|] [zu|]]; try discriminate; simpl in Eu; injection Eu as ->; [|apply In_pt; auto].
      destruct (ubound g) as [gu|] eqn:Eg; [|apply In_pt; auto].
      assert (Rltb gu zl = false) as ->; [|apply In_pt; auto]. apply Rltb_false.
      pose proof (ubound_In g gu Eg h Hh). simpl in Hu. lra.
  - apply anch_meet; auto.
    + intros v Hg Hz. apply In_inter; auto.
    + apply is_empty_false in E. apply wf_witness in E; [|apply wf_inter]. destruct E as [v Hv]. apply In_inter in Hv. exists v. tauto.
Qed.

(** One step of propagation, in either direction: [W] tells the allowed slopes. *)
Lemma front_step (f : R -> R) (W : R -> Prop) F g z lb ub ts : lb < ub -> wf z ->
  (forall t, lb <= t <= ub -> continuity_pt f t) ->
  (forall t1 t2, lb <= t1 -> t1 < t2 -> t2 <= ub -> W ((f t2 - f t1) / (t2 - t1))) ->
  anch F g z -> In (f lb) g -> ts <= ub -> In (f ts) z -> (ts <= lb -> In (f lb) F) ->
  exists p q, p <= f ub <= q /\
    (In p z \/ exists u w, In u F /\ W w /\ p = u + (ub - lb) * w) /\
    (In q z \/ exists u w, In u F /\ W w /\ q = u + (ub - lb) * w).
Proof.
  intros Hlt Wz Hc HW HA Hg Hts Hz Hin.
  assert (forall t1 t2, lb <= t1 -> t1 < t2 -> t2 <= ub -> exists w, W w /\ f t2 = f t1 + (t2 - t1) * w) as Hstep.
  { intros t1 t2 H1 H2 H3. exists ((f t2 - f t1) / (t2 - t1)). split; [auto|field; lra]. }
  assert (In (f lb) F -> exists p q, p <= f ub <= q /\
    (In p z \/ exists u w, In u F /\ W w /\ p = u + (ub - lb) * w) /\
    (In q z \/ exists u w, In u F /\ W w /\ q = u + (ub - lb) * w)) as Hdirect.
  { intros HF. destruct (Hstep lb ub) as (w & Hw & E); try lra.
    exists (f ub), (f ub). split; [lra|]. split; right; exists (f lb), w; auto. }
  destruct (Rle_dec ts lb) as [Hle|Hgt]; [apply Hdirect; auto|].
  destruct (HA (f lb) Hg) as (A1 & A2 & A3).
  destruct (In_dec (f lb) z) as [Hz0|Hz0]; [apply Hdirect; auto|].
  destruct (Hstep lb ub) as (P & HP & EP); try lra.
  assert ((forall v, In v z -> f lb < v) \/ (forall v, In v z -> v < f lb)) as [Hb|Hb].
  { destruct (Rlt_dec (f lb) (f ts)) as [H|H].
    - left. intros v Hv. destruct (Rlt_dec (f lb) v); auto. exfalso. apply Hz0. apply (In_convex v (f lb) (f ts)); auto; lra.
    - right. intros v Hv. destruct (Rlt_dec v (f lb)); auto. exfalso. apply Hz0. apply (In_convex (f ts) (f lb) v); auto; lra. }
  - destruct (below_bound z (f lb) (f ts) Wz Hz Hb) as (l & _ & Hl & Hll & Hmin).
    destruct (A2 Hb) as (u & HuF & Hu1 & Hu2).
    assert (exists t', lb < t' <= ts /\ f t' = l) as (t' & Ht' & Et').
    { destruct (Req_EM_T (f ts) l) as [e|n]; [exists ts; split; [lra|auto]|].
      specialize (Hmin _ Hz) as Hm.
      destruct (IVT_interv (fun t => f t - l) lb ts) as (t' & Ht' & E'); try lra.
      - intros t Ht. apply continuity_pt_minus; [apply Hc; lra|]. apply derivable_continuous_pt, derivable_pt_const.
      - exists t'. split; [|lra]. destruct (Req_EM_T t' lb) as [->|]; lra. }
    destruct (Req_EM_T t' ub) as [->|n].
    { exists l, l. split; [lra|split; left; auto]. }
    destruct (Hstep t' ub) as (p & Hp & Ep); try lra.
    assert (0 < ub - t') by lra.
    exists (if Rle_dec 0 p then l else u + (ub - lb) * p), (if Rle_dec 0 p then u + (ub - lb) * P else l).
    destruct (Rle_dec 0 p) as [Hpos|Hneg].
    + split; [|split; [left; auto|right; exists u, P; auto]]. 
      assert (0 <= (ub - t') * p) by (apply Rmult_le_pos; lra). lra.
    + split; [|split; [right; exists u, p; auto|left; auto]]. specialize (Hu2 _ Hl).
      assert (0 <= (ub - t') * - p) by (apply Rmult_le_pos; lra).
      assert (0 <= (t' - lb) * - p) by (apply Rmult_le_pos; lra). split; nra.
  - destruct (above_bound z (f lb) (f ts) Wz Hz Hb) as (l & _ & Hl & Hll & Hmax).
    destruct (A3 Hb) as (u & HuF & Hu1 & Hu2).
    assert (exists t', lb < t' <= ts /\ f t' = l) as (t' & Ht' & Et').
    { destruct (Req_EM_T (f ts) l) as [e|n]; [exists ts; split; [lra|auto]|].
      specialize (Hmax _ Hz) as Hm.
      destruct (IVT_interv (fun t => l - f t) lb ts) as (t' & Ht' & E'); try lra.
      - intros t Ht. apply continuity_pt_minus; [|apply Hc; lra]. apply derivable_continuous_pt, derivable_pt_const.
      - exists t'. split; [|lra]. destruct (Req_EM_T t' lb) as [->|]; lra. }
    destruct (Req_EM_T t' ub) as [->|n].
    { exists l, l. split; [lra|split; left; auto]. }
    destruct (Hstep t' ub) as (p & Hp & Ep); try lra.
    assert (0 < ub - t') by lra. specialize (Hu2 _ Hl).
    exists (if Rle_dec 0 p then l else u + (ub - lb) * P), (if Rle_dec 0 p then u + (ub - lb) * p else l).
    destruct (Rle_dec 0 p) as [Hpos|Hneg].
    + split; [|split; [left; auto|right; exists u, p; auto]].
      assert (0 <= (ub - t') * p) by (apply Rmult_le_pos; lra).
      assert (0 <= (t' - lb) * p) by (apply Rmult_le_pos; lra). split; nra.
    + split; [|split; [right; exists u, P; auto|left; auto]].
      assert (0 <= (ub - t') * - p) by (apply Rmult_le_pos; lra). split; nra.
Qed.

Lemma front_step_b (f : R -> R) (W : R -> Prop) F g z lb ub ts : lb < ub -> wf z ->
  (forall t, lb <= t <= ub -> continuity_pt f t) ->
  (forall t1 t2, lb <= t1 -> t1 < t2 -> t2 <= ub -> W ((f t2 - f t1) / (t2 - t1))) ->
  anch F g z -> In (f ub) g -> lb <= ts -> In (f ts) z -> (ub <= ts -> In (f ub) F) ->
  exists p q, p <= f lb <= q /\
    (In p z \/ exists u w, In u F /\ W w /\ p = u - (ub - lb) * w) /\
    (In q z \/ exists u w, In u F /\ W w /\ q = u - (ub - lb) * w).
Proof.
  intros Hlt Wz Hc HW HA Hg Hts Hz Hin.
  destruct (front_step (fun t => f (- t)) (fun w => W (- w)) F g z (- ub) (- lb) (- ts)) as (p & q & Hpq & Hp & Hq); rewrite ?Ropp_involutive; auto; try lra.
  - intros t Ht. apply (continuity_pt_comp (fun t => - t) f).
    + apply continuity_pt_opp. apply derivable_continuous_pt, derivable_pt_id.
    + apply Hc. lra.
  - intros t1 t2 H1 H2 H3. replace (- ((f (- t2) - f (- t1)) / (t2 - t1))) with ((f (- t1) - f (- t2)) / (- t1 - - t2)) by (field; lra).
    apply HW; lra.
  - intros H. apply Hin. lra.
  - cbn beta in Hpq. rewrite Ropp_involutive in Hpq. exists p, q. split; auto.
    split; [destruct Hp as [Hp|(u & w & U & V & E)]|destruct Hq as [Hq|(u & w & U & V & E)]]; auto;
    right; exists u, (- w); repeat split; auto; rewrite E; ring.
Qed.

Section Fronts.
Variables (A : arith) (a0 b0 : R) (f g : R -> R) (w : tube) (a b ts : R) (z : itv).
Hypothesis HA : arith_ok A.
Hypothesis Wz : wf z.
Hypothesis Hcont : forall t, a0 <= t <= b0 -> continuity_pt f t.
Hypothesis Hts : a <= ts <= b.
Hypothesis Hz : In (f ts) z.

Definition LP (y : tube) (k : nat) (L : list itv) : Prop := forall n s, (n <= k)%nat -> nth_error y n = Some s -> a <= s_lb s ->
  exists F, nth_error L (k - n) = Some F /\ (ts <= s_lb s -> In (f (s_lb s)) F).

Lemma fwd_one y k s sw F : esol a0 b0 y w f g -> nth_error y k = Some s -> nth_error w k = Some sw ->
  anch F (s_in s) z -> (ts <= s_lb s -> In (f (s_lb s)) F) -> ts <= s_ub s ->
  In (f (s_ub s)) (inter (hull (iadd A F (imul A (pt (s_ub s - s_lb s)) (s_cod sw))) z) (s_out s)).
Proof.
  intros HS E Ew Han Hin Hle. destruct (esol_slice _ _ _ _ _ _ _ _ _ HS E Ew) as (Ok & (F1 & F2 & F3) & Wv & Hlt & Hr & _).
  pose proof HS as (Hy & _). destruct (chain_in_bounds _ _ _ _ (ok_chain _ _ _ Hy) (nth_error_In _ _ E)) as (B1 & B2 & B3).
  apply In_inter. split; auto.
  destruct (front_step f (fun p => In p (s_cod sw)) F (s_in s) z (s_lb s) (s_ub s) ts) as (p & q & Hpq & Hp & Hq); auto.
  - intros t Ht. apply Hcont. lra.
  - assert (forall p, (In p z \/ exists u v, In u F /\ In v (s_cod sw) /\ p = u + (s_ub s - s_lb s) * v) ->
      In p (hull (iadd A F (imul A (pt (s_ub s - s_lb s)) (s_cod sw))) z)) as Hh.
    { intros r [Hr'|(u & v & U & V & ->)]; [apply In_hull_r; auto|apply In_hull_l].
      apply (iadd_in _ HA); auto. apply (imul_in _ HA); auto. apply In_pt; auto. }
    apply (In_convex p (f (s_ub s)) q); auto.
Qed.
Lemma bwd_one y k s sw F G : esol a0 b0 y w f g -> nth_error y k = Some s -> nth_error w k = Some sw ->
  anch F G z -> In (f (s_ub s)) G -> (s_ub s <= ts -> In (f (s_ub s)) F) -> s_lb s <= ts ->
  In (f (s_lb s)) (inter (hull (isub A F (imul A (pt (s_ub s - s_lb s)) (s_cod sw))) z) (s_in s)).
Proof.
  intros HS E Ew Han HG Hin Hle. destruct (esol_slice _ _ _ _ _ _ _ _ _ HS E Ew) as (Ok & (F1 & F2 & F3) & Wv & Hlt & Hr & _).
  pose proof HS as (Hy & _). destruct (chain_in_bounds _ _ _ _ (ok_chain _ _ _ Hy) (nth_error_In _ _ E)) as (B1 & B2 & B3).
  apply In_inter. split; auto.
  destruct (front_step_b f (fun p => In p (s_cod sw)) F G z (s_lb s) (s_ub s) ts) as (p & q & Hpq & Hp & Hq); auto.
  - intros t Ht. apply Hcont. lra.
  - assert (forall p, (In p z \/ exists u v, In u F /\ In v (s_cod sw) /\ p = u - (s_ub s - s_lb s) * v) ->
      In p (hull (isub A F (imul A (pt (s_ub s - s_lb s)) (s_cod sw))) z)) as Hh.
    { intros r [Hr'|(u & v & U & V & ->)]; [apply In_hull_r; auto|apply In_hull_l].
      apply (isub_in _ HA); auto. apply (imul_in _ HA); auto. apply In_pt; auto. }
    apply (In_convex p (f (s_lb s)) q); auto.
Qed.

Lemma skipn_nth {X} (l : list X) k v : nth_error l k = Some v -> skipn k l = v :: skipn (S k) l.
Proof. revert l. induction k; destruct l; simpl; intros H; try discriminate; [congruence|]. rewrite (IHk l H). auto. Qed.

Lemma fwd_all y : esol a0 b0 y w f g -> b <= b0 ->
  (forall n s, nth_error y n = Some s -> a < s_lb s < b -> In (f ts) (s_in s)) ->
  forall m k s F L, (length y - k <= m)%nat -> nth_error y k = Some s -> s_lb s < b -> a <= s_lb s ->
  LP y k (F :: L) -> anch F (s_in s) z ->
  exists j q FB L', nth_error y j = Some q /\ a <= s_lb q /\ s_lb q < b <= s_ub q /\
    eval_fwd A (skipn k y) (skipn k w) z b F (F :: L) = FB :: L' /\ LP y j L' /\
    (ts <= s_ub q -> In (f (s_ub q)) FB).
Proof.
  intros HS Hb Hint. pose proof HS as (Hy & Hw & D & _).
  induction m as [|m IH]; intros k s F L Hm E Hl Ha HL Han.
  { assert (k < length y)%nat by (apply nth_error_Some; congruence). lia. }
  destruct (nth_dom y w k s D E) as (sw & Ew & _).
  rewrite (skipn_nth y k s E), (skipn_nth w k sw Ew). cbn [eval_fwd]. rewrite (proj2 (Rltb_true _ _) Hl).
  set (F' := inter _ (s_out s)).
  assert (ts <= s_ub s -> In (f (s_ub s)) F') as HF'.
  { intros Hle. apply (fwd_one y k); auto. destruct (HL k s (Nat.le_refl _) E Ha) as (F0 & E0 & H0).
    rewrite Nat.sub_diag in E0. injection E0 as <-. auto. }
  destruct (nth_error y (S k)) as [s'|] eqn:E'.
  - pose proof (chain_from_nth y a0 b0 k s s' (ok_chain _ _ _ Hy) E E') as Hc.
    destruct (chain_in_bounds _ _ _ _ (ok_chain _ _ _ Hy) (nth_error_In _ _ E)) as (B1 & B2 & B3).
    destruct (Rlt_dec (s_lb s') b) as [Hl'|Hl'].
    + pose proof (gates_agree y k s' s (ok_shared _ _ _ Hy) E E') as Hg.
      destruct (IH (S k) s' F' (F :: L)) as (j & q & FB & L' & R1 & R2 & R3 & R4 & R5); auto; try lia; try lra.
      * intros n sn Hn En Han'. destruct (Nat.eq_dec n (S k)) as [->|ne].
        { rewrite E' in En. injection En as <-. exists F'. rewrite Nat.sub_diag. split; auto.
          rewrite <- Hc. exact HF'. }
        destruct (HL n sn ltac:(lia) En Han') as (F0 & E0 & H0). exists F0. split; auto.
        replace (S k - n)%nat with (S (k - n)) by lia. auto.
      * apply anch_meet; auto.
        { intros v Hv Hvz. apply In_inter. split; [apply In_hull_r; auto|rewrite Hg; auto]. }
        { exists (f ts). split; auto. apply (Hint (S k)); auto. lra. }
      * exists j, q, FB, L'. auto.
    + exists k, s, F', (F :: L). split; auto. split; auto. split; [lra|]. split; [|auto].
      destruct (nth_dom y w (S k) s' D E') as (sw' & Ew' & _).
      rewrite (skipn_nth y (S k) s' E'), (skipn_nth w (S k) sw' Ew'). cbn [eval_fwd].
      rewrite (proj2 (Rltb_false _ _)); auto. lra.
  - exists k, s, F', (F :: L). split; auto. split; auto.
    assert (s_ub s = b0) as Eb.
    { assert (y <> []) by apply Hy. destruct (nth_error_last y) as [sl El]; auto.
      assert (length y - 1 = k)%nat as Hk. { apply (last_rank y k s E). apply nth_error_None in E'. assert (k < length y)%nat by (apply nth_error_Some; congruence). lia. }
      rewrite <- (chain_tf y a0 b0) by apply Hy. clear - E Hk H. 
      revert k E Hk. induction y as [|c y' IHy]; intros k E Hk; [congruence|].
      destruct y' as [|c' y'']; [simpl in Hk; subst k; simpl in E; injection E as ->; reflexivity|].
      rewrite tf_cons by discriminate. destruct k; [simpl in Hk; lia|]. apply (IHy ltac:(discriminate) k); auto. simpl in *. lia. }
    split; [lra|]. split; [|auto].
    assert (skipn (S k) y = []) as ->; [|reflexivity]. apply length_zero_iff_nil. rewrite skipn_length. apply nth_error_None in E'. lia.
Qed.

(** what the backward loop leaves unchanged: the input gates of the slices before [k] *)
Definition same_before (k : nat) (y' y : tube) : Prop := forall n s', (n < k)%nat -> nth_error y' n = Some s' ->
  exists s, nth_error y n = Some s /\ s_lb s = s_lb s' /\ s_in s = s_in s'.
Lemma same_before_put k m v y : (k <= m)%nat -> same_before k (put_gate m v y) y.
Proof.
  intros Hk n s' Hn E. rewrite put_gate_nth in E. destruct (Nat.eqb_spec n m); [lia|].
  destruct (Nat.eqb (S n) m); [|eauto]. destruct (nth_error y n) as [s|]; [|discriminate]. injection E as <-. exists s. auto.
Qed.
Lemma same_before_trans k x y u : same_before k x y -> same_before k y u -> same_before k x u.
Proof.
  intros H1 H2 n s' Hn E. destruct (H1 n s' Hn E) as (s & E1 & L1 & I1). destruct (H2 n s Hn E1) as (r & E2 & L2 & I2).
  exists r. split; auto. split; congruence.
Qed.
Lemma same_before_gates k v y : same_before k (deriv_gates A v y k) y.
Proof.
  unfold deriv_gates. destruct (nth_error y k); [|intros n s' _ E; eauto]. destruct (nth_error v k); [|intros n s' _ E; eauto].
  cbv zeta. unfold set_input_gate, set_output_gate. eapply same_before_trans; apply same_before_put; lia.
Qed.

Lemma esol_set_input_gate y k s v : esol a0 b0 y w f g -> nth_error y k = Some s -> wf v -> In (f (s_lb s)) v ->
  esol a0 b0 (set_input_gate k v true y) w f g.
Proof.
  intros (Hy & Hw & D & Hf & H) E Wv Hv. split; [apply set_input_gate_ok; auto|split; [auto|split; [|split; [|auto]]]].
  - exact (eq_trans (set_input_gate_dom k v true y) D).
  - eapply set_input_gate_has; eauto.
Qed.
Lemma esol_set_output_gate y k s v : esol a0 b0 y w f g -> nth_error y k = Some s -> wf v -> In (f (s_ub s)) v ->
  esol a0 b0 (set_output_gate k v true y) w f g.
Proof.
  intros (Hy & Hw & D & Hf & H) E Wv Hv. split; [apply set_output_gate_ok; auto|split; [auto|split; [|split; [|auto]]]].
  - exact (eq_trans (set_output_gate_dom k v true y) D).
  - eapply set_output_gate_has; eauto.
Qed.

Lemma bwd_all : forall k y s F G c L, esol a0 b0 y w f g -> nth_error y k = Some s -> Forall wf L ->
  (forall n s, (n <= k)%nat -> nth_error y n = Some s -> a < s_lb s -> In (f ts) (s_in s)) ->
  LP y k L -> anch F G z -> In (f (s_ub s)) G -> (s_ub s <= ts -> In (f (s_ub s)) F) ->
  esol a0 b0 (eval_bwd A k w z a F (c :: L) y) w f g.
Proof.
  induction k as [|k IH]; intros y s F G c L HS E HWL Hint HL Han HG HF; pose proof HS as (Hy & Hw & D & _);
  destruct (nth_dom y w _ s D E) as (sw & Ew & _); cbn [eval_bwd]; rewrite E, Ew;
  (destruct (Rleb a (s_lb s)) eqn:Ea; [|auto]); apply Rleb_true in Ea; cbn [tl]; set (F' := inter _ (s_in s)).
  - destruct (HL 0%nat s (Nat.le_refl _) E Ea) as (F0 & E0 & H0). destruct L as [|c0 L]; [discriminate|]. injection E0 as ->. cbn [hd].
    apply esol_deriv_gates; auto. apply (esol_set_input_gate y 0 s); auto.
    + apply wf_hull; [exact (Forall_inv HWL)|apply wf_inter].
    + destruct (Rle_dec ts (s_lb s)) as [Hle|Hgt]; [apply In_hull_l; auto|]. apply In_hull_r. apply (bwd_one y 0 s sw F G); auto. lra.
  - destruct (HL (S k) s (Nat.le_refl _) E Ea) as (F0 & E0 & H0). rewrite Nat.sub_diag in E0.
    destruct L as [|c0 L]; [discriminate|]. injection E0 as ->. cbn [hd].
    set (y1 := set_input_gate (S k) (hull F0 F') true y). set (y2 := deriv_gates A w y1 (S k)).
    assert (s_lb s <= ts -> In (f (s_lb s)) F') as HF'.
    { intros Hle. apply (bwd_one y (S k) s sw F G); auto. }
    assert (esol a0 b0 y1 w f g) as S1.
    { apply (esol_set_input_gate y (S k) s); auto.
      + apply wf_hull; [exact (Forall_inv HWL)|apply wf_inter].
      + destruct (Rle_dec ts (s_lb s)) as [Hle|Hgt]; [apply In_hull_l; auto|apply In_hull_r, HF'; lra]. }
    assert (esol a0 b0 y2 w f g) as S2 by (apply esol_deriv_gates; auto).
    assert (same_before (S k) y2 y) as SB.
    { eapply same_before_trans; [apply same_before_gates|]. apply same_before_put. lia. }
    assert (exists s', nth_error y2 k = Some s') as [s' E'].
    { destruct (nth_error y2 k) eqn:E'; eauto. apply nth_error_None in E'. pose proof S2 as (_ & _ & D2 & _).
      assert (S k < length y)%nat by (apply nth_error_Some; congruence).
      rewrite (length_dom _ _ D2), <- (length_dom _ _ D) in E'. lia. }
    assert (s_ub s' = s_lb s) as Eu.
    { destruct (SB k s' ltac:(lia) E') as (q & Eq & _). pose proof S2 as (_ & _ & D2 & _).
      destruct (dom_nth y2 y k s' q (eq_trans D2 (eq_sym D)) E' Eq) as [_ U].
      rewrite <- (chain_from_nth y a0 b0 k q s (ok_chain _ _ _ Hy) Eq E). auto. }
    destruct (Rle_dec a (s_lb s')) as [Ha'|Ha'].
    + apply (IH y2 s' F' (s_in s) F0 L); auto.
      * exact (Forall_inv_tail HWL).
      * intros n q Hn En Hq. destruct (SB n q ltac:(lia) En) as (r & Er & Lr & Ir). rewrite <- Ir. apply (Hint n); auto. rewrite Lr. auto.
      * intros n q Hn En Hq. destruct (SB n q ltac:(lia) En) as (r & Er & Lr & Ir). rewrite <- Lr in *.
        destruct (HL n r ltac:(lia) Er Hq) as (F1 & E1 & H1). exists F1. split; auto.
        replace (S k - n)%nat with (S (k - n)) in E1 by lia. exact E1.
      * apply anch_meet; auto.
        { intros v Hv Hvz. apply In_inter. split; auto. apply In_hull_r; auto. }
        { exists (f ts). split; auto. apply (Hint (S k)); auto.
          pose proof S2 as (Hy2 & _). destruct (chain_in_bounds _ _ _ _ (ok_chain _ _ _ Hy2) (nth_error_In _ _ E')). lra. }
      * rewrite Eu. pose proof HS as (_ & _ & _ & Hf & _). apply (Hf s (nth_error_In _ _ E)).
      * rewrite Eu. auto.
    + (* the next slice is before [a] *)
      pose proof S2 as (_ & _ & D2 & _).
      destruct (nth_dom y2 w k s' D2 E') as (sw' & Ew' & _).
      destruct k; cbn [eval_bwd]; rewrite E', Ew', (proj2 (Rleb_false _ _)) by lra; auto.
Qed.

Lemma index_before_spec y k s : tube_ok a0 b0 y -> nth_error y k = Some s -> s_lb s < b <= s_ub s -> index_before b y = k.
Proof.
  intros Hy. assert (chain_from a0 y b0) as Hc by apply Hy. clear Hy. revert k Hc. generalize a0.
  induction y as [|c y IH]; intros c0 k Hc E Hb; [destruct k; discriminate|]. cbn [index_before].
  simpl in Hc. destruct Hc as (E0 & Hlt & Hc).
  destruct k; simpl in E.
  - injection E as ->. rewrite (proj2 (Rleb_true _ _)) by lra. auto.
  - destruct (chain_in_bounds _ _ _ _ Hc (nth_error_In _ _ E)) as (B1 & B2 & B3).
    rewrite (proj2 (Rleb_false _ _)) by lra. destruct y; [destruct k; discriminate|]. f_equal. eapply IH; eauto.
Qed.

Lemma wf_eval_fwd : forall (y v : tube) F L, Forall wf L -> Forall wf (eval_fwd A y v z b F L).
Proof.
  induction y as [|s y IH]; intros v F L H; destruct v; simpl; auto. destruct (Rltb _ _); auto. apply IH. constructor; auto. apply wf_inter.
Qed.
Lemma wf_first_front i j : wf (first_front i j).
Proof.
  assert (forall r, wf (pt r)) as Hp by (intros r; simpl; lra).
  unfold first_front. destruct (is_empty _); [|apply wf_inter]. destruct j as [|[|] [|]]; try exact I; try apply Hp;
  destruct (ubound i); try exact I; try apply Hp; destruct (Rltb _ _); try exact I; apply Hp.
Qed.

(** both propagations keep the solution when no gate strictly between the bounds of [t] excludes
    the value of the solution at the evaluated instant *)
Theorem eval_fronts_sound y i s j q : esol a0 b0 y w f g -> a < b -> b <= b0 ->
  nth_error y i = Some s -> s_lb s = a -> nth_error y j = Some q -> s_ub q = b ->
  (forall n s, nth_error y n = Some s -> a < s_lb s < b -> In (f ts) (s_in s)) ->
  esol a0 b0 (eval_fronts A a b z y w) w f g.
Proof.
  intros HS Hab Hb E Es Ej Eq Hint. pose proof HS as (Hy & Hw & D & Hf & _). unfold eval_fronts.
  destruct (chain_in_bounds _ _ _ _ (ok_chain _ _ _ Hy) (nth_error_In _ _ E)) as (B1 & B2 & B3).
  destruct (chain_in_bounds _ _ _ _ (ok_chain _ _ _ Hy) (nth_error_In _ _ Ej)) as (C1 & C2 & C3).
  assert (time_to_index a y = i) as Ei.
  { assert (time_to_index a y <= i)%nat by (apply (idx_le y a i s); auto; lra).
    assert (i <= time_to_index a y)%nat by (apply (idx_ge y a0 b0 a i s); auto; try apply Hy; lra). lia. }
  rewrite Ei, E. rewrite (index_before_spec y j q) by (auto; lra). rewrite Ej.
  pose proof (ok_in _ _ _ _ Hy (nth_error_In _ _ E)) as Oks. pose proof (ok_in _ _ _ _ Hy (nth_error_In _ _ Ej)) as Okq.
  set (F := first_front (s_in s) z).
  assert (LP y i [F]) as HL.
  { intros n r Hn En Hr. assert (n = i) as ->.
    { destruct (Nat.eq_dec n i); auto. pose proof (chain_order y a0 b0 n i r s (ok_chain _ _ _ Hy) En E ltac:(lia)).
      destruct (chain_in_bounds _ _ _ _ (ok_chain _ _ _ Hy) (nth_error_In _ _ En)). lra. }
    rewrite E in En. injection En as <-. exists F. rewrite Nat.sub_diag. split; auto. intros Hle.
    assert (ts = s_lb s) as Et by lra. destruct (anch_first (s_in s) z) with (h := f (s_lb s)) as [H1 _]; auto.
    - apply Oks.
    - exists (f ts). auto.
    - apply (Hf s (nth_error_In _ _ E)).
    - apply H1. rewrite <- Et. auto. }
  destruct (fwd_all y HS Hb Hint (length y) i s F []) as (j' & q' & FB & L' & R1 & R2 & R3 & R4 & R5 & R6); auto; try lia; try lra.
  { apply anch_first; auto. apply Oks. exists (f ts). auto. }
  assert (j' = j) as ->. { rewrite <- (index_before_spec y j' q'), <- (index_before_spec y j q); auto; lra. }
  rewrite Ej in R1. injection R1 as <-.
  assert (Forall wf (FB :: L')) as HW.
  { rewrite <- R4. apply wf_eval_fwd. constructor; [apply wf_first_front|constructor]. }
  rewrite R4. cbn [hd].
  set (B := first_front (s_out q) z). set (y1 := set_output_gate j (hull FB B) true y).
  assert (anch B (s_out q) z) as HB. { apply anch_first; auto. apply Okq. exists (f ts). auto. }
  assert (In (f (s_ub q)) (s_out q)) as Hq by (apply (Hf q (nth_error_In _ _ Ej))).
  assert (esol a0 b0 y1 w f g) as S1.
  { apply (esol_set_output_gate y j q); auto.
    - apply wf_hull; [exact (Forall_inv HW)|apply wf_first_front].
    - apply In_hull_l. apply R6. lra. }
  assert (same_before (S j) y1 y) as SB by (apply same_before_put; lia).
  assert (exists q1, nth_error y1 j = Some q1) as [q1 E1].
  { destruct (nth_error y1 j) eqn:E1; eauto. apply nth_error_None in E1. pose proof S1 as (_ & _ & D1 & _).
    assert (j < length y)%nat by (apply nth_error_Some; congruence).
    rewrite (length_dom _ _ D1), <- (length_dom _ _ D) in E1. lia. }
  assert (s_ub q1 = s_ub q) as Eu.
  { pose proof S1 as (_ & _ & D1 & _). destruct (dom_nth y1 y j q1 q (eq_trans D1 (eq_sym D)) E1 Ej). auto. }
  apply (bwd_all j y1 q1 B (s_out q) FB L'); auto.
  - exact (Forall_inv_tail HW).
  - intros n r Hn En Hr. destruct (SB n r ltac:(lia) En) as (r' & Er & Lr & Ir). rewrite <- Ir. apply (Hint n r'); auto. rewrite Lr.
    split; auto. pose proof S1 as (Hy1 & _). pose proof (chain_lb_mono y1 a0 b0 n j r q1 Hy1 En E1 Hn).
    destruct (chain_in_bounds _ _ _ _ (ok_chain _ _ _ Hy1) (nth_error_In _ _ E1)). lra.
  - intros n r Hn En Hr. destruct (SB n r ltac:(lia) En) as (r' & Er & Lr & Ir). rewrite <- Lr in *. apply (R5 n r'); auto.
  - rewrite Eu. auto.
  - rewrite Eu. intros Hle. destruct (HB (f (s_ub q)) Hq) as [H1 _]. apply H1. assert (ts = s_ub q) as <- by lra. auto.
Qed.
End Fronts.
