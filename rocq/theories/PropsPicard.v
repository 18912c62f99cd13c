(** * C79: the Picard contractor keeps the solutions of the differential equation *)
From Coq Require Import Reals Lra Bool List Arith Lia.
From Verif Require Import Itv Arith Tube TubeSpec TubeFacts TubeOps TubeOpsFacts TubeOpsFacts2 TubeQueries TubeQueries2 TubeCtc DynSpec Static CtcDelay PropsDyn2 PropsStatic CtcEvalBody CtcEvalFacts CtcDerivFacts Concrete Picard PicardFacts.
Import ListNotations.
Open Scope R_scope.

(** ** Specification *)
(** The trajectories [fs] are a solution over [a,b] of  x' = phi(t, x). *)
Definition solution (a b : R) (phi : R -> list R -> list R) (fs : list (R -> R)) : Prop :=
  exists gs, Forall2 (derivative_on a b) fs gs /\ forall t, a < t < b -> vals gs t = phi t (vals fs t).
(** [F] is an inclusion function of [phi] of dimension [m]: it encloses the images, and its results are boxes
    (valid intervals, empty all together). *)
Record inclusion (m : nat) (F : box -> box) (phi : R -> list R -> list R) : Prop := {
  inc_in : forall t p T X, In t T -> Forall2 In p X -> length p = m -> Forall2 In (phi t p) (F (T :: X));
  inc_len : forall B, length (F B) = m;
  inc_wf : forall B, Forall wf (F B);
  inc_emp : forall B, Forall (fun i => i = Emp) (F B) \/ Forall (fun i => i <> Emp) (F B)
}.

Lemma F2_trans {A B C} (P : A -> B -> Prop) (Q : B -> C -> Prop) (W : A -> C -> Prop) :
  (forall x y z, P x y -> Q y z -> W x z) -> forall l m n, Forall2 P l m -> Forall2 Q m n -> Forall2 W l n.
Proof. intros H l m n H1. revert n. induction H1; intros n H2; inversion H2; subst; constructor; eauto. Qed.
Lemma F2_map_l {A B C} (g : A -> C) (P : C -> B -> Prop) l m : Forall2 (fun x y => P (g x) y) l m <-> Forall2 P (map g l) m.
Proof.
  split; [induction 1; cbn; constructor; auto|]. revert m. induction l as [|x l IH]; intros m H; inversion H; subst; constructor; auto.
Qed.
Lemma F2_vals t es fs : Forall2 (fun e (f : R -> R) => In (f t) e) es fs <-> Forall2 In (vals fs t) es.
Proof.
  unfold vals. rewrite <- F2_map_l. split; intros H; apply F2_swap in H; exact H.
Qed.
Lemma Forall2_in_l {A B} (P : A -> B -> Prop) l m : Forall2 P l m -> forall x, List.In x l -> exists y, List.In y m /\ P x y.
Proof. induction 1; intros z Hz; [destruct Hz|]. destruct Hz as [<-|Hz]; [exists y; cbn; auto|]. destruct (IHForall2 z Hz) as (w & ? & ?). exists w; cbn; auto. Qed.
Lemma map2_F2 (Q1 Q2 Q : itv -> (R -> R) -> Prop) (g : itv -> itv -> itv) : (forall i j f, Q1 i f -> Q2 j f -> Q (g i j) f) ->
  forall l1 l2 fs, Forall2 Q1 l1 fs -> Forall2 Q2 l2 fs -> Forall2 Q (map2 g l1 l2) fs.
Proof. intros H l1 l2 fs H1. revert l2. induction H1; intros l2 H2; inversion H2; subst; cbn; constructor; auto. Qed.

Section Sound.
  Variables (A : arith) (mid : itv -> R) (delta eps : R) (F : box -> box) (phi : R -> list R -> list R).
  Variables (a b : R) (fs gs : list (R -> R)).
  Hypothesis HA : arith_ok A.
  Hypothesis HF : inclusion (length fs) F phi.
  Hypothesis Hfg : Forall2 (derivative_on a b) fs gs.
  Hypothesis Hphi : forall t, a < t < b -> vals gs t = phi t (vals fs t).

  (** the derivatives are in the evaluation of [F] over the boxes that contain the trajectories *)
  Lemma slopes l u T X : a <= l -> l < u -> u <= b -> (forall t, l < t < u -> In t T) -> (forall t, l < t < u -> Forall2 In (vals fs t) X) ->
    Forall2 (fun v f => rises f v l u) (F (T :: X)) fs.
  Proof.
    intros H1 H2 H3 HT HX.
    assert (Forall2 (fun e (g : R -> R) => forall t, l < t < u -> In (g t) e) (F (T :: X)) gs) as HG.
    { apply (F2_all (fun t => l < t < u) ((l + u) / 2)); [lra|]. intros t Ht. fold (vals gs t). rewrite Hphi by lra.
      apply (inc_in _ _ _ HF); auto. unfold vals. apply map_length. }
    apply F2_swap in Hfg. revert HG Hfg. apply F2_trans. intros v g f Hv Hd. eapply rises_of_derivative; eauto.
  Qed.
  Lemma b_add_vals x0 h V t0 s q : Forall2 In (vals fs t0) x0 -> In q h ->
    Forall2 (fun v (f : R -> R) => exists p, In p v /\ f s = f t0 + q * p) V fs -> Forall2 In (vals fs s) (b_add A x0 (b_scal A h V)).
  Proof.
    intros H0 Hq HV. apply F2_vals in H0. unfold b_add.
    assert (b_is_empty x0 = false) as E0. { inversion H0 as [|i f ? ? Hi]; subst; auto. cbn. destruct i; [destruct Hi|reflexivity]. }
    assert (b_is_empty (b_scal A h V) = false) as E1.
    { inversion HV as [|v f ? ? (p & Hp & _)]; subst; auto. cbn. pose proof (imul_in A HA _ _ _ _ Hq Hp) as Hi. destruct (imul A h v); [destruct Hi|reflexivity]. }
    rewrite E0, E1. cbn. apply F2_vals. unfold b_scal.
    apply (map2_F2 (fun e f => In (f t0) e) (fun w f => exists y, In y w /\ f s = f t0 + y)); auto.
    - intros i j f Hi (y & Hy & ->). apply (iadd_in A HA); auto.
    - apply F2_map_l. eapply F2_impl; [|exact HV]. intros v f (p & Hp & E). exists (q * p). split; [apply (imul_in A HA); auto|auto].
  Qed.
  Lemma wf_map2_add X Y : Forall wf X -> Forall wf Y -> Forall wf (map2 (iadd A) X Y).
  Proof.
    intros H. revert Y. induction H; intros Y H1; destruct H1; cbn; constructor; auto. apply (iadd_wf A HA); auto.
  Qed.
  Lemma wf_b_add X Y : Forall wf X -> Forall wf Y -> Forall wf (b_add A X Y).
  Proof.
    intros HX HY. unfold b_add. destruct (_ || _); [|apply wf_map2_add; auto].
    unfold b_set_empty. apply Forall_forall. intros i Hi. apply in_map_iff in Hi. destruct Hi as (? & <- & _). exact I.
  Qed.
  Lemma wf_b_scal h V : wf h -> Forall wf V -> Forall wf (b_scal A h V).
  Proof. intros Hh. induction 1; cbn; constructor; auto. apply (imul_wf A HA); auto. Qed.
  (** a non-empty enclosure shows that the evaluation of [F] is not empty *)
  Lemma encl_nonempty x0 h B : length x0 = length fs -> fs <> [] -> b_is_empty (b_add A x0 (b_scal A h (F B))) = false ->
    Forall (fun i => i <> Emp) (F B).
  Proof.
    intros HL Hne HE. destruct (inc_emp _ _ _ HF B) as [H|H]; auto. exfalso.
    pose proof (inc_len _ _ _ HF B) as HL'. destruct fs as [|f fs']; [congruence|].
    destruct (F B) as [|v V]; [discriminate|]. destruct x0 as [|x x0]; [discriminate|]. inversion H; subst.
    unfold b_add in HE. cbn in HE. rewrite (imul_emp A HA h Emp) in HE by auto. cbn in HE. rewrite orb_true_r in HE. discriminate.
  Qed.
  Lemma encl_start x0 h V t0 : Forall2 In (vals fs t0) x0 -> In 0 h -> length V = length fs -> Forall wf V -> Forall (fun i => i <> Emp) V ->
    Forall2 In (vals fs t0) (b_add A x0 (b_scal A h V)).
  Proof.
    intros H0 Hh HL HW HN. apply (b_add_vals x0 h V t0 t0 0); auto. clear H0.
    assert (Forall (fun v => exists p, In p v) V) as HP.
    { clear HL. induction HW; inversion HN; subst; constructor; auto. apply wf_witness; auto. }
    clear HW HN. revert HL. clear - HP. revert HP. generalize fs. induction V as [|v V IH]; intros [|f l] HP HL; try discriminate; constructor.
    - inversion HP as [|? ? (p & Hp)]; subst. exists p. split; auto. lra.
    - inversion HP; subst. apply IH; auto.
  Qed.

  (** one verified iteration: the trajectories are in the enclosure all over the slice *)
  Lemma encl_sound fwd l u T G I x0 : a <= l -> l < u -> u <= b -> fs <> [] -> length G = length fs ->
    (forall t, l <= t <= u -> In t T) -> (forall t, l <= t <= u -> Forall2 In (vals fs t) I) ->
    Forall2 In (vals fs (if fwd : bool then l else u)) x0 ->
    let h := if fwd then bnd 0 (u - l) else bnd (- (u - l)) 0 in
    let E := b_add A x0 (b_scal A h (F (T :: b_inter G I))) in
    b_is_empty E = false -> b_is_empty G = false -> b_interior E G = true ->
    forall t, l <= t <= u -> Forall2 In (vals fs t) E.
  Proof.
    intros Ha Hlu Hb Hne HLG HT HI H0 h E HE HG HEG.
    set (V := F (T :: b_inter G I)) in *.
    assert (length x0 = length fs) as HL0 by (apply F2_len in H0; unfold vals in H0; rewrite map_length in H0; auto).
    pose proof (encl_nonempty x0 h (T :: b_inter G I) HL0 Hne HE) as HN. fold V in HN.
    unfold b_interior in HEG. rewrite HE, HG in HEG.
    assert (forall s, l <= s <= u -> Forall (fun f => continuity_pt f s) fs) as HC.
    { intros s Hs. clear - Hfg Hs Ha Hb. induction Hfg as [|f g ? ? [Hc _] ? IH]; constructor; auto. apply Hc; lra. }
    assert (forall q r, l <= q -> q < r -> r <= u -> (forall w, q < w < r -> Forall2 In (vals fs w) G) ->
      Forall2 (fun v f => rises f v q r) V fs) as HS.
    { intros q r Q1 Q2 Q3 HQ. apply slopes; try lra. { intros; apply HT; lra. } intros w Hw. apply b_inter_in; [auto|apply HI; lra]. }
    destruct fwd.
    - apply (continuation (fun s => Forall2 In (vals fs s) G)); [lra| | |].
      + apply encl_start; auto; [apply In_bnd; lra|apply (inc_len _ _ _ HF)|apply (inc_wf _ _ _ HF)].
      + intros s Hs Hq. destruct (interior_near_box fs s E G) as (e & He & HP); auto. exists e. split; auto.
        intros w Hw. apply HP. apply Rabs_def1; lra.
      + intros s Hs HP. apply (b_add_vals x0 h V l s (s - l)); auto; [apply In_bnd; lra|].
        eapply F2_impl; [|apply (HS l s); try lra; intros w Hw; apply HP; lra].
        intros v f Hr. apply (rises_step f v l s l s) in Hr; try lra. auto.
    - apply (continuation_back (fun s => Forall2 In (vals fs s) G)); [lra| | |].
      + apply encl_start; auto; [apply In_bnd; lra|apply (inc_len _ _ _ HF)|apply (inc_wf _ _ _ HF)].
      + intros s Hs Hq. destruct (interior_near_box fs s E G) as (e & He & HP); auto. exists e. split; auto.
        intros w Hw. apply HP. apply Rabs_def1; lra.
      + intros s Hs HP. apply (b_add_vals x0 h V u s (s - u)); auto; [apply In_bnd; lra|].
        eapply F2_impl; [|apply (HS s u); try lra; intros w Hw; apply HP; lra].
        intros v f Hr. apply (rises_step f v s u s u) in Hr; try lra. destruct Hr as (p & Hp & Er). exists p. split; auto. lra.
  Qed.
  Notation tf1 := (tfunction F (length fs)).
  Lemma guess_loop_sound n : forall fwd l u T I x0 encl E, a <= l -> l < u -> u <= b -> fs <> [] -> length encl = length fs ->
    (forall t, l <= t <= u -> In t T) -> (forall t, l <= t <= u -> Forall2 In (vals fs t) I) ->
    Forall wf x0 -> Forall2 In (vals fs (if fwd : bool then l else u)) x0 ->
    guess_loop A mid delta eps tf1 n T (if fwd then bnd 0 (u - l) else bnd (- (u - l)) 0) x0 I encl = Some (Some E) ->
    Forall wf E /\ forall t, l <= t <= u -> Forall2 In (vals fs t) E.
  Proof.
    induction n as [|n IH]; intros fwd l u T I x0 encl E Ha Hlu Hb Hne HL HT HI W0 H0; cbn [guess_loop]; [discriminate|].
    set (G := map (widen A mid delta eps) encl).
    set (h := if fwd then bnd 0 (u - l) else bnd (- (u - l)) 0).
    set (E' := b_add A x0 (b_scal A h (f_box tf1 (T :: b_inter G I)))).
    destruct (picard_bad E' G) eqn:EB; [discriminate|]. unfold picard_bad in EB.
    apply orb_false_elim in EB. destruct EB as [EB EG]. apply orb_false_elim in EB. destruct EB as [_ EE].
    destruct (b_interior E' G) eqn:EI.
    - intros R. injection R as <-. split.
      + apply wf_b_add; auto. apply wf_b_scal; [|apply (inc_wf _ _ _ HF)]. unfold h. destruct fwd; apply wf_mk.
      + apply (encl_sound fwd l u T G I x0); auto. unfold G. rewrite map_length. auto.
    - intros R. eapply (IH fwd l u T I x0 E'); eauto. unfold E'.
      assert (length x0 = length fs) as HL0 by (apply F2_len in H0; unfold vals in H0; rewrite map_length in H0; auto).
      unfold b_add. destruct (_ || _); [unfold b_set_empty; rewrite map_length; auto|].
      assert (length (b_scal A h (f_box tf1 (T :: b_inter G I))) = length fs) as HLV by (unfold b_scal; rewrite map_length; apply (inc_len _ _ _ HF)).
      clear - HL0 HLV. revert HL0 HLV. generalize (b_scal A h (f_box tf1 (T :: b_inter G I))). generalize fs.
      induction x0 as [|i x0 IH]; intros [|f l0] [|j L] H1 H2; try discriminate; cbn; auto.
  Qed.

  Notation SI D := (sinv a b D).
  Lemma cods D k xs l u : Forall2 (SI D) xs fs -> nth_error D k = Some (l, u) ->
    Forall2 (fun s f => slice_ok s /\ slice_has s f /\ s_lb s = l /\ s_ub s = u /\ a <= l /\ l < u /\ u <= b) (slices_at k xs) fs.
  Proof. intros HX ED. apply (slices_F2 (SI D) _ k xs fs HX (fun x f H => sinv_nth a b D k x f l u ED H)). Qed.
  Lemma cod_vals D k xs l u t : Forall2 (SI D) xs fs -> nth_error D k = Some (l, u) -> l <= t <= u -> Forall2 In (vals fs t) (cod_k k xs).
  Proof.
    intros HX ED Ht. apply F2_vals. apply F2_map_l. eapply F2_impl; [|exact (cods D k xs l u HX ED)].
    intros s f (O & H & <- & <- & _). apply slice_has_closed; auto.
  Qed.
  Lemma put_env_sound D k xs l u y : Forall2 (SI D) xs fs -> nth_error D k = Some (l, u) ->
    Forall2 (fun e (f : R -> R) => wf e /\ forall t, l <= t <= u -> In (f t) e) y fs -> Forall2 (SI D) (put_env k y xs) fs.
  Proof.
    intros HX ED HY. unfold put_env. eapply on_comps_F2; [exact HX|exact HY|].
    intros x e f Hx (We & He). destruct (sinv_nth a b D k x f l u ED Hx) as (s & Es & Os & Hs & <- & <- & _).
    destruct Hx as (Ox & Dx & Fx). split; [apply set_envelope_ok; auto|]. split; [rewrite set_envelope_dom; auto|].
    eapply set_envelope_has; eauto.
  Qed.
  Lemma guess_kth_sound n fwd D k xs ys : Forall2 (SI D) xs fs -> guess_kth A mid delta eps tf1 n fwd k xs = Some ys -> Forall2 (SI D) ys fs.
  Proof.
    intros HX. unfold guess_kth. destruct (v_is_empty xs); [intros E; injection E as <-; auto|].
    destruct (slices_at k xs) as [|s ss] eqn:ES; [intros E; injection E as <-; auto|].
    destruct (nth_error D k) as [[l u]|] eqn:ED.
    2:{ exfalso. clear - HX ES ED. assert (forall x, List.In x xs -> nth_error x k = None) as HN.
        { intros x Hx. destruct (Forall2_in_l _ _ _ HX x Hx) as (f & _ & (_ & Dx & _)).
          rewrite <- Dx, nth_error_map in ED. destruct (nth_error x k); [discriminate|auto]. }
        assert (slices_at k xs = []) as E0; [|congruence].
        clear - HN. unfold slices_at. induction xs as [|x xs IH]; cbn; auto. rewrite (HN x) by (left; auto). cbn. apply IH. intros; apply HN; right; auto. }
    pose proof (cods D k xs l u HX ED) as HS. pose proof HS as HS'. rewrite ES in HS'.
    assert (fs <> []) as Hne by (intros Ef; rewrite Ef in HS'; inversion HS').
    assert (s_lb s = l /\ s_ub s = u /\ a <= l /\ l < u /\ u <= b) as (L & U & B1 & B2 & B3).
    { inversion HS' as [|? f ? fs' (_ & _ & H) _]. exact H. }
    subst l u.
    cbn [f_inter tfunction].
    match goal with |- context [guess_loop _ _ _ _ _ _ ?T ?h ?x0 ?init ?e] => destruct (guess_loop A mid delta eps tf1 n T h x0 init e) as [[E|]|] eqn:EG end;
      intros R; try discriminate; injection R as <-; auto.
    assert (Forall wf (v_eval xs (if fwd then s_lb s else s_ub s))) as W0.
    { unfold v_eval. clear - HX. induction HX as [|x f0 ? ? (Ox & _)]; cbn; constructor; auto. eapply wf_eval_t; eauto. }
    assert (forall t, Forall2 In (vals fs t) (v_eval xs t)) as HV.
    { intros t. apply F2_vals. unfold v_eval. apply F2_map_l. eapply F2_impl; [|exact HX]. intros x f0 (Ox & _ & Hf0). eapply eval_t_in; eauto. }
    destruct (guess_loop_sound n fwd (s_lb s) (s_ub s) (s_dom s) (cod_k k xs) (v_eval xs (if fwd then s_lb s else s_ub s)) (v_eval xs (if fwd then s_lb s else s_ub s)) E B1 B2 B3) as (WE & HE); [| | | | |apply HV|exact EG|].
    - exact Hne.
    - unfold v_eval. rewrite map_length. eapply F2_len; eauto.
    - intros t Ht. cbn. lra.
    - intros t Ht. eapply cod_vals; eauto.
    - exact W0.
    - eapply put_env_sound; eauto.
      apply (map2_F2 (fun i f => forall t, s_lb s <= t <= s_ub s -> In (f t) i) (fun i f => forall t, s_lb s <= t <= s_ub s -> In (f t) i)).
      + intros i j f0 Hi Hj. split; [apply wf_inter|]. intros t Ht. apply In_inter; split; auto.
      + apply (F2_all (fun t => s_lb s <= t <= s_ub s) (s_lb s)); [lra|]. intros t Ht. eapply cod_vals; eauto.
      + apply (F2_all (fun t => s_lb s <= t <= s_ub s) (s_lb s)); [lra|]. intros t Ht. apply HE; auto.
  Qed.
  Lemma no_rank D k xs : Forall2 (SI D) xs fs -> nth_error D k = None -> slices_at k xs = [].
  Proof.
    intros HX ED. assert (forall x, List.In x xs -> nth_error x k = None) as HN.
    { intros x Hx. destruct (Forall2_in_l _ _ _ HX x Hx) as (f & _ & (_ & Dx & _)).
      rewrite <- Dx, nth_error_map in ED. destruct (nth_error x k); [discriminate|auto]. }
    clear - HN. unfold slices_at. induction xs as [|x xs IH]; cbn; auto. rewrite (HN x) by (left; auto). cbn. apply IH. intros; apply HN; right; auto.
  Qed.
  Lemma contract_kth_sound n fwd D k xs ys : Forall2 (SI D) xs fs -> contract_kth A mid delta eps tf1 n fwd k xs = Some ys -> Forall2 (SI D) ys fs.
  Proof.
    intros HX. unfold contract_kth. destruct (v_is_empty xs); [intros E; injection E as <-; auto|].
    destruct (guess_kth A mid delta eps tf1 n fwd k xs) as [zs|] eqn:EG; [|discriminate]. intros R. injection R as <-.
    pose proof (guess_kth_sound n fwd D k xs zs HX EG) as HZ. cbn [f_k tfunction].
    destruct (nth_error D k) as [[l u]|] eqn:ED.
    2:{ rewrite (no_rank D k zs HZ ED). cbn. auto. }
    pose proof (cods D k zs l u HZ ED) as HS.
    destruct (slices_at k zs) as [|s ss] eqn:ES. { destruct zs; auto. }
    assert (fs <> []) as Hne by (intros Ef; rewrite Ef in HS; inversion HS).
    assert (s_lb s = l /\ s_ub s = u /\ a <= l /\ l < u /\ u <= b) as (L & U & B1 & B2 & B3).
    { inversion HS as [|? f ? fs' (_ & _ & H) _]. exact H. }
    assert (b_is_empty (cod_k k zs) = false) as EN.
    { pose proof (cod_vals D k zs l u l HZ ED ltac:(lra)) as HC. destruct fs as [|f fs']; [congruence|]. cbn in HC. inversion HC as [|? i ? ? Hi]; subst.
      cbn. destruct i; [destruct Hi|reflexivity]. }
    rewrite EN.
    assert (Forall2 (fun v f => wf v /\ rises f v l u) (F (s_dom s :: cod_k k zs)) fs) as HR.
    { apply F2_and; [apply F2_wf; [apply (inc_len _ _ _ HF)|apply (inc_wf _ _ _ HF)]|].
      apply slopes; auto; intros t Ht; [cbn; lra|eapply cod_vals; eauto; lra]. }
    eapply on_comps_F2; [exact HZ|exact HR|]. intros x v f Hx (Wv & Hr). unfold picard_gate.
    destruct (sinv_nth a b D k x f l u ED Hx) as (q & Eq & Oq & Hq & Lq & Uq & _). rewrite Eq.
    destruct Hx as (Ox & Dx & Fx). destruct (rises_step f v l u l u Hr) as (p & Hp & Ep); try lra.
    destruct Hq as (Q1 & Q2 & _). rewrite Lq, Uq in *.
    assert (In ((u - l) * p) (imul A (pt (u - l)) v)) as HM by (apply (imul_in A HA); auto; apply In_pt; auto).
    destruct fwd.
    - split; [apply set_output_gate_ok; auto; apply wf_inter|]. split; [rewrite set_output_gate_dom; auto|].
      eapply set_output_gate_has; eauto. rewrite Uq. apply In_inter. split; auto. rewrite Ep. apply (iadd_in A HA); auto.
    - split; [apply set_input_gate_ok; auto; apply wf_inter|]. split; [rewrite set_input_gate_dom; auto|].
      eapply set_input_gate_has; eauto. rewrite Lq. apply In_inter. split; auto. replace (f l) with (f u - (u - l) * p) by lra. apply (isub_in A HA); auto.
  Qed.
  (** the sampling of all the components keeps them on the same slicing *)
  Lemma split_sound D k xs t : Forall2 (SI D) xs fs -> to_split k xs = Some t -> exists D', Forall2 (SI D') (map (sample t) xs) fs.
  Proof.
    intros HX. unfold to_split. destruct xs as [|x xs]; [discriminate|].
    destruct (slices_at k (x :: xs)) as [|s ss] eqn:ES; [discriminate|].
    destruct (_ && _); [|discriminate]. intros E. injection E as <-.
    destruct (nth_error D k) as [[l u]|] eqn:ED; [|rewrite (no_rank D k _ HX ED) in ES; discriminate].
    pose proof (cods D k _ l u HX ED) as HS. rewrite ES in HS.
    assert (s_lb s = l /\ s_ub s = u /\ a <= l /\ l < u /\ u <= b) as (L & U & B1 & B2 & B3).
    { inversion HS as [|? f ? fs' (_ & _ & H) _]. exact H. }
    set (t := (s_lb s + s_ub s) / 2). exists (map dom (sample t x)).
    assert (map dom x = D) as Dx by (inversion HX as [|? ? ? ? (_ & H & _)]; auto).
    rewrite <- (F2_map_l (sample t)). eapply F2_impl; [|exact HX]. intros y f (Oy & Dy & Fy).
    assert (a <= t <= b) by (unfold t; lra).
    split; [apply sample_ok; auto|]. split; [apply sample_dom; congruence|]. apply (sample_has a b); auto.
  Qed.
  Lemma fwd_loop_sound n g : forall D k nb xs ys, Forall2 (SI D) xs fs -> fwd_loop A mid delta eps tf1 n g k nb xs = Some ys -> exists D', Forall2 (SI D') ys fs.
  Proof.
    induction n as [|n IH]; intros D k nb xs ys HX; cbn [fwd_loop]; [discriminate|].
    destruct (Nat.ltb k nb); [|intros E; injection E as <-; eauto].
    destruct (negb _); [eauto|].
    destruct (contract_kth A mid delta eps tf1 g true k xs) as [zs|] eqn:EC; [|discriminate].
    pose proof (contract_kth_sound g true D k xs zs HX EC) as HZ.
    destruct (to_split k zs) as [t|] eqn:ET; [|eauto].
    destruct (split_sound D k zs t HZ ET) as (D' & HD'). eauto.
  Qed.
  Lemma bwd_loop_sound n g : forall D k xs ys, Forall2 (SI D) xs fs -> bwd_loop A mid delta eps tf1 n g k xs = Some ys -> exists D', Forall2 (SI D') ys fs.
  Proof.
    induction n as [|n IH]; intros D k xs ys HX; cbn [bwd_loop]; [discriminate|].
    destruct k as [|k]; [intros E; injection E as <-; eauto|].
    destruct (negb _); [eauto|].
    destruct (contract_kth A mid delta eps tf1 g false k xs) as [zs|] eqn:EC; [|discriminate].
    pose proof (contract_kth_sound g false D k xs zs HX EC) as HZ.
    destruct (to_split k zs) as [t|] eqn:ET; [|eauto].
    destruct (split_sound D k zs t HZ ET) as (D' & HD'). eauto.
  Qed.
  Lemma restore_sound D D' xs ys : Forall2 (SI D) xs fs -> Forall2 (SI D') ys fs -> Forall2 (SI D) (restore_slicing xs ys) fs.
  Proof.
    intros HX. revert ys. unfold restore_slicing. clear HF Hfg Hphi. induction HX as [|x f xs l (Ox & Dx & Fx) HX IH]; intros ys HY; inversion HY as [|y ? ys' ? (Oy & Dy & Fy)]; subst; cbn [combine map fst snd]; constructor; auto.
    pose proof (tube_set_ok a b Emp x I Ox) as OE. split; [apply tube_assign_ok; auto; apply mono2_hull|]. split.
    - rewrite tube_assign_dom, tube_set_eq by exact I. rewrite map_map. reflexivity.
    - apply (tube_assign_hull a b); auto.
  Qed.
  Lemma picard_dir_sound n g preserve fwd D xs ys : Forall2 (SI D) xs fs -> picard_dir A mid delta eps tf1 n g preserve fwd xs = Some ys ->
    exists D', Forall2 (SI D') ys fs /\ (preserve = true -> D' = D).
  Proof.
    intros HX. unfold picard_dir. destruct (v_is_empty xs); [intros E; injection E as <-; eauto|].
    set (nb := match xs with x :: _ => length x | [] => 0%nat end).
    destruct (if fwd then fwd_loop A mid delta eps tf1 n g 0 nb xs else bwd_loop A mid delta eps tf1 n g nb xs) as [zs|] eqn:EL; [|discriminate].
    intros R. injection R as <-.
    assert (exists D', Forall2 (SI D') zs fs) as (D' & HD') by (destruct fwd; [eapply fwd_loop_sound|eapply bwd_loop_sound]; eauto).
    destruct preserve; [|exists D'; split; [auto|discriminate]]. exists D. split; auto. eapply restore_sound; eauto.
  Qed.
  Lemma picard_sound n g preserve fwd bwd D xs ys : Forall2 (SI D) xs fs -> picard A mid delta eps tf1 n g preserve fwd bwd xs = Some ys ->
    exists D', Forall2 (SI D') ys fs /\ (preserve = true -> D' = D).
  Proof.
    intros HX. unfold picard. destruct (v_is_empty xs); [intros E; injection E as <-; eauto|].
    destruct fwd, bwd; cbn [andb]; try (apply picard_dir_sound; auto; fail).
    - destruct (picard_dir A mid delta eps tf1 n g preserve true xs) as [zs|] eqn:E1; [|discriminate]. intros E2.
      destruct (picard_dir_sound _ _ _ _ _ _ _ HX E1) as (D1 & H1 & P1). destruct (picard_dir_sound _ _ _ _ _ _ _ H1 E2) as (D2 & H2 & P2).
      exists D2. split; auto. intros P. rewrite P2, P1; auto.
    - intros E. injection E as <-. exists D. split; auto. destruct preserve; auto. eapply restore_sound; eauto.
  Qed.
End Sound.

(** [CtcPicard] with a TFunction, whatever the direction of propagation, the widening [delta] and the number of
    iterations: no solution of x' = phi(t,x) is lost, the components stay consistent tubes over [a,b] on a common
    slicing, which is the initial one when the slicing is preserved. *)
Theorem C79_no_loss : forall A mid delta eps F phi n g preserve fwd bwd a b D xs ys fs,
  arith_ok A -> inclusion (length xs) F phi -> Forall (tube_ok a b) xs -> Forall (fun x => map dom x = D) xs ->
  picard A mid delta eps (tfunction F (length xs)) n g preserve fwd bwd xs = Some ys ->
  Forall2 has xs fs -> solution a b phi fs ->
  Forall2 has ys fs /\ Forall (tube_ok a b) ys /\ exists D', Forall (fun y => map dom y = D') ys /\ (preserve = true -> D' = D).
Proof.
  intros A mid delta eps F phi n g preserve fwd bwd a b D xs ys fs HA HF HO HD HP HH (gs & H1 & H2).
  assert (length xs = length fs) as HL by (eapply F2_len; eauto). rewrite HL in HF, HP.
  assert (Forall2 (sinv a b D) xs fs) as HX.
  { clear - HO HD HH. induction HH; inversion HO; inversion HD; subst; constructor; auto. refine (conj _ (conj _ _)); auto. }
  destruct (picard_sound A mid delta eps F phi a b fs gs HA HF H1 H2 n g preserve fwd bwd D xs ys HX HP) as (D' & HY & HPD).
  split; [|split].
  - eapply F2_impl; [|exact HY]. intros y f (_ & _ & H). exact H.
  - clear - HY. induction HY as [|? ? ? ? (H & _)]; constructor; auto.
  - exists D'. split; auto. clear - HY. induction HY as [|? ? ? ? (_ & H & _)]; constructor; auto.
Qed.
