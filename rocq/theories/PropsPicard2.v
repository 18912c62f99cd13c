(** * C79: the Picard contractor only contracts; functions that depend on other instants *)
From Coq Require Import Reals Lra Bool List Arith Lia.
From Verif Require Import Itv Arith Tube TubeSpec TubeFacts TubeOps TubeOpsFacts TubeOpsFacts2 TubeQueries TubeQueries2 TubeCtc DynSpec Static CtcDelay PropsDyn2 PropsStatic CtcEvalBody CtcEvalFacts CtcDerivFacts Concrete Picard PicardFacts PropsPicard.
Import ListNotations.
Open Scope R_scope.

(** [y] is at every instant included in [x] *)
Definition below (y x : tube) : Prop := forall t, sub (eval_t y t) (eval_t x t).

(** ** Assignments *)
Lemma below_cod a b x y q s : tube_ok a b x -> tube_ok a b y -> below y x -> List.In q y -> List.In s x ->
  s_lb q < s_ub s -> s_lb s < s_ub q -> sub (s_cod q) (s_cod s).
Proof.
  intros Ox Oy HB Hq Hs H1 H2.
  destruct (chain_in_bounds _ _ _ _ (ok_chain _ _ _ Oy) Hq) as (Q1 & Q2 & Q3). destruct (chain_in_bounds _ _ _ _ (ok_chain _ _ _ Ox) Hs) as (S1 & S2 & S3).
  set (t := (Rmax (s_lb q) (s_lb s) + Rmin (s_ub q) (s_ub s)) / 2).
  assert (s_lb q < t < s_ub q /\ s_lb s < t < s_ub s) as (T1 & T2) by (unfold t, Rmax, Rmin; repeat destruct (Rle_dec _ _); lra).
  specialize (HB t). apply In_nth_error in Hq. apply In_nth_error in Hs. destruct Hq as [i Ei], Hs as [j Ej].
  rewrite (eval_t_slice a b y i q), (eval_t_slice a b x j s) in HB by (auto; lra). unfold slice_eval in HB.
  rewrite !(proj2 (Rleb_true _ _)) in HB by lra. cbn in HB. rewrite !(proj2 (Reqb_false _ _)) in HB by lra. exact HB.
Qed.
Lemma below_at a b x y s t : tube_ok a b x -> below y x -> List.In s x -> (t = s_lb s -> sub (eval_t y t) (s_in s)) /\ (t = s_ub s -> sub (eval_t y t) (s_out s)).
Proof.
  intros Ox HB Hs. destruct (chain_in_bounds _ _ _ _ (ok_chain _ _ _ Ox) Hs) as (S1 & S2 & S3).
  apply In_nth_error in Hs. destruct Hs as [j Ej]. split; intros ->.
  - specialize (HB (s_lb s)). rewrite (eval_t_slice a b x j s) in HB by (auto; lra). unfold slice_eval in HB.
    rewrite !(proj2 (Rleb_true _ _)) in HB by lra. cbn in HB. rewrite (proj2 (Reqb_true _ _) eq_refl) in HB. exact HB.
  - specialize (HB (s_ub s)). rewrite (eval_t_slice a b x j s) in HB by (auto; lra). unfold slice_eval in HB.
    rewrite !(proj2 (Rleb_true _ _)) in HB by lra. cbn in HB. rewrite (proj2 (Reqb_false _ _)), (proj2 (Reqb_true _ _) eq_refl) in HB by lra. exact HB.
Qed.
Lemma same_dom_nth x y k q : map dom x = map dom y -> nth_error y k = Some q -> exists s, nth_error x k = Some s /\ s_lb s = s_lb q /\ s_ub s = s_ub q.
Proof.
  intros HD E. assert (nth_error (map dom x) k = Some (dom q)) as H by (rewrite HD, nth_error_map, E; auto).
  rewrite nth_error_map in H. destruct (nth_error x k) as [s|]; [|discriminate]. exists s. injection H as H1 H2. auto.
Qed.
(** restoring a slicing: nothing more than the initial tube *)
Lemma restore_below a b x y : tube_ok a b x -> tube_ok a b y -> below y x -> tsub (tube_assign hull (tube_set Emp x) y) x.
Proof.
  intros Ox Oy HB. rewrite tube_set_eq by exact I. set (e := map (fun s => mkS (s_lb s) (s_ub s) Emp Emp Emp) x).
  assert (map dom e = map dom x) as De by (unfold e; rewrite map_map; reflexivity).
  assert (length e = length x) as Le by (unfold e; apply map_length).
  assert (forall k s, nth_error x k = Some s -> sl e k = mkS (s_lb s) (s_ub s) Emp Emp Emp) as HE.
  { intros k s E. apply sl_nth. unfold e. rewrite nth_error_map, E. auto. }
  assert (forall i, sub (hull Emp i) i) as HH by (intros i v Hv; destruct i; exact Hv).
  apply tsub_nth. split.
  { unfold tube_assign. destruct (same_slicing e y); rewrite map_loop_length; auto. }
  intros k s' s E1 E.
  assert (List.In s x) as Hs by (eapply nth_error_In; eauto).
  destruct (chain_in_bounds _ _ _ _ (ok_chain _ _ _ Ox) Hs) as (S1 & S2 & S3).
  assert (nth_error e k = Some (mkS (s_lb s) (s_ub s) Emp Emp Emp)) as Ee by (unfold e; rewrite nth_error_map, E; auto).
  unfold tube_assign in E1. destruct (same_slicing e y) eqn:ED.
  - apply same_slicing_dom in ED. rewrite map_loop_nth, Ee in E1. cbn [option_map s_lb s_ub] in E1. injection E1 as <-.
    assert (exists q, nth_error y k = Some q /\ s_lb q = s_lb s /\ s_ub q = s_ub s) as (q & Eq & Lq & Uq).
    { apply (same_dom_nth y e k (mkS (s_lb s) (s_ub s) Emp Emp Emp)); auto. }
    assert (List.In q y) as Hq by (eapply nth_error_In; eauto).
    pose proof (below_at a b x y s (s_lb s) Ox HB Hs) as [G1 _]. pose proof (below_at a b x y s (s_ub s) Ox HB Hs) as [_ G2].
    specialize (G1 eq_refl). specialize (G2 eq_refl).
    rewrite (eval_t_slice a b y k q) in G1, G2 by (auto; lra). unfold slice_eval in G1, G2.
    rewrite !(proj2 (Rleb_true _ _)) in G1 by lra. rewrite !(proj2 (Rleb_true _ _)) in G2 by lra. cbn in G1, G2.
    rewrite (proj2 (Reqb_true _ _)) in G1 by lra. rewrite (proj2 (Reqb_false _ _)), (proj2 (Reqb_true _ _)) in G2 by lra.
    rewrite (HE k s E), (sl_nth _ _ _ Eq). unfold slice_sub. cbn [s_lb s_ub s_cod s_in s_out].
    refine (conj eq_refl (conj eq_refl (conj _ (conj _ _)))).
    + eapply sub_trans; [apply HH|]. apply (below_cod a b x y); auto; lra.
    + eapply sub_trans; [apply HH|exact G1].
    + change (match length e with 0%nat => false | S m' => Nat.eqb k m' end) with (Nat.eqb (S k) (length e)).
      destruct (Nat.eqb (S k) (length e)) eqn:EL.
      * apply Nat.eqb_eq in EL. replace (length e - 1)%nat with k by lia. rewrite (HE k s E), (sl_nth _ _ _ Eq). eapply sub_trans; [apply HH|exact G2].
      * apply Nat.eqb_neq in EL. assert (S k < length x)%nat as Hk by (assert (k < length x)%nat by (apply nth_error_Some; congruence); lia).
        destruct (nth_error x (S k)) as [s2|] eqn:E2; [|apply nth_error_None in E2; lia]. rewrite (HE _ s2 E2).
        assert (exists q2, nth_error y (S k) = Some q2 /\ s_lb q2 = s_lb s2 /\ s_ub q2 = s_ub s2) as (q2 & Eq2 & _).
        { apply (same_dom_nth y e (S k) (mkS (s_lb s2) (s_ub s2) Emp Emp Emp)); auto. unfold e. rewrite nth_error_map, E2; auto. }
        rewrite (sl_nth _ _ _ Eq2). cbn [s_in]. rewrite <- (gates_agree _ _ _ _ (ok_shared _ _ _ Oy) Eq Eq2). eapply sub_trans; [apply HH|exact G2].
  - rewrite map_loop_nth, Ee in E1. cbn [option_map s_lb s_ub] in E1. injection E1 as <-.
    pose proof (below_at a b x y s (s_lb s) Ox HB Hs) as [G1 _]. pose proof (below_at a b x y s (s_ub s) Ox HB Hs) as [_ G2].
    specialize (G1 eq_refl). specialize (G2 eq_refl). rewrite (HE k s E). unfold slice_sub. cbn [s_lb s_ub s_cod s_in s_out s_dom].
    pose proof (ok_in _ _ _ _ Ox Hs) as (W & _).
    refine (conj eq_refl (conj eq_refl (conj _ (conj _ _)))).
    + eapply sub_trans; [apply HH|]. apply (eval_itv_least a b); auto. intros q Hq Q1 Q2. apply (below_cod a b x y); auto.
    + eapply sub_trans; [apply HH|exact G1].
    + change (match length e with 0%nat => false | S m' => Nat.eqb k m' end) with (Nat.eqb (S k) (length e)).
      destruct (Nat.eqb (S k) (length e)) eqn:EL.
      * apply Nat.eqb_eq in EL. replace (length e - 1)%nat with k by lia. rewrite (HE k s E). eapply sub_trans; [apply HH|exact G2].
      * apply Nat.eqb_neq in EL. assert (S k < length x)%nat as Hk by (assert (k < length x)%nat by (apply nth_error_Some; congruence); lia).
        destruct (nth_error x (S k)) as [s2|] eqn:E2; [|apply nth_error_None in E2; lia]. rewrite (HE _ s2 E2). cbn [s_lb s_in].
        rewrite <- (chain_from_nth _ _ _ _ _ _ (ok_chain _ _ _ Ox) E E2). eapply sub_trans; [apply HH|exact G2].
Qed.

(** ** Contraction *)
Section Contracts.
  Variables (A : arith) (mid : itv -> R) (delta eps : R) (F : box -> box) (m : nat) (a b : R).
  Notation tf1 := (tfunction F m).
  (** a component and the initial one *)
  Definition cin (D : list (R * R)) (y x : tube) : Prop := tube_ok a b y /\ map dom y = D /\ tube_ok a b x /\ below y x.
  Lemma cin_step D y' y x : cin D y x -> tube_ok a b y' -> tsub y' y -> cin D y' x.
  Proof.
    intros (O & HD & Ox & HB) O' HT. refine (conj O' (conj _ (conj Ox _))).
    - rewrite (tsub_dom _ _ HT). auto.
    - intros t. eapply sub_trans; [apply (tsub_eval a b y' y t); auto|apply HB].
  Qed.
  Lemma cin_nth D k y x l u : cin D y x -> nth_error D k = Some (l, u) -> exists s, nth_error y k = Some s /\ s_lb s = l /\ s_ub s = u /\ a <= l /\ l < u /\ u <= b.
  Proof.
    intros (O & HD & _) ED. rewrite <- HD, nth_error_map in ED. destruct (nth_error y k) as [s|] eqn:E; [|discriminate].
    injection ED as <- <-. exists s. destruct (chain_in_bounds _ _ _ _ (ok_chain _ _ _ O) (nth_error_In _ _ E)). auto.
  Qed.
  Lemma cin_none D k ys xs : Forall2 (cin D) ys xs -> nth_error D k = None -> slices_at k ys = [].
  Proof.
    intros HX ED. unfold slices_at. induction HX as [|y x ys xs (O & HD & _) HX IH]; cbn; auto. rewrite IH.
    rewrite <- HD, nth_error_map in ED. destruct (nth_error y k); [discriminate|auto].
  Qed.
  Lemma put_env_cin D k l u : nth_error D k = Some (l, u) -> forall ys xs, Forall2 (cin D) ys xs -> forall encl,
    Forall2 (cin D) (put_env k (map2 inter (cod_k k ys) encl) ys) xs.
  Proof.
    intros ED. induction 1 as [|y x ys xs Hy HX IH]; intros encl; [unfold put_env; destruct (map2 _ _ _); constructor|].
    destruct (cin_nth D k y x l u Hy ED) as (s & Es & _). unfold cod_k, slices_at, put_env. cbn [flat_map]. rewrite Es. cbn [app map map2].
    destruct encl as [|e encl]; [constructor; auto|]. cbn [map2 on_comps]. constructor; [|apply IH].
    pose proof Hy as (O & _). apply (cin_step D _ y); auto.
    - apply set_envelope_ok; auto. apply wf_inter.
    - eapply set_envelope_tsub; eauto; [apply O|]. intros v Hv. apply In_inter in Hv. tauto.
  Qed.
  Lemma on_comps_all (P : tube -> tube -> Prop) G : (forall e y x, P y x -> P (G e y) x) -> forall ys xs, Forall2 P ys xs -> forall es, Forall2 P (on_comps G es ys) xs.
  Proof. intros HG. induction 1; intros [|e es]; cbn; constructor; auto. Qed.
  Lemma contract_kth_cin n fwd D k ys xs zs : Forall2 (cin D) ys xs -> contract_kth A mid delta eps tf1 n fwd k ys = Some zs -> Forall2 (cin D) zs xs.
  Proof.
    intros HX. unfold contract_kth. destruct (v_is_empty ys) eqn:EV; [intros E; injection E as <-; auto|].
    destruct (guess_kth A mid delta eps tf1 n fwd k ys) as [ws|] eqn:EG; [|discriminate]. intros R. injection R as <-.
    assert (Forall2 (cin D) ws xs) as HW.
    { revert EG. unfold guess_kth. rewrite EV. destruct (slices_at k ys) as [|s ss] eqn:ES; [intros E; injection E as <-; auto|].
      cbn [f_inter tfunction]. match goal with |- context [guess_loop ?p ?q ?r ?w ?z ?v ?T ?h ?x0 ?init ?e] => destruct (guess_loop p q r w z v T h x0 init e) as [[E|]|] end;
        intros R; try discriminate; injection R as <-; auto.
      destruct (nth_error D k) as [[l u]|] eqn:ED; [|rewrite (cin_none D k _ _ HX ED) in ES; discriminate].
      eapply put_env_cin; eauto. }
    apply on_comps_all; auto. intros v y x Hy. unfold picard_gate. destruct (nth_error y k) as [s|] eqn:E; auto.
    pose proof Hy as (O & _). destruct fwd; apply (cin_step D _ y); auto.
    - apply set_output_gate_ok; auto. apply wf_inter.
    - eapply set_output_gate_tsub; eauto; [apply O|]. intros w Hw. apply In_inter in Hw. tauto.
    - apply set_input_gate_ok; auto. apply wf_inter.
    - eapply set_input_gate_tsub; eauto; [apply O|]. intros w Hw. apply In_inter in Hw. tauto.
  Qed.
  Lemma split_cin D k ys xs t : Forall2 (cin D) ys xs -> to_split k ys = Some t -> exists D', Forall2 (cin D') (map (sample t) ys) xs.
  Proof.
    intros HX. unfold to_split. destruct ys as [|y ys]; [discriminate|].
    destruct (slices_at k (y :: ys)) as [|s ss] eqn:ES; [discriminate|].
    destruct (_ && _); [|discriminate]. intros E. injection E as <-.
    destruct (nth_error D k) as [[l u]|] eqn:ED; [|rewrite (cin_none D k _ _ HX ED) in ES; discriminate].
    assert (exists x xs', xs = x :: xs' /\ cin D y x) as (x & xs' & -> & Hy) by (inversion HX; subst; eauto).
    destruct (cin_nth D k y x l u Hy ED) as (q & Eq & Lq & Uq & B1 & B2 & B3).
    unfold slices_at in ES. cbn in ES. rewrite Eq in ES. injection ES as -> _. rewrite Lq, Uq.
    set (t := (l + u) / 2). assert (a <= t <= b) as Ht by (unfold t; lra). exists (map dom (sample t y)).
    pose proof Hy as (_ & HD & _).
    rewrite <- (F2_map_l (sample t)). eapply F2_impl; [|exact HX]. intros z w (O & Dz & Ow & HB).
    refine (conj _ (conj _ (conj Ow _))); [apply sample_ok; auto|apply sample_dom; congruence|].
    intros r. rewrite (sample_eval a b) by auto. apply HB.
  Qed.
  Lemma fwd_loop_cin n g : forall D k nb ys xs zs, Forall2 (cin D) ys xs -> fwd_loop A mid delta eps tf1 n g k nb ys = Some zs -> exists D', Forall2 (cin D') zs xs.
  Proof.
    induction n as [|n IH]; intros D k nb ys xs zs HX; cbn [fwd_loop]; [discriminate|].
    destruct (Nat.ltb k nb); [|intros E; injection E as <-; eauto].
    destruct (negb _); [eauto|].
    destruct (contract_kth A mid delta eps tf1 g true k ys) as [ws|] eqn:EC; [|discriminate].
    pose proof (contract_kth_cin g true D k ys xs ws HX EC) as HZ.
    destruct (to_split k ws) as [t|] eqn:ET; [|eauto].
    destruct (split_cin D k ws xs t HZ ET) as (D' & HD'). eauto.
  Qed.
  Lemma bwd_loop_cin n g : forall D k ys xs zs, Forall2 (cin D) ys xs -> bwd_loop A mid delta eps tf1 n g k ys = Some zs -> exists D', Forall2 (cin D') zs xs.
  Proof.
    induction n as [|n IH]; intros D k ys xs zs HX; cbn [bwd_loop]; [discriminate|].
    destruct k as [|k]; [intros E; injection E as <-; eauto|].
    destruct (negb _); [eauto|].
    destruct (contract_kth A mid delta eps tf1 g false k ys) as [ws|] eqn:EC; [|discriminate].
    pose proof (contract_kth_cin g false D k ys xs ws HX EC) as HZ.
    destruct (to_split k ws) as [t|] eqn:ET; [|eauto].
    destruct (split_cin D k ws xs t HZ ET) as (D' & HD'). eauto.
  Qed.
  Lemma restore_cin D D' ys zs xs : Forall2 (cin D) ys xs -> Forall2 (cin D') zs ys -> Forall2 (cin D) (restore_slicing ys zs) xs.
  Proof.
    intros HX. revert zs. unfold restore_slicing. induction HX as [|y x ys xs Hy HX IH]; intros zs HZ; inversion HZ as [|z ? zs' ? Hz]; subst;
      cbn [combine map fst snd]; constructor; auto.
    pose proof Hy as (Oy & Dy & _). destruct Hz as (Oz & _ & _ & HB). apply (cin_step D _ y); auto.
    - apply tube_assign_ok; [apply mono2_hull|apply tube_set_ok; [exact I|auto]|auto].
    - eapply restore_below; eauto.
  Qed.
  Lemma cin_refl D ys : Forall (tube_ok a b) ys -> Forall (fun y => map dom y = D) ys -> Forall2 (cin D) ys ys.
  Proof. induction 1; intros H1; inversion H1; subst; constructor; auto. refine (conj _ (conj eq_refl (conj _ _))); auto. intros t. apply sub_refl. Qed.
  Lemma cin_trans D ys xs ws : Forall2 (cin D) ys xs -> (exists D', Forall2 (cin D') xs ws) -> Forall2 (cin D) ys ws.
  Proof.
    intros H (D' & H'). revert H H'. apply F2_trans. intros y x w (O & HD & _ & HB) (_ & _ & Ow & HB'). refine (conj O (conj HD (conj Ow _))).
    intros t. eapply sub_trans; [apply HB|apply HB'].
  Qed.
  Lemma cin_forall D ys xs : Forall2 (cin D) ys xs -> Forall2 (cin D) ys ys.
  Proof. induction 1 as [|y x ys xs (O & HD & _)]; constructor; auto. refine (conj O (conj HD (conj O _))). intros t. apply sub_refl. Qed.
  Lemma picard_dir_cin n g preserve fwd D ys xs zs : Forall2 (cin D) ys xs -> picard_dir A mid delta eps tf1 n g preserve fwd ys = Some zs ->
    exists D', Forall2 (cin D') zs xs /\ (preserve = true -> D' = D).
  Proof.
    intros HX. unfold picard_dir. destruct (v_is_empty ys); [intros E; injection E as <-; eauto|].
    set (nb := match ys with x :: _ => length x | [] => 0%nat end).
    destruct (if fwd then fwd_loop A mid delta eps tf1 n g 0 nb ys else bwd_loop A mid delta eps tf1 n g nb ys) as [ws|] eqn:EL; [|discriminate].
    intros R. injection R as <-. pose proof (cin_forall D ys xs HX) as HY.
    assert (exists D', Forall2 (cin D') ws ys) as (D' & HD') by (destruct fwd; [eapply fwd_loop_cin|eapply bwd_loop_cin]; eauto).
    destruct preserve; [|exists D'; split; [eapply cin_trans; eauto|discriminate]]. exists D. split; auto. eapply restore_cin; eauto.
  Qed.
  Lemma picard_cin n g preserve fwd bwd D ys xs zs : Forall2 (cin D) ys xs -> picard A mid delta eps tf1 n g preserve fwd bwd ys = Some zs ->
    exists D', Forall2 (cin D') zs xs /\ (preserve = true -> D' = D).
  Proof.
    intros HX. unfold picard. destruct (v_is_empty ys); [intros E; injection E as <-; eauto|].
    destruct fwd, bwd; cbn [andb]; try (apply picard_dir_cin; auto; fail).
    - destruct (picard_dir A mid delta eps tf1 n g preserve true ys) as [ws|] eqn:E1; [|discriminate]. intros E2.
      destruct (picard_dir_cin _ _ _ _ _ _ _ _ HX E1) as (D1 & H1 & P1). destruct (picard_dir_cin _ _ _ _ _ _ _ _ H1 E2) as (D2 & H2 & P2).
      exists D2. split; auto. intros P. rewrite P2, P1; auto.
    - intros E. injection E as <-. exists D. split; auto. destruct preserve; auto. eapply restore_cin; eauto. eapply cin_forall; eauto.
  Qed.
End Contracts.

(** For any function, even one that is not an inclusion function, and any arithmetic: the result is a consistent tube,
    included in the initial one at every instant, on the same slicing when it is preserved. *)
Theorem C79_contracts : forall A mid delta eps F m n g preserve fwd bwd a b D xs ys,
  Forall (tube_ok a b) xs -> Forall (fun x => map dom x = D) xs ->
  picard A mid delta eps (tfunction F m) n g preserve fwd bwd xs = Some ys ->
  Forall2 (fun y x => tube_ok a b y /\ (forall t, sub (eval_t y t) (eval_t x t)) /\ (preserve = true -> map dom y = map dom x)) ys xs.
Proof.
  intros A mid delta eps F m n g preserve fwd bwd a b D xs ys HO HD HP.
  destruct (picard_cin A mid delta eps F m a b n g preserve fwd bwd D xs xs ys (cin_refl a b D xs HO HD) HP) as (D' & H & HPD).
  pose proof (cin_refl a b D xs HO HD) as HX. revert HX. clear HO HD HP. induction H as [|y x ys xs (O & Dy & Ox & HB) H IH]; intros HX; constructor.
  - refine (conj O (conj HB _)). intros P. inversion HX as [|? ? ? ? (_ & Dx & _)]; subst. auto.
  - apply IH. inversion HX; auto.
Qed.

(** The scalar version: the result keeps the solutions, is included in the initial tube, on the same slicing. *)
Theorem C79_scalar : forall A mid delta eps F phi n g preserve fwd bwd a b x y,
  arith_ok A -> inclusion 1 F phi -> tube_ok a b x ->
  picard_tube A mid delta eps (tfunction F 1) n g preserve fwd bwd x = Some y ->
  (forall f, has x f -> solution a b phi [f] -> has y f) /\ map dom y = map dom x /\ (forall f, has y f -> has x f).
Proof.
  intros A mid delta eps F phi n g preserve fwd bwd a b x y HA HF HO HP. unfold picard_tube in HP.
  destruct (picard A mid delta eps (tfunction F 1) n g preserve fwd bwd [x]) as [[|z zs]|] eqn:E; try discriminate. injection HP as <-.
  assert (tube_ok a b z) as Oz.
  { pose proof (C79_contracts A mid delta eps F 1 n g preserve fwd bwd a b (map dom x) [x] (z :: zs)) as HC.
    specialize (HC ltac:(auto) ltac:(auto) E). inversion HC as [|? ? ? ? (H & _)]; subst. exact H. }
  split; [|split].
  - intros f Hf HS. destruct (C79_no_loss A mid delta eps F phi n g preserve fwd bwd a b (map dom x) [x] (z :: zs) [f]) as (H1 & H2 & _); auto.
    inversion H1; subst. apply (tube_assign_inter a b); auto.
  - apply tube_assign_dom.
  - intros f. apply (tube_assign_inter a b); auto.
Qed.

(** ** Example: x' = t from x(0) = 0, nothing else is known *)
Definition midR (i : itv) : R := match i with Itv (Some l) (Some h) => (l + h) / 2 | _ => 0 end.
Definition phiT (t : R) (_ : list R) : list R := [t].
Definition FT (B : box) : box := match B with Itv (Some l) (Some h) :: _ => [bnd l h] | _ => [ALL] end.
Lemma FT_incl : inclusion 1 FT phiT.
Proof.
  constructor.
  - intros t p T X HT _ _. unfold phiT. cbn. destruct T as [|[l|] [h|]]; cbn [FT]; try (constructor; [apply In_ALL|constructor]).
    constructor; [apply In_bnd; exact HT|constructor].
  - intros [|[|[l|] [h|]] B]; auto.
  - intros [|[|[l|] [h|]] B]; cbn [FT]; repeat constructor. apply wf_mk.
  - intros [|[|[l|] [h|]] B]; cbn [FT]; try (right; constructor; [discriminate|constructor]).
    unfold bnd, mk. destruct (Rle_dec l h); [right|left]; constructor; try constructor. discriminate.
Qed.
Definition xT : tube := [mkS 0 1 ALL (pt 0) ALL].
Definition yT : tube := [mkS 0 1 (I2 0 1) (pt 0) (I2 0 1)].
Ltac iveq := unfold I2, pt; f_equal; f_equal; try lra; field.
Lemma bnd01 x y : x <= y -> bnd x y = I2 x y.
Proof. intros. unfold bnd, mk. destruct (Rle_dec x y); [auto|lra]. Qed.
Lemma I2_eq a b c d : a = c -> b = d -> I2 a b = I2 c d. Proof. congruence. Qed.
Lemma wid0 : widen exact midR (11/10) (1/1000) (pt 0) = I2 (-1/1000) (1/1000).
Proof. unfold widen. rewrite bnd01 by lra. cbn. unfold min4, max4. reval. apply I2_eq; lra. Qed.
Lemma wid1 : widen exact midR (11/10) (1/1000) (I2 0 1) = I2 (-51/1000) (1051/1000).
Proof. unfold widen. rewrite bnd01 by lra. cbn. unfold min4, max4. reval. apply I2_eq; lra. Qed.
Lemma encl1 : b_add exact [pt 0] (b_scal exact (bnd 0 (1 - 0)) [bnd 0 1]) = [I2 0 1].
Proof. rewrite !bnd01 by lra. unfold b_add. cbn. unfold min4, max4. reval. f_equal. apply I2_eq; lra. Qed.
Lemma unb_I2 a b : a <> -99999 -> picard_unbounded [I2 a b] = false.
Proof. intros. unfold picard_unbounded, b_unbounded. rewrite bnd01 by lra. cbn [existsb]. rewrite (proj2 (itv_eqb_false _ _)); [reflexivity|]. unfold I2. congruence. Qed.
Lemma guess_S A mid delta eps F n t h x0 init encl E : 
  b_add A x0 (b_scal A h (f_box F (t :: b_inter (map (widen A mid delta eps) encl) init))) = E ->
  guess_loop A mid delta eps F (S n) t h x0 init encl =
    (if picard_bad E (map (widen A mid delta eps) encl) then Some None
     else if b_interior E (map (widen A mid delta eps) encl) then Some (Some E) else guess_loop A mid delta eps F n t h x0 init E).
Proof. intros <-. reflexivity. Qed.
Lemma guess_run : guess_loop exact midR (11/10) (1/1000) (tfunction FT 1) 5 (I2 0 1) (bnd 0 (1 - 0)) [pt 0] [ALL] [pt 0] = Some (Some [I2 0 1]).
Proof.
  rewrite (guess_S _ _ _ _ _ _ _ _ _ _ _ [I2 0 1]) by exact encl1.
  assert (picard_bad [I2 0 1] (map (widen exact midR (11/10) (1/1000)) [pt 0]) = false) as ->.
  { unfold picard_bad. rewrite unb_I2 by lra. cbn [map]. rewrite wid0. reflexivity. }
  assert (b_interior [I2 0 1] (map (widen exact midR (11/10) (1/1000)) [pt 0]) = false) as ->.
  { cbn [map]. rewrite wid0. unfold b_interior. cbn. reval. reflexivity. }
  rewrite (guess_S _ _ _ _ _ _ _ _ _ _ _ [I2 0 1]) by exact encl1.
  assert (picard_bad [I2 0 1] (map (widen exact midR (11/10) (1/1000)) [I2 0 1]) = false) as ->.
  { unfold picard_bad. rewrite unb_I2 by lra. cbn [map]. rewrite wid1. reflexivity. }
  assert (b_interior [I2 0 1] (map (widen exact midR (11/10) (1/1000)) [I2 0 1]) = true) as ->; [|reflexivity].
  cbn [map]. rewrite wid1. unfold b_interior. cbn. reval. reflexivity.
Qed.
Lemma evT0 : eval_t xT 0 = pt 0. Proof. unfold xT, eval_t, slice_at. cbn. reval. unfold slice_eval. cbn. reval. reflexivity. Qed.
Lemma env_run : put_env 0 (map2 inter [ALL] [I2 0 1]) [xT] = [yT].
Proof. unfold put_env, xT, yT. cbn. unfold set_envelope, put_gate. cbn. unfold mk. reval. reflexivity. Qed.
Lemma contract_run : contract_kth exact midR (11/10) (1/1000) (tfunction FT 1) 5 true 0 [xT] = Some [yT].
Proof.
  unfold contract_kth, guess_kth. assert (v_is_empty [xT] = false) as -> by reflexivity.
  assert (slices_at 0 [xT] = [mkS 0 1 ALL (pt 0) ALL]) as -> by reflexivity. cbn [f_inter tfunction s_lb s_ub].
  unfold v_eval. cbn [map]. rewrite evT0. change (cod_k 0 [xT]) with [ALL]. unfold s_dom. cbn [s_lb s_ub]. fold (I2 0 1). rewrite guess_run, env_run.
  unfold yT. cbn -[bnd]. rewrite bnd01 by lra. unfold picard_gate, set_output_gate, put_gate. cbn. unfold min4, max4, mk. reval.
  repeat (first [progress reval|f_equal]); unfold I2; repeat f_equal; lra.
Qed.
Lemma fwd_S A mid delta eps F n g k nb xs ys : Nat.ltb k nb = true -> picard_unbounded (cod_k k xs) = true -> contract_kth A mid delta eps F g true k xs = Some ys ->
  to_split k ys = None -> fwd_loop A mid delta eps F (S n) g k nb xs = fwd_loop A mid delta eps F n g (S k) nb ys.
Proof. intros H1 H2 H3 H4. cbn [fwd_loop]. rewrite H1, H2, H3, H4. reflexivity. Qed.
Lemma run_keep : picard_dir exact midR (11/10) (1/1000) (tfunction FT 1) 5 5 false true [xT] = Some [yT].
Proof.
  unfold picard_dir. assert (v_is_empty [xT] = false) as -> by reflexivity. cbn [length xT]. fold xT.
  rewrite (fwd_S _ _ _ _ _ _ _ _ _ _ [yT]); [reflexivity|reflexivity|reflexivity|exact contract_run|].
  unfold to_split. cbn [slices_at flat_map nth_error yT app]. change (cod_k 0 [_]) with [I2 0 1]. rewrite unb_I2 by lra. reflexivity.
Qed.
Lemma restore_run : restore_slicing [xT] [yT] = [yT].
Proof.
  unfold restore_slicing, xT, yT. cbn [combine map fst snd]. rewrite tube_set_eq by exact I. cbn [map s_lb s_ub].
  unfold tube_assign. cbn. reval. unfold map_loop. cbn. unfold set_envelope, set_input_gate, set_output_gate, put_gate. cbn. reflexivity.
Qed.
Definition fT (t : R) : R := t * t / 2.
Lemma deriv_fT : derivative_on 0 1 fT (fun t => t).
Proof.
  assert (forall t, derivable_pt_lim fT t t) as H.
  { intros t. replace t with (/ 2 * (1 * t + t * 1)) at 2 by field.
    apply (derivable_pt_lim_ext (mult_real_fct (/ 2) (fun u => id u * id u)%R)). { intros u. unfold mult_real_fct, fT, id. field. }
    apply derivable_pt_lim_scal. apply (derivable_pt_lim_mult id id t 1 1); apply derivable_pt_lim_id. }
  split; intros t _; [|apply H]. apply derivable_continuous_pt. exists t. apply H.
Qed.
Lemma solution_fT : solution 0 1 phiT [fT].
Proof. exists [fun t => t]. split; [constructor; [exact deriv_fT|constructor]|]. intros t _. reflexivity. Qed.
Lemma xT_ok : tube_ok 0 1 xT.
Proof. constructor; [discriminate|cbn; repeat split; lra|cbn; auto|]. constructor; [|constructor]. unfold slice_ok. cbn. repeat split; try lra; try exact I; intros v _; apply In_ALL. Qed.
Lemma xT_fT : has xT fT.
Proof. intros s [<-|[]]. repeat split; cbn; auto; unfold fT; lra. Qed.
(** the hypotheses of the theorems are met, and the contractor does bound the tube *)
Example C79_example : picard exact midR (11/10) (1/1000) (tfunction FT 1) 5 5 true true false [xT] = Some [yT] /\
  Forall2 has [yT] [fT] /\ ~ sub ALL (s_cod (mkS 0 1 (I2 0 1) (pt 0) (I2 0 1))).
Proof.
  assert (picard exact midR (11/10) (1/1000) (tfunction FT 1) 5 5 true true false [xT] = Some [yT]) as HP.
  { unfold picard. assert (v_is_empty [xT] = false) as EV by reflexivity. rewrite EV. cbn [andb].
    pose proof run_keep as H. unfold picard_dir in *. rewrite EV in *. 
    destruct (fwd_loop exact midR (11/10) (1/1000) (tfunction FT 1) 5 5 0 (length xT) [xT]) as [zs|]; [|discriminate]. injection H as ->. rewrite restore_run. reflexivity. }
  split; [exact HP|]. split.
  - apply (C79_no_loss exact midR (11/10) (1/1000) FT phiT 5 5 true true false 0 1 (map dom xT) [xT] [yT] [fT]); auto.
    + exact exact_ok.
    + exact FT_incl.
    + constructor; [exact xT_ok|constructor].
    + constructor; [exact xT_fT|constructor].
    + exact solution_fT.
  - intros H. specialize (H 2 (In_ALL 2)). cbn in H. lra.
Qed.

(** ** Functions that depend on other instants (is_intertemporal) *)
(** [F] encloses the derivatives given by the functional [Phi] for all the trajectories of a tube vector over [a,b] *)
Definition inter_inclusion (a b : R) (m : nat) (F : tfnc) (Phi : list (R -> R) -> R -> list R) : Prop :=
  forall xs fs k s, Forall (tube_ok a b) xs -> Forall2 has xs fs -> length xs = m -> List.In s (slices_at k xs) ->
    forall t, s_lb s <= t <= s_ub s -> Forall2 In (Phi fs t) (f_k F k xs).
Definition inter_solution (a b : R) (Phi : list (R -> R) -> R -> list R) (fs : list (R -> R)) : Prop :=
  exists gs, Forall2 (derivative_on a b) fs gs /\ forall t, a < t < b -> vals gs t = Phi fs t.

(** x'(t) = x(1) *)
Definition FI : tfnc := mkF true (fun B => B) (fun _ xs => map (fun x => eval_t x 1) xs).
Definition PhiI (fs : list (R -> R)) (_ : R) : list R := vals fs 1.
Definition e0 : R := 1 / 8388608.
Definition xI (c g : itv) : tube := [mkS 0 1 c (pt 0) g].
Lemma evI c g : eval_t (xI c g) 1 = g.
Proof. unfold xI, eval_t, slice_at. cbn. reval. unfold slice_eval. cbn. reval. reflexivity. Qed.
Lemma evI0 c g : eval_t (xI c g) 0 = pt 0.
Proof. unfold xI, eval_t, slice_at. cbn. reval. unfold slice_eval. cbn. reval. reflexivity. Qed.
Lemma envI c g r w : 0 < r -> inter g (I2 (- r) r) = w -> put_env 0 [I2 (- r) r] [xI c g] = [xI (I2 (- r) r) w].
Proof.
  intros Hr <-. unfold put_env, xI. cbn [on_comps]. unfold set_envelope, put_gate. cbn -[inter]. f_equal. f_equal. f_equal.
  cbn. unfold mk. reval. reflexivity.
Qed.
Lemma inter_ALL i : wf i -> inter ALL i = i.
Proof. destruct i as [|[l|] [h|]]; cbn; auto. unfold mk. destruct (Rle_dec l h); auto. lra. Qed.
Lemma inter_I2 r q : 0 < r -> r <= q -> inter (I2 (- r) r) (I2 (- q) q) = I2 (- r) r.
Proof. intros. unfold I2. cbn. unfold mk. reval. reflexivity. Qed.
Lemma wfI r : 0 < r -> wf (I2 (- r) r). Proof. intros; cbn; lra. Qed.
Lemma widI0 : map (widen exact midR (11/10) e0) [pt 0] = [I2 (- e0) e0].
Proof. unfold e0. cbn [map]. f_equal. unfold widen. rewrite bnd01 by lra. cbn. unfold min4, max4. reval. apply I2_eq; lra. Qed.
Lemma widI1 : map (widen exact midR (11/10) e0) [I2 (- e0) e0] = [I2 (- (21/10 * e0)) (21/10 * e0)].
Proof. unfold e0. cbn [map]. f_equal. unfold widen. rewrite bnd01 by lra. cbn. unfold min4, max4. reval. apply I2_eq; lra. Qed.
Lemma enclI : b_add exact [pt 0] (b_scal exact (bnd 0 (1 - 0)) [I2 (- e0) e0]) = [I2 (- e0) e0].
Proof. unfold e0. rewrite !bnd01 by lra. unfold b_add. cbn. unfold min4, max4. reval. f_equal. apply I2_eq; lra. Qed.
Lemma guessI : guess_loop_inter exact midR (11/10) e0 FI 3 0 (bnd 0 (1 - 0)) [pt 0] [ALL] [pt 0] [xI ALL ALL] =
  Some (Some [I2 (- e0) e0], [xI (I2 (- (21/10 * e0)) (21/10 * e0)) (I2 (- e0) e0)]).
Proof.
  assert (0 < e0) as He by (unfold e0; lra).
  cbn [guess_loop_inter]. rewrite widI0. cbn [map2].
  assert (forall i, inter i ALL = inter ALL i) as IC by (intros [|[l|] [h|]]; cbn; auto; f_equal; auto).
  rewrite IC, inter_ALL by (apply wfI; auto). rewrite (envI ALL ALL e0 (I2 (- e0) e0) He) by (apply inter_ALL, wfI; auto).
  cbn [f_k FI map]. rewrite evI, enclI.
  assert (forall G, G <> Emp -> picard_bad [I2 (- e0) e0] [G] = false) as HB.
  { intros G HG. unfold picard_bad. rewrite unb_I2 by (unfold e0; lra). cbn. destruct G; [congruence|reflexivity]. }
  rewrite HB by discriminate.
  assert (b_interior [I2 (- e0) e0] [I2 (- e0) e0] = false) as ->. { unfold b_interior. cbn. reval. reflexivity. }
  rewrite widI1. cbn [map2]. rewrite IC, inter_ALL by (apply wfI; lra).
  rewrite (envI (I2 (- e0) e0) (I2 (- e0) e0) (21/10 * e0) (I2 (- e0) e0)); [|lra|apply inter_I2; lra].
  cbn [map]. rewrite evI, enclI. rewrite HB by discriminate.
  assert (b_interior [I2 (- e0) e0] [I2 (- (21/10 * e0)) (21/10 * e0)] = true) as ->; [|reflexivity]. unfold b_interior. cbn. reval. reflexivity.
Qed.
Lemma contractI : contract_kth exact midR (11/10) e0 FI 3 true 0 [xI ALL ALL] = Some [xI (I2 (- e0) e0) (I2 (- e0) e0)].
Proof.
  assert (0 < e0) as He by (unfold e0; lra).
  unfold contract_kth, guess_kth. assert (v_is_empty [xI ALL ALL] = false) as -> by reflexivity.
  assert (slices_at 0 [xI ALL ALL] = [mkS 0 1 ALL (pt 0) ALL]) as -> by reflexivity. cbn [f_inter FI s_lb s_ub].
  unfold v_eval. cbn [map]. rewrite evI0, evI. change (cod_k 0 [xI ALL ALL]) with [ALL]. fold FI. rewrite guessI. cbn [map2].
  rewrite inter_ALL by (apply wfI; auto).
  rewrite (envI (I2 (- (21/10 * e0)) (21/10 * e0)) (I2 (- e0) e0) e0 (I2 (- e0) e0)); [|lra|apply inter_I2; lra].
  cbn [on_comps]. assert (set_output_gate 0 ALL true (xI (I2 (- e0) e0) (I2 (- e0) e0)) = xI (I2 (- e0) e0) (I2 (- e0) e0)) as ->.
  { unfold set_output_gate, put_gate, xI. cbn. unfold mk. reval. reflexivity. }
  cbn [f_k FI map]. rewrite evI. cbn [on_comps]. f_equal. f_equal. unfold picard_gate, xI. cbn [nth_error s_lb s_ub s_in s_out].
  unfold set_output_gate, put_gate. cbn. unfold min4, max4, mk. unfold e0. reval. repeat f_equal; lra.
Qed.
Lemma runI : picard exact midR (11/10) e0 FI 5 3 false true false [xI ALL ALL] = Some [xI (I2 (- e0) e0) (I2 (- e0) e0)].
Proof.
  unfold picard. assert (v_is_empty [xI ALL ALL] = false) as EV by reflexivity. rewrite EV. cbn [andb]. unfold picard_dir. rewrite EV. cbn [length xI]. fold (xI ALL ALL).
  rewrite (fwd_S _ _ _ _ _ _ _ _ _ _ [xI (I2 (- e0) e0) (I2 (- e0) e0)]); [reflexivity|reflexivity|reflexivity|exact contractI|].
  unfold to_split. cbn [slices_at flat_map nth_error xI app]. change (cod_k 0 [_]) with [I2 (- e0) e0]. rewrite unb_I2 by (unfold e0; lra). reflexivity.
Qed.
(** A solution is lost: x'(t) = x(1) from x(0) = 0 has the solution x(t) = t, and the tube is contracted to [-eps,eps]. *)
Theorem C79_intertemporal_refuted : exists F Phi n g a b x y f,
  f_inter F = true /\ inter_inclusion a b 1 F Phi /\ tube_ok a b x /\ has x f /\ inter_solution a b Phi [f] /\
  picard exact midR (11/10) e0 F n g false true false [x] = Some [y] /\ ~ has y f.
Proof.
  exists FI, PhiI, 5%nat, 3%nat, 0, 1, (xI ALL ALL), (xI (I2 (- e0) e0) (I2 (- e0) e0)), (fun t => t).
  split; [reflexivity|]. split; [|split; [exact xT_ok|split; [|split; [|split; [exact runI|]]]]].
  - intros xs fs k s HO HH _ _ t _. unfold PhiI. cbn [f_k FI]. apply F2_vals. apply F2_map_l. clear - HO HH.
    induction HH; inversion HO; subst; constructor; auto. eapply eval_t_in; eauto.
  - intros s [<-|[]]. repeat split; cbn; auto; lra.
  - exists [fun _ => 1]. split; [constructor; [|constructor]|].
    + split; intros t _; [apply derivable_continuous_pt; exists 1|]; apply derivable_pt_lim_id.
    + intros t _. reflexivity.
  - intros H. destruct (H _ (or_introl eq_refl)) as (_ & H1 & _). cbn in H1. unfold e0 in H1. lra.
Qed.

Print Assumptions C79_no_loss.
Print Assumptions C79_contracts.
Print Assumptions C79_scalar.
Print Assumptions C79_intertemporal_refuted.
