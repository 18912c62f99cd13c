(** * Properties of [CtcFunction] on tubes (C98) *)
From Coq Require Import Reals Lra Bool List Arith Lia.
From Verif Require Import Itv Arith Tube TubeSpec TubeFacts TubeOps TubeOpsFacts TubeOpsFacts2
  TubeQueries TubeQueries2 TubeCtc Concrete DynSpec CtcDeriv CtcDerivFacts CtcEvalFacts CtcDelay PropsDyn2 CtcFunction.
Import ListNotations.
Open Scope R_scope.
Local Arguments seq : simpl never.

(** the result has the size of the given box: it is a box of nb_var components in the code *)
Definition same_size (ctc : list itv -> list itv) : Prop := forall box, length (ctc box) = length box.

Lemma fn_set_two k : forall env ing xs, length env = length ing ->
  fn_set k env ing xs = on_comps (fun g x => set_input_gate k g true x) ing (on_comps (fun e x => set_envelope k e true x) env xs).
Proof.
  induction env as [|e env IH]; intros [|g ing] [|x xs] H; cbn in *; try discriminate; auto. f_equal. apply IH. lia.
Qed.
Lemma fn_set_out_one k : forall outg xs, fn_set_out k outg xs = on_comps (fun g x => set_output_gate k g true x) outg xs.
Proof. induction outg as [|g outg IH]; intros [|x xs]; cbn; auto. f_equal. apply IH. Qed.

Lemma on_comps_dom f : (forall e x, map dom (f e x) = map dom x) -> forall box xs D,
  Forall (fun x => map dom x = D) xs -> Forall (fun x => map dom x = D) (on_comps f box xs).
Proof.
  intros Hf. induction box as [|e box IH]; intros [|x xs] D H; cbn; auto. inversion H; subst. constructor; auto.
Qed.
Lemma static_slice_dom ctc k last xs D : Forall (fun x => map dom x = D) xs ->
  Forall (fun x => map dom x = D) (static_slice ctc false ALL k last xs).
Proof.
  intros H. unfold static_slice. destruct (slices_at k xs) as [|s0 ss]; [auto|]. destruct (negb _); [auto|].
  destruct last; repeat (apply on_comps_dom; [intros; first [apply set_output_gate_dom|apply set_input_gate_dom|apply set_envelope_dom]|]); auto.
Qed.
Lemma inter_ALL_ne s : s_lb s <= s_ub s -> intersects (s_dom s) ALL = true.
Proof.
  intros H. apply intersects_spec. exists (s_lb s). split; [|apply In_ALL]. unfold s_dom; cbn; lra.
Qed.
Lemma slices_at_length k xs : slices_at k xs = [] \/ exists s l, slices_at k xs = s :: l.
Proof. destruct (slices_at k xs); eauto. Qed.

Lemma fn_loop_static ctc D : same_size ctc -> (forall lo hi, List.In (lo, hi) D -> lo <= hi) -> forall n k xs, xs <> [] ->
  (0 < n)%nat -> (k + n = length D)%nat ->
  Forall (fun x => map dom x = D) xs ->
  fn_loop ctc n k xs = Some (fold_left (fun xs k => static_slice ctc false ALL k (Nat.eqb (S k) (length D)) xs) (seq k n) xs).
Proof.
  intros HS HD. induction n as [|n IH]; intros k xs Hne Hn Hk HX; [lia|].
  cbn [fn_loop]. 
  assert (forallb (fun x => Nat.ltb k (length x)) xs = true) as ->.
  { apply forallb_forall. intros x Hx. rewrite Forall_forall in HX. apply Nat.ltb_lt.
    rewrite <- (map_length dom x), (HX _ Hx). lia. }
  change (seq k (S n)) with (k :: seq (S k) n). cbn [fold_left].
  assert (exists s0 l, slices_at k xs = s0 :: l /\ s_lb s0 <= s_ub s0) as (s0 & l & ES & H0).
  { destruct xs as [|x xs]; [congruence|]. inversion HX as [|? ? E1 E2]; subst. cbn.
    destruct (nth_error x k) as [s|] eqn:E.
    - exists s, (slices_at k xs). split; [reflexivity|]. apply HD. apply (List.in_map dom) with (x := s). eapply nth_error_In; eauto.
    - apply nth_error_None in E. rewrite map_length in Hk. lia. }
  assert (static_slice ctc false ALL k (Nat.eqb (S k) (length D)) xs =
    let ys := fn_set k (ctc (map s_cod (slices_at k xs))) (ctc (map s_in (slices_at k xs))) xs in
    if Nat.eqb (S k) (length D) then fn_set_out k (ctc (map s_out (slices_at k ys))) ys else ys) as ->.
  { unfold static_slice. rewrite ES. rewrite inter_ALL_ne by auto. cbn [negb]. unfold with_time, without_time.
    cbn zeta. rewrite fn_set_two by (rewrite !HS, !map_length; auto).
    destruct (Nat.eqb (S k) (length D)); [|reflexivity]. rewrite fn_set_out_one. reflexivity. }
  cbv zeta. destruct n as [|n].
  - assert (Nat.eqb (S k) (length D) = true) as -> by (apply Nat.eqb_eq; lia). reflexivity.
  - assert (Nat.eqb (S k) (length D) = false) as -> by (apply Nat.eqb_neq; lia).
    apply IH; try lia.
    + rewrite fn_set_two by (rewrite !HS, !map_length; auto). destruct xs; [congruence|].
      destruct (ctc _); destruct (ctc _); cbn; congruence.
    + rewrite fn_set_two by (rewrite !HS, !map_length; auto).
      apply on_comps_dom; [intros; apply set_input_gate_dom|]. apply on_comps_dom; [intros; apply set_envelope_dom|]. auto.
Qed.

Lemma chain_dom_le : forall x a b, chain_from a x b -> forall lo hi, List.In (lo, hi) (map dom x) -> lo <= hi.
Proof.
  induction x as [|s x IH]; intros a b H lo hi Hi; cbn in *; [tauto|]. destruct H as (H1 & H2 & H3).
  destruct Hi as [Hi|Hi]; [|eauto]. unfold dom in Hi. inversion Hi; subst. lra.
Qed.

(** With tubes that share their slicing, CtcFunction does what CtcStatic does with the same contractor *)
Theorem C98_static : forall ctc a b xs, same_size ctc -> xs <> [] -> Forall (tube_ok a b) xs ->
  (forall x x', List.In x xs -> List.In x' xs -> map dom x = map dom x') ->
  ctc_function ctc xs = Some (ctc_static ctc false ALL xs).
Proof.
  intros ctc a b xs HS Hne HO HD. unfold ctc_function, ctc_static. destruct xs as [|x0 xs]; [congruence|].
  assert (tube_ok a b x0) as H0 by (inversion HO; auto).
  rewrite (fn_loop_static ctc (map dom x0)); auto.
  - rewrite map_length. reflexivity.
  - eapply chain_dom_le. apply H0.
  - destruct H0 as [H0 _ _ _]. destruct x0; [congruence|cbn; lia].
  - rewrite map_length. reflexivity.
  - apply Forall_forall. intros x Hx. apply HD; [auto|left; auto].
Qed.

(** the constraint f(x(t)) in [y] at every instant of [a,b] *)
Definition fconstraint (f : list R -> list R) (y : list itv) (a b : R) (fs : list (R -> R)) : Prop :=
  forall t, a <= t <= b -> Forall2 In (f (map (fun g => g t) fs)) y.

Theorem C98_no_loss_partial : forall f y ctc a b xs fs,
  keeps (fun p => Forall2 In (f p) y) ctc -> gives_boxes ctc -> same_size ctc ->
  xs <> [] -> Forall (tube_ok a b) xs ->
  (forall x x', List.In x xs -> List.In x' xs -> map dom x = map dom x') ->
  Forall2 has xs fs -> fconstraint f y a b fs ->
  exists xs', ctc_function ctc xs = Some xs' /\ Forall2 has xs' fs.
Proof.
  intros f y ctc a b xs fs HK HG HS Hne HO HD HH HF. eexists. split; [eapply C98_static; eauto|].
  eapply C23_no_loss; eauto.
Qed.

Theorem C98_contracts_partial : forall ctc a b xs, contracts ctc -> gives_boxes ctc ->
  xs <> [] -> Forall (tube_ok a b) xs ->
  (forall x x', List.In x xs -> List.In x' xs -> map dom x = map dom x') ->
  exists xs', ctc_function ctc xs = Some xs' /\ Forall2 tsub xs' xs /\ Forall (tube_ok a b) xs'.
Proof.
  intros ctc a b xs HC HG Hne HO HD. eexists. split; [eapply C98_static; eauto|].
  - intros box. eapply F2_len. apply HC.
  - eapply C23_contracts; eauto.
Qed.

(** ** The constraint x1 - x2 = 0, contracted as HC4Revise does *)
Definition ctc_eq2 (box : list itv) : list itv :=
  match box with [x; y] => [inter x y; inter x y] | _ => box end.
Definition fdiff (p : list R) : list R := match p with [x; y] => [x - y] | _ => [] end.
Lemma eq2_keeps : keeps (fun p => Forall2 In (fdiff p) [pt 0]) ctc_eq2.
Proof.
  intros box p H HP. destruct H as [|x i p box Hx H]; [constructor|]. destruct H as [|y j p box Hy H]; [repeat constructor; auto|].
  destruct H; [|cbn; repeat constructor; auto]. cbn in *. inversion HP as [|? ? ? ? E _]; subst. cbn in E.
  assert (x = y) as <- by lra. repeat constructor; apply In_inter; auto.
Qed.
Lemma sub_refl_all : forall l, Forall2 sub l l. Proof. induction l; constructor; auto using sub_refl. Qed.
Lemma eq2_contracts : contracts ctc_eq2.
Proof.
  intros box. destruct box as [|x [|y [|z box]]]; try apply sub_refl_all. cbn.
  constructor; [apply sub_inter_l|constructor; [apply sub_inter_r|constructor]].
Qed.
Lemma eq2_boxes : gives_boxes ctc_eq2.
Proof.
  intros box H. destruct box as [|x [|y [|z box]]]; auto. cbn. inversion H as [|? ? H1 H2]; subst. inversion H2; subst.
  repeat (constructor; [auto using wf_inter|]). constructor.
Qed.
Lemma eq2_size : same_size ctc_eq2. Proof. intros [|x [|y [|z box]]]; reflexivity. Qed.

Example C98_example : exists xs', ctc_function ctc_eq2 [tU; tA] = Some xs' /\ Forall2 has xs' [fA; fA] /\ Forall2 tsub xs' [tU; tA].
Proof.
  assert (Forall (tube_ok 0 2) [tU; tA]) as HO by (apply Forall_cons; [exact tU_ok|apply Forall_cons; [exact tA_ok|apply Forall_nil]]).
  assert (forall x x', List.In x [tU; tA] -> List.In x' [tU; tA] -> map dom x = map dom x') as HD.
  { intros x y [ <- | [ <- | [] ] ] [ <- | [ <- | [] ] ]; reflexivity. }
  destruct (C98_no_loss_partial fdiff [pt 0] ctc_eq2 0 2 [tU; tA] [fA; fA]) as (xs' & E & H); auto using eq2_keeps, eq2_boxes, eq2_size.
  - discriminate.
  - constructor; [exact tU_fA|constructor; [exact tA_fA|constructor]].
  - intros t _. cbn. constructor; [|constructor]. cbn. lra.
  - destruct (C98_contracts_partial ctc_eq2 0 2 [tU; tA]) as (xs2 & E2 & H2 & _); auto using eq2_contracts, eq2_boxes; [discriminate|].
    exists xs'. split; [auto|]. split; [auto|]. rewrite E in E2. inversion E2; subst; auto.
Qed.

(** ** The slicings are not compared *)
(** x(t) = t over [0,2], in two tubes of two slices *)
Definition tF1 : tube := [mkS 0 1 (I2 0 1) (I2 0 1) (I2 1 1); mkS 1 2 (I2 1 2) (I2 1 1) (I2 1 2)].
Definition tF2 : tube := [mkS 0 (3/2) (I2 0 (3/2)) (I2 0 (3/2)) (I2 (3/2) (3/2)); mkS (3/2) 2 (I2 (3/2) 2) (I2 (3/2) (3/2)) (I2 (3/2) 2)].
Lemma tF1_ok : tube_ok 0 2 tF1. Proof. tube_ok_tac. Qed.
Lemma tF2_ok : tube_ok 0 2 tF2. Proof. tube_ok_tac. Qed.

(** two tubes over the same domain, with the same number of slices: a solution is lost *)
Theorem C98_no_loss_refuted : exists f y ctc a b xs fs,
  keeps (fun p => Forall2 In (f p) y) ctc /\ contracts ctc /\ gives_boxes ctc /\ same_size ctc /\
  Forall (tube_ok a b) xs /\ Forall2 has xs fs /\ fconstraint f y a b fs /\
  exists xs', ctc_function ctc xs = Some xs' /\ ~ Forall2 has xs' fs.
Proof.
  exists fdiff, [pt 0], ctc_eq2, 0, 2, [tF1; tF2], [fun t => t; fun t => t].
  split; [exact eq2_keeps|]. split; [exact eq2_contracts|]. split; [exact eq2_boxes|]. split; [exact eq2_size|].
  split; [constructor; [exact tF1_ok|constructor; [exact tF2_ok|constructor]]|].
  split; [constructor; [has_tac|constructor; [has_tac|constructor]]|].
  split; [intros t _; cbn; constructor; [cbn; lra|constructor]|].
  eexists. split.
  - unfold ctc_function, tF1, tF2. cbn. unfold I2. reval. reflexivity.
  - intros H. inversion H as [|x f xs fs Hx Hr E1 E2]. subst.
    match type of Hx with has (_ :: ?s :: _) _ => destruct (Hx s) as (_ & _ & H3); [right; left; reflexivity|] end.
    specialize (H3 (5/4)). cbn in H3. lra.
Qed.

(** a second tube with fewer slices: a null pointer is dereferenced *)
Theorem C98_null_refuted : exists ctc a b xs fs, contracts ctc /\ gives_boxes ctc /\
  Forall (tube_ok a b) xs /\ Forall2 has xs fs /\ ctc_function ctc xs = None.
Proof.
  exists ctc_eq2, 0, 2, [tU; [mkS 0 2 (I2 0 3) (I2 0 3) (I2 0 3)]], [fA; fA].
  split; [exact eq2_contracts|]. split; [exact eq2_boxes|].
  split; [constructor; [exact tU_ok|constructor; [tube_ok_tac|constructor]]|].
  split; [constructor; [exact tU_fA|constructor; [unfold fA; has_tac|constructor]]|].
  reflexivity.
Qed.

Print Assumptions C98_static.
Print Assumptions C98_no_loss_partial.
Print Assumptions C98_contracts_partial.
Print Assumptions C98_no_loss_refuted.
Print Assumptions C98_null_refuted.
