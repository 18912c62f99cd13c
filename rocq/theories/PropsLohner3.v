(** * C94: the contractor of Lohner only contracts *)
From Coq Require Import Reals Lra Bool List Arith Lia.
From Verif Require Import Itv Arith Tube TubeSpec TubeFacts TubeOps TubeOpsFacts TubeOpsFacts2 TubeQueries TubeQueries2 TubeCtc DynSpec Paving Static CtcDelay PropsDyn2 PropsStatic CtcEvalBody CtcEvalFacts CtcDerivFacts PropsIntegral Picard PicardFacts PropsPicard PropsPicard2 PropsSivia PropsPaving3 Lohner LohnerFacts LohnerStep PropsLohner LohnerQ PropsLohner2.
Import ListNotations.
Open Scope R_scope.

(** the intervals of [es] are valid and included in the values of the first tubes at the instant [t] *)
Fixpoint under (t : R) (es : box) (xs : list tube) : Prop :=
  match es, xs with e :: es, x :: xs => (wf e /\ sub e (eval_t x t)) /\ under t es xs | _, _ => True end.
Lemma under_nil t es : under t es []. Proof. destruct es; exact Logic.I. Qed.
Lemma emp_under t (es : box) : forall xs, under t (map (fun _ => Emp) es) xs.
Proof. induction es as [|e es IH]; intros [|x xs]; cbn; auto. split; auto. split; [exact Logic.I|]. intros v []. Qed.
Lemma inter_under t es : forall us xs, under t es xs -> under t (map2 inter es us) xs.
Proof.
  induction es as [|e es IH]; intros [|u us] [|x xs]; cbn; auto. intros ((W & H) & HU). split; auto. split; [apply wf_inter|].
  intros v Hv. apply In_inter in Hv. apply H. tauto.
Qed.
Lemma b_inter_under t es us xs : under t es xs -> under t (b_inter es us) xs.
Proof.
  intros H. unfold b_inter. destruct (b_is_empty es); auto. destruct (b_is_empty us); [apply emp_under|]. cbn zeta.
  destruct (existsb _ _); [apply emp_under|]. apply inter_under; auto.
Qed.

Section Contracts.
  Variables (A : arith) (bmid : itv -> R) (qr inv : rmat -> rmat) (F : box -> box) (J : box -> list (list itv)) (c : nat) (eps a b : R).
  Notation slices := (lo_slices A bmid qr inv F J c eps).
  Lemma gate_under D (fwd : bool) k l u ys xs : nth_error D k = Some (l, u) -> Forall2 (cin a b D) ys xs -> under (if fwd then u else l) (map (out_gate fwd) (slices_at k ys)) xs.
  Proof.
    intros ED. unfold slices_at. induction 1 as [|y x ys xs Hy HX IH]; cbn [flat_map map]; [exact Logic.I|].
    destruct (cin_nth a b D k y x l u Hy ED) as (s & Es & L & U & B1 & B2 & B3). rewrite Es. cbn [app map under]. split; auto.
    pose proof Hy as (O & _ & _ & HB). assert (IN : List.In s y) by (eapply nth_error_In; eauto).
    assert (SK := ok_slices _ _ _ O). rewrite Forall_forall in SK. destruct (SK s IN) as (_ & W1 & W2 & _).
    split; [destruct fwd; auto|]. intros v Hv. apply HB. rewrite (eval_t_slice a b y k s) by (auto; destruct fwd; lra).
    destruct fwd; cbn [out_gate] in Hv; [rewrite <- U, slice_eval_ub by lra|rewrite <- L, slice_eval_lb by lra]; auto.
  Qed.
  Lemma slices_cin D (fwd : bool) ks : forall s ys xs out t s' zs out', route D fwd ks t -> Forall2 (cin a b D) ys xs ->
    slices fwd ks s ys out = Some (s', zs, out') -> Forall2 (cin a b D) zs xs /\ (ks = [] -> out' = out) /\ (ks <> [] -> under (stop D fwd ks t) out' xs).
  Proof.
    induction ks as [|k ks IH]; intros s ys xs out t s' zs out' HR HX; cbn [lo_slices stop route].
    - intros E. injection E as <- <- <-. split; auto. split; [auto|congruence].
    - destruct HR as (l & u & ED & _ & _ & HR). destruct (slices_at k ys) as [|q qs] eqn:ES; [discriminate|]. rewrite <- ES.
      destruct (integrate _ _ _ _ _ _ _ _ _ _ s) as [s1|]; [|discriminate]. intros E.
      destruct (IH _ _ xs _ _ _ _ _ HR (put_env_cin bmid F a b D k l u ED ys xs HX _) E) as (Y1 & Y2 & Y3).
      split; auto. split; [discriminate|]. intros _. rewrite ED. destruct ks as [|k' ks']; [|apply Y3; discriminate].
      rewrite (Y2 eq_refl). cbn [stop]. apply (gate_under D); auto.
  Qed.
  (** no slice is cut at the ends of the tube *)
  Lemma sample_b : forall x l, chain_from l x b -> sample b x = x.
  Proof.
    induction x as [|s x IH]; intros l HC; [reflexivity|]. cbn [sample]. destruct HC as (E1 & E2 & HC).
    destruct x as [|q x].
    - cbn in HC. unfold sample_slice. rewrite HC. replace (Reqb b b) with true by (symmetry; apply Reqb_refl). rewrite orb_true_r. destruct (Rltb b b); auto.
    - assert (s_ub s < b). { destruct HC as (E3 & E4 & HC). apply chain_le in HC. lra. }
      assert (Rltb b (s_ub s) = false) as -> by (apply Rltb_false; lra). f_equal. eapply IH; eauto.
  Qed.
  Lemma sample_a x : chain_from a x b -> sample a x = x.
  Proof.
    destruct x as [|s x]; [reflexivity|]. intros (E1 & E2 & _). cbn [sample]. assert (Rltb a (s_ub s) = true) as -> by (apply Rltb_true; lra).
    unfold sample_slice. rewrite E1. replace (Reqb a a) with true by (symmetry; apply Reqb_refl). auto.
  Qed.
  Lemma final_cin te D : (te = a \/ te = b) -> a <= b -> forall zs xs, Forall2 (cin a b D) zs xs -> forall es, under te es xs ->
    Forall2 (cin a b D) (on_comps (fun g y => tube_set_at g te y) es zs) xs.
  Proof.
    intros HT AB. induction 1 as [|z x zs xs Hz HX IH]; intros [|e es]; cbn [on_comps under]; intros HU; try (constructor; auto; fail).
    destruct HU as ((We & He) & HU). constructor; auto. destruct Hz as (O & HD & Ox & HB). assert (TE : a <= te <= b) by (destruct HT; lra).
    destruct (set_at_eval a b z e te O We TE) as (S1 & S2).
    refine (conj _ (conj _ (conj Ox _))); [apply sample_gate_ok; auto| |].
    - rewrite tube_set_at_dom. rewrite <- HD. f_equal. destruct HT as [-> | ->]; [apply sample_a|apply (sample_b z a)]; apply O.
    - intros t. destruct (Req_dec t te) as [->|NE]; [eapply sub_trans; eauto|rewrite S2 by auto; apply HB].
  Qed.
  Lemma dir_cin fwd D ys xs zs : Forall2 (cin a b D) ys xs -> lohner_dir A bmid qr inv F J c eps fwd ys = Some zs -> Forall2 (cin a b D) zs xs.
  Proof.
    intros HX. unfold lohner_dir. destruct ys as [|y ys'] eqn:EY; [intros E; injection E as <-; auto|]. rewrite <- EY in HX |- *.
    assert (exists x, cin a b D y x) as (x & Hy) by (subst ys; inversion HX; subst; eauto). clear ys' EY.
    destruct Hy as (Oy & HD & _). assert (Ny : y <> []) by apply Oy. fold (ranks fwd (length y)).
    assert (TF : tf y = b) by (eapply chain_tf; apply Oy). assert (T0 : t0 y = a) by (eapply chain_t0; apply Oy). rewrite TF, T0.
    set (te := if fwd then b else a). set (ts := if fwd then a else b).
    assert (RT : route D fwd (ranks fwd (length y)) ts /\ stop D fwd (ranks fwd (length y)) ts = te).
    { unfold ranks, ts, te. destruct fwd.
      - destruct y as [|s y]; [congruence|]. assert (EA : s_lb s = a) by (destruct (ok_chain _ _ _ Oy); auto). rewrite <- EA.
        destruct (route_fwd 0 1 (le_n 1) a b D [] eq_refl _ Oy HD (length (s :: y)) 0%nat s eq_refl eq_refl) as (R1 & R2). split; auto.
      - destruct (last_nth y Ny) as (s & E & U). rewrite TF in U. rewrite <- U. destruct (route_bwd 0 1 (le_n 1) a b D [] eq_refl y Oy HD _ s E) as (R1 & R2).
        assert (length y <> 0%nat) by (destruct y; cbn; congruence). replace (Datatypes.S (length y - 1)) with (length y) in * by lia. auto. }
    destruct RT as (RT & ST). destruct (slices _ _ _ _ _) as [((s1 & ws) & out)|] eqn:EL; [|discriminate]. intros E. injection E as <-.
    destruct (slices_cin D fwd _ _ _ xs _ ts _ _ _ RT HX EL) as (Y1 & _ & Y3). apply final_cin; auto.
    - unfold te. destruct fwd; auto.
    - apply (chain_le _ _ _ (ok_chain _ _ _ Oy)).
    - apply b_inter_under. fold te. rewrite <- ST. apply Y3. unfold ranks. destruct y as [|s y]; [congruence|]. destruct fwd; [discriminate|].
      cbn [length]. rewrite seq_S, rev_app_distr. discriminate.
  Qed.
End Contracts.

(** Whatever the functions, the arithmetic, the middles and the decompositions are (even wrong ones), the contractor
    gives tubes included in the given ones at every instant, with the same slices. *)
Theorem C94_contracts : forall A bmid qr inv F J c eps a b D fwd bwd xs ys,
  Forall (fun x => tube_ok a b x /\ map dom x = D) xs ->
  ctc_lohner A bmid qr inv F J c eps fwd bwd xs = Some ys ->
  Forall2 (fun y x => tube_ok a b y /\ map dom y = D /\ forall t, sub (eval_t y t) (eval_t x t)) ys xs.
Proof.
  intros A bmid qr inv F J c eps a b D fwd bwd xs ys HX HE.
  assert (H0 : Forall2 (cin a b D) xs xs) by (clear HE; induction HX as [|x xs (O & HD) HX IH]; constructor; auto; refine (conj O (conj HD (conj O _))); intros t; apply sub_refl).
  assert (FIN : Forall2 (cin a b D) ys xs).
  { revert HE. unfold ctc_lohner. destruct fwd.
    - destruct (lohner_dir _ _ _ _ _ _ _ _ true xs) as [zs|] eqn:EZ; [|discriminate]. assert (H1 := dir_cin _ _ _ _ _ _ _ _ _ _ _ _ _ _ _ H0 EZ).
      destruct bwd; [apply dir_cin; auto|intros E; injection E as <-; auto].
    - destruct bwd; [apply dir_cin; auto|intros E; injection E as <-; auto]. }
  clear - FIN. induction FIN as [|y x ys xs (O & HD & _ & HB) _ IH]; constructor; auto.
Qed.
(** on the two tubes of C94_uncut_example, which do contain a solution *)
Example C94_contracts_example : exists ys, ctc_lohner exact LohnerQ.midR qr2 inv1 F2 J2 5 (1 / 10) true false [ux; uy] = Some ys /\
  Forall2 (fun y x => tube_ok 0 (15 / 8) y /\ map dom y = [(0, 3 / 4); (3 / 4, 15 / 8)] /\ forall t, sub (eval_t y t) (eval_t x t)) ys [ux; uy].
Proof.
  destruct C94_uncut_example as (ys & E & _). exists ys. split; [exact E|].
  refine (C94_contracts exact LohnerQ.midR qr2 inv1 F2 J2 5 (1 / 10) 0 (15 / 8) _ true false [ux; uy] ys _ E).
  constructor; [split; [exact okux|reflexivity]|]. constructor; [split; [exact okuy|reflexivity]|constructor].
Qed.

Print Assumptions C94_contracts.
