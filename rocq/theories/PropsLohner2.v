(** * C94: examples, and the situations in which [CtcLohner] loses solutions *)
From Coq Require Import Reals Lra Bool List Arith Lia QArith Qreals.
From Verif Require Import Itv Arith Tube TubeSpec TubeFacts TubeOps TubeOpsFacts TubeOpsFacts2 TubeQueries TubeQueries2 TubeCtc DynSpec Concrete Paving Static CtcDelay PropsDyn2 PropsStatic CtcEvalBody CtcEvalFacts CtcDerivFacts Picard PicardFacts PropsPicard PropsSivia PropsPaving3 Lohner LohnerFacts LohnerStep PropsLohner LohnerQ.
Import ListNotations.
Open Scope R_scope.

(** ** Interval::mid *)
Lemma midR_in : mid_in midR.
Proof. intros [|[a|] [b|]] W N; cbn in *; try congruence; try lra; auto; split; auto; lra. Qed.
Lemma midR_half : mid_half midR. Proof. intros a b _. reflexivity. Qed.
(** the results of the functions are valid intervals *)
Definition tidy (i : itv) : itv := match i with Emp => Emp | Itv a b => mk a b end.
Definition qtidy (i : qitv) : qitv := match i with QE => QE | QI a b => qmk a b end.
Lemma tidy_ok i : tidy (emb i) = emb (qtidy i). Proof. destruct i; cbn [emb tidy qtidy]; auto. apply qmk_ok. Qed.
Lemma tidy_wf i : wf (tidy i). Proof. destruct i as [|[a|] [b|]]; cbn; auto. destruct (Rle_dec a b); cbn; auto. Qed.
Lemma tidy_in v i : In v i -> In v (tidy i). Proof. destruct i as [|[a|] [b|]]; cbn; auto. intros H. destruct (Rle_dec a b); cbn; lra. Qed.
Lemma tidy_bdd i : bdd i -> bdd (tidy i). Proof. destruct i as [|[a|] [b|]]; cbn; auto. destruct (Rle_dec a b); cbn; auto. Qed.
Lemma tidy_pt v : tidy (pt v) = pt v. Proof. unfold tidy, pt, mk. destruct (Rle_dec v v); auto; lra. Qed.
Ltac qr_ := unfold Q2R in *; cbn in *; lra.
Ltac qc := clear; unfold Q2R; cbn; lra.
Ltac len1 p := destruct p as [|? [|]]; try discriminate.
Ltac len2 p := destruct p as [|? [|? [|]]]; try discriminate.

Lemma pt1 : pt 1 = emb (qpt 1). Proof. cbn. unfold pt. replace (Q2R 1) with 1 by qr_. auto. Qed.

(** ** Dimension 1 *)
Definition qr1 (M : rmat) : rmat := eye 1.
Definition inv1 (M : rmat) : rmat := M.
Definition qqr1 (M : list (list Q)) : option (list (list Q)) := Some (qeye 1).
Definition qid (M : list (list Q)) : option (list (list Q)) := Some M.
Lemma qqr1_ok M M' : qqr1 M = Some M' -> qr1 (ermat M) = ermat M'. Proof. intros E. injection E as <-. apply qeye_ok. Qed.
Lemma qid_ok M M' : qid M = Some M' -> inv1 (ermat M) = ermat M'. Proof. intros E. injection E as <-. auto. Qed.
Lemma inverses1 : inverses 1 qr1 inv1.
Proof. intros M _. unfold qr1, inv1. split; [apply eye_square|]. split; [apply eye_square|]. split; intros v Hv; rewrite !eye_id; auto. Qed.

(** *** x' = x *)
Definition phi1 (p : list R) : list R := p.
Definition dphi1 (p : list R) : rmat := [[1]].
Definition F1 (X : box) : box := map tidy X.
Definition J1 (X : box) : imat := [[pt 1]].
Definition QF1 (X : list qitv) : list qitv := map qtidy X.
Definition QJ1 (X : list qitv) : list (list qitv) := [[qpt 1]].
Lemma F1_ok X : F1 (ebox X) = ebox (QF1 X). Proof. unfold F1, ebox, QF1. rewrite !map_map. apply map_ext. apply tidy_ok. Qed.
Lemma J1_ok X : J1 (ebox X) = emat (QJ1 X). Proof. unfold J1. rewrite pt1. reflexivity. Qed.
Lemma field1 : field 1 phi1 dphi1.
Proof.
  constructor; unfold phi1, dphi1; auto.
  - intros p _. split; auto.
  - intros fs ds t k L H Hk. len1 fs. inversion H as [|f d ? ds' Hd H2]; subst. inversion H2; subst. destruct k; [|lia]. cbn. replace (1 * d + 0) with d by ring. exact Hd.
  - intros K. exists 1. split; [lra|]. intros p q e _ _ _ _ H. rewrite Rmult_1_l. auto.
Qed.
Lemma enclosing1 : enclosing 1 phi1 dphi1 F1 J1.
Proof.
  constructor; unfold phi1, dphi1, F1, J1.
  - intros p X _ H. induction H; cbn; constructor; auto. apply tidy_in; auto.
  - intros p X _ _. constructor; [|constructor]. constructor; [|constructor]. cbn. lra.
  - intros X. apply Forall_map, Forall_forall. intros. apply tidy_wf.
  - intros X. constructor; [constructor; [cbn; lra|constructor]|constructor].
Qed.
Lemma exact1 : exact_at_points 1 midR F1 phi1.
Proof. intros p L. len1 p. unfold F1, phi1. cbn [map]. rewrite tidy_pt. cbn. f_equal. lra. Qed.
Lemma tame1 : tame F1 J1.
Proof. intros X H. split; [unfold F1; apply Forall_map; eapply Forall_impl; [|exact H]; apply tidy_bdd|]. repeat constructor. Qed.
(** one slice over [0,1/4], from x(0) = 1 *)
Definition x1 : tube := [mkS 0 (1 / 4) (I2 0 3) (pt 1) (I2 0 3)].
Lemma exp_quarter t : t < 1 / 4 -> exp t <= 3.
Proof. intros H. assert (exp t < exp 1) by (apply exp_increasing; lra). assert (X := exp_le_3). lra. Qed.
Definition st1 : qlohner := Eval vm_compute in q_init 1 [qpt 1].
Definition st1' : qlohner := Eval vm_compute in match q_integrate qqr1 qid QF1 QJ1 (1 # 10) 5 1 (1 # 4) st1 with Some s => s | None => st1 end.
Lemma run1 : integrate exact midR qr1 inv1 F1 J1 5 (1 / 10) 1 (1 / 4) (lo_init exact midR 1 [pt 1]) = Some (elo st1').
Proof.
  assert (H : integrate exact midR qr1 inv1 F1 J1 5 (Q2R (1 # 10)) (Q2R 1) (Q2R (1 # 4)) (lo_init exact midR 1 (ebox [qpt 1])) = Some (elo st1')).
  { rewrite q_init_ok. apply (q_integrate_ok qr1 inv1 F1 J1 qqr1 qid QF1 QJ1 (1 # 10) qqr1_ok qid_ok F1_ok J1_ok). vm_compute. reflexivity. }
  cbn [ebox map] in H. rewrite <- pt1 in H. replace (Q2R (1 # 10)) with (1 / 10) in H by qc. replace (Q2R 1) with 1 in H by qc. replace (Q2R (1 # 4)) with (1 / 4) in H by qc. exact H.
Qed.
Lemma ok1 : tube_ok 0 (1 / 4) x1. Proof. unfold x1. tube_ok_tac. Qed.
Lemma sol1 b : solution 0 b (fun _ => phi1) [exp].
Proof.
  exists [exp]. split; [|auto]. constructor; [|constructor]. split; intros t _; [apply derivable_continuous_pt, derivable_pt_exp|apply derivable_pt_lim_exp].
Qed.
Lemma has1 : has x1 exp.
Proof.
  apply has_cons. split; [|apply has_nil]. split; [|split]; cbn; intros; unfold I2; cbn; [rewrite exp_0; lra| |]; (split; [left; apply exp_pos|]).
  - assert (exp (1 / 4) < exp 1) by (apply exp_increasing; lra). assert (X := exp_le_3). lra.
  - apply exp_quarter. lra.
Qed.
Lemma on_comps_ne f es x xs : exists y ys, on_comps f es (x :: xs) = y :: ys. Proof. destruct es; cbn; eauto. Qed.
Example C94_dim1_example : exists x',
  ctc_lohner_tube exact midR qr1 inv1 F1 J1 5 (1 / 10) true false x1 = Some x' /\ tube_ok 0 (1 / 4) x' /\ has x' exp.
Proof.
  assert (E : exists x', ctc_lohner_tube exact midR qr1 inv1 F1 J1 5 (1 / 10) true false x1 = Some x').
  { unfold ctc_lohner_tube, ctc_lohner, lohner_dir. cbn -[integrate Rminus lo_init]. replace (1 / 4 - 0) with (1 / 4) by lra. rewrite run1.
    match goal with |- context [on_comps ?f ?es (on_comps ?g ?fs [x1])] => destruct (on_comps_ne g fs x1 []) as (y & ys & EY); rewrite EY; destruct (on_comps_ne f es y ys) as (z & zs & EZ); rewrite EZ end. eauto. }
  destruct E as (x' & E). exists x'. split; auto.
  apply (C94_dim1_partial phi1 dphi1 F1 J1 (1 / 10) midR qr1 inv1 5 0 (1 / 4) x1 exp x' true false field1 enclosing1 midR_in midR_half inverses1 exact1 tame1); auto using ok1, has1, sol1; try lia; try discriminate.
  intros _. rewrite (eval_t_slice 0 (1 / 4) x1 0 _ 0 ok1 eq_refl); cbn [s_lb s_ub]; [|lra]. assert (H := slice_eval_lb (mkS 0 (1 / 4) (I2 0 3) (pt 1) (I2 0 3))). cbn [s_lb s_ub s_in] in H. rewrite H by lra. exact Logic.I.
Qed.
Example C94_step_example : inb [exp (1 / 4)] (ebox [QI (Some (65549 # 51200)) (Some (11359274428437 # 8796093022208))]) /\
  forall t, 0 <= t <= 1 / 4 -> inb [exp t] (ebox [QI (Some (1549 # 1600)) (Some (364158150677 # 274877906944))]).
Proof.
  assert (K0 : knows 1 (lo_init exact midR 1 [pt 1]) (vals [exp] 0)).
  { replace (vals [exp] 0) with [1] by (cbn; rewrite exp_0; auto). apply (init_ok 1 midR 1 midR_in midR_half (le_n 1) [exp] eq_refl); auto; constructor; try constructor; cbn; auto; lra. }
  assert (E : integrate exact midR qr1 inv1 F1 J1 5 (1 / 10) 1 (1 / 4 - 0) (lo_init exact midR 1 [pt 1]) = Some (elo st1')) by (replace (1 / 4 - 0) with (1 / 4) by lra; exact run1).
  destruct (C94_step_partial exact 1 phi1 dphi1 F1 J1 (1 / 10) midR qr1 inv1 5 true 0 (1 / 4) [exp] _ _ exact_ok field1 enclosing1 midR_in inverses1 exact1 ltac:(lia) ltac:(lra) eq_refl (sol_flow _ _ _ _ (sol1 _)) K0 E) as (K & H & _). split; [exact K|exact H].
Qed.

(** *** x' = 1, evaluated with outward rounding *)
Definition phi0 (p : list R) : list R := [1].
Definition dphi0 (p : list R) : rmat := [[0]].
(** the constant 1, enclosed in [i] *)
Definition F0 (i : qitv) (X : box) : box := [emb i].
Definition J0 (X : box) : imat := [[pt 0]].
Definition QF0 (i : qitv) (X : list qitv) : list qitv := [i].
Definition QJ0 (X : list qitv) : list (list qitv) := [[qpt 0]].
Lemma F0_ok i X : F0 i (ebox X) = ebox (QF0 i X). Proof. reflexivity. Qed.
Lemma J0_ok X : J0 (ebox X) = emat (QJ0 X). Proof. unfold J0. rewrite pt0. reflexivity. Qed.
Lemma field0 : field 1 phi0 dphi0.
Proof.
  constructor; unfold phi0, dphi0; auto.
  - intros p _. split; auto.
  - intros fs ds t k L H Hk. len1 fs. inversion H as [|f d ? ds' Hd H2]; subst. inversion H2; subst. destruct k; [|lia]. cbn. replace (0 * d + 0) with 0 by ring. apply derivable_pt_lim_const.
  - intros K. exists 0. split; [lra|]. intros p q e _ _ _ _ H. constructor; [|constructor]. replace (1 - 1) with 0 by lra. rewrite Rabs_R0. lra.
Qed.
Lemma enclosing0 i : wf (emb i) -> In 1 (emb i) -> enclosing 1 phi0 dphi0 (F0 i) J0.
Proof.
  intros W H. constructor; unfold phi0, dphi0, F0, J0.
  - intros p X _ _. constructor; [auto|constructor].
  - intros p X _ _. constructor; [|constructor]. constructor; [|constructor]. cbn. lra.
  - intros X. auto.
  - intros X. constructor; [constructor; [cbn; lra|constructor]|constructor].
Qed.
Lemma tame0 i : bdd (emb i) -> tame (F0 i) J0.
Proof. intros B X _. split; [constructor; auto|]. repeat constructor. Qed.
Lemma exact0 : exact_at_points 1 midR (F0 (qpt 1)) phi0.
Proof. intros p _. unfold F0, phi0. rewrite <- pt1. cbn. f_equal. lra. Qed.
Lemma sol0 b : solution 0 b (fun _ => phi0) [fun t => t].
Proof.
  exists [fun _ => 1]. split; [|auto]. constructor; [|constructor]. split; intros t _; [apply derivable_continuous_pt, derivable_pt_id|apply derivable_pt_lim_id].
Qed.
(** one slice over [0,1], from x(0) = 0 *)
Definition x0 : tube := [mkS 0 1 (I2 0 2) (pt 0) (I2 0 2)].
Lemma ok0 : tube_ok 0 1 x0. Proof. unfold x0. tube_ok_tac. Qed.
Lemma has0 : has x0 (fun t => t). Proof. unfold x0. has_tac. Qed.
Lemma gate0 : eval_t x0 0 = pt 0.
Proof.
  rewrite (eval_t_slice 0 1 x0 0 _ 0 ok0 eq_refl); cbn [s_lb s_ub]; [|lra]. assert (H := slice_eval_lb (mkS 0 1 (I2 0 2) (pt 0) (I2 0 2))). cbn [s_lb s_ub s_in] in H. rewrite H by lra. auto.
Qed.
Lemma b_inter1 a b : wf a -> wf b -> exists j, b_inter [a] [b] = [j] /\ wf j /\ sub j b.
Proof.
  intros Wa Wb. unfold b_inter. cbn [b_is_empty]. destruct a as [|la ha]; cbn [is_empty]; [exists Emp; split; auto; split; cbn; auto; intros v []|]. destruct b as [|lb hb]; cbn [is_empty]; [exists Emp; split; auto; split; cbn; auto; intros v []|].
  cbn [map2 existsb]. cbn zeta. destruct (is_empty _ || false); [exists Emp; split; auto; split; cbn; auto; intros v []|]. exists (inter (Itv la ha) (Itv lb hb)). split; auto. split; [apply wf_inter|]. intros v Hv. apply In_inter in Hv. tauto.
Qed.
(** when the point reached by LohnerAlgorithm is not 1, the trajectory is lost *)
Lemma lost0 F J c s' : integrate exact midR qr1 inv1 F J c (1 / 10) 1 1 (lo_init exact midR 1 [pt 0]) = Some s' ->
  length (lo_ut s') = 1%nat -> Forall wf (lo_ut s') -> (exists i, lo_u s' = [i] /\ wf i /\ ~ In 1 i) ->
  exists x', ctc_lohner_tube exact midR qr1 inv1 F J c (1 / 10) true false x0 = Some x' /\ ~ has x' (fun t => t).
Proof.
  intros E LU WU (i & EI & WI & NI). unfold ctc_lohner_tube, ctc_lohner, lohner_dir. cbn -[integrate Rminus lo_init set_envelope inter tube_set_at]. replace (1 - 0) with 1 by lra. rewrite E. cbn zeta. cbn [contract_step lo_u]. rewrite EI. destruct (lo_ut s') as [|e [|]]; try discriminate.
  cbn -[integrate Rminus lo_init set_envelope inter tube_set_at b_inter].
  destruct (b_inter1 (I2 0 2) i) as (j1 & -> & W1 & S1); [cbn; lra|auto|]. destruct (b_inter1 (I2 0 2) j1) as (j2 & -> & W2 & S2); [cbn; lra|auto|]. cbn [on_comps].
  eexists. split; [reflexivity|]. intros H.
  set (y := set_envelope 0 _ true x0) in H. assert (OY : tube_ok 0 1 y) by (apply set_envelope_ok; [apply ok0|apply wf_inter]).
  assert (OZ : tube_ok 0 1 (tube_set_at j2 1 y)) by (apply sample_gate_ok; auto; lra).
  apply NI, S1, S2. destruct (set_at_eval 0 1 y j2 1 OY W2 ltac:(lra)) as (Q & _). apply Q. exact (eval_t_in 0 1 _ _ 1 OZ H).
Qed.
(** [f] evaluated with outward rounding: the constant 1 between neighbouring doubles *)
Definition one_out : qitv := QI (Some (9007199254740991 # 9007199254740992)) (Some (4503599627370497 # 4503599627370496)).
Definition st0 : qlohner := Eval vm_compute in match q_integrate qqr1 qid (QF0 one_out) QJ0 (1 # 10) 5 1 1 (q_init 1 [qpt 0]) with Some s => s | None => q_init 1 [] end.
Definition st0z : qlohner := Eval vm_compute in match q_integrate qqr1 qid (QF0 (qpt 1)) QJ0 (1 # 10) 0 1 1 (q_init 1 [qpt 0]) with Some s => s | None => q_init 1 [] end.
Lemma run0 i c s' : q_integrate qqr1 qid (QF0 i) QJ0 (1 # 10) c 1 1 (q_init 1 [qpt 0]) = Some s' ->
  integrate exact midR qr1 inv1 (F0 i) J0 c (1 / 10) 1 1 (lo_init exact midR 1 [pt 0]) = Some (elo s').
Proof.
  intros E. assert (H : integrate exact midR qr1 inv1 (F0 i) J0 c (Q2R (1 # 10)) (Q2R 1) (Q2R 1) (lo_init exact midR 1 (ebox [qpt 0])) = Some (elo s')).
  { rewrite q_init_ok. apply (q_integrate_ok qr1 inv1 (F0 i) J0 qqr1 qid (QF0 i) QJ0 (1 # 10) qqr1_ok qid_ok (F0_ok i) J0_ok). exact E. }
  cbn [ebox map] in H. rewrite <- pt0 in H. replace (Q2R (1 # 10)) with (1 / 10) in H by qc. replace (Q2R 1) with 1 in H by qc. exact H.
Qed.
(** The rounding of f(u_hat) is not counted (codac_CtcLohner.cpp 153): with a function evaluated with outward rounding,
    even in dimension 1 and in exact arithmetic elsewhere, the solution is lost at the end of the tube. *)
Theorem C94_round_refuted : exists phi dphi F J eps bmid qr inv c a b x f x',
  field 1 phi dphi /\ enclosing 1 phi dphi F J /\ mid_in bmid /\ mid_half bmid /\ inverses 1 qr inv /\ tame F J /\ (1 <= c)%nat /\
  (forall X, F X = [Itv (Some (1 - / 2 ^ 53)) (Some (1 + / 2 ^ 52))]) /\
  tube_ok a b x /\ has x f /\ solution a b (fun _ => phi) [f] /\ bdd (eval_t x a) /\
  ctc_lohner_tube exact bmid qr inv F J c eps true false x = Some x' /\ ~ has x' f.
Proof.
  assert (E : exists x', ctc_lohner_tube exact midR qr1 inv1 (F0 one_out) J0 5 (1 / 10) true false x0 = Some x' /\ ~ has x' (fun t => t)).
  { apply (lost0 (F0 one_out) J0 5 (elo st0)); [apply run0; vm_compute; reflexivity|reflexivity|constructor; [qr_|constructor]|]. eexists. split; [reflexivity|]. split; qr_. }
  destruct E as (x' & E1 & E2). exists phi0, dphi0, (F0 one_out), J0, (1 / 10), midR, qr1, inv1, 5%nat, 0, 1, x0, (fun t => t), x'.
  assert (W : wf (emb one_out)) by qr_. assert (I1 : In 1 (emb one_out)) by qr_.
  refine (conj field0 (conj (enclosing0 _ W I1) (conj midR_in (conj midR_half (conj inverses1 (conj (tame0 one_out Logic.I) (conj _ (conj _ (conj ok0 (conj has0 (conj (sol0 1) (conj _ (conj E1 E2))))))))))))); [lia| |rewrite gate0; exact Logic.I].
  intros X. unfold F0. cbn [emb one_out qb option_map]. f_equal. f_equal; f_equal; qr_.
Qed.
(** With [contractions] = 0 (the second argument of the constructor), the last gate is the first one. *)
Theorem C94_zero_refuted : exists phi dphi F J eps bmid qr inv a b x f x',
  field 1 phi dphi /\ enclosing 1 phi dphi F J /\ mid_in bmid /\ mid_half bmid /\ inverses 1 qr inv /\ exact_at_points 1 bmid F phi /\ tame F J /\
  tube_ok a b x /\ has x f /\ solution a b (fun _ => phi) [f] /\ bdd (eval_t x a) /\
  ctc_lohner_tube exact bmid qr inv F J 0 eps true false x = Some x' /\ ~ has x' f.
Proof.
  assert (E : exists x', ctc_lohner_tube exact midR qr1 inv1 (F0 (qpt 1)) J0 0 (1 / 10) true false x0 = Some x' /\ ~ has x' (fun t => t)).
  { apply (lost0 (F0 (qpt 1)) J0 0 (elo st0z)); [apply run0; vm_compute; reflexivity|reflexivity|constructor; [qr_|constructor]|]. eexists. split; [reflexivity|]. split; qr_. }
  destruct E as (x' & E1 & E2). exists phi0, dphi0, (F0 (qpt 1)), J0, (1 / 10), midR, qr1, inv1, 0, 1, x0, (fun t => t), x'.
  assert (W : wf (emb (qpt 1))) by qr_. assert (I1 : In 1 (emb (qpt 1))) by qr_.
  refine (conj field0 (conj (enclosing0 _ W I1) (conj midR_in (conj midR_half (conj inverses1 (conj exact0 (conj (tame0 (qpt 1) Logic.I) (conj ok0 (conj has0 (conj (sol0 1) (conj _ (conj E1 E2)))))))))))). rewrite gate0; exact Logic.I.
Qed.

(** ** Dimension 2: x' = 0, y' = x *)
Definition phi2 (p : list R) : list R := match p with x :: _ => [0; x] | [] => [] end.
Definition dphi2 (p : list R) : rmat := [[0; 0]; [1; 0]].
Definition F2 (X : box) : box := match X with i :: _ => [pt 0; tidy i] | [] => [] end.
Definition J2 (X : box) : imat := [[pt 0; pt 0]; [pt 1; pt 0]].
Definition QF2 (X : list qitv) : list qitv := match X with i :: _ => [qpt 0; qtidy i] | [] => [] end.
Definition QJ2 (X : list qitv) : list (list qitv) := [[qpt 0; qpt 0]; [qpt 1; qpt 0]].
Lemma F2_ok X : F2 (ebox X) = ebox (QF2 X). Proof. destruct X as [|i X]; auto. cbn [ebox map F2 QF2]. rewrite tidy_ok, pt0. reflexivity. Qed.
Lemma J2_ok X : J2 (ebox X) = emat (QJ2 X). Proof. unfold J2. rewrite pt0, pt1. reflexivity. Qed.
Lemma qid2_ok M M' : qid M = Some M' -> inv1 (ermat M) = ermat M'. Proof. apply qid_ok. Qed.
Lemma field2 : field 2 phi2 dphi2.
Proof.
  constructor; unfold dphi2.
  - intros p L. len2 p. reflexivity.
  - intros p _. split; [auto|repeat constructor].
  - intros fs ds t k L H Hk. len2 fs. inversion H as [|f d ? ds' Hd H2]; subst. inversion H2 as [|f2 d2 ? ds2 Hd2 H3]; subst. inversion H3; subst. destruct k as [|[|k]]; [| |lia]; cbn.
    + replace (0 * d + (0 * d2 + 0)) with 0 by ring. apply derivable_pt_lim_const.
    + replace (1 * d + (0 * d2 + 0)) with d by ring. exact Hd.
  - intros K. exists 1. split; [lra|]. intros p q e L1 L2 _ _ H. len2 p. len2 q. inversion H as [|? ? ? ? H1 H2]; subst. cbn. rewrite Rmult_1_l. constructor; [|constructor; auto]. replace (0 - 0) with 0 by lra. rewrite Rabs_R0. assert (X := Rabs_pos (r - r1)). lra.
Qed.
Lemma enclosing2 : enclosing 2 phi2 dphi2 F2 J2.
Proof.
  constructor; unfold dphi2, J2.
  - intros p X L H. len2 p. inversion H; subst. cbn. constructor; [cbn; lra|]. constructor; [apply tidy_in; auto|constructor].
  - intros p X _ _. repeat (apply Forall2_cons || apply Forall2_nil); cbn; lra.
  - intros [|i X]; cbn; constructor; [cbn; lra|]. constructor; [apply tidy_wf|constructor].
  - intros X. repeat (apply Forall_cons || apply Forall_nil); cbn; lra.
Qed.
Lemma exact2 : exact_at_points 2 midR F2 phi2.
Proof. intros p L. len2 p. cbn [map F2 phi2]. rewrite tidy_pt. cbn. f_equal; [lra|]. f_equal. lra. Qed.
Lemma tame2 : tame F2 J2.
Proof. intros X H. split; [|repeat constructor]. destruct H as [|i X Hi H]; cbn; constructor; [cbn; auto|]. constructor; [apply tidy_bdd; auto|constructor]. Qed.
Lemma inverses2 : inverses 2 qr2 inv1.
Proof.
  intros M (L & HM). unfold inv1. destruct M as [|ra [|rb [|]]]; try discriminate. inversion HM as [|? ? L1 HM1]; subst. inversion HM1 as [|? ? L2 _]; subst. len2 ra. len2 rb. cbn [qr2].
  assert (G : forall a b, a * a + b * b = 1 -> square 2 [[a; b]; [b; - a]] /\ forall v, length v = 2%nat -> rmv [[a; b]; [b; - a]] (rmv [[a; b]; [b; - a]] v) = v).
  { intros a b E. split; [split; [auto|repeat constructor]|]. intros v Lv. len2 v. cbn. f_equal; [transitivity ((a * a + b * b) * r3)|f_equal; transitivity ((a * a + b * b) * r4)]; try ring; rewrite E; ring. }
  destruct (Reqb r1 0) eqn:E0; [split; [apply eye_square|]; split; [apply eye_square|]; split; intros v Hv; rewrite !eye_id; auto|]. apply Reqb_false in E0.
  assert (P : 0 < r * r + r1 * r1) by nra. assert (Q := sqrt_sqrt _ (Rlt_le _ _ P)). assert (Q0 := sqrt_lt_R0 _ P). cbn zeta. set (s := if Rleb 0 r then _ else _). assert (S1 : s * s = r * r + r1 * r1) by (unfold s; destruct (Rleb 0 r); lra). assert (S0 : s <> 0) by (unfold s; destruct (Rleb 0 r); lra).
  destruct (G (r / s) (r1 / s)) as (G1 & G2); [|auto]. replace (r / s * (r / s) + r1 / s * (r1 / s)) with ((r * r + r1 * r1) / (s * s)) by (field; auto). rewrite <- S1. field. auto.
Qed.
Definition eq2 (a b : Q) : itv := emb (QI (Some a) (Some b)).
(** x(0) in [-1,1], y(0) = 0, x(3/4) in [0,1], y(3/4) in [-3/4,3/4] *)
Definition tx : tube := [mkS 0 (3 / 4) (eq2 (-2) 2) (eq2 (-1) 1) (eq2 0 1); mkS (3 / 4) (15 / 8) (eq2 (-2) 2) (eq2 0 1) (eq2 (-2) 2)].
Definition ty : tube := [mkS 0 (3 / 4) (eq2 (-2) 2) (eq2 0 0) (eq2 (-3 # 4) (3 # 4)); mkS (3 / 4) (15 / 8) (eq2 (-2) 2) (eq2 (-3 # 4) (3 # 4)) (eq2 (-2) 2)].
Ltac ok_q := constructor; [discriminate|cbn; repeat split; lra|cbn; repeat split; reflexivity|];
  repeat (apply Forall_cons || apply Forall_nil); (split; [|split; [|split; [|split]]]); try (intros v Hv); cbn [s_cod s_in s_out] in *; unfold eq2, emb, qb, option_map in *; qr_.
Lemma okx : tube_ok 0 (15 / 8) tx. Proof. unfold tx. ok_q. Qed.
Lemma oky : tube_ok 0 (15 / 8) ty. Proof. unfold ty. ok_q. Qed.
Ltac has_q := repeat (apply has_cons; split; [split; [|split]; intros; cbn [s_lb s_ub s_cod s_in s_out] in *; unfold eq2, emb, qb, option_map in *; qr_|]); apply has_nil.
Lemma hasx : has tx (fun _ => 1). Proof. unfold tx. has_q. Qed.
Lemma hasy : has ty (fun t => t). Proof. unfold ty. has_q. Qed.
Lemma sol2 b : solution 0 b (fun _ => phi2) [fun _ => 1; fun t => t].
Proof.
  exists [fun _ => 0; fun _ => 1]. split; [|auto]. constructor; [|constructor; [|constructor]].
  - split; intros t _; [apply derivable_continuous_pt, derivable_pt_const|apply derivable_pt_lim_const].
  - split; intros t _; [apply derivable_continuous_pt, derivable_pt_id|apply derivable_pt_lim_id].
Qed.
Definition int2 (h : Q) (s : qlohner) : option qlohner := q_integrate qqr2 qid QF2 QJ2 (1 # 10) 5 1 h s.
Lemma run2 h h' s s' : int2 h s = Some s' -> Q2R h = h' -> integrate exact midR qr2 inv1 F2 J2 5 (1 / 10) 1 h' (elo s) = Some (elo s').
Proof.
  unfold int2. intros E <-. assert (H : integrate exact midR qr2 inv1 F2 J2 5 (Q2R (1 # 10)) (Q2R 1) (Q2R h) (elo s) = Some (elo s')).
  { apply (q_integrate_ok qr2 inv1 F2 J2 qqr2 qid QF2 QJ2 (1 # 10) qqr2_ok qid_ok F2_ok J2_ok). exact E. }
  replace (Q2R (1 # 10)) with (1 / 10) in H by qc. replace (Q2R 1) with 1 in H by qc. exact H.
Qed.
Definition get (o : option qlohner) : qlohner := match o with Some s => s | None => mkQ [] [] [] [] [] [] end.
(** after the first slice, and after the second one, with the gates [g1] and [g2] *)
Definition after1 (u g1 : list qitv) : qlohner := q_step g1 (get (int2 (3 # 4) (q_init 2 u))).
Definition after2 (u g1 g2 : list qitv) : qlohner := q_step g2 (get (int2 (9 # 8) (after1 u g1))).
Lemma two_slices x y (u g1 g2 : list qitv) cx cy :
  x = [mkS 0 (3 / 4) cx (emb (nth 0 u QE)) (emb (nth 0 g1 QE)); mkS (3 / 4) (15 / 8) cx (emb (nth 0 g1 QE)) (emb (nth 0 g2 QE))] ->
  y = [mkS 0 (3 / 4) cy (emb (nth 1 u QE)) (emb (nth 1 g1 QE)); mkS (3 / 4) (15 / 8) cy (emb (nth 1 g1 QE)) (emb (nth 1 g2 QE))] ->
  length u = 2%nat -> length g1 = 2%nat -> length g2 = 2%nat ->
  int2 (3 # 4) (q_init 2 u) <> None -> int2 (9 # 8) (after1 u g1) <> None ->
  exists e0 e1, Forall wf e0 /\ Forall wf e1 /\ ctc_lohner exact midR qr2 inv1 F2 J2 5 (1 / 10) true false [x; y] =
    Some (on_comps (fun g y => tube_set_at g (15 / 8) y) (b_inter (ebox g2) (ebox (q_u (after2 u g1 g2)))) (put_env 1 e1 (put_env 0 e0 [x; y]))).
Proof.
  destruct u as [|u0 [|u1 [|]]]; try (intros _ _ E; discriminate E). destruct g1 as [|g10 [|g11 [|]]]; try (intros _ _ _ E; discriminate E). destruct g2 as [|g20 [|g21 [|]]]; try (intros _ _ _ _ E; discriminate E).
  cbn [nth]. intros Ex Ey _ _ _ N1 N2. destruct (int2 (3 # 4) (q_init 2 [u0; u1])) as [s1|] eqn:E1; [|exfalso; apply N1; reflexivity]. destruct (int2 (9 # 8) (after1 [u0; u1] [g10; g11])) as [s2|] eqn:E2; [|exfalso; apply N2; reflexivity]. clear N1 N2.
  assert (R1 := run2 _ (3 / 4) _ _ E1 ltac:(qc)). assert (R2 := run2 _ (9 / 8) _ _ E2 ltac:(qc)).
  assert (A1 : after1 [u0; u1] [g10; g11] = q_step [g10; g11] s1) by (unfold after1; rewrite E1; reflexivity).
  assert (A2 : after2 [u0; u1] [g10; g11] [g20; g21] = q_step [g20; g21] s2) by (unfold after2; rewrite E2; reflexivity).
  rewrite A1 in R2. rewrite A2. clear A1 A2 E1 E2. rewrite <- q_init_ok in R1. rewrite <- q_step_ok in R2. change (ebox [u0; u1]) with [emb u0; emb u1] in R1. change (ebox [g10; g11]) with [emb g10; emb g11] in R2.
  set (xs := [x; y]). set (e0 := map2 inter (cod_k 0 xs) (ebox (q_ut s1))). set (e1 := map2 inter (cod_k 1 (put_env 0 e0 xs)) (ebox (q_ut s2))). exists e0, e1.
  assert (W : forall a b, Forall wf (map2 inter a b)) by (induction a as [|i a IH]; intros [|j b]; cbn [map2]; constructor; [apply wf_inter|auto]).
  split; [apply W|]. split; [apply W|].
  assert (S0 : slices_at 0 xs = [mkS 0 (3 / 4) cx (emb u0) (emb g10); mkS 0 (3 / 4) cy (emb u1) (emb g11)]) by (unfold xs; rewrite Ex, Ey; reflexivity).
  assert (P0 : exists cx' cy' ix iy, slices_at 1 (put_env 0 e0 xs) = [mkS (3 / 4) (15 / 8) cx' ix (emb g20); mkS (3 / 4) (15 / 8) cy' iy (emb g21)]).
  { clear e1. clearbody e0. unfold xs. rewrite Ex, Ey. destruct e0 as [|? [|? [|? ?]]]; cbn -[inter]; unfold set_in; do 4 eexists; reflexivity. }
  destruct P0 as (cx' & cy' & ix & iy & S1).
  assert (LX : length x = 2%nat) by (rewrite Ex; reflexivity). assert (TX : tf x = 15 / 8) by (rewrite Ex; reflexivity).
  unfold ctc_lohner, lohner_dir. unfold xs at 1. cbv iota beta. rewrite LX, TX. change (seq 0 2) with [0%nat; 1%nat]. cbv zeta. change (length xs) with 2%nat. rewrite S0. cbn [map s_in]. cbn [lo_slices]. rewrite S0. cbn [s_lb s_ub map out_gate s_out].
  replace (3 / 4 - 0) with (3 / 4) by lra. rewrite R1. cbv zeta. change (lo_ut (contract_step _ _ _ (elo s1))) with (ebox (q_ut s1)). fold e0. rewrite S1. cbn [s_lb s_ub map out_gate s_out]. replace (15 / 8 - 3 / 4) with (9 / 8) by lra. rewrite R2.
  change (lo_ut (contract_step _ _ _ (elo s2))) with (ebox (q_ut s2)). fold e1. change [emb g20; emb g21] with (ebox [g20; g21]). rewrite q_step_ok. reflexivity.
Qed.
Definition q2 (a b : Q) : qitv := QI (Some a) (Some b).
(** The tube's gates cut the local enclosure (codac_CtcLohner.cpp 177-181): the vector u_hat is moved but r is only
    intersected, and the solution x = 1, y = t is lost; default values of the contractor, exact arithmetic. *)
Theorem C94_refuted : exists phi dphi F J bmid qr inv a b D xs fs xs',
  field 2 phi dphi /\ enclosing 2 phi dphi F J /\ mid_in bmid /\ mid_half bmid /\ inverses 2 qr inv /\ exact_at_points 2 bmid F phi /\ tame F J /\
  Forall (fun x => tube_ok a b x /\ map dom x = D) xs /\ Forall2 has xs fs /\ solution a b (fun _ => phi) fs /\
  Forall (Forall (fun s => bdd (s_in s) /\ bdd (s_out s))) xs /\
  ctc_lohner exact bmid qr inv F J 5 (1 / 10) true false xs = Some xs' /\ ~ Forall2 has xs' fs.
Proof.
  destruct (two_slices tx ty [q2 (-1) 1; q2 0 0] [q2 0 1; q2 (-3 # 4) (3 # 4)] [q2 (-2) 2; q2 (-2) 2] (eq2 (-2) 2) (eq2 (-2) 2)) as (e0 & e1 & W0 & W1 & E); try reflexivity.
  { intros E. vm_compute in E. discriminate E. } { intros E. vm_compute in E. discriminate E. }
  set (g := b_inter _ _) in E. assert (EG : g = [emb (QI (Some (-9 # 50)) (Some (59 # 50))); emb (QI (Some (-57 # 80)) (Some (147 # 80)))]).
  { unfold g. rewrite qb_inter_ok. match goal with |- ebox ?t = _ => let r := eval vm_compute in t in assert (H : t = r) by (vm_compute; reflexivity); rewrite H; clear H end. reflexivity. }
  clearbody g. subst g.
  exists phi2, dphi2, F2, J2, midR, qr2, inv1, 0, (15 / 8), [(0, 3 / 4); (3 / 4, 15 / 8)], [tx; ty], [fun _ => 1; fun t => t]. eexists.
  refine (conj field2 (conj enclosing2 (conj midR_in (conj midR_half (conj inverses2 (conj exact2 (conj tame2 (conj _ (conj _ (conj (sol2 _) (conj _ (conj E _)))))))))))).
  - constructor; [split; [exact okx|reflexivity]|]. constructor; [split; [exact oky|reflexivity]|constructor].
  - constructor; [exact hasx|]. constructor; [exact hasy|constructor].
  - repeat constructor.
  - intros H. clear E.
    assert (OK : forall k e xs, Forall wf e -> Forall (tube_ok 0 (15 / 8)) xs -> Forall (tube_ok 0 (15 / 8)) (put_env k e xs)).
    { intros k e xs We Hx. revert e We. induction Hx as [|x xs Hx Hxs IH]; intros e We; [destruct e; constructor|]. destruct We as [|i e Wi We]; [constructor; auto|]. cbn [put_env on_comps]. constructor; [apply set_envelope_ok; auto|apply IH; auto]. }
    pose (zs := put_env 1 e1 (put_env 0 e0 [tx; ty])). change (Forall2 has (on_comps (fun g y => tube_set_at g (15 / 8) y) [emb (QI (Some (-9 # 50)) (Some (59 # 50))); emb (QI (Some (-57 # 80)) (Some (147 # 80)))] zs) [fun _ => 1; fun t => t]) in H.
    assert (O2 : Forall (tube_ok 0 (15 / 8)) zs) by (apply OK; auto; apply OK; auto; constructor; [exact okx|constructor; [exact oky|constructor]]).
    clearbody zs. destruct zs as [|zx [|zy [|]]]; cbn [on_comps] in H; inversion H as [|? ? ? ? _ H2]; subst; inversion H2 as [|? ? ? ? H3 H4]; subst; inversion H4; subst. assert (Oz := Forall_inv (Forall_inv_tail O2)).
    set (g := emb (QI (Some (-57 # 80)) (Some (147 # 80)))) in H3. assert (Wg : wf g) by qr_. assert (OZ : tube_ok 0 (15 / 8) (tube_set_at g (15 / 8) zy)) by (apply sample_gate_ok; auto; lra).
    destruct (set_at_eval 0 (15 / 8) zy g (15 / 8) Oz Wg ltac:(lra)) as (Q & _). assert (X := Q _ (eval_t_in 0 (15 / 8) _ _ (15 / 8) OZ H3)). clear - X. qr_.
Qed.
(** no constraint after the first gates *)
Definition ux : tube := [mkS 0 (3 / 4) ALL (eq2 (-1) 1) ALL; mkS (3 / 4) (15 / 8) ALL ALL ALL].
Definition uy : tube := [mkS 0 (3 / 4) ALL (eq2 0 0) ALL; mkS (3 / 4) (15 / 8) ALL ALL ALL].
Lemma okux : tube_ok 0 (15 / 8) ux. Proof. unfold ux. constructor; [discriminate|cbn; repeat split; lra|cbn; repeat split; reflexivity|]. repeat (apply Forall_cons || apply Forall_nil); (split; [|split; [|split; [|split]]]); try (intros v Hv); cbn [s_cod s_in s_out] in *; try exact (conj Logic.I Logic.I); try exact Logic.I; unfold eq2, emb, qb, option_map in *; qr_. Qed.
Lemma okuy : tube_ok 0 (15 / 8) uy. Proof. unfold uy. constructor; [discriminate|cbn; repeat split; lra|cbn; repeat split; reflexivity|]. repeat (apply Forall_cons || apply Forall_nil); (split; [|split; [|split; [|split]]]); try (intros v Hv); cbn [s_cod s_in s_out] in *; try exact (conj Logic.I Logic.I); try exact Logic.I; unfold eq2, emb, qb, option_map in *; qr_. Qed.
Example C94_uncut_example : exists xs', ctc_lohner exact midR qr2 inv1 F2 J2 5 (1 / 10) true false [ux; uy] = Some xs' /\
  Forall (tube_ok 0 (15 / 8)) xs' /\ Forall2 has xs' [fun _ => 1; fun t => t].
Proof.
  destruct (two_slices ux uy [q2 (-1) 1; q2 0 0] [QI None None; QI None None] [QI None None; QI None None] ALL ALL) as (e0 & e1 & _ & _ & E); try reflexivity.
  { intros E. vm_compute in E. discriminate E. } { intros E. vm_compute in E. discriminate E. }
  eexists. split; [exact E|]. refine (C94_uncut_partial 2 phi2 dphi2 F2 J2 (1 / 10) midR qr2 inv1 5 0 (15 / 8) [(0, 3 / 4); (3 / 4, 15 / 8)] [ux; uy] [fun _ => 1; fun t => t] _ true field2 enclosing2 midR_in midR_half inverses2 exact2 tame2 ltac:(lia) ltac:(lia) eq_refl _ _ (sol2 _) _ _ E).
  - constructor; [split; [exact okux|reflexivity]|]. constructor; [split; [exact okuy|reflexivity]|constructor].
  - repeat (apply Forall2_cons || apply Forall2_nil); intros s [<-|[<-|[]]]; (split; [|split]); intros; cbn [s_in s_out s_cod s_lb s_ub] in *; try exact (conj Logic.I Logic.I); qr_.
  - repeat (apply Forall_cons || apply Forall_nil).
    + rewrite (eval_t_slice 0 (15 / 8) ux 0 _ 0 okux eq_refl); cbn [s_lb s_ub]; [|lra]. assert (H := slice_eval_lb (mkS 0 (3 / 4) ALL (eq2 (-1) 1) ALL)). cbn [s_lb s_ub s_in] in H. rewrite H by lra. exact Logic.I.
    + rewrite (eval_t_slice 0 (15 / 8) uy 0 _ 0 okuy eq_refl); cbn [s_lb s_ub]; [|lra]. assert (H := slice_eval_lb (mkS 0 (3 / 4) ALL (eq2 0 0) ALL)). cbn [s_lb s_ub s_in] in H. rewrite H by lra. exact Logic.I.
  - repeat (apply Forall_cons || apply Forall_nil); reflexivity.
Qed.

Print Assumptions C94_step_partial.
Print Assumptions C94_dim1_partial.
Print Assumptions C94_uncut_partial.
Print Assumptions C94_refuted.
Print Assumptions C94_round_refuted.
Print Assumptions C94_zero_refuted.
