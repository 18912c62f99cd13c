(** * C81: counter-examples and concrete cases *)

From Coq Require Import Reals Lra Lia Bool List Arith.
Import ListNotations.
From Verif Require Import Itv Tube TubeSpec TubeFacts TubeOps TubeOpsFacts TubeCtc TubeQueries CtcDerivFacts Arith DynSpec Concrete Linobs LinobsFacts PropsLinobs.
Open Scope R_scope.

(** ** Boxes are polygons: the contract [poly_ok] can be met *)
Definition bpolys : polys := {|
  po := ivec;
  p_of_box := fun v => v;
  p_inter := fun p q => (inter (fst p) (fst q), inter (snd p) (snd q));
  p_mul := mat_vec exact;
  p_add := fun p v => (xadd (fst p) (fst v), xadd (snd p) (snd v));
  p_sub := fun p v => (xsub (fst p) (fst v), xsub (snd p) (snd v));
  p_simplify := fun p => p;
  p_box := fun p => (inter (fst p) ALL, inter (snd p) ALL) |}.
Lemma bpolys_ok : poly_ok bpolys vin.
Proof.
  constructor; cbn [bpolys po p_of_box p_inter p_mul p_add p_sub p_simplify p_box]; auto.
  - intros z p q [H1 H2] [H3 H4]. split; apply In_inter; auto.
  - intros m M z p Hm Hz. apply mat_vec_in; auto. apply exact_ok.
  - intros z w p v [H1 H2] [H3 H4]. split; apply (iadd_in _ exact_ok); auto.
  - intros z w p v [H1 H2] [H3 H4]. split; apply (isub_in _ exact_ok); auto.
  - intros z p [H1 H2]. split; apply In_inter; split; auto; apply In_ALL.
  - intros p. split; apply wf_inter.
Qed.

(** ** The exponential is only evaluated at the bounds *)
(** a rotation *)
Definition rot (m : mat) (t : R) : mat :=
  let w := fst (snd m) in ((cos (w * t), - sin (w * t)), (sin (w * t), cos (w * t))).
Lemma dlin w s : derivable_pt_lim (fun s => w * s) s w.
Proof.
  assert (H : derivable_pt_lim (mult_real_fct w id) s (w * 1)) by (apply derivable_pt_lim_scal; apply derivable_pt_lim_id).
  rewrite Rmult_1_r in H. apply (derive_ext (mult_real_fct w id)); [reflexivity|exact H].
Qed.
Lemma rot_expo w : is_expo ((0, - w), (w, 0)) (rot ((0, - w), (w, 0))).
Proof.
  split; [unfold rot; cbn; rewrite Rmult_0_r, cos_0, sin_0, Ropp_0; reflexivity|]. intros s. unfold rot. cbn [fst snd mm].
  assert (Dc : derivable_pt_lim (fun s => cos (w * s)) s (- sin (w * s) * w)) by (apply (derivable_pt_lim_comp (fun s => w * s) cos); [apply dlin|apply derivable_pt_lim_cos]).
  assert (Ds : derivable_pt_lim (fun s => sin (w * s)) s (cos (w * s) * w)) by (apply (derivable_pt_lim_comp (fun s => w * s) sin); [apply dlin|apply derivable_pt_lim_sin]).
  pose proof (derivable_pt_lim_opp _ _ _ Ds) as Dn.
  refine (conj _ (conj _ (conj _ _))).
  - match goal with |- derivable_pt_lim _ _ ?l => replace l with (- sin (w * s) * w) by ring end. exact Dc.
  - match goal with |- derivable_pt_lim _ _ ?l => replace l with (- (cos (w * s) * w)) by ring end. exact Dn.
  - match goal with |- derivable_pt_lim _ _ ?l => replace l with (cos (w * s) * w) by ring end. exact Ds.
  - match goal with |- derivable_pt_lim _ _ ?l => replace l with (- sin (w * s) * w) by ring end. exact Dc.
Qed.
Definition A_rot : mat := ((0, -(1)), (1, 0)).
Definition c_rot : linobs := {| l_A := A_rot; l_b := (0, 0); l_restricted := ALL; l_ar := exact; l_expo := rot; l_po := bpolys |}.
Lemma mneg_rot : mneg A_rot = ((0, -(-(1))), (-(1), 0)).
Proof. unfold mneg, map_mat, A_rot. cbn. rewrite Ropp_0. reflexivity. Qed.
Lemma A_rot_expo : is_expo A_rot (rot A_rot) /\ is_expo (mneg A_rot) (rot (mneg A_rot)).
Proof. rewrite mneg_rot. split; [apply (rot_expo 1)|apply (rot_expo (-(1)))]. Qed.

(** The tube: one slice over a period, the initial state is known *)
Definition xR : tube := [mkS 0 (2 * PI) (I2 (-1) 1) (I2 1 1) (I2 (-1) 1)].
Definition yR : tube := [mkS 0 (2 * PI) (I2 (-1) 1) (I2 0 0) (I2 (-1) 1)].
Definition uR : tube := [mkS 0 (2 * PI) (I2 0 0) (I2 0 0) (I2 0 0)].
Lemma one_ok u v l h s : 0 < u -> l <= h -> v <= s -> l <= v -> s <= h -> tube_ok 0 u [mkS 0 u (I2 l h) (I2 v s) (I2 l h)].
Proof. intros. constructor; [discriminate|cbn; lra|split; exact I|]. constructor; [|constructor]. split; [|split; [|split; [|split]]]; cbn; try lra; intros z; cbn; lra. Qed.
Lemma one_has u c i o f : (forall t, 0 < t < u -> In (f t) c) -> In (f 0) i -> In (f u) o -> has [mkS 0 u c i o] f.
Proof. intros H1 H2 H3 s [<-|[]]. split; [|split]; cbn; auto. Qed.
Lemma xR_cos : has xR cos.
Proof. apply one_has; cbn; intros; try rewrite cos_0; try (apply COS_bound); try lra. Qed.
Lemma yR_sin : has yR sin.
Proof. apply one_has; cbn; intros; try rewrite sin_0; try (apply SIN_bound); try lra. Qed.
Lemma uR_zero : has uR (fun _ => 0).
Proof. apply one_has; cbn; intros; lra. Qed.
Lemma rot_sol a b : lin_sol A_rot (0, 0) a b cos sin (fun _ => 0).
Proof.
  split; cbn; split; intros t _; try (apply continuity_cos); try (apply continuity_sin).
  - replace (0 * cos t + - (1) * sin t + 0 * 0) with (- sin t) by ring. apply derivable_pt_lim_cos.
  - replace (1 * cos t + 0 * sin t + 0 * 0) with (cos t) by ring. apply derivable_pt_lim_sin.
Qed.

(** one slice: the codomain of the first component is the box of the envelope of the first polygon *)
Lemma one_cod c s1 s2 su obs fwd bwd : intersects (s_dom s1) (l_restricted c) = true -> fwd || bwd = true ->
  let P := l_po c in let p0 := p_of_box P (inter (s_in s1) box_domain, inter (s_in s2) box_domain) in
  let p1 := p_of_box P (inter (s_out s1) box_domain, inter (s_out s2) box_domain) in
  exists p, (bwd = false -> p = p0) /\
    (bwd = true -> exists q,
       q = (if fwd then fold_left (fun p o => if s_contains s1 (fst o) then fwd_gate c p (p_of_box P (snd o)) (s_ub s1 - fst o) (s_cod su) else p)
                          obs (fwd_gate c p1 p0 (s_ub s1 - s_lb s1) (s_cod su)) else p1) /\
       fold_left (fun p o => if s_contains s1 (fst o) then bwd_gate c p (p_of_box P (snd o)) (fst o - s_lb s1) (s_cod su) else p)
                               obs (bwd_gate c p0 q (s_ub s1 - s_lb s1) (s_cod su)) = p) /\
    map s_cod (l_x1 c (linobs_contract c fwd bwd obs [s1] [s2] [su])) = [fst (p_box P (polygon_envelope c p (s_ub s1 - s_lb s1) (s_cod su)))] /\
    map dom (l_x1 c (linobs_contract c fwd bwd obs [s1] [s2] [su])) = [dom s1].
Proof.
  intros H Hf. cbv zeta.
  assert (E : forall s, tube_assign_itv inter [s] box_domain = [mkS (s_lb s) (s_ub s) (inter (s_cod s) box_domain) (inter (s_in s) box_domain) (inter (s_out s) box_domain)]) by reflexivity.
  unfold linobs_contract. rewrite !E. cbn [length seq].
  assert (H' : forall c1 i1 o1, intersects (s_dom (mkS (s_lb s1) (s_ub s1) c1 i1 o1)) (l_restricted c) = true) by (intros; exact H).
  destruct bwd.
  - destruct fwd.
    + cbn [fold_left rev app]. unfold fwd_step. cbn [l_x1 nth_error]. rewrite H'. cbn [l_x1 l_x2 l_p init_polys combine map fst snd s_lb s_ub s_in s_out upd].
      unfold bwd_step. cbn [set_output_gate put_gate l_x1 nth_error]. cbn. match goal with |- context [intersects ?d ?r] => replace (intersects d r) with true by (symmetry; exact H) end.
      eexists. refine (conj _ (conj _ _)); [discriminate| |]. 2:{ split; reflexivity. } intros _. eexists. split; reflexivity.
    + cbn [fold_left rev app]. unfold bwd_step. cbn [l_x1 nth_error]. rewrite H'. cbn.
      eexists. refine (conj _ (conj _ _)); [discriminate| |]. 2:{ split; reflexivity. } intros _. eexists. split; reflexivity.
  - destruct fwd; [|discriminate]. cbn [fold_left]. unfold fwd_step. cbn [l_x1 nth_error]. rewrite H'. cbn.
    eexists. refine (conj _ (conj _ _)); [reflexivity|discriminate|]. split; reflexivity.
Qed.
Lemma has_cod x c f s t : has x f -> map s_cod x = [c] -> map dom x = [dom s] -> s_lb s < t < s_ub s -> In (f t) c.
Proof.
  intros Hf Hc Hd Ht. destruct x as [|q [|]]; try discriminate. cbn in *. injection Hc as <-. injection Hd as E1 E2.
  destruct (Hf q (or_introl eq_refl)) as (_ & _ & F). apply F. rewrite E1, E2. auto.
Qed.

(** the products of the counter-example *)
Lemma xmul_pt a b : xmul (pt a) (pt b) = pt (a * b).
Proof. unfold pt, xmul, min4, max4. f_equal; f_equal; unfold Rmin, Rmax; repeat destruct (Rle_dec _ _); auto. Qed.
Lemma hull_pt a : hull (pt a) (pt a) = pt a.
Proof. unfold pt, hull, min_lo, max_hi. f_equal; f_equal; unfold Rmin, Rmax; repeat destruct (Rle_dec _ _); auto. Qed.
Lemma xadd_pt a b : xadd (pt a) (pt b) = pt (a + b).
Proof. reflexivity. Qed.
Lemma inter_pt a X : inter (pt a) X = pt a \/ inter (pt a) X = Emp.
Proof.
  destruct X as [|[l|] [h|]]; cbn; auto; unfold mk, max_lo, min_hi; repeat destruct (Rle_dec _ _); auto;
  unfold pt, Rmax, Rmin in *; repeat destruct (Rle_dec _ _); auto; try lra; left; repeat f_equal; lra.
Qed.
Lemma xmul_0 l h : xmul (Itv (Some l) (Some h)) (pt 0) = pt 0.
Proof. unfold pt, xmul, min4, max4. rewrite !Rmult_0_r. f_equal; f_equal; unfold Rmin, Rmax; repeat destruct (Rle_dec _ _); auto. Qed.
Lemma rot_period : exp_at rot A_rot 0 (2 * PI - 0) = ((pt 1, pt 0), (pt 0, pt 1)).
Proof.
  rewrite exp_at_eq. unfold rot, A_rot, map2_mat, map_mat. cbn [fst snd].
  replace (1 * 0) with 0 by ring. replace (1 * (2 * PI - 0)) with (2 * PI) by ring. rewrite cos_0, sin_0, cos_2PI, sin_2PI, Ropp_0, !hull_pt. reflexivity.
Qed.
Lemma rot_envelope p z : (fst p = pt 1 \/ fst p = Emp) -> (snd p = pt 0 \/ snd p = Emp) ->
  In z (fst (p_box bpolys (polygon_envelope c_rot p (2 * PI - 0) (I2 0 0)))) -> z = 1.
Proof.
  unfold polygon_envelope. cbn [l_po c_rot l_ar l_expo l_A l_b]. rewrite rot_period. intros H1 H2 Hz.
  cbn [bpolys p_box fst] in Hz. apply In_inter in Hz. destruct Hz as [Hz _].
  assert (P1 : bnd 0 (2 * PI - 0) = Itv (Some 0) (Some (2 * PI - 0))) by (unfold bnd, mk; apply Rle_dec_t; pose proof PI_RGT_0; lra).
  unfold scal_vec in Hz. cbn [fst snd exact imul] in Hz. change (I2 0 0) with (pt 0) in Hz. rewrite xmul_pt, Rmult_0_r in Hz.
  unfold mat_vec, scal_mat, map_mat in Hz. cbn [fst snd exact imul iadd p_mul p_add bpolys] in Hz. rewrite P1, (xmul_0 0) in Hz.
  destruct p as [p1 p2]. cbn [fst snd] in *.
  assert (X : exists l h, xmul (Itv (Some 0) (Some (2 * PI - 0))) (pt 1) = Itv (Some l) (Some h)) by (eexists; eexists; reflexivity).
  destruct X as (l & h & X). rewrite X, !xmul_pt, !Rmult_0_r, xmul_0, xmul_pt, Rmult_0_r in Hz || (rewrite X, xmul_0, xmul_pt, Rmult_0_r in Hz).
  destruct H1 as [->| ->]; [|destruct Hz]. destruct H2 as [->| ->]; [|cbn in Hz; destruct Hz].
  unfold mat_vec in Hz. cbn [fst snd exact imul iadd] in Hz. rewrite !xmul_pt, !xadd_pt in Hz. apply In_pt in Hz. lra.
Qed.
Lemma box_pt v : -9999 <= v <= 9999 -> inter (pt v) box_domain = pt v.
Proof. intros H. apply inter_sub_eq; [exact (Rle_refl v)|]. intros z Hz. apply In_pt in Hz. subst. apply In_bnd. exact H. Qed.
Lemma bwd_rot p q : exists X Y, bwd_gate c_rot p q (2 * PI - 0) (I2 0 0) = (inter (fst p) X, inter (snd p) Y).
Proof. eexists. eexists. reflexivity. Qed.

(** The matrix exp(A s) is computed at the two bounds only (codac_CtcLinobs.cpp 28-38), although it is used as an
    enclosure for all the [s] between them (246, 253, 260): for x' = (0 -1; 1 0) x and slices of 2 pi, the
    trajectory (cos, sin) is removed, whatever the propagations. *)
Theorem C81_exp_refuted : exists c pin a b x1 x2 ut f1 f2 u,
  arith_ok (l_ar c) /\ poly_ok (l_po c) pin /\ is_expo (l_A c) (l_expo c (l_A c)) /\ is_expo (mneg (l_A c)) (l_expo c (mneg (l_A c))) /\
  tube_ok a b x1 /\ tube_ok a b x2 /\ tube_ok a b ut /\ map dom x2 = map dom x1 /\ map dom ut = map dom x1 /\
  has x1 f1 /\ has x2 f2 /\ has ut u /\ lin_sol (l_A c) (l_b c) a b f1 f2 u /\
  (forall t, a <= t <= b -> -9999 <= f1 t <= 9999 /\ -9999 <= f2 t <= 9999) /\
  forall fwd bwd, fwd || bwd = true -> ~ has (l_x1 c (linobs_contract c fwd bwd [] x1 x2 ut)) f1.
Proof.
  exists c_rot, vin, 0, (2 * PI), xR, yR, uR, cos, sin, (fun _ => 0). pose proof PI_RGT_0 as HPI.
  refine (conj exact_ok (conj bpolys_ok (conj (proj1 A_rot_expo) (conj (proj2 A_rot_expo) _)))).
  refine (conj _ (conj _ (conj _ (conj eq_refl (conj eq_refl (conj xR_cos (conj yR_sin (conj uR_zero (conj (rot_sol _ _) _))))))))); try (apply one_ok; lra).
  split; [intros t _; pose proof (COS_bound t); pose proof (SIN_bound t); lra|]. intros fwd bwd Hf Hh.
  destruct (one_cod c_rot (mkS 0 (2 * PI) (I2 (-1) 1) (I2 1 1) (I2 (-1) 1)) (mkS 0 (2 * PI) (I2 (-1) 1) (I2 0 0) (I2 (-1) 1)) (mkS 0 (2 * PI) (I2 0 0) (I2 0 0) (I2 0 0)) [] fwd bwd) as (p & E1 & E2 & E3 & E4); auto.
  { apply intersects_spec. exists 0. split; [split; cbn; lra|apply In_ALL]. }
  pose proof (has_cod _ _ _ _ PI Hh E3 E4 ltac:(cbn [s_lb s_ub]; lra)) as K. apply rot_envelope in K; [rewrite cos_PI in K; clear - K; lra| |].
  - cbn [s_in s_lb s_ub s_cod fold_left c_rot l_po p_of_box bpolys] in E1, E2. change (I2 1 1) with (pt 1) in *. rewrite !(box_pt 1) in * by lra.
    destruct bwd; [|left; rewrite E1; auto]. destruct (E2 eq_refl) as (q & _ & <-). change (I2 0 0) with (pt 0) in *. 
    destruct (bwd_rot (pt 1, inter (pt 0) box_domain) q) as (X & Y & B). change (I2 0 0) with (pt 0) in B. rewrite B. cbn [fst]. apply inter_pt.
  - cbn [s_in s_lb s_ub s_cod fold_left c_rot l_po p_of_box bpolys] in E1, E2. change (I2 0 0) with (pt 0) in *. rewrite !(box_pt 0) in * by lra.
    destruct bwd; [|left; rewrite E1; auto]. destruct (E2 eq_refl) as (q & _ & <-).
    destruct (bwd_rot (inter (I2 1 1) box_domain, pt 0) q) as (X & Y & B). change (I2 0 0) with (pt 0) in B. rewrite B. cbn [snd]. apply inter_pt.
Qed.

(** ** The result may be larger than the tube *)
(** t (1 - t) *)
Definition fB (t : R) : R := t * (1 - t).
Definition gB (t : R) : R := 1 - 2 * t.
Lemma fB_sol : derivative_on 0 1 fB gB /\ derivative_on 0 1 gB (fun _ => -2).
Proof.
  assert (D2 : forall t, derivable_pt_lim gB t (-2)).
  { intros t. unfold gB. replace (-2) with (0 - 2) by ring. apply (derivable_pt_lim_minus (fct_cte 1) (fun t => 2 * t)); [apply derivable_pt_lim_const|apply dlin]. }
  assert (D1 : forall t, derivable_pt_lim fB t (gB t)).
  { intros t. unfold fB, gB. replace (1 - 2 * t) with (1 * (1 - t) + t * (0 - 1)) by ring.
    apply (derivable_pt_lim_mult id (fun t => 1 - t)); [apply derivable_pt_lim_id|].
    apply (derivable_pt_lim_minus (fct_cte 1) id); [apply derivable_pt_lim_const|apply derivable_pt_lim_id]. }
  split; split; intros t _; auto; apply derivable_continuous_pt; [exists (gB t); apply D1|exists (-2); apply D2].
Qed.
Definition sX : slice := mkS 0 1 (I2 (-1/10) (1/10)) (I2 0 0) (I2 0 0).
Definition sV : slice := mkS 0 1 (I2 (-1) 1) (I2 (-1) 1) (I2 (-1) 1).
Definition sA : slice := mkS 0 1 (I2 (-10) 10) (I2 (-10) 10) (I2 (-10) 10).
(** The codomains of the slices are replaced by the envelope of the polygon (codac_CtcLinobs.cpp 196-197, 233-234), not
    intersected with it: with any polygons that keep the solutions, and any propagation, CtcChain returns a tube that is
    not included in the given one. *)
Theorem C81_contracts_refuted : forall Ar expo Po pin restricted, let c := chain_ctc Ar expo Po restricted in
  arith_ok Ar -> poly_ok Po pin -> is_expo (l_A c) (expo (l_A c)) -> is_expo (mneg (l_A c)) (expo (mneg (l_A c))) -> In 0 restricted ->
  exists x v acc, tube_ok 0 1 x /\ tube_ok 0 1 v /\ tube_ok 0 1 acc /\ map dom v = map dom x /\ map dom acc = map dom x /\
  forall fwd bwd, fwd || bwd = true -> ~ tsub (fst (chain_contract c fwd bwd x v acc)) x.
Proof.
  intros Ar expo Po pin restricted c HA HP HE HEm HR. exists [sX], [sV], [sA].
  assert (OX : tube_ok 0 1 [sX]) by tube_ok_tac. assert (OV : tube_ok 0 1 [sV]) by tube_ok_tac. assert (OA : tube_ok 0 1 [sA]) by tube_ok_tac.
  refine (conj OX (conj OV (conj OA (conj eq_refl (conj eq_refl _))))). intros fwd bwd Hf Hs.
  assert (B1 : between 1 (l_expo c (l_A c))) by (apply (chain_between 1); exact HE).
  assert (B2 : between 1 (l_expo c (mneg (l_A c)))).
  { apply (chain_between (-1)). cbn [l_A c chain_ctc l_expo] in *. rewrite mneg_chain in HEm |- *. exact HEm. }
  assert (HS : lin_sol (l_A c) (l_b c) 0 1 fB gB (fun _ => -2)).
  { destruct fB_sol as [D1 D2]. split; cbn; [apply (derivative_eq 0 1 fB gB); auto|apply (derivative_eq 0 1 gB (fun _ => -2)); auto]; intros; ring. }
  assert (HU : has [sA] (fun _ => -2)) by has_tac.
  assert (HW : forall s, List.In s [sX] -> s_ub s - s_lb s <= 1) by (intros s [<-|[]]; cbn; lra).
  assert (Pi : pin (fB 0, gB 0) (p_of_box Po (inter (s_in sX) box_domain, inter (s_in sV) box_domain))).
  { apply (k_of_box _ _ HP). split; apply In_inter; (split; [|apply In_bnd]); cbn; unfold fB, gB; lra. }
  assert (Po1 : pin (fB 1, gB 1) (p_of_box Po (inter (s_out sX) box_domain, inter (s_out sV) box_domain))).
  { apply (k_of_box _ _ HP). split; apply In_inter; (split; [|apply In_bnd]); cbn; unfold fB, gB; lra. }
  destruct (one_cod c sX sV sA [] fwd bwd) as (p & E1 & E2 & E3 & E4); auto.
  { apply intersects_spec. exists 0. split; auto. split; cbn; lra. }
  assert (Hp : pin (fB 0, gB 0) p).
  { destruct bwd; [|rewrite E1; auto]. destruct (E2 eq_refl) as (q & Hq & <-). cbn [fold_left] in *. 
    apply (bwd_gate_in c pin 0 1 1 [sX] [sA] fB gB (fun _ => -2) HA HP HEm B2 OX HW OA eq_refl HU HS 0 sX sA 1); auto; try (cbn; lra).
    destruct fwd; subst q; auto.
    apply (fwd_gate_in c pin 0 1 1 [sX] [sA] fB gB (fun _ => -2) HA HP HE B1 OX HW OA eq_refl HU HS 0 sX sA 0); auto; try (cbn; lra). }
  pose proof (envelope_in c pin 0 1 1 [sX] [sA] fB gB (fun _ => -2) HA HP HE B1 OX HW OA eq_refl HU HS 0 sX sA (1/2) p eq_refl eq_refl ltac:(cbn; lra) Hp) as K.
  apply (k_box _ _ HP) in K. destruct K as [K _]. cbn [fst] in K.
  unfold chain_contract in Hs. cbn [fst] in Hs. destruct (l_x1 c _) as [|q [|]]; try discriminate. injection E3 as E3.
  assert (K' : In (fB (1/2)) (s_cod q)) by (rewrite E3; exact K). inversion Hs as [|q' s' l' l'' HQ HL]. destruct HQ as (_ & _ & Hc & _).
  apply Hc in K'. cbn in K'. unfold fB in K'. lra.
Qed.

(** ** The tubes are limited to [-9999, 9999] (codac_CtcLinobs.cpp 136-141) *)
Lemma one_bounded c s1 s2 su fwd bwd : exists q, l_x1 c (linobs_contract c fwd bwd [] [s1] [s2] [su]) = [q] /\ sub (s_in q) box_domain.
Proof.
  assert (E : forall s, tube_assign_itv inter [s] box_domain = [mkS (s_lb s) (s_ub s) (inter (s_cod s) box_domain) (inter (s_in s) box_domain) (inter (s_out s) box_domain)]) by reflexivity.
  unfold linobs_contract. rewrite !E. cbn [length seq fold_left rev app].
  unfold fwd_step, bwd_step. generalize box_domain. intros B. destruct (intersects (s_dom s1) (l_restricted c)) eqn:EI.
  - assert (H' : forall c1 i1 o1, intersects (s_dom (mkS (s_lb s1) (s_ub s1) c1 i1 o1)) (l_restricted c) = true) by (intros; exact EI).
    destruct fwd, bwd; cbn [l_x1 nth_error l_p l_x2]; rewrite ?H'; cbn; repeat (match goal with |- context [intersects ?d ?r] => replace (intersects d r) with true by (symmetry; exact EI) end; cbn);
    (eexists; split; [reflexivity|]); cbn; intros z Hz; repeat (apply In_inter in Hz; destruct Hz as [Hz ?]); repeat match goal with H : In z (inter _ _) |- _ => apply In_inter in H; destruct H end; auto.
  - assert (H' : forall c1 i1 o1, intersects (s_dom (mkS (s_lb s1) (s_ub s1) c1 i1 o1)) (l_restricted c) = false) by (intros; exact EI).
    destruct fwd, bwd; cbn [l_x1 nth_error l_p l_x2]; rewrite ?H'; cbn [l_x1 nth_error]; rewrite ?H'; (eexists; split; [reflexivity|]); cbn [s_in]; apply sub_inter_r.
Qed.
Theorem C81_bound_refuted : forall Ar expo Po restricted, let c := chain_ctc Ar expo Po restricted in
  exists x v acc f g h, tube_ok 0 1 x /\ tube_ok 0 1 v /\ tube_ok 0 1 acc /\ map dom v = map dom x /\ map dom acc = map dom x /\
  has x f /\ has v g /\ has acc h /\ derivative_on 0 1 f g /\ derivative_on 0 1 g h /\
  forall fwd bwd, ~ has (fst (chain_contract c fwd bwd x v acc)) f.
Proof.
  intros Ar expo Po restricted c.
  exists [mkS 0 1 (I2 0 20000) (I2 0 20000) (I2 0 20000)], [mkS 0 1 (I2 0 0) (I2 0 0) (I2 0 0)], [mkS 0 1 (I2 0 0) (I2 0 0) (I2 0 0)], (fun _ => 10000), (fun _ => 0), (fun _ => 0).
  assert (D : forall k, derivative_on 0 1 (fun _ => k) (fun _ => 0)).
  { intros k. split; intros t _; [apply (continuity_const (fct_cte k)); intros ? ?; reflexivity|apply (derivable_pt_lim_const k)]. }
  refine (conj _ (conj _ (conj _ (conj eq_refl (conj eq_refl (conj _ (conj _ (conj _ (conj (D _) (conj (D _) _)))))))))); try tube_ok_tac; try has_tac.
  intros fwd bwd Hf. unfold chain_contract in Hf. cbn [fst] in Hf.
  destruct (one_bounded c (mkS 0 1 (I2 0 20000) (I2 0 20000) (I2 0 20000)) (mkS 0 1 (I2 0 0) (I2 0 0) (I2 0 0)) (mkS 0 1 (I2 0 0) (I2 0 0) (I2 0 0)) fwd bwd) as (q & E & B).
  rewrite E in Hf. destruct (Hf q (or_introl eq_refl)) as (F & _ & _). apply B in F. apply In_bnd in F. lra.
Qed.

(** ** Concrete cases *)
(** exponential of the matrices of the chains *)
Definition cexpo (m : mat) (t : R) : mat := ((1, snd (fst m) * t), (0, 1)).
Lemma cexpo_ok d : is_expo ((0, d), (0, 0)) (cexpo ((0, d), (0, 0))).
Proof.
  split; [unfold cexpo; cbn; rewrite Rmult_0_r; reflexivity|]. intros s. unfold cexpo, mm. cbn [fst snd].
  replace (1 * 0 + d * s * 0) with 0 by ring. replace (1 * d + d * s * 0) with d by ring. replace (0 * 0 + 1 * 0) with 0 by ring. replace (0 * d + 1 * 0) with 0 by ring.
  refine (conj _ (conj (dlin _ _) (conj _ _))); apply derivable_pt_lim_const.
Qed.
Definition c_chain : linobs := chain_ctc exact cexpo bpolys ALL.
Lemma c_chain_expo : is_expo (l_A c_chain) (cexpo (l_A c_chain)) /\ is_expo (mneg (l_A c_chain)) (cexpo (mneg (l_A c_chain))).
Proof. split; [apply (cexpo_ok 1)|]. cbn [l_A c_chain chain_ctc]. rewrite mneg_chain. apply (cexpo_ok (-1)). Qed.

(** the parabola t (1 - t) is kept by CtcChain *)
Example C81_chain_example : forall fwd bwd,
  let x := [mkS 0 1 (I2 (-1) 1) (I2 0 0) (I2 (-1) 1)] in
  has (fst (chain_contract c_chain fwd bwd x [sV] [sA])) fB /\ has (snd (chain_contract c_chain fwd bwd x [sV] [sA])) gB.
Proof.
  intros fwd bwd x. destruct fB_sol as [D1 D2].
  apply (C81_chain exact cexpo bpolys vin ALL 0 1 x [sV] [sA] fB gB (fun _ => -2)); auto using exact_ok, bpolys_ok; try apply c_chain_expo; try tube_ok_tac; try reflexivity.
  - assert (forall t, 0 <= t <= 1 -> -1 <= fB t <= 1) by (intros t Ht; unfold fB; nra). apply one_has; cbn; intros; try (apply H; lra). unfold fB; lra.
  - apply one_has; cbn; intros; unfold gB; lra.
  - has_tac.
  - intros t Ht. unfold fB, gB. nra.
Qed.
(** and with the speed 1 the position at the end becomes exact *)
Example C81_chain_contracts_example : exists q,
  fst (chain_contract c_chain true false [mkS 0 1 (I2 (-10) 10) (I2 0 0) (I2 (-10) 10)] [mkS 0 1 (I2 1 1) (I2 1 1) (I2 1 1)] [mkS 0 1 (I2 0 0) (I2 0 0) (I2 0 0)]) = [q] /\
  sub (s_out q) (pt 1) /\ s_cod q = I2 0 1.
Proof.
  set (s1 := mkS 0 1 (I2 (-10) 10) (I2 0 0) (I2 (-10) 10)). set (s2 := mkS 0 1 (I2 1 1) (I2 1 1) (I2 1 1)). set (su := mkS 0 1 (I2 0 0) (I2 0 0) (I2 0 0)).
  destruct (one_cod c_chain s1 s2 su [] true false) as (p & E1 & _ & E3 & _); auto.
  { apply intersects_spec. exists 0. split; [split; cbn; lra|apply In_ALL]. }
  unfold chain_contract. cbn [fst]. 
  assert (X : exists q, l_x1 c_chain (linobs_contract c_chain true false [] [s1] [s2] [su]) = [q] /\
     sub (s_out q) (fst (p_box bpolys (fwd_gate c_chain (inter (s_out s1) box_domain, inter (s_out s2) box_domain) (inter (s_in s1) box_domain, inter (s_in s2) box_domain) (1 - 0) (s_cod su))))).
  { unfold linobs_contract.
    assert (E : forall s, tube_assign_itv inter [s] box_domain = [mkS (s_lb s) (s_ub s) (inter (s_cod s) box_domain) (inter (s_in s) box_domain) (inter (s_out s) box_domain)]) by reflexivity.
    rewrite !E. cbn [length seq fold_left]. unfold fwd_step. cbn [l_x1 nth_error]. replace (intersects _ _) with true by (symmetry; apply intersects_spec; exists 0; split; [split; cbn; lra|apply In_ALL]).
    cbn - [box_domain inter fwd_gate p_box polygon_envelope]. eexists. split; [reflexivity|]. cbn [s_out set_out set_in set_cod]. intros z Hz. apply In_inter in Hz. destruct Hz as [Hz _].
    apply In_inter in Hz. destruct Hz as [Hz _]. exact Hz. }
  destruct X as (q & X & Hq). exists q. split; auto. rewrite X in E3. apply (f_equal (hd Emp)) in E3. cbn [hd map] in E3.
  cbn [s_in s_out s_cod s_lb s_ub s1 s2 su c_chain chain_ctc l_po p_of_box bpolys] in *. specialize (E1 eq_refl). change (I2 0 0) with (pt 0) in *. change (I2 1 1) with (pt 1) in *.
  rewrite !box_pt in * by lra. subst p.
  assert (Z : forall l h, xmul (Itv (Some l) (Some h)) (xmul (pt 0) (pt 0)) = pt 0) by (intros; rewrite xmul_pt, Rmult_0_r; apply xmul_0).
  assert (Z1 : xmul (pt 0) (pt 1) = pt 0) by (rewrite xmul_pt; f_equal; ring).
  assert (X1 : forall r a b c d, (exists l h, xmul r (hull (pt a) (pt b)) = Itv (Some l) (Some h)) -> (exists l h, xmul r (hull (pt c) (pt d)) = Itv (Some l) (Some h)) ->
     xadd (xmul (xmul r (hull (pt a) (pt b))) (xmul (pt 0) (pt 0))) (xmul (xmul r (hull (pt c) (pt d))) (xmul (pt 0) (pt 1))) = pt 0).
  { intros r a b c d (l & h & ->) (l' & h' & ->). rewrite Z1, Z, xmul_0, xadd_pt. f_equal. ring. }
  split.
  - intros z Hz. apply Hq in Hz. unfold fwd_gate in Hz. cbn [c_chain chain_ctc l_po l_ar l_expo l_A l_b bpolys p_box p_simplify p_inter p_add p_mul fst snd] in Hz.
    apply In_inter in Hz. destruct Hz as [Hz _]. apply In_inter in Hz. destruct Hz as [_ Hz]. rewrite !exp_at_eq in Hz.
    unfold mat_vec, scal_mat, scal_vec, map2_mat, map_mat, cexpo in Hz. cbn [fst snd exact imul iadd] in Hz.
    rewrite X1 in Hz by (eexists; eexists; reflexivity). rewrite !hull_pt, !xmul_pt, !xadd_pt in Hz. apply In_pt in Hz. apply In_pt. lra.
  - rewrite E3. unfold polygon_envelope. cbn [c_chain chain_ctc l_po l_ar l_expo l_A l_b bpolys p_box p_simplify p_inter p_add p_mul fst snd]. rewrite !exp_at_eq.
    unfold mat_vec, scal_mat, scal_vec, map2_mat, map_mat, cexpo. cbn [fst snd exact imul iadd].
    rewrite X1 by (unfold bnd, mk; rewrite Rle_dec_t by lra; eexists; eexists; reflexivity). rewrite inter_sub_eq.
    + rewrite hull_pt, xmul_pt. unfold pt, hull, min_lo, max_hi, xmul, xadd, oadd, min4, max4, I2. unfold Rmin, Rmax. repeat destruct (Rle_dec _ _); repeat f_equal; lra.
    + rewrite hull_pt, xmul_pt. unfold pt, hull, min_lo, max_hi, xmul, xadd, oadd, min4, max4, wf. unfold Rmin, Rmax. repeat destruct (Rle_dec _ _); lra.
    + intros z _. apply In_ALL.
Qed.

(** the rotation with slices shorter than a quarter of the period *)
Lemma rot_between w : w = 1 \/ w = -(1) -> between (PI / 2) (rot ((0, - w), (w, 0))).
Proof.
  intros Hw h s Hs Hh. pose proof PI_RGT_0. unfold rot, map2_mat, map_mat. cbn [fst snd].
  assert (C0 : cos (w * 0) = 1) by (rewrite Rmult_0_r; apply cos_0). assert (S0 : sin (w * 0) = 0) by (rewrite Rmult_0_r; apply sin_0). rewrite C0, S0.
  assert (A : cos h <= cos s <= 1). { split; [|apply COS_bound]. destruct (Req_EM_T s h) as [->|]; [lra|]. left. apply cos_decreasing_1; lra. }
  assert (B : 0 <= sin s <= sin h). { split; [apply sin_ge_0; lra|]. destruct (Req_EM_T s h) as [->|]; [lra|]. left. apply sin_increasing_1; lra. }
  destruct Hw as [-> | ->].
  - replace (1 * s) with s by ring. replace (1 * h) with h by ring. split; split; cbn [fst snd]; apply In_hull_between; lra.
  - replace (- (1) * s) with (- s) by ring. replace (- (1) * h) with (- h) by ring. rewrite !cos_neg, !sin_neg. split; split; cbn [fst snd]; apply In_hull_between; lra.
Qed.
Example C81_rot_example : forall fwd bwd,
  let x := [mkS 0 (PI / 2) (I2 (-1) 1) (I2 1 1) (I2 (-1) 1)] in let y := [mkS 0 (PI / 2) (I2 (-1) 1) (I2 0 0) (I2 (-1) 1)] in
  let u := [mkS 0 (PI / 2) (I2 0 0) (I2 0 0) (I2 0 0)] in let obs := [(PI / 2, (I2 0 0, I2 1 1))] in
  has (l_x1 c_rot (linobs_contract c_rot fwd bwd obs x y u)) cos /\ has (l_x2 c_rot (linobs_contract c_rot fwd bwd obs x y u)) sin.
Proof.
  intros fwd bwd x y u obs. pose proof PI_RGT_0.
  destruct (C81_no_loss c_rot vin 0 (PI / 2) (PI / 2) x y u cos sin (fun _ => 0) obs fwd bwd) as (K1 & K2 & _); auto using exact_ok, bpolys_ok; try apply A_rot_expo; try (apply one_ok; lra).
  - apply (rot_between 1). auto.
  - cbn [c_rot l_A l_expo]. rewrite mneg_rot. apply (rot_between (-(1))). auto.
  - intros s [<-|[]]. cbn [s_lb s_ub]. lra.
  - apply one_has; cbn; intros; try rewrite cos_0; try (apply COS_bound); try lra.
  - apply one_has; cbn; intros; try rewrite sin_0; try (apply SIN_bound); try lra.
  - apply one_has; cbn; intros; lra.
  - apply rot_sol.
  - intros t _. pose proof (COS_bound t). pose proof (SIN_bound t). lra.
  - intros o [<-|[]]. cbn [fst snd]. rewrite cos_PI2, sin_PI2. split; cbn; lra.
Qed.

Print Assumptions C81_no_loss.
Print Assumptions C81_chain.
Print Assumptions C81_exp_refuted.
Print Assumptions C81_contracts_refuted.
Print Assumptions C81_bound_refuted.

