(** * C54: detection of loops in the t-plane *)

From Coq Require Import Reals Lra Lia Bool List NArith.
Import ListNotations.
From Verif Require Import Itv Arith Tube TubeOps TubeSpec TubeFacts Concrete DynSpec Integral PropsTube PropsIntegral Static Paving PropsSivia Codac2Box TPlane.
Open Scope R_scope.
Set Bullet Behavior "Strict Subproofs".

(** ** Specification *)
Definition fin (a b : R) : itv := Itv (Some a) (Some b).
(** bounded and non-empty at each instant *)
Definition fin_tube (a b : R) (x : tube) : Prop := forall t, a <= t <= b -> exists l u, l <= u /\ eval_t x t = fin l u.
(** a loop of the robot: two instants with the same position, and the velocity is the derivative of the position *)
Definition loop (a b : R) (i : tp_in) (t1 t2 : R) : Prop :=
  t1 < t2 /\ exists fs, Forall2 has (tp_p i) fs /\ Forall (fun f => f t1 = f t2) fs /\
    (tp_der i = true -> exists gs, Forall2 has (tp_v i) gs /\ Forall2 (follows a b) fs gs).
(** in each dimension, some trajectories of the tubes move strictly forward between the two instants, and some strictly
    backward *)
Definition both_ways (x : tube) (t1 t2 : R) : Prop :=
  (exists f, has x f /\ f t1 < f t2) /\ (exists f, has x f /\ f t2 < f t1).
Definition both_ways_v (a b : R) (v : tube) (t1 t2 : R) : Prop :=
  (exists f F, has v f /\ follows a b F f /\ F t1 < F t2) /\ (exists f F, has v f /\ follows a b F f /\ F t2 < F t1).
Definition robust (a b : R) (i : tp_in) (t1 t2 : R) : Prop :=
  t1 < t2 /\ Forall (fun x => both_ways x t1 t2) (tp_p i) /\
  (tp_der i = true -> Forall (fun v => both_ways_v a b v t1 t2) (tp_v i)).
(** nodes of a plane *)
Inductive node (v : N) (b : box) : tpl -> Prop :=
| nd_leaf : node v b (TpLeaf v b)
| nd_node l r : node v b (TpNode v b l r)
| nd_l w c l r : node v b l -> node v b (TpNode w c l r)
| nd_r w c l r : node v b r -> node v b (TpNode w c l r).
Inductive leaf (v : N) (b : box) : tpl -> Prop :=
| lf_leaf : leaf v b (TpLeaf v b)
| lf_l w c l r : leaf v b l -> leaf v b (TpNode w c l r)
| lf_r w c l r : leaf v b r -> leaf v b (TpNode w c l r).
Definition in_out (n : tpl) (t1 t2 : R) : Prop := exists b, node V_OUT b n /\ inb [t1; t2] b.
(** a box of the square [a,b]^2 *)
Definition square (a b : R) (c : box) : Prop :=
  exists l1 u1 l2 u2, c = [fin l1 u1; fin l2 u2] /\ a <= l1 /\ l1 <= u1 /\ u1 <= b /\ a <= l2 /\ l2 <= u2 /\ u2 <= b.
(** the bisector *)
Definition bis_in (bis : box -> box * box) : Prop :=
  forall a b c, square a b c -> square a b (fst (bis c)) /\ square a b (snd (bis c)) /\
    forall p, inb p (fst (bis c)) \/ inb p (snd (bis c)) <-> inb p c.
Definition inputs_ok (a b : R) (i : tp_in) : Prop :=
  length (tp_p i) = 2%nat /\ Forall (fun x => tube_ok a b x /\ fin_tube a b x) (tp_p i) /\
  (tp_der i = true -> length (tp_v i) = 2%nat /\ Forall (fun x => tube_ok a b x /\ fin_tube a b x) (tp_v i)).

(** ** Proofs *)
Definition fe (i : itv) : Prop := i = Emp \/ exists l u, i = fin l u.
Lemma fe_hull i j : fe i -> fe j -> fe (hull i j).
Proof. intros [->|(l & u & ->)] [->|(l' & u' & ->)]; cbn; [left|right|right|right]; unfold fin; eauto. Qed.
Lemma fe_add i o : fe i -> fe (add_bound i o).
Proof. intros H. destruct o as [r|]; cbn; auto. apply fe_hull; auto. right. exists r, r. reflexivity. Qed.
Lemma fe_sl s t : fe (fst (slice_eval_bounds s t)) /\ fe (snd (slice_eval_bounds s t)).
Proof.
  unfold slice_eval_bounds. assert (K : forall p i, fe (fst p) -> fe (snd p) -> fe (fst (add_bounds p i)) /\ fe (snd (add_bounds p i))).
  { intros p i A B. unfold add_bounds. cbn. split; apply fe_add; auto. }
  assert (E : fe Emp) by (left; reflexivity).
  destruct (contains t (s_lb s)), (contains t (s_ub s)), (_ && _); cbv zeta;
    repeat match goal with |- fe (fst (add_bounds _ _)) /\ _ => apply K end; cbn [fst snd]; auto;
    try (apply K; cbn [fst snd]; auto); try (apply (K _ _); cbn; auto).
Qed.
Lemma fe_loop x a b : forall p, fe (fst p) -> fe (snd p) -> fe (fst (eval_bounds_loop x a b p)) /\ fe (snd (eval_bounds_loop x a b p)).
Proof.
  induction x as [|s x IH]; intros p A B; cbn; auto. destruct (Rleb _ _); auto. destruct (fe_sl s (inter (bnd a b) (s_dom s))).
  apply IH; cbn; apply fe_hull; auto.
Qed.
Lemma ev_fin a b x u v : tube_ok a b x -> fin_tube a b x -> a <= u -> u <= v -> v <= b ->
  exists l h l' h', eval_bounds x u v = (fin l h, fin l' h') /\
    forall t lo hi, u <= t <= v -> eval_t x t = fin lo hi -> l <= lo <= h /\ l' <= hi <= h'.
Proof.
  intros Ok Hf H1 H2 H3. unfold eval_bounds.
  destruct (fe_loop (skipn (time_to_index u x) x) u v (Emp, Emp)) as [A B]; try (left; reflexivity).
  fold (eval_bounds x u v) in *. 
  assert (K : forall t lo hi, u <= t <= v -> eval_t x t = fin lo hi -> In lo (fst (eval_bounds x u v)) /\ In hi (snd (eval_bounds x u v))).
  { intros t lo hi Ht E. destruct (C05_eval_bounds a b x u v t Ok H1 H3 Ht) as [P Q]. rewrite E in P, Q. split; [apply P|apply Q]; reflexivity. }
  destruct (Hf u) as (lo & hi & L & E); [lra|]. destruct (K u lo hi) as [K1 K2]; auto; [lra|].
  destruct (eval_bounds x u v) as [i j]. cbn [fst snd] in *.
  destruct A as [->|(l & h & ->)]; [contradiction|]. destruct B as [->|(l' & h' & ->)]; [contradiction|].
  exists l, h, l', h'. split; [reflexivity|]. intros t lo' hi' Ht E'. destruct (K t lo' hi' Ht E') as [P Q]. cbn in P, Q. auto.
Qed.
Lemma strict_sub i j : i_is_strict_subset i j = true -> sub i j.
Proof. unfold i_is_strict_subset. intros H. apply andb_true_iff in H as [H _]. apply is_subset_sub. auto. Qed.
(** the bounds of positions *)
Lemma enc_at a b x0 x1 l1 u1 l2 u2 : tube_ok a b x0 -> fin_tube a b x0 -> tube_ok a b x1 -> fin_tube a b x1 ->
  a <= l1 -> l1 <= u1 -> u1 <= b -> a <= l2 -> l2 <= u2 -> u2 <= b ->
  exists i0 i1 j0 j1, tp_enc [x0; x1] l1 u1 l2 u2 = ([i0; i1], [j0; j1]) /\
    forall t1 t2, l1 <= t1 <= u1 -> l2 <= t2 <= u2 ->
      (forall lo hi lo' hi', eval_t x0 t1 = fin lo hi -> eval_t x0 t2 = fin lo' hi' -> In (lo - hi') i0 /\ In (hi - lo') j0) /\
      (forall lo hi lo' hi', eval_t x1 t1 = fin lo hi -> eval_t x1 t2 = fin lo' hi' -> In (lo - hi') i1 /\ In (hi - lo') j1).
Proof.
  intros O0 F0 O1 F1 A1 A2 A3 B1 B2 B3.
  destruct (ev_fin a b x0 l1 u1 O0 F0) as (a0 & b0 & c0 & d0 & E0 & P0); auto.
  destruct (ev_fin a b x0 l2 u2 O0 F0) as (a0' & b0' & c0' & d0' & E0' & P0'); auto.
  destruct (ev_fin a b x1 l1 u1 O1 F1) as (a1 & b1 & c1 & d1 & E1 & P1); auto.
  destruct (ev_fin a b x1 l2 u2 O1 F1) as (a1' & b1' & c1' & d1' & E1' & P1'); auto.
  unfold tp_enc, tp_eval. cbn [map fst snd]. rewrite E0, E0', E1, E1'. cbn.
  eexists _, _, _, _. split; [reflexivity|]. intros t1 t2 T1 T2.
  assert (Hh : forall p q r, p <= r <= q -> In r (Itv (Some (Rmin p q)) (Some (Rmax p q)))).
  { intros p q r H. cbn. pose proof (Rmin_l p q). pose proof (Rmax_r p q). lra. }
  split; intros lo hi lo' hi' Q Q'.
  - destruct (P0 t1 lo hi T1 Q). destruct (P0' t2 lo' hi' T2 Q'). split; apply Hh; lra.
  - destruct (P1 t1 lo hi T1 Q). destruct (P1' t2 lo' hi' T2 Q'). split; apply Hh; lra.
Qed.
Lemma eval_has a b x f t lo hi : tube_ok a b x -> has x f -> eval_t x t = fin lo hi -> lo <= f t <= hi.
Proof. intros Ok Hf E. pose proof (C04_eval_instant a b x f t Ok Hf) as H. rewrite E in H. exact H. Qed.
Lemma ways_bounds a b x t1 t2 : tube_ok a b x -> fin_tube a b x -> a <= t1 <= b -> a <= t2 <= b -> both_ways x t1 t2 ->
  exists lo hi lo' hi', eval_t x t1 = fin lo hi /\ eval_t x t2 = fin lo' hi' /\ lo - hi' < 0 /\ 0 < hi - lo'.
Proof.
  intros Ok Ff H1 H2 ((f & Hf & Lf) & (g & Hg & Lg)). destruct (Ff t1 H1) as (lo & hi & L & E). destruct (Ff t2 H2) as (lo' & hi' & L' & E').
  exists lo, hi, lo', hi'. split; auto. split; auto.
  pose proof (eval_has _ _ _ _ _ _ _ Ok Hf E). pose proof (eval_has _ _ _ _ _ _ _ Ok Hf E').
  pose proof (eval_has _ _ _ _ _ _ _ Ok Hg E). pose proof (eval_has _ _ _ _ _ _ _ Ok Hg E'). lra.
Qed.
Lemma not_sub i j r : In r i -> ~ In r j -> i_is_strict_subset i j = false.
Proof. intros H N. destruct (i_is_strict_subset i j) eqn:E; auto. apply strict_sub in E. exfalso. auto. Qed.
Lemma time_sub l1 u1 l2 u2 t1 t2 : l1 <= t1 <= u1 -> l2 <= t2 <= u2 -> In (t1 - t2) (xsub (bnd l1 u1) (bnd l2 u2)).
Proof. intros H1 H2. apply (isub_in exact exact_ok); apply In_bnd; auto. Qed.
Lemma primitive_keeps a b i l1 u1 l2 u2 t1 t2 : inputs_ok a b i -> a <= l1 -> u1 <= b -> a <= l2 -> u2 <= b ->
  l1 <= t1 <= u1 -> l2 <= t2 <= u2 -> robust a b i t1 t2 -> primitive_out i l1 u1 l2 u2 = false.
Proof.
  intros (Lp & Op & _) H1 H2 H3 H4 T1 T2 (Lt & Rp & _). unfold primitive_out.
  destruct (tp_p i) as [|x0 [|x1 [|? ?]]]; try discriminate.
  inversion Op as [|? ? [O0 F0] Op']; subst. inversion Op' as [|? ? [O1 F1] _]; subst.
  inversion Rp as [|? ? R0 Rp']; subst. inversion Rp' as [|? ? R1 _]; subst.
  destruct (enc_at a b x0 x1 l1 u1 l2 u2) as (i0 & i1 & j0 & j1 & E & P); auto; try lra. rewrite E. cbn [fst snd nth].
  destruct (P t1 t2 T1 T2) as [P0 P1].
  destruct (ways_bounds a b x0 t1 t2) as (lo & hi & lo' & hi' & A & B & C & D); auto; try lra. destruct (P0 _ _ _ _ A B) as [Q0 Q0'].
  destruct (ways_bounds a b x1 t1 t2) as (lo1 & hi1 & lo1' & hi1' & A1 & B1 & C1 & D1); auto; try lra. destruct (P1 _ _ _ _ A1 B1) as [Q1 Q1'].
  rewrite (not_sub _ POS _ (time_sub l1 u1 l2 u2 t1 t2 T1 T2)) by (cbn; lra).
  rewrite (not_sub _ POS _ Q0), (not_sub _ POS _ Q1), (not_sub _ NEG _ Q0'), (not_sub _ NEG _ Q1') by (cbn; lra). reflexivity.
Qed.
(** *** velocities *)
Definition fins (x : tube) : Prop := forall s, List.In s x -> exists l u, s_cod s = fin l u.
Lemma fin_fins a b x : tube_ok a b x -> fin_tube a b x -> fins x.
Proof.
  intros Ok Hf s Hs. destruct (chain_in_bounds _ _ _ _ (ok_chain _ _ _ Ok) Hs) as (H1 & H2 & H3).
  apply List.In_nth_error in Hs as (k & E). set (t := (s_lb s + s_ub s) / 2). 
  pose proof (C04_eval_exact a b x k s t Ok E ltac:(unfold t; lra)) as Q.
  destruct (Req_EM_T t (s_lb s)); [unfold t in *; lra|]. destruct (Req_EM_T t (s_ub s)); [unfold t in *; lra|].
  destruct (Hf t) as (l & u & _ & E'); [unfold t; lra|]. exists l, u. congruence.
Qed.
Definition pf (p : itv * itv) : Prop := exists a b c d, p = (fin a b, fin c d).
Lemma pf_padd p w l u : pf p -> pf (padd exact p w (fin l u)).
Proof. intros (a & b & c & d & ->). unfold padd. cbn. eexists _, _, _, _. reflexivity. Qed.
Lemma pf_range p w l u : 0 <= w -> pf p -> pf (padd_range exact p w (fin l u)).
Proof. intros W (a & b & c & d & ->). unfold padd_range, bnd, mk. destruct (Rle_dec 0 w); [|contradiction]. cbn. eexists _, _, _, _. reflexivity. Qed.
Lemma pf_phull p q : pf p -> pf q -> pf (phull p q).
Proof. intros (a & b & c & d & ->) (a' & b' & c' & d' & ->). unfold phull. cbn. eexists _, _, _, _. reflexivity. Qed.
Lemma dom_width s a b w w' : inter (s_dom s) (bnd a b) = Itv w w' -> 0 <= hi (Itv w w') - lo (Itv w w').
Proof.
  unfold s_dom, bnd, mk. destruct (Rle_dec a b); [|discriminate]. cbn. destruct (Rle_dec _ _); [|discriminate]. intros [= <- <-]. cbn. lra.
Qed.
Lemma pint_pf a tl tu : forall x c b p u, chain_from c x b -> fins x -> pf p -> pf u -> pf (pint_loop exact a tl tu x p u).
Proof.
  induction x as [|s x IH]; intros c b p u Hc Hx Hp Hu; cbn [pint_loop]; auto. destruct (negb _); auto.
  destruct (Hx s) as (l & h & E); [left; auto|]. rewrite E. cbn [is_empty is_unbounded fin].
  assert (Hx' : fins x) by (intros s' Hs'; apply Hx; right; auto). destruct Hc as (_ & Hs & Hc).
  destruct (inter (s_dom s) (bnd a tl)) as [|w1 w1'] eqn:E1.
  - destruct (inter (s_dom s) (bnd tl tu)) as [|w2 w2'] eqn:E2; [eapply IH; eauto|].
    pose proof (dom_width _ _ _ _ _ E2) as W.
    eapply IH; eauto; [apply pf_phull; auto; apply pf_range; auto|apply pf_padd; auto].
  - cbv zeta iota beta. destruct (Reqb _ _); [apply pf_padd; auto|].
    destruct (inter (s_dom s) (bnd tl tu)) as [|w2 w2'] eqn:E2; [eapply IH; eauto; apply pf_padd; auto|].
    pose proof (dom_width _ _ _ _ _ E2) as W.
    eapply IH; eauto; [apply pf_phull; [apply pf_padd; auto|apply pf_range; auto; apply pf_padd; auto]|apply pf_padd; apply pf_padd; auto].
Qed.
Lemma pint_fin a b x tl tu : tube_ok a b x -> fin_tube a b x -> a <= tl -> tl <= tu -> tu <= b ->
  exists p q r s, partial_integral exact x tl tu = (fin p q, fin r s) /\
    forall t, tl <= t <= tu -> p <= area lo x t <= q /\ r <= area hi x t <= s.
Proof.
  intros Ok Ff H1 H2 H3. pose proof (fin_fins a b x Ok Ff) as Hx.
  assert (K : pf (partial_integral exact x tl tu)).
  { unfold partial_integral. eapply pint_pf; eauto; [apply (ok_chain _ _ _ Ok)| |]; exists 0, 0, 0, 0; reflexivity. }
  destruct K as (p & q & r & s & E). exists p, q, r, s. split; auto. intros t Ht.
  destruct (partial_integral_ok exact exact_ok a b x tl tu Ok H1 H2 H3) as [[_ F]|[F|[_ F]]]; rewrite E in F; try discriminate.
  destruct (F t Ht) as [A B]. cbn in A, B. auto.
Qed.
Lemma fins_until a b x t : tube_ok a b x -> fin_tube a b x -> bounded_until x t.
Proof.
  intros Ok Ff s Hs _. destruct (fin_fins a b x Ok Ff s Hs) as (l & u & E). exists l, u. exact E.
Qed.

Lemma v_bounds a b x f F t1 t2 : tube_ok a b x -> fin_tube a b x -> has x f -> follows a b F f -> a <= t1 -> t1 <= t2 -> t2 <= b ->
  area lo x t2 - area lo x t1 <= F t2 - F t1 <= area hi x t2 - area hi x t1.
Proof.
  intros Ok Ff Hf HF H1 H2 H3. apply (area_bounds f F x a b); auto; [apply (ok_chain _ _ _ Ok)| |apply (fins_until a b); auto].
  apply (rises_all f F a b); auto. apply (ok_chain _ _ _ Ok).
Qed.
Lemma xsub_fin p q r s : xsub (fin p q) (fin r s) = fin (p - s) (q - r).
Proof. reflexivity. Qed.
Lemma integ1 a b x l1 u1 l2 u2 t1 t2 : tube_ok a b x -> fin_tube a b x -> a <= l1 -> u1 <= b -> a <= l2 -> u2 <= b ->
  l1 <= t1 <= u1 -> l2 <= t2 <= u2 -> t1 < t2 -> both_ways_v a b x t1 t2 ->
  exists p q, lbound (xsub (fst (partial_integral exact x l2 u2)) (fst (partial_integral exact x l1 u1))) = Some p /\ p < 0 /\
    ubound (xsub (snd (partial_integral exact x l2 u2)) (snd (partial_integral exact x l1 u1))) = Some q /\ 0 < q.
Proof.
  intros Ok Ff H1 H2 H3 H4 T1 T2 Lt ((f & F & Hf & HF & LF) & (g & G & Hg & HG & LG)).
  destruct (pint_fin a b x l1 u1) as (p1 & q1 & r1 & s1 & E1 & P1); auto; try lra.
  destruct (pint_fin a b x l2 u2) as (p2 & q2 & r2 & s2 & E2 & P2); auto; try lra.
  rewrite E1, E2. cbn [fst snd]. rewrite !xsub_fin. cbn.
  pose proof (v_bounds a b x f F t1 t2 Ok Ff Hf HF ltac:(lra) ltac:(lra) ltac:(lra)).
  pose proof (v_bounds a b x g G t1 t2 Ok Ff Hg HG ltac:(lra) ltac:(lra) ltac:(lra)).
  destruct (P1 t1 T1). destruct (P2 t2 T2). eexists _, _. split; [reflexivity|]. split; [lra|]. split; [reflexivity|lra].
Qed.
Lemma has_neg i r : In r i -> r < 0 -> forall s, In s i -> 0 < s ->
  match i with Emp => false | Itv l h => match l with Some a => Rltb a 0 | None => true end && match h with Some c => Rltb 0 c | None => true end end = true.
Proof.
  destruct i as [|[l|] [h|]]; cbn; intros H H' s K K'; try contradiction; rewrite ?andb_true_iff; try split; auto; try apply Rltb_true; lra.
Qed.
Lemma speed1 a b x i t1 t2 : tube_ok a b x -> a <= t1 -> t2 <= b -> t1 < t2 -> (forall t, t1 <= t <= t2 -> In t i) ->
  both_ways_v a b x t1 t2 -> (exists r, In r (eval_itv x i) /\ r < 0) /\ (exists r, In r (eval_itv x i) /\ 0 < r).
Proof.
  intros Ok H1 H2 Lt Hi ((f & F & Hf & HF & LF) & (g & G & Hg & HG & LG)).
  assert (K : forall f F, has x f -> follows a b F f -> In ((F t2 - F t1) / (t2 - t1)) (eval_itv x i)).
  { intros f' F' A B. apply (B _ t1 t2 H1 H2); try lra. intros t Ht. apply (C04_eval_interval a b x f'); auto. apply Hi. lra. }
  split; [exists ((G t2 - G t1) / (t2 - t1))|exists ((F t2 - F t1) / (t2 - t1))]; (split; [eauto|]).
  - assert (0 < (G t1 - G t2) / (t2 - t1)) by (apply Rdiv_lt_0_compat; lra).
    replace ((G t2 - G t1) / (t2 - t1)) with (- ((G t1 - G t2) / (t2 - t1))) by (field; lra). lra.
  - apply Rdiv_lt_0_compat; lra.
Qed.
Lemma interior2 i j : (exists r, In r i /\ r < 0) -> (exists r, In r i /\ 0 < r) -> (exists r, In r j /\ r < 0) -> (exists r, In r j /\ 0 < r) ->
  interior0 [i; j] = true.
Proof.
  intros (r1 & A1 & B1) (r2 & A2 & B2) (r3 & A3 & B3) (r4 & A4 & B4). unfold interior0. cbn [forallb b_is_empty].
  rewrite (has_neg i r1 A1 B1 r2 A2 B2), (has_neg j r3 A3 B3 r4 A4 B4).
  destruct i; [contradiction|]. reflexivity.
Qed.
Lemma hull_span l1 u1 l2 u2 t1 t2 : l1 <= t1 <= u1 -> l2 <= t2 <= u2 -> forall t, t1 <= t <= t2 -> In t (hull (bnd l1 u1) (bnd l2 u2)).
Proof.
  intros H1 H2 t Ht. apply (In_convex t1 t t2); auto; [apply In_hull_l|apply In_hull_r]; apply In_bnd; auto.
Qed.
Lemma derivative_keeps a b i l1 u1 l2 u2 t1 t2 : inputs_ok a b i -> tp_der i = true -> a <= l1 -> u1 <= b -> a <= l2 -> u2 <= b ->
  l1 <= t1 <= u1 -> l2 <= t2 <= u2 -> robust a b i t1 t2 -> derivative_out i l1 u1 l2 u2 = false.
Proof.
  intros (_ & _ & Hv) D H1 H2 H3 H4 T1 T2 (Lt & _ & Rv). destruct (Hv D) as [Lv Ov]. specialize (Rv D). unfold derivative_out.
  destruct (tp_v i) as [|x0 [|x1 [|? ?]]]; try discriminate.
  inversion Ov as [|? ? [O0 F0] Ov']; subst. inversion Ov' as [|? ? [O1 F1] _]; subst.
  inversion Rv as [|? ? R0 Rv']; subst. inversion Rv' as [|? ? R1 _]; subst.
  rewrite (not_sub _ POS _ (time_sub l1 u1 l2 u2 t1 t2 T1 T2)) by (cbn; lra). cbn [map].
  pose proof (hull_span l1 u1 l2 u2 t1 t2 T1 T2) as Sp.
  destruct (speed1 a b x0 (hull (bnd l1 u1) (bnd l2 u2)) t1 t2) as [S0 S0']; auto; try lra.
  destruct (speed1 a b x1 (hull (bnd l1 u1) (bnd l2 u2)) t1 t2) as [S1 S1']; auto; try lra.
  rewrite (interior2 _ _ S0 S0' S1 S1'). unfold tp_integ, tp_pint. cbn [map fst snd].
  destruct (integ1 a b x0 l1 u1 l2 u2 t1 t2) as (p0 & q0 & E0 & P0 & E0' & Q0); auto.
  destruct (integ1 a b x1 l1 u1 l2 u2 t1 t2) as (p1 & q1 & E1 & P1 & E1' & Q1); auto.
  rewrite E0, E0', E1, E1'. unfold vec_box. cbn [map].
  assert (X : interior0 (b_hull [pt p0; pt p1] [pt q0; pt q1]) = true); [|rewrite X; reflexivity].
  unfold b_hull, b_is_empty, pt. cbn [map2].
  apply interior2; [exists p0|exists q0|exists p1|exists q1]; (split; [|lra]);
    solve [apply In_hull_l; apply In_pt; reflexivity|apply In_hull_r; apply In_pt; reflexivity].
Qed.
(** *** the tree *)
Definition within (a b : R) (n : tpl) : Prop := forall v c, node v c n -> square a b c.
Lemma init_square a b i c : square a b c -> tp_init i c = c.
Proof. intros (l1 & u1 & l2 & u2 & -> & _). reflexivity. Qed.
Lemma class_out a b i prec l1 u1 l2 u2 t1 t2 : inputs_ok a b i -> a <= l1 -> u1 <= b -> a <= l2 -> u2 <= b ->
  l1 <= t1 <= u1 -> l2 <= t2 <= u2 -> robust a b i t1 t2 -> tp_class i prec l1 u1 l2 u2 <> Some V_OUT.
Proof.
  intros Hi H1 H2 H3 H4 T1 T2 Hr. unfold tp_class. rewrite (primitive_keeps a b i l1 u1 l2 u2 t1 t2) by auto.
  assert (D : tp_der i && derivative_out i l1 u1 l2 u2 = false).
  { destruct (tp_der i) eqn:D; auto. cbn. apply (derivative_keeps a b i l1 u1 l2 u2 t1 t2); auto. }
  rewrite D. cbn [orb]. destruct (tp_der i && derivative_in i l1 u1 l2 u2 && primitive_in i l1 u1 l2 u2); [discriminate|]. destruct (Rltb _ _); discriminate.
Qed.
Lemma detect_out a b i prec bis : inputs_ok a b i -> bis_in bis -> forall fuel n n' t1 t2, within a b n ->
  tp_detect i prec bis fuel n = Some n' -> robust a b i t1 t2 -> in_out n' t1 t2 -> in_out n t1 t2.
Proof.
  intros Hi Hb. induction fuel as [|fuel IH]; intros n n' t1 t2 Hw E Hr Ho; [discriminate|]. cbn [tp_detect] in E.
  destruct n as [v c|v c l r].
  - assert (Sq : square a b c) by (apply (Hw v); constructor). rewrite (init_square a b) in E by auto.
    destruct (N.eqb v V_OUT) eqn:Ev; [injection E as <-; auto|].
    pose proof Sq as (l1 & u1 & l2 & u2 & -> & S1 & S2 & S3 & S4 & S5 & S6). unfold fin in E at 1 2.
    destruct (tp_class i prec l1 u1 l2 u2) as [w|] eqn:Ec.
    + injection E as <-. destruct Ho as (c & Hn & Hc). exfalso. inversion Hn; subst.
      inversion Hc as [|? ? ? ? T1 Hc']; subst. inversion Hc' as [|? ? ? ? T2 _]; subst.
      apply (class_out a b i prec l1 u1 l2 u2 t1 t2); auto.
    + fold (fin l1 u1) in E. fold (fin l2 u2) in E. destruct (Hb a b _ Sq) as (B1 & B2 & B3).
      destruct (tp_detect _ _ _ _ (TpLeaf v (fst _))) as [l|] eqn:El; [|discriminate].
      destruct (tp_detect _ _ _ _ (TpLeaf v (snd _))) as [r|] eqn:Er; [|discriminate]. injection E as <-.
      destruct Ho as (c & Hn & Hc). 
      assert (Nv : forall d, ~ in_out (TpLeaf v d) t1 t2).
      { intros d (d' & Hd & _). inversion Hd; subst. rewrite N.eqb_refl in Ev. discriminate. }
      assert (Wl : forall d, square a b d -> within a b (TpLeaf v d)) by (intros d Hd w e He; inversion He; subst; auto).
      inversion Hn; subst; [rewrite N.eqb_refl in Ev; discriminate| |].
      * exfalso. apply (Nv (fst (bis [fin l1 u1; fin l2 u2]))). eapply IH; eauto. exists c. auto.
      * exfalso. apply (Nv (snd (bis [fin l1 u1; fin l2 u2]))). eapply IH; eauto. exists c. auto.
  - assert (Sq : square a b c) by (apply (Hw v); constructor). rewrite (init_square a b) in E by auto.
    destruct (N.eqb v V_OUT) eqn:Ev; [injection E as <-; auto|].
    destruct (tp_detect _ _ _ _ l) as [l'|] eqn:El; [|discriminate].
    destruct (tp_detect _ _ _ _ r) as [r'|] eqn:Er; [|discriminate]. injection E as <-.
    assert (Wl : within a b l) by (intros w d Hd; apply (Hw w); constructor; auto).
    assert (Wr : within a b r) by (intros w d Hd; apply (Hw w); apply nd_r; auto).
    destruct Ho as (d & Hn & Hd). inversion Hn; subst; [rewrite N.eqb_refl in Ev; discriminate| |].
    + destruct (IH l l' t1 t2) as (e & He & He'); auto; [exists d; auto|]. exists e. split; auto. constructor; auto.
    + destruct (IH r r' t1 t2) as (e & He & He'); auto; [exists d; auto|]. exists e. split; auto. apply nd_r; auto.
Qed.

(** ** Theorems *)

(** The full claim of C54 -- no loop [(t1,t2)] is put in an OUT node -- is false (C54_refuted, C54_unbounded_refuted).
    It holds for the pairs for which the tubes let the robot move both ways in each dimension, for bounded tubes. *)
Theorem C54_loops_kept_partial : forall a b i prec bis fuel n n' t1 t2, inputs_ok a b i -> bis_in bis -> within a b n ->
  tp_detect i prec bis fuel n = Some n' -> robust a b i t1 t2 -> in_out n' t1 t2 -> in_out n t1 t2.
Proof. intros a b i prec bis fuel n n' t1 t2 Hi Hb Hw E. apply (detect_out a b i prec bis Hi Hb fuel n n' t1 t2 Hw E). Qed.

(** on a fresh plane, over boxes of the domain or over the unbounded box of the constructor, no robust pair is discarded *)
Lemma detect_init i prec bis fuel v c : tp_init i (tp_init i c) = tp_init i c ->
  tp_detect i prec bis fuel (TpLeaf v c) = tp_detect i prec bis fuel (TpLeaf v (tp_init i c)).
Proof. intros E. destruct fuel; auto. cbn [tp_detect]. rewrite E. reflexivity. Qed.
Lemma init_unb a b i c : inputs_ok a b i -> existsb is_unbounded c = true -> tp_init i c = [fin a b; fin a b] /\ a <= b.
Proof.
  intros (Lp & Op & _) E. unfold tp_init. rewrite E. destruct (tp_p i) as [|x p]; [discriminate|].
  inversion Op as [|? ? [Ok _] _]; subst. pose proof (ok_chain _ _ _ Ok) as Hc. pose proof (ok_ne _ _ _ Ok) as Ne.
  rewrite (chain_t0 _ _ _ Hc Ne), (chain_tf _ _ _ Hc Ne). cbv zeta. pose proof (chain_from_le _ _ _ Hc).
  unfold bnd, mk. destruct (Rle_dec a b); [|lra]. split; [reflexivity|lra].
Qed.
Theorem C54_fresh_partial : forall a b i prec bis fuel c n' t1 t2, inputs_ok a b i -> bis_in bis ->
  square a b c \/ existsb is_unbounded c = true ->
  tp_detect i prec bis fuel (TpLeaf V_UNKNOWN c) = Some n' -> robust a b i t1 t2 -> ~ in_out n' t1 t2.
Proof.
  intros a b i prec bis fuel c n' t1 t2 Hi Hb Hc E Hr Ho.
  assert (K : exists d, square a b d /\ tp_detect i prec bis fuel (TpLeaf V_UNKNOWN d) = Some n').
  { destruct Hc as [Sq|U]; [eauto|]. destruct (init_unb a b i c Hi U) as [Ed L]. exists [fin a b; fin a b].
    split; [exists a, b, a, b; repeat split; lra|]. rewrite <- E. rewrite (detect_init i prec bis fuel V_UNKNOWN c); rewrite Ed; reflexivity. }
  destruct K as (d & Sq & Ed).
  destruct (detect_out a b i prec bis Hi Hb fuel (TpLeaf V_UNKNOWN d) n' t1 t2) as (e & He & _); auto.
  { intros w e He. inversion He; subst. auto. }
  inversion He.
Qed.

(** the leaves still cover the plane *)
Definition covers (n : tpl) (p : list R) : Prop := exists v c, leaf v c n /\ inb p c.
Theorem C54_cover : forall a b i prec bis fuel n n' p, bis_in bis -> within a b n ->
  tp_detect i prec bis fuel n = Some n' -> covers n p -> covers n' p.
Proof.
  intros a b i prec bis. induction fuel as [|fuel IH]; intros n n' p Hb Hw E Hc; [discriminate|]. cbn [tp_detect] in E.
  destruct n as [v c|v c l r].
  - assert (Sq : square a b c) by (apply (Hw v); constructor). rewrite (init_square a b) in E by auto.
    assert (Hp : inb p c) by (destruct Hc as (w & d & Hd & Hp); inversion Hd; subst; auto).
    destruct (N.eqb v V_OUT) eqn:Ev; [injection E as <-; auto|].
    pose proof Sq as (l1 & u1 & l2 & u2 & -> & S1 & S2 & S3 & S4 & S5 & S6). unfold fin in E at 1 2.
    destruct (tp_class i prec l1 u1 l2 u2) as [w|] eqn:Ec.
    + injection E as <-. exists w, [fin l1 u1; fin l2 u2]. split; auto. constructor.
    + fold (fin l1 u1) in E. fold (fin l2 u2) in E. destruct (Hb a b _ Sq) as (B1 & B2 & B3).
      destruct (tp_detect _ _ _ _ (TpLeaf v (fst _))) as [l|] eqn:El; [|discriminate].
      destruct (tp_detect _ _ _ _ (TpLeaf v (snd _))) as [r|] eqn:Er; [|discriminate]. injection E as <-.
      assert (Wl : forall d, square a b d -> within a b (TpLeaf v d)) by (intros d Hd w e He; inversion He; subst; auto).
      apply B3 in Hp. destruct Hp as [Hp|Hp].
      * destruct (IH (TpLeaf v (fst (bis [fin l1 u1; fin l2 u2]))) l p) as (w & d & H & H'); auto;
          [eexists _, _; split; [constructor|auto]|]. exists w, d. split; auto. apply lf_l; auto.
      * destruct (IH (TpLeaf v (snd (bis [fin l1 u1; fin l2 u2]))) r p) as (w & d & H & H'); auto;
          [eexists _, _; split; [constructor|auto]|]. exists w, d. split; auto. apply lf_r; auto.
  - assert (Sq : square a b c) by (apply (Hw v); constructor). rewrite (init_square a b) in E by auto.
    destruct (N.eqb v V_OUT) eqn:Ev; [injection E as <-; auto|].
    destruct (tp_detect _ _ _ _ l) as [l'|] eqn:El; [|discriminate].
    destruct (tp_detect _ _ _ _ r) as [r'|] eqn:Er; [|discriminate]. injection E as <-.
    assert (Wl : within a b l) by (intros w d Hd; apply (Hw w); constructor; auto).
    assert (Wr : within a b r) by (intros w d Hd; apply (Hw w); apply nd_r; auto).
    destruct Hc as (w & d & Hd & Hp). inversion Hd; subst.
    + destruct (IH l l' p) as (w' & d' & H & H'); auto; [exists w, d; auto|]. exists w', d'. split; auto. apply lf_l; auto.
    + destruct (IH r r' p) as (w' & d' & H & H'); auto; [exists w, d; auto|]. exists w', d'. split; auto. apply lf_r; auto.
Qed.

(** an IN leaf: the first instant is before the second one, and the tubes of positions allow the same position at both instants,
    in each dimension *)
Definition may_meet (i : tp_in) (t1 t2 : R) : Prop :=
  t1 <= t2 /\ Forall (fun x => exists w, In w (eval_t x t1) /\ In w (eval_t x t2)) (tp_p i).
Lemma strict_in i j r : i_is_strict_subset i j = true -> In r i -> In r j.
Proof. intros H. apply strict_sub. auto. Qed.
Lemma meet1 lo hi lo' hi' x t1 t2 : lo <= hi -> lo' <= hi' -> eval_t x t1 = fin lo hi -> eval_t x t2 = fin lo' hi' -> lo - hi' <= 0 -> 0 <= hi - lo' ->
  exists w, In w (eval_t x t1) /\ In w (eval_t x t2).
Proof.
  intros L L' E E' H H'. exists (Rmax lo lo'). rewrite E, E'. cbn.
  pose proof (Rmax_l lo lo'). pose proof (Rmax_r lo lo'). assert (Rmax lo lo' <= hi /\ Rmax lo lo' <= hi') by (split; apply Rmax_lub; lra). lra.
Qed.
Lemma class_in a b i prec l1 u1 l2 u2 t1 t2 : inputs_ok a b i -> a <= l1 -> u1 <= b -> a <= l2 -> u2 <= b ->
  l1 <= t1 <= u1 -> l2 <= t2 <= u2 -> tp_class i prec l1 u1 l2 u2 = Some V_IN -> may_meet i t1 t2.
Proof.
  intros (Lp & Op & _) H1 H2 H3 H4 T1 T2 E. unfold tp_class in E.
  destruct (_ || _); [discriminate|]. destruct (tp_der i && _ && primitive_in i l1 u1 l2 u2) eqn:P; [|destruct (Rltb _ _); discriminate].
  clear E. apply andb_true_iff in P as [_ P]. unfold primitive_in in P. unfold may_meet.
  destruct (tp_p i) as [|x0 [|x1 [|? ?]]]; try discriminate.
  inversion Op as [|? ? [O0 F0] Op']; subst. inversion Op' as [|? ? [O1 F1] _]; subst.
  destruct (enc_at a b x0 x1 l1 u1 l2 u2) as (i0 & i1 & j0 & j1 & E & Q); auto; try lra. rewrite E in P. cbn [fst snd nth] in P.
  apply andb_true_iff in P as [P P4]. apply andb_true_iff in P as [P P3]. apply andb_true_iff in P as [P P2].
  apply andb_true_iff in P as [P0 P1]. apply (strict_in _ _ (t1 - t2)) in P0; [|apply time_sub; auto]. cbn in P0.
  destruct (Q t1 t2 T1 T2) as [Q0 Q1]. split; [lra|].
  destruct (F0 t1) as (a0 & b0 & L0 & E0); [lra|]. destruct (F0 t2) as (a0' & b0' & L0' & E0'); [lra|].
  destruct (F1 t1) as (a1 & b1 & L1 & E1); [lra|]. destruct (F1 t2) as (a1' & b1' & L1' & E1'); [lra|].
  destruct (Q0 _ _ _ _ E0 E0') as [X0 Y0]. destruct (Q1 _ _ _ _ E1 E1') as [X1 Y1].
  apply (strict_in _ _ _ P1) in X0. apply (strict_in _ _ _ P2) in X1. apply (strict_in _ _ _ P3) in Y0. apply (strict_in _ _ _ P4) in Y1.
  cbn in X0, X1, Y0, Y1.
  constructor; [|constructor; [|constructor]]; [apply (meet1 a0 b0 a0' b0')|apply (meet1 a1 b1 a1' b1')]; auto; lra.
Qed.
Theorem C54_in : forall a b i prec bis fuel n n' c t1 t2, inputs_ok a b i -> bis_in bis -> within a b n -> (forall d, ~ node V_OUT d n) ->
  tp_detect i prec bis fuel n = Some n' -> leaf V_IN c n' -> inb [t1; t2] c -> may_meet i t1 t2.
Proof.
  intros a b i prec bis. induction fuel as [|fuel IH]; intros n n' c0 t1 t2 Hi Hb Hw No E Hl Hp; [discriminate|]. cbn [tp_detect] in E.
  destruct n as [v c|v c l r].
  - assert (Sq : square a b c) by (apply (Hw v); constructor). rewrite (init_square a b) in E by auto.
    destruct (N.eqb v V_OUT) eqn:Ev; [apply N.eqb_eq in Ev; subst; destruct (No c); constructor|].
    pose proof Sq as (l1 & u1 & l2 & u2 & -> & S1 & S2 & S3 & S4 & S5 & S6). unfold fin in E at 1 2.
    destruct (tp_class i prec l1 u1 l2 u2) as [w|] eqn:Ec.
    + injection E as <-. inversion Hl; subst. inversion Hp as [|? ? ? ? T1 Hp']; subst. inversion Hp' as [|? ? ? ? T2 _]; subst.
      apply (class_in a b i prec l1 u1 l2 u2 t1 t2); auto.
    + fold (fin l1 u1) in E. fold (fin l2 u2) in E. destruct (Hb a b _ Sq) as (B1 & B2 & B3).
      destruct (tp_detect _ _ _ _ (TpLeaf v (fst _))) as [l|] eqn:El; [|discriminate].
      destruct (tp_detect _ _ _ _ (TpLeaf v (snd _))) as [r|] eqn:Er; [|discriminate]. injection E as <-.
      assert (Wl : forall d, square a b d -> within a b (TpLeaf v d)) by (intros d Hd w e He; inversion He; subst; auto).
      assert (Nl : forall d e, ~ node V_OUT e (TpLeaf v d)) by (intros d e He; inversion He; subst; rewrite N.eqb_refl in Ev; discriminate).
      inversion Hl; subst; [apply (IH _ l c0) with (5 := El)|apply (IH _ r c0) with (5 := Er)]; auto.
  - assert (Sq : square a b c) by (apply (Hw v); constructor). rewrite (init_square a b) in E by auto.
    destruct (N.eqb v V_OUT) eqn:Ev; [apply N.eqb_eq in Ev; subst; destruct (No c); constructor|].
    destruct (tp_detect _ _ _ _ l) as [l'|] eqn:El; [|discriminate].
    destruct (tp_detect _ _ _ _ r) as [r'|] eqn:Er; [|discriminate]. injection E as <-.
    assert (Wl : within a b l) by (intros w d Hd; apply (Hw w); constructor; auto).
    assert (Wr : within a b r) by (intros w d Hd; apply (Hw w); apply nd_r; auto).
    inversion Hl; subst; [apply (IH l l' c0)|apply (IH r r' c0)]; auto; intros d Hd; apply (No d); [constructor|apply nd_r]; auto.
Qed.

(** ** The full claim is false: a robot that does not move *)
Definition rest : tube := [mkS 0 1 (I2 0 0) (I2 0 0) (I2 0 0)].
Definition still (der : bool) : tp_in := mkTP [rest; rest] [rest; rest] der.
Lemma rest_ok : tube_ok 0 1 rest. Proof. tube_ok_tac. Qed.
Lemma rest_eval t : 0 <= t <= 1 -> eval_t rest t = fin 0 0.
Proof.
  intros H. rewrite (C04_eval_exact 0 1 rest 0 (mkS 0 1 (I2 0 0) (I2 0 0) (I2 0 0)) t rest_ok) by (auto; cbn; lra).
  destruct (Req_EM_T _ _); [|destruct (Req_EM_T _ _)]; reflexivity.
Qed.
Lemma rest_fin : fin_tube 0 1 rest.
Proof. intros t Ht. exists 0, 0. split; [lra|]. apply rest_eval; auto. Qed.
Lemma still_ok der : inputs_ok 0 1 (still der).
Proof. pose proof rest_ok. pose proof rest_fin. refine (conj eq_refl (conj _ (fun _ => conj eq_refl _))); repeat (constructor; auto). Qed.
Theorem C54_refuted : exists i, inputs_ok 0 1 i /\ loop 0 1 i (1/4) (3/4) /\
  forall prec bis n, tp_detect i prec bis 1 (TpLeaf V_UNKNOWN [fin 0 1; fin 0 1]) = Some n -> in_out n (1/4) (3/4).
Proof.
  exists (still true). split; [apply still_ok|]. split.
  - split; [lra|]. exists [(fun _ => 0); (fun _ => 0)].
    assert (Hz : has rest (fun _ => 0)) by has_tac.
    split; [constructor; [exact Hz|constructor; [exact Hz|constructor]]|].
    split; [constructor; [reflexivity|constructor; [reflexivity|constructor]]|]. intros _. exists [(fun _ => 0); (fun _ => 0)].
    split; [constructor; [exact Hz|constructor; [exact Hz|constructor]]|].
    assert (follows 0 1 (fun _ => 0) (fun _ => 0)).
    { intros V lb ub _ _ HV t1 t2 T1 T2 T3. replace ((0 - 0) / (t2 - t1)) with 0 by (field; lra). apply (HV ((t1 + t2) / 2)). lra. }
    constructor; [auto|constructor; [auto|constructor]].
  - intros prec bis n E. cbn [tp_detect] in E. rewrite (init_square 0 1) in E by (exists 0, 1, 0, 1; repeat split; lra).
    change (N.eqb V_UNKNOWN V_OUT) with false in E. cbv iota in E. unfold fin in E at 1 2.
    assert (C : tp_class (still true) prec 0 1 0 1 = Some V_OUT).
    { unfold tp_class. replace (primitive_out (still true) 0 1 0 1) with true; [rewrite orb_true_r; reflexivity|].
      symmetry. unfold primitive_out.
      unfold tp_enc, tp_eval. cbn [still tp_p map fst snd].
      assert (Eb : eval_bounds rest 0 1 = (fin 0 0, fin 0 0)).
      { unfold eval_bounds, rest. cbn. reval. unfold slice_eval_bounds, s_dom. cbn. reval. unfold fin. repeat f_equal; lra. }
      rewrite Eb. cbn. apply orb_true_iff. right. unfold i_is_strict_subset. cbn. reval. reflexivity. }
    rewrite C in E. injection E as <-. exists [fin 0 1; fin 0 1]. split; [constructor|].
    constructor; [cbn; lra|]. constructor; [cbn; lra|constructor].
Qed.

(** also for tubes that let the robot move both ways, when they are unbounded *)
Definition loose : tube := [mkS 0 1 ALL ALL ALL].
Definition unbounded_in : tp_in := mkTP [loose; loose] [] false.
Theorem C54_unbounded_refuted : exists i, length (tp_p i) = 2%nat /\ Forall (tube_ok 0 1) (tp_p i) /\ tp_der i = false /\
  loop 0 1 i (1/4) (3/4) /\ robust 0 1 i (1/4) (3/4) /\
  forall prec bis n, tp_detect i prec bis 1 (TpLeaf V_UNKNOWN [fin 0 1; fin 0 1]) = Some n -> in_out n (1/4) (3/4).
Proof.
  exists unbounded_in. assert (Ok : tube_ok 0 1 loose) by tube_ok_tac.
  assert (Hz : forall f, has loose f). { intros f. apply has_cons. split; [repeat split; intros; cbn; auto|apply has_nil]. }
  split; [reflexivity|]. split; [constructor; [auto|constructor; [auto|constructor]]|]. split; [reflexivity|]. split; [|split].
  - split; [lra|]. exists [(fun _ => 0); (fun _ => 0)]. split; [constructor; [apply Hz|constructor; [apply Hz|constructor]]|].
    split; [constructor; [reflexivity|constructor; [reflexivity|constructor]]|discriminate].
  - assert (B : both_ways loose (1/4) (3/4)).
    { split; [exists (fun t => t)|exists (fun t => - t)]; (split; [apply Hz|lra]). }
    split; [lra|]. split; [constructor; [auto|constructor; [auto|constructor]]|discriminate].
  - intros prec bis n E. cbn [tp_detect] in E. rewrite (init_square 0 1) in E by (exists 0, 1, 0, 1; repeat split; lra).
    change (N.eqb V_UNKNOWN V_OUT) with false in E. cbv iota in E. unfold fin in E at 1 2.
    assert (C : tp_class unbounded_in prec 0 1 0 1 = Some V_OUT).
    { unfold tp_class. replace (primitive_out unbounded_in 0 1 0 1) with true; [rewrite orb_true_r; reflexivity|].
      symmetry. unfold primitive_out. unfold tp_enc, tp_eval. cbn [unbounded_in tp_p map fst snd].
      assert (Eb : eval_bounds loose 0 1 = (Emp, Emp)).
      { unfold eval_bounds, loose. cbn. reval. unfold slice_eval_bounds, s_dom. cbn. reval. reflexivity. }
      rewrite Eb. cbn. apply orb_true_iff. right. reflexivity. }
    rewrite C in E. injection E as <-. exists [fin 0 1; fin 0 1]. split; [constructor|].
    constructor; [cbn; lra|]. constructor; [cbn; lra|constructor].
Qed.

(** ** A concrete case: tubes [[-1,1]] over [[0,1]] *)
Definition wide : tube := [mkS 0 1 (I2 (-1) 1) (I2 (-1) 1) (I2 (-1) 1)].
Definition free : tp_in := mkTP [wide; wide] [wide; wide] true.
Definition halve (c : box) : box * box :=
  match c with
  | [Itv (Some l1) (Some u1); Itv (Some l2) (Some u2)] => ([fin l1 ((l1 + u1) / 2); fin l2 u2], [fin ((l1 + u1) / 2) u1; fin l2 u2])
  | _ => (c, c)
  end.
Lemma halve_in : bis_in halve.
Proof.
  intros a b c (l1 & u1 & l2 & u2 & -> & H). cbn [halve fin fst snd]. fold (fin l1 u1).
  split; [exists l1, ((l1 + u1) / 2), l2, u2; repeat split; lra|]. split; [exists ((l1 + u1) / 2), u1, l2, u2; repeat split; lra|].
  intros p. split.
  - intros [K|K]; inversion K as [|x ? ? ? K1 K2]; subst; constructor; auto; cbn in K1 |- *; lra.
  - intros K. inversion K as [|x ? ? ? K1 K2]; subst. cbn in K1. destruct (Rle_dec x ((l1 + u1) / 2)); [left|right]; constructor; auto; cbn; lra.
Qed.
Lemma wide_ok : tube_ok 0 1 wide. Proof. tube_ok_tac. Qed.
Lemma wide_fin : fin_tube 0 1 wide.
Proof.
  intros t H. exists (-1), 1. split; [lra|]. rewrite (C04_eval_exact 0 1 wide 0 (mkS 0 1 (I2 (-1) 1) (I2 (-1) 1) (I2 (-1) 1)) t wide_ok) by (auto; cbn; lra).
  destruct (Req_EM_T _ _); [|destruct (Req_EM_T _ _)]; reflexivity.
Qed.
Lemma free_ok : inputs_ok 0 1 free.
Proof. pose proof wide_ok. pose proof wide_fin. refine (conj eq_refl (conj _ (fun _ => conj eq_refl _))); repeat (constructor; auto). Qed.
Lemma linear_follows k : follows 0 1 (fun t => k * t) (fun _ => k).
Proof.
  intros V lb ub _ _ HV t1 t2 T1 T2 T3. replace ((k * t2 - k * t1) / (t2 - t1)) with k by (field; lra). apply (HV ((t1 + t2) / 2)). lra.
Qed.
Lemma free_robust : robust 0 1 free (1/4) (3/4).
Proof.
  split; [lra|]. assert (B : both_ways wide (1/4) (3/4)).
  { split; [exists (fun t => (1 * t - 1/2))|exists (fun t => (1/2 - t))]; (split; [has_tac|lra]). }
  assert (C : both_ways_v 0 1 wide (1/4) (3/4)).
  { split; [exists (fun _ => 1), (fun t => 1 * t)|exists (fun _ => -1), (fun t => (-1) * t)]; (split; [has_tac|split; [apply linear_follows|lra]]). }
  split; [|intros _]; constructor; [auto|constructor; [auto|constructor]|auto|constructor; [auto|constructor]].
Qed.
Example C54_example : exists n, tp_detect free (3/2) halve 3 (TpLeaf V_UNKNOWN [ALL; ALL]) = Some n /\ ~ in_out n (1/4) (3/4).
Proof.
  destruct (tp_detect free (3/2) halve 3 (TpLeaf V_UNKNOWN [ALL; ALL])) as [n|] eqn:E.
  - exists n. split; auto. apply (C54_fresh_partial 0 1 free (3/2) halve 3 [ALL; ALL]); auto using free_ok, halve_in, free_robust.
  - exfalso. cbn [tp_detect] in E. destruct (init_unb 0 1 free [ALL; ALL] free_ok eq_refl) as [Ei _]. rewrite Ei in E.
    change (N.eqb V_UNKNOWN V_OUT) with false in E. cbv iota in E. unfold fin in E at 1 2.
    unfold tp_class in E. assert (Rltb (Rmax (1 - 0) (1 - 0)) (3/2) = true) as W by (rewrite Rmax_left by lra; apply Rltb_true; lra).
    rewrite W in E. destruct (_ || _); [discriminate|]. destruct (_ && _); discriminate.
Qed.
(** a box of the plane that is given the value IN *)
Lemma feq a b c d a' b' c' d' : a = a' -> b = b' -> c = c' -> d = d' -> (fin a b, fin c d) = (fin a' b', fin c' d').
Proof. intros -> -> -> ->. reflexivity. Qed.
Example C54_example_in : tp_detect free (1/8) halve 1 (TpLeaf V_UNKNOWN [fin 0 (1/4); fin (3/4) 1]) = Some (TpLeaf V_IN [fin 0 (1/4); fin (3/4) 1]).
Proof.
  assert (B1 : eval_bounds wide 0 (1/4) = (fin (-1) (-1), fin 1 1)).
  { unfold eval_bounds, wide. cbn. reval. unfold slice_eval_bounds, s_dom. cbn. reval. unfold fin. repeat f_equal; lra. }
  assert (B2 : eval_bounds wide (3/4) 1 = (fin (-1) (-1), fin 1 1)).
  { unfold eval_bounds, wide. cbn. reval. unfold slice_eval_bounds, s_dom. cbn. reval. unfold fin. repeat f_equal; lra. }
  assert (P1 : partial_integral exact wide 0 (1/4) = (fin (-1/4) 0, fin 0 (1/4))).
  { unfold partial_integral, wide. cbn [pint_loop t0 s_lb s_ub s_cod hd]. unfold s_dom, bnd; cbn [s_lb s_ub]. unfold mk. cbn. reval. unfold phull, padd, padd_range, bnd, mk. cbn. reval. unfold min4, max4. apply feq; reval; lra. }
  assert (P2 : partial_integral exact wide (3/4) 1 = (fin (-1) (-3/4), fin (3/4) 1)).
  { unfold partial_integral, wide. cbn [pint_loop t0 s_lb s_ub s_cod hd]. unfold s_dom, bnd; cbn [s_lb s_ub]. unfold mk. cbn. reval. unfold phull, padd, padd_range, bnd, mk. cbn. reval. unfold min4, max4. apply feq; reval; lra. }
  cbn [tp_detect]. rewrite (init_square 0 1) by (exists 0, (1/4), (3/4), 1; repeat split; lra).
  change (N.eqb V_UNKNOWN V_OUT) with false. cbv iota. unfold fin at 1 2.
  enough (C : tp_class free (1/8) 0 (1/4) (3/4) 1 = Some V_IN) by (rewrite C; reflexivity).
  assert (R : robust 0 1 free (1/8) (7/8)).
  { split; [lra|]. assert (B : both_ways wide (1/8) (7/8)).
    { split; [exists (fun t => (1 * t - 1/2))|exists (fun t => (1/2 - t))]; (split; [has_tac|lra]). }
    assert (C : both_ways_v 0 1 wide (1/8) (7/8)).
    { split; [exists (fun _ => 1), (fun t => 1 * t)|exists (fun _ => -1), (fun t => (-1) * t)]; (split; [has_tac|split; [apply linear_follows|lra]]). }
    split; [|intros _]; constructor; [auto|constructor; [auto|constructor]|auto|constructor; [auto|constructor]]. }
  unfold tp_class.
  rewrite (primitive_keeps 0 1 free 0 (1/4) (3/4) 1 (1/8) (7/8)) by (auto using free_ok; lra).
  rewrite (derivative_keeps 0 1 free 0 (1/4) (3/4) 1 (1/8) (7/8)) by (auto using free_ok; lra).
  unfold free. cbn [tp_der andb orb]. unfold derivative_in, primitive_in, tp_pint, tp_enc, tp_eval. cbn [tp_v tp_p map fst snd]. rewrite B1, B2, P1, P2.
  unfold m_is_strict_subset, i_is_strict_subset, bnd, mk. cbn. reval. unfold i_is_strict_subset. cbn. reval. reflexivity.
Qed.

Print Assumptions C54_loops_kept_partial.
Print Assumptions C54_fresh_partial.
Print Assumptions C54_cover.
Print Assumptions C54_in.
Print Assumptions C54_refuted.
Print Assumptions C54_unbounded_refuted.
