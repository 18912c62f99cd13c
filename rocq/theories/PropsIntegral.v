(** * C12: integrals of tubes *)

From Coq Require Import Reals Lra Bool List Psatz.
From Coquelicot Require Import Coquelicot.
Import ListNotations.
From Verif Require Import Itv Arith Tube TubeSpec TubeFacts Concrete DynSpec Integral.
Open Scope R_scope.

(** ** Lower and upper staircase primitives *)
Definition clamp (l u t : R) : R := Rmax l (Rmin t u).
Fixpoint area (sel : itv -> R) (x : tube) (t : R) : R :=
  match x with
  | [] => 0
  | s :: r => (clamp (s_lb s) (s_ub s) t - s_lb s) * sel (s_cod s) + area sel r t
  end.
Lemma clamp_in l u t : l <= u -> l <= clamp l u t <= u.
Proof. intros H. unfold clamp. split; [apply Rmax_l|apply Rmax_lub; auto; apply Rmin_r]. Qed.
Lemma clamp_mono l u t t' : t <= t' -> clamp l u t <= clamp l u t'.
Proof.
  intros H. unfold clamp. apply Rmax_lub; [apply Rmax_l|]. apply Rle_trans with (2 := Rmax_r _ _).
  apply Rle_min_compat_r; auto.
Qed.
Lemma clamp_id l u t : l <= t <= u -> clamp l u t = t.
Proof. intros H. unfold clamp. rewrite Rmin_left, Rmax_right; lra. Qed.
Lemma clamp_lo l u t : t <= l -> l <= u -> clamp l u t = l.
Proof. intros H H'. unfold clamp. rewrite Rmin_left, Rmax_left; lra. Qed.
Lemma clamp_hi l u t : u <= t -> l <= u -> clamp l u t = u.
Proof. intros H H'. unfold clamp. rewrite Rmin_right, Rmax_right; lra. Qed.

(** bounded codomain of the slices that start before [t] *)
Definition bounded_until (x : tube) (t : R) : Prop :=
  forall s, List.In s x -> s_lb s < t -> exists l h, s_cod s = Itv (Some l) (Some h).
Lemma bounded_cod i : is_empty i = false -> is_unbounded i = false -> exists l h, i = Itv (Some l) (Some h).
Proof. destruct i as [|[l|] [h|]]; try discriminate. eauto. Qed.

Lemma chain_le : forall x a b, chain_from a x b -> a <= b.
Proof. induction x as [|s r IH]; intros a b H; cbn in H; [lra|]. destruct H as (E & Hs & Hr). apply IH in Hr. lra. Qed.
Lemma area_zero sel : forall x a b t, chain_from a x b -> t <= a -> area sel x t = 0.
Proof.
  induction x as [|s r IH]; intros a b t H Ht; cbn in *; auto. destruct H as (E & Hs & Hr).
  rewrite clamp_lo by lra. rewrite (IH _ _ _ Hr) by lra. lra.
Qed.

Lemma rises_ge F y l h t1 t2 : rises F y l h -> l <= t1 -> t1 <= t2 -> t2 <= h -> forall a b, y = Itv (Some a) (Some b) ->
  (t2 - t1) * a <= F t2 - F t1 <= (t2 - t1) * b.
Proof.
  intros H H1 H2 H3 a b ->. destruct (Req_dec t1 t2) as [->|Hn]; [lra|].
  destruct (rises_step F _ l h t1 t2 H) as (p & Hp & E); try lra. cbn in Hp. rewrite E. nra.
Qed.

Lemma area_bounds f F : forall x a b t1 t2, chain_from a x b -> (forall s, List.In s x -> rises F (s_cod s) (s_lb s) (s_ub s)) ->
  has x f -> a <= t1 -> t1 <= t2 -> t2 <= b -> bounded_until x t2 ->
  area lo x t2 - area lo x t1 <= F t2 - F t1 <= area hi x t2 - area hi x t1.
Proof.
  induction x as [|s r IH]; intros a b t1 t2 Hc Hr Hf H1 H2 H3 Hb; cbn [area chain_from] in *.
  { replace t2 with t1 by lra. lra. }
  destruct Hc as (E & Hs & Hc). subst a.
  assert (Hr' : forall s0, List.In s0 r -> rises F (s_cod s0) (s_lb s0) (s_ub s0)) by (intros; apply Hr; right; auto).
  assert (Hf' : has r f) by (intros s0 H0; apply Hf; right; auto).
  assert (Hb' : bounded_until r t2) by (intros s0 H0; apply Hb; right; auto).
  pose proof (chain_le _ _ _ Hc) as Hle.
  set (c1 := clamp (s_lb s) (s_ub s) t1). set (c2 := clamp (s_lb s) (s_ub s) t2).
  assert (C1 : s_lb s <= c1 <= s_ub s) by (apply clamp_in; lra).
  assert (C2 : s_lb s <= c2 <= s_ub s) by (apply clamp_in; lra).
  assert (C12 : c1 <= c2) by (apply clamp_mono; auto).
  (* contribution of this slice *)
  assert (K : (c2 - c1) * lo (s_cod s) <= F c2 - F c1 <= (c2 - c1) * hi (s_cod s)).
  { destruct (Rle_lt_dec t2 (s_lb s)) as [Hl|Hl].
    - assert (c2 = s_lb s) by (apply clamp_lo; lra). assert (c1 = s_lb s) by lra. replace c1 with c2 by lra. lra.
    - destruct (Hb s (or_introl eq_refl) Hl) as (l & h & Ey). rewrite Ey. cbn [lo hi].
      apply (rises_ge F (s_cod s) (s_lb s) (s_ub s)); auto; try lra. apply Hr. left; auto. }
  (* contribution of the next slices *)
  set (d1 := Rmax (s_ub s) t1). set (d2 := Rmax (s_ub s) t2).
  assert (G : area lo r d2 - area lo r d1 <= F d2 - F d1 <= area hi r d2 - area hi r d1).
  { apply (IH (s_ub s) b); auto; unfold d1, d2.
    - apply Rmax_l.
    - apply Rle_max_compat_l; auto.
    - apply Rmax_lub; lra.
    - intros s0 H0 Hl. destruct (Rle_lt_dec t2 (s_lb s0)) as [Hx|Hx]; [|apply Hb'; auto].
      assert (Rmax (s_ub s) t2 = s_ub s) by (unfold Rmax in *; destruct (Rle_dec (s_ub s) t2); lra).
      exfalso. assert (s_ub s <= s_lb s0); [|lra]. clear - Hc H0. revert Hc H0. generalize (s_ub s).
      induction r as [|s1 r IH]; intros a Hc H0; [destruct H0|]. destruct Hc as (E & Hs & Hc). destruct H0 as [->|H0]; [lra|].
      apply (IH _ Hc) in H0. lra. }
  assert (A1 : forall sel t, area sel r (Rmax (s_ub s) t) = area sel r t).
  { intros sel t. destruct (Rle_lt_dec t (s_ub s)); [|rewrite Rmax_right; lra].
    rewrite Rmax_left by lra. rewrite !(area_zero sel r (s_ub s) b) by (auto; lra). auto. }
  unfold d1, d2 in G. rewrite !A1 in G. fold d1 d2 in G.
  assert (T : F t2 - F t1 = (F c2 - F c1) + (F d2 - F d1)).
  { assert (T' : forall t, s_lb s <= t -> F t = F (clamp (s_lb s) (s_ub s) t) + F (Rmax (s_ub s) t) - F (s_ub s)).
    { intros t Ht. destruct (Rle_lt_dec t (s_ub s)).
      - rewrite clamp_id by lra. rewrite Rmax_left by lra. lra.
      - rewrite clamp_hi by lra. rewrite Rmax_right by lra. lra. }
    rewrite (T' t1), (T' t2) by lra. unfold c1, c2, d1, d2. lra. }
  lra.
Qed.

(** ** The loop *)
Section Loop.
  Variable A : arith.
  Hypothesis HA : arith_ok A.
  Lemma padd_in p w y l h : In l (fst p) -> In h (snd p) -> In (l + w * lo y) (fst (padd A p w y)) /\ In (h + w * hi y) (snd (padd A p w y)).
  Proof. intros H1 H2. split; cbn; apply (iadd_in A HA); auto; cbn; lra. Qed.
  Lemma padd_range_in p w y l h d : In l (fst p) -> In h (snd p) -> 0 <= d <= w ->
    In (l + d * lo y) (fst (padd_range A p w y)) /\ In (h + d * hi y) (snd (padd_range A p w y)).
  Proof.
    intros H1 H2 Hd. split; cbn; apply (iadd_in A HA); auto; apply (imul_in A HA); [apply In_bnd; lra|cbn; lra|apply In_bnd; lra|cbn; lra].
  Qed.

  Variables a0 tl tu : R.
  Hypothesis Htl : a0 <= tl.
  Hypothesis Htu : tl <= tu.
  Definition encl (p : itv * itv) (L U : R) : Prop := In L (fst p) /\ In U (snd p).

  (** [L], [U]: the staircase primitives of the whole tube.  Outcome of the loop: an abnormal value because of an
      empty or unbounded slice, or enclosures. *)
  Variables L U : R -> R.
  Definition pint_ok (x : tube) (r : itv * itv) : Prop :=
    ((exists s, List.In s x /\ s_lb s < tu /\ s_cod s = Emp) /\ r = (Emp, Emp)) \/ r = (ALL, ALL) \/
    (bounded_until x tu /\ forall t, tl <= t <= tu -> encl r (L t) (U t)).

  Lemma inter_case l u c d : l < u -> c <= d -> inter (Itv (Some l) (Some u)) (bnd c d) = Emp /\ (d < l \/ u < c) \/
    inter (Itv (Some l) (Some u)) (bnd c d) = Itv (Some (Rmax l c)) (Some (Rmin u d)) /\ Rmax l c <= Rmin u d.
  Proof.
    intros H H'. unfold bnd, mk. destruct (Rle_dec c d); [|lra]. cbn. unfold mk. destruct (Rle_dec (Rmax l c) (Rmin u d)) as [Hd|Hd]; auto.
    left. split; auto. unfold Rmax, Rmin in Hd. repeat destruct (Rle_dec _ _); lra.
  Qed.

  Lemma pint_loop_ok b : forall x c p u, chain_from c x b -> a0 <= c -> tu <= b ->
    (forall t, c <= t <= b -> L t = L c + area lo x t /\ U t = U c + area hi x t) ->
    (c <= tl -> encl p (L c) (U c)) ->
    (tl < c -> (c < tu -> encl u (L c) (U c)) /\ forall t, tl <= t <= tu -> t <= c -> encl p (L t) (U t)) ->
    pint_ok x (pint_loop A a0 tl tu x p u).
  Proof.
    induction x as [|s r IH]; intros c p u Hc Ha Hb HL H1 H2; cbn [pint_loop].
    { cbn in Hc. right; right. split; [intros s []|]. intros t Ht.
      destruct (Rle_lt_dec c tl); [replace t with c by lra; auto|apply H2; lra]. }
    cbn [chain_from] in Hc. destruct Hc as (E & Hs & Hc). subst c.
    destruct (Rltb (s_lb s) tu) eqn:El; cbn [negb].
    2:{ apply Rltb_false in El. right; right. split.
        - intros s0 H0 Hl. exfalso. assert (s_lb s <= s_lb s0); [|lra].
          destruct H0 as [->|H0]; [lra|]. clear - Hc H0 Hs. assert (s_ub s <= s_lb s0); [|lra]. clear Hs. revert Hc H0. generalize (s_ub s).
          induction r as [|s1 r IH]; intros a Hc H0; [destruct H0|]. destruct Hc as (E & Hs & Hc). destruct H0 as [->|H0]; [lra|].
          apply (IH _ Hc) in H0. lra.
        - intros t Ht. destruct (Rle_lt_dec (s_lb s) tl); [replace t with (s_lb s) by lra; auto|apply H2; lra]. }
    apply Rltb_true in El.
    destruct (is_empty (s_cod s)) eqn:Ee.
    { apply is_empty_true in Ee. left. split; auto. exists s. split; [left; auto|auto]. }
    destruct (is_unbounded (s_cod s)) eqn:Eu; [right; left; auto|].
    assert (Hbs := bounded_cod _ Ee Eu).
    pose proof (chain_le _ _ _ Hc) as Hle.
    (* values inside the slice *)
    assert (Hin : forall t, s_lb s <= t <= s_ub s -> L t = L (s_lb s) + (t - s_lb s) * lo (s_cod s) /\ U t = U (s_lb s) + (t - s_lb s) * hi (s_cod s)).
    { intros t Ht. destruct (HL t) as (E1 & E2); [lra|]. rewrite E1, E2. cbn [area]. rewrite clamp_id by lra.
      rewrite !(area_zero _ r (s_ub s) b) by (auto; lra). lra. }
    assert (HL' : forall t, s_ub s <= t <= b -> L t = L (s_ub s) + area lo r t /\ U t = U (s_ub s) + area hi r t).
    { intros t Ht. destruct (HL t) as (E1 & E2); [lra|]. destruct (Hin (s_ub s)) as (E3 & E4); [lra|]. rewrite E1, E2, E3, E4. cbn [area].
      rewrite clamp_hi by lra. lra. }
    assert (Hnext : forall p u,
      (s_ub s <= tl -> encl p (L (s_ub s)) (U (s_ub s))) ->
      (tl < s_ub s -> (s_ub s < tu -> encl u (L (s_ub s)) (U (s_ub s))) /\ forall t, tl <= t <= tu -> t <= s_ub s -> encl p (L t) (U t)) ->
      pint_ok (s :: r) (pint_loop A a0 tl tu r p u)).
    { intros p' u' H1' H2'. destruct (IH (s_ub s) p' u' Hc ltac:(lra) Hb HL' H1' H2') as [((s0 & H0 & H3) & ->)|[->|(H3 & H4)]].
      - left. split; auto. exists s0. split; [right; auto|auto].
      - right; left; auto.
      - right; right. split; auto. intros s0 [<-|H0] Hl; auto. }
    destruct (inter_case (s_lb s) (s_ub s) a0 tl Hs Htl) as [(E1 & D1)|(E1 & D1)]; unfold s_dom; rewrite E1.
    - (* the slice is after tl *)
      assert (Hgt : tl < s_lb s) by lra. destruct (H2 Hgt) as (Hu & Hp). specialize (Hu El).
      destruct (inter_case (s_lb s) (s_ub s) tl tu Hs Htu) as [(E2 & D2)|(E2 & D2)]; rewrite E2; [lra|]. cbn [lo hi].
      rewrite Rmax_left in * by lra.
      set (d := Rmin (s_ub s) tu - s_lb s). pose proof (Rmin_l (s_ub s) tu) as M1. pose proof (Rmin_r (s_ub s) tu) as M2.
      assert (Hrange : forall t, s_lb s <= t -> t <= Rmin (s_ub s) tu -> encl (padd_range A u d (s_cod s)) (L t) (U t)).
      { intros t Ht Ht'. destruct (Hin t) as (-> & ->); [lra|]. apply padd_range_in; try apply Hu. unfold d. lra. }
      apply Hnext; [lra|]. intros _. split.
      + intros Hut. destruct (Hin (s_ub s)) as (-> & ->); [lra|]. unfold d. rewrite Rmin_left by lra. apply padd_in; apply Hu.
      + intros t Ht Ht'. destruct (Rle_lt_dec t (s_lb s)).
        * destruct (Hp t Ht) as (P1 & P2); [lra|]. split; [apply In_hull_l|apply In_hull_l]; auto.
        * destruct (Hrange t) as (P1 & P2); [lra|unfold Rmin; destruct (Rle_dec _ _); lra|]. split; [apply In_hull_r|apply In_hull_r]; auto.
    - (* the slice starts before tl *)
      rewrite Rmax_left in D1 |- * by lra. cbn [lo hi].
      pose proof (Rmin_l (s_ub s) tl) as M1. pose proof (Rmin_r (s_ub s) tl) as M2.
      assert (Hlt : s_lb s <= tl) by lra. specialize (H1 Hlt).
      set (p' := padd A p (Rmin (s_ub s) tl - s_lb s) (s_cod s)).
      assert (Hp' : encl p' (L (Rmin (s_ub s) tl)) (U (Rmin (s_ub s) tl))).
      { destruct (Hin (Rmin (s_ub s) tl)) as (-> & ->); [lra|]. apply padd_in; apply H1. }
      destruct (Reqb (Rmin (s_ub s) tl) tu) eqn:Es.
      { apply Reqb_true in Es. right; right. split.
        - intros s0 [<-|H0] Hl; auto. exfalso. assert (s_ub s <= s_lb s0); [|lra]. clear - Hc H0. revert Hc H0. generalize (s_ub s).
          induction r as [|s1 r IH]; intros a Hc H0; [destruct H0|]. destruct Hc as (E & Hs & Hc). destruct H0 as [->|H0]; [lra|].
          apply (IH _ Hc) in H0. lra.
        - intros t Ht. replace t with (Rmin (s_ub s) tl) by lra. auto. }
      destruct (inter_case (s_lb s) (s_ub s) tl tu Hs Htu) as [(E2 & D2)|(E2 & D2)]; rewrite E2.
      + rewrite Rmin_left in Hp' by lra. apply Hnext; [auto|lra].
      + cbn [lo hi]. rewrite Rmax_right in * by lra. pose proof (Rmin_l (s_ub s) tu) as M3. pose proof (Rmin_r (s_ub s) tu) as M4.
        rewrite Rmin_right in Hp' by lra.
        set (d := Rmin (s_ub s) tu - tl).
        assert (Hstep : forall t, tl <= t <= s_ub s -> L t = L tl + (t - tl) * lo (s_cod s) /\ U t = U tl + (t - tl) * hi (s_cod s)).
        { intros t Ht. destruct (Hin t) as (-> & ->); [lra|]. destruct (Hin tl) as (-> & ->); [lra|]. split; ring. }
        apply Hnext.
        * intros Hu. replace (s_ub s) with tl by lra. split; apply In_hull_l; apply Hp'.
        * intros Hu. split.
          -- intros Hut. destruct (Hstep (s_ub s)) as (-> & ->); [lra|]. unfold d. rewrite Rmin_left by lra. apply padd_in; apply Hp'.
          -- intros t Ht Ht'. destruct (Hstep t) as (-> & ->); [lra|].
             assert (Ht2 : t <= Rmin (s_ub s) tu) by (unfold Rmin; destruct (Rle_dec _ _); lra).
             destruct (padd_range_in p' d (s_cod s) (L tl) (U tl) (t - tl) (proj1 Hp') (proj2 Hp')) as (P1 & P2); [unfold d; lra|].
             split; apply In_hull_r; auto.
  Qed.
End Loop.

(** ** C12 *)
Lemma In_not_empty i v : In v i -> is_empty i = false.
Proof. destruct i; cbn; tauto. Qed.
Lemma rises_all f F a b x : chain_from a x b -> has x f -> follows a b F f ->
  forall s, List.In s x -> rises F (s_cod s) (s_lb s) (s_ub s).
Proof.
  intros Hc Hf HF s Hs. destruct (chain_in_bounds _ _ _ _ Hc Hs) as (H1 & H2 & H3).
  apply HF; auto. apply Hf. auto.
Qed.
Lemma partial_integral_ok A : arith_ok A -> forall a b x tl tu, tube_ok a b x -> a <= tl -> tl <= tu -> tu <= b ->
  pint_ok tl tu (area lo x) (area hi x) x (partial_integral A x tl tu).
Proof.
  intros HA a b x tl tu Ok H1 H2 H3. unfold partial_integral.
  pose proof (ok_chain _ _ _ Ok) as Hc. assert (E : t0 x = a).
  { destruct x as [|s r]; [destruct (ok_ne _ _ _ Ok); auto|]. apply Hc. }
  rewrite E. apply (pint_loop_ok A HA a tl tu H1 H2 (area lo x) (area hi x) b x a); auto; try lra.
  - intros t Ht. rewrite !(area_zero _ x a b a) by (auto; lra). lra.
  - intros _. rewrite !(area_zero _ x a b a) by (auto; lra). split; cbn; lra.
Qed.
Lemma has_not_empty a b x f s : tube_ok a b x -> has x f -> List.In s x -> s_cod s <> Emp.
Proof.
  intros Ok Hf Hs E. destruct (chain_in_bounds _ _ _ _ (ok_chain _ _ _ Ok) Hs) as (H1 & H2 & H3).
  destruct (Hf s Hs) as (_ & _ & Hin). specialize (Hin ((s_lb s + s_ub s) / 2)). rewrite E in Hin. apply Hin. lra.
Qed.
Lemma lo_le_of i v : is_unbounded i = false -> In v i -> lo i <= v.
Proof. destruct i as [|[l|] [h|]]; cbn; try discriminate; tauto. Qed.
Lemma hi_ge_of i v : is_unbounded i = false -> In v i -> v <= hi i.
Proof. destruct i as [|[l|] [h|]]; cbn; try discriminate; tauto. Qed.
Lemma hull_pts u v w : u <= w <= v -> In w (hull (pt u) (pt v)).
Proof. intros H. cbn. unfold mk. rewrite Rmin_left, Rmax_right by lra. cbn. lra. Qed.

(** [F] is a primitive of the trajectory [f] on the domain of the tube: the value from [t0] to [t]. *)
Theorem C12_integral : forall A a b x f F tl tu t, arith_ok A -> tube_ok a b x -> has x f -> follows a b F f ->
  a <= tl -> tl <= t <= tu -> tu <= b ->
  In (F t - F a) (integral A x tl tu).
Proof.
  intros A a b x f F tl tu t HA Ok Hf HF H1 H2 H3. unfold integral.
  destruct (partial_integral_ok A HA a b x tl tu Ok H1 ltac:(lra) H3) as [((s & Hs & _ & Es) & _)|[->|(Hb & He)]].
  - destruct (has_not_empty _ _ _ _ _ Ok Hf Hs Es).
  - cbn. auto.
  - unfold from_bounds. destruct (He t H2) as (E1 & E2). set (p := partial_integral A x tl tu) in *.
    repeat (erewrite In_not_empty by eassumption). cbn [orb].
    destruct (is_unbounded (fst p)) eqn:U1; [cbn; auto|]. destruct (is_unbounded (snd p)) eqn:U2; [cbn; auto|]. cbn [orb].
    assert (Hb' : bounded_until x t) by (intros s Hs Hl; apply Hb; auto; lra).
    pose proof (area_bounds f F x a b a t (ok_chain _ _ _ Ok) (rises_all f F a b x (ok_chain _ _ _ Ok) Hf HF) Hf ltac:(lra) ltac:(lra) ltac:(lra) Hb') as B.
    rewrite !(area_zero _ x a b a) in B by (try apply (ok_chain _ _ _ Ok); lra).
    pose proof (lo_le_of _ _ U1 E1). pose proof (hi_ge_of _ _ U2 E2). apply hull_pts. lra.
Qed.

(** the value between two instants, the first before the second; the bounds may be intervals *)
Definition no_overflow (A : arith) : Prop :=
  forall i j, is_unbounded i = false -> is_unbounded j = false -> is_unbounded (isub A i j) = false.
Theorem C12_between : forall A a b x f F l1 u1 l2 u2 t1 t2, arith_ok A -> no_overflow A -> tube_ok a b x -> has x f -> follows a b F f ->
  a <= l1 -> l1 <= t1 <= u1 -> u1 <= b -> a <= l2 -> l2 <= t2 <= u2 -> u2 <= b -> t1 <= t2 ->
  In (F t2 - F t1) (integral2 A x l1 u1 l2 u2).
Proof.
  intros A a b x f F l1 u1 l2 u2 t1 t2 HA HO Ok Hf HF H1 H2 H3 H4 H5 H6 H12. unfold integral2.
  destruct (partial_integral_ok A HA a b x l1 u1 Ok H1 ltac:(lra) H3) as [((s & Hs & _ & Es) & _)|[->|(Hb1 & He1)]].
  { destruct (has_not_empty _ _ _ _ _ Ok Hf Hs Es). }
  { cbn. destruct (partial_integral_ok A HA a b x l2 u2 Ok H4 ltac:(lra) H6) as [((s & Hs & _ & Es) & _)|[->|(Hb2 & He2)]].
    - destruct (has_not_empty _ _ _ _ _ Ok Hf Hs Es).
    - cbn. auto.
    - destruct (He2 t2 H5) as (E1 & E2). repeat (erewrite In_not_empty by eassumption). cbn. auto. }
  destruct (partial_integral_ok A HA a b x l2 u2 Ok H4 ltac:(lra) H6) as [((s & Hs & _ & Es) & _)|[->|(Hb2 & He2)]].
  { destruct (has_not_empty _ _ _ _ _ Ok Hf Hs Es). }
  { cbn. destruct (He1 t1 H2) as (E1 & E2). repeat (erewrite In_not_empty by eassumption). cbn. rewrite orb_true_r. cbn. auto. }
  destruct (He1 t1 H2) as (E1 & E2). destruct (He2 t2 H5) as (E3 & E4).
  set (p1 := partial_integral A x l1 u1) in *. set (p2 := partial_integral A x l2 u2) in *.
  repeat (erewrite In_not_empty by eassumption). cbn [orb].
  destruct (is_unbounded (fst p1)) eqn:U1; [cbn; auto|]. destruct (is_unbounded (snd p1)) eqn:U2; [cbn; auto|].
  destruct (is_unbounded (fst p2)) eqn:U3; [cbn; auto|]. destruct (is_unbounded (snd p2)) eqn:U4; [cbn; auto|]. cbn [orb].
  assert (Hb' : bounded_until x t2) by (intros s Hs Hl; apply Hb2; auto; lra).
  pose proof (area_bounds f F x a b t1 t2 (ok_chain _ _ _ Ok) (rises_all f F a b x (ok_chain _ _ _ Ok) Hf HF) Hf ltac:(lra) ltac:(lra) ltac:(lra) Hb') as B.
  pose proof (lo_le_of _ _ (HO _ _ U3 U1) (isub_in A HA _ _ _ _ E3 E1)).
  pose proof (hi_ge_of _ _ (HO _ _ U4 U2) (isub_in A HA _ _ _ _ E4 E2)). apply hull_pts. lra.
Qed.

(** ** The integral of Riemann *)
Lemma follows_RInt a b f : ex_RInt f a b -> a <= b -> follows a b (fun t => RInt f a t) f.
Proof.
  intros Hex Hab V lb ub Ha Hb HV t1 t2 H1 H2 H3.
  assert (E1 : ex_RInt f a t1) by (apply (ex_RInt_Chasles_1 f a t1 b); [lra|exact Hex]).
  assert (E2 : ex_RInt f t1 b) by (apply (ex_RInt_Chasles_2 f a t1 b); [lra|exact Hex]).
  assert (E3 : ex_RInt f t1 t2) by (apply (ex_RInt_Chasles_1 f t1 t2 b); [lra|exact E2]).
  assert (C : RInt f a t2 - RInt f a t1 = RInt f t1 t2).
  { pose proof (RInt_Chasles f a t1 t2 E1 E3) as C.
    change (RInt f a t1 + RInt f t1 t2 = RInt f a t2) in C. rewrite <- C. ring. }
  rewrite C. destruct V as [|l h].
  - apply (HV ((t1 + t2) / 2)). lra.
  - assert (B : forall v, RInt (fun _ => v) t1 t2 = (t2 - t1) * v).
    { intros v. rewrite RInt_const. reflexivity. }
    split.
    + destruct l as [l|]; cbn; auto.
      apply (Rmult_le_reg_r (t2 - t1)); [lra|]. unfold Rdiv. rewrite Rmult_assoc, Rinv_l by lra.
      rewrite Rmult_1_r. rewrite Rmult_comm, <- B. apply RInt_le; auto; [lra|apply ex_RInt_const|].
      intros t Ht. apply (HV t). lra.
    + destruct h as [h|]; cbn; auto.
      apply (Rmult_le_reg_r (t2 - t1)); [lra|]. unfold Rdiv. rewrite Rmult_assoc, Rinv_l by lra.
      rewrite Rmult_1_r. rewrite (Rmult_comm h), <- B. apply RInt_le; auto; [lra|apply ex_RInt_const|].
      intros t Ht. apply (HV t). lra.
Qed.
Theorem C12_riemann : forall A a b x f tl tu t, arith_ok A -> tube_ok a b x -> has x f -> ex_RInt f a b ->
  a <= tl -> tl <= t <= tu -> tu <= b ->
  In (RInt f a t) (integral A x tl tu).
Proof.
  intros A a b x f tl tu t HA Ok Hf Hex H1 H2 H3.
  pose proof (C12_integral A a b x f (fun t => RInt f a t) tl tu t HA Ok Hf (follows_RInt a b f Hex ltac:(lra)) H1 H2 H3) as H.
  cbv beta in H. rewrite RInt_point in H. change (In (RInt f a t - 0) (integral A x tl tu)) in H. rewrite Rminus_0_r in H. auto.
Qed.

(** ** Both orders of the bounds

    The last line [Interval(lb) | ub] swaps the ends when t2 is before t1.  With degenerate bounds and no
    rounding this is right. *)
Lemma pint_loop_pt a t b : forall x c l h u, chain_from c x b -> a <= c -> c <= t ->
  let r := pint_loop exact a t t x (pt l, pt h) u in
  r = (Emp, Emp) \/ r = (ALL, ALL) \/ exists l' h', r = (pt l', pt h').
Proof.
  induction x as [|s r IH]; intros c l h u Hc Ha Hct; cbn [pint_loop]; eauto.
  destruct Hc as (E & Hs & Hc). subst c. destruct (Rltb (s_lb s) t) eqn:El; cbn [negb]; eauto. apply Rltb_true in El.
  destruct (is_empty (s_cod s)); auto. destruct (is_unbounded (s_cod s)); auto.
  pose proof (Rmin_l (s_ub s) t) as M1. pose proof (Rmin_r (s_ub s) t) as M2.
  assert (M0 : s_lb s <= Rmin (s_ub s) t) by (apply Rmin_glb; lra).
  assert (E1 : inter (s_dom s) (bnd a t) = Itv (Some (s_lb s)) (Some (Rmin (s_ub s) t))).
  { unfold s_dom, bnd, mk. destruct (Rle_dec (s_lb s) (s_ub s)); [|lra]. destruct (Rle_dec a t); [|lra]. cbn. unfold mk.
    rewrite Rmax_left by lra. destruct (Rle_dec _ _); auto. lra. }
  rewrite E1. cbn [lo hi].
  destruct (Reqb (Rmin (s_ub s) t) t) eqn:Es.
  - right; right. eexists _, _. reflexivity.
  - apply Reqb_false in Es. assert (s_ub s < t) by (unfold Rmin in Es; destruct (Rle_dec _ _); lra).
    assert (E2 : inter (s_dom s) (bnd t t) = Emp).
    { unfold s_dom, bnd, mk. destruct (Rle_dec (s_lb s) (s_ub s)); [|lra]. destruct (Rle_dec t t); [|lra]. cbn. unfold mk.
      rewrite Rmax_right, Rmin_left by lra. destruct (Rle_dec _ _); auto. lra. }
    rewrite E2. apply (IH (s_ub s)); auto; lra.
Qed.
Theorem C12_degenerate : forall a b x f F t1 t2, tube_ok a b x -> has x f -> follows a b F f ->
  a <= t1 <= b -> a <= t2 <= b ->
  In (F t2 - F t1) (integral2 exact x t1 t1 t2 t2).
Proof.
  intros a b x f F t1 t2 Ok Hf HF H1 H2.
  destruct (Rle_lt_dec t1 t2) as [Hle|Hlt].
  { apply (C12_between exact a b x f F t1 t1 t2 t2); auto; try lra; [apply exact_ok|].
    intros [|[l|] [h|]] [|[l'|] [h'|]]; cbn; congruence. }
  assert (E : t0 x = a) by (destruct x as [|s r]; [destruct (ok_ne _ _ _ Ok); auto|apply (ok_chain _ _ _ Ok)]).
  assert (P : forall t, a <= t <= b -> partial_integral exact x t t = (ALL, ALL) \/
            bounded_until x t /\ partial_integral exact x t t = (pt (area lo x t), pt (area hi x t))).
  { intros t Ht. pose proof (partial_integral_ok exact exact_ok a b x t t Ok ltac:(lra) ltac:(lra) ltac:(lra)) as K.
    pose proof (pint_loop_pt a t b x a 0 0 (pt 0, pt 0) (ok_chain _ _ _ Ok) ltac:(lra) ltac:(lra)) as Q.
    assert (E' : pint_loop exact a t t x (pt 0, pt 0) (pt 0, pt 0) = partial_integral exact x t t) by (unfold partial_integral; rewrite E; auto).
    cbv zeta in Q. rewrite E' in Q.
    destruct K as [((s & Hs & _ & Es) & _)|[->|(Hb & He)]]; auto.
    { destruct (has_not_empty _ _ _ _ _ Ok Hf Hs Es). }
    destruct (He t ltac:(lra)) as (E1 & E2). destruct Q as [Q|[Q|(l & h & Q)]]; rewrite Q in *.
    - destruct E1.
    - auto.
    - right. split; auto. cbn in E1, E2. f_equal; unfold pt; repeat f_equal; lra. }
  unfold integral2. destruct (P t1 H1) as [P1|(B1 & P1)].
  { rewrite P1. destruct (P t2 H2) as [P2|(B2 & P2)]; rewrite P2; cbn; auto. }
  rewrite P1. destruct (P t2 H2) as [P2|(B2 & P2)]; rewrite P2; [cbn; auto|].
  pose proof (area_bounds f F x a b t2 t1 (ok_chain _ _ _ Ok) (rises_all f F a b x (ok_chain _ _ _ Ok) Hf HF) Hf ltac:(lra) ltac:(lra) ltac:(lra) B1) as B.
  cbn. unfold Rmin, Rmax. destruct (Rle_dec _ _); lra.
Qed.

(** With interval bounds and t2 before t1 the result does not enclose the values: x = [0,1] over [0,2], first
    bound [1,2], second bound 0.  The code returns [-1,0]; the trajectory 1 from 2 to 0 gives -2. *)
Definition xU : tube := [mkS 0 2 (I2 0 1) (I2 0 1) (I2 0 1)].
Theorem C12_reversed_refuted : exists a b x f F l1 u1 l2 u2 t1 t2, tube_ok a b x /\ has x f /\ derivative_on a b F f /\
  a <= l1 /\ l1 <= t1 <= u1 /\ u1 <= b /\ a <= l2 /\ l2 <= t2 <= u2 /\ u2 <= b /\
  ~ In (F t2 - F t1) (integral2 exact x l1 u1 l2 u2).
Proof.
  exists 0, 2, xU, (fun _ => 1), (fun t => t), 1, 2, 0, 0, 2, 0.
  split; [tube_ok_tac|]. split; [has_tac|]. split.
  { split; intros t Ht; [apply derivable_continuous, derivable_id|apply derivable_pt_lim_id]. }
  do 6 (split; [lra|]).
  assert (E : integral2 exact xU 1 2 0 0 = I2 (-1) 0).
  { unfold integral2, partial_integral, xU. cbn [pint_loop t0 s_lb s_ub s_cod hd]. unfold s_dom, bnd; cbn [s_lb s_ub]. unfold mk. cbn. reval. unfold bnd, mk, min4, max4, I2; cbn; reval.
    repeat f_equal; lra. }
  rewrite E. cbn. lra.
Qed.

(** ** Instances of the hypotheses *)
Definition FA (t : R) : R := t * t / 2 + t / 2.
Lemma FA_deriv : derivative_on 0 2 FA fA.
Proof.
  assert (D : forall t, derivable_pt_lim FA t (fA t)).
  { intros t. unfold FA, fA. apply is_derive_Reals. auto_derive; auto. field. }
  split; intros t _; auto. apply derivable_continuous_pt. exists (fA t). apply D.
Qed.
Example C12_example : forall t, 1/2 <= t <= 1 -> In (FA t) (integral exact tA (1/2) 1).
Proof.
  intros t Ht. replace (FA t) with (FA t - FA 0) by (unfold FA; lra).
  apply (C12_integral exact 0 2 tA fA FA); try lra; [apply exact_ok|apply tA_ok|apply tA_fA|apply follows_derivative, FA_deriv].
Qed.
Example C12_value : integral exact tA 1 1 = I2 0 2.
Proof.
  unfold integral, partial_integral, tA. cbn [pint_loop t0 s_lb s_ub s_cod hd]. unfold s_dom, bnd; cbn [s_lb s_ub]. unfold mk. cbn. reval. unfold I2; repeat f_equal; lra.
Qed.
Example C12_example_degenerate : In (FA (1/2) - FA 2) (integral2 exact tA 2 2 (1/2) (1/2)).
Proof. apply (C12_degenerate 0 2 tA fA FA); try lra; [apply tA_ok|apply tA_fA|apply follows_derivative, FA_deriv]. Qed.
Example C12_example_riemann : In (RInt fA 0 1) (integral exact tA 1 1).
Proof.
  apply (C12_riemann exact 0 2 tA fA 1 1 1); try lra; [apply exact_ok|apply tA_ok|apply tA_fA|].
  apply (ex_RInt_continuous fA). intros t _. apply continuity_pt_filterlim. unfold fA. apply derivable_continuous. reg.
Qed.

Print Assumptions C12_integral.
Print Assumptions C12_between.
Print Assumptions C12_riemann.
Print Assumptions C12_degenerate.
Print Assumptions C12_reversed_refuted.
