(** * Properties of [TubePolynomialSynthesis] (C99) *)
From Coq Require Import Reals Lra Psatz Bool List Arith Lia.
From Verif Require Import Itv Arith Tube TubeSpec TubeFacts TubeOps TubeOpsFacts TubeOpsFacts2 Concrete Geometry PropsGeom TubeQueries2 PolarE PolySynth.
Import ListNotations.
Open Scope R_scope.

Lemma Reqb_spec a b : reflect (a = b) (Reqb a b).
Proof. unfold Reqb. destruct (Req_EM_T a b); constructor; auto. Qed.

(** ** The factored form *)
Definition q_v (q : qform) (t : R) : R := q_c q * ((t - q_a q) * (t - q_a q)) + q_b q + q_off q.
Lemma q_f_in G q t T : garith_ok G -> In t T -> In (q_v q t) (q_f G q T).
Proof.
  intros [HA _ HS] Ht. unfold q_v, q_f. destruct HA. repeat (apply iadd_in || apply imul_in); try (cbn; lra).
  apply HS. apply isub_in; [auto|cbn; lra].
Qed.

(** what the offset gives at the data *)
Definition above (upper : bool) (w v : R) : Prop := if upper then v <= w else w <= v.
Lemma fold_off upper p : forall d o r, fold_left (offset_step upper p) d o = Some r ->
  (forall o', o = Some o' -> above upper r o') /\ forall t v, List.In (t, v) d -> above upper (p_f p t + r) v.
Proof.
  induction d as [|[t v] d IH]; intros o r H.
  - cbn in H. subst. split; [intros o' E; inversion E; destruct upper; cbn; lra|intros t v []].
  - cbn [fold_left] in H. apply IH in H. destruct H as [H1 H2]. unfold offset_step in H1. cbn [fst snd] in H1.
    destruct o as [o|].
    + specialize (H1 _ eq_refl). split.
      * intros o' E. inversion E; subst. destruct upper; cbn in *; [pose proof (Rmax_l o' (v - p_f p t))|pose proof (Rmin_l o' (v - p_f p t))]; lra.
      * intros t' v' [E|E]; [|auto]. inversion E; subst.
        destruct upper; cbn in *; [pose proof (Rmax_r o (v' - p_f p t'))|pose proof (Rmin_r o (v' - p_f p t'))]; lra.
    + specialize (H1 _ eq_refl). split; [discriminate|]. intros t' v' [E|E]; [|auto]. inversion E; subst.
      destruct upper; cbn in *; lra.
Qed.

Lemma factored_spec fit upper x l u q : l < u -> factoredform fit upper x l u = Some q ->
  exists d, get_bounds upper x l u = Some d /\
    q_c q = snd (fit d) /\ (forall t, q_v q t = p_f (fit d) t + q_off q) /\
    forall t v, List.In (t, v) d -> above upper (q_v q t) v.
Proof.
  intros Hlu. unfold factoredform. destruct (get_bounds upper x l u) as [d|]; [|discriminate].
  destruct (fit d) as [[c0 c1] c2] eqn:EF. destruct (Reqb_spec c2 0) as [|Hc]; [discriminate|].
  set (a := - c1 / (2 * c2)). set (z := if Reqb l a then u else l).
  assert (z <> a) as Hz. { unfold z. destruct (Reqb_spec l a); lra. }
  intros H.
  assert ((p_f (c0, c1, c2) z - p_f (c0, c1, c2) a) / ((z - a) * (z - a)) = c2) as EC.
  { unfold p_f. assert (c1 = - (2 * c2 * a)) as E1 by (unfold a; field; auto). rewrite E1. field. lra. }
  rewrite EC in H.
  assert (forall t o, c2 * ((t - a) * (t - a)) + p_f (c0, c1, c2) a + o = p_f (c0, c1, c2) t + o) as EV.
  { intros t o. unfold p_f. assert (c1 = - (2 * c2 * a)) as E1 by (unfold a; field; auto). rewrite E1. ring. }
  exists d. split; [reflexivity|]. rewrite EF.
  destruct (fold_left (offset_step upper (c0, c1, c2)) d None) as [o|] eqn:EO.
  - inversion H; subst q. split; [reflexivity|]. split; [intros t; apply EV|].
    intros t v Hd. unfold q_v. cbn [q_a q_b q_c q_off]. rewrite EV. apply (fold_off _ _ _ _ _ EO); auto.
  - inversion H; subst q. split; [reflexivity|]. split; [intros t; apply EV|].
    intros t v Hd. destruct d as [|e d]; [destruct Hd|]. exfalso. cbn in EO. 
    assert (forall d o, fold_left (offset_step upper (c0, c1, c2)) d (Some o) <> None) as HN.
    { clear. induction d as [|e d IH]; intros o; cbn; [discriminate|]. apply IH. }
    revert EO. apply HN.
Qed.

(** ** The data *)
Lemma bounds_in upper l u : forall x a b d s t v, chain_from a x b -> (forall s, List.In s x -> l <= s_ub s) ->
  bounds_loop upper l u x = Some d -> List.In s x -> s_lb s <= t <= s_ub s -> l <= t <= u -> side upper (s_cod s) = Some v ->
  List.In (Rmax (s_lb s) l, v) d /\ List.In (Rmin (s_ub s) u, v) d.
Proof.
  induction x as [|s0 x IH]; intros a b d s t v HC HL HB HI Hs Ht Hv; [destruct HI|].
  destruct HC as (H1 & H2 & H3). cbn [bounds_loop] in HB.
  assert (s_lb s0 <= t) as H0.
  { destruct HI as [->|HI]; [lra|]. destruct (chain_in_bounds _ _ _ _ H3 HI). lra. }
  pose proof (HL s0 (or_introl eq_refl)) as H4.
  assert (inter (s_dom s0) (Itv (Some l) (Some u)) = Itv (Some (Rmax (s_lb s0) l)) (Some (Rmin (s_ub s0) u))) as E.
  { unfold s_dom. apply (inter_I (s_lb s0) (s_ub s0) l u). apply Rmax_lub; apply Rmin_glb; lra. }
  rewrite E in HB. destruct (side upper (s_cod s0)) as [v0|] eqn:ES; [|discriminate].
  destruct (bounds_loop upper l u x) as [d0|] eqn:EB; [|discriminate]. inversion HB; subst d.
  destruct HI as [->|HI].
  - assert (v0 = v) as -> by congruence. split; [left; auto|right; left; auto].
  - destruct (IH _ _ d0 s t v H3 (fun s Hi => HL s (or_intror Hi)) eq_refl HI Hs Ht Hv). split; right; right; auto.
Qed.

Lemma skip_ub l : forall x a b s, chain_from a x b -> l <= b -> List.In s (skipn (time_to_index l x) x) -> l <= s_ub s.
Proof.
  induction x as [|s0 x IH]; intros a b s HC Hb HI; [destruct HI|]. destruct HC as (H1 & H2 & H3). cbn [time_to_index] in HI.
  destruct (Rltb l (s_ub s0)) eqn:E.
  - apply Rltb_true in E. cbn in HI. destruct HI as [->|HI]; [lra|]. destruct (chain_in_bounds _ _ _ _ H3 HI). lra.
  - destruct x as [|s1 x]; [cbn in *; destruct HI as [->|[]]; lra|]. cbn [skipn] in HI. eapply IH; eauto.
Qed.
Lemma skip_in l : forall x s k, nth_error x k = Some s -> l < s_ub s -> List.In s (skipn (time_to_index l x) x).
Proof.
  intros x s k E H. pose proof (idx_le x l k s E H) as Hk.
  apply (nth_error_In _ (k - time_to_index l x)).
  revert k E Hk. generalize (time_to_index l x) as n. intros n. revert x. induction n as [|n IH]; intros x k E Hk.
  - cbn. rewrite Nat.sub_0_r. auto.
  - destruct x as [|s0 x]; [destruct k; discriminate|]. destruct k as [|k]; [lia|]. cbn in *. apply (IH x k); auto. lia.
Qed.
Lemma chain_skip : forall n x a b, chain_from a x b -> exists a', chain_from a' (skipn n x) b.
Proof.
  induction n as [|n IH]; intros x a b H; [exists a; auto|]. destruct x as [|s x]; [exists a; auto|]. cbn. destruct H as (_ & _ & H). eauto.
Qed.

(** the value of a concave polynomial between two points, of a convex one *)
Lemma between_above upper q t1 t2 t v : t1 <= t <= t2 -> above upper 0 (q_c q) ->
  above upper (q_v q t1) v -> above upper (q_v q t2) v -> above upper (q_v q t) v.
Proof.
  intros Ht HC H1 H2.
  assert (q_v q t * (t2 - t1) = (t2 - t) * q_v q t1 + (t - t1) * q_v q t2 - q_c q * ((t - t1) * (t2 - t) * (t2 - t1))) as E by (unfold q_v; ring).
  destruct (Req_dec t1 t2) as [<-|Hn]; [replace t with t1 by lra; auto|].
  assert (0 <= (t - t1) * (t2 - t) * (t2 - t1)) as HP by (repeat apply Rmult_le_pos; lra).
  destruct upper; cbn in *.
  - assert (0 <= (q_v q t - v) * (t2 - t1)) as H3.
    { replace ((q_v q t - v) * (t2 - t1)) with ((t2 - t) * (q_v q t1 - v) + (t - t1) * (q_v q t2 - v) + (- q_c q) * ((t - t1) * (t2 - t) * (t2 - t1))) by nra.
      assert (0 <= (t2 - t) * (q_v q t1 - v)) by (apply Rmult_le_pos; lra).
      assert (0 <= (t - t1) * (q_v q t2 - v)) by (apply Rmult_le_pos; lra).
      assert (0 <= (- q_c q) * ((t - t1) * (t2 - t) * (t2 - t1))) by (apply Rmult_le_pos; lra). lra. }
    destruct (Rle_dec v (q_v q t)); auto. exfalso. assert ((q_v q t - v) * (t2 - t1) < 0) by nra. lra.
  - assert (0 <= (v - q_v q t) * (t2 - t1)) as H3.
    { replace ((v - q_v q t) * (t2 - t1)) with ((t2 - t) * (v - q_v q t1) + (t - t1) * (v - q_v q t2) + q_c q * ((t - t1) * (t2 - t) * (t2 - t1))) by nra.
      assert (0 <= (t2 - t) * (v - q_v q t1)) by (apply Rmult_le_pos; lra).
      assert (0 <= (t - t1) * (v - q_v q t2)) by (apply Rmult_le_pos; lra).
      assert (0 <= q_c q * ((t - t1) * (t2 - t) * (t2 - t1))) by (apply Rmult_le_pos; lra). lra. }
    destruct (Rle_dec (q_v q t) v); auto. exfalso. assert ((v - q_v q t) * (t2 - t1) < 0) by nra. lra.
Qed.

(** ** The trees *)
Fixpoint leaves (tr : ptree) : list qform :=
  match tr with PLeaf _ _ q _ => [q] | PNode _ _ _ _ t1 t2 => leaves t1 ++ leaves t2 end.
(** [t] is a bound of a slice *)
Definition sampled (x : tube) (t : R) : Prop := exists s, List.In s x /\ (t = s_lb s \/ t = s_ub s).

Lemma build_spec G fit cut upper eps x a b s t v T :
  garith_ok G -> (forall l u, l < u -> l < cut l u < u) -> chain_from a x b -> List.In s x -> s_lb s <= t <= s_ub s ->
  side upper (s_cod s) = Some v -> In t T ->
  forall fuel l u tr, a <= l -> l < u -> u <= b -> l < s_ub s -> l <= t <= u ->
  build G fit cut fuel upper eps x l u = Some tr ->
  Forall (fun q => above upper 0 (q_c q)) (leaves tr) \/ t = s_lb s \/ t = s_ub s ->
  exists w, In w (teval G tr T) /\ above upper w v.
Proof.
  intros HG HCUT HC HS Ht Hv HT. induction fuel as [|fuel IH]; intros l u tr Hal Hlu Hub Hls Hl HB Hq; [discriminate|].
  cbn [build] in HB. destruct (factoredform fit upper x l u) as [q|] eqn:EF; [|discriminate].
  set (cod := q_f G q (Itv (Some l) (Some u))) in *.
  assert (intersects T (Itv (Some l) (Some u)) = true) as HI by (apply intersects_spec; exists t; split; [auto|cbn; lra]).
  destruct (Rltb eps (Rabs (q_off q)) && Nat.ltb 3 (time_to_index u x - time_to_index l x)).
  - destruct (HCUT l u Hlu) as [Hm1 Hm2]. set (m := cut l u) in *.
    destruct (build G fit cut fuel upper eps x l m) as [t1|] eqn:E1; [|discriminate].
    destruct (build G fit cut fuel upper eps x m u) as [t2|] eqn:E2; [|discriminate].
    inversion HB; subst tr. cbn [leaves] in Hq. cbn [teval]. rewrite HI. cbn [negb].
    destruct (Rle_dec t m) as [Htm|Htm].
    + destruct (IH l m t1) as (w & Hw & Ha); try lra; auto.
      { destruct Hq as [Hq|Hq]; [left|auto]. apply Forall_app in Hq. tauto. }
      exists w. split; [apply In_hull_l|]; auto.
    + destruct (IH m u t2) as (w & Hw & Ha); try lra; auto.
      { destruct Hq as [Hq|Hq]; [left|auto]. apply Forall_app in Hq. tauto. }
      exists w. split; [apply In_hull_r|]; auto.
  - inversion HB; subst tr. cbn [leaves] in Hq. cbn [teval]. rewrite HI. cbn [negb].
    exists (q_v q t). split.
    + destruct (is_subset _ _); [apply q_f_in; auto; cbn; lra|]. apply q_f_in; auto. apply In_inter. split; [auto|cbn; lra].
    + destruct (factored_spec _ _ _ _ _ _ Hlu EF) as (d & Hd & _ & _ & HQ).
      unfold get_bounds in Hd. destruct (bounds_loop upper l u (skipn (time_to_index l x) x)) as [d0|] eqn:EB; [|discriminate].
      destruct (Nat.ltb 3 (length d0)); [|discriminate]. inversion Hd; subst d0.
      destruct (chain_skip (time_to_index l x) x a b HC) as (a' & HC').
      destruct (In_nth_error _ _ HS) as (k & Ek).
      destruct (bounds_in upper l u _ _ _ d s t v HC' (fun s' Hs' => skip_ub l x a b s' HC ltac:(lra) Hs') EB (skip_in l x s k Ek Hls) Ht Hl Hv) as [HD1 HD2].
      pose proof (HQ _ _ HD1) as HA1. pose proof (HQ _ _ HD2) as HA2.
      destruct Hq as [Hq|[Hq|Hq]].
      * eapply between_above; [|inversion Hq; auto|exact HA1|exact HA2]. split; [apply Rmax_lub|apply Rmin_glb]; lra.
      * replace (Rmax (s_lb s) l) with t in HA1; auto. rewrite Rmax_left; lra.
      * replace (Rmin (s_ub s) u) with t in HA2; auto. rewrite Rmin_left; lra.
Qed.

Lemma hull_between w1 w2 v I J : In w1 I -> In w2 J -> w1 <= v <= w2 -> In v (hull I J).
Proof.
  intros H1 H2 H. pose proof (In_hull_l w1 I J H1) as A. pose proof (In_hull_r w2 I J H2) as B.
  destruct (hull I J) as [|[l|] [h|]]; cbn in *; try tauto; lra.
Qed.

(** the synthesis gives an enclosure of the values of the tube when each polynomial of the upper bound is concave and
    each polynomial of the lower bound convex; and at the bounds of the slices in any case *)
Theorem C99_partial : forall G fit cut fuel eps a b x tr f t T,
  garith_ok G -> (forall l u, l < u -> l < cut l u < u) -> tube_ok a b x ->
  synthesis G fit cut fuel eps x = Some tr -> has x f -> In t T -> a <= t <= b ->
  (Forall (fun q => 0 <= q_c q) (leaves (fst tr)) /\ Forall (fun q => q_c q <= 0) (leaves (snd tr))) \/ sampled x t ->
  In (f t) (seval G tr T).
Proof.
  intros G fit cut fuel eps a b x tr f t T HG HCUT HO HS HF HT Ht HQ.
  pose proof (ok_chain _ _ _ HO) as HC.
  unfold synthesis in HS. rewrite (chain_t0 x a b), (chain_tf x a b) in HS by apply HO.
  destruct (build G fit cut fuel false eps x a b) as [lo|] eqn:EL; [|discriminate].
  destruct (build G fit cut fuel true eps x a b) as [up|] eqn:EU; [|discriminate]. inversion HS; subst tr. cbn [fst snd] in HQ.
  assert (exists s, List.In s x /\ s_lb s <= t <= s_ub s /\ (sampled x t -> t = s_lb s \/ t = s_ub s)) as (s & Hs & Hts & Hsm).
  { destruct (TubeQueries2.cover x a b t HO Ht) as (k & s & Ek & Hts). pose proof (nth_error_In _ _ Ek) as Hs. exists s. split; [auto|]. split; [auto|].
    intros (s' & Hs' & E). destruct (In_nth_error _ _ Hs) as (i & Ei). destruct (In_nth_error _ _ Hs') as (j & Ej).
    destruct (Req_dec t (s_lb s)) as [|N1]; auto. destruct (Req_dec t (s_ub s)) as [|N2]; auto. exfalso.
    destruct (Nat.lt_trichotomy i j) as [L|[->|L]].
    - pose proof (chain_order x a b i j s s' HC Ei Ej L). destruct (chain_in_bounds _ _ _ _ HC Hs') as (_ & ? & _). lra.
    - rewrite Ei in Ej. inversion Ej; subst s'. destruct E; congruence.
    - pose proof (chain_order x a b j i s' s HC Ej Ei L). destruct (chain_in_bounds _ _ _ _ HC Hs') as (_ & ? & _). lra. }
  assert (In (f t) (s_cod s)) as Hv.
  { destruct (HF s Hs) as (H1 & H2 & H3). pose proof (ok_slices _ _ _ HO) as HSL. rewrite Forall_forall in HSL.
    destruct (HSL s Hs) as (_ & _ & _ & H4 & H5).
    destruct (Req_dec t (s_lb s)) as [->|N1]; [auto|]. destruct (Req_dec t (s_ub s)) as [->|N2]; [auto|]. apply H3. lra. }
  destruct (chain_in_bounds _ _ _ _ HC Hs) as (B1 & B2 & B3).
  assert (a < b) as Hab by lra.
  assert (exists l h, s_cod s = Itv (Some l) (Some h)) as (l & h & EC).
  { assert (forall upper tr, build G fit cut fuel upper eps x a b = Some tr -> exists v, side upper (s_cod s) = Some v) as HB.
    { intros upper tr. destruct fuel as [|fu]; [discriminate|]. cbn [build].
      destruct (factoredform fit upper x a b) as [q|] eqn:EF; [|discriminate]. intros _.
      destruct (factored_spec _ _ _ _ _ _ Hab EF) as (d & Hd & _). unfold get_bounds in Hd.
      destruct (bounds_loop upper a b (skipn (time_to_index a x) x)) as [d0|] eqn:EB; [|discriminate].
      assert (forall y a', chain_from a' y b -> a <= a' -> List.In s y -> forall d, bounds_loop upper a b y = Some d -> exists v, side upper (s_cod s) = Some v) as HX.
      { clear - B1 B2 B3. induction y as [|s0 y IH]; intros a' HC' Ha' Hi d; [destruct Hi|]. destruct HC' as (C1 & C2 & C3). cbn [bounds_loop].
        destruct (chain_in_bounds (s0 :: y) s0.(s_lb) b s (conj eq_refl (conj C2 C3)) Hi) as (D1 & D2 & D3).
        assert (inter (s_dom s0) (Itv (Some a) (Some b)) = Itv (Some (Rmax (s_lb s0) a)) (Some (Rmin (s_ub s0) b))) as ->.
        { unfold s_dom. apply (inter_I (s_lb s0) (s_ub s0) a b). apply Rmax_lub; apply Rmin_glb; lra. }
        destruct (side upper (s_cod s0)) as [v0|] eqn:ES; [|discriminate]. destruct (bounds_loop upper a b y) as [d0|] eqn:E; [|discriminate].
        intros _. destruct Hi as [->|Hi]; [eauto|]. eapply (IH (s_ub s0)); eauto. lra. }
      destruct (In_nth_error _ _ Hs) as (k & Ek).
      assert (time_to_index a x = 0%nat) as E0.
      { destruct x as [|s0 x']; [destruct Hs|]. destruct HC as (C1 & C2 & _). cbn. rewrite Rltb_t by lra. reflexivity. }
      rewrite E0 in EB. cbn [skipn] in EB. eapply (HX x a); eauto. lra. }
    destruct (HB _ _ EL) as (l & E1). destruct (HB _ _ EU) as (h & E2). destruct (s_cod s) as [|[l'|] [h'|]]; cbn in *; try discriminate; eauto. }
  rewrite EC in Hv. cbn in Hv.
  destruct (build_spec G fit cut false eps x a b s t l T HG HCUT HC Hs Hts ltac:(rewrite EC; auto) HT fuel a b lo) as (w1 & W1 & A1); try lra; auto.
  { destruct HQ as [[HQ _]|HQ]; [left; exact HQ|right; auto]. }
  destruct (build_spec G fit cut true eps x a b s t h T HG HCUT HC Hs Hts ltac:(rewrite EC; auto) HT fuel a b up) as (w2 & W2 & A2); try lra; auto.
  { destruct HQ as [[_ HQ]|HQ]; [left; exact HQ|right; auto]. }
  unfold seval. cbn [fst snd]. eapply hull_between; eauto. cbn in A1, A2. lra.
Qed.

(** ** Concrete cases *)
Lemma fold_off_in upper p : forall d o r (P : R -> Prop), fold_left (offset_step upper p) d o = Some r ->
  (forall o', o = Some o' -> P o') -> (forall t v, List.In (t, v) d -> P (v - p_f p t)) -> P r.
Proof.
  induction d as [|[t v] d IH]; intros o r P H Ho Hd.
  - cbn in H. auto.
  - cbn [fold_left] in H. eapply IH; [exact H| |intros; apply Hd; right; auto].
    intros o' E. unfold offset_step in E. cbn [fst snd] in E. pose proof (Hd t v (or_introl eq_refl)) as Hv. destruct o as [o|].
    + specialize (Ho _ eq_refl). destruct upper; inversion E; [unfold Rmax|unfold Rmin]; destruct (Rle_dec _ _); auto.
    + inversion E; subst; auto.
Qed.
(** the polynomial is found: the offset is one of the differences *)
Lemma factored_some fit upper x l u d c0 c1 c2 : l < u -> get_bounds upper x l u = Some d -> fit d = (c0, c1, c2) -> c2 <> 0 ->
  exists q, factoredform fit upper x l u = Some q /\ q_c q = c2 /\ (forall t, q_v q t = p_f (c0, c1, c2) t + q_off q) /\
  (forall P : R -> Prop, (forall t v, List.In (t, v) d -> P (v - p_f (c0, c1, c2) t)) -> P (q_off q)).
Proof.
  intros Hlu HD HF Hc. assert (exists q, factoredform fit upper x l u = Some q) as (q & EQ).
  { unfold factoredform. rewrite HD, HF. destruct (Reqb_spec c2 0) as [E|_]; [congruence|]. destruct (fold_left _ d None); eauto. }
  exists q. split; [auto|]. destruct (factored_spec _ _ _ _ _ _ Hlu EQ) as (d' & HD' & H1 & H2 & _).
  rewrite HD in HD'. inversion HD'; subst d'. rewrite HF in H1, H2. split; [exact H1|]. split; [exact H2|].
  intros P HP. unfold factoredform in EQ. rewrite HD, HF in EQ. destruct (Reqb_spec c2 0) as [E|_]; [congruence|].
  unfold get_bounds in HD. destruct (bounds_loop upper l u (skipn (time_to_index l x) x)) as [d0|]; [|discriminate].
  destruct (Nat.ltb 3 (length d0)) eqn:EN; [|discriminate]. inversion HD; subst d0.
  destruct (fold_left (offset_step upper (c0, c1, c2)) d None) as [o|] eqn:EO.
  - inversion EQ; subst q. cbn [q_off]. eapply fold_off_in; [exact EO|discriminate|auto].
  - exfalso. destruct d as [|e d]; [discriminate|]. cbn in EO. revert EO.
    assert (forall d o, fold_left (offset_step upper (c0, c1, c2)) d (Some o) <> None) as HN.
    { clear. induction d as [|e d IH]; intros o; cbn; [discriminate|]. apply IH. }
    apply HN.
Qed.
Lemma build_leaf G fit cut fuel upper eps x l u q : factoredform fit upper x l u = Some q -> Rabs (q_off q) <= eps ->
  build G fit cut (S fuel) upper eps x l u = Some (PLeaf l u q (q_f G q (Itv (Some l) (Some u)))).
Proof.
  intros H1 H2. cbn [build]. rewrite H1. assert (Rltb eps (Rabs (q_off q)) = false) as -> by (apply Rltb_false; lra). reflexivity.
Qed.

(** least squares *)
Definition err (p : poly) (d : list (R * R)) : R := fold_right (fun e r => (snd e - p_f p (fst e)) * (snd e - p_f p (fst e)) + r) 0 d.
Definition lsq (d : list (R * R)) (p : poly) : Prop := forall p', err p d <= err p' d.
Lemma err_diff p : forall d p', err p' d = err p d + fold_right (fun e r => (p_f p (fst e) - p_f p' (fst e)) * (p_f p (fst e) - p_f p' (fst e)) + r) 0 d
  + 2 * fold_right (fun e r => (snd e - p_f p (fst e)) * (p_f p (fst e) - p_f p' (fst e)) + r) 0 d.
Proof. induction d as [|e d IH]; intros p'; cbn [err fold_right]; [lra|]. fold (err p' d). fold (err p d). rewrite IH. ring. Qed.
Lemma sum_sqr (g : R * R -> R) : forall d, 0 <= fold_right (fun e r => g e * g e + r) 0 d.
Proof. induction d as [|e d IH]; cbn; [lra|]. pose proof (Rle_0_sqr (g e)). unfold Rsqr in *. lra. Qed.
(** the normal equations *)
Lemma lsq_normal d p : (forall p', fold_right (fun e r => (snd e - p_f p (fst e)) * (p_f p (fst e) - p_f p' (fst e)) + r) 0 d = 0) -> lsq d p.
Proof.
  intros H p'. rewrite (err_diff p d p'), H. pose proof (sum_sqr (fun e => p_f p (fst e) - p_f p' (fst e)) d). cbn in *. lra.
Qed.

(** bounds at 10 or 0 (upper) and 20 below; [c] is the codomain of the middle slice *)
Definition tP : tube :=
  [mkS (-3) (-2) (I2 (-10) 10) (I2 (-10) 10) (I2 (-10) 0); mkS (-2) (-1) (I2 (-20) 0) (I2 (-10) 0) (I2 (-10) 0);
   mkS (-1) 1 (I2 (-10) 10) (I2 (-10) 0) (I2 (-10) 0); mkS 1 2 (I2 (-20) 0) (I2 (-10) 0) (I2 (-10) 0);
   mkS 2 3 (I2 (-10) 10) (I2 (-10) 0) (I2 (-10) 10)].
Lemma tP_ok : tube_ok (-3) 3 tP. Proof. tube_ok_tac. Qed.
Definition fP (t : R) : R := Rmax 0 (10 - 10 * Rabs t).
Definition dP (c : R) : list (R * R) :=
  [(-3, c); (-2, c); (-2, c - 10); (-1, c - 10); (-1, c); (1, c); (1, c - 10); (2, c - 10); (2, c); (3, c)].
Lemma tP_up : get_bounds true tP (-3) 3 = Some (dP 10).
Proof.
  unfold get_bounds, tP, dP. replace (10 - 10) with 0 by ring. cbn [time_to_index s_ub skipn]. rewrite Rltb_t by lra. cbn [skipn].
  unfold I2. cbn. reval. reflexivity.
Qed.
Lemma tP_lo : get_bounds false tP (-3) 3 = Some (dP (-10)).
Proof.
  unfold get_bounds, tP, dP. replace (-10 - 10) with (-20) by ring. cbn [time_to_index s_ub skipn]. rewrite Rltb_t by lra. cbn [skipn].
  unfold I2. cbn. reval. reflexivity.
Qed.
Definition pP (c : R) : poly := (395 / 107 + c - 10, 0, 65 / 107).
Definition fitP (d : list (R * R)) : poly := pP (match d with e :: _ => snd e | [] => 0 end).
Lemma fitP_lsq c : lsq (dP c) (fitP (dP c)).
Proof. apply lsq_normal. intros [[b0 b1] b2]. unfold fitP, dP, pP, p_f. cbn [fold_right fst snd]. field. Qed.
Lemma tP_fP : has tP fP.
Proof.
  unfold has, tP, fP. intros s Hs. cbn in Hs.
  assert (forall t, 1 <= Rabs t -> Rmax 0 (10 - 10 * Rabs t) = 0) as H0 by (intros t H; apply Rmax_left; lra).
  repeat destruct Hs as [<-|Hs]; try contradiction; (split; [|split]); cbn; try intros t Ht.
  all: try (rewrite H0 by (unfold Rabs; destruct (Rcase_abs _); lra); lra).
  unfold Rmax, Rabs. destruct (Rle_dec _ _), (Rcase_abs _); lra.
Qed.
Lemma q_f_pt q t : q_f gexact q (pt t) = pt (q_v q t).
Proof.
  unfold q_f, q_v, pt. cbn. set (z := t + - q_a q). replace (t - q_a q) with z by (unfold z; ring).
  assert (xsqr (Itv (Some z) (Some z)) = Itv (Some (z * z)) (Some (z * z))) as E.
  { cbn. destruct (Rleb 0 z) eqn:E1; [reflexivity|]. destruct (Rleb z 0) eqn:E2; [reflexivity|]. apply Rleb_false in E1, E2. lra. }
  cbn in E. rewrite E. cbn. unfold min4, max4. rewrite !Rmin_left, !Rmax_left by lra. reflexivity.
Qed.
Lemma leaf_pt l u q cod t : l < t < u -> teval gexact (PLeaf l u q cod) (pt t) = pt (q_v q t).
Proof.
  intros H. cbn [teval]. assert (intersects (pt t) (Itv (Some l) (Some u)) = true) as ->.
  { apply intersects_spec. exists t. split; cbn; lra. }
  assert (is_subset (Itv (Some l) (Some u)) (pt t) = false) as ->.
  { destruct (is_subset _ _) eqn:E; [|reflexivity]. exfalso. apply is_subset_sub in E.
    pose proof (E l ltac:(cbn; lra)) as E1. cbn in E1. lra. }
  cbn [negb]. assert (inter (pt t) (Itv (Some l) (Some u)) = pt t) as ->.
  { change (inter (I2 t t) (I2 l u) = I2 t t). rewrite inter_I; rewrite Rmax_left, Rmin_left by lra; [reflexivity|lra]. }
  apply q_f_pt.
Qed.
Lemma fitP_at c : fitP (dP c) = (395 / 107 + c - 10, 0, 65 / 107). Proof. reflexivity. Qed.
Ltac dcases := let H := fresh in intros ? ? H; cbn in H; repeat destruct H as [H|H]; try contradiction; injection H; intros; subst; unfold p_f.

(** With exact least squares and the maximal offset at the bounds of the slices, a value of the tube between two bounds
    is not enclosed *)
Theorem C99_refuted : exists fit cut fuel eps a b x tr f t,
  (forall l u, l < u -> l < cut l u < u) /\ tube_ok a b x /\ has x f /\ a <= t <= b /\
  (forall upper d, get_bounds upper x a b = Some d -> lsq d (fit d)) /\
  synthesis gexact fit cut fuel eps x = Some tr /\ ~ In (f t) (seval gexact tr (pt t)).
Proof.
  destruct (factored_some fitP false tP (-3) 3 (dP (-10)) _ _ _ ltac:(lra) tP_lo (fitP_at _) ltac:(lra)) as (ql & L1 & L2 & L3 & L4).
  destruct (factored_some fitP true tP (-3) 3 (dP 10) _ _ _ ltac:(lra) tP_up (fitP_at _) ltac:(lra)) as (qu & U1 & U2 & U3 & U4).
  assert (- 10 <= q_off ql <= 610 / 107) as BL by (apply L4; dcases; lra).
  assert (- 10 <= q_off qu <= 610 / 107) as BU by (apply U4; dcases; lra).
  exists fitP, (fun l u => (l + u) / 2), 1%nat, 10, (-3), 3, tP, (PLeaf (-3) 3 ql (q_f gexact ql (I2 (-3) 3)), PLeaf (-3) 3 qu (q_f gexact qu (I2 (-3) 3))), fP, 0.
  split; [intros; lra|]. split; [exact tP_ok|]. split; [exact tP_fP|]. split; [lra|].
  split. { intros [|] d H; [rewrite tP_up in H|rewrite tP_lo in H]; inversion H; subst; apply fitP_lsq. }
  split.
  - unfold synthesis. change (t0 tP) with (-3). change (tf tP) with 3.
    rewrite (build_leaf gexact fitP _ 0 false 10 tP (-3) 3 ql L1) by (apply Rabs_le; lra).
    rewrite (build_leaf gexact fitP _ 0 true 10 tP (-3) 3 qu U1) by (apply Rabs_le; lra). reflexivity.
  - replace (fP 0) with 10 by (unfold fP; rewrite Rabs_R0, Rmax_right; lra).
    unfold seval. cbn [fst snd]. rewrite !leaf_pt by lra. rewrite L3, U3. unfold p_f. intros H. cbn in H.
    destruct H as [_ H]. revert H. unfold Rmax. destruct (Rle_dec _ _); lra.
Qed.

(** ** A case for C99_partial: least squares, concave above and convex below *)
Definition tC : tube :=
  [mkS (-3) (-1) (I2 0 0) (I2 0 0) (I2 0 0); mkS (-1) 1 (I2 (-10) 10) (I2 0 0) (I2 0 0); mkS 1 3 (I2 0 0) (I2 0 0) (I2 0 0)].
Lemma tC_ok : tube_ok (-3) 3 tC. Proof. tube_ok_tac. Qed.
Definition dC (c : R) : list (R * R) := [(-3, 0); (-1, 0); (-1, c); (1, c); (1, 0); (3, 0)].
Lemma tC_up : get_bounds true tC (-3) 3 = Some (dC 10).
Proof.
  unfold get_bounds, tC, dC. cbn [time_to_index s_ub skipn]. rewrite Rltb_t by lra. cbn [skipn]. unfold I2. cbn. reval. reflexivity.
Qed.
Lemma tC_lo : get_bounds false tC (-3) 3 = Some (dC (-10)).
Proof.
  unfold get_bounds, tC, dC. cbn [time_to_index s_ub skipn]. rewrite Rltb_t by lra. cbn [skipn]. unfold I2. cbn. reval. reflexivity.
Qed.
Definition fitC (d : list (R * R)) : poly := let c := snd (nth 2 d (0, 0)) / 10 in (c * (45 / 8), 0, - (c * (5 / 8))).
Lemma fitC_lsq c : lsq (dC c) (fitC (dC c)).
Proof. apply lsq_normal. intros [[b0 b1] b2]. unfold fitC, dC, p_f. cbn [nth fold_right fst snd]. field. Qed.
Lemma tC_fP : has tC fP.
Proof.
  unfold has, tC, fP. intros s Hs. cbn in Hs.
  assert (forall t, 1 <= Rabs t -> Rmax 0 (10 - 10 * Rabs t) = 0) as H0 by (intros t H; apply Rmax_left; lra).
  repeat destruct Hs as [<-|Hs]; try contradiction; (split; [|split]); cbn; try intros t Ht.
  all: try (rewrite H0 by (unfold Rabs; destruct (Rcase_abs _); lra); lra).
  unfold Rmax, Rabs. destruct (Rle_dec _ _), (Rcase_abs _); lra.
Qed.
Example C99_example : (forall upper d, get_bounds upper tC (-3) 3 = Some d -> lsq d (fitC d)) /\
  exists tr, synthesis gexact fitC (fun l u => (l + u) / 2) 1 20 tC = Some tr /\
  forall t, -3 <= t <= 3 -> In (fP t) (seval gexact tr (pt t)).
Proof.
  split. { intros [|] d H; [rewrite tC_up in H|rewrite tC_lo in H]; inversion H; subst; apply fitC_lsq. }
  destruct (factored_some fitC false tC (-3) 3 (dC (-10)) _ _ _ ltac:(lra) tC_lo eq_refl ltac:(cbn; lra)) as (ql & L1 & L2 & L3 & L4).
  destruct (factored_some fitC true tC (-3) 3 (dC 10) _ _ _ ltac:(lra) tC_up eq_refl ltac:(cbn; lra)) as (qu & U1 & U2 & U3 & U4).
  cbn in L2, U2.
  assert (- 20 <= q_off ql <= 20) as BL by (apply L4; dcases; cbn; lra).
  assert (- 20 <= q_off qu <= 20) as BU by (apply U4; dcases; cbn; lra).
  eexists. split.
  - unfold synthesis. change (t0 tC) with (-3). change (tf tC) with 3.
    rewrite (build_leaf gexact fitC _ 0 false 20 tC (-3) 3 ql L1) by (apply Rabs_le; lra).
    rewrite (build_leaf gexact fitC _ 0 true 20 tC (-3) 3 qu U1) by (apply Rabs_le; lra). reflexivity.
  - intros t Ht. eapply (C99_partial gexact fitC (fun l u => (l + u) / 2) 1 20 (-3) 3 tC); try eassumption.
    + apply gexact_ok.
    + intros; lra.
    + exact tC_ok.
    + unfold synthesis. change (t0 tC) with (-3). change (tf tC) with 3.
      rewrite (build_leaf gexact fitC _ 0 false 20 tC (-3) 3 ql L1) by (apply Rabs_le; lra).
      rewrite (build_leaf gexact fitC _ 0 true 20 tC (-3) 3 qu U1) by (apply Rabs_le; lra). reflexivity.
    + exact tC_fP.
    + cbn; lra.
    + left. cbn. split; constructor; try constructor; lra.
Qed.

(** ** Assertions that fail *)
(** a constant tube: any least squares fit has no term of degree 2 *)
Theorem C99_constant_refuted : exists a b x f, tube_ok a b x /\ has x f /\
  forall G fit cut fuel eps, (forall upper d, get_bounds upper x a b = Some d -> lsq d (fit d)) ->
  synthesis G fit cut fuel eps x = None.
Proof.
  exists 0, 2, [mkS 0 1 (I2 0 1) (I2 0 1) (I2 0 1); mkS 1 2 (I2 0 1) (I2 0 1) (I2 0 1)], (fun _ => 0).
  split; [tube_ok_tac|]. split; [has_tac|]. intros G fit cut fuel eps HL. set (x := [_; _]) in *.
  assert (get_bounds false x 0 2 = Some [(0, 0); (1, 0); (1, 0); (2, 0)]) as E.
  { unfold get_bounds, x. cbn [time_to_index s_ub skipn]. rewrite Rltb_t by lra. cbn [skipn]. unfold I2. cbn. reval. reflexivity. }
  pose proof (HL _ _ E (0, 0, 0)) as H. unfold synthesis. change (t0 x) with 0. change (tf x) with 2.
  assert (factoredform fit false x 0 2 = None) as EF.
  { unfold factoredform. rewrite E. destruct (fit _) as [[c0 c1] c2]. unfold err, p_f in H. cbn [fold_right fst snd] in H.
    assert (forall r, r * r <= 0 -> r = 0) as HZ by (intros r Hr; nra).
    set (r0 := 0 - (0 + c0 * 1 + c1 * 0 + c2 * (0 * 0))) in H. set (r1 := 0 - (0 + c0 * 1 + c1 * 1 + c2 * (1 * 1))) in H.
    set (r2 := 0 - (0 + c0 * 1 + c1 * 2 + c2 * (2 * 2))) in H.
    pose proof (Rle_0_sqr r0) as S0. pose proof (Rle_0_sqr r1) as S1. pose proof (Rle_0_sqr r2) as S2. unfold Rsqr in *.
    assert (r0 = 0) as Z0 by (apply HZ; lra). assert (r1 = 0) as Z1 by (apply HZ; lra). assert (r2 = 0) as Z2 by (apply HZ; lra).
    unfold r0, r1, r2 in *. assert (c2 = 0) as -> by lra. destruct (Reqb_spec 0 0); congruence. }
  destruct fuel as [|fuel]; cbn [build]; [reflexivity|]. rewrite EF. reflexivity.
Qed.
(** a tube of one slice: not enough data *)
Theorem C99_single_abort : forall G fit cut fuel eps s, s_lb s < s_ub s -> synthesis G fit cut fuel eps [s] = None.
Proof.
  intros G fit cut fuel eps s H. unfold synthesis. change (t0 [s]) with (s_lb s). change (tf [s]) with (s_ub s).
  assert (factoredform fit false [s] (s_lb s) (s_ub s) = None) as E.
  { unfold factoredform, get_bounds. cbn [time_to_index]. rewrite Rltb_t by lra. cbn [skipn bounds_loop].
    destruct (inter _ _) as [|[l|] [u|]]; try reflexivity. destruct (side _ _); reflexivity. }
  destruct fuel as [|fuel]; cbn [build]; [reflexivity|]. rewrite E. reflexivity.
Qed.
Example C99_single_example : synthesis gexact fitC (fun l u => (l + u) / 2) 9 1 [mkS 0 1 (I2 0 1) (I2 0 1) (I2 0 1)] = None.
Proof. apply C99_single_abort. cbn. lra. Qed.

Print Assumptions C99_partial.
Print Assumptions C99_refuted.
Print Assumptions C99_constant_refuted.
Print Assumptions C99_single_abort.
