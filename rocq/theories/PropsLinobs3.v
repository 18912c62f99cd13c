(** * C101: CtcLinobs of codac2 keeps the solutions of the linear system *)

From Coq Require Import Reals Lra Lia Bool List Arith.
Import ListNotations.
From Verif Require Import Itv Arith DynSpec Linobs LinobsFacts Codac2 PropsTDomain Linobs2.
Open Scope R_scope.

(** ** Specification *)
(** the trajectory [f1], [f2] is in the tube *)
Definition kin {c : linobs} (pin : vec -> po (l_po c) -> Prop) (f1 f2 : R -> R) (x : list (cell c)) : Prop :=
  forall s t, List.In s x -> In t (k_t c s) -> pin (f1 t, f2 t) (k_x c s).

Section SOUND.
  Variables (c : linobs) (pe : po (l_po c) -> bool) (p0 : po (l_po c)) (pin : vec -> po (l_po c) -> Prop).
  Variables (a0 b0 H : R) (f1 f2 u : R -> R) (T : list itv) (ul : list tslice).
  Hypothesis HA : arith_ok (l_ar c).
  Hypothesis HP : poly_ok (l_po c) pin.
  Hypothesis Hpe : forall z p, pin z p -> pe p = false.
  Hypothesis HE : is_expo (l_A c) (l_expo c (l_A c)).
  Hypothesis HEm : is_expo (mneg (l_A c)) (l_expo c (mneg (l_A c))).
  Hypothesis HB : between H (l_expo c (l_A c)).
  Hypothesis HBm : between H (l_expo c (mneg (l_A c))).
  Hypothesis HS : lin_sol (l_A c) (l_b c) a0 b0 f1 f2 u.
  Hypothesis Hul : map ts_t ul = T.
  Hypothesis Hu : traj_in u ul.
  (** the instants of the tubes *)
  Hypothesis HT0 : forall a, List.In a T -> exists t, In t a.
  Hypothesis HTb : forall l h, List.In (Itv (Some l) (Some h)) T -> a0 <= l /\ h <= b0 /\ h - l <= H.
  Hypothesis HTs : forall rl l h r, T = rev rl ++ Itv (Some l) (Some h) :: r -> l < h ->
    (exists rl', rl = pt l :: rl') /\ (r = [] \/ exists r', r = pt h :: r').
  Hypothesis HTg : forall rl t r, T = rev rl ++ pt t :: r -> forall b, hd_error rl = Some b \/ hd_error r = Some b -> In t b.

  Definition zt (i : kiter c) : list itv := let '(rl, s, r) := i in rev (map (k_t c) rl) ++ k_t c s :: map (k_t c) r.
  Definition zin (i : kiter c) : Prop := let '(rl, s, r) := i in kin pin f1 f2 rl /\ kin pin f1 f2 [s] /\ kin pin f1 f2 r.

  Lemma kin_cons s l : kin pin f1 f2 (s :: l) <-> kin pin f1 f2 [s] /\ kin pin f1 f2 l.
  Proof.
    split.
    - intros K. split; [intros q t [<-|[]] Ht; apply K; auto; left; auto|intros q t Hq Ht; apply K; auto; right; auto].
    - intros [K1 K2] q t [<-|Hq] Ht; [apply K1; auto; left; auto|apply K2; auto].
  Qed.
  Lemma kin_one s : kin pin f1 f2 [s] <-> forall t, In t (k_t c s) -> pin (f1 t, f2 t) (k_x c s).
  Proof. split; [intros K t Ht; apply K; auto; left; auto|intros K q t [<-|[]] Ht; auto]. Qed.
  Lemma deg_pt a t : is_degenerated a = true -> In t a -> a = pt t.
  Proof. destruct a as [|[l|] [h|]]; cbn; try discriminate; [intros _ []|]. intros E Ht. apply Reqb_true in E. subst. unfold pt. replace h with t by lra. reflexivity. Qed.
  Lemma deg_pt_t t : is_degenerated (pt t) = true.
  Proof. cbn. apply Reqb_true. reflexivity. Qed.
  Lemma zt_left i : zt i = T -> let '(rl, s, r) := i in k_gate c s = true -> forall g rl', rl = g :: rl' -> forall t, In t (k_t c s) -> In t (k_t c g).
  Proof.
    destruct i as [[rl s] r]. intros E G g rl' -> t Ht. apply (deg_pt _ _ G) in Ht. unfold zt in E. rewrite Ht in E.
    apply (HTg _ _ _ (eq_sym E)). left. reflexivity.
  Qed.
  Lemma zt_right i : zt i = T -> let '(rl, s, r) := i in k_gate c s = true -> forall g r', r = g :: r' -> forall t, In t (k_t c s) -> In t (k_t c g).
  Proof.
    destruct i as [[rl s] r]. intros E G g r' -> t Ht. apply (deg_pt _ _ G) in Ht. unfold zt in E. rewrite Ht in E.
    apply (HTg _ _ _ (eq_sym E)). right. reflexivity.
  Qed.
  Lemma zt_shift_r rl s g r : zt (rl, s, g :: r) = zt (s :: rl, g, r).
  Proof. unfold zt. cbn [map rev]. rewrite <- app_assoc. reflexivity. Qed.
  (** a neighbour that is a gate is inside the slice *)
  Lemma gate_left rl s r g rl' : zt (rl, s, r) = T -> rl = g :: rl' -> k_gate c g = true -> forall t, In t (k_t c g) -> In t (k_t c s).
  Proof. intros E -> G. rewrite <- zt_shift_r in E. exact (zt_right _ E G s r eq_refl). Qed.
  Lemma gate_right rl s r g r' : zt (rl, s, r) = T -> r = g :: r' -> k_gate c g = true -> forall t, In t (k_t c g) -> In t (k_t c s).
  Proof. intros E -> G. rewrite zt_shift_r in E. exact (zt_left _ E G s rl eq_refl). Qed.
  Lemma time_of rl s r q : zt (rl, s, r) = T -> List.In q rl \/ q = s \/ List.In q r -> exists t, In t (k_t c q).
  Proof.
    intros E Hq. apply HT0. rewrite <- E. unfold zt. apply in_or_app. destruct Hq as [Hq|[->|Hq]].
    - left. apply -> in_rev. apply List.in_map. exact Hq.
    - right. left. reflexivity.
    - right. right. apply List.in_map. exact Hq.
  Qed.

  (** Slice::set keeps the solution *)
  Lemma set_side_keep l s l' s' : k_set_side c l s = (s', l') -> kin pin f1 f2 l -> kin pin f1 f2 [s] ->
    (k_gate c s = true -> forall g q, l = g :: q -> forall t, In t (k_t c s) -> In t (k_t c g)) ->
    (forall g q, l = g :: q -> k_gate c g = true -> forall t, In t (k_t c g) -> In t (k_t c s)) ->
    kin pin f1 f2 l' /\ kin pin f1 f2 [s'] /\ k_t c s' = k_t c s /\ map (k_t c) l' = map (k_t c) l.
  Proof.
    unfold k_set_side. destruct l as [|g q]; [intros [= <- <-]; auto|]. intros E Kl Ks G1 G2.
    apply kin_cons in Kl. destruct Kl as [Kg Kq]. rewrite kin_one in Kg, Ks.
    destruct (k_gate c s) eqn:Gs.
    - injection E as <- <-. refine (conj _ (conj _ (conj eq_refl eq_refl))); [apply kin_cons; split; auto; apply kin_one; auto|].
      apply kin_one. intros t Ht. cbn [k_set k_t k_x] in *. apply (k_inter _ _ HP); eauto.
    - destruct (k_gate c g) eqn:Gg.
      + injection E as <- <-. refine (conj _ (conj _ (conj eq_refl eq_refl))); [|apply kin_one; auto]. apply kin_cons. split; auto.
        apply kin_one. intros t Ht. cbn [k_set k_t k_x] in *. apply (k_inter _ _ HP); eauto.
      + injection E as <- <-. refine (conj _ (conj _ (conj eq_refl eq_refl))); [apply kin_cons; split; auto; apply kin_one; auto|apply kin_one; auto].
  Qed.
  Lemma not_empty i : zt i = T -> zin i -> k_is_empty c pe i = false \/ (let '(rl, s, r) := i in k_gate c s = false /\
    ((exists g q, rl = g :: q /\ k_gate c g = false) \/ exists g q, r = g :: q /\ k_gate c g = false)).
  Proof.
    destruct i as [[rl s] r]. intros E (K1 & K2 & K3). unfold k_is_empty. destruct (k_gate c s) eqn:G.
    - left. destruct (time_of rl s r s E) as [t Ht]; auto. eapply Hpe. apply (proj1 (kin_one s) K2 t Ht).
    - assert (Sd : forall l, kin pin f1 f2 l -> (forall q, List.In q l -> exists t, In t (k_t c q)) -> pe (k_side c l s) = false \/ exists g q, l = g :: q /\ k_gate c g = false).
      { intros [|g q] Kl Hl.
        - left. destruct (time_of rl s r s E) as [t Ht]; auto. eapply Hpe. apply (proj1 (kin_one s) K2 t Ht).
        - cbn [k_side]. destruct (k_gate c g) eqn:Gg; [|right; eauto]. left. destruct (Hl g ltac:(left; auto)) as [t Ht]. eapply Hpe. apply (Kl g t); auto. left; auto. }
      destruct (Sd rl K1) as [S1|S1]; [intros q Hq; apply (time_of rl s r q E); auto| |right; auto].
      destruct (Sd r K3) as [S2|S2]; [intros q Hq; apply (time_of rl s r q E); auto| |right; auto].
      left. rewrite S1, S2. reflexivity.
  Qed.
  (** the neighbours of a bounded slice are gates *)
  Lemma slice_shape rl s r l h : zt (rl, s, r) = T -> k_t c s = Itv (Some l) (Some h) -> l < h ->
    (exists g q, rl = g :: q /\ k_t c g = pt l) /\ (r = [] \/ exists g q, r = g :: q /\ k_t c g = pt h).
  Proof.
    intros E Es Hlh. unfold zt in E. rewrite Es in E. destruct (HTs _ _ _ _ (eq_sym E) Hlh) as [[q1 E1] E2]. split.
    - destruct rl as [|g q]; [discriminate|]. exists g, q. split; auto. cbn in E1. injection E1 as E1 _. exact E1.
    - destruct E2 as [E2|[q2 E2]]; destruct r as [|g q]; try discriminate; auto. right. exists g, q. split; auto. cbn in E2. injection E2 as E2 _. exact E2.
  Qed.
  Lemma gate_pt g t : k_t c g = pt t -> k_gate c g = true.
  Proof. intros E. unfold k_gate. rewrite E. apply deg_pt_t. Qed.
  Lemma not_empty_slice rl s r l h : zt (rl, s, r) = T -> zin (rl, s, r) -> k_t c s = Itv (Some l) (Some h) -> k_is_empty c pe (rl, s, r) = false.
  Proof.
    intros E K Es. destruct (not_empty _ E K) as [N|[G N]]; auto. exfalso.
    destruct (time_of rl s r s E) as [t Ht]; auto. rewrite Es in Ht. cbn in Ht. unfold k_gate in G. rewrite Es in G. cbn in G.
    assert (l <> h) by (intros ->; rewrite (proj2 (Reqb_true h h) eq_refl) in G; discriminate).
    destruct (slice_shape rl s r l h E Es ltac:(lra)) as [(g1 & q1 & E1 & X1) E2].
    destruct N as [(g & q & Eg & Gg)|(g & q & Eg & Gg)].
    - rewrite E1 in Eg. injection Eg as <- <-. rewrite (gate_pt _ _ X1) in Gg. discriminate.
    - destruct E2 as [->|(g2 & q2 & E2 & X2)]; [discriminate|]. rewrite E2 in Eg. injection Eg as <- <-. rewrite (gate_pt _ _ X2) in Gg. discriminate.
  Qed.
  Lemma assign_keep p i : zt i = T -> zin i -> (let '(_, s, _) := i in (k_gate c s = true \/ exists l h, k_t c s = Itv (Some l) (Some h)) /\ forall t, In t (k_t c s) -> pin (f1 t, f2 t) p) ->
    let j := k_assign c pe p0 p i in zin j /\ zt j = T /\
    let '(rl, s, r) := i in let '(rl', s', r') := j in map (k_t c) rl' = map (k_t c) rl /\ k_t c s' = k_t c s /\ map (k_t c) r' = map (k_t c) r.
  Proof.
    destruct i as [[rl s] r]. intros E (K1 & K2 & K3) [Gs Hp]. cbv zeta. unfold k_assign.
    destruct (k_set_side c rl (k_set c s p)) as [s1 rl1] eqn:E1. destruct (k_set_side c r s1) as [s2 r1] eqn:E2.
    destruct (set_side_keep _ _ _ _ E1) as (L1 & L2 & L3 & L4); auto.
    { apply kin_one. exact Hp. }
    { intros G g q -> t Ht. exact (zt_left _ E G g q eq_refl t Ht). }
    { intros g q -> G t Ht. exact (gate_left _ s r g q E eq_refl G t Ht). }
    cbn [k_set k_t] in L3.
    assert (G1 : k_gate c s1 = k_gate c s) by (unfold k_gate; rewrite L3; reflexivity).
    destruct (set_side_keep _ _ _ _ E2) as (M1 & M2 & M3 & M4); auto.
    { intros G g q -> t Ht. rewrite L3 in Ht. rewrite G1 in G. exact (zt_right _ E G g q eq_refl t Ht). }
    { intros g q -> G t Ht. rewrite L3. exact (gate_right rl s _ g q E eq_refl G t Ht). }
    assert (Z : zt (rl1, s2, r1) = T) by (rewrite <- E; unfold zt; rewrite L4, M4, M3, L3; reflexivity).
    assert (N : k_is_empty c pe (rl1, s2, r1) = false).
    { destruct Gs as [Gs|(l & h & Gs)].
      - destruct (not_empty (rl1, s2, r1) Z) as [N|[N _]]; auto; [split; auto|]. exfalso. unfold k_gate in *. rewrite M3, L3 in N. congruence.
      - apply (not_empty_slice rl1 s2 r1 l h Z); [split; auto|congruence]. }
    rewrite N. refine (conj (conj L1 (conj M2 M1)) (conj Z (conj L4 (conj _ M4)))). congruence.
  Qed.

  (** the gates and the envelope *)
  Lemma u_on su l h : List.In su ul -> ts_t su = Itv (Some l) (Some h) -> forall t, l <= t <= h -> In (u t) (ts_x su).
  Proof. intros I E t Ht. apply (Hu su t I). rewrite E. cbn. lra. Qed.
  Section STEP.
    Variables (l h : R) (U : itv).
    Hypothesis Hlh : l < h.
    Hypothesis Ha : a0 <= l.
    Hypothesis Hb : h <= b0.
    Hypothesis Hw : h - l <= H.
    Hypothesis HU : forall t, l <= t <= h -> In (u t) U.
    Lemma fwd_in p q : pin (f1 h, f2 h) p -> pin (f1 l, f2 l) q -> pin (f1 h, f2 h) (fwd_gate c p q (h - l) U).
    Proof.
      intros Hp Hq. unfold fwd_gate. apply (k_simplify _ _ HP). apply (k_inter _ _ HP); auto.
      set (m := l_expo c (l_A c) (h - l)).
      pose proof (k_mul _ _ HP m _ _ _ (exp_at_pt (l_expo c) (l_A c) (h - l)) Hq) as K.
      pose proof (flow (l_ar c) (l_expo c) (l_A c) (l_b c) a0 b0 f1 f2 u U l h (exp_at (l_expo c) (l_A c) 0 (h - l)) (pt (h - l))) as F.
      specialize (F HA HE HS ltac:(lra) ltac:(lra) ltac:(lra) HU ltac:(intros; eapply exp_at_in; eauto; lra) ltac:(apply In_pt; reflexivity)).
      pose proof (k_add _ _ HP _ _ _ _ K F) as G. cbn [fst snd] in G. fold m in G.
      replace (fst (mv m (f1 l, f2 l)) + (f1 h - fst (mv m (f1 l, f2 l)))) with (f1 h) in G by ring.
      replace (snd (mv m (f1 l, f2 l)) + (f2 h - snd (mv m (f1 l, f2 l)))) with (f2 h) in G by ring. exact G.
    Qed.
    Lemma bwd_in p q : pin (f1 l, f2 l) p -> pin (f1 h, f2 h) q -> pin (f1 l, f2 l) (bwd_gate c p q (h - l) U).
    Proof.
      intros Hp Hq. unfold bwd_gate. apply (k_simplify _ _ HP). apply (k_inter _ _ HP); auto.
      set (m := l_expo c (mneg (l_A c)) (h - l)).
      pose proof (k_mul _ _ HP m _ _ _ (exp_at_pt (l_expo c) (mneg (l_A c)) (h - l)) Hq) as K.
      pose proof (flow_back (l_ar c) (l_expo c) (l_A c) (l_b c) a0 b0 f1 f2 u U l h (exp_at (l_expo c) (mneg (l_A c)) 0 (h - l)) (pt (h - l))) as F.
      specialize (F HA HEm HS ltac:(lra) ltac:(lra) ltac:(lra) HU ltac:(intros; eapply exp_at_in; eauto; lra) ltac:(apply In_pt; reflexivity)).
      pose proof (k_sub _ _ HP _ _ _ _ K F) as G. cbn [fst snd] in G. fold m in G.
      replace (fst (mv m (f1 h, f2 h)) - (fst (mv m (f1 h, f2 h)) - f1 l)) with (f1 l) in G by ring.
      replace (snd (mv m (f1 h, f2 h)) - (snd (mv m (f1 h, f2 h)) - f2 l)) with (f2 l) in G by ring. exact G.
    Qed.
    Lemma env_in q t : pin (f1 l, f2 l) q -> l <= t <= h -> pin (f1 t, f2 t) (polygon_envelope c q (h - l) U).
    Proof.
      intros Hq Ht. unfold polygon_envelope.
      set (m := l_expo c (l_A c) (t - l)).
      pose proof (k_mul _ _ HP m _ _ _ (exp_at_in (l_expo c) (l_A c) H (h - l) (t - l) HB ltac:(lra) ltac:(lra)) Hq) as K.
      pose proof (flow (l_ar c) (l_expo c) (l_A c) (l_b c) a0 b0 f1 f2 u U l t (exp_at (l_expo c) (l_A c) 0 (h - l)) (bnd 0 (h - l))) as F.
      specialize (F HA HE HS ltac:(lra) ltac:(lra) ltac:(lra) ltac:(intros; apply HU; lra) ltac:(intros; eapply exp_at_in; eauto; lra) ltac:(apply In_bnd; lra)).
      pose proof (k_add _ _ HP _ _ _ _ K F) as G. cbn [fst snd] in G. fold m in G.
      replace (fst (mv m (f1 l, f2 l)) + (f1 t - fst (mv m (f1 l, f2 l)))) with (f1 t) in G by ring.
      replace (snd (mv m (f1 l, f2 l)) + (f2 t - snd (mv m (f1 l, f2 l)))) with (f2 t) in G by ring. exact G.
    Qed.
  End STEP.

  Definition same_t (i j : kiter c) : Prop := let '(rl, s, r) := i in let '(rl', s', r') := j in
    map (k_t c) rl' = map (k_t c) rl /\ k_t c s' = k_t c s /\ map (k_t c) r' = map (k_t c) r.
  Definition zok (i j : kiter c) : Prop := zin j /\ zt j = T /\ same_t i j.
  Lemma same_refl i : same_t i i.
  Proof. destruct i as [[rl s] r]. repeat split. Qed.

  Section SLICE.
    Variables (l h : R) (U : itv).
    Hypothesis Hlh : l < h.
    Hypothesis HU : forall t, l <= t <= h -> In (u t) U.
    Hypothesis HI : List.In (Itv (Some l) (Some h)) T.
    Lemma k_fwd_keep rl s r : zt (rl, s, r) = T -> zin (rl, s, r) -> k_t c s = Itv (Some l) (Some h) ->
      exists j, k_fwd c pe p0 U (rl, s, r) = Some j /\ zok (rl, s, r) j.
    Proof.
      intros E K Es. destruct (HTb l h HI) as (B1 & B2 & B3). destruct (slice_shape rl s r l h E Es Hlh) as [(g & q & -> & X1) [-> |(g2 & q2 & -> & X2)]].
      { exists (g :: q, s, []). split; [reflexivity|]. split; [exact K|split; [exact E|apply same_refl]]. }
      unfold k_fwd. rewrite (gate_pt _ _ X2). cbn [k_side]. rewrite (gate_pt _ _ X1). destruct K as (K1 & K2 & K3). apply kin_cons in K1, K3. destruct K1 as [Kg Kq], K3 as [Kg2 Kq2].
      rewrite kin_one in Kg, Kg2. rewrite X1 in Kg. rewrite X2 in Kg2.
      replace (k_dt c s) with (h - l) by (unfold k_dt; rewrite Es; reflexivity).
      pose proof (assign_keep (fwd_gate c (k_x c g2) (k_x c g) (h - l) U) (s :: g :: q, g2, q2)) as Q. rewrite <- zt_shift_r in Q. specialize (Q E).
      assert (Z1 : zin (s :: g :: q, g2, q2)).
      { refine (conj _ (conj _ Kq2)); [|apply kin_one; rewrite X2; auto]. apply kin_cons. split; auto. apply kin_cons. split; auto. apply kin_one. rewrite X1. auto. }
      specialize (Q Z1). assert (Z2 : (k_gate c g2 = true \/ exists l h, k_t c g2 = Itv (Some l) (Some h)) /\ forall t, In t (k_t c g2) -> pin (f1 t, f2 t) (fwd_gate c (k_x c g2) (k_x c g) (h - l) U)).
      { split; [left; exact (gate_pt _ _ X2)|]. intros t Ht. rewrite X2 in Ht. apply In_pt in Ht. subst t. apply fwd_in; auto; [apply Kg2|apply Kg]; apply In_pt; reflexivity. }
      specialize (Q Z2). cbv zeta in Q. destruct (k_assign c pe p0 _ (s :: g :: q, g2, q2)) as [[l' g'] r']. destruct Q as (Q1 & Q2 & Q3 & Q4 & Q5).
      destruct l' as [|s' l']; [discriminate|]. cbn [map] in Q3. injection Q3 as Q6 Q7. exists (l', s', g' :: r'). split; [reflexivity|].
      destruct Q1 as (R1 & R2 & R3). apply kin_cons in R1. destruct R1 as [R0 R1]. refine (conj (conj R1 (conj R0 _)) (conj _ _)).
      - apply kin_cons. auto.
      - rewrite zt_shift_r. exact Q2.
      - refine (conj _ (conj Q6 _)); cbn [map]; [exact Q7|congruence].
    Qed.
    Lemma k_bwd_keep rl s r : zt (rl, s, r) = T -> zin (rl, s, r) -> k_t c s = Itv (Some l) (Some h) ->
      exists j, k_bwd c pe p0 U (rl, s, r) = Some j /\ zok (rl, s, r) j.
    Proof.
      intros E K Es. destruct (HTb l h HI) as (B1 & B2 & B3). destruct (slice_shape rl s r l h E Es Hlh) as [(g & q & -> & X1) X2].
      unfold k_bwd. rewrite (gate_pt _ _ X1). destruct K as (K1 & K2 & K3).
      assert (Kh : pin (f1 h, f2 h) (k_side c r s)).
      { destruct X2 as [-> |(g2 & q2 & -> & X2)]; cbn [k_side].
        - apply (proj1 (kin_one s) K2). rewrite Es. cbn. lra.
        - rewrite (gate_pt _ _ X2). apply kin_cons in K3. apply (proj1 (kin_one g2) (proj1 K3)). rewrite X2. apply In_pt. reflexivity. }
      apply kin_cons in K1. destruct K1 as [Kg Kq]. pose proof (proj1 (kin_one g) Kg) as Kg'. rewrite X1 in Kg'.
      replace (k_dt c s) with (h - l) by (unfold k_dt; rewrite Es; reflexivity).
      pose proof (assign_keep (bwd_gate c (k_x c g) (k_side c r s) (h - l) U) (q, g, s :: r)) as Q. rewrite zt_shift_r in Q. specialize (Q E).
      assert (Z1 : zin (q, g, s :: r)) by (refine (conj Kq (conj Kg _)); apply kin_cons; auto). specialize (Q Z1).
      assert (Z2 : (k_gate c g = true \/ exists l h, k_t c g = Itv (Some l) (Some h)) /\ forall t, In t (k_t c g) -> pin (f1 t, f2 t) (bwd_gate c (k_x c g) (k_side c r s) (h - l) U)).
      { split; [left; exact (gate_pt _ _ X1)|]. intros t Ht. rewrite X1 in Ht. apply In_pt in Ht. subst t. apply bwd_in; auto. apply Kg'. apply In_pt; reflexivity. }
      specialize (Q Z2). cbv zeta in Q. destruct (k_assign c pe p0 _ (q, g, s :: r)) as [[l' g'] r']. destruct Q as (Q1 & Q2 & Q3 & Q4 & Q5).
      destruct r' as [|s' r']; [discriminate|]. cbn [map] in Q5. injection Q5 as Q6 Q7. exists (g' :: l', s', r'). split; [reflexivity|].
      destruct Q1 as (R1 & R2 & R3). apply kin_cons in R3. destruct R3 as [R0 R3]. refine (conj (conj _ (conj R0 R3)) (conj _ _)).
      - apply kin_cons. auto.
      - rewrite <- zt_shift_r. exact Q2.
      - refine (conj _ (conj Q6 _)); cbn [map]; [congruence|exact Q7].
    Qed.
    Lemma k_env_keep rl s r : zt (rl, s, r) = T -> zin (rl, s, r) -> k_t c s = Itv (Some l) (Some h) ->
      exists j, k_env c pe p0 U (rl, s, r) = Some j /\ zok (rl, s, r) j.
    Proof.
      intros E K Es. destruct (HTb l h HI) as (B1 & B2 & B3). destruct (slice_shape rl s r l h E Es Hlh) as [(g & q & -> & X1) _].
      unfold k_env. eexists. split; [reflexivity|]. replace (k_dt c s) with (h - l) by (unfold k_dt; rewrite Es; reflexivity).
      pose proof (assign_keep (polygon_envelope c (k_x c g) (h - l) U) (g :: q, s, r) E K) as Q. destruct K as (K1 & K2 & K3). 
      apply kin_cons in K1. destruct K1 as [Kg Kq]. rewrite kin_one in Kg. rewrite X1 in Kg.
      assert (Z2 : (k_gate c s = true \/ exists l h, k_t c s = Itv (Some l) (Some h)) /\ forall t, In t (k_t c s) -> pin (f1 t, f2 t) (polygon_envelope c (k_x c g) (h - l) U)).
      { split; [right; eauto|]. intros t Ht. rewrite Es in Ht. cbn in Ht. apply env_in; auto. apply Kg. apply In_pt; reflexivity. }
      specialize (Q Z2). cbv zeta in Q. unfold zok, same_t. destruct (k_assign c pe p0 _ (g :: q, s, r)) as [[l' g'] r']. exact Q.
    Qed.
    Lemma zok_trans i j k : zok i j -> zok j k -> zok i k.
    Proof.
      destruct i as [[a1 a2] a3], j as [[b1 b2] b3], k as [[d1 d2] d3]. intros (A1 & A2 & A3 & A4 & A5) (B1 & B2 & B3 & B4 & B5).
      refine (conj B1 (conj B2 (conj _ (conj _ _)))); congruence.
    Qed.
    Lemma k_contract_keep fwd bwd env rlu su ru rl s r : zt (rl, s, r) = T -> zin (rl, s, r) -> k_t c s = Itv (Some l) (Some h) ->
      ts_x su = U -> slice_is_empty (rlu, su, ru) = false ->
      exists j, k_contract c pe p0 fwd bwd env (rlu, su, ru) (rl, s, r) = Some j /\ zok (rl, s, r) j.
    Proof.
      intros E K Es EU Nu. unfold k_contract. rewrite (not_empty_slice rl s r l h E K Es), Nu. cbn [orb].
      assert (Gs : k_gate c s = false). { unfold k_gate. rewrite Es. cbn. destruct (Reqb l h) eqn:Q; auto. apply Reqb_true in Q. lra. }
      rewrite Gs, EU.
      assert (J1 : exists j, (if fwd then k_fwd c pe p0 U (rl, s, r) else @Some (kiter c) (rl, s, r)) = Some j /\ zok (rl, s, r) j).
      { destruct fwd; [apply k_fwd_keep; auto|]. eexists. split; [reflexivity|]. split; [exact K|split; [exact E|apply same_refl]]. }
      destruct J1 as (j1 & J1 & O1). rewrite J1.
      assert (J2 : exists j, (if bwd then k_bwd c pe p0 U j1 else Some j1) = Some j /\ zok (rl, s, r) j).
      { destruct bwd; [|exists j1; auto]. destruct j1 as [[rl1 s1] r1]. destruct (k_bwd_keep rl1 s1 r1) as (j & Ja & Jb); try (apply O1).
        - destruct O1 as (_ & _ & _ & O & _). rewrite O. exact Es.
        - exists j. split; auto. eapply zok_trans; eauto. }
      destruct J2 as (j2 & -> & O2). destruct env; [|exists j2; auto]. destruct j2 as [[rl1 s1] r1]. destruct (k_env_keep rl1 s1 r1) as (j & Ja & Jb); try (apply O2).
      - destruct O2 as (_ & _ & _ & O & _). rewrite O. exact Es.
      - exists j. split; auto. eapply zok_trans; eauto.
    Qed.
  End SLICE.

  (** the slices of the input are not empty *)
  Lemma u_not_empty rlu su ru l h : rev rlu ++ su :: ru = ul -> ts_t su = Itv (Some l) (Some h) -> l < h -> slice_is_empty (rlu, su, ru) = false.
  Proof.
    intros E Es Hlh. pose proof (f_equal (map ts_t) E) as Et. rewrite Hul, map_app, map_rev in Et. cbn [map] in Et. rewrite Es in Et.
    destruct (HTs _ _ _ _ (eq_sym Et) Hlh) as [[q1 E1] E2].
    assert (Ne : forall g t, List.In g ul -> ts_t g = pt t -> is_empty (ts_x g) = false).
    { intros g t Hg Eg. assert (K : In (u t) (ts_x g)) by (apply (Hu g); auto; rewrite Eg; apply In_pt; reflexivity). destruct (ts_x g); [destruct K|reflexivity]. }
    assert (Ig : forall g, List.In g rlu \/ List.In g ru -> List.In g ul).
    { intros g Hg. rewrite <- E. apply in_or_app. destruct Hg as [Hg|Hg]; [left; apply -> in_rev; auto|right; right; auto]. }
    unfold slice_is_empty, is_gate. rewrite Es. cbn [is_degenerated]. replace (Reqb l h) with false by (symmetry; destruct (Reqb l h) eqn:Q; auto; apply Reqb_true in Q; lra).
    destruct rlu as [|g q]; [discriminate|]. cbn [map] in E1. injection E1 as E1 _. cbn [slice_gate]. unfold is_gate at 1. rewrite E1, deg_pt_t, (Ne g l) by (auto; apply Ig; left; left; auto).
    cbn [orb]. destruct ru as [|g2 q2]; cbn [slice_gate].
    - assert (K : In (u l) (ts_x su)) by (apply (Hu su); [rewrite <- E; apply in_or_app; right; left; auto|rewrite Es; cbn; lra]). destruct (ts_x su); [destruct K|reflexivity].
    - destruct E2 as [E2|[q3 E2]]; [discriminate|]. cbn [map] in E2. injection E2 as E2 _. unfold is_gate. rewrite E2, deg_pt_t. apply (Ne g2 h); auto. apply Ig. right; left; auto.
  Qed.
  Lemma slice_time rl s r : zt (rl, s, r) = T -> k_gate c s || k_unbounded c s = false -> exists l h, k_t c s = Itv (Some l) (Some h) /\ l < h /\ List.In (Itv (Some l) (Some h)) T.
  Proof.
    intros E G. destruct (time_of rl s r s E) as [t Ht]; auto. apply orb_false_iff in G. destruct G as [G1 G2]. unfold k_gate, k_unbounded in *.
    assert (I : List.In (k_t c s) T) by (rewrite <- E; unfold zt; apply in_or_app; right; left; auto).
    destruct (k_t c s) as [|[l|] [h|]]; try discriminate. exists l, h. cbn in Ht, G1. refine (conj eq_refl (conj _ I)).
    destruct (Req_EM_T l h) as [->|]; [|lra]. rewrite (proj2 (Reqb_true h h) eq_refl) in G1. discriminate.
  Qed.
  Lemma kin_rev_append rl l : kin pin f1 f2 rl -> kin pin f1 f2 l -> kin pin f1 f2 (rev_append rl l).
  Proof. intros K1 K2 s t Hs Ht. rewrite rev_append_rev in Hs. apply in_app_or in Hs. destruct Hs as [Hs|Hs]; [apply K1; auto; apply in_rev; auto|apply K2; auto]. Qed.
  Lemma fwd_loop_keep env : forall lu rlu l rl, rev rlu ++ lu = ul -> map ts_t lu = map (k_t c) l -> rev (map (k_t c) rl) ++ map (k_t c) l = T ->
    kin pin f1 f2 rl -> kin pin f1 f2 l ->
    exists x, fwd_loop c pe p0 env rlu lu rl l = Some x /\ kin pin f1 f2 x /\ map (k_t c) x = T.
  Proof.
    induction lu as [|su ru IH]; intros rlu l rl Eu El Et Krl Kl.
    { destruct l as [|s r]; [|discriminate]. exists (rev_append rl []). refine (conj eq_refl (conj (kin_rev_append _ _ Krl Kl) _)).
      rewrite rev_append_rev, map_app, map_rev. exact Et. }
    destruct l as [|s r]; [discriminate|]. cbn [map] in El. injection El as Es Er. cbn [fwd_loop].
    assert (Eu' : rev (su :: rlu) ++ ru = ul) by (cbn [rev]; rewrite <- app_assoc; exact Eu).
    pose proof (proj1 (kin_cons _ _) Kl) as [Ks Kr].
    destruct (k_gate c s || k_unbounded c s) eqn:G.
    - apply IH; auto; [cbn [map rev]; rewrite <- app_assoc; exact Et|apply kin_cons; auto].
    - destruct (slice_time rl s r Et G) as (l & h & E1 & E2 & E3).
      assert (HU : forall t, l <= t <= h -> In (u t) (ts_x su)) by (apply u_on; [rewrite <- Eu; apply in_or_app; right; left; auto|congruence]).
      destruct (k_contract_keep l h (ts_x su) E2 HU E3 true false env rlu su ru rl s r Et (conj Krl (conj Ks Kr)) E1 eq_refl) as (j & J1 & J2).
      { apply (u_not_empty rlu su ru l h); auto. congruence. }
      rewrite J1. destruct j as [[rl1 s1] r1]. destruct J2 as ((J2 & J3 & J4) & J5 & J6 & J7 & J8).
      apply IH; auto; [congruence|cbn [map rev]; rewrite <- app_assoc; exact J5|apply kin_cons; auto].
  Qed.
  Lemma bwd_loop_keep env : forall rlu lu l rl, rev rlu ++ lu = ul -> map ts_t rlu = map (k_t c) rl -> rev (map (k_t c) rl) ++ map (k_t c) l = T ->
    kin pin f1 f2 rl -> kin pin f1 f2 l ->
    exists x, bwd_loop c pe p0 env rlu lu rl l = Some x /\ kin pin f1 f2 x /\ map (k_t c) x = T.
  Proof.
    induction rlu as [|su ru IH]; intros lu l rl Eu El Et Krl Kl.
    { destruct rl as [|s r]; [|discriminate]. exists l. cbn in Et. auto. }
    destruct rl as [|s r]; [discriminate|]. cbn [map] in El. injection El as Es Er. cbn [bwd_loop].
    assert (Eu' : rev ru ++ su :: lu = ul) by (cbn [rev] in Eu; rewrite <- app_assoc in Eu; exact Eu).
    assert (Et' : rev (map (k_t c) r) ++ map (k_t c) (s :: l) = T) by (cbn [map rev] in Et; rewrite <- app_assoc in Et; exact Et).
    pose proof (proj1 (kin_cons _ _) Krl) as [Ks Kr].
    destruct (k_gate c s || k_unbounded c s) eqn:G.
    - apply IH; auto. apply kin_cons; auto.
    - destruct (slice_time r s l Et' G) as (a & h & E1 & E2 & E3).
      assert (HU : forall t, a <= t <= h -> In (u t) (ts_x su)) by (apply u_on; [rewrite <- Eu'; apply in_or_app; right; left; auto|congruence]).
      destruct (k_contract_keep a h (ts_x su) E2 HU E3 false true env ru su lu r s l Et' (conj Kr (conj Ks Kl)) E1 eq_refl) as (j & J1 & J2).
      { apply (u_not_empty ru su lu a h); auto. congruence. }
      rewrite J1. destruct j as [[rl1 s1] r1]. destruct J2 as ((J2 & J3 & J4) & J5 & J6 & J7 & J8).
      apply IH; auto; [congruence|apply kin_cons; auto].
  Qed.
  Lemma contract_keep fwd bwd env x : all_gates_defined ul = true -> map (k_t c) x = T -> kin pin f1 f2 x ->
    exists y, linobs2_contract c pe p0 fwd bwd env x ul = Some y /\ kin pin f1 f2 y /\ map (k_t c) y = T.
  Proof.
    intros HG Et K. unfold linobs2_contract. rewrite HG.
    assert (J : exists y, (if fwd then fwd_loop c pe p0 (env && negb bwd) [] ul [] x else Some x) = Some y /\ kin pin f1 f2 y /\ map (k_t c) y = T).
    { destruct fwd; [|exists x; auto]. apply fwd_loop_keep; auto; [congruence|intros s t []]. }
    destruct J as (y & -> & K1 & E1). destruct bwd; [|exists y; auto].
    apply bwd_loop_keep; [rewrite rev_involutive, app_nil_r; auto|rewrite !map_rev; congruence|rewrite map_rev, rev_involutive; cbn [map]; rewrite app_nil_r; exact E1| |intros s t []].
    intros s t Hs Ht. apply K1; auto. apply in_rev. auto.
  Qed.
End SOUND.

(** ** The instants *)
Lemma pairs_gate d : partition d -> is_gate (hd (TS Emp Emp) d) = true -> all_gates_defined d = true ->
  forall l1 a b l2, d = l1 ++ a :: b :: l2 -> link a b /\ (is_gate a = true \/ is_gate b = true).
Proof.
  intros P G0 G l1 a b l2 E. pose proof P as (P1 & P2 & P3). split.
  { subst d. apply linked_app in P3. apply P3. }
  unfold all_gates_defined in G. destruct (is_degenerated (t0_tf d)) eqn:D.
  { destruct (deg_single d P D) as (s & -> & _). destruct l1 as [|? [|? ?]]; discriminate. }
  destruct d as [|s [|c r]]; [congruence|discriminate|].
  change (Nat.eqb (length (s :: c :: r)) 1) with false in G. cbn [tl hd] in *.
  assert (Gc : is_gate c = false). { destruct P3 as [[_ H] _]. destruct (is_gate c); [exfalso; auto|reflexivity]. }
  destruct l1 as [|x l1]; injection E as <- E; [auto|].
  apply (proj1 (alternate_pairs (c :: r) (proj2 P3) Gc) G l1 a b l2 E).
Qed.
Lemma itv_split (d : list tslice) rl (i : itv) r : map ts_t d = rev rl ++ i :: r ->
  exists dl s dr, d = rev dl ++ s :: dr /\ map ts_t dl = rl /\ ts_t s = i /\ map ts_t dr = r.
Proof.
  intros E. apply map_eq_app in E. destruct E as (d1 & d2 & -> & E1 & E2). destruct d2 as [|s dr]; [discriminate|]. cbn [map] in E2. injection E2 as E2 E3.
  exists (rev d1), s, dr. rewrite rev_involutive. refine (conj eq_refl (conj _ (conj E2 E3))). rewrite map_rev, E1, rev_involutive. reflexivity.
Qed.
Lemma gate_is s t : (exists t, In t (ts_t s)) -> is_gate s = true -> t_lb s = Some t \/ t_ub s = Some t -> ts_t s = pt t.
Proof.
  intros N G K. destruct (ts_itv s N) as [E _]. apply (gate_true s N) in G. destruct G as (a & E1 & E2). rewrite E, E1, E2. unfold pt. destruct K as [K|K]; congruence.
Qed.
Lemma bound_in s t : (exists t, In t (ts_t s)) -> t_lb s = Some t \/ t_ub s = Some t -> In t (ts_t s).
Proof.
  intros N K. destruct (ts_itv s N) as [E W]. rewrite E. cbn. destruct (t_lb s) as [l|] eqn:L, (t_ub s) as [h|] eqn:U; cbn; try (specialize (W _ _ eq_refl eq_refl));
  destruct K as [K|K]; try discriminate; injection K as ->; cbn; split; try exact I; lra.
Qed.

(** The polygons of the result contain the solutions of x' = A x + b u that were in the tube, for all the choices of
    propagation and with or without the envelopes, and no assertion fails: when each coefficient of exp(A s) stays
    between its values at the bounds for the duration of the bounded slices, when the first slice is a gate and
    all_gates_defined() holds.  What is missing: the condition on the exponential and the first gate are not
    guaranteed by the code (see C101_exp_refuted and C101_gates_refuted), and the exponential is exact here. *)
Theorem C101_partial : forall c pe p0 pin a0 b0 H f1 f2 u ul x fwd bwd env,
  arith_ok (l_ar c) -> poly_ok (l_po c) pin -> (forall z p, pin z p -> pe p = false) ->
  is_expo (l_A c) (l_expo c (l_A c)) -> is_expo (mneg (l_A c)) (l_expo c (mneg (l_A c))) ->
  between H (l_expo c (l_A c)) -> between H (l_expo c (mneg (l_A c))) ->
  lin_sol (l_A c) (l_b c) a0 b0 f1 f2 u ->
  partition ul -> all_gates_defined ul = true -> is_gate (hd (TS Emp Emp) ul) = true ->
  (forall l h, List.In (Itv (Some l) (Some h)) (map ts_t ul) -> a0 <= l /\ h <= b0 /\ h - l <= H) ->
  map (k_t c) x = map ts_t ul -> traj_in u ul -> kin pin f1 f2 x ->
  exists y, linobs2_contract c pe p0 fwd bwd env x ul = Some y /\ kin pin f1 f2 y /\ map (k_t c) y = map (k_t c) x.
Proof.
  intros c pe p0 pin a0 b0 H f1 f2 u ul x fwd bwd env HA HP Hpe HE HEm HB HBm HS P G G0 HTb Ex Hu K.
  pose proof (pairs_gate ul P G0 G) as PG. pose proof P as (P1 & P2 & P3).
  rewrite Ex. apply (contract_keep c pe p0 pin a0 b0 H f1 f2 u (map ts_t ul) ul); auto.
  - intros a Ha. apply in_map_iff in Ha. destruct Ha as (s & <- & Hs). auto.
  - intros rl l h r E Hlh. destruct (itv_split ul rl _ r E) as (dl & s & dr & Ed & <- & Es & <-).
    assert (Gs : is_gate s = false). { unfold is_gate. rewrite Es. cbn. destruct (Reqb l h) eqn:Q; auto. apply Reqb_true in Q. lra. }
    split.
    + destruct dl as [|g q].
      { rewrite Ed in G0. cbn in G0. congruence. }
      exists (map ts_t q). cbn [map]. f_equal. cbn [rev] in Ed. rewrite <- app_assoc in Ed. cbn [app] in Ed. destruct (PG _ _ _ _ Ed) as [[(t & L1 & L2) _] [Gg|Gg]]; [|congruence].
      unfold t_lb in L2. rewrite Es in L2. injection L2 as <-. apply gate_is; auto. apply P2. rewrite Ed. apply in_or_app. right. left. auto.
    + destruct dr as [|g q]; [left; reflexivity|]. right. exists (map ts_t q). cbn [map]. f_equal. destruct (PG _ _ _ _ Ed) as [[(t & L1 & L2) _] [Gg|Gg]]; [congruence|].
      unfold t_ub in L1. rewrite Es in L1. injection L1 as <-. apply gate_is; auto. apply P2. rewrite Ed. apply in_or_app. right. right. left. auto.
  - intros rl t r E b Hb. destruct (itv_split ul rl _ r E) as (dl & s & dr & Ed & <- & Es & <-). destruct Hb as [Hb|Hb].
    + destruct dl as [|g q]; [discriminate|]. cbn in Hb. injection Hb as <-. cbn [rev] in Ed. rewrite <- app_assoc in Ed. cbn [app] in Ed. destruct (PG _ _ _ _ Ed) as [[(t' & L1 & L2) _] _].
      unfold t_lb in L2. rewrite Es in L2. injection L2 as <-. apply bound_in; auto. apply P2. rewrite Ed. apply in_or_app. right. left. auto.
    + destruct dr as [|g q]; [discriminate|]. cbn in Hb. injection Hb as <-. destruct (PG _ _ _ _ Ed) as [[(t' & L1 & L2) _] _].
      unfold t_ub in L1. rewrite Es in L1. injection L1 as <-. apply bound_in; auto. apply P2. rewrite Ed. apply in_or_app. right. right. left. auto.
Qed.
