(** * C86: the verdict of contains() for tubes of codac2

    Specification: a trajectory is inside a tube when its value at each instant belongs to each slice (or gate)
    defined at this instant. *)

From Coq Require Import Reals Bool List Lra Lia Arith.
Import ListNotations.
From Verif Require Import Itv Concrete TubeOps Static PropsStatic PropsSivia PropsSep2 Paving PropsPaving3 Codac2 PropsTDomain Codac2Contains.
Open Scope R_scope.
Set Bullet Behavior "Strict Subproofs".

Definition vin (f : R -> list R) (d : list vslice) : Prop := forall s t, List.In s d -> In t (v_t s) -> inb (f t) (v_x s).
(** the temporal domains of the slices are a contiguous partition *)
Definition tl_of (s : vslice) : tslice := TS (v_t s) Emp.
Definition vpart (d : list vslice) : Prop := partition (map tl_of d).
(** an evaluation of trajectory [f] defined on [dom], that encloses its values *)
Definition encloses (n : nat) (f : R -> list R) (dom : itv) (tr : itv -> box) : Prop :=
  forall i, length (tr i) = n /\ forall t, In t i -> In t dom -> inb (f t) (tr i).

Lemma bnd_eq l u : l <= u -> Itv (Some l) (Some u) = bnd l u.
Proof. intros H. unfold bnd, mk. destruct (Rle_dec l u); [reflexivity|lra]. Qed.
Lemma app_inv_len {T} : forall (x x' y y' : list T), x ++ y = x' ++ y' -> length x = length x' -> x = x' /\ y = y'.
Proof.
  induction x as [|u x IH]; intros [|v x'] y y' H L; try discriminate; [auto|]. cbn in *. injection H as <- H.
  destruct (IH _ _ _ H ltac:(lia)) as [-> ->]. auto.
Qed.

Section Verdict.
Variable n : nat.
Variable f : R -> list R.
Variable tr : itv -> box.
Variables eps a b : R.
Hypothesis Htr : encloses n f (bnd a b) tr.

Lemma bisect2_sound cod : length cod = n -> forall k l u r, a <= l -> l <= u -> u <= b -> v_bisect k tr cod eps l u = Some r ->
  (r = YES -> forall t, l <= t <= u -> inb (f t) cod) /\
  (r = NO -> exists t, l <= t <= u /\ ~ inb (f t) cod).
Proof.
  intros Lc. induction k as [|k IH]; intros l u r Ha Hlu Hb H; cbn [v_bisect] in H; [discriminate|].
  assert (E : forall t, l <= t <= u -> inb (f t) (tr (bnd l u))) by (intros t Ht; apply Htr; apply In_bnd; lra).
  destruct (b_intersects cod (tr (bnd l u))) eqn:E1; cbn [negb] in H.
  2:{ injection H as <-. split; [discriminate|]. intros _. exists l. split; [lra|]. intros C.
      rewrite (intersects_in _ _ (f l) C (E l ltac:(lra))) in E1. discriminate. }
  destruct (b_is_subset (tr (bnd l u)) cod) eqn:E2; cbn [negb] in H.
  { injection H as <-. split; [|discriminate]. intros _ t Ht. apply (subset_in _ _ _ E2); [rewrite Lc; apply Htr|apply E, Ht]. }
  destruct (Rltb (u - l) eps). { injection H as <-. split; discriminate. }
  cbv zeta in H. set (m := l + (u - l) / 2) in *. assert (Hm : l <= m <= u) by (unfold m; lra). clearbody m.
  destruct (v_bisect k tr cod eps m u) as [r1|] eqn:E3; [|discriminate].
  destruct (IH m u r1 ltac:(lra) ltac:(lra) Hb E3) as [I1 I2]. destruct r1.
  - destruct (IH l m r ltac:(lra) ltac:(lra) ltac:(lra) H) as [J1 J2]. split.
    + intros Hr t Ht. destruct (Rle_dec t m); [apply J1; auto; lra|apply I1; auto; lra].
    + intros Hr. destruct (J2 Hr) as (t & Ht & N). exists t. split; [lra|exact N].
  - injection H as <-. split; [discriminate|]. intros Hr. destruct (I2 Hr) as (t & Ht & N). exists t. split; [lra|exact N].
  - injection H as <-. split; discriminate.
Qed.

Lemma inter_len (x y : box) : length x = length y -> length (b_inter x y) = length x.
Proof. intros L. pose proof (b_inter_sub x y L) as H. clear L. induction H; cbn; congruence. Qed.
Lemma side_len l s : (forall p, List.In p (s :: l) -> length (v_x p) = n) -> length (v_side l s) = n.
Proof.
  intros H. destruct l as [|p l]; cbn [v_side]; [apply H; left; reflexivity|]. destruct (v_gate p); [apply H; right; left; reflexivity|].
  rewrite inter_len; [apply H; left; reflexivity|]. rewrite !H; auto; cbn; auto.
Qed.

(** what a slice says of the trajectory: its values, and the values at its bounds *)
Definition slice_in (pl nl : list vslice) (s : vslice) (l u : R) : Prop :=
  (forall t, l <= t <= u -> inb (f t) (v_x s)) /\ inb (f l) (v_side pl s) /\ inb (f u) (v_side nl s).
Lemma contains2_sound k pl nl s l u r : v_t s = Itv (Some l) (Some u) -> a <= l -> l <= u -> u <= b ->
  (forall p, List.In p (s :: pl) \/ List.In p (s :: nl) -> length (v_x p) = n) ->
  v_contains k (bnd a b) tr eps pl nl s = Some r ->
  (r = YES -> slice_in pl nl s l u) /\ (r = NO -> ~ slice_in pl nl s l u).
Proof.
  intros T Ha Hlu Hb L H. unfold v_contains in H. rewrite T, (bnd_eq l u Hlu) in H.
  assert (X1 : intersects (bnd l u) (bnd a b) = true).
  { destruct (intersects (bnd l u) (bnd a b)) eqn:E; [reflexivity|]. exfalso. rewrite intersects_false in E. apply (E l); apply In_bnd; lra. }
  assert (X2 : is_subset (bnd l u) (bnd a b) = true) by (apply is_subset_spec; [rewrite <- bnd_eq by exact Hlu; cbn; lra|]; intros t Ht; apply In_bnd; apply In_bnd in Ht; lra).
  assert (X3 : inter (bnd l u) (bnd a b) = bnd l u).
  { apply inter_sub_eq; [rewrite <- bnd_eq by exact Hlu; cbn; lra|]. intros t Ht; apply In_bnd; apply In_bnd in Ht; lra. }
  rewrite X1, X2, X3 in H. cbn [negb] in H. rewrite <- (bnd_eq l u Hlu) in H. cbv iota beta zeta in H. clear X1 X2 X3.
  assert (E : forall t, l <= t <= u -> inb (f t) (tr (bnd l u))) by (intros t Ht; apply Htr; apply In_bnd; lra).
  assert (Ei : inb (f l) (tr (pt l))) by (apply Htr; [apply In_pt; reflexivity|apply In_bnd; lra]).
  assert (Eo : inb (f u) (tr (pt u))) by (apply Htr; [apply In_pt; reflexivity|apply In_bnd; lra]).
  destruct (b_intersects (v_x s) (tr (bnd l u))) eqn:E1; cbn [negb orb] in H.
  2:{ injection H as <-. split; [discriminate|]. intros _ (F & _). rewrite (intersects_in _ _ _ (F l ltac:(lra)) (E l ltac:(lra))) in E1. discriminate. }
  destruct (b_intersects (v_side pl s) (tr (pt l))) eqn:E2; cbn [negb orb] in H.
  2:{ injection H as <-. split; [discriminate|]. intros _ (_ & F & _). rewrite (intersects_in _ _ _ F Ei) in E2. discriminate. }
  destruct (b_intersects (v_side nl s) (tr (pt u))) eqn:E3; cbn [negb orb] in H.
  2:{ injection H as <-. split; [discriminate|]. intros _ (_ & _ & F). rewrite (intersects_in _ _ _ F Eo) in E3. discriminate. }
  destruct (b_is_subset (tr (pt l)) (v_side pl s)) eqn:E4; cbn [negb orb] in H; [|injection H as <-; split; discriminate].
  destruct (b_is_subset (tr (pt u)) (v_side nl s)) eqn:E5; cbn [negb orb] in H; [|injection H as <-; split; discriminate].
  assert (Gi : inb (f l) (v_side pl s)).
  { apply (subset_in _ _ _ E4); [rewrite side_len; [apply Htr|auto]|exact Ei]. }
  assert (Go : inb (f u) (v_side nl s)).
  { apply (subset_in _ _ _ E5); [rewrite side_len; [apply Htr|auto]|exact Eo]. }
  assert (Ls : length (v_x s) = n) by (apply L; left; left; reflexivity).
  destruct (b_is_subset (tr (bnd l u)) (v_x s)) eqn:E6.
  { injection H as <-. split; [|discriminate]. intros _. refine (conj _ (conj Gi Go)). intros t Ht.
    apply (subset_in _ _ _ E6); [rewrite Ls; apply Htr|apply E, Ht]. }
  destruct (v_bisect k tr (v_x s) eps l u) as [q|] eqn:E7; [|discriminate].
  destruct (bisect2_sound (v_x s) Ls k l u q Ha Hlu Hb E7) as [I1 I2].
  destruct q; injection H as <-; split; try discriminate.
  - intros _. refine (conj (I1 eq_refl) (conj Gi Go)).
  - intros _ (F & _). destruct (I2 eq_refl) as (t & Ht & N). apply N, F, Ht.
Qed.

(** the slices, each with its neighbours *)
Definition all_in (d : list vslice) : Prop := forall p s r l u, d = rev p ++ s :: r -> v_gate s = false -> v_t s = Itv (Some l) (Some u) -> slice_in p r s l u.
Lemma loop2_sound k d0 : (forall s, List.In s d0 -> length (v_x s) = n /\ exists l u, v_t s = Itv (Some l) (Some u) /\ a <= l /\ l <= u /\ u <= b) ->
  forall d pl c r, d0 = rev pl ++ d -> v_loop k (bnd a b) tr eps pl d c = Some r ->
  (r = YES -> c = YES /\ forall p s q l u, d0 = rev p ++ s :: q -> (length pl <= length p)%nat -> v_gate s = false -> v_t s = Itv (Some l) (Some u) -> slice_in p q s l u) /\
  (r = NO -> c = NO \/ exists p s q l u, d0 = rev p ++ s :: q /\ v_gate s = false /\ v_t s = Itv (Some l) (Some u) /\ l <= u /\ ~ slice_in p q s l u).
Proof.
  intros D. induction d as [|s d IH]; intros pl c r E H; cbn [v_loop] in H.
  - injection H as <-. split; [|auto]. intros ->. split; [reflexivity|]. intros p s q l u E' Le. exfalso.
    apply (f_equal (@length _)) in E. rewrite E' in E. rewrite !app_length, !rev_length in E. cbn in E. lia.
  - assert (E' : d0 = rev (s :: pl) ++ d) by (cbn; rewrite <- app_assoc; exact E).
    assert (Here : forall p s' q, d0 = rev p ++ s' :: q -> (length pl <= length p)%nat -> (p = pl /\ s' = s /\ q = d) \/ (length (s :: pl) <= length p)%nat).
    { intros p s' q Ep Le. destruct (Nat.eq_dec (length p) (length pl)) as [Q|Q]; [left|right; cbn; lia].
      rewrite Ep in E. apply app_inv_len in E; [|rewrite !rev_length; exact Q]. destruct E as [E1 E2]. injection E2 as -> ->.
      apply (f_equal (@rev _)) in E1. rewrite !rev_involutive in E1. auto. }
    assert (S0 : List.In s d0) by (rewrite E; apply in_app_iff; right; left; reflexivity).
    destruct (v_gate s) eqn:G.
    + destruct (IH _ _ _ E' H) as [I1 I2]. split; [|exact I2]. intros Hr. destruct (I1 Hr) as [J1 J2]. split; [exact J1|].
      intros p s' q l u Ep Le Gs Ts. destruct (Here p s' q Ep Le) as [(-> & -> & ->)|Le']; [congruence|]. eapply J2; eauto.
    + destruct (D s S0) as (Ls & l & u & Ts & Ha & Hlu & Hb).
      destruct (v_contains k (bnd a b) tr eps pl d s) as [r1|] eqn:C; [|discriminate].
      destruct (contains2_sound k pl d s l u r1 Ts Ha Hlu Hb) as [S1 S2]; [|exact C|].
      { intros p P. apply D. rewrite E. destruct P as [[<-|P]|P]; apply in_app_iff; [right; left; reflexivity|left; apply -> in_rev; exact P|right; exact P]. }
      destruct r1.
      * destruct (IH _ _ _ E' H) as [I1 I2]. split; [|exact I2]. intros Hr. destruct (I1 Hr) as [J1 J2]. split; [exact J1|].
        intros p s' q l' u' Ep Le Gs Ts'. destruct (Here p s' q Ep Le) as [(-> & -> & ->)|Le']; [|eapply J2; eauto].
        rewrite Ts in Ts'. injection Ts' as <- <-. apply S1. reflexivity.
      * injection H as <-. split; [discriminate|]. intros _. right. exists pl, s, d, l, u. auto 8.
      * destruct (IH _ _ _ E' H) as [I1 I2]. split.
        -- intros Hr. destruct (I1 Hr) as [J1 _]. discriminate.
        -- intros Hr. destruct (I2 Hr) as [J|J]; [discriminate|right; exact J].
Qed.
End Verdict.

(** temporal domains of a bounded partition *)
Lemma t0_tf_of d : d <> [] -> v_t0_tf d = t0_tf (map tl_of d).
Proof.
  intros N. destruct (exists_last N) as (d' & e & ->). unfold v_t0_tf, t0_tf. rewrite map_app. cbn [map]. rewrite d_ub_last.
  destruct d' as [|c d']; [reflexivity|]. cbn [app]. change (c :: d' ++ [e]) with ((c :: d') ++ [e]). rewrite rev_app_distr. reflexivity.
Qed.
Lemma part_bounds d a b s : vpart d -> bnd a b = v_t0_tf d -> List.In s d ->
  exists l u, v_t s = Itv (Some l) (Some u) /\ a <= l /\ l <= u /\ u <= b.
Proof.
  intros P T S0. destruct P as (P1 & P2 & P3).
  assert (Nd : d <> []) by (intros ->; destruct S0). rewrite (t0_tf_of d Nd) in T.
  destruct (in_split _ _ S0) as (d1 & d2 & E).
  assert (Inc : forall t, In t (v_t s) -> a <= t <= b).
  { intros t Ht. apply In_bnd. rewrite T, E, map_app. cbn [map]. apply in_dom; [|exact Ht].
    unfold partition. change (tl_of s :: map tl_of d2) with (map tl_of (s :: d2)). rewrite <- map_app, <- E. auto. }
  destruct (P2 (tl_of s)) as [t Ht]; [apply List.in_map, S0|]. cbn [tl_of ts_t] in Ht. pose proof (Inc t Ht) as B.
  destruct (v_t s) as [|[l|] [u|]]; [destruct Ht| | | |].
  - cbn in Ht. exists l, u. split; [reflexivity|]. pose proof (Inc l ltac:(cbn; lra)). pose proof (Inc u ltac:(cbn; lra)). lra.
  - cbn in Ht. specialize (Inc (Rmax t (b + 1))). cbn in Inc. pose proof (Rmax_l t (b + 1)). pose proof (Rmax_r t (b + 1)). lra.
  - cbn in Ht. specialize (Inc (Rmin t (a - 1))). cbn in Inc. pose proof (Rmin_l t (a - 1)). pose proof (Rmin_r t (a - 1)). lra.
  - specialize (Inc (b + 1)). cbn in Inc. lra.
Qed.
Lemma gate_pt s l u : v_t s = Itv (Some l) (Some u) -> v_gate s = true -> l = u.
Proof. intros T G. unfold v_gate in G. rewrite T in G. cbn in G. apply Reqb_true in G. exact G. Qed.

Lemma adj2 x p q y l u l' u' : vpart (x ++ p :: q :: y) -> v_t p = Itv (Some l) (Some u) -> v_t q = Itv (Some l') (Some u') ->
  u = l' /\ ~ (v_gate p = true /\ v_gate q = true).
Proof.
  intros (_ & _ & K) Tp Tq. rewrite map_app in K. cbn [map] in K. apply linked_app in K. destruct K as [_ [[(t & A & B) N] _]].
  unfold t_ub, t_lb, tl_of in *. cbn [ts_t] in *. rewrite Tp in A. rewrite Tq in B. split; [congruence|exact N].
Qed.

(** C86: YES only when the trajectory is inside the tube, NO only when it is not *)
Theorem C86 : forall n f tr eps a b d k r, a < b -> encloses n f (bnd a b) tr ->
  vpart d -> (forall s, List.In s d -> length (v_x s) = n) -> vtube_contains k (bnd a b) tr eps d = Some r ->
  (r = YES -> vin f d) /\ (r = NO -> ~ vin f d).
Proof.
  intros n f tr eps a b d k r Hab Htr P L H. unfold vtube_contains in H. destruct (itv_eqb (bnd a b) (v_t0_tf d)) eqn:T; [|discriminate].
  apply itv_eqb_eq in T. assert (D := fun s => part_bounds d a b s P T).
  destruct (loop2_sound n f tr eps a b Htr k d (fun s S0 => conj (L s S0) (D s S0)) d [] YES r eq_refl H) as [I1 I2]. split.
  - intros Hr. destruct (I1 Hr) as [_ J]. clear I1 I2. intros s t S0 Ht. destruct (D s S0) as (l & u & Ts & Hl & Hlu & Hu).
    rewrite Ts in Ht. cbn in Ht. destruct (in_split _ _ S0) as (d1 & d2 & E).
    assert (E' : d = rev (rev d1) ++ s :: d2) by (rewrite rev_involutive; exact E).
    destruct (v_gate s) eqn:G.
    + pose proof (gate_pt _ _ _ Ts G) as <-. assert (t = l) as -> by lra.
      destruct d2 as [|q d2].
      * destruct d1 as [|c0 d1'].
        { subst d. exfalso. rewrite <- (bnd_eq a b) in T by lra. cbn in T. rewrite Ts in T. injection T as -> ->. lra. }
        destruct (exists_last (l := c0 :: d1') ltac:(discriminate)) as (d1 & c & E1). rewrite E1, <- app_assoc in E. cbn [app] in E.
        assert (C0 : List.In c d) by (rewrite E; apply in_app_iff; right; left; reflexivity).
        destruct (D c C0) as (l' & u' & Tc & _). rewrite E in P. destruct (adj2 _ _ _ _ _ _ _ _ P Tc Ts) as [-> N].
        assert (Gc : v_gate c = false) by (destruct (v_gate c); [exfalso; auto|reflexivity]).
        destruct (J (rev d1) c [s] l' l) as (_ & _ & F); [rewrite rev_involutive; exact E|cbn; lia|exact Gc|exact Tc|].
        cbn [v_side] in F. rewrite G in F. exact F.
      * assert (Q0 : List.In q d) by (rewrite E; apply in_app_iff; right; right; left; reflexivity).
        destruct (D q Q0) as (l' & u' & Tq & _). rewrite E in P. destruct (adj2 _ _ _ _ _ _ _ _ P Ts Tq) as [<- N].
        assert (Gq : v_gate q = false) by (destruct (v_gate q); [exfalso; auto|reflexivity]).
        destruct (J (s :: rev d1) q d2 l u') as (_ & F & _); [cbn [rev]; rewrite rev_involutive, <- app_assoc; exact E|cbn; lia|exact Gq|exact Tq|].
        cbn [v_side] in F. rewrite G in F. exact F.
    + destruct (J (rev d1) s d2 l u E' ltac:(cbn; lia) G Ts) as (F & _). apply F, Ht.
  - intros Hr V. destruct (I2 Hr) as [X|(p & s & q & l & u & E & G & Ts & Hlu & N)]; [discriminate|]. apply N.
    assert (S0 : List.In s d) by (rewrite E; apply in_app_iff; right; left; reflexivity).
    assert (F : forall t, l <= t <= u -> inb (f t) (v_x s)) by (intros t Ht; apply (V s t S0); rewrite Ts; exact Ht).
    refine (conj F (conj _ _)).
    + destruct p as [|c p]; cbn [v_side]; [apply F; lra|]. cbn [rev] in E. rewrite <- app_assoc in E. cbn [app] in E.
      assert (C0 : List.In c d) by (rewrite E; apply in_app_iff; right; left; reflexivity).
      destruct (D c C0) as (l' & u' & Tc & _ & Hc & _). rewrite E in P. destruct (adj2 _ _ _ _ _ _ _ _ P Tc Ts) as [-> _].
      assert (Fc : inb (f l) (v_x c)) by (apply (V c l C0); rewrite Tc; cbn; lra).
      destruct (v_gate c); [exact Fc|]. apply b_inter_in; [apply F; lra|exact Fc].
    + destruct q as [|c q]; cbn [v_side]; [apply F; lra|].
      assert (C0 : List.In c d) by (rewrite E; apply in_app_iff; right; right; left; reflexivity).
      destruct (D c C0) as (l' & u' & Tc & _ & Hc & _). rewrite E in P. destruct (adj2 _ _ _ _ _ _ _ _ P Ts Tc) as [<- _].
      assert (Fc : inb (f u) (v_x c)) by (apply (V c u C0); rewrite Tc; cbn; lra).
      destruct (v_gate c); [exact Fc|]. apply b_inter_in; [apply F; lra|exact Fc].
Qed.

(** with exact arithmetic on instants the bisection ends (see C87 for floating-point instants) *)
Lemma bisect2_ends tr cod eps : 0 < eps -> forall n l u, l <= u -> u - l < eps * 2 ^ n -> v_bisect (S n) tr cod eps l u <> None.
Proof.
  intros He. induction n as [|n IH]; intros l u Hlt Hn.
  - cbn [v_bisect]. destruct (negb _); [discriminate|]. destruct (negb _); [|discriminate].
    cbn in Hn. rewrite (proj2 (Rltb_true (u - l) eps)) by lra. discriminate.
  - remember (S n) as m. cbn [v_bisect]. destruct (negb _); [discriminate|]. destruct (negb _); [|discriminate].
    destruct (Rltb (u - l) eps); [discriminate|]. cbv zeta. subst m. cbn [pow] in Hn.
    destruct (v_bisect (S n) tr cod eps (l + (u - l) / 2) u) as [r|] eqn:E.
    + destruct r; try discriminate. apply IH; lra.
    + exfalso. revert E. apply IH; lra.
Qed.
Lemma contains2_ends n tr eps a b pl nl s : 0 < eps -> b - a < eps * 2 ^ n -> a <= b -> 
  (exists l u, v_t s = Itv (Some l) (Some u) /\ a <= l /\ l <= u /\ u <= b) -> v_contains (S n) (bnd a b) tr eps pl nl s <> None.
Proof.
  intros He Hn Hab (l & u & Ts & Hl & Hlu & Hu). unfold v_contains. rewrite Ts. destruct (negb _); [discriminate|].
  assert (E : inter (Itv (Some l) (Some u)) (bnd a b) = Itv (Some l) (Some u)).
  { apply inter_sub_eq; [cbn; lra|]. intros t Ht; apply In_bnd; cbn in Ht; lra. }
  rewrite E. cbv iota beta zeta. destruct (_ || _); [discriminate|]. destruct (_ || _); [discriminate|].
  destruct (b_is_subset _ (v_x s)); [discriminate|].
  pose proof (bisect2_ends tr (v_x s) eps He n l u Hlu ltac:(lra)) as K.
  destruct (v_bisect (S n) tr (v_x s) eps l u) as [[]|]; [discriminate..|congruence].
Qed.
Theorem C86_answers : forall tr eps a b d, 0 < eps -> a <= b -> vpart d -> bnd a b = v_t0_tf d ->
  exists k, vtube_contains k (bnd a b) tr eps d <> None.
Proof.
  intros tr eps a b d He Hab P T. destruct (Pow_x_infinity 2 ltac:(rewrite Rabs_right; lra) ((b - a) / eps + 1)) as [N HN].
  specialize (HN N (le_n N)). rewrite Rabs_right in HN by (apply Rle_ge, pow_le; lra).
  assert (Hn : b - a < eps * 2 ^ N).
  { apply Rmult_lt_reg_r with (/ eps); [apply Rinv_0_lt_compat, He|]. replace (eps * 2 ^ N * / eps) with (2 ^ N) by (field; lra). unfold Rdiv in HN. lra. }
  exists (S N). unfold vtube_contains. rewrite T, itv_eqb_refl, <- T.
  assert (D := fun s => part_bounds d a b s P T). clear - He Hab Hn D.
  assert (K : forall l pl c, (forall s, List.In s l -> List.In s d) -> v_loop (S N) (bnd a b) tr eps pl l c <> None).
  { induction l as [|s l IH]; intros pl c Hl; cbn [v_loop]; [discriminate|]. destruct (v_gate s); [apply IH; intros; apply Hl; right; assumption|].
    pose proof (contains2_ends N tr eps a b pl l s He Hn Hab (D s (Hl s (or_introl eq_refl)))) as C.
    destruct (v_contains (S N) (bnd a b) tr eps pl l s) as [[]|]; [|discriminate| |congruence]; apply IH; intros; apply Hl; right; assumption. }
  apply K. auto.
Qed.

(** a tube made of one gate is not examined: the verdict is YES for all trajectories *)
Theorem C86_gate_refuted : exists n f tr eps d k, encloses n f (bnd 0 0) tr /\ vpart d /\ (forall s, List.In s d -> length (v_x s) = n) /\
  vtube_contains k (bnd 0 0) tr eps d = Some YES /\ ~ vin f d.
Proof.
  exists 1%nat, (fun _ => [5]), (fun _ => [pt 5]), 1, [VS (pt 0) [I2 0 1]], 1%nat.
  refine (conj _ (conj _ (conj _ (conj _ _)))).
  - intros i. split; [reflexivity|]. intros t _ _. constructor; [apply In_pt; reflexivity|constructor].
  - refine (conj _ (conj _ _)); [discriminate| |exact I]. intros s [<-|[]]. exists 0. cbn. lra.
  - intros s [<-|[]]. reflexivity.
  - unfold vtube_contains, bnd, mk. cbn. reval. cbn. unfold v_gate. cbn. reval. reflexivity.
  - intros V. specialize (V _ 0 (or_introl eq_refl) ltac:(cbn; lra)). inversion V as [|? ? ? ? X _]. cbn in X. lra.
Qed.

(** a gate between two slices *)
Definition vt (g : itv) : list vslice := [VS (I2 0 1) [I2 0 2; I2 0 1]; VS (pt 1) [g; I2 0 1]; VS (I2 1 2) [I2 0 2; I2 0 1]].
Lemma vt_part g : vpart (vt g).
Proof.
  refine (conj _ (conj _ _)); [discriminate| |].
  - intros s [<-|[<-|[<-|[]]]]; [exists 0|exists 1|exists 1]; cbn; lra.
  - cbn. unfold link, t_ub, t_lb, is_gate. cbn. reval. repeat split; try (eexists; split; reflexivity); intros [? ?]; discriminate.
Qed.
Definition tr1 : itv -> box := fun _ => [pt 1; pt 0].
Lemma tr1_encloses dom : encloses 2 (fun _ => [1; 0]) dom tr1.
Proof. intros i. split; [reflexivity|]. intros t _ _. repeat constructor; apply In_pt; reflexivity. Qed.
Example C86_ex : encloses 2 (fun _ => [1; 0]) (bnd 0 2) tr1 /\ vpart (vt (I2 0 1)) /\ vpart (vt (I2 0 (1/2))) /\
  vtube_contains 1 (bnd 0 2) tr1 (1/10) (vt (I2 0 1)) = Some YES /\ vtube_contains 1 (bnd 0 2) tr1 (1/10) (vt (I2 0 (1/2))) = Some NO.
Proof.
  refine (conj (tr1_encloses _) (conj (vt_part _) (conj (vt_part _) (conj _ _)))).
  - unfold vtube_contains, v_t0_tf, vt, tr1. cbn. reval. 
    cbn. unfold v_gate. cbn. reval. cbn. unfold v_contains, intersects. cbn. reval. cbn. reflexivity.
  - unfold vtube_contains, v_t0_tf, vt, tr1. cbn. reval.
    cbn. unfold v_gate. cbn. reval. cbn. unfold v_contains, intersects. cbn. reval. cbn. reflexivity.
Qed.
Print Assumptions C86.
Print Assumptions C86_answers.
Print Assumptions C86_gate_refuted.
