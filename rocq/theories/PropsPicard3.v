(** * C79: CtcPicard handles all the slices *)
From Coq Require Import Reals Lra Bool List Arith Lia.
From Verif Require Import Itv Arith Tube TubeSpec TubeFacts TubeOps Static CtcDelay Concrete Picard PicardFacts PropsPicard PropsPicard2.
Import ListNotations.
Open Scope R_scope.

(** the temporal domain and the envelope of a slice *)
Definition sk (s : slice) : R * R * itv := (dom s, s_cod s).
Lemma map_upd_same {B} (f : slice -> B) g : (forall s, f (g s) = f s) -> forall k x, map f (upd k g x) = map f x.
Proof. intros H. induction k; intros [|s x]; cbn; auto; rewrite ?H, ?IHk; auto. Qed.
Lemma sk_put_gate k g x : map sk (put_gate k g x) = map sk x.
Proof. unfold put_gate. rewrite map_upd_same by reflexivity. destruct k; auto. apply map_upd_same. reflexivity. Qed.
Lemma dom_of_sk x y : map sk x = map sk y -> map dom x = map dom y.
Proof. intros H. assert (map fst (map sk x) = map fst (map sk y)) by congruence. rewrite !map_map in H0. exact H0. Qed.
(** the same tube but for the envelope of the slice [k] and for the gates *)
Definition same_but (k : nat) (y x : tube) : Prop := map dom y = map dom x /\ forall j, j <> k -> nth_error (map sk y) j = nth_error (map sk x) j.
Lemma same_but_refl k x : same_but k x x.
Proof. split; auto. Qed.
Lemma same_but_trans k z y x : same_but k z y -> same_but k y x -> same_but k z x.
Proof. intros (A & B) (C & D). split; [congruence|]. intros j N. rewrite B; auto. Qed.
Lemma same_but_sk k y x : map sk y = map sk x -> same_but k y x.
Proof. intros H. split; [apply dom_of_sk; auto|]. rewrite H. auto. Qed.
Lemma same_but_env k e x : same_but k (set_envelope k e true x) x.
Proof.
  unfold set_envelope. destruct (nth_error x k) as [s|] eqn:E; [|apply same_but_refl].
  apply same_but_trans with (upd k (set_cod e) x); [apply same_but_sk; rewrite !sk_put_gate; auto|]. split.
  - apply map_upd_same. reflexivity.
  - intros j N. rewrite !nth_error_map, nth_error_upd. destruct (Nat.eqb j k) eqn:K; [apply Nat.eqb_eq in K; congruence|auto].
Qed.
Lemma on_comps_same k G : (forall e x, same_but k (G e x) x) -> forall xs es, Forall2 (same_but k) (on_comps G es xs) xs.
Proof.
  intros H. induction xs as [|x xs IH]; intros [|e es]; cbn; auto; constructor; auto using same_but_refl. clear. induction xs; constructor; auto using same_but_refl.
Qed.
Lemma F2_same_refl k xs : Forall2 (same_but k) xs xs.
Proof. induction xs; constructor; auto using same_but_refl. Qed.
Lemma F2_same_trans k zs ys xs : Forall2 (same_but k) zs ys -> Forall2 (same_but k) ys xs -> Forall2 (same_but k) zs xs.
Proof. intros H. revert xs. induction H; intros xs K; inversion K; subst; constructor; eauto using same_but_trans. Qed.
Lemma put_env_same k y xs : Forall2 (same_but k) (put_env k y xs) xs.
Proof. apply on_comps_same. intros. apply same_but_env. Qed.
Lemma gate_same k g x : same_but k (set_output_gate k g true x) x /\ same_but k (set_input_gate k g true x) x.
Proof. split; apply same_but_sk; apply sk_put_gate. Qed.

Section All.
  Variables (A : arith) (mid : itv -> R) (delta eps : R) (F : tfnc).
  Lemma loop_inter_same k h x0 init : forall n encl xs r ys, guess_loop_inter A mid delta eps F n k h x0 init encl xs = Some (r, ys) -> Forall2 (same_but k) ys xs.
  Proof.
    induction n as [|n IH]; intros encl xs r ys H; [discriminate|]. cbn [guess_loop_inter] in H.
    set (xs1 := put_env k (map2 inter (map (widen A mid delta eps) encl) init) xs) in *.
    assert (K : Forall2 (same_but k) xs1 xs) by apply put_env_same.
    destruct (picard_bad _ _).
    - injection H as <- <-. apply F2_same_trans with xs1; auto. apply put_env_same.
    - destruct (b_interior _ _); [injection H as <- <-; auto|]. eapply F2_same_trans; eauto.
  Qed.
  Lemma guess_same n fwd k xs ys : guess_kth A mid delta eps F n fwd k xs = Some ys -> Forall2 (same_but k) ys xs.
  Proof.
    unfold guess_kth. destruct (v_is_empty xs); [intros H; injection H as <-; apply F2_same_refl|].
    destruct (slices_at k xs) as [|s l]; [intros H; injection H as <-; apply F2_same_refl|]. destruct (f_inter F).
    - destruct (guess_loop_inter _ _ _ _ _ _ _ _ _ _ _ _) as [[r zs]|] eqn:E; [|discriminate]. apply loop_inter_same in E. intros H. injection H as <-.
      eapply F2_same_trans; [apply on_comps_same; intros e x; destruct fwd; apply gate_same|]. destruct r; auto.
      eapply F2_same_trans; [apply put_env_same|auto].
    - destruct (guess_loop _ _ _ _ _ _ _ _ _ _ _) as [[encl|]|]; [|intros H; injection H as <-; apply F2_same_refl|discriminate].
      intros H. injection H as <-. apply put_env_same.
  Qed.
  Lemma contract_same n fwd k xs ys : contract_kth A mid delta eps F n fwd k xs = Some ys -> Forall2 (same_but k) ys xs.
  Proof.
    unfold contract_kth. destruct (v_is_empty xs); [intros H; injection H as <-; apply F2_same_refl|].
    destruct (guess_kth _ _ _ _ _ _ _ _ _) as [zs|] eqn:E; [|discriminate]. apply guess_same in E. intros H. injection H as <-.
    eapply F2_same_trans; [apply on_comps_same|exact E]. intros e x. unfold picard_gate. destruct (nth_error x k); [|apply same_but_refl]. destruct fwd; apply gate_same.
  Qed.
  (** a slice cut in two *)
  Definition cut_at (k : nat) (t : R) (l : list (R * R * itv)) : list (R * R * itv) :=
    match nth_error l k with Some (a, b, c) => firstn k l ++ (a, t, c) :: (t, b, c) :: skipn (S k) l | None => l end.
  Lemma sample_sk : forall x a b k s t, chain_from a x b -> nth_error x k = Some s -> s_lb s < t < s_ub s -> map sk (sample t x) = cut_at k t (map sk x).
  Proof.
    intros x a b k s t C E HT. unfold cut_at. rewrite nth_error_map, E. cbn [option_map sk dom]. revert a x C E. induction k as [|k IH]; intros a x C E; destruct x as [|s0 x]; try discriminate.
    - injection E as ->. cbn [sample]. rewrite (proj2 (Rltb_true _ _)) by lra. unfold sample_slice. rewrite !(proj2 (Reqb_false _ _)) by lra. cbn [orb].
      destruct x as [|s1 x]; cbn; reflexivity.
    - cbn [nth_error] in E. destruct C as (_ & _ & C). cbn [sample].
      assert (s_ub s0 <= s_lb s) by (apply (chain_in_bounds _ _ _ _ C (nth_error_In _ _ E))).
      rewrite (proj2 (Rltb_false _ _)) by lra. destruct x as [|s1 x]; [destruct k; discriminate|]. cbn [map firstn skipn app]. f_equal. apply (IH (s_ub s0)); auto.
  Qed.
  (** the tubes of a vector *)
  Variables (a b : R).
  Definition vec (D : list (R * R)) (xs : list tube) : Prop := xs <> [] /\ D <> [] /\ Forall (fun x => map dom x = D /\ chain_from a x b) xs.
  Lemma vec_same k D xs ys : Forall2 (same_but k) ys xs -> vec D xs -> vec D ys.
  Proof.
    intros H (N & ND & V). split; [intros ->; inversion H; subst; auto|split; auto]. clear N. induction H as [|y x ys xs (H1 & _) H IH]; [constructor|].
    inversion V as [|? ? (<- & C) V']; subst. constructor; auto. split; auto. apply (chain_from_dom x); auto.
  Qed.
  Lemma cod_same k j xs ys : Forall2 (same_but k) ys xs -> j <> k -> cod_k j ys = cod_k j xs.
  Proof.
    intros H N. unfold cod_k, slices_at. induction H as [|y x ys xs (_ & K) H IH]; cbn; auto. rewrite !map_app, IH. f_equal.
    specialize (K j N). rewrite !nth_error_map in K. destruct (nth_error y j), (nth_error x j); cbn in *; try discriminate; auto. injection K as _ _ ->. auto.
  Qed.
  (** bounded, or not longer than 1/500 of the temporal domain *)
  Definition fine (D : list (R * R)) (xs : list tube) (j : nat) : Prop :=
    picard_unbounded (cod_k j xs) = false \/ forall l u, nth_error D j = Some (l, u) -> u - l <= (b - a) / 500.
  Lemma fine_same k j D xs ys : Forall2 (same_but k) ys xs -> j <> k -> fine D xs j -> fine D ys j.
  Proof. intros H N K. unfold fine. rewrite (cod_same k j xs ys); auto. Qed.
  Lemma to_split_spec k D xs : vec D xs -> (forall t, to_split k xs = Some t -> exists l u, nth_error D k = Some (l, u) /\ t = (l + u) / 2 /\ l < t < u) /\
    (to_split k xs = None -> fine D xs k).
  Proof.
    intros (N & ND & V). destruct xs as [|x xs]; [congruence|]. inversion V as [|? ? (HD & C) V']; subst. unfold to_split, fine, slices_at. cbn [flat_map].
    assert (NX : x <> []) by (intros ->; auto). rewrite (chain_t0 _ _ _ C NX), (chain_tf _ _ _ C NX). rewrite nth_error_map.
    destruct (nth_error x k) as [s|] eqn:E; cbn [app option_map].
    - destruct (chain_in_bounds _ _ _ _ C (nth_error_In _ _ E)) as (_ & L & _).
      destruct (picard_unbounded (cod_k k (x :: xs))) eqn:P; cbn [andb].
      + destruct (Rltb _ _) eqn:Q; split; try discriminate.
        * intros t H. injection H as <-. exists (s_lb s), (s_ub s). repeat split; auto; lra.
        * intros _. right. intros l u H. injection H as <- <-. apply Rltb_false in Q. lra.
      + split; [discriminate|auto].
    - split; [|intros _; right; intros l u H; discriminate]. intros t H. exfalso.
      assert (KK : slices_at k xs = []).
      { unfold slices_at. clear - V' E. induction V' as [|y ys (HD & _) V IH]; cbn; auto. rewrite IH, app_nil_r.
        assert (nth_error (map dom y) k = nth_error (map dom x) k) by (rewrite HD; auto). rewrite !nth_error_map, E in H. destruct (nth_error y k); [discriminate|auto]. }
      unfold slices_at in KK. rewrite KK in H. discriminate.
  Qed.
  (** the slicing after the cut of the slice [k] *)
  Definition cut_dom (k : nat) (t : R) (D : list (R * R)) : list (R * R) :=
    match nth_error D k with Some (l, u) => firstn k D ++ (l, t) :: (t, u) :: skipn (S k) D | None => D end.
  Lemma nth_cut {B} (k j : nat) (p q : B) l : (k < length l)%nat -> nth_error (firstn k l ++ p :: q :: skipn (S k) l) j =
    if Nat.ltb j k then nth_error l j else if Nat.eqb j k then Some p else if Nat.eqb j (S k) then Some q else nth_error l (pred j).
  Proof.
    revert j l. induction k as [|k IH]; intros j [|x l] L; cbn in L; try lia.
    - destruct j as [|[|j]]; reflexivity.
    - destruct j as [|j]; [reflexivity|]. cbn [firstn skipn app nth_error]. rewrite IH by lia. change (Nat.ltb (S j) (S k)) with (Nat.ltb j k).
      change (Nat.eqb (S j) (S k)) with (Nat.eqb j k). change (Nat.eqb (S j) (S (S k))) with (Nat.eqb j (S k)). cbn [pred].
      destruct (Nat.ltb j k) eqn:E1; auto. destruct (Nat.eqb j k) eqn:E2; auto. destruct (Nat.eqb j (S k)) eqn:E3; auto.
      apply Nat.ltb_ge in E1. apply Nat.eqb_neq in E2. destruct j; [lia|]. reflexivity.
  Qed.
  Definition back (k j : nat) : nat := if Nat.leb j k then j else pred j.
  Lemma cut_sample k t l u D xs : vec D xs -> nth_error D k = Some (l, u) -> l < t < u ->
    vec (cut_dom k t D) (map (sample t) xs) /\ length (cut_dom k t D) = S (length D) /\ forall j, cod_k j (map (sample t) xs) = cod_k (back k j) xs.
  Proof.
    intros (N & ND & V) ED HT. assert (LK : (k < length D)%nat) by (apply nth_error_Some; congruence).
    assert (LC : length (cut_dom k t D) = S (length D)).
    { unfold cut_dom. rewrite ED, app_length, firstn_length. cbn [length]. rewrite skipn_length. lia. }
    assert (ONE : forall x, map dom x = D -> chain_from a x b -> map dom (sample t x) = cut_dom k t D /\ chain_from a (sample t x) b /\
      forall j, nth_error (map s_cod (sample t x)) j = nth_error (map s_cod x) (back k j)).
    { intros x HD C. assert (E : exists s, nth_error x k = Some s /\ s_lb s = l /\ s_ub s = u).
      { rewrite <- HD, nth_error_map in ED. destruct (nth_error x k) as [s|]; [|discriminate]. injection ED as <- <-. exists s. auto. }
      destruct E as (s & E & <- & <-). assert (SK := sample_sk x a b k s t C E HT).
      assert (LX : (k < length x)%nat) by (apply nth_error_Some; congruence).
      assert (D1 : map dom (sample t x) = cut_dom k t D).
      { transitivity (map fst (map sk (sample t x))); [rewrite map_map; reflexivity|]. rewrite SK. unfold cut_at, cut_dom. rewrite nth_error_map, E, ED. cbn [option_map sk dom].
        subst D. rewrite map_app, <- firstn_map. cbn [map]. rewrite <- skipn_map, map_map. reflexivity. }
      refine (conj D1 (conj _ _)).
      - clear - C E HT SK LX. unfold cut_at in SK. rewrite nth_error_map, E in SK. cbn [option_map sk dom] in SK.
        apply (f_equal (map fst)) in SK. rewrite map_map, map_app, <- firstn_map in SK. cbn [map fst] in SK. rewrite <- skipn_map, map_map in SK.
        assert (X : x = firstn k x ++ s :: skipn (S k) x).
        { clear - E. revert x E. induction k as [|k IH]; intros [|y x] E; try discriminate; [injection E as ->; reflexivity|]. cbn [firstn skipn app]. f_equal. apply IH. exact E. }
        set (z := firstn k x ++ mkS (s_lb s) t (s_cod s) (s_in s) (s_out s) :: mkS t (s_ub s) (s_cod s) (s_in s) (s_out s) :: skipn (S k) x).
        apply chain_from_dom with z.
        + unfold z. rewrite map_app, <- firstn_map. cbn [map]. rewrite <- skipn_map. symmetry. exact SK.
        + unfold z. rewrite X in C. apply chain_app in C. apply chain_app. destruct C as (c & C1 & C2). exists c. split; auto. cbn in C2 |- *. repeat split; try tauto; lra.
      - intros j. transitivity (nth_error (map snd (map sk (sample t x))) j); [rewrite map_map; reflexivity|]. rewrite SK. unfold cut_at. rewrite (nth_error_map sk), E. cbn [option_map sk dom].
        rewrite nth_error_map, nth_cut by (rewrite map_length; auto). unfold back. rewrite !nth_error_map.
        destruct (Nat.ltb j k) eqn:E1; [apply Nat.ltb_lt in E1|apply Nat.ltb_ge in E1].
        + rewrite (proj2 (Nat.leb_le _ _)) by lia. destruct (nth_error x j); auto.
        + destruct (Nat.eqb j k) eqn:E2; [apply Nat.eqb_eq in E2; subst; rewrite Nat.leb_refl, E; auto|apply Nat.eqb_neq in E2].
          rewrite (proj2 (Nat.leb_gt _ _)) by lia. destruct (Nat.eqb j (S k)) eqn:E3; [apply Nat.eqb_eq in E3; subst; cbn; rewrite E; auto|]. destruct (nth_error x (pred j)); auto. }
    refine (conj (conj _ (conj _ _)) (conj LC _)).
    - destruct xs; [congruence|discriminate].
    - intros K. rewrite K in LC. discriminate.
    - clear N. induction V as [|x xs (HD & C) V IH]; constructor; auto. destruct (ONE x HD C) as (A1 & A2 & _). auto.
    - intros j. clear N. unfold cod_k, slices_at. induction V as [|x xs (HD & C) V IH]; cbn; auto. rewrite !map_app. rewrite IH. f_equal.
      destruct (ONE x HD C) as (_ & _ & K). specialize (K j). rewrite !nth_error_map in K.
      destruct (nth_error (sample t x) j), (nth_error x (back k j)); cbn in *; try discriminate; auto. injection K as ->. auto.
  Qed.
  Lemma fine_cut k t l u D xs j : vec D xs -> nth_error D k = Some (l, u) -> l < t < u -> back k j <> k -> fine D xs (back k j) -> fine (cut_dom k t D) (map (sample t) xs) j.
  Proof.
    intros V ED HT N H. destruct (cut_sample k t l u D xs V ED HT) as (_ & _ & K). unfold fine. rewrite K. destruct H as [H|H]; auto. right.
    intros l1 u1 E. apply H. unfold cut_dom in E. rewrite ED in E. rewrite nth_cut in E by (apply nth_error_Some; congruence). unfold back in *.
    destruct (Nat.ltb j k) eqn:E1; [apply Nat.ltb_lt in E1; rewrite (proj2 (Nat.leb_le _ _)) by lia; auto|apply Nat.ltb_ge in E1].
    destruct (Nat.leb j k) eqn:E2; [apply Nat.leb_le in E2; lia|apply Nat.leb_gt in E2].
    rewrite (proj2 (Nat.eqb_neq j k)) in E by lia. destruct (Nat.eqb j (S k)) eqn:E3; auto. apply Nat.eqb_eq in E3. subst. cbn in N. congruence.
  Qed.
  (** the two loops *)
  Lemma fwd_fine : forall n g k D xs ys, vec D xs -> (forall j, (j < k)%nat -> fine D xs j) -> fwd_loop A mid delta eps F n g k (length D) xs = Some ys ->
    exists D', vec D' ys /\ forall j, (j < length D')%nat -> fine D' ys j.
  Proof.
    induction n as [|n IH]; intros g k D xs ys V H E; [discriminate|]. cbn [fwd_loop] in E.
    destruct (Nat.ltb k (length D)) eqn:EK; [apply Nat.ltb_lt in EK|injection E as <-; apply Nat.ltb_ge in EK; exists D; split; auto; intros j Hj; apply H; lia].
    destruct (picard_unbounded (cod_k k xs)) eqn:EP; cbn [negb] in E.
    - destruct (contract_kth _ _ _ _ _ _ _ _ _) as [zs|] eqn:EC; [|discriminate]. apply contract_same in EC.
      assert (VZ := vec_same k D xs zs EC V). assert (HZ : forall j, (j < k)%nat -> fine D zs j) by (intros j Hj; apply (fine_same k j D xs zs); auto; lia).
      destruct (to_split_spec k D zs VZ) as (S1 & S2). destruct (to_split k zs) as [t|].
      + destruct (S1 t eq_refl) as (l & u & ED & _ & HT). destruct (cut_sample k t l u D zs VZ ED HT) as (V' & L' & _).
        rewrite <- L' in E. apply (IH g k (cut_dom k t D) (map (sample t) zs) ys); auto. intros j Hj. apply (fine_cut k t l u D zs); auto; unfold back; rewrite (proj2 (Nat.leb_le _ _)) by lia; auto; lia.
      + apply (IH g (S k) D zs ys); auto. intros j Hj. destruct (Nat.eq_dec j k) as [->|N]; auto. apply HZ. lia.
    - apply (IH g (S k) D xs ys); auto. intros j Hj. destruct (Nat.eq_dec j k) as [->|N]; [left; auto|]. apply H. lia.
  Qed.
  Lemma bwd_fine : forall n g k1 D xs ys, vec D xs -> (forall j, (k1 <= j)%nat -> fine D xs j) -> bwd_loop A mid delta eps F n g k1 xs = Some ys ->
    exists D', vec D' ys /\ forall j, (j < length D')%nat -> fine D' ys j.
  Proof.
    induction n as [|n IH]; intros g k1 D xs ys V H E; [discriminate|]. cbn [bwd_loop] in E.
    destruct k1 as [|k]; [injection E as <-; exists D; split; auto; intros j _; apply H; lia|].
    destruct (picard_unbounded (cod_k k xs)) eqn:EP; cbn [negb] in E.
    - destruct (contract_kth _ _ _ _ _ _ _ _ _) as [zs|] eqn:EC; [|discriminate]. apply contract_same in EC.
      assert (VZ := vec_same k D xs zs EC V). assert (HZ : forall j, (S k <= j)%nat -> fine D zs j) by (intros j Hj; apply (fine_same k j D xs zs); auto; lia).
      destruct (to_split_spec k D zs VZ) as (S1 & S2). destruct (to_split k zs) as [t|].
      + destruct (S1 t eq_refl) as (l & u & ED & _ & HT). destruct (cut_sample k t l u D zs VZ ED HT) as (V' & L' & _).
        apply (IH g (S (S k)) (cut_dom k t D) (map (sample t) zs) ys); auto. intros j Hj. apply (fine_cut k t l u D zs); auto; unfold back; rewrite (proj2 (Nat.leb_gt _ _)) by lia; [lia|]. apply HZ. lia.
      + apply (IH g k D zs ys); auto. intros j Hj. destruct (Nat.eq_dec j k) as [->|N]; auto. apply HZ. lia.
    - apply (IH g k D xs ys); auto. intros j Hj. destruct (Nat.eq_dec j k) as [->|N]; [left; auto|]. apply H. lia.
  Qed.
  Lemma dir_fine n g fwd D xs ys : vec D xs -> v_is_empty xs = false -> picard_dir A mid delta eps F n g false fwd xs = Some ys ->
    exists D', vec D' ys /\ forall j, (j < length D')%nat -> fine D' ys j.
  Proof.
    intros V NE. unfold picard_dir. rewrite NE. assert (LD : match xs with x :: _ => length x | [] => 0%nat end = length D).
    { destruct V as (N & _ & V). destruct xs as [|x xs]; [congruence|]. inversion V as [|? ? (<- & _) _]; subst. rewrite map_length. auto. }
    rewrite LD. destruct fwd.
    - destruct (fwd_loop _ _ _ _ _ _ _ _ _ _) as [zs|] eqn:E; [|discriminate]. intros H. injection H as <-. apply (fwd_fine n g 0 D xs zs); auto. intros j Hj. lia.
    - destruct (bwd_loop _ _ _ _ _ _ _ _ _) as [zs|] eqn:E; [|discriminate]. intros H. injection H as <-. apply (bwd_fine n g (length D) D xs zs); auto.
      intros j Hj. right. intros l u K. assert (nth_error D j = None) by (apply nth_error_None; auto). congruence.
  Qed.
End All.

(** Without preservation of the slicing, when the initial tube is not empty: at the end, each slice has a bounded
    envelope, or is not longer than 1/500 of the temporal domain. *)
Theorem C79_all_slices : forall A mid delta eps F n g fwd bwd a b D xs ys, xs <> [] -> D <> [] ->
  Forall (fun x => map dom x = D /\ chain_from a x b) xs -> v_is_empty xs = false -> fwd || bwd = true ->
  picard A mid delta eps F n g false fwd bwd xs = Some ys ->
  exists D', Forall (fun y => map dom y = D' /\ chain_from a y b) ys /\
    forall k l u, nth_error D' k = Some (l, u) -> picard_unbounded (cod_k k ys) = false \/ u - l <= (b - a) / 500.
Proof.
  intros A mid delta eps F n g fwd bwd a b D xs ys N ND V NE FB H.
  assert (K : exists D', vec a b D' ys /\ forall j, (j < length D')%nat -> fine a b D' ys j).
  { assert (V0 : vec a b D xs) by (refine (conj N (conj ND V))). unfold picard in H. rewrite NE in H. destruct fwd, bwd; cbn [andb] in H; try discriminate.
    - destruct (picard_dir A mid delta eps F n g false true xs) as [zs|] eqn:E; [|discriminate].
      destruct (dir_fine A mid delta eps F a b n g true D xs zs V0 NE E) as (D1 & V1 & F1).
      destruct (v_is_empty zs) eqn:EZ; [|apply (dir_fine A mid delta eps F a b n g false D1 zs ys); auto].
      unfold picard_dir in H. rewrite EZ in H. injection H as <-. eauto.
    - apply (dir_fine A mid delta eps F a b n g true D xs ys); auto.
    - apply (dir_fine A mid delta eps F a b n g false D xs ys); auto. }
  destruct K as (D' & (_ & _ & V') & K). exists D'. split; auto. intros k l u E. assert (LK : (k < length D')%nat) by (apply nth_error_Some; congruence). destruct (K k LK) as [K1|K1]; [left; exact K1|right; apply K1; exact E].
Qed.
(** x' = t from x(0) = 0: the unbounded slice is bounded after the contraction *)
Example C79_all_slices_example : picard_unbounded (cod_k 0 [xT]) = true /\ picard exact midR (11/10) (1/1000) (tfunction FT 1) 5 5 false true false [xT] = Some [yT] /\
  exists D', Forall (fun y => map dom y = D' /\ chain_from 0 y 1) [yT] /\
    forall k l u, nth_error D' k = Some (l, u) -> picard_unbounded (cod_k k [yT]) = false \/ u - l <= (1 - 0) / 500.
Proof.
  assert (E : picard exact midR (11/10) (1/1000) (tfunction FT 1) 5 5 false true false [xT] = Some [yT]).
  { unfold picard. assert (EV : v_is_empty [xT] = false) by reflexivity. rewrite EV. cbn [andb]. exact run_keep. }
  refine (conj _ (conj E _)).
  - reflexivity.
  - apply (C79_all_slices exact midR (11/10) (1/1000) (tfunction FT 1) 5 5 true false 0 1 (map dom xT) [xT] [yT]); auto; try discriminate. constructor; auto. split; auto. apply xT_ok.
Qed.
Print Assumptions C79_all_slices.
