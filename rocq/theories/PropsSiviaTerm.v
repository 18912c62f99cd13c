(** * C41: SIVIA terminates *)

From Coq Require Import Reals Lra Lia Bool List Arith.
Import ListNotations.
From Verif Require Import Itv PropsDyn2 Tube Static PropsStatic Sivia PropsSivia.
Open Scope R_scope.

(** ** Specification *)
Definition bounded (i : itv) : Prop := exists a b, i = Itv (Some a) (Some b) /\ a <= b.
Definition width (i : itv) : R := match i with Itv (Some a) (Some b) => b - a | _ => 0 end.
(** What is expected of LargestFirst::bisect: a component of largest diameter is reduced by a constant ratio (IBEX: 0.55) *)
Record bis_shrinks (q : R) (bis : box -> option (box * box)) : Prop := {
  sh_q : 0 <= q < 1;
  sh_some : forall x i, Forall bounded x -> List.In i x -> 0 < width i -> bis x <> None;
  sh_shrink : forall x x1 x2, Forall bounded x -> bis x = Some (x1, x2) ->
    exists k i i1 i2, nth_error x k = Some i /\ nth_error x1 k = Some i1 /\ nth_error x2 k = Some i2 /\
      (forall j, List.In j x -> width j <= width i) /\ width i1 <= q * width i /\ width i2 <= q * width i }.

(** ** Number of bisections *)
Lemma sum_cons a l : list_sum (a :: l) = (a + list_sum l)%nat. Proof. reflexivity. Qed.
Definition fits (i : itv) : Prop := i = Emp \/ bounded i.
Lemma fits_width i : fits i -> 0 <= width i.
Proof. intros [->|(a & b & -> & H)]; cbn; lra. Qed.
Lemma sub_fits i j : sub i j -> wf i -> fits j -> fits i /\ width i <= width j.
Proof.
  intros S W F. destruct i as [|l h]; [split; [left; auto|apply fits_width; auto]|].
  destruct F as [->|(a & b & -> & H)].
  - exfalso. destruct l as [c|], h as [d|]; cbn in W; [apply (S c)|apply (S c)|apply (S d)|apply (S 0)]; cbn; lra.
  - destruct l as [c|], h as [d|]; cbn in W.
    + assert (Hc := S c). assert (Hd := S d). cbn in Hc, Hd. split; [right; exists c, d; auto|cbn; lra].
    + exfalso. assert (Hc := S (Rmax c (b + 1))). cbn in Hc. assert (c <= Rmax c (b + 1)) by apply Rmax_l. assert (b + 1 <= Rmax c (b + 1)) by apply Rmax_r. lra.
    + exfalso. assert (Hc := S (Rmin d (a - 1))). cbn in Hc. assert (Rmin d (a - 1) <= d) by apply Rmin_l. assert (Rmin d (a - 1) <= a - 1) by apply Rmin_r. lra.
    + exfalso. assert (Hc := S (b + 1)). cbn in Hc. lra.
Qed.

Section Measure.
Context (q precision : R) (Hq : 0 <= q < 1) (Hp : 0 < precision).
(** after [k] reductions by [q] the component is smaller than the precision *)
Definition W (i : itv) (k : nat) : Prop := fits i /\ width i * q ^ k < precision.
Definition weigh (x : box) (w : nat) : Prop := exists ks, Forall2 W x ks /\ list_sum ks = w.
Lemma pow_pos k : 0 <= q ^ k.
Proof. apply pow_le. lra. Qed.
Lemma weigh_sub x y w : Forall2 sub x y -> Forall wf x -> weigh y w -> weigh x w.
Proof.
  intros S Wx (ks & F & E). exists ks. split; auto. clear E. revert ks F.
  induction S as [|i j x y S SS IH]; intros ks F; inversion F; subst; constructor.
  - inversion Wx; subst. destruct H1 as [F1 F2]. destruct (sub_fits i j) as [G1 G2]; auto. split; auto.
    apply Rle_lt_trans with (width j * q ^ y0); auto. apply Rmult_le_compat_r; auto. apply pow_pos.
  - inversion Wx; subst. apply IH; auto.
Qed.
Lemma weigh_exists x : Forall bounded x -> exists w, weigh x w.
Proof.
  induction 1 as [|i x B F (w & ks & K & E)]; [exists 0%nat, []; split; auto; constructor|].
  assert (0 <= width i) by (apply fits_width; right; auto).
  destruct (pow_lt_1_zero q) with (y := precision / (width i + 1)) as [N HN].
  - rewrite Rabs_pos_eq; lra.
  - apply Rdiv_lt_0_compat; lra.
  - exists (N + w)%nat, (N :: ks). split; [|rewrite ?sum_cons; lia]. constructor; auto. split; [right; auto|].
    specialize (HN N (Nat.le_refl N)). rewrite Rabs_pos_eq in HN by apply pow_pos.
    apply Rle_lt_trans with ((width i + 1) * q ^ N).
    + apply Rmult_le_compat_r; [apply pow_pos|lra].
    + apply Rlt_le_trans with ((width i + 1) * (precision / (width i + 1))).
      * apply Rmult_lt_compat_l; [lra|exact HN].
      * right. field. lra.
Qed.
Lemma weigh_at : forall x ks k i x1 i1, Forall2 W x ks -> nth_error x k = Some i -> precision <= width i -> Forall2 sub x1 x -> Forall wf x1 ->
  nth_error x1 k = Some i1 -> width i1 <= q * width i -> exists ks', Forall2 W x1 ks' /\ S (list_sum ks') = list_sum ks.
Proof.
  intros x ks k. revert x ks. induction k as [|k IH]; intros x ks i x1 i1 F E L S Wx E1 L1.
  - inversion S as [|j1 j x1' x' Sj SS]; subst; [discriminate|]. inversion F as [|? m ? ks' Fj FF]; subst. cbn in E, E1.
    injection E; intros <-. injection E1; intros <-. inversion Wx; subst. destruct Fj as [F1 F2].
    destruct (sub_fits j1 j) as [G1 G2]; auto.
    destruct m as [|m]; [cbn in F2; lra|]. exists (m :: ks'). split; [|rewrite ?sum_cons; lia]. constructor.
    + split; auto. apply Rle_lt_trans with (q * width j * q ^ m).
      * apply Rmult_le_compat_r; auto. apply pow_pos.
      * cbn in F2. replace (q * width j * q ^ m) with (width j * (q * q ^ m)) by ring. auto.
    + clear - FF SS H2 Hq. revert ks' FF. induction SS as [|i' j' x y S SS IH]; intros ks F; inversion F; subst; constructor.
      * inversion H2; subst. destruct H1 as [F1 F2]. destruct (sub_fits i' j') as [G1 G2]; auto. split; auto.
        apply Rle_lt_trans with (width j' * q ^ y0); auto. apply Rmult_le_compat_r; auto. apply pow_pos.
      * inversion H2; subst. apply IH; auto.
  - inversion S as [|j1 j x1' x' Sj SS]; subst; [discriminate|]. inversion F as [|? m ? ks' Fj FF]; subst. cbn in E, E1. inversion Wx; subst.
    destruct (IH _ _ _ _ _ FF E L SS H2 E1 L1) as (ks2 & G1 & G2). exists (m :: ks2). split; [|rewrite ?sum_cons; lia]. constructor; auto.
    destruct Fj as [F1 F2]. destruct (sub_fits j1 j) as [K1 K2]; auto. split; auto.
    apply Rle_lt_trans with (width j * q ^ m); auto. apply Rmult_le_compat_r; auto. apply pow_pos.
Qed.
Lemma not_small x : Forall bounded x -> max_diam_lt precision x = false -> exists i, List.In i x /\ precision <= width i.
Proof.
  induction 1 as [|i x (a & b & -> & Lab) F IH]; intros H; cbn in H; [discriminate|].
  apply andb_false_iff in H. destruct H as [H|H].
  - exists (Itv (Some a) (Some b)). split; [left; auto|]. apply Rltb_false in H. cbn. lra.
  - destruct (IH H) as (i & Hi & L). exists i. split; auto. right; auto.
Qed.
Lemma weigh_bis bis : bis_ok bis -> bis_shrinks q bis -> forall x w, Forall bounded x -> weigh x w -> max_diam_lt precision x = false ->
  exists x1 x2 w', bis x = Some (x1, x2) /\ w = S w' /\ weigh x1 w' /\ weigh x2 w'.
Proof.
  intros HB HS x w B (ks & F & E) M. destruct (not_small x B M) as (i & Hi & Li).
  destruct (bis x) as [[x1 x2]|] eqn:Eb; [|exfalso; apply (sh_some _ _ HS x i); auto; lra].
  destruct (sh_shrink _ _ HS x x1 x2 B Eb) as (k & j & i1 & i2 & K & K1 & K2 & Mx & L1 & L2).
  assert (Lj : precision <= width j) by (specialize (Mx i Hi); lra).
  destruct (b_sub _ HB _ _ _ Eb) as [S1 S2].
  assert (Wx : Forall wf x) by (eapply Forall_impl; [|exact B]; intros ? (? & ? & -> & ?); auto).
  destruct (b_wf _ HB _ _ _ Eb Wx) as [W1 W2].
  destruct (weigh_at x ks k j x1 i1 F K Lj S1 W1 K1 L1) as (ks1 & G1 & G2).
  destruct (weigh_at x ks k j x2 i2 F K Lj S2 W2 K2 L2) as (ks2 & G3 & G4).
  exists x1, x2, (list_sum ks1). repeat split; auto; [lia|exists ks1; auto|exists ks2; split; auto; lia].
Qed.
End Measure.

(** number of iterations of the loop for the boxes of the stack *)
Definition total (ws : list nat) : nat := list_sum (map (fun w => 2 ^ S w - 1)%nat ws).
Lemma pow2_pos w : (1 <= 2 ^ w)%nat.
Proof. induction w; cbn; lia. Qed.
Lemma total_cons w ws : total (w :: ws) = (2 ^ S w - 1 + total ws)%nat. Proof. reflexivity. Qed.
Lemma total_app a b : total (a ++ b) = (total a + total b)%nat.
Proof. unfold total. rewrite map_app, list_sum_app. auto. Qed.
Lemma total_pos w ws : (1 <= total (w :: ws))%nat.
Proof. rewrite total_cons. cbn [Nat.pow]. pose proof (pow2_pos w). lia. Qed.
Lemma total_split w ws fuel : (total (S w :: ws) <= S fuel -> total (ws ++ [w; w]) <= fuel)%nat.
Proof. rewrite total_app, !total_cons. cbn [Nat.pow]. unfold total. cbn [map list_sum fold_right]. pose proof (pow2_pos w). cbn [Nat.pow]. lia. Qed.
Lemma total_tail w ws fuel : (total (w :: ws) <= S fuel -> total ws <= fuel)%nat.
Proof. rewrite total_cons. cbn [Nat.pow]. pose proof (pow2_pos w). lia. Qed.

Lemma bounded_of_sub x y : Forall2 sub x y -> Forall wf x -> ~ List.In Emp x -> Forall fits y -> Forall bounded x.
Proof.
  intros S Wx N F. induction S as [|i j x y S SS IH]; constructor; inversion Wx; inversion F; subst.
  - destruct (sub_fits i j) as [[->|G] _]; auto. exfalso. apply N. left. auto.
  - apply IH; auto. intros H. apply N. right. auto.
Qed.
Lemma bounded_above x y : Forall2 sub x y -> Forall wf x -> ~ List.In Emp x -> Forall fits y -> Forall bounded y.
Proof.
  intros S Wx N F. induction S as [|i j x y S SS IH]; constructor; inversion Wx; inversion F; subst.
  - destruct H5 as [->|H5]; auto. exfalso. apply N. left. destruct i as [|l h]; auto. exfalso.
    destruct l as [c|], h as [d|]; cbn in *; [apply (S c)|apply (S c)|apply (S d)|apply (S 0)]; cbn; lra.
  - apply IH; auto. intros H. apply N. right. auto.
Qed.
Lemma weigh_fits q precision x w : weigh q precision x w -> Forall fits x.
Proof. intros (ks & F & _). induction F as [|i k x ks [F1 _] F IH]; constructor; auto. Qed.

(** ** Contractors *)
Theorem C41_ctc : forall diff bis q ctc precision regular x0 y0, bis_ok bis -> bis_shrinks q bis ->
  contracts ctc -> gives_boxes ctc -> (forall x, normal (ctc x)) -> Forall bounded x0 -> Forall wf y0 -> 0 < precision ->
  exists fuel r, sivia_ctc diff bis ctc precision regular x0 y0 fuel = Done r.
Proof.
  intros diff bis q ctc precision regular x0 y0 HB HS Cc Cw Cn B0 Wy Hp.
  destruct (weigh_exists q precision (sh_q _ _ HS) Hp x0 B0) as (w0 & H0).
  set (n := length x0).
  set (St := fun (x : box) (w : nat) => exists u, x = u ++ y0 /\ length u = n /\ Forall wf u /\ weigh q precision u w).
  assert (Main : forall fuel stack r ws, Forall2 St stack ws -> (total ws <= fuel)%nat ->
    exists r', sivia_ctc_loop diff bis ctc precision regular n y0 fuel stack r = Done r').
  { induction fuel as [|fuel IH]; intros stack r ws F L.
    - destruct F as [|x w stack ws Hx F]; [exists r; reflexivity|]. pose proof (total_pos w ws). lia.
    - destruct F as [|xb w stack ws Hx F]; [exists r; reflexivity|]. cbn [sivia_ctc_loop]. cbv zeta.
      set (r1 := add_out _ r). pose proof (total_tail w ws fuel L) as Lt.
      destruct (b_is_empty (ctc xb)) eqn:Ee; [apply (IH _ _ ws); auto|].
      set (xr := if regular then xb else ctc xb).
      destruct (max_diam_lt precision (firstn n xr)) eqn:Em; [apply (IH _ _ ws); auto|].
      destruct Hx as (u & -> & Lu & Wu & Hw).
      assert (Wb : Forall wf (u ++ y0)) by (apply Forall_app; auto).
      assert (Eu : firstn n (u ++ y0) = u) by (rewrite <- Lu, firstn_app, Nat.sub_diag, firstn_all; cbn; apply app_nil_r).
      assert (Wc : Forall wf (firstn n (ctc (u ++ y0)))).
      { pose proof (Cw _ Wb) as H. rewrite Forall_forall in *. intros i Hi. apply H. rewrite <- (firstn_skipn n). apply in_or_app; auto. }
      assert (Nc : ~ List.In Emp (firstn n (ctc (u ++ y0)))).
      { intros H. apply (Cn _ Ee). rewrite <- (firstn_skipn n). apply in_or_app; auto. }
      assert (Sc : Forall2 sub (firstn n (ctc (u ++ y0))) u).
      { pose proof (proj1 (sub_firstn n _ _ (Cc (u ++ y0)))) as H. rewrite Eu in H. auto. }
      assert (Br : Forall bounded (firstn n xr)).
      { unfold xr. destruct regular.
        - rewrite Eu. eapply bounded_above; eauto. eapply weigh_fits; eauto.
        - eapply bounded_of_sub; eauto. eapply weigh_fits; eauto. }
      assert (Wr : weigh q precision (firstn n xr) w).
      { unfold xr. destruct regular; [rewrite Eu; auto|]. eapply weigh_sub; eauto. apply (sh_q _ _ HS). }
      destruct (weigh_bis q precision (sh_q _ _ HS) Hp bis HB HS _ w Br Wr Em) as (x1 & x2 & w' & Eb & -> & K1 & K2).
      rewrite Eb. apply (IH _ _ (ws ++ [w'; w'])); [|apply total_split; auto].
      assert (Wxr : Forall wf (firstn n xr)) by (eapply Forall_impl; [|exact Br]; intros ? (? & ? & -> & ?); auto).
      destruct (b_wf _ HB _ _ _ Eb Wxr) as [W1 W2]. destruct (b_sub _ HB _ _ _ Eb) as [S1 S2].
      assert (Ln : length (firstn n xr) = n).
      { unfold xr. destruct regular; [rewrite Eu; auto|]. rewrite (F2_len _ _ _ Sc). auto. }
      apply Forall2_app; auto. repeat constructor.
      + exists x1. repeat split; auto. rewrite (F2_len _ _ _ S1). auto.
      + exists x2. repeat split; auto. rewrite (F2_len _ _ _ S2). auto. }
  exists (total [w0]). unfold sivia_ctc. apply (Main _ _ _ [w0]); auto.
  repeat constructor. exists x0. repeat split; auto. eapply Forall_impl; [|exact B0]. intros ? (? & ? & -> & ?); auto.
Qed.

(** ** Separators *)
Theorem C41_sep : forall diff bis q (sep : sep_t) precision regular x0, bis_ok bis -> bis_shrinks q bis ->
  (forall xi xo : box, Forall2 sub (fst (sep xi xo)) xi /\ Forall2 sub (snd (sep xi xo)) xo) ->
  (forall xi xo : box, Forall wf xi -> Forall wf xo -> Forall wf (fst (sep xi xo)) /\ Forall wf (snd (sep xi xo))) ->
  (forall xi xo : box, normal (fst (sep xi xo)) /\ normal (snd (sep xi xo))) ->
  Forall bounded x0 -> 0 < precision -> exists fuel r, sivia_sep diff bis sep precision regular x0 fuel = Done r.
Proof.
  intros diff bis q sep precision regular x0 HB HS Ss Sw Sn B0 Hp.
  destruct (weigh_exists q precision (sh_q _ _ HS) Hp x0 B0) as (w0 & H0).
  set (St := fun (x : box) (w : nat) => Forall wf x /\ weigh q precision x w).
  assert (Main : forall fuel stack r ws, Forall2 St stack ws -> (total ws <= fuel)%nat ->
    exists r', sivia_sep_loop diff bis sep precision regular fuel stack r = Done r').
  { induction fuel as [|fuel IH]; intros stack r ws F L.
    - destruct F as [|x w stack ws Hx F]; [exists r; reflexivity|]. pose proof (total_pos w ws). lia.
    - destruct F as [|xb w stack ws Hx F]; [exists r; reflexivity|]. cbn [sivia_sep_loop]. cbv zeta.
      pose proof (total_tail w ws fuel L) as Lt.
      destruct Hx as [Wb Hw]. destruct (Ss xb xb) as [Si So]. destruct (Sw xb xb Wb Wb) as [Wi Wo]. destruct (Sn xb xb) as [Ni No].
      set (xi := fst (sep xb xb)) in *. set (xo := snd (sep xb xb)) in *.
      assert (Lio : length xi = length xo) by (rewrite (F2_len _ _ _ Si), (F2_len _ _ _ So); auto).
      set (r1 := add_out _ _).
      destruct (b_is_empty (b_inter xi xo)) eqn:Ee; [apply (IH _ _ ws); auto|].
      set (xr := if regular then xb else b_inter xi xo).
      destruct (max_diam_lt precision xr) eqn:Em; [apply (IH _ _ ws); auto|].
      assert (Sx : Forall2 sub (b_inter xi xo) xb) by (eapply F2_sub_trans; [apply b_inter_sub; auto|auto]).
      assert (Wx : Forall wf (b_inter xi xo)) by (apply b_inter_wf; auto).
      assert (Nx : ~ List.In Emp (b_inter xi xo)).
      { revert Ee. unfold b_inter. destruct (b_is_empty xi) eqn:E1; [rewrite E1; discriminate|].
        assert (Z : b_is_empty (b_set_empty xi) = false -> ~ List.In Emp (b_set_empty xi)) by (destruct xi; cbn; [tauto|discriminate]).
        destruct (b_is_empty xo); [auto|]. destruct (existsb is_empty (map2 inter xi xo)) eqn:Ex; [auto|].
        intros _ H. assert (existsb is_empty (map2 inter xi xo) = true) by (apply existsb_exists; exists Emp; auto). congruence. }
      assert (Br : Forall bounded xr).
      { unfold xr. destruct regular.
        - eapply bounded_above; [exact Sx| | |eapply weigh_fits; eauto]; auto.
        - eapply bounded_of_sub; [exact Sx| | |eapply weigh_fits; eauto]; auto. }
      assert (Wr : weigh q precision xr w).
      { unfold xr. destruct regular; auto. eapply weigh_sub; eauto. apply (sh_q _ _ HS). }
      destruct (weigh_bis q precision (sh_q _ _ HS) Hp bis HB HS _ w Br Wr Em) as (x1 & x2 & w' & Eb & -> & K1 & K2).
      rewrite Eb. apply (IH _ _ (ws ++ [w'; w'])); [|apply total_split; auto].
      assert (Wxr : Forall wf xr) by (eapply Forall_impl; [|exact Br]; intros ? (? & ? & -> & ?); auto).
      destruct (b_wf _ HB _ _ _ Eb Wxr) as [W1 W2].
      apply Forall2_app; auto. repeat constructor; auto. }
  exists (total [w0]). unfold sivia_sep. apply (Main _ _ _ [w0]); auto.
  repeat constructor; auto. eapply Forall_impl; [|exact B0]. intros ? (? & ? & -> & ?); auto.
Qed.
