(** * Properties of the reversal and of the opacity of color maps *)
From Coq Require Import Reals Lra Lia Bool List.
From Verif Require Import Itv ColorMap ColorRev PropsColorMap.
Import ListNotations.
Open Scope R_scope.

Lemma put_first k c m : Forall (fun e => k < fst e) m -> put k c m = (k, c) :: m.
Proof. destruct m as [|(k', c') m]; intros F; [reflexivity|]. inversion F as [|? ? H _]; subst. cbn [fst] in H. cbn [put]. rewrite (proj2 (Rltb_true k k')) by auto. reflexivity. Qed.
Definition flip (e : R * rgb) : R * rgb := (1 - fst e, snd e).
Lemma reverse_acc : forall m acc, increasing m -> (forall e f, List.In e m -> List.In f acc -> 1 - fst e < fst f) ->
  fold_left (fun acc e => put (1 - fst e) (snd e) acc) m acc = rev (map flip m) ++ acc.
Proof.
  induction m as [|(k, c) m IH]; intros acc Inc H; [reflexivity|]. cbn [fold_left fst snd map rev flip]. destruct Inc as (F & Inc). rewrite Forall_forall in F.
  rewrite put_first by (apply Forall_forall; intros f Hf; apply (H (k, c) f); [left; auto|auto]). rewrite IH; auto.
  - rewrite <- app_assoc. reflexivity.
  - intros e f He [<-|Hf]; [cbn [fst]; specialize (F _ He); lra|apply H; auto; right; auto].
Qed.
Lemma reverse_eq m : increasing m -> reverse m = rev (map flip m).
Proof. intros Inc. unfold reverse. rewrite reverse_acc; auto; [apply app_nil_r|intros e f _ []]. Qed.
Lemma increasing_snoc : forall m k c, increasing m -> (forall e, List.In e m -> fst e < k) -> increasing (m ++ [(k, c)]).
Proof.
  induction m as [|(k', c') m IH]; intros k c Inc H; [cbn; auto|]. destruct Inc as (F & Inc). cbn [app increasing]. split.
  - apply Forall_app. split; auto. constructor; auto. cbn. apply (H (k', c')). left; auto.
  - apply IH; auto. intros e He. apply H. right; auto.
Qed.
Lemma reverse_increasing : forall m, increasing m -> increasing (rev (map flip m)).
Proof.
  induction m as [|(k, c) m IH]; intros Inc; [cbn; auto|]. destruct Inc as (F & Inc). cbn [map rev flip fst snd]. apply increasing_snoc; auto.
  intros e He. apply in_rev in He. apply in_map_iff in He. destruct He as (e' & <- & He'). rewrite Forall_forall in F. specialize (F _ He'). cbn. lra.
Qed.
(** a color of the map, or the mix of two neighbours: the function returns it *)
Lemma color_at_key mode x c : forall m prev, increasing m -> List.In (x, c) m -> color_at mode prev m x = Some c.
Proof.
  induction m as [|(k, v) m IH]; intros prev Inc Hin; [destruct Hin|]. destruct Inc as (F & Inc). cbn [color_at]. destruct Hin as [Q|Hin].
  - injection Q as -> ->. rewrite (proj2 (Reqb_true x x)) by auto. reflexivity.
  - rewrite Forall_forall in F. specialize (F _ Hin). cbn [fst] in F. rewrite (proj2 (Reqb_false k x)), (proj2 (Rltb_false x k)) by lra. auto.
Qed.
Lemma color_at_mix mode x k0 c0 k1 c1 r : forall l prev, increasing (l ++ (k0, c0) :: (k1, c1) :: r) -> k0 < x < k1 ->
  color_at mode prev (l ++ (k0, c0) :: (k1, c1) :: r) x = mix_color mode c0 c1 ((x - k0) / (k1 - k0)).
Proof.
  induction l as [|(k, v) l IH]; intros prev Inc Hx; cbn [app color_at].
  - rewrite (proj2 (Reqb_false k0 x)), (proj2 (Rltb_false x k0)), (proj2 (Reqb_false k1 x)), (proj2 (Rltb_true x k1)) by lra. reflexivity.
  - destruct Inc as (F & Inc). rewrite Forall_forall in F. assert (Hk : k < k0) by (apply (F (k0, c0)); apply in_or_app; right; left; auto).
    rewrite (proj2 (Reqb_false k x)), (proj2 (Rltb_false x k)) by lra. apply IH; auto.
Qed.
Lemma picks_det mode m x o : increasing m -> picks mode m x o -> color_at mode None m x = o.
Proof. intros Inc [(c & Hc & ->)|(l & k0 & c0 & k1 & c1 & r & -> & Hx & ->)]; [apply color_at_key; auto|apply color_at_mix; auto]. Qed.
Lemma mix_sym x y t : mix y x (1 - t) = mix x y t.
Proof. unfold mix. ring. Qed.
Lemma picks_flip m x o : picks ModeRGB m x o -> picks ModeRGB (rev (map flip m)) (1 - x) o.
Proof.
  intros [(c & Hc & ->)|(l & k0 & c0 & k1 & c1 & r & -> & Hx & ->)].
  - left. exists c. split; auto. apply in_rev. rewrite rev_involutive. apply in_map_iff. exists (x, c). auto.
  - right. exists (rev (map flip r)), (1 - k1), c1, (1 - k0), c0, (rev (map flip l)). split.
    + rewrite map_app, rev_app_distr. cbn [map rev flip fst snd]. rewrite <- !app_assoc. reflexivity.
    + split; [lra|]. replace ((1 - x - (1 - k1)) / (1 - k0 - (1 - k1))) with (1 - (x - k0) / (k1 - k0)) by (field; lra). cbn [mix_color]. rewrite !mix_sym. reflexivity.
Qed.

(** C125: the reversed map has the same colors, at the keys 1 - k, in increasing order. *)
Theorem C125_entries : forall m, increasing m -> increasing (reverse m) /\ forall k c, List.In (k, c) (reverse m) <-> List.In (1 - k, c) m.
Proof.
  intros m Inc. rewrite (reverse_eq m Inc). split; [apply reverse_increasing; auto|]. intros k c. rewrite <- in_rev, in_map_iff. split.
  - intros ((k', c') & Q & H). unfold flip in Q. cbn in Q. injection Q as Qk Qc. subst. replace (1 - (1 - k')) with k' by ring. auto.
  - intros H. exists (1 - k, c). split; auto. unfold flip. cbn. f_equal. ring.
Qed.
(** C125: in RGB mode the color of the reversed map at a ratio is the color of the map at the opposite ratio. *)
Theorem C125_rgb : forall m r, increasing m -> (2 <= length m)%nat -> 0 <= r <= 1 -> color ModeRGB (reverse m) r = color ModeRGB m (1 - r).
Proof.
  intros m r Inc Len Hr. destruct (C125_entries m Inc) as (Inc' & En). assert (Len' : (2 <= length (reverse m))%nat) by (rewrite reverse_eq, rev_length, map_length; auto).
  destruct (color_picks ModeRGB m (1 - r) Inc Len ltac:(unfold unit_; lra)) as (a & b & (ca & Ha) & (cb & Hb) & Hab & _ & _ & P).
  destruct (color_picks ModeRGB (reverse m) r Inc' Len' Hr) as (a' & b' & (ca' & Ha') & (cb' & Hb') & Hab' & _ & Ex & _).
  assert (Qa : a' = 1 - b). { apply En in Ha'. specialize (Hab _ Ha'). assert (Hb1 : List.In (1 - b, cb) (reverse m)) by (apply En; replace (1 - (1 - b)) with b by ring; auto). specialize (Hab' _ Hb1). cbn [fst] in *. lra. }
  assert (Qb : b' = 1 - a). { apply En in Hb'. specialize (Hab _ Hb'). assert (Ha1 : List.In (1 - a, ca) (reverse m)) by (apply En; replace (1 - (1 - a)) with a by ring; auto). specialize (Hab' _ Ha1). cbn [fst] in *. lra. }
  apply picks_flip in P. rewrite <- (reverse_eq m Inc) in P. apply (picks_det _ _ _ _ Inc') in P. rewrite <- P.
  unfold color at 1. rewrite (proj2 (Nat.leb_le _ _) Len'), !(proj2 (Rleb_true _ _)) by lra. cbn [andb]. rewrite Ex, Qa, Qb. f_equal. ring.
Qed.

Lemma hsv_330 : rgb2hsv (mkRGB 1 0 (1/2) 1) = Some (mkHSV 330 1 1 1).
Proof.
  unfold rgb2hsv. cbn [c_r c_g c_b c_a]. rewrite (proj2 (Rltb_false 1 0)), (proj2 (Rltb_true 0 (1/2))), (proj2 (Rltb_true 0 1)), (proj2 (Rltb_true (1/2) 1)) by lra. cbv zeta.
  rewrite (proj2 (Rltb_false (1 - 0) _)), (proj2 (Rltb_true 0 1)), (proj2 (Rleb_true 1 1)), (proj2 (Rltb_true _ 0)) by lra. f_equal. f_equal; lra.
Qed.
Lemma hsv_30 : rgb2hsv (mkRGB 1 (1/2) 0 1) = Some (mkHSV 30 1 1 1).
Proof.
  unfold rgb2hsv. cbn [c_r c_g c_b c_a]. rewrite (proj2 (Rltb_false 1 (1/2))), (proj2 (Rltb_false (1/2) 0)), (proj2 (Rltb_true (1/2) 1)), (proj2 (Rltb_true 0 1)) by lra. cbv zeta.
  rewrite (proj2 (Rltb_false (1 - 0) _)), (proj2 (Rltb_true 0 1)), (proj2 (Rleb_true 1 1)), (proj2 (Rltb_false _ 0)) by lra. f_equal. f_equal; lra.
Qed.
Definition pink_orange : cmap := [(0, mkRGB 1 0 (1/2) 1); (1, mkRGB 1 (1/2) 0 1)].
Lemma pink_orange_inc : increasing pink_orange.
Proof. cbn. split; [constructor; [cbn; lra|constructor]|]. split; [constructor|auto]. Qed.
(** C125: in HSV mode it is not: the hue goes the other way around. *)
Theorem C125_hsv_refuted : exists m r, increasing m /\ colors_ok m /\ (2 <= length m)%nat /\ 0 <= r <= 1 /\ color ModeHSV (reverse m) r <> color ModeHSV m (1 - r).
Proof.
  exists pink_orange, (3/4). split; [apply pink_orange_inc|]. split; [unfold pink_orange, colors_ok; repeat (apply Forall_cons; [unfold rgb_ok, unit_; cbn; lra|]); apply Forall_nil|].
  split; [cbn; lia|]. split; [lra|]. rewrite (reverse_eq _ pink_orange_inc).
  assert (H1 : exists c, color ModeHSV (rev (map flip pink_orange)) (3/4) = Some c /\ c_r c = 1).
  { eexists. split.
    - change (rev (map flip pink_orange)) with [(1 - 1, mkRGB 1 (1/2) 0 1); (1 - 0, mkRGB 1 0 (1/2) 1)]. unfold color, real_index. cbn [fst snd length Nat.leb andb hd last]. rewrite !(proj2 (Rleb_true _ _)) by lra. cbn [andb color_at].
      rewrite (proj2 (Reqb_false (1 - 1) _)), (proj2 (Rltb_false _ (1 - 1))), (proj2 (Reqb_false (1 - 0) _)), (proj2 (Rltb_true _ (1 - 0))) by lra. unfold mix_color. rewrite hsv_330, hsv_30. cbn [c_h c_s c_v c_ha].
      replace (mix_hue 30 330 _) with 345 by (unfold mix_hue, fmod360, mix; replace (30 - 330) with (-300) by lra; rewrite (Rabs_left (-300)) by lra; rewrite (proj2 (Rltb_true 180 _)) by lra; rewrite (proj2 (Rltb_true _ 360)) by lra; lra).
      unfold mix. rewrite hsv_valid_ok by (unfold hsv_ok, unit_; cbn; lra). reflexivity.
    - unfold hsv2rgb. cbn [c_h c_s c_v c_ha]. rewrite (proj2 (Rleb_false _ 0)), (proj2 (Rleb_false 360 345)) by lra. cbv zeta.
      unfold sextant. rewrite (proj2 (Rltb_false _ 1)), (proj2 (Rltb_false _ 2)), (proj2 (Rltb_false _ 3)), (proj2 (Rltb_false _ 4)), (proj2 (Rltb_false _ 5)) by lra. cbn. lra. }
  assert (H2 : exists c, color ModeHSV pink_orange (1 - 3/4) = Some c /\ c_r c = 0).
  { eexists. split.
    - unfold color, real_index, pink_orange. cbn [fst snd length Nat.leb andb hd last]. rewrite !(proj2 (Rleb_true _ _)) by lra. cbn [andb color_at].
      rewrite (proj2 (Reqb_false 0 _)), (proj2 (Rltb_false _ 0)), (proj2 (Reqb_false 1 _)), (proj2 (Rltb_true _ 1)) by lra. unfold mix_color. rewrite hsv_330, hsv_30. cbn [c_h c_s c_v c_ha].
      replace (mix_hue 330 30 _) with 165 by (unfold mix_hue, fmod360, mix; replace (330 - 30) with 300 by lra; rewrite (Rabs_right 300) by lra; rewrite (proj2 (Rltb_true 180 _)) by lra; rewrite (proj2 (Rltb_false _ 360)) by lra; lra).
      unfold mix. rewrite hsv_valid_ok by (unfold hsv_ok, unit_; cbn; lra). reflexivity.
    - unfold hsv2rgb. cbn [c_h c_s c_v c_ha]. rewrite (proj2 (Rleb_false _ 0)), (proj2 (Rleb_false 360 165)) by lra. cbv zeta.
      unfold sextant. rewrite (proj2 (Rltb_false _ 1)), (proj2 (Rltb_false _ 2)), (proj2 (Rltb_true _ 3)) by lra. cbn. lra. }
  destruct H1 as (c & -> & A), H2 as (d & -> & B). intros Q. injection Q as <-. lra.
Qed.
(** C125: the opacity: the same keys and channels, an opaque map if and only if all the colors are. *)
Theorem C125_opacity : forall alpha m,
  (set_opacity alpha m = None <-> ~ 0 <= alpha <= 1) /\
  (forall m', set_opacity alpha m = Some m' -> length m' = length m /\
     forall n k c, nth_error m n = Some (k, c) -> exists c', nth_error m' n = Some (k, c') /\ c_r c' = c_r c /\ c_g c' = c_g c /\ c_b c' = c_b c /\ c_a c' = alpha) /\
  (is_opaque m = true <-> forall k c, List.In (k, c) m -> c_a c = 1).
Proof.
  intros alpha m. split; [|split].
  - unfold set_opacity. destruct (Rleb 0 alpha) eqn:A; [apply Rleb_true in A|apply Rleb_false in A]; (destruct (Rleb alpha 1) eqn:B; [apply Rleb_true in B|apply Rleb_false in B]); cbn [andb]; split; intros H; try discriminate; try reflexivity; try lra; exfalso; apply H; lra.
  - unfold set_opacity. intros m' H. destruct (Rleb 0 alpha && Rleb alpha 1); [|discriminate]. injection H as <-. split; [apply map_length|]. intros n k c Hn.
    erewrite map_nth_error by exact Hn. eexists. split; [reflexivity|]. cbn. auto.
  - induction m as [|(k, c) m IH]; cbn [is_opaque]; [split; [intros _ ? ? []|auto]|]. destruct (Reqb (c_a c) 1) eqn:E; [apply Reqb_true in E|apply Reqb_false in E].
    + rewrite IH. split; [intros H k' c' [Q|Hi]; [injection Q as -> ->; auto|eauto]|intros H k' c' Hi; apply (H k' c'); right; auto].
    + split; [discriminate|]. intros H. exfalso. apply E. apply (H k c). left; auto.
Qed.
(** C125: [add_color_point] gives its color to the key and changes no other entry. *)
Theorem C125_put : forall k c m, increasing m -> increasing (put k c m) /\
  forall k' c', List.In (k', c') (put k c m) <-> (k' = k /\ c' = c) \/ (k' <> k /\ List.In (k', c') m).
Proof.
  intros k c m. induction m as [|(q, v) m IH]; intros Inc; cbn [put].
  - split; [cbn; split; [constructor|auto]|]. intros k' c'. cbn. split; [intros [Q|[]]; injection Q as <- <-; auto|intros [(-> & ->)|(_ & [])]; auto].
  - pose proof Inc as (F & Inc'). rewrite Forall_forall in F. destruct (IH Inc') as (I1 & I2). destruct (Rltb k q) eqn:L; [apply Rltb_true in L|apply Rltb_false in L; destruct (Reqb k q) eqn:E; [apply Reqb_true in E; subst q|apply Reqb_false in E]].
    + assert (G : forall e, List.In e ((q, v) :: m) -> k < fst e) by (intros e [<-|He]; [auto|specialize (F _ He); lra]). split; [split; [apply Forall_forall; auto|auto]|].
      intros k' c'. split.
      * intros [Q|Hi]; [injection Q as <- <-; auto|]. right. split; auto. specialize (G _ Hi). cbn in G. lra.
      * intros [(-> & ->)|(_ & Hi)]; [left; auto|right; auto].
    + split; [split; [apply Forall_forall; auto|auto]|]. intros k' c'. split.
      * intros [Q|Hi]; [injection Q as <- <-; auto|]. right. split; [specialize (F _ Hi); cbn in F; lra|right; auto].
      * intros [(-> & ->)|(Ne & [Q|Hi])]; [left; auto|injection Q as -> ->; congruence|right; auto].
    + split.
      * split; auto. apply Forall_forall. intros (k', c') Hi. apply I2 in Hi. destruct Hi as [(-> & ->)|(_ & Hi)]; [cbn; lra|apply (F _ Hi)].
      * intros k' c'. split.
        -- intros [Q|Hi]; [injection Q as <- <-; right; split; [congruence|left; auto]|]. apply I2 in Hi. destruct Hi as [?|(Ne & Hi)]; auto. right. split; auto. right; auto.
        -- intros [Q|(Ne & [Q|Hi])]; [right; apply I2; auto|left; auto|right; apply I2; auto].
Qed.
Example C125_ex : increasing pink_orange /\ (2 <= length pink_orange)%nat /\ reverse pink_orange = [(1 - 1, mkRGB 1 (1/2) 0 1); (1 - 0, mkRGB 1 0 (1/2) 1)] /\ is_opaque pink_orange = true.
Proof.
  split; [apply pink_orange_inc|]. split; [cbn; lia|]. split; [rewrite (reverse_eq _ pink_orange_inc); reflexivity|].
  cbn [is_opaque pink_orange c_a]. rewrite (proj2 (Reqb_true 1 1)) by auto. reflexivity.
Qed.

Print Assumptions C125_entries.
Print Assumptions C125_rgb.
Print Assumptions C125_hsv_refuted.
Print Assumptions C125_opacity.
Print Assumptions C125_put.
