(** * C123: conversions of colors; C124: color maps *)

From Coq Require Import Reals Lra Lia Bool List.
From Verif Require Import Itv ColorMap.
Import ListNotations.
Open Scope R_scope.

(** ** Spec *)
Definition unit_ (x : R) : Prop := 0 <= x <= 1.
Definition rgb_ok (c : rgb) : Prop := unit_ (c_r c) /\ unit_ (c_g c) /\ unit_ (c_b c) /\ unit_ (c_a c).
Definition hsv_ok (c : hsv) : Prop := 0 <= c_h c < 360 /\ unit_ (c_s c) /\ unit_ (c_v c) /\ unit_ (c_ha c).
(** the largest and the smallest channels *)
Definition is_max (c : rgb) (x : R) : Prop := (x = c_r c \/ x = c_g c \/ x = c_b c) /\ c_r c <= x /\ c_g c <= x /\ c_b c <= x.
Definition is_min (c : rgb) (x : R) : Prop := (x = c_r c \/ x = c_g c \/ x = c_b c) /\ x <= c_r c /\ x <= c_g c /\ x <= c_b c.

Ltac dec := repeat match goal with
  | |- context [Rltb ?a ?b] => let H := fresh "D" in destruct (Rltb a b) eqn:H; [apply Rltb_true in H|apply Rltb_false in H]
  | |- context [Rleb ?a ?b] => let H := fresh "D" in destruct (Rleb a b) eqn:H; [apply Rleb_true in H|apply Rleb_false in H]
  end.

(** ** Conversions *)
Definition mx_of (c : rgb) : R := let mx := if Rltb (c_g c) (c_r c) then c_r c else c_g c in if Rltb (c_b c) mx then mx else c_b c.
Definition mn_of (c : rgb) : R := let mn := if Rltb (c_r c) (c_g c) then c_r c else c_g c in if Rltb mn (c_b c) then mn else c_b c.
Lemma mx_spec c : is_max c (mx_of c).
Proof. unfold is_max, mx_of. destruct (Rltb (c_g c) (c_r c)) eqn:D; [apply Rltb_true in D|apply Rltb_false in D]; cbv zeta; dec; repeat split; auto; lra. Qed.
Lemma mn_spec c : is_min c (mn_of c).
Proof. unfold is_min, mn_of. destruct (Rltb (c_r c) (c_g c)) eqn:D; [apply Rltb_true in D|apply Rltb_false in D]; cbv zeta; dec; repeat split; auto; lra. Qed.
Lemma rgb2hsv_eq c : rgb2hsv c =
  if Rltb (mx_of c - mn_of c) (1 / 100000) then Some (mkHSV 0 0 (mx_of c) (c_a c))
  else if Rltb 0 (mx_of c) then
    let d := mx_of c - mn_of c in
    let h := (if Rleb (mx_of c) (c_r c) then (c_g c - c_b c) / d else if Rleb (mx_of c) (c_g c) then 2 + (c_b c - c_r c) / d else 4 + (c_r c - c_g c) / d) * 60 in
    Some (mkHSV (if Rltb h 0 then h + 360 else h) (d / mx_of c) (mx_of c) (c_a c))
  else None.
Proof. reflexivity. Qed.
Lemma sextant_spec hh : 0 <= hh < 6 -> INR (sextant hh) <= hh < INR (sextant hh) + 1 /\ (sextant hh <= 5)%nat.
Proof. intros H. unfold sextant. dec; cbn [INR]; split; try lra; lia. Qed.
Lemma sextant_is hh n : (n <= 5)%nat -> INR n <= hh < INR n + 1 -> sextant hh = n.
Proof.
  intros Hn H. assert (0 <= INR n) by apply pos_INR. assert (INR n <= 5) by (apply le_INR in Hn; cbn in Hn; lra).
  destruct (sextant_spec hh) as (A & B); [lra|]. assert (INR (sextant hh) < INR (S n)) by (rewrite S_INR; lra). assert (INR n < INR (S (sextant hh))) by (rewrite S_INR; lra).
  apply INR_lt in H2, H3. lia.
Qed.
(** the hue: which channel is the largest, which one is the smallest, and the place of the third between them *)
Lemma hue c h s v a : rgb_ok c -> rgb2hsv c = Some (mkHSV h s v a) -> 0 < s ->
  exists n ff d, (n <= 5)%nat /\ 0 <= ff < 1 /\ h = 60 * (INR n + ff) /\ d = v * s /\
  match n with
  | 0%nat => c_r c = v /\ c_b c = v - d /\ c_g c = v - d * (1 - ff)
  | 1%nat => c_g c = v /\ c_b c = v - d /\ c_r c = v - d * ff
  | 2%nat => c_g c = v /\ c_r c = v - d /\ c_b c = v - d * (1 - ff)
  | 3%nat => c_b c = v /\ c_r c = v - d /\ c_g c = v - d * ff
  | 4%nat => c_b c = v /\ c_g c = v - d /\ c_r c = v - d * (1 - ff)
  | _ => c_r c = v /\ c_g c = v - d /\ c_b c = v - d * ff
  end.
Proof.
  intros Ok E Hs. rewrite rgb2hsv_eq in E. pose proof (mx_spec c) as (Mx & X1 & X2 & X3). pose proof (mn_spec c) as (Mn & N1 & N2 & N3).
  destruct c as [r g b al]. cbn [c_r c_g c_b c_a] in *. set (mx := mx_of (mkRGB r g b al)) in *. set (mn := mn_of (mkRGB r g b al)) in *.
  destruct (Rltb (mx - mn) (1 / 100000)) eqn:D0; [injection E as <- <- <- <-; lra|]. apply Rltb_false in D0.
  destruct (Rltb 0 mx) eqn:D1; [apply Rltb_true in D1|discriminate]. cbv zeta in E. injection E as Eh Es Ev Ea.
  set (d := mx - mn) in *. assert (Dd : d = mx - mn) by reflexivity. assert (Pd : 0 < d) by lra. assert (Vd : v * s = d) by (rewrite <- Ev, <- Es; field; lra).
  assert (Q : forall x, x / d * d = x) by (intros x; field; lra).
  assert (Lt1 : forall x, x < d -> x / d < 1). { intros x Hx. apply Rmult_lt_reg_r with d; auto. rewrite Q. lra. }
  assert (Ge0 : forall x, 0 <= x -> 0 <= x / d). { intros x Hx. apply Rmult_le_pos; auto. apply Rlt_le, Rinv_0_lt_compat; auto. }
  assert (Ne : forall x, (- x) / d = - (x / d)) by (intros x; field; lra).
  destruct (Rleb mx r) eqn:C1; [apply Rleb_true in C1|apply Rleb_false in C1; destruct (Rleb mx g) eqn:C2; [apply Rleb_true in C2|apply Rleb_false in C2]].
  - assert (R_ : r = mx) by lra. destruct (Rle_dec b g) as [G|G].
    + assert (mn = b) by lra. pose proof (Ge0 (g - b) ltac:(lra)). destruct (Req_dec g mx) as [Gm|Gm].
      * exists 1%nat, 0, d. split; [lia|]. split; [lra|]. split; [|split; [auto|lra]]. replace (g - b) with d in Eh by (unfold d; lra). replace (d / d) with 1 in Eh by (field; lra).
        rewrite (proj2 (Rltb_false (1 * 60) 0)) in Eh by lra. cbn [INR]. lra.
      * exists 0%nat, ((g - b) / d), d. split; [lia|]. split; [split; auto; apply Lt1; unfold d; lra|]. split; [|split; [auto|]].
        -- rewrite (proj2 (Rltb_false ((g - b) / d * 60) 0)) in Eh by lra. cbn [INR]. lra.
        -- split; [lra|]. split; [unfold d; lra|]. replace (d * (1 - (g - b) / d)) with (d - (g - b) / d * d) by ring. rewrite Q. unfold d. lra.
    + assert (mn = g) by lra. assert (Z : (g - b) / d = - ((b - g) / d)) by (rewrite <- Ne; f_equal; lra). rewrite Z in Eh.
      assert (0 < (b - g) / d) by (apply Rmult_lt_0_compat; [lra|apply Rinv_0_lt_compat; auto]). assert (B1 : (b - g) / d <= 1).
      { apply Rmult_le_reg_r with d; auto. rewrite Q. unfold d. lra. }
      exists 5%nat, (1 - (b - g) / d), d. split; [lia|]. split; [lra|]. split; [|split; [auto|]].
      * rewrite (proj2 (Rltb_true (- ((b - g) / d) * 60) 0)) in Eh by lra. cbn [INR]. lra.
      * split; [lra|]. split; [unfold d; lra|]. replace (d * (1 - (b - g) / d)) with (d - (b - g) / d * d) by ring. rewrite Q. unfold d. lra.
  - assert (G_ : g = mx) by lra. destruct (Rle_dec r b) as [G|G].
    + assert (mn = r) by lra. pose proof (Ge0 (b - r) ltac:(lra)). destruct (Req_dec b mx) as [Gm|Gm].
      * exists 3%nat, 0, d. split; [lia|]. split; [lra|]. split; [|split; [auto|lra]]. replace (b - r) with d in Eh by (unfold d; lra). replace (d / d) with 1 in Eh by (field; lra).
        rewrite (proj2 (Rltb_false ((2 + 1) * 60) 0)) in Eh by lra. cbn [INR]. lra.
      * exists 2%nat, ((b - r) / d), d. split; [lia|]. split; [split; auto; apply Lt1; unfold d; lra|]. split; [|split; [auto|]].
        -- rewrite (proj2 (Rltb_false ((2 + (b - r) / d) * 60) 0)) in Eh by lra. cbn [INR]. lra.
        -- split; [lra|]. split; [unfold d; lra|]. replace (d * (1 - (b - r) / d)) with (d - (b - r) / d * d) by ring. rewrite Q. unfold d. lra.
    + assert (mn = b) by lra. assert (Z : (b - r) / d = - ((r - b) / d)) by (rewrite <- Ne; f_equal; lra). rewrite Z in Eh.
      assert (0 < (r - b) / d) by (apply Rmult_lt_0_compat; [lra|apply Rinv_0_lt_compat; auto]). assert (B1 : (r - b) / d <= 1).
      { apply Rmult_le_reg_r with d; auto. rewrite Q. unfold d. lra. }
      exists 1%nat, (1 - (r - b) / d), d. split; [lia|]. split; [lra|]. split; [|split; [auto|]].
      * rewrite (proj2 (Rltb_false ((2 + - ((r - b) / d)) * 60) 0)) in Eh by lra. cbn [INR]. lra.
      * split; [lra|]. split; [unfold d; lra|]. replace (d * (1 - (r - b) / d)) with (d - (r - b) / d * d) by ring. rewrite Q. unfold d. lra.
  - assert (B_ : b = mx) by lra. destruct (Rle_dec g r) as [G|G].
    + assert (mn = g) by lra. pose proof (Ge0 (r - g) ltac:(lra)).
      exists 4%nat, ((r - g) / d), d. split; [lia|]. split; [split; auto; apply Lt1; unfold d; lra|]. split; [|split; [auto|]].
      * rewrite (proj2 (Rltb_false ((4 + (r - g) / d) * 60) 0)) in Eh by lra. cbn [INR]. lra.
      * split; [lra|]. split; [unfold d; lra|]. replace (d * (1 - (r - g) / d)) with (d - (r - g) / d * d) by ring. rewrite Q. unfold d. lra.
    + assert (mn = r) by lra. assert (Z : (r - g) / d = - ((g - r) / d)) by (rewrite <- Ne; f_equal; lra). rewrite Z in Eh.
      assert (0 < (g - r) / d) by (apply Rmult_lt_0_compat; [lra|apply Rinv_0_lt_compat; auto]). assert (B1 : (g - r) / d < 1) by (apply Lt1; unfold d; lra).
      exists 3%nat, (1 - (g - r) / d), d. split; [lia|]. split; [lra|]. split; [|split; [auto|]].
      * rewrite (proj2 (Rltb_false ((4 + - ((g - r) / d)) * 60) 0)) in Eh by lra. cbn [INR]. lra.
      * split; [lra|]. split; [unfold d; lra|]. replace (d * (1 - (g - r) / d)) with (d - (g - r) / d * d) by ring. rewrite Q. unfold d. lra.
Qed.
Lemma rgb2hsv_some c : rgb_ok c -> exists h s v, rgb2hsv c = Some (mkHSV h s v (c_a c)) /\ unit_ s /\ is_max c v /\ unit_ v /\
  (s = 0 /\ h = 0 /\ (forall x, is_min c x -> v - x < 1 / 100000) \/ 0 < s).
Proof.
  intros Ok. rewrite rgb2hsv_eq. pose proof (mx_spec c) as Mx. pose proof (mn_spec c) as Mn. destruct Ok as ((R0 & R1) & (G0 & G1) & (B0 & B1) & _).
  assert (V : unit_ (mx_of c)). { destruct Mx as ([H|[H|H]] & _); rewrite H; split; lra. }
  assert (M : unit_ (mn_of c)). { destruct Mn as ([H|[H|H]] & _); rewrite H; split; lra. }
  assert (L : mn_of c <= mx_of c). { destruct Mx as (_ & X & _), Mn as (_ & Y & _). lra. }
  destruct (Rltb (mx_of c - mn_of c) (1 / 100000)) eqn:D0.
  - apply Rltb_true in D0. exists 0, 0, (mx_of c). split; auto. split; [split; lra|]. split; auto. split; auto. left. repeat split; auto.
    intros x (Hx & X1 & X2 & X3). destruct Mn as ([H|[H|H]] & Y); rewrite H in *; lra.
  - apply Rltb_false in D0. unfold unit_ in *. rewrite (proj2 (Rltb_true 0 (mx_of c))) by lra. cbv zeta. eexists _, _, _. split; [reflexivity|].
    assert (P : 0 < (mx_of c - mn_of c) / mx_of c) by (apply Rdiv_lt_0_compat; lra).
    split; [|split; auto]. split; [lra|]. apply Rmult_le_reg_r with (mx_of c); [lra|]. unfold Rdiv. rewrite Rmult_assoc, Rinv_l by lra. lra.
Qed.

(** C123: a color converted to HSV and back is the same color; a color whose channels are all closer than 0.00001 becomes the grey of its largest channel. *)
Theorem C123_round_trip : forall c, rgb_ok c -> exists k, rgb2hsv c = Some k /\ hsv_ok k /\
  ((exists x y, is_max c x /\ is_min c y /\ 1 / 100000 <= x - y) -> hsv2rgb k = c) /\
  ((exists x y, is_max c x /\ is_min c y /\ x - y < 1 / 100000) -> exists x, is_max c x /\ hsv2rgb k = mkRGB x x x (c_a c)).
Proof.
  intros c Ok. destruct (rgb2hsv_some c Ok) as (h & s & v & E & Us & Mx & Uv & Hs). exists (mkHSV h s v (c_a c)). split; auto.
  assert (Mu : forall x, is_max c x -> x = v). { intros x (Hx & A1 & A2 & A3). destruct Mx as (Hv & C1 & C2 & C3). destruct Hx as [->|[->| ->]], Hv as [Q|[Q|Q]]; lra. }
  destruct Hs as [(-> & -> & Hm)|Hs].
  - split; [unfold hsv_ok, unit_ in *; cbn; pose proof Ok as (_ & _ & _ & Ha); unfold unit_ in Ha; repeat split; lra|]. split.
    + intros (x & y & Hx & Hy & L). exfalso. specialize (Hm y Hy). rewrite (Mu x Hx) in L. lra.
    + intros _. exists v. split; auto. unfold hsv2rgb. cbn [c_s c_v c_ha c_h]. rewrite (proj2 (Rleb_true 0 0)) by lra. reflexivity.
  - destruct (hue c h s v (c_a c) Ok E Hs) as (n & ff & d & Hn & Hf & Eh & Ed & Ec).
    assert (Hh : 0 <= h < 360). { apply le_INR in Hn. cbn in Hn. pose proof (pos_INR n). lra. }
    split; [pose proof Ok as (_ & _ & _ & Ha); unfold hsv_ok; cbn [c_h c_s c_v c_ha]; auto|].
    assert (Same : hsv2rgb (mkHSV h s v (c_a c)) = c).
    { unfold hsv2rgb. cbn [c_s c_v c_ha c_h]. rewrite (proj2 (Rleb_false s 0)) by lra. rewrite (proj2 (Rleb_false 360 h)) by lra.
      replace (h / 60) with (INR n + ff) by lra. rewrite (sextant_is (INR n + ff) n Hn) by lra. replace (INR n + ff - INR n) with ff by ring.
      replace (v * (1 - s)) with (v - d) by (rewrite Ed; ring). replace (v * (1 - s * ff)) with (v - d * ff) by (rewrite Ed; ring).
      replace (v * (1 - s * (1 - ff))) with (v - d * (1 - ff)) by (rewrite Ed; ring). destruct c as [r g b al]. cbn [c_r c_g c_b c_a] in *.
      destruct n as [|[|[|[|[|n]]]]]; destruct Ec as (E1 & E2 & E3); f_equal; lra. }
    split; [auto|]. intros (x & y & Hx & Hy & L). exfalso.
    rewrite rgb2hsv_eq in E. assert (mx_of c = x). { rewrite (Mu x Hx). apply Mu, mx_spec. }
    assert (mn_of c = y). { pose proof (mn_spec c) as (P1 & P2 & P3 & P4). destruct Hy as (Q1 & Q2 & Q3 & Q4). destruct P1 as [P|[P|P]], Q1 as [Q|[Q|Q]]; lra. }
    rewrite H, H0 in E. rewrite (proj2 (Rltb_true _ _) L) in E. injection E as _ Z _. lra.
Qed.
Lemma unit_mul x y : unit_ x -> unit_ y -> unit_ (x * y).
Proof. unfold unit_. intros (A & B) (C & D). split; [apply Rmult_le_pos; auto|]. replace 1 with (1 * 1) by ring. apply Rmult_le_compat; auto. Qed.
Lemma unit_compl x : unit_ x -> unit_ (1 - x).
Proof. unfold unit_. lra. Qed.
(** C123: the conversion to RGB gives channels between 0 and 1. *)
Theorem C123_hsv2rgb : forall k, hsv_ok k -> rgb_ok (hsv2rgb k).
Proof.
  intros [h s v a] (Hh & Us & Uv & Ua). cbn [c_h c_s c_v c_ha] in *. unfold hsv2rgb. cbn [c_h c_s c_v c_ha].
  destruct (Rleb s 0); [unfold rgb_ok; cbn; auto|]. rewrite (proj2 (Rleb_false 360 h)) by lra. cbv zeta.
  destruct (sextant_spec (h / 60)) as (A & B); [lra|]. set (n := sextant (h / 60)) in *. assert (Uf : unit_ (h / 60 - INR n)) by (unfold unit_; lra).
  pose proof (unit_mul v _ Uv (unit_compl _ Us)). pose proof (unit_mul v _ Uv (unit_compl _ (unit_mul s _ Us Uf))). pose proof (unit_mul v _ Uv (unit_compl _ (unit_mul s _ Us (unit_compl _ Uf)))).
  destruct n as [|[|[|[|[|n]]]]]; unfold rgb_ok; cbn [c_r c_g c_b c_a]; auto.
Qed.
Example C123_ex : rgb_ok (mkRGB (1/2) (1/4) (3/4) 1) /\ rgb2hsv (mkRGB (1/2) (1/4) (3/4) 1) = Some (mkHSV 270 (2/3) (3/4) 1) /\
  exists x y, is_max (mkRGB (1/2) (1/4) (3/4) 1) x /\ is_min (mkRGB (1/2) (1/4) (3/4) 1) y /\ 1 / 100000 <= x - y.
Proof.
  split; [unfold rgb_ok, unit_; cbn; lra|]. split.
  - unfold rgb2hsv. cbn [c_r c_g c_b c_a].
    rewrite (proj2 (Rltb_false (1/2) (1/4))), (proj2 (Rltb_true (1/4) (3/4))), (proj2 (Rltb_true (1/4) (1/2))), (proj2 (Rltb_false (3/4) (1/2))) by lra. cbv zeta.
    rewrite (proj2 (Rltb_false (3/4 - 1/4) (1 / 100000))), (proj2 (Rltb_true 0 (3/4))), (proj2 (Rleb_false (3/4) (1/2))), (proj2 (Rleb_false (3/4) (1/4))) by lra.
    rewrite (proj2 (Rltb_false _ 0)) by lra. f_equal. f_equal; lra.
  - exists (3/4), (1/4). unfold is_max, is_min. cbn. repeat split; auto; lra.
Qed.

(** ** C124: color maps *)
Fixpoint increasing (m : cmap) : Prop := match m with [] => True | (k, _) :: r => Forall (fun e => k < fst e) r /\ increasing r end.
Definition colors_ok (m : cmap) : Prop := Forall (fun e => rgb_ok (snd e)) m.
(** [c] is at the place [x] of the segment between the colors [c0] at [k0] and [c1] at [k1] *)
Definition on_segment (k0 : R) (c0 : rgb) (k1 : R) (c1 : rgb) (x : R) (c : rgb) : Prop :=
  forall ch, ch = c_r \/ ch = c_g \/ ch = c_b \/ ch = c_a -> (k1 - k0) * (ch c - ch c0) = (x - k0) * (ch c1 - ch c0).

Lemma unit_mix x y t : unit_ x -> unit_ y -> unit_ t -> unit_ (mix x y t).
Proof.
  unfold unit_, mix. intros Hx Hy Ht. replace (x + (y - x) * t) with (x * (1 - t) + y * t) by ring.
  assert (0 <= x * (1 - t)) by (apply Rmult_le_pos; lra). assert (0 <= y * t) by (apply Rmult_le_pos; lra).
  assert (x * (1 - t) <= 1 * (1 - t)) by (apply Rmult_le_compat_r; lra). assert (y * t <= 1 * t) by (apply Rmult_le_compat_r; lra). lra.
Qed.
Lemma rgb_valid_ok c : rgb_ok c -> rgb_valid c = true.
Proof. intros ((? & ?) & (? & ?) & (? & ?) & (? & ?)). unfold rgb_valid. rewrite !(proj2 (Rleb_true _ _)) by auto. reflexivity. Qed.
Lemma hsv_valid_ok c : hsv_ok c -> hsv_valid c = true.
Proof. intros ((? & ?) & (? & ?) & (? & ?) & (? & ?)). unfold hsv_valid. rewrite !(proj2 (Rleb_true _ _)) by (auto; lra). reflexivity. Qed.
Lemma mix_hue_range h1 h2 t : 0 <= h1 < 360 -> 0 <= h2 < 360 -> unit_ t -> 0 <= mix_hue h1 h2 t < 360.
Proof.
  unfold unit_. intros H1 H2 Ht. unfold mix_hue, fmod360, mix. set (h := if Rltb 180 (Rabs (h1 - h2)) then h1 + 360 else h1).
  assert (Hh : 0 <= h < 720) by (unfold h; destruct (Rltb _ _); lra). assert (0 <= h + (h2 - h) * t < 720).
  { replace (h + (h2 - h) * t) with (h * (1 - t) + h2 * t) by ring. assert (0 <= h * (1 - t)) by (apply Rmult_le_pos; lra). assert (0 <= h2 * t) by (apply Rmult_le_pos; lra).
    split; [lra|]. destruct (Req_dec t 0) as [->|]; [lra|]. assert (h2 * t < 360 * t) by (apply Rmult_lt_compat_r; lra). assert (h * (1 - t) <= 720 * (1 - t)) by (apply Rmult_le_compat_r; lra). lra. }
  dec; lra.
Qed.
Lemma mix_color_ok mode c0 c1 t : rgb_ok c0 -> rgb_ok c1 -> unit_ t -> exists c, mix_color mode c0 c1 t = Some c /\ rgb_ok c.
Proof.
  intros O0 O1 Ht. destruct mode; cbn [mix_color].
  - pose proof O0 as (? & ? & ? & ?). pose proof O1 as (? & ? & ? & ?). set (c := mkRGB _ _ _ _). assert (Ok : rgb_ok c) by (unfold rgb_ok, c; cbn; auto using unit_mix). rewrite (rgb_valid_ok c Ok). eauto.
  - destruct (C123_round_trip c0 O0) as (l & -> & (L1 & L2 & L3 & L4) & _). destruct (C123_round_trip c1 O1) as (u & -> & (U1 & U2 & U3 & U4) & _).
    set (k := mkHSV _ _ _ _). assert (Ok : hsv_ok k) by (unfold hsv_ok, k; cbn [c_h c_s c_v c_ha]; auto using unit_mix, mix_hue_range). rewrite (hsv_valid_ok k Ok). eexists. split; [reflexivity|]. apply C123_hsv2rgb. auto.
Qed.
(** the colors used at an index *)
Definition picks (mode : interpol) (m : cmap) (x : R) (o : option rgb) : Prop :=
  (exists c, List.In (x, c) m /\ o = Some c) \/
  (exists l k0 c0 k1 c1 r, m = l ++ (k0, c0) :: (k1, c1) :: r /\ k0 < x < k1 /\ o = mix_color mode c0 c1 ((x - k0) / (k1 - k0))).
Lemma color_at_picks mode x d : forall m k0 c0, increasing ((k0, c0) :: m) -> k0 < x <= fst (last ((k0, c0) :: m) d) ->
  picks mode ((k0, c0) :: m) x (color_at mode (Some (k0, c0)) m x).
Proof.
  induction m as [|(k, c) m IH]; intros k0 c0 Inc Hx; [cbn in Hx; lra|]. cbn [color_at]. destruct (Reqb k x) eqn:E.
  - apply Reqb_true in E. subst k. left. exists c. split; auto. right; left; auto.
  - apply Reqb_false in E. destruct (Rltb x k) eqn:L.
    + apply Rltb_true in L. right. exists [], k0, c0, k, c, m. split; auto. split; auto. lra.
    + apply Rltb_false in L. destruct Inc as (_ & Inc). assert (Hx' : k < x <= fst (last ((k, c) :: m) d)). { split; [lra|]. destruct Hx as (_ & Hx). exact Hx. }
      destruct (IH k c Inc Hx') as [(c' & Hc & Eo)|(l & a & ca & b & cb & r & Em & Hab & Eo)].
      * left. exists c'. split; auto. right; auto.
      * right. exists ((k0, c0) :: l), a, ca, b, cb, r. split; [cbn; congruence|auto].
Qed.
Lemma last_ge d : forall m k0 c0, increasing ((k0, c0) :: m) -> m <> [] -> k0 < fst (last ((k0, c0) :: m) d).
Proof.
  induction m as [|(k, c) m IH]; intros k0 c0 Inc Ne; [congruence|]. destruct Inc as (F & Inc). inversion F as [|? ? H1 H2]; subst. cbn [fst] in H1.
  change (last ((k0, c0) :: (k, c) :: m) d) with (last ((k, c) :: m) d). destruct m as [|e m]; [cbn; auto|]. specialize (IH k c Inc ltac:(discriminate)). lra.
Qed.
(** C124: [color(r)] is defined for each ratio; it is a color of the map or the mix of two neighbours, at the place of the index between their keys. *)
Lemma color_picks mode m r : increasing m -> (2 <= length m)%nat -> unit_ r ->
  exists a b, (exists ca, List.In (a, ca) m) /\ (exists cb, List.In (b, cb) m) /\ (forall e, List.In e m -> a <= fst e <= b) /\ a < b /\
    real_index m r = a + r * (b - a) /\ picks mode m (a + r * (b - a)) (color mode m r).
Proof.
  intros Inc Len (R0 & R1). destruct m as [|(k0, c0) m]; [cbn in Len; lia|]. destruct m as [|e m]; [cbn in Len; lia|].
  set (d := (0, mkRGB 0 0 0 1)). exists k0, (fst (last ((k0, c0) :: e :: m) d)).
  assert (Lt := last_ge d (e :: m) k0 c0 Inc ltac:(discriminate)). assert (La : List.In (last ((k0, c0) :: e :: m) d) ((k0, c0) :: e :: m)).
  { assert (G : forall (l : cmap) x, List.In (last (x :: l) d) (x :: l)). { clear. induction l as [|y l IH]; intros x; [left; auto|]. right. apply IH. } apply G. }
  split; [exists c0; left; auto|]. split. { exists (snd (last ((k0, c0) :: e :: m) d)). destruct (last ((k0, c0) :: e :: m) d); auto. }
  split.
  { clear R0 R1 Len Lt La r mode. revert k0 c0 e Inc. assert (G : forall (l : cmap) k c, increasing ((k, c) :: l) -> forall e', List.In e' ((k, c) :: l) -> k <= fst e' <= fst (last ((k, c) :: l) d)).
    { induction l as [|(k', c') l IH]; intros k c Inc e' He; [destruct He as [<-|[]]; cbn; lra|]. pose proof (last_ge d _ k c Inc ltac:(discriminate)) as L.
      destruct Inc as (F & Inc). destruct He as [<-|He]; [cbn [fst] in *; lra|]. specialize (IH k' c' Inc e' He). rewrite Forall_forall in F. specialize (F e' He).
      change (last ((k, c) :: (k', c') :: l) d) with (last ((k', c') :: l) d). lra. }
    intros k0 c0 e Inc. apply G. auto. }
  split; auto. split; [reflexivity|]. unfold color. rewrite (proj2 (Nat.leb_le _ _) Len), (proj2 (Rleb_true _ _) R0), (proj2 (Rleb_true _ _) R1). cbn [andb].
  unfold real_index. cbn [hd fst]. fold d. set (b := fst (last ((k0, c0) :: e :: m) d)) in *. set (x := k0 + r * (b - k0)).
  assert (Hx : k0 <= x <= b). { unfold x. assert (0 <= r * (b - k0)) by (apply Rmult_le_pos; lra). assert (r * (b - k0) <= 1 * (b - k0)) by (apply Rmult_le_compat_r; lra). lra. }
  cbn [color_at]. destruct (Reqb k0 x) eqn:E.
  - apply Reqb_true in E. left. exists c0. split; auto. left. congruence.
  - apply Reqb_false in E. rewrite (proj2 (Rltb_false x k0)) by lra. apply (color_at_picks mode x d); auto. fold b. lra.
Qed.
Theorem C124_color : forall mode m r, increasing m -> colors_ok m -> (2 <= length m)%nat -> unit_ r -> exists c, color mode m r = Some c /\ rgb_ok c.
Proof.
  intros mode m r Inc Ok Len Hr. destruct (color_picks mode m r Inc Len Hr) as (a & b & _ & _ & _ & _ & _ & [(c & Hc & ->)|(l & k0 & c0 & k1 & c1 & rest & Em & Hk & ->)]).
  - exists c. split; auto. unfold colors_ok in Ok. rewrite Forall_forall in Ok. apply (Ok _ Hc).
  - unfold colors_ok in Ok. rewrite Em in Ok. apply Forall_app in Ok. destruct Ok as (_ & Ok). inversion Ok as [|? ? O0 Ok']; subst. inversion Ok' as [|? ? O1 _]; subst.
    apply mix_color_ok; auto. split; [apply Rmult_le_pos; [lra|apply Rlt_le, Rinv_0_lt_compat; lra]|]. apply Rmult_le_reg_r with (k1 - k0); [lra|]. unfold Rdiv. rewrite Rmult_assoc, Rinv_l by lra. lra.
Qed.
(** C124: in RGB mode the color is on the segment between the two neighbours. *)
Theorem C124_rgb : forall m r c, increasing m -> colors_ok m -> (2 <= length m)%nat -> unit_ r -> color ModeRGB m r = Some c ->
  exists a b, (exists ca, List.In (a, ca) m) /\ (exists cb, List.In (b, cb) m) /\ (forall e, List.In e m -> a <= fst e <= b) /\
    (List.In (a + r * (b - a), c) m \/
     exists l k0 c0 k1 c1 rest, m = l ++ (k0, c0) :: (k1, c1) :: rest /\ k0 < a + r * (b - a) < k1 /\ on_segment k0 c0 k1 c1 (a + r * (b - a)) c).
Proof.
  intros m r c Inc Ok Len Hr Ec. destruct (color_picks ModeRGB m r Inc Len Hr) as (a & b & Ha & Hb & Hab & _ & _ & P). exists a, b. split; auto. split; auto. split; auto.
  destruct P as [(c' & Hc & E)|(l & k0 & c0 & k1 & c1 & rest & Em & Hk & E)].
  - left. rewrite Ec in E. injection E as ->. auto.
  - right. exists l, k0, c0, k1, c1, rest. split; auto. split; auto. rewrite Ec in E. cbn [mix_color] in E. destruct (rgb_valid _); [|discriminate]. injection E as ->.
    intros ch Hch. destruct Hch as [->|[->|[->| ->]]]; cbn [c_r c_g c_b c_a]; unfold mix; field; lra.
Qed.
(** C124: the first and the last colors of the map are those of the ratios 0 and 1. *)
Theorem C124_ends : forall mode k0 c0 m k1 c1, increasing ((k0, c0) :: m ++ [(k1, c1)]) ->
  color mode ((k0, c0) :: m ++ [(k1, c1)]) 0 = Some c0 /\ color mode ((k0, c0) :: m ++ [(k1, c1)]) 1 = Some c1.
Proof.
  intros mode k0 c0 m k1 c1 Inc. set (M := (k0, c0) :: m ++ [(k1, c1)]) in *. assert (Len : (2 <= length M)%nat) by (unfold M; cbn; rewrite app_length; cbn; lia).
  assert (U : forall e c, increasing M -> List.In (e, c) M -> forall c', List.In (e, c') M -> c = c').
  { clear. generalize M. clear. induction M as [|(k, v) M IH]; intros e c Inc H1 c' H2; [destruct H1|]. destruct Inc as (F & Inc). rewrite Forall_forall in F.
    destruct H1 as [H1|H1], H2 as [H2|H2]; [congruence| | |eapply IH; eauto]; [injection H1 as -> ->; specialize (F _ H2)|injection H2 as -> ->; specialize (F _ H1)]; cbn in F; lra. }
  assert (I0 : List.In (k0, c0) M) by (left; auto). assert (I1 : List.In (k1, c1) M) by (right; apply in_or_app; right; left; auto).
  assert (G : forall x c r, unit_ r -> List.In (x, c) M -> real_index M r = x -> color mode M r = Some c).
  { intros x c r Hr Hc Hx. destruct (color_picks mode M r Inc Len Hr) as (a & b & _ & _ & Hab & _ & Ex & P). rewrite Hx in Ex. rewrite <- Ex in P.
    destruct P as [(c' & Hc' & ->)|(l & q0 & v0 & q1 & v1 & rest & Em & Hk & _)]; [f_equal; eapply U; eauto|]. exfalso.
    assert (N : forall l, increasing (l ++ (q0, v0) :: (q1, v1) :: rest) -> List.In (x, c) (l ++ (q0, v0) :: (q1, v1) :: rest) -> False).
    { clear - Hk. induction l as [|(k, v) l IH]; cbn [app]; intros Inc Hin.
      - destruct Inc as (F & F' & _). destruct Hin as [E|[E|Hin]]; [injection E as -> ->; lra|injection E as -> ->; lra|]. rewrite Forall_forall in F'. specialize (F' _ Hin). cbn in F'. lra.
      - destruct Inc as (F & Inc). destruct Hin as [E|Hin]; [|auto]. injection E as -> ->. rewrite Forall_forall in F. specialize (F (q0, v0)). cbn [fst] in F.
        assert (x < q0) by (apply F, in_or_app; right; left; auto). lra. }
    apply (N l); rewrite <- Em; auto. }
  assert (L : last M (0, mkRGB 0 0 0 1) = (k1, c1)) by (unfold M; rewrite app_comm_cons; apply last_last).
  split; [apply (G k0); auto|apply (G k1); auto]; try (unfold unit_; lra); unfold real_index; rewrite L; cbn [M hd fst]; lra.
Qed.

(** ** Hue *)
(** the hue [h] is at the place [t] of the arc of [d] degrees from [h1] to [h2] *)
Definition on_arc (h1 h2 d t h : R) : Prop := exists j k : Z, h2 = h1 + d + 360 * IZR j /\ h = h1 + d * t + 360 * IZR k.
(** C124: in HSV mode the hue goes along the shortest arc, unless the first hue exceeds the second one by more than 180 degrees... *)
Theorem C124_hue : forall h1 h2 t, 0 <= h1 < 360 -> 0 <= h2 < 360 -> unit_ t -> h1 - h2 <= 180 ->
  exists d, Rabs d <= 180 /\ on_arc h1 h2 d t (mix_hue h1 h2 t).
Proof.
  intros h1 h2 t H1 H2 Ht Hd. pose proof (mix_hue_range h1 h2 t H1 H2 Ht) as Rg. unfold mix_hue, fmod360 in *. destruct (Rltb 180 (Rabs (h1 - h2))) eqn:D.
  - apply Rltb_true in D. assert (180 < h2 - h1) by (unfold Rabs in D; destruct (Rcase_abs (h1 - h2)); lra). exists (h2 - h1 - 360). split; [unfold Rabs; destruct (Rcase_abs _); lra|].
    destruct (Rltb (mix (h1 + 360) h2 t) 360); [exists 1%Z, 1%Z|exists 1%Z, 0%Z]; unfold mix; split; ring.
  - apply Rltb_false in D. exists (h2 - h1). split; [rewrite Rabs_minus_sym; auto|]. destruct (Rltb (mix h1 h2 t) 360); [exists 0%Z, 0%Z|exists 0%Z, (-1)%Z]; unfold mix; split; ring.
Qed.
(** C124: ... in which case it goes more than once around the circle. *)
Theorem C124_hue_refuted : exists h1 h2 t, 0 <= h1 < 360 /\ 0 <= h2 < 360 /\ unit_ t /\ mix_hue h1 h2 t = 175 /\
  forall d, Rabs d <= 180 -> ~ on_arc h1 h2 d t (mix_hue h1 h2 t).
Proof.
  exists 350, 10, (1/4). split; [lra|]. split; [lra|]. split; [unfold unit_; lra|].
  assert (E : mix_hue 350 10 (1/4) = 175).
  { unfold mix_hue, fmod360, mix. replace (350 - 10) with 340 by lra. rewrite Rabs_right by lra. rewrite (proj2 (Rltb_true 180 340)) by lra. rewrite (proj2 (Rltb_false _ 360)) by lra. lra. }
  split; auto. rewrite E. intros d Hd (j & k & Ej & Ek). assert (Hd' : -180 <= d <= 180) by (unfold Rabs in Hd; destruct (Rcase_abs d); lra).
  assert (J : (-2 < j < 0)%Z) by (split; apply lt_IZR; lra). assert (j = (-1)%Z) by lia. subst j. assert (d = 20) by lra. subst d.
  assert (K : (-1 < k < 0)%Z) by (split; apply lt_IZR; lra). lia.
Qed.
Example C124_ex : let m := [(0, mkRGB 0 0 1 1); (2, mkRGB 1 1 0 1); (4, mkRGB 1 0 0 1)] in increasing m /\ colors_ok m /\ color ModeRGB m (1/4) = Some (mkRGB (1/2) (1/2) (1/2) 1).
Proof.
  intros m. split; [unfold m; cbn; repeat split; repeat constructor; cbn; lra|]. split; [unfold m, colors_ok; repeat (apply Forall_cons; [unfold rgb_ok, unit_; cbn; lra|]); apply Forall_nil|].
  unfold color, real_index, m. cbn [length Nat.leb andb hd last fst]. rewrite !(proj2 (Rleb_true _ _)) by lra. cbn [andb color_at].
  rewrite (proj2 (Reqb_false 0 _)), (proj2 (Rltb_false _ 0)), (proj2 (Reqb_false 2 _)), (proj2 (Rltb_true _ 2)) by lra. unfold mix_color. cbn [c_r c_g c_b c_a].
  rewrite rgb_valid_ok by (unfold rgb_ok, unit_, mix; cbn; lra). unfold mix. f_equal. f_equal; lra.
Qed.

Print Assumptions C123_round_trip.
Print Assumptions C123_hsv2rgb.
Print Assumptions C124_color.
Print Assumptions C124_rgb.
Print Assumptions C124_ends.
Print Assumptions C124_hue.
Print Assumptions C124_hue_refuted.
