(** * C100 on the pavings computed by SIVIAPaving *)
From Coq Require Import Reals Lra Lia Bool List Arith NArith ZArith.
Import ListNotations.
From Verif Require Import Itv Concrete PropsDyn2 Static PropsStatic Sivia PropsSivia PropsSiviaTerm PropsSiviaEx Paving PropsPaving PropsPaving2 PropsPaving3 PropsPaving4 PolarE DegTurn Degree DegTile DegEdge PropsDegree PropsDegree2.
Open Scope R_scope.

Lemma inb_length q x : inb q x -> length q = length x.
Proof. induction 1; cbn; auto. Qed.
(** a bisector that cuts a rectangle in two rectangles *)
Definition cuts (bis : box -> option (box * box)) : Prop := forall a b c d x1 x2, a < b -> c < d -> bis (B2 a b c d) = Some (x1, x2) ->
  exists m, a < m < b /\ x1 = B2 a m c d /\ x2 = B2 m b c d \/ c < m < d /\ x1 = B2 a b c m /\ x2 = B2 a b m d.
Lemma rect_mk k a b c d v r : a < b -> c < d -> rectangular (mkC k (B2 a b c d) v r).
Proof. intros. unfold rectangular. cbn. split; [reflexivity|lra]. Qed.
Lemma compute_cell test bis precision : forall fuel c next p n, compute test bis precision fuel c next = Some (p, n) -> c_box (p_cell p) = c_box c.
Proof.
  induction fuel as [|fuel IH]; intros c next p n E; cbn [compute] in E; destruct (test (c_box c)); try (injection E as <- <-; reflexivity);
    destruct (max_diam_lt _ _); try (injection E as <- <-; reflexivity); try discriminate.
  destruct (bis (c_box c)) as [[x1 x2]|]; [|discriminate]. destruct (compute _ _ _ _ (mkC next _ _ _) _) as [[p1 n1]|]; [|discriminate].
  destruct (compute _ _ _ _ (mkC (S next) _ _ _) _) as [[p2 n2]|]; [|discriminate]. injection E as <- <-. reflexivity.
Qed.
Lemma rect_same c d : c_box c = c_box d -> rectangular d -> rectangular c.
Proof. unfold rectangular, X0, X1, Y0, Y1. intros ->. auto. Qed.
Lemma compute_tiled test bis precision : cuts bis -> forall fuel c next p n, rectangular c -> compute test bis precision fuel c next = Some (p, n) ->
  tiled p /\ forall l, List.In l (leaves p) -> c_val l = V_UNKNOWN \/ test (c_box l) = Some (c_val l).
Proof.
  intros HB. induction fuel as [|fuel IH]; intros c next p n R E; cbn [compute] in E; destruct (test (c_box c)) as [v|] eqn:ET.
  1,3: injection E as <- <-; split; [split; [|exact Logic.I]; apply (rect_same _ c); auto|intros l [<-|[]]; right; exact ET].
  all: destruct (max_diam_lt _ _); [injection E as <- <-; split; [split; [|exact Logic.I]; apply (rect_same _ c); auto|intros l [<-|[]]; left; reflexivity]|].
  - discriminate.
  - destruct (bis (c_box c)) as [[x1 x2]|] eqn:EB; [|discriminate]. destruct (compute _ _ _ _ (mkC next _ _ _) _) as [[p1 n1]|] eqn:E1; [|discriminate].
    destruct (compute _ _ _ _ (mkC (S next) _ _ _) _) as [[p2 n2]|] eqn:E2; [|discriminate]. injection E as <- <-.
    rewrite (rect_box c R) in EB. destruct R as (R0 & R1 & R2). destruct (HB _ _ _ _ _ _ R1 R2 EB) as (m & M).
    assert (Rx : rectangular (mkC next x1 (c_val c) (c_root c)) /\ rectangular (mkC (S next) x2 (c_val c) (c_root c))).
    { destruct M as [(M & -> & ->)|(M & -> & ->)]; split; apply rect_mk; lra. }
    destruct Rx as [Rx1 Rx2]. destruct (IH _ _ _ _ Rx1 E1) as [T1 L1]. destruct (IH _ _ _ _ Rx2 E2) as [T2 L2].
    apply compute_cell in E1, E2. cbn [c_box] in E1, E2. split.
    + cbn [tiled p_cell]. refine (conj (conj R0 (conj R1 R2)) (conj T1 (conj T2 _))). cbv zeta. unfold X0, X1, Y0, Y1 in *. rewrite E1, E2.
      destruct M as [(M & -> & ->)|(M & -> & ->)]; cbn; [left|right]; repeat split; reflexivity.
    + intros l Hl. cbn [leaves] in Hl. apply in_app_or in Hl. destruct Hl; auto.
Qed.

(** A whole computation: SIVIAPaving::compute for the inversion of [F] on a box [y] that contains the origin, then
    get_connected_subsets and zero_proven with the same function.  The leaves IN are not assumed to be away from the leaves OUT. *)
Theorem C100_sivia : forall w (f : field2) F y bis precision a b c d fuel p fuel' fl res items,
  (forall u v x, inb [u; v] x -> inb [fst (f u v); snd (f u v)] (F x)) -> (forall x, length (F x) = 2%nat) -> length y = 2%nat -> inb [0; 0] y ->
  (forall u v, a <= u <= b -> c <= v <= d -> fcont f u v) -> bis_ok bis -> cuts bis -> a < b -> c < d ->
  sivia_paving (test_fun F y) bis precision (B2 a b c d) fuel = Some p -> lookup (c_addr (p_cell p)) w = Some p ->
  (length (leaves p) <= fuel')%nat -> get_connected_subsets w p (N.lor V_UNKNOWN V_IN) fuel' fl = Some res -> List.In items res ->
  zero_proven w F items = Some true ->
  exists it u v, List.In it items /\ inb [u; v] (c_box it) /\ f u v = (0, 0).
Proof.
  intros w f F y bis precision a b c d fuel p fuel' fl res items HF LF Ly H0 HC HB HK Hab Hcd HS HL Fu HR Hi HZ.
  assert (OK : paving_ok p). { eapply C42_sivia; [exact HB| | |exact HS]; [|reflexivity]. constructor; [cbn; lra|constructor; [cbn; lra|constructor]]. }
  unfold sivia_paving in HS. destruct (compute _ _ _ _ _ _) as [[p1 n1]|] eqn:EC; [|discriminate]. injection HS as ->.
  destruct (compute_tiled (test_fun F y) bis precision HK fuel (mkC 0 (B2 a b c d) V_UNKNOWN 0) 1 p n1 (rect_mk _ _ _ _ _ _ _ Hab Hcd) EC) as [HT HV].
  assert (EB : c_box (p_cell p) = B2 a b c d) by (apply compute_cell in EC; exact EC).
  assert (VI : forall x, test_fun F y x = Some V_IN -> forall q, inb q (F x) -> inb q y).
  { intros x E q Hq. unfold test_fun in E. destruct (b_is_subset (F x) y) eqn:S; [apply (subset_in (F x)); auto; rewrite LF; auto|].
    destruct (negb _); discriminate. }
  assert (VO : forall x, test_fun F y x = Some V_OUT -> forall q, inb q (F x) -> ~ inb q y).
  { intros x E q Hq Hy. unfold test_fun in E. destruct (b_is_subset (F x) y); [discriminate|]. rewrite (intersects_in _ _ q Hq Hy) in E. discriminate. }
  apply (C100_partial w p f F fuel' fl res items); auto.
  - intros l Hl. destruct (HV l Hl) as [K|K]; auto. unfold test_fun in K. destruct (b_is_subset _ _); [injection K as <-; auto|].
    destruct (negb _); [injection K as <-; auto|discriminate].
  - intros l m Hl Hm Vl Vm (q & Ql & Qm). destruct (HV l Hl) as [K|K]; [rewrite K in Vl; discriminate|].
    destruct (HV m Hm) as [K'|K']; [rewrite K' in Vm; discriminate|]. rewrite Vl in K. rewrite Vm in K'.
    assert (Lq : length q = 2%nat). { rewrite (inb_length _ _ Ql). apply (po_box _ OK). apply leaves_cells. auto. }
    destruct q as [|u [|v [|? ?]]]; try discriminate. apply (VO _ K' [fst (f u v); snd (f u v)]); auto. apply (VI _ K). auto.
  - intros n Hn Vn. split; [intros u v; apply HF|]. intros K. destruct (HV n Hn) as [E|E]; [rewrite E in Vn; discriminate|].
    rewrite Vn in E. apply (VO _ E _ K). auto.
  - intros u v I. rewrite EB in I. apply B2_in in I. apply HC; tauto.
Qed.
Lemma lf_cuts r : 0 < r < 1 -> cuts (lf r).
Proof.
  intros Hr a b c d x1 x2 Hab Hcd E. unfold lf in E. destruct (_ && _)%bool; [|discriminate]. injection E as <- <-.
  unfold B2, I2. cbn. destruct (Rleb (d - c) (b - a)); cbn.
  - exists (a + r * (b - a)). left. split; [nra|]. auto.
  - exists (c + r * (d - c)). right. split; [nra|]. auto.
Qed.

(** the paving of C100_ex is the one computed by SIVIAPaving with this bisector *)
Definition e_cut (i : itv) (m : R) : option (itv * itv) :=
  match i with Itv (Some a) (Some b) => if Rltb a m && Rltb m b then Some (I2 a m, I2 m b) else None | _ => None end.
Definition e_bis (x : box) : option (box * box) :=
  match x with
  | [i; j] =>
      match e_cut i 2, e_cut i 4, e_cut j 2, e_cut j 4 with
      | Some (i1, i2), _, _, _ => Some ([i1; j], [i2; j])
      | None, Some (i1, i2), _, _ => Some ([i1; j], [i2; j])
      | None, None, Some (j1, j2), _ => Some ([i; j1], [i; j2])
      | None, None, None, Some (j1, j2) => Some ([i; j1], [i; j2])
      | _, _, _, _ => None
      end
  | _ => None
  end.
Lemma e_cut_some i m i1 i2 : e_cut i m = Some (i1, i2) -> exists a b, i = I2 a b /\ a < m < b /\ i1 = I2 a m /\ i2 = I2 m b.
Proof.
  destruct i as [|[a|] [b|]]; try discriminate. cbn. destruct (Rltb a m) eqn:A; [|discriminate]. destruct (Rltb m b) eqn:B; [|discriminate].
  intros E. injection E as <- <-. apply Rltb_true in A, B. exists a, b. auto.
Qed.
Lemma e_bis_some x x1 x2 : e_bis x = Some (x1, x2) -> exists a b m j, a < m < b /\
  (x = [I2 a b; j] /\ x1 = [I2 a m; j] /\ x2 = [I2 m b; j] \/ x = [j; I2 a b] /\ x1 = [j; I2 a m] /\ x2 = [j; I2 m b]).
Proof.
  destruct x as [|i [|j [|? ?]]]; try discriminate. cbn [e_bis].
  destruct (e_cut i 2) as [[i1 i2]|] eqn:E1; [|destruct (e_cut i 4) as [[i1 i2]|] eqn:E2; [|destruct (e_cut j 2) as [[i1 i2]|] eqn:E3; [|destruct (e_cut j 4) as [[i1 i2]|] eqn:E4; [|discriminate]]]];
  intros E; injection E as <- <-.
  - apply e_cut_some in E1. destruct E1 as (a & b & -> & L & -> & ->). exists a, b, 2, j. auto.
  - apply e_cut_some in E2. destruct E2 as (a & b & -> & L & -> & ->). exists a, b, 4, j. auto.
  - apply e_cut_some in E3. destruct E3 as (a & b & -> & L & -> & ->). exists a, b, 2, i. auto.
  - apply e_cut_some in E4. destruct E4 as (a & b & -> & L & -> & ->). exists a, b, 4, i. auto.
Qed.
Lemma e_bis_ok : bis_ok e_bis.
Proof.
  constructor.
  - intros x x1 x2 q E H. apply e_bis_some in E. destruct E as (a & b & m & j & L & [(-> & -> & ->)|(-> & -> & ->)]);
      inversion H as [|u ? q' ? Hu H2]; subst; inversion H2 as [|v ? q'' ? Hv H3]; subst; cbn in Hu, Hv.
    + destruct (Rle_dec u m); [left|right]; (constructor; [cbn; lra|]; constructor; auto).
    + destruct (Rle_dec v m); [left|right]; (constructor; auto; constructor; [cbn; lra|]; auto).
  - intros x x1 x2 E. apply e_bis_some in E. destruct E as (a & b & m & j & L & [(-> & -> & ->)|(-> & -> & ->)]); split;
      (constructor; [intros z; cbn; lra || auto|]; constructor; [intros z; cbn; lra || auto|]; constructor).
  - intros x x1 x2 E W. apply e_bis_some in E. destruct E as (a & b & m & j & L & [(-> & -> & ->)|(-> & -> & ->)]);
      inversion W as [|? ? W1 W2]; subst; inversion W2 as [|? ? W3 W4]; subst; split; (constructor; [auto; cbn; lra|]; constructor; [auto; cbn; lra|]; constructor).
Qed.
Lemma e_bis_cuts : cuts e_bis.
Proof.
  intros a b c d x1 x2 Hab Hcd E. apply e_bis_some in E. destruct E as (a' & b' & m & j & L & [(E & -> & ->)|(E & -> & ->)]); injection E as <- <- <-; exists m; auto.
Qed.
Lemma not_pt a b c d : a < b -> b_is_subset (B2 (a - 3) (b - 3) (c - 3) (d - 3)) [pt 0; pt 0] = false.
Proof. intros L. unfold b_is_subset, B2, I2, pt. cbn. destruct (Rleb 0 (a - 3)) eqn:A; [|reflexivity]. destruct (Rleb (b - 3) 0) eqn:B; [|reflexivity]. apply Rleb_true in A, B. lra. Qed.
Lemma t_out' a b c d : a < b -> c < d -> b < 3 \/ 3 < a \/ d < 3 \/ 3 < c -> test_fun e_F [pt 0; pt 0] (B2 a b c d) = Some V_OUT.
Proof.
  intros Hab Hcd H. unfold test_fun. cbv zeta. change (e_F (B2 a b c d)) with (B2 (a - 3) (b - 3) (c - 3) (d - 3)). rewrite not_pt by auto.
  change [pt 0; pt 0] with (B2 0 0 0 0). rewrite int_f by lra. reflexivity.
Qed.
Lemma t_none a b c d : a < b -> c < d -> a <= 3 <= b -> c <= 3 <= d -> test_fun e_F [pt 0; pt 0] (B2 a b c d) = None.
Proof.
  intros Hab Hcd H1 H2. unfold test_fun. cbv zeta. change (e_F (B2 a b c d)) with (B2 (a - 3) (b - 3) (c - 3) (d - 3)). rewrite not_pt by auto.
  change [pt 0; pt 0] with (B2 0 0 0 0). rewrite int_t by lra. reflexivity.
Qed.
Lemma d_lt a b c d : b - a < 3 -> d - c < 3 -> max_diam_lt 3 (B2 a b c d) = true.
Proof. intros. unfold max_diam_lt, B2, I2. cbn. reval. reflexivity. Qed.
Lemma d_ge a b c d : 3 <= d - c -> max_diam_lt 3 (B2 a b c d) = false.
Proof. intros. unfold max_diam_lt, B2, I2. cbn. rewrite (Rltb_f (d - c)) by lra. cbn. apply andb_false_r. Qed.
Lemma e_b1 : e_bis (B2 0 6 0 6) = Some (B2 0 2 0 6, B2 2 6 0 6). Proof. unfold B2, I2. cbn. reval. reflexivity. Qed.
Lemma e_b2 : e_bis (B2 2 6 0 6) = Some (B2 2 4 0 6, B2 4 6 0 6). Proof. unfold B2, I2. cbn. reval. reflexivity. Qed.
Lemma e_b3 : e_bis (B2 2 4 0 6) = Some (B2 2 4 0 2, B2 2 4 2 6). Proof. unfold B2, I2. cbn. reval. reflexivity. Qed.
Lemma e_b4 : e_bis (B2 2 4 2 6) = Some (B2 2 4 2 4, B2 2 4 4 6). Proof. unfold B2, I2. cbn. reval. reflexivity. Qed.
Lemma e_sivia : sivia_paving (test_fun e_F [pt 0; pt 0]) e_bis 3 (B2 0 6 0 6) 4 = Some e_p.
Proof.
  unfold sivia_paving.
  repeat (progress (cbn [compute c_box c_val c_root];
    repeat match goal with
    | |- context [test_fun e_F _ (B2 ?a ?b ?c ?d)] => first [rewrite (t_none a b c d) by lra | rewrite (t_out' a b c d) by lra]
    | |- context [max_diam_lt 3 (B2 ?a ?b ?c ?d)] => first [rewrite (d_lt a b c d) by lra | rewrite (d_ge a b c d) by lra]
    end; rewrite ?e_b1, ?e_b2, ?e_b3, ?e_b4)).
  reflexivity.
Qed.
Example C100_sivia_ex : (forall u v x, inb [u; v] x -> inb [fst (e_f u v); snd (e_f u v)] (e_F x)) /\ (forall x, length (e_F x) = 2%nat) /\
  inb [0; 0] [pt 0; pt 0] /\ (forall u v, fcont e_f u v) /\ bis_ok e_bis /\ cuts e_bis /\
  sivia_paving (test_fun e_F [pt 0; pt 0]) e_bis 3 (B2 0 6 0 6) 4 = Some e_p /\ lookup (c_addr (p_cell e_p)) [e_p] = Some e_p /\
  get_connected_subsets [e_p] e_p (N.lor V_UNKNOWN V_IN) 5 (fun _ => false) = Some [[e_m]] /\ zero_proven [e_p] e_F [e_m] = Some true.
Proof.
  assert (G : forall z, In z ALL) by (intros z; cbn; auto).
  refine (conj _ (conj _ (conj _ (conj _ (conj e_bis_ok (conj e_bis_cuts (conj e_sivia (conj eq_refl (conj e_subsets _))))))))).
  - intros u v x H. inversion H as [|? i ? x' Hu H2]; subst. inversion H2 as [|? j ? x'' Hv H3]; subst. inversion H3; subst.
    assert (A : inb [fst (e_f u v); snd (e_f u v)] [ALL; ALL]) by (constructor; auto; constructor; auto; constructor).
    destruct i as [|[a|] [b|]]; auto; destruct j as [|[c|] [d|]]; auto. cbn in Hu, Hv. apply B2_in. cbn. lra.
  - intros x. destruct x as [|[|[a|] [b|]] [|[|[c|] [d|]] [|? ?]]]; reflexivity.
  - constructor; [cbn; lra|]. constructor; [cbn; lra|]. constructor.
  - intros x y. split; intros eps; exists eps; intros u v Hu Hv; cbn in *; [replace (u - 3 - (x - 3)) with (u - x) by ring|replace (v - 3 - (y - 3)) with (v - y) by ring]; auto.
  - unfold zero_proven. rewrite e_degree. reflexivity.
Qed.
Example lf_cuts_ex : cuts (lf (49 / 100)).
Proof. apply lf_cuts. lra. Qed.

Print Assumptions C100_partial.
Print Assumptions C100_number_partial.
Print Assumptions C100_refuted.
Print Assumptions C100_sivia.
