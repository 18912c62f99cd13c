(** * C40, C41: difference of boxes and bisection as in IBEX, refutation, examples *)

From Coq Require Import Reals Lra Lia Bool List Arith Classical_Prop.
Import ListNotations.
From Verif Require Import Itv PropsDyn2 Tube TubeFacts Static PropsStatic Sivia PropsSivia PropsSiviaTerm Concrete.
Open Scope R_scope.

(** ** The closure of the difference *)
(** Interval::diff of IBEX: the part on the left, the part on the right; [i] is included in [i0] *)
Definition idiff (i0 i : itv) : list itv :=
  match i0, i with
  | Itv l0 h0, Itv l h =>
      match l with Some a => if lo_leb l l0 then [] else [Itv l0 (Some a)] | None => [] end ++
      match h with Some b => if hi_leb h0 h then [] else [Itv (Some b) h0] | None => [] end
  | _, _ => []
  end.
Fixpoint slabs (x0 x : box) : list box :=
  match x0, x with
  | i0 :: r0, i :: r => map (fun c => c :: r0) (idiff i0 i) ++ map (fun d => i :: d) (slabs r0 r)
  | _, _ => []
  end.
(** a component of [x] is a single value whereas the one of [x0] is not: the closure of the difference is [x0] *)
Fixpoint flat (x0 x : box) : bool :=
  match x0, x with
  | i0 :: r0, i :: r => (is_degenerated i && negb (is_degenerated i0)) || flat r0 r
  | _, _ => false
  end.
(** IntervalVector::diff of IBEX *)
Definition cdiff (x0 x : box) : list box :=
  if b_is_empty x then [x0] else if flat x0 x then [x0] else slabs x0 x.

Lemma idiff_cover i0 i v : wf i0 -> wf i -> sub i i0 -> i <> Emp -> In v i0 -> ~ In v i -> exists c, List.In c (idiff i0 i) /\ In v c.
Proof.
  intros W0 W S N H0 H. destruct i as [|l h]; [congruence|]. destruct i0 as [|l0 h0]; [destruct H0|]. unfold idiff.
  assert (C : (exists a, l = Some a /\ v < a) \/ (exists b, h = Some b /\ b < v)).
  { destruct l as [a|], h as [b|]; cbn in H.
    - destruct (Rlt_dec v a); [left; eauto|]. right. exists b. split; auto. apply Rnot_le_lt. intros K. apply H. lra.
    - left. exists a. split; auto. apply Rnot_le_lt. tauto.
    - right. exists b. split; auto. apply Rnot_le_lt. tauto.
    - tauto. }
  destruct C as [(a & -> & L)|(b & -> & L)].
  - exists (Itv l0 (Some a)). split; [|destruct l0, h0; cbn in *; lra]. apply in_or_app. left.
    destruct l0 as [a0|]; cbn; [|left; auto]. destruct (Rleb a a0) eqn:E; [|left; auto]. apply Rleb_true in E. destruct h0; cbn in H0; lra.
  - exists (Itv (Some b) h0). split; [|destruct l0, h0; cbn in *; lra]. apply in_or_app. right.
    destruct h0 as [b0|]; cbn; [|left; auto]. destruct (Rleb b0 b) eqn:E; [|left; auto]. apply Rleb_true in E. destruct l0; cbn in H0; lra.
Qed.
(** a point of the closure: there are points of the difference as close as needed *)
Lemma idiff_limit i0 i c v : wf i0 -> wf i -> sub i i0 -> List.In c (idiff i0 i) -> In v c ->
  In v i0 /\ forall eps, 0 < eps -> exists u, In u i0 /\ ~ In u i /\ Rabs (v - u) < eps.
Proof.
  intros W0 W S Hc Hv. destruct i0 as [|l0 h0]; [destruct Hc|]. destruct i as [|l h]; [destruct Hc|]. unfold idiff in Hc.
  apply in_app_or in Hc. destruct Hc as [Hc|Hc].
  - destruct l as [a|]; [|destruct Hc]. destruct (lo_leb (Some a) l0) eqn:E; [destruct Hc|]. destruct Hc as [<-|[]].
    assert (Ha : In a (Itv l0 h0)) by (apply S; destruct h; cbn in *; lra).
    assert (La : forall eps, 0 < eps -> exists u, In u (Itv l0 h0) /\ u < a /\ a - u < eps).
    { intros eps He. destruct l0 as [a0|].
      - cbn in E. apply Rleb_false in E. exists (Rmax ((a0 + a) / 2) (a - eps / 2)).
        unfold Rmax. destruct (Rle_dec ((a0 + a) / 2) (a - eps / 2)); destruct h0; cbn in *; repeat split; lra.
      - exists (a - eps / 2). destruct h0; cbn in *; repeat split; lra. }
    split; [destruct l0, h0; cbn in *; lra|]. intros eps He.
    destruct (Rlt_dec v a) as [L|L].
    + exists v. split; [destruct l0, h0; cbn in *; lra|]. split; [destruct h; cbn; lra|]. rewrite Rminus_diag_eq, Rabs_R0; auto.
    + assert (v = a) by (destruct l0; cbn in Hv; lra). subst v. destruct (La eps He) as (u & U1 & U2 & U3). exists u.
      split; auto. split; [destruct h; cbn; lra|]. apply Rabs_def1; lra.
  - destruct h as [b|]; [|destruct Hc]. destruct (hi_leb h0 (Some b)) eqn:E; [destruct Hc|]. destruct Hc as [<-|[]].
    assert (Hb : In b (Itv l0 h0)) by (apply S; destruct l; cbn in *; lra).
    assert (Lb : forall eps, 0 < eps -> exists u, In u (Itv l0 h0) /\ b < u /\ u - b < eps).
    { intros eps He. destruct h0 as [b0|].
      - cbn in E. apply Rleb_false in E. exists (Rmin ((b0 + b) / 2) (b + eps / 2)).
        unfold Rmin. destruct (Rle_dec ((b0 + b) / 2) (b + eps / 2)); destruct l0; cbn in *; repeat split; lra.
      - exists (b + eps / 2). destruct l0; cbn in *; repeat split; lra. }
    split; [destruct l0, h0; cbn in *; lra|]. intros eps He.
    destruct (Rlt_dec b v) as [L|L].
    + exists v. split; [destruct l0, h0; cbn in *; lra|]. split; [destruct l; cbn; lra|]. rewrite Rminus_diag_eq, Rabs_R0; auto.
    + assert (v = b) by (destruct h0; cbn in Hv; lra). subst v. destruct (Lb eps He) as (u & U1 & U2 & U3). exists u.
      split; auto. split; [destruct l; cbn; lra|]. apply Rabs_def1; lra.
Qed.
Lemma slabs_cover : forall x0 x p, Forall2 sub x x0 -> Forall wf x0 -> Forall wf x -> ~ List.In Emp x -> inb p x0 -> ~ inb p x ->
  exists d, List.In d (slabs x0 x) /\ inb p d.
Proof.
  intros x0 x p S. revert p. induction S as [|i i0 x x0 Si S IH]; intros p W0 W N H0 H.
  - inversion H0; subst. exfalso. apply H. constructor.
  - inversion H0 as [|v ? p' ? Hv Hp]; subst. inversion W0; inversion W; subst. cbn [slabs].
    destruct (classic (In v i)) as [Vi|Vi].
    + destruct (IH p') as (d & D1 & D2); auto; [intros K; apply N; right; auto|intros K; apply H; constructor; auto|].
      exists (i :: d). split; [|constructor; auto]. apply in_or_app. right. apply in_map_iff. eauto.
    + destruct (idiff_cover i0 i v) as (c & C1 & C2); auto; [intros K; apply N; left; auto|].
      exists (c :: x0). split; [|constructor; auto]. apply in_or_app. left. apply in_map_iff. exists c. auto.
Qed.
Lemma slabs_limit : forall x0 x d p, Forall2 sub x x0 -> Forall wf x0 -> Forall wf x -> List.In d (slabs x0 x) -> inb p d ->
  inb p x0 /\ limit (fun q => inb q x0 /\ ~ inb q x) p.
Proof.
  intros x0 x d p S. revert d p. induction S as [|i i0 x x0 Si S IH]; intros d p W0 W Hd Hp; [destruct Hd|].
  inversion W0; inversion W; subst. cbn [slabs] in Hd. apply in_app_or in Hd. destruct Hd as [Hd|Hd].
  - apply in_map_iff in Hd. destruct Hd as (c & <- & Hc). inversion Hp as [|v ? p' ? Hv Hp']; subst.
    destruct (idiff_limit i0 i c v) as [V1 V2]; auto. split; [constructor; auto|]. intros eps He.
    destruct (V2 eps He) as (u & U1 & U2 & U3). exists (u :: p'). split; [split|].
    + constructor; auto.
    + intros K. inversion K; subst. auto.
    + constructor; auto. apply near_refl; auto.
  - apply in_map_iff in Hd. destruct Hd as (d' & <- & Hd). inversion Hp as [|v ? p' ? Hv Hp']; subst.
    destruct (IH d' p') as [V1 V2]; auto. split; [constructor; auto|]. intros eps He.
    destruct (V2 eps He) as (u & (U1 & U2) & U3). exists (v :: u). split; [split|].
    + constructor; auto.
    + intros K. inversion K; subst. auto.
    + constructor; auto. rewrite Rminus_diag_eq, Rabs_R0; auto.
Qed.
Lemma flat_limit : forall x0 x p, Forall2 sub x x0 -> Forall wf x0 -> Forall wf x -> flat x0 x = true -> ~ List.In Emp x -> inb p x0 ->
  limit (fun q => inb q x0 /\ ~ inb q x) p.
Proof.
  intros x0 x p S. revert p. induction S as [|i i0 x x0 Si S IH]; intros p W0 W F N Hp; [discriminate|].
  inversion W0; inversion W; subst. inversion Hp as [|v ? p' ? Hv Hp']; subst. cbn [flat] in F. apply orb_true_iff in F. destruct F as [F|F].
  - apply andb_true_iff in F. destruct F as [F1 F2]. apply negb_true_iff in F2.
    assert (E : exists a, i = pt a).
    { destruct i as [|[a|] [b|]]; cbn in F1; try discriminate; [exfalso; apply N; left; auto|]. apply Reqb_true in F1. subst b. exists a. reflexivity. }
    destruct E as [a ->].
    intros eps He. destruct (Req_dec v a) as [->|Ne].
    + assert (G : exists u, In u i0 /\ u <> a /\ Rabs (a - u) < eps).
      { destruct i0 as [|[c|] [d|]]; cbn in F2, Hv; try discriminate.
        - apply Reqb_false in F2. cbn in H1. destruct (Rlt_dec c a).
          + exists (Rmax c (a - eps / 2)). unfold Rmax. destruct (Rle_dec c (a - eps / 2)); cbn; repeat split; try lra; apply Rabs_def1; lra.
          + exists (Rmin d (a + eps / 2)). unfold Rmin. destruct (Rle_dec d (a + eps / 2)); cbn; repeat split; try lra; apply Rabs_def1; lra.
        - exists (a + eps / 2). cbn; repeat split; try lra; apply Rabs_def1; lra.
        - exists (a - eps / 2). cbn; repeat split; try lra; apply Rabs_def1; lra.
        - exists (a - eps / 2). cbn; repeat split; try lra; apply Rabs_def1; lra. }
      destruct G as (u & G1 & G2 & G3). exists (u :: p'). split; [split|].
      * constructor; auto.
      * intros K. inversion K; subst. cbn in *. lra.
      * constructor; auto. apply near_refl; auto.
    + exists (v :: p'). split; [split; [constructor; auto|]|apply near_refl; auto].
      intros K. inversion K; subst. cbn in *. lra.
  - intros eps He. destruct (IH p' H2 H6 F) with (eps := eps) as (u & (U1 & U2) & U3); auto; [intros K; apply N; right; auto|].
    exists (v :: u). split; [split|].
    + constructor; auto.
    + intros K. inversion K; subst. auto.
    + constructor; auto. rewrite Rminus_diag_eq, Rabs_R0; auto.
Qed.
Theorem cdiff_ok : diff_ok cdiff.
Proof.
  constructor.
  - intros x0 x p S W0 W N H0 H. unfold cdiff. destruct (b_is_empty x) eqn:E; [exists x0; split; [left|]; auto|].
    destruct (flat x0 x); [exists x0; split; [left|]; auto|]. apply slabs_cover; auto.
  - intros x0 x d p S W0 W N H0 H. unfold cdiff in H0. destruct (b_is_empty x) eqn:E; [destruct H0 as [<-|[]]; auto|].
    destruct (flat x0 x); [destruct H0 as [<-|[]]; auto|]. apply (slabs_limit x0 x d p); auto.
  - intros x0 x d p S W0 W N H0 H. unfold cdiff in H0. destruct (b_is_empty x) eqn:E.
    + destruct H0 as [<-|[]]. intros eps He. exists p. split; [split; auto; apply empty_no_point; auto|apply near_refl; auto].
    + destruct (flat x0 x) eqn:F; [destruct H0 as [<-|[]]; apply flat_limit; auto|]. apply (slabs_limit x0 x d p); auto.
Qed.

(** ** The bisection of the largest component *)
Definition half1 (r : R) (i : itv) : itv := match i with Itv (Some a) (Some b) => Itv (Some a) (Some (a + r * (b - a))) | _ => i end.
Definition half2 (r : R) (i : itv) : itv := match i with Itv (Some a) (Some b) => Itv (Some (a + r * (b - a))) (Some b) | _ => i end.
(** first index of a largest component *)
Fixpoint widest (x : box) : nat :=
  match x with
  | [] => 0
  | i :: r => match r with [] => 0 | _ => let k := widest r in if Rleb (width (nth k r Emp)) (width i) then 0 else S k end
  end.
Definition is_bounded (i : itv) : bool := match i with Itv (Some _) (Some _) => true | _ => false end.
(** LargestFirst(0.,r).bisect of IBEX, for bounded boxes *)
Definition lf (r : R) (x : box) : option (box * box) :=
  if forallb is_bounded x && Rltb 0 (width (nth (widest x) x Emp))
  then Some (upd (widest x) (half1 r) x, upd (widest x) (half2 r) x) else None.

Lemma widest_max : forall x i, List.In i x -> width i <= width (nth (widest x) x Emp).
Proof.
  induction x as [|j x IH]; intros i H; [destruct H|]. destruct x as [|j' x].
  - destruct H as [<-|[]]. cbn. lra.
  - change (widest (j :: j' :: x)) with (if Rleb (width (nth (widest (j' :: x)) (j' :: x) Emp)) (width j) then 0 else S (widest (j' :: x)))%nat.
    destruct (Rleb _ _) eqn:E.
    + apply Rleb_true in E. cbn [nth]. destruct H as [<-|H]; [lra|]. specialize (IH i H). lra.
    + apply Rleb_false in E. cbn [nth]. destruct H as [<-|H]; [|apply IH; auto]. cbn [nth] in E. lra.
Qed.
Lemma widest_lt : forall x, x <> [] -> (widest x < length x)%nat.
Proof.
  induction x as [|j x IH]; intros H; [congruence|]. destruct x as [|j' x]; [cbn; lia|].
  change (widest (j :: j' :: x)) with (if Rleb (width (nth (widest (j' :: x)) (j' :: x) Emp)) (width j) then 0 else S (widest (j' :: x)))%nat.
  destruct (Rleb _ _); cbn [length]; [lia|]. assert (widest (j' :: x) < length (j' :: x))%nat by (apply IH; discriminate). cbn in *. lia.
Qed.
Lemma upd_sub (f : itv -> itv) : (forall i, sub (f i) i) -> forall k x, Forall2 sub (upd k f x) x.
Proof. intros H. induction k; intros [|i x]; cbn; constructor; auto using sub_refl. apply F2_sub_refl. Qed.
Lemma upd_wf (f : itv -> itv) : (forall i, wf i -> wf (f i)) -> forall k x, Forall wf x -> Forall wf (upd k f x).
Proof. intros H. induction k; intros [|i x] F; cbn; auto; inversion F; constructor; auto. Qed.
Lemma upd_cover (f g : itv -> itv) : (forall i v, In v i -> In v (f i) \/ In v (g i)) ->
  forall k x p, inb p x -> inb p (upd k f x) \/ inb p (upd k g x).
Proof.
  intros H. induction k; intros [|i x] p F; cbn; auto; inversion F; subst.
  - destruct (H i x0); auto; [left|right]; constructor; auto.
  - destruct (IHk x l); auto; [left|right]; constructor; auto.
Qed.
Lemma mid_between r a b : 0 < r < 1 -> a <= b -> a <= a + r * (b - a) <= b.
Proof. intros H L. assert (0 <= r * (b - a)) by (apply Rmult_le_pos; lra). assert (0 <= (1 - r) * (b - a)) by (apply Rmult_le_pos; lra). lra. Qed.
Lemma half_cover r i v : In v i -> In v (half1 r i) \/ In v (half2 r i).
Proof. destruct i as [|[a|] [b|]]; cbn; auto. intros H. destruct (Rle_dec v (a + r * (b - a))); [left|right]; lra. Qed.
Lemma half1_sub r : 0 < r < 1 -> forall i, sub (half1 r i) i.
Proof.
  intros H i v. destruct i as [|[a|] [b|]]; cbn; auto. intros [H1 H2]. split; auto.
  destruct (Rle_dec a b); [pose proof (mid_between r a b H r0); lra|].
  exfalso. assert (0 < r * (a - b)) by (apply Rmult_lt_0_compat; lra). lra.
Qed.
Lemma half2_sub r : 0 < r < 1 -> forall i, sub (half2 r i) i.
Proof.
  intros H i v. destruct i as [|[a|] [b|]]; cbn; auto. intros [H1 H2]. split; auto.
  destruct (Rle_dec a b); [pose proof (mid_between r a b H r0); lra|].
  exfalso. assert (0 < (1 - r) * (a - b)) by (apply Rmult_lt_0_compat; lra). lra.
Qed.
Theorem lf_ok : forall r, 0 < r < 1 -> bis_ok (lf r).
Proof.
  intros r Hr. constructor.
  - intros x x1 x2 p E. unfold lf in E. destruct (_ && _); [|discriminate]. injection E; intros <- <-.
    apply upd_cover. intros i v. apply half_cover.
  - intros x x1 x2 E. unfold lf in E. destruct (_ && _); [|discriminate]. injection E; intros <- <-.
    split; apply upd_sub; [apply half1_sub|apply half2_sub]; auto.
  - intros x x1 x2 E W. unfold lf in E. destruct (_ && _); [|discriminate]. injection E; intros <- <-.
    split; apply upd_wf; auto; intros i; destruct i as [|[a|] [b|]]; cbn; auto; intros L; pose proof (mid_between r a b Hr L); lra.
Qed.
Theorem lf_shrinks : forall r, 0 < r < 1 -> bis_shrinks (Rmax r (1 - r)) (lf r).
Proof.
  intros r Hr. assert (M1 := Rmax_l r (1 - r)). assert (M2 := Rmax_r r (1 - r)). constructor.
  - unfold Rmax. destruct (Rle_dec r (1 - r)); lra.
  - intros x i B Hi Wi. unfold lf. replace (forallb is_bounded x) with true.
    2:{ symmetry. apply forallb_forall. rewrite Forall_forall in B. intros j Hj. destruct (B j Hj) as (a & b & -> & _). auto. }
    replace (Rltb 0 (width (nth (widest x) x Emp))) with true; [discriminate|].
    symmetry. apply Rltb_true. pose proof (widest_max x i Hi). lra.
  - intros x x1 x2 B E. unfold lf in E. destruct (forallb is_bounded x && Rltb 0 (width (nth (widest x) x Emp)))%bool eqn:C; [|discriminate].
    injection E; intros <- <-. apply andb_true_iff in C. destruct C as [_ C]. apply Rltb_true in C.
    assert (N : x <> []) by (intros ->; cbn in C; lra).
    assert (Ek : nth_error x (widest x) = Some (nth (widest x) x Emp)) by (apply nth_error_nth'; apply widest_lt; auto).
    exists (widest x), (nth (widest x) x Emp), (half1 r (nth (widest x) x Emp)), (half2 r (nth (widest x) x Emp)).
    split; [auto|]. split; [rewrite nth_error_upd, Nat.eqb_refl, Ek; auto|]. split; [rewrite nth_error_upd, Nat.eqb_refl, Ek; auto|].
    split; [apply widest_max|].
    rewrite Forall_forall in B. destruct (B _ (nth_error_In _ _ Ek)) as (a & b & -> & L). cbn.
    assert (r * (b - a) <= Rmax r (1 - r) * (b - a)) by (apply Rmult_le_compat_r; lra).
    assert ((1 - r) * (b - a) <= Rmax r (1 - r) * (b - a)) by (apply Rmult_le_compat_r; lra). lra.
Qed.

Ltac boxt := repeat (apply Forall2_cons || apply Forall2_nil || apply Forall_cons || apply Forall_nil); cbn; try lra.
(** ** The OUT boxes may contain solutions *)
(** finitely many closed boxes: a limit of points of the boxes is in the boxes *)
Lemma itv_open i v : ~ In v i -> exists eps, 0 < eps /\ forall u, Rabs (v - u) < eps -> ~ In u i.
Proof.
  intros H. destruct i as [|l h]; [exists 1; split; [lra|auto]|].
  assert (C : (exists a, l = Some a /\ v < a) \/ (exists b, h = Some b /\ b < v)).
  { destruct l as [a|], h as [b|]; cbn in H.
    - destruct (Rlt_dec v a); [left; eauto|]. right. exists b. split; auto. apply Rnot_le_lt. intros K. apply H. lra.
    - left. exists a. split; auto. apply Rnot_le_lt. tauto.
    - right. exists b. split; auto. apply Rnot_le_lt. tauto.
    - tauto. }
  destruct C as [(a & -> & L)|(b & -> & L)].
  - exists (a - v). split; [lra|]. intros u Hu. apply Rabs_def2 in Hu. destruct h; cbn; lra.
  - exists (v - b). split; [lra|]. intros u Hu. apply Rabs_def2 in Hu. destruct l; cbn; lra.
Qed.
Lemma box_open : forall x p, ~ inb p x -> exists eps, 0 < eps /\ forall q, near eps p q -> ~ inb q x.
Proof.
  induction x as [|i x IH]; intros p H.
  - exists 1. split; [lra|]. intros q Hq K. inversion K; subst. inversion Hq; subst. apply H. constructor.
  - destruct p as [|v p]; [exists 1; split; [lra|]; intros q Hq; inversion Hq; subst; intros K; inversion K|].
    destruct (classic (In v i)) as [Hv|Hv].
    + destruct (IH p) as (eps & E1 & E2); [intros K; apply H; constructor; auto|]. exists eps. split; auto.
      intros q Hq K. inversion Hq; subst. inversion K; subst. apply (E2 l'); auto.
    + destruct (itv_open i v Hv) as (eps & E1 & E2). exists eps. split; auto.
      intros q Hq K. inversion Hq; subst. inversion K; subst. apply (E2 y); auto.
Qed.
Lemma near_mono e1 e2 p q : e1 <= e2 -> near e1 p q -> near e2 p q.
Proof. intros H N. induction N; constructor; auto. lra. Qed.
Lemma boxes_closed : forall l p, limit (reported l) p -> reported l p.
Proof.
  intros l p H. apply NNPP. intros N.
  assert (G : exists eps, 0 < eps /\ forall q, near eps p q -> ~ reported l q).
  { clear H. induction l as [|x l IH]; [exists 1; split; [lra|]; intros q _ (y & [] & _)|].
    destruct IH as (e1 & L1 & H1); [intros (y & Hy & K); apply N; exists y; split; [right|]; auto|].
    destruct (box_open x p) as (e2 & L2 & H2); [intros K; apply N; exists x; split; [left|]; auto|].
    exists (Rmin e1 e2). split; [apply Rmin_glb_lt; auto|]. intros q Hq (y & [<-|Hy] & K).
    - apply (H2 q); auto. eapply near_mono; [apply Rmin_r|eauto].
    - apply (H1 q); [eapply near_mono; [apply Rmin_l|eauto]|]. exists y. auto. }
  destruct G as (eps & L & G). destruct (H eps L) as (q & Q1 & Q2). apply (G q); auto.
Qed.
Lemma out_grows diff bis ctc precision regular n y0 : forall fuel stack r r',
  sivia_ctc_loop diff bis ctc precision regular n y0 fuel stack r = Done r' -> forall p, reported (p_out r) p -> reported (p_out r') p.
Proof.
  induction fuel as [|fuel IH]; intros stack r r' E p Hp.
  - destruct stack; [|discriminate]. injection E; intros <-. auto.
  - destruct stack as [|xb stack]; cbn [sivia_ctc_loop] in E; [injection E; intros <-; auto|]. cbv zeta in E.
    set (r1 := add_out _ r) in E. assert (H1 : reported (p_out r1) p) by (cbn; apply reported_rev; auto).
    destruct (b_is_empty (ctc xb)); [eapply IH; eauto|].
    destruct (max_diam_lt _ _); [eapply IH; [exact E|]; auto|]. destruct (bis _) as [[x1 x2]|]; [|discriminate]. eapply IH; eauto.
Qed.
(** a contractor for a box *)
Definition cut (b x : box) : box := if Nat.eqb (length x) (length b) then b_inter x b else b_set_empty x.
Lemma set_empty_normal x : normal (b_set_empty x).
Proof. destruct x; cbn; [intros _ []|discriminate]. Qed.
Lemma inter_normal a b : normal a -> normal (b_inter a b).
Proof.
  intros Na. unfold b_inter. destruct (b_is_empty a) eqn:E; [auto|].
  destruct (b_is_empty b); [apply set_empty_normal|]. destruct (existsb is_empty (map2 inter a b)) eqn:Ex; [apply set_empty_normal|].
  intros _ H. assert (existsb is_empty (map2 inter a b) = true) by (apply existsb_exists; exists Emp; auto). congruence.
Qed.
Lemma cut_normal b x : normal (cut b x).
Proof.
  unfold cut. destruct (Nat.eqb _ _); [|apply set_empty_normal]. intros E. unfold b_inter in *.
  destruct (b_is_empty x) eqn:Ex; [congruence|].
  destruct (b_is_empty b); [apply set_empty_normal; auto|]. destruct (existsb is_empty (map2 inter x b)) eqn:Ez; [apply set_empty_normal; auto|].
  intros H. assert (existsb is_empty (map2 inter x b) = true) by (apply existsb_exists; exists Emp; auto). congruence.
Qed.
Theorem cut_ok : forall b, ctc_ok (fun p => inb p b) (cut b).
Proof.
  intros b. constructor.
  - intros x p Hx Hb. unfold cut. apply F2_len in Hx as L1. apply F2_len in Hb as L2.
    replace (Nat.eqb (length x) (length b)) with true by (symmetry; apply Nat.eqb_eq; congruence). apply b_inter_in; auto.
  - intros x. unfold cut. destruct (Nat.eqb_spec (length x) (length b)); [apply b_inter_sub; auto|apply set_empty_sub].
  - intros x W. unfold cut. destruct (Nat.eqb _ _); [apply b_inter_wf; auto|]. clear W. induction x; cbn; constructor; auto. exact I.
  - intros x. apply cut_normal.
Qed.

(** The solutions of x1 = 1: the contracted box is flat, the closure of the difference is the whole box, which is
    reported OUT.  This does not depend on how the difference is cut into boxes. *)
Definition line : box := [pt 1; I2 0 2].
Definition square : box := [I2 0 2; I2 0 2].
Lemma all_out : forall diff bis precision fuel r, diff_ok diff ->
  sivia_ctc diff bis (cut line) precision false square [] fuel = Done r ->
  forall p, inb p square -> reported (p_out r) p.
Proof.
  intros diff bis precision fuel r HD E.
  unfold sivia_ctc in E. change (square ++ []) with square in E.
  destruct fuel as [|fuel]; [discriminate|]. cbn [sivia_ctc_loop] in E. cbv zeta in E.
  assert (Ec : cut line square = line).
  { unfold cut, line, square, b_inter, I2, pt. cbn. unfold mk. rdec. cbn. unfold Rmax, Rmin. rdec. reflexivity. }
  rewrite Ec in E. set (r1 := add_out (diff square line) (mkP [] [] [])) in E.
  assert (Ws : Forall wf square) by (boxt).
  assert (Wl : Forall wf line) by (boxt).
  assert (Nl : normal line) by (intros _ [H|[H|[]]]; discriminate).
  assert (Sl : Forall2 sub line square) by (boxt; intros v; cbn; lra).
  assert (H1 : forall p, inb p square -> reported (p_out r1) p).
  { intros p Hp. cbn. rewrite app_nil_r. apply boxes_closed. intros eps He.
    assert (G : exists q, inb q square /\ ~ inb q line /\ near eps p q).
    { inversion Hp as [|v ? p' ? Hv Hp']; subst. cbn in Hv. destruct (Req_dec v 1) as [->|Nv].
      - exists ((1 + Rmin 1 (eps / 2)) :: p').
        assert (0 < Rmin 1 (eps / 2)) by (apply Rmin_glb_lt; lra). assert (Rmin 1 (eps / 2) <= 1) by apply Rmin_l. assert (Rmin 1 (eps / 2) <= eps / 2) by apply Rmin_r.
        repeat split; [constructor; auto; cbn; lra|intros K; inversion K; subst; cbn in *; lra|].
        constructor; [apply Rabs_def1; lra|apply near_refl; auto].
      - exists (v :: p'). repeat split; [constructor; auto|intros K; inversion K; subst; cbn in *; lra|apply near_refl; auto]. }
    destruct G as (q & Q1 & Q2 & Q3). exists q. split; auto.
    destruct (d_cover _ HD square line q Sl Ws Wl Nl Q1 Q2) as (d & D1 & D2). exists d. split; auto. apply -> in_rev. auto. }
  intros p Hp. specialize (H1 p Hp).
  destruct (b_is_empty line); [eapply out_grows; eauto|]. destruct (max_diam_lt _ _); [eapply out_grows; [exact E|]; auto|].
  destruct (bis _) as [[x1 x2]|]; [|discriminate]. eapply out_grows; eauto.
Qed.
Lemma square_bounded : Forall bounded square.
Proof. boxt; exists 0, 2; split; auto; lra. Qed.
Lemma lf45 : 0 < 45 / 100 < 1. Proof. lra. Qed.
Theorem C40_refuted : exists P ctc x0 p, ctc_ok P ctc /\ Forall wf x0 /\ inb p x0 /\ P p /\
  (forall diff bis precision fuel r, diff_ok diff -> sivia_ctc diff bis ctc precision false x0 [] fuel = Done r -> reported (p_out r) p) /\
  (exists fuel r, sivia_ctc cdiff (lf (45 / 100)) ctc (1 / 10) false x0 [] fuel = Done r).
Proof.
  exists (fun p => inb p line), (cut line), square, [1; 1].
  refine (conj (cut_ok line) (conj _ (conj _ (conj _ (conj _ _))))).
  - boxt.
  - boxt.
  - boxt.
  - intros diff bis precision fuel r HD E. eapply all_out; eauto. boxt.
  - eapply (C41_ctc _ _ _ _ _ _ _ _ (lf_ok _ lf45) (lf_shrinks _ lf45)); try apply (cut_ok line); auto using square_bounded. lra.
Qed.

(** ** Examples *)
(** the points out of the interior of a box can be kept by the whole box only; a separator of the box [b]: it removes
    [x_in] when it is included in [b], and contracts [x_out] with [b] *)
Definition box_sep (b : box) : sep_t := fun xi xo =>
  (if Nat.eqb (length xi) (length b) && forallb (fun q => is_subset (fst q) (snd q)) (combine xi b) then b_set_empty xi else
   if existsb is_empty xi then b_set_empty xi else xi, cut b xo).
Lemma normal_or_empty (x : box) : normal (if existsb is_empty x then b_set_empty x else x).
Proof.
  destruct (existsb is_empty x) eqn:E; [apply set_empty_normal|]. intros _ H.
  assert (existsb is_empty x = true) by (apply existsb_exists; exists Emp; auto). congruence.
Qed.
Lemma inb_not_empty p x : inb p x -> existsb is_empty x = false.
Proof. induction 1 as [|v i p x H F IH]; cbn; auto. rewrite IH. destruct i; [destruct H|]; auto. Qed.
Lemma subset_all : forall x b p, length x = length b -> forallb (fun q => is_subset (fst q) (snd q)) (combine x b) = true -> inb p x -> inb p b.
Proof.
  intros x b p L H Hp. revert b L H. induction Hp as [|v i p x Hv Hp IH]; intros [|j b] L H; try discriminate; constructor.
  - cbn in H. apply andb_true_iff in H. destruct H as [H _]. apply is_subset_sub in H; auto.
  - apply IH; [cbn in L; lia|]. cbn in H. apply andb_true_iff in H. tauto.
Qed.
Lemma set_empty_wf (x : box) : Forall wf (b_set_empty x).
Proof. induction x; cbn; constructor; auto. exact I. Qed.
Lemma box_sep_ok b : sep_ok (fun p => inb p b) (box_sep b).
Proof.
  constructor; unfold box_sep; cbn [fst snd].
  - intros xi xo p Hp N. rewrite (inb_not_empty _ _ Hp).
    destruct (Nat.eqb (length xi) (length b) && _)%bool eqn:E; auto. apply andb_true_iff in E. destruct E as [E1 E2].
    apply Nat.eqb_eq in E1. exfalso. apply N. eapply subset_all; eauto.
  - intros xi xo p Hp HS. apply (c_keeps _ _ (cut_ok b)); auto.
  - intros xi xo. split; [|apply (c_contracts _ _ (cut_ok b))].
    destruct (_ && _)%bool; [apply set_empty_sub|]. destruct (existsb _ _); [apply set_empty_sub|apply F2_sub_refl].
  - intros xi xo Wi Wo. split; [|apply (c_boxes _ _ (cut_ok b)); auto].
    destruct (_ && _)%bool; [apply set_empty_wf|]. destruct (existsb _ _); [apply set_empty_wf|auto].
  - intros xi xo. split; [|apply cut_normal]. destruct (_ && _)%bool; [apply set_empty_normal|apply normal_or_empty].
Qed.

Definition disk_box : box := [I2 1 3; I2 0 1].
(** the hypotheses of C40_ctc and C41_ctc hold together: the solutions are found *)
Example C40_ctc_ex : forall regular, exists fuel r, sivia_ctc cdiff (lf (45 / 100)) (cut disk_box) (1 / 10) regular square [] fuel = Done r /\
  reported (p_unk r) [3 / 2; 1 / 2].
Proof.
  intros regular.
  destruct (C41_ctc cdiff (lf (45 / 100)) _ (cut disk_box) (1 / 10) regular square [] (lf_ok _ lf45) (lf_shrinks _ lf45)) as (fuel & r & E);
    try apply (cut_ok disk_box); auto using square_bounded; [lra|].
  exists fuel, r. split; auto.
  assert (W : Forall wf square) by boxt.
  destruct (C40_ctc _ _ _ _ _ _ square [] fuel r cdiff_ok (lf_ok _ lf45) (cut_ok disk_box) W (Forall_nil wf) E) as (H & _).
  apply H; boxt.
Qed.
(** with a part that is not bisected *)
Example C40_ctc_y_ex : exists fuel r, sivia_ctc cdiff (lf (45 / 100)) (cut disk_box) (1 / 10) false [I2 0 2] [I2 0 2] fuel = Done r /\
  reported (p_unk r) [3 / 2; 1 / 2].
Proof.
  assert (B : Forall bounded [I2 0 2]) by (boxt; exists 0, 2; split; auto; lra).
  assert (W : Forall wf [I2 0 2]) by (boxt).
  destruct (C41_ctc cdiff (lf (45 / 100)) _ (cut disk_box) (1 / 10) false [I2 0 2] [I2 0 2] (lf_ok _ lf45) (lf_shrinks _ lf45)) as (fuel & r & E);
    try apply (cut_ok disk_box); auto; [lra|].
  exists fuel, r. split; auto.
  destruct (C40_ctc _ _ _ _ _ _ [I2 0 2] [I2 0 2] fuel r cdiff_ok (lf_ok _ lf45) (cut_ok disk_box) W W E) as (H & _).
  apply H; boxt.
Qed.
(** a separator: an inner point is in an IN or UNKNOWN box, an outer point is in an OUT or UNKNOWN box *)
Example C40_sep_ex : forall regular, exists fuel r, sivia_sep cdiff (lf (45 / 100)) (box_sep disk_box) (1 / 10) regular square fuel = Done r /\
  (reported (p_in r) [3 / 2; 1 / 2] \/ reported (p_unk r) [3 / 2; 1 / 2]) /\
  (reported (p_out r) [1 / 2; 1 / 2] \/ reported (p_unk r) [1 / 2; 1 / 2]).
Proof.
  intros regular.
  destruct (C41_sep cdiff (lf (45 / 100)) _ (box_sep disk_box) (1 / 10) regular square (lf_ok _ lf45) (lf_shrinks _ lf45)) as (fuel & r & E);
    try apply (box_sep_ok disk_box); auto using square_bounded; [lra|].
  exists fuel, r. split; auto.
  assert (W : Forall wf square) by boxt. assert (N : square <> []) by discriminate.
  destruct (C40_sep _ _ _ _ _ _ square fuel r cdiff_ok (lf_ok _ lf45) (box_sep_ok disk_box) N W E) as (H1 & H2 & _).
  split; [apply H1; boxt|apply H2; [boxt|]]. intros K. inversion K; subst. cbn in *. lra.
Qed.

Print Assumptions C40_ctc.
Print Assumptions C40_sep.
Print Assumptions C40_refuted.
Print Assumptions C41_ctc.
Print Assumptions C41_sep.
