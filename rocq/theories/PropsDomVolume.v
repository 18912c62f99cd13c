(** * C116: contractions of slices, tubes and tube vectors are noticed by the network *)

From Coq Require Import Reals Lra Bool List Arith Lia Psatz.
Import ListNotations.
From Verif Require Import CN Itv Arith Tube TubeSpec TubeFacts Concrete Measure PropsMeasure DomVolume.
Open Scope R_scope.

(** ** Spec: [x] is a contraction of [y] *)
Definition s_below (s q : slice) : Prop :=
  s_lb s = s_lb q /\ s_ub s = s_ub q /\ sub (s_cod s) (s_cod q) /\ sub (s_in s) (s_in q) /\ sub (s_out s) (s_out q).
Definition below (x y : tube) : Prop := Forall2 s_below x y.
(** no bound is infinite *)
Definition s_bounded (s : slice) : Prop := is_unbounded (s_cod s) = false /\ is_unbounded (s_in s) = false /\ is_unbounded (s_out s) = false.
(** an emptied interval was not a single value *)
Definition emptied_wide (i j : itv) : Prop := i = Emp -> j = Emp \/ exists u v, In u j /\ In v j /\ u <> v.
Definition s_emptied (s q : slice) : Prop := emptied_wide (s_cod s) (s_cod q) /\ emptied_wide (s_in s) (s_in q) /\ emptied_wide (s_out s) (s_out q).

(** ** Sums of weighted widths *)
Definition ws (l : list (R * itv)) : option R := fold_right (fun p acc => wadd (option_map (fun w => fst p * w) (wd (snd p))) acc) (Some 0) l.
Definition part_le (p q : R * itv) : Prop :=
  fst p = fst q /\ 0 < fst q /\ wf (snd p) /\ wf (snd q) /\ sub (snd p) (snd q) /\ is_unbounded (snd q) = false /\ emptied_wide (snd p) (snd q).
Lemma wd_le i j : wf i -> wf j -> sub i j -> is_unbounded j = false -> exists w w', wd i = Some w /\ wd j = Some w' /\ 0 <= w <= w' /\ (emptied_wide i j -> w = w' -> i = j).
Proof.
  intros Wi Wj S U. destruct j as [|[p|] [q|]]; try discriminate.
  - destruct i as [|l h]; [exists 0, 0; repeat split; auto; lra|]. exfalso. destruct (wf_witness (Itv l h)) as (x & Hx); auto; [discriminate|]. exact (S x Hx).
  - cbn in Wj. destruct i as [|l h].
    + exists 0, (q - p). cbn. split; auto. split; auto. split; [lra|]. intros E Eq. destruct (E eq_refl) as [E'|(u & v & Hu & Hv & N)]; [auto|]. cbn in Hu, Hv. exfalso. apply N. lra.
    + destruct l as [l|], h as [h|].
      * cbn in Wi. assert (S1 := S l). assert (S2 := S h). cbn in S1, S2. exists (h - l), (q - p). cbn. split; auto. split; auto. split; [lra|]. intros _ Eq. f_equal; f_equal; lra.
      * exfalso. assert (K := S (Rmax l (q + 1))). assert (K1 := Rmax_l l (q + 1)). assert (K2 := Rmax_r l (q + 1)). cbn in K. lra.
      * exfalso. assert (K := S (Rmin h (p - 1))). assert (K1 := Rmin_l h (p - 1)). assert (K2 := Rmin_r h (p - 1)). cbn in K. lra.
      * exfalso. assert (K := S (q + 1)). cbn in K. lra.
Qed.
Lemma ws_le l l' : Forall2 part_le l l' -> exists a b, ws l = Some a /\ ws l' = Some b /\ 0 <= a <= b /\ (a = b -> l = l').
Proof.
  induction 1 as [|[c i] [c' j] l l' (E & C & Wi & Wj & S & U & Em) F (a & b & Ea & Eb & Le & Eq)]; cbn [ws fold_right fst snd] in *; [exists 0, 0; repeat split; auto; lra|].
  destruct (wd_le i j Wi Wj S U) as (w & w' & Ew & Ew' & Lw & Q). fold (ws l) (ws l'). rewrite Ew, Ew', Ea, Eb. cbn. subst c'. exists (c * w + a), (c * w' + b). split; auto. split; auto. split; [nra|].
  intros H. assert (w = w') by nra. subst w'. rewrite Q by auto. rewrite Eq by lra. auto.
Qed.
Lemma ws_app l l' : ws (l ++ l') = wadd (ws l) (ws l').
Proof.
  induction l as [|p l IH]; cbn [app ws fold_right]; [fold (ws l'); cbn; destruct (ws l'); cbn; rewrite ?Rplus_0_l; reflexivity|]. fold (ws (l ++ l')) (ws l). rewrite IH.
  destruct (option_map _ _) as [u|], (ws l) as [v|], (ws l') as [w|]; cbn; auto. f_equal. lra.
Qed.
Lemma wadd_assoc a b c : wadd (wadd a b) c = wadd a (wadd b c).
Proof. destruct a, b, c; cbn; auto. f_equal. lra. Qed.
Lemma wadd_comm a b : wadd a b = wadd b a.
Proof. destruct a, b; cbn; auto. f_equal. lra. Qed.

(** ** Volumes as weighted sums *)
Definition s_parts (s : slice) : list (R * itv) := [(s_ub s - s_lb s, s_cod s); (1, s_in s); (1, s_out s)].
Definition b_parts (x : tube) : list (R * itv) := flat_map (fun s => [(s_ub s - s_lb s, s_cod s); (1, s_out s)]) x.
Definition t_parts (x : tube) : list (R * itv) := match x with [] => [] | s :: _ => (1, s_in s) :: b_parts x end.
Lemma one_w i : option_map (fun w => 1 * w) (wd i) = wd i.
Proof. destruct (wd i); cbn; auto. f_equal. lra. Qed.
Lemma gate_wd i : is_unbounded i = false -> gate_volume i = wd i.
Proof. intros U. unfold gate_volume. destruct i as [|l h]; cbn [is_empty]; auto. rewrite U. auto. Qed.
Lemma slice_ws s : s_bounded s -> dom_slice s = to_vol (ws (s_parts s)).
Proof.
  intros (U1 & U2 & U3). unfold dom_slice, s_parts, ws. cbn [fold_right fst snd]. rewrite !one_w, !gate_wd by auto. unfold slice_volume.
  destruct (option_map _ _), (wd (s_in s)), (wd (s_out s)); cbn; auto. f_equal. lra.
Qed.
Lemma volume_loop_ws x : forall v, volume_loop v x = wadd (Some v) (fold_right (fun s acc => wadd (slice_volume s) acc) (Some 0) x).
Proof.
  induction x as [|s x IH]; intros v; cbn [volume_loop fold_right]; [cbn; rewrite Rplus_0_r; reflexivity|]. destruct (slice_volume s) as [u|]; [|reflexivity]. rewrite IH. destruct (fold_right _ _ x); cbn; auto. f_equal. lra.
Qed.
Lemma fold_gates x : forall v, fold_left (fun vol s => wadd vol (wd (s_out s))) x v = wadd v (fold_right (fun s acc => wadd (wd (s_out s)) acc) (Some 0) x).
Proof.
  induction x as [|s x IH]; intros v; cbn [fold_left fold_right]; [destruct v; cbn; rewrite ?Rplus_0_r; reflexivity|]. rewrite IH, wadd_assoc. auto.
Qed.
Lemma b_ws x : ws (b_parts x) = wadd (fold_right (fun s acc => wadd (slice_volume s) acc) (Some 0) x) (fold_right (fun s acc => wadd (wd (s_out s)) acc) (Some 0) x).
Proof.
  induction x as [|s x IH]; [cbn; rewrite Rplus_0_r; reflexivity|]. unfold b_parts. cbn [flat_map]. rewrite ws_app. fold (b_parts x). rewrite IH. cbn [fold_right]. unfold ws. cbn [fold_right fst snd]. rewrite one_w. change (option_map (fun w => (s_ub s - s_lb s) * w) (wd (s_cod s))) with (slice_volume s).
  generalize (slice_volume s), (wd (s_out s)), (fold_right (fun s acc => wadd (slice_volume s) acc) (Some 0) x), (fold_right (fun s acc => wadd (wd (s_out s)) acc) (Some 0) x).
  intros a b c d. destruct a, b, c, d; cbn; auto. f_equal. lra.
Qed.
Lemma gates_ws x v : x <> [] -> add_gates (wadd v (volume x)) x = wadd v (ws (t_parts x)).
Proof.
  destruct x as [|s x]; [congruence|]. intros _. unfold add_gates. rewrite fold_gates. unfold volume. rewrite volume_loop_ws. unfold t_parts. change (ws ((1, s_in s) :: b_parts (s :: x))) with (wadd (option_map (fun w => 1 * w) (wd (s_in s))) (ws (b_parts (s :: x)))). rewrite b_ws, one_w.
  generalize (fold_right (fun s acc => wadd (slice_volume s) acc) (Some 0) (s :: x)), (fold_right (fun s acc => wadd (wd (s_out s)) acc) (Some 0) (s :: x)), (wd (s_in s)).
  intros a b c. destruct v, a, b, c; cbn; auto. f_equal. lra.
Qed.
Lemma tube_ws x : x <> [] -> dom_tube x = to_vol (ws (t_parts x)).
Proof.
  intros N. assert (Z : forall o, wadd (Some 0) o = o) by (intros [r|]; cbn; rewrite ?Rplus_0_l; auto). unfold dom_tube. rewrite <- (Z (volume x)), gates_ws, Z by auto. auto.
Qed.
Lemma vec_ws v : Forall (fun x => x <> []) v -> dom_tube_vector v = to_vol (ws (flat_map t_parts v)).
Proof.
  intros N. unfold dom_tube_vector. assert (K : forall a, fold_left (fun vol x => add_gates (wadd vol (volume x)) x) v a = wadd a (ws (flat_map t_parts v))).
  { induction N as [|x v Nx N IH]; intros a; cbn [fold_left flat_map]; [destruct a; cbn; rewrite ?Rplus_0_r; reflexivity|]. rewrite IH, gates_ws, ws_app, wadd_assoc; auto. }
  rewrite K. destruct (ws _); cbn; auto. f_equal. lra.
Qed.

Lemma shrunk_lt a b : 0 <= a -> a < b -> shrunk 0 (Fin a) (Fin b) = true.
Proof. intros A L. cbn. rewrite (proj2 (Reqb_false b 0)) by lra. apply Rltb_true. apply (Rmult_lt_reg_r b); [lra|]. field_simplify; lra. Qed.
Lemma shrunk_same r a : 0 <= r -> 0 <= a -> shrunk r (Fin a) (Fin a) = false.
Proof.
  intros Hr A. cbn. destruct (Reqb a 0) eqn:E; [rewrite (proj2 (Rltb_false a 0)) by lra; auto|]. apply Reqb_false in E. apply Rltb_false. replace (a / a) with 1 by (field; lra). lra.
Qed.
Lemma noticed l l' : Forall2 part_le l l' -> l <> l' -> shrunk 0 (to_vol (ws l)) (to_vol (ws l')) = true.
Proof. intros F N. destruct (ws_le l l' F) as (a & b & -> & -> & Le & Eq). cbn [to_vol]. apply shrunk_lt; [lra|]. destruct (Req_dec a b) as [E|E]; [destruct N; auto|lra]. Qed.
Lemma slice_part s q : slice_ok s -> slice_ok q -> s_lb q < s_ub q -> s_below s q -> s_bounded q -> s_emptied s q -> Forall2 part_le (s_parts s) (s_parts q).
Proof.
  intros (W1 & W2 & W3 & _) (V1 & V2 & V3 & _) L (E1 & E2 & S1 & S2 & S3) (U1 & U2 & U3) (M1 & M2 & M3). unfold s_parts. constructor; [|constructor; [|constructor; [|constructor]]]; (split; [cbn; lra|]); (split; [cbn; lra|]); cbn [snd]; (split; [auto|]); (split; [auto|]); (split; [auto|]); split; auto.
Qed.

(** C116: every contraction of a bounded slice is noticed. *)
Theorem C116_slice : forall s q, slice_ok s -> slice_ok q -> s_lb q < s_ub q -> s_below s q -> s_bounded q -> s_emptied s q -> s <> q ->
  shrunk 0 (dom_slice s) (dom_slice q) = true.
Proof.
  intros s q Os Oq L B Bd E N. assert (F := slice_part s q Os Oq L B Bd E). assert (Bs : s_bounded s).
  { destruct B as (_ & _ & S1 & S2 & S3), Bd as (U1 & U2 & U3), Os as (W1 & W2 & W3 & _), Oq as (V1 & V2 & V3 & _).
    assert (K : forall i j, wf i -> wf j -> sub i j -> is_unbounded j = false -> is_unbounded i = false) by (intros i j Wi Wj S U; destruct (wd_le i j Wi Wj S U) as (w & w' & Ew & _); destruct (is_unbounded i) eqn:Ui; auto; apply wd_none in Ui; congruence).
    split; [|split]; eauto. }
  rewrite !slice_ws by auto. apply noticed; auto. intros Eq. apply N. unfold s_parts in Eq. destruct s, q. destruct B as (B1 & B2 & _). cbn in *. inversion Eq; subst. auto.
Qed.
Lemma tube_part a b x y : tube_ok a b x -> tube_ok a b y -> below x y -> Forall s_bounded y -> Forall2 s_emptied x y -> Forall2 part_le (t_parts x) (t_parts y).
Proof.
  intros Ox Oy B Bd E. assert (Sx := ok_slices _ _ _ Ox). assert (Sy := ok_slices _ _ _ Oy). assert (C := ok_chain _ _ _ Oy). clear Ox Oy.
  assert (K : forall a, chain_from a y b -> Forall2 part_le (b_parts x) (b_parts y)).
  { clear a C. revert Bd E Sx Sy. induction B as [|s q x y B1 B IH]; intros Bd E Sx Sy a C; [constructor|]. inversion Bd; inversion E; inversion Sx; inversion Sy; subst. cbn [chain_from] in C. destruct C as (_ & L & C).
    assert (P := slice_part s q ltac:(auto) ltac:(auto) L B1 ltac:(auto) ltac:(auto)). unfold s_parts in P. inversion P as [|? ? ? ? P1 P2]; subst. inversion P2 as [|? ? ? ? P3 P4]; subst. inversion P4; subst. unfold b_parts. cbn [flat_map app]. constructor; auto. constructor; auto. eapply IH; eauto. }
  specialize (K a C). destruct B as [|s q x y B1 B]; [constructor|]. unfold t_parts. constructor; auto. inversion Bd; inversion E; inversion Sx; inversion Sy; subst. cbn [chain_from] in C. destruct C as (_ & L & C).
  assert (P := slice_part s q ltac:(auto) ltac:(auto) L B1 ltac:(auto) ltac:(auto)). unfold s_parts in P. inversion P as [|? ? ? ? P1 P2]; subst. inversion P2; auto.
Qed.
Lemma parts_eq a b x y : tube_ok a b x -> tube_ok a b y -> below x y -> t_parts x = t_parts y -> x = y.
Proof.
  intros Ox Oy B E. assert (Gx := ok_shared _ _ _ Ox). assert (Gy := ok_shared _ _ _ Oy). clear Ox Oy.
  assert (K : forall x y, below x y -> gates_shared x -> gates_shared y -> b_parts x = b_parts y -> (match x, y with s :: _, q :: _ => s_in s = s_in q | _, _ => True end) -> x = y).
  { clear. induction 1 as [|s q x y B1 B IH]; intros Gx Gy E I; auto. unfold b_parts in E. cbn [flat_map app] in E. inversion E as [[E1 E2 E3 E4]]. destruct B1 as (L1 & L2 & _). f_equal; [destruct s, q; cbn in *; subst; auto|].
    apply IH; auto; [apply Gx|apply Gy|]. cbn [gates_shared] in Gx, Gy. destruct x as [|s' x], y as [|q' y]; auto. destruct Gx as [Gx _], Gy as [Gy _]. congruence. }
  assert (E1 : b_parts x = b_parts y /\ match x, y with s :: _, q :: _ => s_in s = s_in q | _, _ => True end). { clear K Gx Gy. destruct B as [|s q x y B1 B]; auto. unfold t_parts in E. assert (E1 := f_equal (@tl _) E). assert (E2 := f_equal (fun l => match l with p :: _ => snd p | [] => Emp end) E). split; auto. }
  apply K; tauto.
Qed.

(** C116: every contraction of a bounded tube is noticed. *)
Theorem C116_tube : forall a b x y, tube_ok a b x -> tube_ok a b y -> below x y -> Forall s_bounded y -> Forall2 s_emptied x y -> x <> y ->
  shrunk 0 (dom_tube x) (dom_tube y) = true.
Proof.
  intros a b x y Ox Oy B Bd E N. rewrite !tube_ws by (eapply ok_ne; eauto). apply noticed; [eapply tube_part; eauto|]. intros Eq. apply N. eapply parts_eq; eauto.
Qed.
(** C116: every contraction of a vector of bounded tubes is noticed. *)
Theorem C116_vector : forall a b v w, Forall (tube_ok a b) v -> Forall (tube_ok a b) w -> Forall2 below v w -> Forall (Forall s_bounded) w ->
  Forall2 (Forall2 s_emptied) v w -> v <> w -> shrunk 0 (dom_tube_vector v) (dom_tube_vector w) = true.
Proof.
  intros a b v w Ov Ow B Bd E N. assert (Nv : Forall (fun x => x <> []) v) by (eapply Forall_impl; [|exact Ov]; intros x Ox; eapply ok_ne; eauto).
  assert (Nw : Forall (fun x => x <> []) w) by (eapply Forall_impl; [|exact Ow]; intros x Ox; eapply ok_ne; eauto). rewrite !vec_ws by auto. clear Nv Nw. apply noticed.
  - clear N. revert Ov Ow Bd E. induction B as [|x y v w B1 B IH]; intros Ov Ow Bd E; [constructor|]. inversion Ov; inversion Ow; inversion Bd; inversion E; subst. cbn [flat_map]. apply Forall2_app; [eapply tube_part; eauto|auto].
  - intros Eq. apply N. clear N Bd E. revert Ov Ow Eq. induction B as [|x y v w B1 B IH]; intros Ov Ow Eq; auto. inversion Ov; inversion Ow; subst. cbn [flat_map] in Eq.
    assert (L : forall x y, below x y -> length (t_parts x) = length (t_parts y)). { clear. intros x y B. assert (K : length (b_parts x) = length (b_parts y)) by (induction B; cbn; auto). destruct B as [|s q x y B1 B]; auto. cbn [t_parts length]. auto. }
    assert (App : forall (l1 l2 m1 m2 : list (R * itv)), length l1 = length m1 -> l1 ++ l2 = m1 ++ m2 -> l1 = m1 /\ l2 = m2).
    { clear. induction l1 as [|p l1 IH]; intros l2 [|q m1] m2 L E; try discriminate; auto. cbn in E. injection L as L. inversion E; subst. destruct (IH _ _ _ L H1). subst. auto. }
    destruct (App _ _ _ _ (L _ _ B1) Eq) as [E1 E2]. f_equal; [eapply parts_eq; eauto|auto].
Qed.
(** C116: nothing is noticed when nothing changes, for every ratio. *)
Theorem C116_quiet : forall r a b x, 0 <= r -> tube_ok a b x -> shrunk r (dom_tube x) (dom_tube x) = false.
Proof.
  intros r a b x Hr Ox. rewrite tube_ws by (eapply ok_ne; eauto). destruct (ws (t_parts x)) as [w|] eqn:E; [|reflexivity]. cbn [to_vol]. apply shrunk_same; auto.
  assert (K : forall l w, Forall (fun p => 0 <= fst p /\ wf (snd p)) l -> ws l = Some w -> 0 <= w).
  { clear. induction l as [|[c i] l IH]; intros w F E; cbn [ws fold_right fst snd] in E; [inversion E; lra|]. inversion F as [|? ? [P1 P2] F']; subst. cbn in P1, P2. fold (ws l) in E. destruct (wd i) as [u|] eqn:Eu; [|discriminate]. destruct (ws l) as [z|] eqn:Ez; [|discriminate].
    cbn in E. injection E as <-. specialize (IH z F' eq_refl). assert (0 <= u). { destruct i as [|[p|] [q|]]; cbn in *; inversion Eu; subst; lra. } nra. }
  apply (K _ _) in E; auto. assert (S := ok_slices _ _ _ Ox). assert (C := ok_chain _ _ _ Ox). clear - S C. assert (Kb : forall a, chain_from a x b -> Forall (fun p => 0 <= fst p /\ wf (snd p)) (b_parts x)).
  { clear a C. induction S as [|s x (W1 & W2 & W3 & _) S IH]; intros a C; [constructor|]. cbn [chain_from] in C. destruct C as (_ & L & C). unfold b_parts. cbn [flat_map app]. constructor; [cbn; split; [lra|auto]|]. constructor; [cbn; split; [lra|auto]|]. eapply IH; eauto. }
  specialize (Kb a C). destruct S as [|s x (W1 & W2 & W3 & _) S]; [constructor|]. unfold t_parts. constructor; auto. cbn. split; [lra|auto].
Qed.

(** C116: the volume of the domain of a consistent slice is infinite exactly when its codomain is unbounded (the value 999999 of unbounded
    gates is never seen alone). *)
Theorem C116_slice_infinite : forall s, slice_ok s -> (dom_slice s = Inf <-> is_unbounded (s_cod s) = true).
Proof.
  intros s _. unfold dom_slice. assert (G : forall i, exists r, gate_volume i = Some r).
  { intros i. unfold gate_volume. destruct (is_empty i); eauto. destruct (is_unbounded i) eqn:U; eauto. destruct (wd i) eqn:E; eauto. apply wd_none in E. congruence. }
  destruct (G (s_in s)) as (r & ->), (G (s_out s)) as (r' & ->). rewrite <- wd_none. unfold slice_volume. destruct (wd (s_cod s)); cbn; split; intros H; auto; discriminate.
Qed.

(** ** Examples and refutations *)
Definition vY : tube := [mkS 0 1 (I2 0 2) (I2 0 1) (I2 0 2); mkS 1 2 (I2 0 2) (I2 0 2) (I2 1 1)].
Definition vX : tube := [mkS 0 1 (I2 0 2) (I2 0 1) (I2 0 1); mkS 1 2 (I2 0 2) (I2 0 1) (I2 1 1)].
Ltac below_tac := split; [cbn; lra|split; [cbn; lra|split; [|split]; let z := fresh in let Hz := fresh in intros z Hz; unfold I2 in *; cbn in *; try tauto; lra]].
Lemma vXY : tube_ok 0 2 vX /\ tube_ok 0 2 vY /\ below vX vY /\ Forall s_bounded vY /\ Forall2 s_emptied vX vY /\ vX <> vY.
Proof.
  split; [tube_ok_tac|]. split; [tube_ok_tac|]. split; [|split; [|split]].
  - repeat (constructor; [below_tac|]). constructor.
  - unfold vY, s_bounded. repeat constructor.
  - unfold vX, vY, s_emptied, emptied_wide. repeat (constructor; [(split; [|split]); let E := fresh in intros E; cbn in E; unfold I2, ALL in E; discriminate E|]). constructor.
  - unfold vX, vY, I2. intros E. injection E. intros. lra.
Qed.
Example C116_tube_ex : shrunk 0 (dom_tube vX) (dom_tube vY) = true.
Proof. destruct vXY as (H1 & H2 & H3 & H4 & H5 & H6). eapply C116_tube; eauto. Qed.
Example C116_vector_ex : shrunk 0 (dom_tube_vector [vY; vX]) (dom_tube_vector [vY; vY]) = true.
Proof.
  destruct vXY as (H1 & H2 & H3 & H4 & H5 & H6). apply (C116_vector 0 2); auto.
  - constructor; [|auto]. repeat (constructor; [below_tac|]). constructor.
  - constructor; [|auto]. unfold vY, s_emptied, emptied_wide. repeat (constructor; [(split; [|split]); let E := fresh in intros E; cbn in E; unfold I2, ALL in E; discriminate E|]). constructor.
  - intros E. apply H6. congruence.
Qed.
Example C116_slice_ex : let s := mkS 0 1 (I2 0 2) (I2 0 1) (I2 0 1) in let q := mkS 0 1 (I2 0 3) (I2 0 1) (I2 0 2) in
  slice_ok s /\ slice_ok q /\ s_lb q < s_ub q /\ s_below s q /\ s_bounded q /\ s_emptied s q /\ s <> q.
Proof.
  cbn zeta. split; [slice_ok_tac|]. split; [slice_ok_tac|]. split; [cbn; lra|]. split; [|split; [|split]].
  - below_tac.
  - unfold s_bounded. repeat split.
  - unfold s_emptied, emptied_wide. (split; [|split]); intros E; cbn in E; unfold I2 in E; discriminate E.
  - unfold I2. intros E. injection E. intros. lra.
Qed.
Example C116_quiet_ex : shrunk (1 / 10) (dom_tube vY) (dom_tube vY) = false.
Proof. apply (C116_quiet _ 0 2); [lra|]. apply vXY. Qed.
Example C116_slice_infinite_ex : dom_slice (mkS 0 1 ALL (I2 0 1) ALL) = Inf.
Proof. apply C116_slice_infinite; [slice_ok_tac|reflexivity]. Qed.

(** one unbounded slice hides the contractions of all the other slices *)
Theorem C116_unbounded_refuted : exists a b x y, tube_ok a b x /\ tube_ok a b y /\ below x y /\ Forall2 s_emptied x y /\ (exists f, has y f /\ ~ has x f) /\
  shrunk 0 (dom_tube x) (dom_tube y) = false.
Proof.
  exists 0, 2, [mkS 0 1 ALL ALL (I2 0 1); mkS 1 2 (I2 0 1) (I2 0 1) (I2 0 0)], [mkS 0 1 ALL ALL (I2 0 1); mkS 1 2 (I2 0 1) (I2 0 1) (I2 0 1)].
  split; [tube_ok_tac|]. split; [tube_ok_tac|]. split; [|split; [|split]].
  - repeat (constructor; [below_tac|]). constructor.
  - unfold s_emptied, emptied_wide. repeat (constructor; [(split; [|split]); let E := fresh in intros E; cbn in E; unfold I2, ALL in E; discriminate E|]). constructor.
  - exists (fun _ => 1). split; [has_tac|]. intros H. destruct (H (mkS 1 2 (I2 0 1) (I2 0 1) (I2 0 0))) as (_ & K & _); [right; left; auto|]. cbn in K. lra.
  - reflexivity.
Qed.
(** and those of the other components of a vector *)
Theorem C116_vector_unbounded_refuted : exists z x y, tube_ok 0 2 z /\ tube_ok 0 2 x /\ tube_ok 0 2 y /\ below x y /\ Forall s_bounded y /\ Forall2 s_emptied x y /\ x <> y /\
  shrunk 0 (dom_tube_vector [z; x]) (dom_tube_vector [z; y]) = false.
Proof.
  destruct vXY as (H1 & H2 & H3 & H4 & H5 & H6). exists [mkS 0 2 ALL ALL ALL], vX, vY. split; [tube_ok_tac|]. repeat (split; [assumption|]). reflexivity.
Qed.
(** an emptied gate that was a single value is not noticed: the tube has become empty *)
Theorem C116_degenerate_refuted : exists a b x y, tube_ok a b x /\ tube_ok a b y /\ below x y /\ Forall s_bounded y /\ (exists f, has y f) /\ (~ exists f, has x f) /\
  shrunk 0 (dom_tube x) (dom_tube y) = false.
Proof.
  exists 0, 1, [mkS 0 1 (I2 0 1) (I2 0 1) Emp], [mkS 0 1 (I2 0 1) (I2 0 1) (I2 1 1)].
  split; [tube_ok_tac|]. split; [tube_ok_tac|]. split; [|split; [|split; [|split]]].
  - repeat (constructor; [below_tac|]). constructor.
  - unfold s_bounded. repeat constructor.
  - exists (fun _ => 1). has_tac.
  - intros (f & H). destruct (H (mkS 0 1 (I2 0 1) (I2 0 1) Emp)) as (_ & K & _); [left; auto|]. exact K.
  - unfold dom_tube, add_gates, volume. cbn [volume_loop slice_volume wd s_cod s_lb s_ub s_in s_out option_map fold_left wadd I2 to_vol].
    replace (0 + (1 - 0) * (1 - 0) + (1 - 0) + 0) with 2 by lra. replace (0 + (1 - 0) * (1 - 0) + (1 - 0) + (1 - 1)) with 2 by lra. apply shrunk_same; lra.
Qed.

Print Assumptions C116_slice.
Print Assumptions C116_tube.
Print Assumptions C116_vector.
Print Assumptions C116_quiet.
Print Assumptions C116_slice_infinite.
Print Assumptions C116_unbounded_refuted.
Print Assumptions C116_vector_unbounded_refuted.
Print Assumptions C116_degenerate_refuted.
