(** * Lemmas for [CtcLohner]: linear algebra, enclosures, derivatives, one step *)
From Coq Require Import Reals Lra Bool List Arith Lia.
From Verif Require Import Itv Arith Tube TubeSpec TubeFacts TubeOps TubeOpsFacts TubeOpsFacts2 TubeQueries TubeQueries2 TubeCtc DynSpec Paving Static CtcDelay PropsDyn2 PropsStatic CtcEvalBody CtcEvalFacts CtcDerivFacts Picard PicardFacts PropsPicard PropsSivia PropsPaving3 Lohner.
Import ListNotations.
Open Scope R_scope.

(** ** Real vectors and matrices *)
Fixpoint rdot (x y : list R) : R := match x, y with a :: x, b :: y => a * b + rdot x y | _, _ => 0 end.
Definition rmv (M : rmat) (x : list R) : list R := map (fun row => rdot row x) M.
Fixpoint rvm (n : nat) (row : list R) (M : rmat) : list R :=
  match row, M with a :: row, l :: M => vadd (vscal a l) (rvm n row M) | _, _ => repeat 0 n end.
Definition rmm (n : nat) (M M' : rmat) : rmat := map (fun row => rvm n row M') M.
Definition square (n : nat) (M : rmat) : Prop := length M = n /\ Forall (fun l => length l = n) M.
Definition vsub (x y : list R) : list R := vadd x (vscal (-1) y).

Lemma vadd_len x y : length x = length y -> length (vadd x y) = length x.
Proof. revert y. induction x; intros [|b y] H; try discriminate; cbn; auto. Qed.
Lemma vscal_len c x : length (vscal c x) = length x. Proof. apply map_length. Qed.
Lemma rvm_len n row M : Forall (fun l => length l = n) M -> length row = length M -> length (rvm n row M) = n.
Proof.
  intros H. revert row. induction H as [|l M Hl H IH]; intros [|a row] L; try discriminate; cbn; [apply repeat_length|]. rewrite vadd_len; rewrite vscal_len; auto. rewrite IH; auto.
Qed.
Lemma rdot_vadd x y z : length x = length y -> rdot (vadd x y) z = rdot x z + rdot y z.
Proof. revert y z. induction x; intros [|b y] z L; try discriminate; cbn; [lra|]. destruct z; cbn; [lra|]. rewrite IHx by auto. lra. Qed.
Lemma rdot_vscal c x z : rdot (vscal c x) z = c * rdot x z.
Proof. revert z. induction x; intros [|b z]; cbn; try lra. unfold vscal in IHx. rewrite IHx. lra. Qed.
Lemma rdot_comm x y : rdot x y = rdot y x.
Proof. revert y. induction x; intros [|b y]; cbn; auto. rewrite IHx. lra. Qed.
Lemma rdot_zero n z : rdot (repeat 0 n) z = 0.
Proof. revert z. induction n; intros [|b z]; cbn; auto. rewrite IHn. lra. Qed.
Lemma rdot_vadd_r x y z : length x = length y -> rdot z (vadd x y) = rdot z x + rdot z y.
Proof. intros. rewrite !(rdot_comm z). apply rdot_vadd. auto. Qed.
Lemma rdot_vscal_r c x z : rdot z (vscal c x) = c * rdot z x.
Proof. rewrite !(rdot_comm z). apply rdot_vscal. Qed.
Lemma rdot_rvm n row M v : Forall (fun l => length l = n) M -> length row = length M -> rdot (rvm n row M) v = rdot row (rmv M v).
Proof.
  intros H. revert row. induction H as [|l M Hl H IH]; intros [|a row] L; try discriminate; cbn; [apply rdot_zero|].
  rewrite rdot_vadd, rdot_vscal, IH; auto. rewrite vscal_len, rvm_len; auto.
Qed.
Lemma rmv_mm n M M' v : Forall (fun l => length l = n) M' -> Forall (fun l => length l = length M') M -> rmv (rmm n M M') v = rmv M (rmv M' v).
Proof. intros H HM. unfold rmv, rmm. rewrite map_map. apply map_ext_in. intros row Hr. rewrite Forall_forall in HM. apply rdot_rvm; auto. Qed.
Lemma rmv_vadd M x y : length x = length y -> rmv M (vadd x y) = vadd (rmv M x) (rmv M y).
Proof. intros L. unfold rmv. induction M as [|row M IH]; cbn; auto. rewrite IH, rdot_vadd_r by auto. auto. Qed.
Lemma rmv_vscal M c x : rmv M (vscal c x) = vscal c (rmv M x).
Proof. unfold rmv, vscal. rewrite map_map. apply map_ext. intros row. apply rdot_vscal_r. Qed.
Lemma rmv_len M x : length (rmv M x) = length M. Proof. apply map_length. Qed.
Lemma rmm_square n M M' : square n M -> square n M' -> square n (rmm n M M').
Proof.
  intros (L1 & F1) (L2 & F2). split; [unfold rmm; rewrite map_length; auto|]. unfold rmm. apply Forall_forall. intros l Hl. apply in_map_iff in Hl. destruct Hl as (row & <- & Hr). rewrite Forall_forall in F1.
  apply rvm_len; auto. rewrite F1; auto.
Qed.
Lemma eye_square n : square n (eye n).
Proof.
  unfold eye. split; [rewrite map_length, seq_length; auto|]. apply Forall_forall. intros l Hl. apply in_map_iff in Hl. destruct Hl as (i & <- & _). rewrite map_length, seq_length. auto.
Qed.
Lemma eye_row : forall n a i x, length x = n -> rdot (map (fun j => if Nat.eqb i j then 1 else 0) (seq a n)) x = if Nat.ltb i a then 0 else nth (i - a) x 0.
Proof.
  induction n as [|n IH]; intros a i [|b x] L; try discriminate; cbn [seq map rdot]; [destruct (Nat.ltb i a); auto; destruct (i - a)%nat; auto|]. rewrite IH by auto.
  destruct (Nat.eqb_spec i a) as [->|N].
  - replace (Nat.ltb a (Datatypes.S a)) with true by (symmetry; apply Nat.ltb_lt; lia). rewrite Nat.ltb_irrefl, Nat.sub_diag. cbn. lra.
  - destruct (Nat.ltb_spec i (Datatypes.S a)), (Nat.ltb_spec i a); try lia; [lra|]. replace (i - a)%nat with (Datatypes.S (i - Datatypes.S a)) by lia. cbn. lra.
Qed.
Lemma nth_all (x : list R) : map (fun i => nth i x 0) (seq 0 (length x)) = x.
Proof.
  apply (nth_ext _ _ 0 0); [rewrite map_length, seq_length; auto|]. intros k Hk. rewrite map_length, seq_length in Hk.
  rewrite (nth_indep _ 0 (nth 0 x 0)) by (rewrite map_length, seq_length; auto). rewrite (map_nth (fun i => nth i x 0)), seq_nth by auto. auto.
Qed.
Lemma eye_id n x : length x = n -> rmv (eye n) x = x.
Proof.
  intros L. unfold rmv, eye. rewrite map_map. transitivity (map (fun i => nth i x 0) (seq 0 (length x))); [|apply nth_all]. rewrite L. apply map_ext. intros i. rewrite eye_row by auto. cbn. rewrite Nat.sub_0_r. auto.
Qed.
Fixpoint radd (M M' : rmat) : rmat := match M, M' with l :: M, l' :: M' => vadd l l' :: radd M M' | _, _ => [] end.
Lemma rmv_radd n M M' x : square n M -> square n M' -> rmv (radd M M') x = vadd (rmv M x) (rmv M' x).
Proof.
  intros (L1 & F1) (L2 & F2). assert (L : length M = length M') by lia. clear L1 L2. revert M' L F2. induction F1 as [|l M Hl F1 IH]; intros [|l' M'] L F2; try discriminate; cbn; auto.
  inversion F2; subst. f_equal; [apply rdot_vadd; lia|apply IH; auto].
Qed.
Lemma radd_square n M M' : square n M -> square n M' -> square n (radd M M').
Proof.
  intros (L1 & F1) (L2 & F2). assert (L : length M = length M') by lia. split.
  - rewrite <- L1. clear F1 F2 L1 L2. revert M' L. induction M; intros [|l' M'] L; try discriminate; cbn; auto.
  - clear L1 L2. revert M' L F2. induction F1 as [|l M Hl F1 IH]; intros [|l' M'] L F2; try discriminate; cbn; constructor; inversion F2; subst; auto. rewrite vadd_len; lia.
Qed.
Lemma rscal_square n c M : square n M -> square n (map (vscal c) M).
Proof. intros (L & H). split; [rewrite map_length; auto|]. apply Forall_forall. intros l Hl. apply in_map_iff in Hl. destruct Hl as (k & <- & Hk). rewrite vscal_len. rewrite Forall_forall in H. auto. Qed.
Lemma rmv_rscal c M x : rmv (map (vscal c) M) x = vscal c (rmv M x).
Proof. unfold rmv, vscal. rewrite !map_map. apply map_ext. intros l. apply rdot_vscal. Qed.
(** equations of vectors *)
Lemma vadd_nth x y k : length x = length y -> nth k (vadd x y) 0 = nth k x 0 + nth k y 0.
Proof. revert y k. induction x; intros [|b y] [|k] L; try discriminate; cbn; auto; lra. Qed.
Lemma vscal_nth c x k : nth k (vscal c x) 0 = c * nth k x 0.
Proof. revert k. induction x; intros [|k]; cbn; try lra. apply IHx. Qed.
Lemma vsub_len x y : length x = length y -> length (vsub x y) = length x.
Proof. intros L. unfold vsub. rewrite vadd_len; rewrite ?vscal_len; auto. Qed.
Lemma vsub_nth x y k : length x = length y -> nth k (vsub x y) 0 = nth k x 0 - nth k y 0.
Proof. intros L. unfold vsub. rewrite vadd_nth, vscal_nth; [lra|]. rewrite vscal_len; auto. Qed.
Lemma vec_ext x y : length x = length y -> (forall k, (k < length x)%nat -> nth k x 0 = nth k y 0) -> x = y.
Proof. intros. apply (nth_ext _ _ 0 0); auto. Qed.
Ltac vlen := repeat (rewrite ?vsub_len, ?vadd_len, ?vscal_len, ?rmv_len, ?map_length in *); try lia; auto.
Ltac veq := apply vec_ext; [vlen|intros; repeat (rewrite ?vsub_nth, ?vadd_nth, ?vscal_nth by vlen)].

(** ** Interval vectors and matrices *)
Definition inm (M : rmat) (IM : imat) : Prop := Forall2 (fun l il => inb l il) M IM.
Section Inc.
  Variable A : arith.
  Hypothesis HA : arith_ok A.
  Lemma pt_in x : inb x (map pt x).
  Proof. induction x; cbn; constructor; auto. cbn. lra. Qed.
  Lemma pts_in M : inm M (pts M).
  Proof. unfold pts. induction M; cbn; constructor; auto. apply pt_in. Qed.
  Lemma idot_in x y X Y : inb x X -> inb y Y -> In (rdot x y) (idot A X Y).
  Proof.
    intros H. revert y Y. induction H as [|a i x X Ha H IH]; intros y Y HY; cbn; [lra|]. destruct HY as [|b j y Y Hb HY]; [cbn; lra|].
    apply (iadd_in A HA); [apply (imul_in A HA); auto|apply IH; auto].
  Qed.
  Lemma imv_in M IM x X : inm M IM -> inb x X -> inb (rmv M x) (imv A IM X).
  Proof. intros H Hx. induction H; cbn; constructor; auto. apply idot_in; auto. Qed.
  Lemma map2_add_in x y X Y : inb x X -> inb y Y -> inb (vadd x y) (map2 (iadd A) X Y).
  Proof. intros H. revert y Y. induction H; intros y1 Y1 H1; destruct H1; cbn; constructor; auto. apply (iadd_in A HA); auto. apply IHForall2; auto. Qed.
  Lemma scal_in c x C X : In c C -> inb x X -> inb (vscal c x) (b_scal A C X).
  Proof. intros HC. induction 1; cbn; constructor; auto. apply (imul_in A HA); auto. Qed.
  Lemma ivm_in n row M IR IM : inb row IR -> inm M IM -> inb (rvm n row M) (ivm A n IR IM).
  Proof.
    assert (Z : inb (repeat 0 n) (repeat (pt 0) n)) by (clear; induction n; cbn; constructor; auto; cbn; lra).
    intros H. revert M IM. induction H as [|a i row IR Ha H IH]; intros M IM HM; cbn; auto. destruct HM as [|l il M IM Hl HM]; auto. apply map2_add_in; [apply scal_in; auto|apply IH; auto].
  Qed.
  Lemma imm_in n M IM M' IM' : inm M IM -> inm M' IM' -> inm (rmm n M M') (imm A n IM IM').
  Proof. intros H H'. induction H; cbn; constructor; auto. apply ivm_in; auto. Qed.
  Lemma imscal_in c M IM : inm M IM -> inm (map (vscal c) M) (imscal A c IM).
  Proof. intros H. induction H; cbn; constructor; auto. apply scal_in; auto. cbn. lra. Qed.
  Lemma imadd_in M IM M' IM' : inm M IM -> inm M' IM' -> inm (radd M M') (imadd A IM IM').
  Proof. intros H. revert M' IM'. induction H; intros M1 IM1 H1; destruct H1; cbn; constructor; [apply map2_add_in; auto|apply IHForall2; auto]. Qed.
  Lemma b_add_in x y X Y : length x = length y -> inb x X -> inb y Y -> inb (vadd x y) (b_add A X Y).
  Proof. intros L H1 H2. unfold b_add. rewrite (inb_empty _ _ H1), (inb_empty _ _ H2). apply map2_add_in; auto. Qed.
  Lemma b_sub_in x y X Y : length x = length y -> inb x X -> inb y Y -> inb (vsub x y) (b_sub A X Y).
  Proof.
    intros L H1 H2. unfold b_sub. rewrite (inb_empty _ _ H1), (inb_empty _ _ H2). cbn [orb]. clear L. revert y Y H2. induction H1; intros y1 Y1 H2; destruct H2; cbn; try constructor; auto; [|apply IHForall2; auto].
    replace (x + -1 * x0) with (x - x0) by lra. apply (isub_in A HA); auto.
  Qed.
End Inc.

(** ** Boxes enlarged by [e] *)
Definition infl (e : R) (i : itv) : itv :=
  match i with Emp => Emp | Itv a b => Itv (match a with Some a => Some (a - e) | None => None end) (match b with Some b => Some (b + e) | None => None end) end.
Definition binf (e : R) (x : box) : box := map (infl e) x.
Lemma infl_out e i y : wf i -> i <> Emp -> In y (infl e i) -> 0 <= e -> exists y', In y' i /\ Rabs (y - y') <= e.
Proof.
  intros W N H E0. destruct i as [|[a|] [b|]]; cbn in *; try congruence.
  - destruct (Rle_dec y a); [exists a; split; [lra|apply Rabs_le; lra]|]. destruct (Rle_dec b y); [exists b; split; [lra|apply Rabs_le; lra]|]. exists y. split; [lra|]. apply Rabs_le. lra.
  - destruct (Rle_dec y a); [exists a; split; [split; auto; lra|apply Rabs_le; lra]|]. exists y. split; [split; auto; lra|]. apply Rabs_le. lra.
  - destruct (Rle_dec b y); [exists b; split; [split; auto; lra|apply Rabs_le; lra]|]. exists y. split; [split; auto; lra|]. apply Rabs_le. lra.
  - exists y. split; auto. apply Rabs_le. lra.
Qed.
Lemma infl_in e i y y' : In y' i -> Rabs (y - y') <= e -> In y (infl e i).
Proof. intros H K. assert (K2 := Rle_abs (y - y')). assert (K3 := Rle_abs (- (y - y'))). rewrite Rabs_Ropp in K3. destruct i as [|[a|] [b|]]; cbn in *; try tauto; intuition lra. Qed.
Lemma infl_0 i y : In y (infl 0 i) <-> In y i.
Proof. destruct i as [|[a|] [b|]]; cbn; split; intros; intuition lra. Qed.
Lemma INR_unb x : exists n, x < INR n.
Proof.
  destruct (Rle_dec x 0) as [H|H]; [exists 1%nat; cbn; lra|]. destruct (archimed x) as (K & _). exists (Z.to_nat (up x)). rewrite INR_IZR_INZ, Z2Nat.id; [lra|]. apply le_IZR. lra.
Qed.
Lemma pow2_big (c D : R) : 0 < c -> exists k, D / 2 ^ k < c.
Proof.
  intros C. assert (P : forall k, INR k < 2 ^ k). { induction k; [cbn; lra|]. rewrite S_INR. cbn [pow]. assert (1 <= 2 ^ k) by (apply pow_R1_Rle; lra). lra. }
  destruct (INR_unb (D / c)) as (k & K). exists k. assert (0 < 2 ^ k) by (apply pow_lt; lra). apply Rmult_lt_reg_r with (2 ^ k); auto. unfold Rdiv. rewrite Rmult_assoc, Rinv_l, Rmult_1_r by lra.
  apply Rlt_le_trans with (c * INR k); [|apply Rmult_le_compat_l; [lra|left; apply P]]. apply Rmult_lt_reg_r with (/ c); [apply Rinv_0_lt_compat; auto|]. replace (c * INR k * / c) with (INR k) by (field; lra). exact K.
Qed.
Lemma infl_lim D i y : (forall k, In y (infl (D / 2 ^ k) i)) -> In y i.
Proof.
  intros H. destruct i as [|a b]; [exact (H 0%nat)|]. cbn in *. split.
  - destruct a as [a|]; cbn; auto. apply Rnot_lt_le. intros K. destruct (pow2_big (a - y) D) as (k & Q); [lra|]. specialize (H k). cbn in H. lra.
  - destruct b as [b|]; cbn; auto. apply Rnot_lt_le. intros K. destruct (pow2_big (y - b) D) as (k & Q); [lra|]. specialize (H k). cbn in H. lra.
Qed.
Lemma binf_lim D E y : (forall k, inb y (binf (D / 2 ^ k) E)) -> inb y E.
Proof.
  revert y. induction E as [|i E IH]; intros y H; [exact (H 0%nat)|]. destruct y as [|v y]; [specialize (H 0%nat); inversion H|]. constructor.
  - apply (infl_lim D). intros k. specialize (H k). inversion H; auto.
  - apply IH. intros k. specialize (H k). inversion H; auto.
Qed.
Lemma binf_0 E y : inb y (binf 0 E) <-> inb y E.
Proof.
  revert y. induction E as [|i E IH]; intros y; cbn; [reflexivity|]. destruct y as [|v y]; [split; intros H; inversion H|].
  split; intros H; inversion H; subst; constructor; try (apply infl_0; auto; fail); apply IH; auto.
Qed.

(** ** An enclosure that is not in the interior of the guess: [g] Lipschitz is enough *)
Lemma one_step f v l t1 s c : wf v -> v <> Emp -> l <= t1 -> t1 <= s -> 0 <= c -> (l < t1 -> rises f v l t1) -> (t1 < s -> rises f (infl c v) t1 s) ->
  exists p, In p v /\ Rabs (f s - (f l + (s - l) * p)) <= (s - t1) * c.
Proof.
  intros W N H1 H2 C R1 R2. destruct (Req_dec t1 s) as [<-|D2].
  - destruct (Req_dec l t1) as [<-|D1].
    + destruct (wf_witness v W N) as (p & Hp). exists p. split; auto. replace (f l - (f l + (l - l) * p)) with 0 by lra. rewrite Rabs_R0. lra.
    + destruct (rises_step f v l t1 l t1) as (p & Hp & E); try lra; [apply R1; lra|]. exists p. split; auto. rewrite E. match goal with |- Rabs ?z <= _ => replace z with 0 by lra end. rewrite Rabs_R0. lra.
  - destruct (rises_step f (infl c v) t1 s t1 s) as (q & Hq & E2); try lra; [apply R2; lra|]. destruct (infl_out c v q W N Hq C) as (q' & Hq' & Q).
    assert (G : exists p, In p v /\ (s - l) * p = (f t1 - f l) + (s - t1) * q').
    { destruct (Req_dec l t1) as [<-|D1]; [exists q'; split; auto; lra|]. destruct (rises_step f v l t1 l t1) as (p1 & Hp1 & E); try lra; [apply R1; lra|].
      exists (((t1 - l) * p1 + (s - t1) * q') / (s - l)). split.
      - assert (K : Rmin p1 q' <= ((t1 - l) * p1 + (s - t1) * q') / (s - l) <= Rmax p1 q').
        { assert (A1 := Rmin_l p1 q'). assert (A2 := Rmin_r p1 q'). assert (A3 := Rmax_l p1 q'). assert (A4 := Rmax_r p1 q').
          assert (B1 : (t1 - l) * Rmin p1 q' <= (t1 - l) * p1) by (apply Rmult_le_compat_l; lra). assert (B2 : (s - t1) * Rmin p1 q' <= (s - t1) * q') by (apply Rmult_le_compat_l; lra).
          assert (B3 : (t1 - l) * p1 <= (t1 - l) * Rmax p1 q') by (apply Rmult_le_compat_l; lra). assert (B4 : (s - t1) * q' <= (s - t1) * Rmax p1 q') by (apply Rmult_le_compat_l; lra).
          split; [apply Rmult_le_reg_r with (s - l)|apply Rmult_le_reg_r with (s - l)]; try lra; unfold Rdiv; rewrite Rmult_assoc, Rinv_l by lra; lra. }
        assert (X1 : In (Rmin p1 q') v) by (unfold Rmin; destruct (Rle_dec p1 q'); auto). assert (X2 : In (Rmax p1 q') v) by (unfold Rmax; destruct (Rle_dec p1 q'); auto).
        destruct v as [|[x|] [y|]]; cbn in *; intuition lra.
      - field_simplify; [|lra]. rewrite E. lra. }
    destruct G as (p & Hp & E). exists p. split; auto. rewrite E2, E. replace (f t1 + (s - t1) * q - (f l + (f t1 - f l + (s - t1) * q'))) with ((s - t1) * (q - q')) by lra.
    rewrite Rabs_mult, (Rabs_pos_eq (s - t1)) by lra. apply Rmult_le_compat_l; lra.
Qed.
Lemma F2_rises l u a b fs gs V (P : R -> Prop) : Forall2 (derivative_on a b) fs gs -> a <= l -> l < u -> u <= b -> (forall w, l < w < u -> inb (vals gs w) V) -> Forall2 (fun v f => rises f v l u) V fs.
Proof.
  intros Hfg H1 H2 H3 HG. assert (HV : Forall2 (fun e (g : R -> R) => forall t, l < t < u -> In (g t) e) V gs) by (apply (F2_all (fun t => l < t < u) ((l + u) / 2)); [lra|]; intros t Ht; apply (HG t Ht)).
  apply F2_swap in Hfg. revert HV Hfg. apply F2_trans. intros v g f Hv Hd. eapply rises_of_derivative; eauto.
Qed.
Lemma wit V : Forall wf V -> Forall (fun i => i <> Emp) V -> exists v, inb v V.
Proof.
  intros W N. induction W as [|i V Wi W IH]; [exists []; constructor|]. inversion N; subst. destruct (IH H2) as (v & Hv). destruct (wf_witness i Wi H1) as (x & Hx). exists (x :: v). constructor; auto.
Qed.
Lemma all_steps l t1 s c e V : Forall wf V -> Forall (fun i => i <> Emp) V -> l <= t1 -> t1 <= s -> 0 <= c -> (s - t1) * c <= e -> forall fs, length V = length fs ->
  (l < t1 -> Forall2 (fun v f => rises f v l t1) V fs) -> (t1 < s -> Forall2 (fun v f => rises f v t1 s) (binf c V) fs) ->
  exists v, inb v V /\ Forall2 (fun y f => Rabs (f s - y) <= e) (vadd (vals fs l) (vscal (s - l) v)) fs.
Proof.
  intros HW HN T1 T2 C EE. induction HW as [|v V Wv W IH]; intros [|f fs] HV R1 R2; try discriminate.
  - exists []. split; constructor.
  - inversion HN; subst. destruct (IH H2 fs) as (x & X1 & X2); auto.
    { intros K. specialize (R1 K). inversion R1; auto. } { intros K. specialize (R2 K). inversion R2; auto. }
    destruct (one_step f v l t1 s c Wv) as (p & P1 & P2'); auto; try lra.
    { intros K. specialize (R1 K). inversion R1; auto. } { intros K. specialize (R2 K). inversion R2; auto. }
    exists (p :: x). split; [constructor; auto|]. cbn. constructor; auto. lra.
Qed.
Lemma near_in e s y E : inb y E -> forall fs, Forall2 (fun y (f : R -> R) => Rabs (f s - y) <= e) y fs -> inb (vals fs s) (binf e E).
Proof.
  induction 1 as [|a i y E Ha G3 IH]; intros fs G2; inversion G2; subst; constructor; [|apply IH; auto]. apply (infl_in _ _ _ a); auto.
Qed.
Lemma F2_len_ {A B} {P : A -> B -> Prop} {x y} : Forall2 P x y -> length x = length y.
Proof. induction 1; cbn; auto. Qed.
Lemma vadd_0 t x v : length v = length x -> vadd x (vscal (t - t) v) = x.
Proof. revert v. induction x as [|a x IH]; intros [|b v] K; try discriminate; cbn; auto. unfold vscal in IH. rewrite IH by auto. f_equal. lra. Qed.
Section Core.
  Variables (l u : R) (fs gs : list (R -> R)) (V E : box) (L D : R).
  Hypothesis Hfg : Forall2 (derivative_on l u) fs gs.
  Hypothesis (HL : 0 <= L) (HD : 0 <= D) (HW : Forall wf V) (HN : Forall (fun i => i <> Emp) V) (HV : length V = length fs).
  Hypothesis H1 : forall w e, l < w < u -> 0 <= e <= D -> inb (vals fs w) (binf e E) -> inb (vals gs w) (binf (L * e) V).
  Hypothesis H2 : forall s v, l <= s <= u -> inb v V -> inb (vadd (vals fs l) (vscal (s - l) v)) E.
  Hypothesis H3 : forall w, l <= w <= u -> inb (vals fs w) (binf D E).
  Lemma core_step t1 t2 : l <= t1 -> t1 <= t2 -> t2 <= u -> (t2 - t1) * L <= 1 / 2 -> (forall w, l <= w <= t1 -> inb (vals fs w) E) -> forall w, l <= w <= t2 -> inb (vals fs w) E.
  Proof.
    intros T1 T2 T3 TL P. assert (Q : forall k s, t1 <= s <= t2 -> inb (vals fs s) (binf (D / 2 ^ k) E)).
    { induction k as [|k IH]; intros s Hs; [replace (D / 2 ^ 0) with D by (cbn; lra); apply H3; lra|]. set (e := D / 2 ^ k) in *. assert (P2 : 1 <= 2 ^ k) by (apply pow_R1_Rle; lra).
      assert (E0 : 0 <= e <= D). { unfold e. split; [apply Rmult_le_pos; auto; left; apply Rinv_0_lt_compat; lra|]. apply Rmult_le_reg_r with (2 ^ k); [lra|]. unfold Rdiv. rewrite Rmult_assoc, Rinv_l, Rmult_1_r by lra. rewrite <- (Rmult_1_r D) at 1. apply Rmult_le_compat_l; lra. }
      replace (D / 2 ^ Datatypes.S k) with (e / 2) by (unfold e; cbn [pow]; field; lra).
      assert (R1 : l < t1 -> Forall2 (fun v f => rises f v l t1) V fs).
      { intros K. apply (F2_rises l t1 l u fs gs V (fun _ => True)); auto; try lra. intros w Hw. apply binf_0. rewrite <- (Rmult_0_r L). apply H1; try lra. apply binf_0. apply P. lra. }
      assert (R2 : t1 < s -> Forall2 (fun v f => rises f v t1 s) (binf (L * e) V) fs).
      { intros K. apply (F2_rises t1 s l u fs gs _ (fun _ => True)); auto; try lra. intros w Hw. apply H1; try lra. apply IH. lra. }
      assert (G : exists v, inb v V /\ Forall2 (fun y f => Rabs (f s - y) <= e / 2) (vadd (vals fs l) (vscal (s - l) v)) fs).
      { assert (EE : (s - t1) * (L * e) <= e / 2). { rewrite <- Rmult_assoc. replace (e / 2) with (1 / 2 * e) by lra. apply Rmult_le_compat_r; [lra|]. apply Rle_trans with ((t2 - t1) * L); auto. apply Rmult_le_compat_r; lra. }
        apply (all_steps l t1 s (L * e)); auto; try lra. apply Rmult_le_pos; lra. }
      destruct G as (v & G1 & G2). assert (G3 := H2 s v ltac:(lra) G1). eapply near_in; eauto. }
    intros w Hw. destruct (Rle_dec w t1); [apply P; lra|]. apply (binf_lim D). intros k. apply Q. lra.
  Qed.
  Lemma core : l <= u -> forall w, l <= w <= u -> inb (vals fs w) E.
  Proof.
    intros LU. set (d := 1 / (2 * (L + 1))). assert (D0 : 0 < d) by (apply Rdiv_lt_0_compat; lra). assert (DL : d * L <= 1 / 2).
    { unfold d. apply Rmult_le_reg_r with (2 * (L + 1)); [lra|]. replace (1 / (2 * (L + 1)) * L * (2 * (L + 1))) with L by (field; lra). lra. }
    assert (B0 : inb (vals fs l) E).
    { destruct (wit V HW HN) as (v & Hv). assert (X := H2 l v ltac:(lra) Hv). replace (vadd (vals fs l) (vscal (l - l) v)) with (vals fs l) in X; auto.
      symmetry. apply vadd_0. rewrite (F2_len_ Hv). unfold vals. rewrite map_length. auto. }
    assert (Q : forall k w, l <= w <= Rmin u (l + INR k * d) -> inb (vals fs w) E).
    { induction k as [|k IH]; intros w Hw.
      - cbn in Hw. rewrite Rmult_0_l, Rplus_0_r in Hw. rewrite Rmin_right in Hw by lra. assert (w = l) by lra. subst w. auto.
      - assert (0 <= INR k * d) by (apply Rmult_le_pos; [apply pos_INR|lra]). rewrite S_INR in Hw. assert (A1 := Rmin_l u (l + INR k * d)). assert (A2 := Rmin_r u (l + INR k * d)).
        assert (A3 : l <= Rmin u (l + INR k * d)) by (apply Rmin_glb; lra). assert (A4 := Rmin_l u (l + (INR k + 1) * d)). assert (A5 := Rmin_r u (l + (INR k + 1) * d)).
        assert (A6 : Rmin u (l + INR k * d) <= Rmin u (l + (INR k + 1) * d)) by (apply Rmin_glb; lra).
        assert (A7 : Rmin u (l + (INR k + 1) * d) - Rmin u (l + INR k * d) <= d) by (unfold Rmin; destruct (Rle_dec u (l + INR k * d)), (Rle_dec u (l + (INR k + 1) * d)); lra).
        apply (core_step (Rmin u (l + INR k * d)) (Rmin u (l + (INR k + 1) * d))); auto. apply Rle_trans with (d * L); auto. apply Rmult_le_compat_r; auto. }
    destruct (INR_unb ((u - l) / d)) as (k & K). intros w Hw. apply (Q k). rewrite Rmin_left; auto. assert (u - l <= INR k * d); [|lra].
    left. apply Rmult_lt_reg_r with (/ d); [apply Rinv_0_lt_compat; auto|]. replace (INR k * d * / d) with (INR k) by (field; lra). exact K.
  Qed.
End Core.
