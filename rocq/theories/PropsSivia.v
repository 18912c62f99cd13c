(** * C40: SIVIA covers the initial box and classifies correctly *)

From Coq Require Import Reals Lra Lia Bool List Arith Classical_Prop.
Import ListNotations.
From Verif Require Import Itv PropsDyn2 Static PropsStatic Sivia.
Open Scope R_scope.

(** ** Specification *)
Definition inb (p : list R) (x : box) : Prop := Forall2 In p x.
Definition near (eps : R) (p q : list R) : Prop := Forall2 (fun a b => Rabs (a - b) < eps) p q.
(** [p] is a limit of points that satisfy [A] *)
Definition limit (A : list R -> Prop) (p : list R) : Prop := forall eps, 0 < eps -> exists q, A q /\ near eps p q.
(** an empty component shows in the first one, as IBEX assumes *)
Definition normal (x : box) : Prop := b_is_empty x = false -> ~ List.In Emp x.

(** What is expected of IntervalVector::diff (IBEX): the closure of x0 \ x, as boxes *)
Record diff_ok (diff : box -> box -> list box) : Prop := {
  d_cover : forall x0 x p, Forall2 sub x x0 -> Forall wf x0 -> Forall wf x -> normal x -> inb p x0 -> ~ inb p x ->
    exists d, List.In d (diff x0 x) /\ inb p d;
  d_in : forall x0 x d p, Forall2 sub x x0 -> Forall wf x0 -> Forall wf x -> normal x -> List.In d (diff x0 x) -> inb p d -> inb p x0;
  d_limit : forall x0 x d p, Forall2 sub x x0 -> Forall wf x0 -> Forall wf x -> normal x -> List.In d (diff x0 x) -> inb p d ->
    limit (fun q => inb q x0 /\ ~ inb q x) p }.
(** What is expected of the bisector (IBEX): two boxes that cover the box *)
Record bis_ok (bis : box -> option (box * box)) : Prop := {
  b_cover : forall x x1 x2 p, bis x = Some (x1, x2) -> inb p x -> inb p x1 \/ inb p x2;
  b_sub : forall x x1 x2, bis x = Some (x1, x2) -> Forall2 sub x1 x /\ Forall2 sub x2 x;
  b_wf : forall x x1 x2, bis x = Some (x1, x2) -> Forall wf x -> Forall wf x1 /\ Forall wf x2 }.
(** What is expected of the contractor of the constraint [P] *)
Record ctc_ok (P : list R -> Prop) (c : ctc_t) : Prop := {
  c_keeps : keeps P c; c_contracts : contracts c; c_boxes : gives_boxes c; c_normal : forall x, normal (c x) }.
(** What is expected of the separator of the set [S]: it only removes points of [S] from [x_in], points out of [S]
    from [x_out] *)
Record sep_ok (S : list R -> Prop) (sep : sep_t) : Prop := {
  s_keep_in : forall xi xo p, inb p xi -> ~ S p -> inb p (fst (sep xi xo));
  s_keep_out : forall xi xo p, inb p xo -> S p -> inb p (snd (sep xi xo));
  s_sub : forall xi xo, Forall2 sub (fst (sep xi xo)) xi /\ Forall2 sub (snd (sep xi xo)) xo;
  s_wf : forall xi xo, Forall wf xi -> Forall wf xo -> Forall wf (fst (sep xi xo)) /\ Forall wf (snd (sep xi xo));
  s_normal : forall xi xo, normal (fst (sep xi xo)) /\ normal (snd (sep xi xo)) }.

(** ** Facts about boxes *)
Lemma inb_sub p x y : inb p x -> Forall2 sub x y -> inb p y.
Proof. intros H. revert y. induction H; intros z Hz; inversion Hz; subst; constructor; auto. apply IHForall2; auto. Qed.
Lemma inb_empty p x : inb p x -> b_is_empty x = false.
Proof. intros H. destruct H as [|v i p x Hv]; cbn; auto. destruct i; cbn in *; tauto. Qed.
Lemma inb_app p q x y : inb p x -> inb q y -> inb (p ++ q) (x ++ y).
Proof. apply Forall2_app. Qed.
Lemma inb_split p x y : inb p (x ++ y) -> exists p1 p2, p = p1 ++ p2 /\ inb p1 x /\ inb p2 y.
Proof.
  revert p. induction x as [|i x IH]; intros p H; cbn in H.
  - exists [], p. repeat split; auto. constructor.
  - inversion H; subst. destruct (IH _ H4) as (p1 & p2 & -> & H1 & H2). exists (x0 :: p1), p2. repeat split; auto. constructor; auto.
Qed.
Lemma inb_firstn p n x : inb p x -> inb (firstn n p) (firstn n x) /\ inb (skipn n p) (skipn n x).
Proof.
  intros H. revert n. induction H; intros n; destruct n; cbn; split; try constructor; auto; apply IHForall2.
Qed.
Lemma sub_firstn n (x y : box) : Forall2 sub x y -> Forall2 sub (firstn n x) (firstn n y) /\ Forall2 sub (skipn n x) (skipn n y).
Proof.
  intros H. revert n. induction H; intros n; destruct n; cbn; split; try constructor; auto; apply IHForall2.
Qed.
Lemma F2_sub_trans : forall x y z : box, Forall2 sub x y -> Forall2 sub y z -> Forall2 sub x z.
Proof.
  intros x y z H. revert z. induction H; intros z Hz; inversion Hz; subst; constructor; auto. eapply sub_trans; eauto.
Qed.
Lemma normal_point x : Forall wf x -> ~ List.In Emp x -> exists p, inb p x.
Proof.
  induction 1 as [|i x W F IH]; intros N; [exists []; constructor|].
  destruct IH as [p Hp]; [intros H; apply N; right; auto|].
  destruct i as [|l h]; [exfalso; apply N; left; auto|].
  destruct l as [a|], h as [b|].
  - exists (a :: p). constructor; auto. cbn in *. lra.
  - exists (a :: p). constructor; auto. cbn. lra.
  - exists (b :: p). constructor; auto. cbn. lra.
  - exists (0 :: p). constructor; auto. cbn. auto.
Qed.
Lemma empty_no_point x p : b_is_empty x = true -> ~ inb p x.
Proof. intros E H. apply inb_empty in H. congruence. Qed.

(** ** Contractors *)
(** the points of the boxes still to be studied *)
Definition pending (stack : list box) (p : list R) : Prop := exists x, List.In x stack /\ inb p x.
Definition reported (l : list box) (p : list R) : Prop := exists x, List.In x l /\ inb p x.
Lemma pending_cons x s p : pending (x :: s) p <-> inb p x \/ pending s p.
Proof.
  split.
  - intros (y & [<-|H] & Hp); [auto|right; exists y; auto].
  - intros [H|(y & H & Hp)]; [exists x; split; auto; left; auto|exists y; split; auto; right; auto].
Qed.
Lemma pending_app s t p : pending (s ++ t) p <-> pending s p \/ pending t p.
Proof.
  split.
  - intros (y & H & Hp). apply in_app_or in H. destruct H; [left|right]; exists y; auto.
  - intros [(y & H & Hp)|(y & H & Hp)]; exists y; split; auto; apply in_or_app; auto.
Qed.
Lemma reported_rev l m p : reported (rev l ++ m) p <-> reported l p \/ reported m p.
Proof.
  unfold reported. split.
  - intros (y & H & Hp). apply in_app_or in H. destruct H as [H|H]; [left|right]; exists y; auto. apply in_rev in H. auto.
  - intros [(y & H & Hp)|(y & H & Hp)]; exists y; split; auto; apply in_or_app; auto. left. apply -> in_rev. auto.
Qed.

Section Ctc.
Context (diff : box -> box -> list box) (bis : box -> option (box * box)) (ctc : ctc_t) (P : list R -> Prop).
Context (HD : diff_ok diff) (HB : bis_ok bis) (HC : ctc_ok P ctc).
Context (precision : R) (regular : bool) (n : nat) (x0 y0 : box) (Hn : length x0 = n).
Context (Wy : Forall wf y0).

(** a box of the stack: a part of [x0], and [y0] *)
Definition stacked (x : box) : Prop := exists u, x = u ++ y0 /\ length u = n /\ Forall2 sub u x0 /\ Forall wf u.
(** invariant on the results *)
Definition fine (r : paving3) : Prop :=
  p_in r = [] /\
  (forall o p, List.In o (p_out r) -> inb p o -> inb p (x0 ++ y0) /\ limit (fun q => inb q (x0 ++ y0) /\ ~ P q) p) /\
  (regular = true -> forall o p, List.In o (p_out r) -> inb p o -> ~ P p) /\
  (forall u, List.In u (p_unk r) -> max_diam_lt precision (firstn n u) = true /\ Forall2 sub u (x0 ++ y0)).

Lemma stacked_sub x : stacked x -> Forall2 sub x (x0 ++ y0).
Proof. intros (u & -> & _ & H & _). apply Forall2_app; auto. apply F2_sub_refl. Qed.
Lemma stacked_wf x : stacked x -> Forall wf x.
Proof. intros (u & -> & _ & _ & W). apply Forall_app; auto. Qed.
Lemma near_refl eps p : 0 < eps -> near eps p p.
Proof. intros H. induction p; constructor; auto. rewrite Rminus_diag_eq, Rabs_R0 by auto. auto. Qed.

Lemma ctc_loop : forall fuel stack r r', Forall stacked stack -> fine r ->
  sivia_ctc_loop diff bis ctc precision regular n y0 fuel stack r = Done r' ->
  fine r' /\
  (forall p, reported (p_out r) p -> reported (p_out r') p) /\ (forall p, reported (p_unk r) p -> reported (p_unk r') p) /\
  (forall p, pending stack p -> P p -> reported (p_unk r') p) /\
  (forall p, pending stack p -> reported (p_out r') p \/ reported (p_unk r') p).
Proof.
  induction fuel as [|fuel IH]; intros stack r r' F G E.
  - destruct stack; [|discriminate]. injection E; intros <-. refine (conj G (conj _ (conj _ (conj _ _)))); auto; intros p (x & [] & _).
  - destruct stack as [|xb stack]; cbn [sivia_ctc_loop] in E.
    { injection E; intros <-. refine (conj G (conj _ (conj _ (conj _ _)))); auto; intros p (x & [] & _). }
    inversion F as [|? ? Fx F']; subst. cbv zeta in E.
    set (outs := if regular then (if b_is_empty (ctc xb) then [xb] else []) else diff xb (ctc xb)) in *.
    pose proof (c_contracts _ _ HC xb) as Sx.
    pose proof (stacked_wf xb Fx) as Wb. pose proof (c_boxes _ _ HC xb Wb) as Wx. pose proof (c_normal _ _ HC xb) as Nx.
    (* the boxes reported out *)
    assert (O1 : forall o p, List.In o outs -> inb p o -> inb p xb /\ limit (fun q => inb q xb /\ ~ P q) p).
    { intros o p Ho Hp. unfold outs in Ho. destruct regular.
      - destruct (b_is_empty (ctc xb)) eqn:Ee; [|destruct Ho]. destruct Ho as [<-|[]]. split; auto.
        intros eps He. exists p. split; [|apply near_refl; auto]. split; auto. intros HP.
        apply (empty_no_point _ p Ee). apply (c_keeps _ _ HC); auto.
      - split; [eapply (d_in _ HD); eauto|]. intros eps He.
        destruct (d_limit _ HD xb (ctc xb) o p Sx Wb Wx Nx Ho Hp eps He) as (q & (Q1 & Q2) & Q3).
        exists q. repeat split; auto. intros HP. apply Q2. apply (c_keeps _ _ HC); auto. }
    assert (O2 : regular = true -> forall o p, List.In o outs -> inb p o -> ~ P p).
    { intros Er o p Ho Hp HP. unfold outs in Ho. rewrite Er in Ho. destruct (b_is_empty (ctc xb)) eqn:Ee; [|destruct Ho].
      destruct Ho as [<-|[]]. apply (empty_no_point _ p Ee). apply (c_keeps _ _ HC); auto. }
    assert (G1 : fine (add_out outs r)).
    { destruct G as (G0 & G1 & G2 & G3). refine (conj G0 (conj _ (conj _ G3))).
      - intros o p H Hp. cbn in H. apply in_app_or in H. destruct H as [H|H]; [apply in_rev in H|apply (G1 o p); auto].
        destruct (O1 o p H Hp) as [L0 L]. split; [apply (inb_sub p xb); auto; apply stacked_sub; auto|].
        intros eps He. destruct (L eps He) as (q & (Q1 & Q2) & Q3). exists q. repeat split; auto.
        apply (inb_sub q xb); auto. apply stacked_sub; auto.
      - intros Er o p H Hp. cbn in H. apply in_app_or in H. destruct H as [H|H]; [apply in_rev in H; apply (O2 Er o p); auto|apply (G2 Er o p); auto]. }
    destruct (b_is_empty (ctc xb)) eqn:Ee.
    { (* nothing left *)
      destruct (IH _ _ _ F' G1 E) as (I1 & I2 & I3 & I4 & I5). refine (conj I1 (conj _ (conj I3 (conj _ _)))).
      - intros p Hp. apply I2. cbn. apply reported_rev. auto.
      - intros p Hp HP. apply pending_cons in Hp. destruct Hp as [Hp|Hp]; [|auto].
        exfalso. apply (empty_no_point _ p Ee). apply (c_keeps _ _ HC); auto.
      - intros p Hp. apply pending_cons in Hp. destruct Hp as [Hp|Hp]; [|auto]. left. apply I2. cbn. apply reported_rev. left.
        unfold outs. destruct regular; [exists xb; split; [left|]; auto|].
        destruct (d_cover _ HD xb (ctc xb) p Sx Wb Wx Nx Hp (empty_no_point _ p Ee)) as (d & H1 & H2). exists d; auto. }
    set (xr := if regular then xb else ctc xb) in *.
    assert (R1 : forall p, inb p xb -> P p -> inb p xr).
    { intros p Hp HP. unfold xr. destruct regular; auto. apply (c_keeps _ _ HC); auto. }
    assert (R2 : forall p, inb p xb -> inb p xr \/ reported outs p).
    { intros p Hp. unfold xr, outs. destruct regular; auto. destruct (classic (inb p (ctc xb))); auto. right.
      destruct (d_cover _ HD xb (ctc xb) p Sx Wb Wx Nx Hp H) as (d & H1 & H2). exists d; auto. }
    assert (R3 : Forall2 sub xr xb) by (unfold xr; destruct regular; auto using F2_sub_refl).
    assert (R4 : Forall wf xr) by (unfold xr; destruct regular; auto).
    destruct (max_diam_lt precision (firstn n xr)) eqn:Em.
    + (* a small box *)
      assert (G2 : fine (add_unk xr (add_out outs r))).
      { destruct G1 as (G0 & G1 & G2 & G3). refine (conj G0 (conj G1 (conj G2 _))).
        intros u H. cbn in H. destruct H as [<-|H]; [|apply G3; auto]. split; auto.
        eapply F2_sub_trans; [exact R3|apply stacked_sub; auto]. }
      destruct (IH _ _ _ F' G2 E) as (I1 & I2 & I3 & I4 & I5). refine (conj I1 (conj _ (conj _ (conj _ _)))).
      * intros p Hp. apply I2. cbn. apply reported_rev. auto.
      * intros p (u & H & Hp). apply I3. exists u. split; auto. right. auto.
      * intros p Hp HP. apply pending_cons in Hp. destruct Hp as [Hp|Hp]; [|auto]. apply I3. exists xr. split; [left|]; auto.
      * intros p Hp. apply pending_cons in Hp. destruct Hp as [Hp|Hp]; [|auto].
        destruct (R2 p Hp) as [H|H]; [right; apply I3; exists xr; split; [left|]; auto|left; apply I2; cbn; apply reported_rev; auto].
    + (* bisection *)
      destruct (bis (firstn n xr)) as [[x1 x2]|] eqn:Eb; [|discriminate].
      destruct Fx as (u & Exb & Lu & Su & Wu).
      assert (Sr : Forall2 sub (firstn n xr) u).
      { rewrite Exb in R3. apply (sub_firstn n) in R3. destruct R3 as [R3 _].
        replace (firstn n (u ++ y0)) with u in R3; auto. rewrite <- Lu. rewrite firstn_app, Nat.sub_diag, firstn_all. cbn. rewrite app_nil_r. auto. }
      assert (Wr : Forall wf (firstn n xr)).
      { apply Forall_forall. intros i Hi. rewrite Forall_forall in R4. apply R4. rewrite <- (firstn_skipn n xr). apply in_or_app; auto. }
      destruct (b_sub _ HB _ _ _ Eb) as [S1 S2]. destruct (b_wf _ HB _ _ _ Eb Wr) as [W1 W2].
      assert (F2 : Forall stacked (stack ++ [x1 ++ y0; x2 ++ y0])).
      { apply Forall_app. split; auto. repeat constructor.
        - exists x1. repeat split; auto.
          + rewrite (F2_len _ _ _ S1), (F2_len _ _ _ Sr). auto.
          + eapply F2_sub_trans; [exact S1|]. eapply F2_sub_trans; eauto.
        - exists x2. repeat split; auto.
          + rewrite (F2_len _ _ _ S2), (F2_len _ _ _ Sr). auto.
          + eapply F2_sub_trans; [exact S2|]. eapply F2_sub_trans; eauto. }
      assert (K : forall p, inb p xr -> pending (stack ++ [x1 ++ y0; x2 ++ y0]) p).
      { intros p Hp. apply pending_app. right.
        assert (Hy : inb (skipn n p) y0).
        { apply (inb_firstn p n) in Hp. destruct Hp as [_ Hp]. apply (inb_sub _ (skipn n xr)); auto.
          rewrite Exb in R3. apply (sub_firstn n) in R3. destruct R3 as [_ R3].
          replace (skipn n (u ++ y0)) with y0 in R3; auto. rewrite <- Lu. rewrite skipn_app, Nat.sub_diag, skipn_all. reflexivity. }
        rewrite <- (firstn_skipn n p).
        destruct (b_cover _ HB _ _ _ (firstn n p) Eb) as [H|H]; [apply inb_firstn; auto| |].
        - exists (x1 ++ y0). split; [left; auto|apply inb_app; auto].
        - exists (x2 ++ y0). split; [right; left; auto|apply inb_app; auto]. }
      destruct (IH _ _ _ F2 G1 E) as (I1 & I2 & I3 & I4 & I5). refine (conj I1 (conj _ (conj I3 (conj _ _)))).
      * intros p Hp. apply I2. cbn. apply reported_rev. auto.
      * intros p Hp HP. apply pending_cons in Hp. destruct Hp as [Hp|Hp]; [apply I4; auto|].
        apply I4; auto. apply pending_app. auto.
      * intros p Hp. apply pending_cons in Hp. destruct Hp as [Hp|Hp].
        -- destruct (R2 p Hp) as [H|H]; [apply I5; auto|left; apply I2; cbn; apply reported_rev; auto].
        -- apply I5. apply pending_app. auto.
Qed.
End Ctc.

(** C40 for contractors.  Each solution of the initial box is in an UNKNOWN box, the boxes cover the initial box; the
    OUT boxes are in the closure of the non-solutions, and have no solution for a regular paving. *)
Theorem C40_ctc : forall diff bis ctc P precision regular x0 y0 fuel r, diff_ok diff -> bis_ok bis -> ctc_ok P ctc ->
  Forall wf x0 -> Forall wf y0 -> sivia_ctc diff bis ctc precision regular x0 y0 fuel = Done r ->
  (forall p, inb p (x0 ++ y0) -> P p -> reported (p_unk r) p) /\
  (forall p, inb p (x0 ++ y0) -> reported (p_out r) p \/ reported (p_unk r) p) /\
  (forall o p, List.In o (p_out r) -> inb p o -> inb p (x0 ++ y0) /\ limit (fun q => inb q (x0 ++ y0) /\ ~ P q) p) /\
  (regular = true -> forall p, reported (p_out r) p -> ~ P p) /\
  (forall u, List.In u (p_unk r) -> max_diam_lt precision (firstn (length x0) u) = true /\ Forall2 sub u (x0 ++ y0)) /\
  p_in r = [].
Proof.
  intros diff bis ctc P precision regular x0 y0 fuel r HD HB HC Wx Wy E.
  destruct (ctc_loop diff bis ctc P HD HB HC precision regular (length x0) x0 y0 Wy fuel [x0 ++ y0] (mkP [] [] []) r) as (G & _ & _ & H1 & H2).
  - constructor; [|constructor]. exists x0. repeat split; auto. apply F2_sub_refl.
  - refine (conj eq_refl (conj _ (conj _ _))); cbn; tauto.
  - exact E.
  - destruct G as (G0 & G1 & G2 & G3). split; [|split; [|split; [|split; [|split]]]]; auto.
    + intros p Hp. apply H1. exists (x0 ++ y0). split; [left|]; auto.
    + intros p Hp. apply H2. exists (x0 ++ y0). split; [left|]; auto.
    + intros Er p (o & Ho & Hp). apply (G2 Er o); auto.
Qed.

(** ** Separators *)
(** two boxes that cover a box meet: a box is connected *)
Lemma itv_gap i j k : wf i -> wf j -> i <> Emp -> j <> Emp -> sub i k -> sub j k -> inter i j = Emp -> exists v, In v k /\ ~ In v i /\ ~ In v j.
Proof.
  intros Wi Wj Ni Nj Si Sj E.
  assert (D : forall v, In v i -> In v j -> False).
  { intros v Hi Hj. assert (H : In v (inter i j)) by (apply In_inter; auto). rewrite E in H. exact H. }
  destruct i as [|li hi]; [congruence|]. destruct j as [|lj hj]; [congruence|].
  assert (C : (exists a b, hi = Some a /\ lj = Some b /\ a < b) \/ (exists a b, hj = Some a /\ li = Some b /\ a < b)).
  { clear E Si Sj Ni Nj. destruct li as [a|], hi as [b|], lj as [c|], hj as [d|]; cbn in Wi, Wj;
      try (destruct (Rlt_dec b c); [left; exists b, c; repeat split; auto; lra|]);
      try (destruct (Rlt_dec d a); [right; exists d, a; repeat split; auto; lra|]);
      exfalso;
      first [ apply (D (Rmax a c)); cbn; unfold Rmax; destruct (Rle_dec a c); lra
            | apply (D (Rmin b d)); cbn; unfold Rmin; destruct (Rle_dec b d); lra
            | apply (D a); cbn; lra | apply (D b); cbn; lra | apply (D c); cbn; lra | apply (D d); cbn; lra
            | apply (D 0); cbn; lra ]. }
  destruct C as [(a & b & -> & -> & L)|(a & b & -> & -> & L)].
  - exists ((a + b) / 2). split; [|split; cbn; destruct li, hj; cbn; lra].
    assert (Ha : In a k) by (apply Si; destruct li; cbn in *; lra).
    assert (Hb : In b k) by (apply Sj; destruct hj; cbn in *; lra).
    apply (In_convex a _ b); auto; lra.
  - exists ((a + b) / 2). split; [|split; cbn; destruct hi, lj; cbn; lra].
    assert (Ha : In a k) by (apply Sj; destruct lj; cbn in *; lra).
    assert (Hb : In b k) by (apply Si; destruct hi; cbn in *; lra).
    apply (In_convex a _ b); auto; lra.
Qed.
Lemma box_connected : forall a b x, Forall wf a -> Forall wf b -> ~ List.In Emp a -> ~ List.In Emp b -> Forall2 sub a x -> Forall2 sub b x ->
  (forall p, inb p x -> inb p a \/ inb p b) -> existsb is_empty (map2 inter a b) = false.
Proof.
  induction a as [|i a IH]; intros b x Wa Wb Na Nb Sa Sb C; [reflexivity|].
  inversion Sa as [|? k ? x' Sik Sa']; subst. inversion Sb as [|j ? b' ? Sjk Sb']; subst.
  inversion Wa; subst. inversion Wb; subst. cbn [map2 existsb].
  destruct (normal_point a) as [pa Ha]; [auto|intros H; apply Na; right; auto|].
  destruct (normal_point b') as [pb Hb]; [auto|intros H; apply Nb; right; auto|].
  assert (Ni : i <> Emp) by (intros E0; apply Na; left; auto).
  assert (Nj : j <> Emp) by (intros E0; apply Nb; left; auto).
  apply orb_false_iff. split.
  - destruct (inter i j) eqn:E; [|reflexivity]. exfalso.
    destruct (itv_gap i j k) as (v & V1 & V2 & V3); auto.
    destruct (C (v :: pa)) as [H|H]; [constructor; auto; apply (inb_sub pa a); auto| |]; inversion H; subst; tauto.
  - apply (IH b' x'); auto; [intros H; apply Na; right; auto|intros H; apply Nb; right; auto|].
    intros p Hp.
    assert (G : exists v w, In v i /\ In w j).
    { destruct (normal_point [i]) as [q Hq]; [repeat constructor; auto|intros [E0|[]]; auto|].
      destruct (normal_point [j]) as [q' Hq']; [repeat constructor; auto|intros [E0|[]]; auto|].
      inversion Hq; subst. inversion Hq'; subst. eauto. }
    destruct G as (v & w & Hv & Hw).
    destruct (C (v :: p)) as [H|H]; [constructor; auto| |]; inversion H; subst; auto.
Qed.
Lemma inter_meets a b x : Forall wf a -> Forall wf b -> normal a -> normal b -> Forall2 sub a x -> Forall2 sub b x ->
  (forall p, inb p x -> inb p a \/ inb p b) -> x <> [] -> b_is_empty a = false -> b_is_empty b = false -> b_is_empty (b_inter a b) = false.
Proof.
  intros Wa Wb Na Nb Sa Sb C N Ea Eb. unfold b_inter. rewrite Ea, Eb.
  pose proof (box_connected a b x Wa Wb (Na Ea) (Nb Eb) Sa Sb C) as H. rewrite H.
  destruct a as [|i a]; [reflexivity|]. destruct b as [|j b]; [reflexivity|]. cbn in H |- *. apply orb_false_iff in H. apply H.
Qed.
Section Sep.
Context (diff : box -> box -> list box) (bis : box -> option (box * box)) (sep : sep_t) (S : list R -> Prop).
Context (HD : diff_ok diff) (HB : bis_ok bis) (HS : sep_ok S sep).
Context (precision : R) (regular : bool) (x0 : box) (N0 : x0 <> []).
Definition stacked2 (x : box) : Prop := Forall2 sub x x0 /\ Forall wf x.
Definition fine2 (r : paving3) : Prop :=
  (forall o p, List.In o (p_out r) -> inb p o -> inb p x0 /\ limit (fun q => inb q x0 /\ ~ S q) p) /\
  (forall o p, List.In o (p_in r) -> inb p o -> inb p x0 /\ limit (fun q => inb q x0 /\ S q) p) /\
  (regular = true -> (forall o p, List.In o (p_out r) -> inb p o -> ~ S p) /\ (forall o p, List.In o (p_in r) -> inb p o -> S p)) /\
  (forall u, List.In u (p_unk r) -> max_diam_lt precision u = true /\ Forall2 sub u x0).

Lemma sep_loop : forall fuel stack r r', Forall stacked2 stack -> fine2 r ->
  sivia_sep_loop diff bis sep precision regular fuel stack r = Done r' ->
  fine2 r' /\
  (forall p, reported (p_in r) p -> reported (p_in r') p) /\
  (forall p, reported (p_out r) p -> reported (p_out r') p) /\ (forall p, reported (p_unk r) p -> reported (p_unk r') p) /\
  (forall p, pending stack p -> S p -> reported (p_in r') p \/ reported (p_unk r') p) /\
  (forall p, pending stack p -> ~ S p -> reported (p_out r') p \/ reported (p_unk r') p).
Proof.
  induction fuel as [|fuel IH]; intros stack r r' F G E.
  - destruct stack; [|discriminate]. injection E; intros <-. refine (conj G (conj _ (conj _ (conj _ (conj _ _))))); auto; intros p (x & [] & _).
  - destruct stack as [|xb stack]; cbn [sivia_sep_loop] in E.
    { injection E; intros <-. refine (conj G (conj _ (conj _ (conj _ (conj _ _))))); auto; intros p (x & [] & _). }
    inversion F as [|? ? [Sb Wb] F']; subst. cbv zeta in E.
    pose proof (s_sub _ _ HS xb xb) as [Si So]. pose proof (s_wf _ _ HS xb xb Wb Wb) as [Wi Wo].
    pose proof (s_normal _ _ HS xb xb) as [Ni No].
    pose proof (fun p => s_keep_in _ _ HS xb xb p) as Ki. pose proof (fun p => s_keep_out _ _ HS xb xb p) as Ko.
    set (xi := fst (sep xb xb)) in *. set (xo := snd (sep xb xb)) in *.
    set (ins := if regular then (if b_is_empty xi then [xb] else []) else diff xb xi) in *.
    set (outs := if regular then (if b_is_empty xo then [xb] else []) else diff xb xo) in *.
    assert (L : length xi = length xo) by (rewrite (F2_len _ _ _ Si), (F2_len _ _ _ So); auto).
    assert (A1 : forall o p, List.In o ins -> inb p o -> inb p xb /\ limit (fun q => inb q xb /\ S q) p).
    { intros o p Ho Hp. unfold ins in Ho. destruct regular.
      - destruct (b_is_empty xi) eqn:Ee; [|destruct Ho]. destruct Ho as [<-|[]]. split; auto.
        intros eps He. exists p. split; [|apply near_refl; auto]. split; auto. apply NNPP. intros HP. apply (empty_no_point _ p Ee). auto.
      - split; [apply (d_in _ HD xb xi o p); auto|]. intros eps He.
        destruct (d_limit _ HD xb xi o p Si Wb Wi Ni Ho Hp eps He) as (q & (Q1 & Q2) & Q3).
        exists q. repeat split; auto. apply NNPP. intros HP. apply Q2. auto. }
    assert (A2 : forall o p, List.In o outs -> inb p o -> inb p xb /\ limit (fun q => inb q xb /\ ~ S q) p).
    { intros o p Ho Hp. unfold outs in Ho. destruct regular.
      - destruct (b_is_empty xo) eqn:Ee; [|destruct Ho]. destruct Ho as [<-|[]]. split; auto.
        intros eps He. exists p. split; [|apply near_refl; auto]. split; auto. intros HP. apply (empty_no_point _ p Ee). auto.
      - split; [apply (d_in _ HD xb xo o p); auto|]. intros eps He.
        destruct (d_limit _ HD xb xo o p So Wb Wo No Ho Hp eps He) as (q & (Q1 & Q2) & Q3).
        exists q. repeat split; auto. }
    assert (A3 : regular = true -> (forall o p, List.In o outs -> inb p o -> ~ S p) /\ (forall o p, List.In o ins -> inb p o -> S p)).
    { intros Er. unfold ins, outs. rewrite Er. split; intros o p Ho Hp.
      - destruct (b_is_empty xo) eqn:Ee; [|destruct Ho]. destruct Ho as [<-|[]]. intros HP. apply (empty_no_point _ p Ee). auto.
      - destruct (b_is_empty xi) eqn:Ee; [|destruct Ho]. destruct Ho as [<-|[]]. apply NNPP. intros HP. apply (empty_no_point _ p Ee). auto. }
    assert (G1 : fine2 (add_out outs (add_in ins r))).
    { destruct G as (G1 & G2 & G3 & G4). refine (conj _ (conj _ (conj _ G4))).
      - intros o p H Hp. cbn in H. apply in_app_or in H. destruct H as [H|H]; [apply in_rev in H|apply (G1 o p); auto].
        destruct (A2 o p H Hp) as [L0 L1]. split; [apply (inb_sub p xb); auto|].
        intros eps He. destruct (L1 eps He) as (q & (Q1 & Q2) & Q3). exists q. repeat split; auto. apply (inb_sub q xb); auto.
      - intros o p H Hp. cbn in H. apply in_app_or in H. destruct H as [H|H]; [apply in_rev in H|apply (G2 o p); auto].
        destruct (A1 o p H Hp) as [L0 L1]. split; [apply (inb_sub p xb); auto|].
        intros eps He. destruct (L1 eps He) as (q & (Q1 & Q2) & Q3). exists q. repeat split; auto. apply (inb_sub q xb); auto.
      - intros Er. destruct (G3 Er) as [G5 G6]. destruct (A3 Er) as [A5 A6]. split.
        + intros o p H Hp. cbn in H. apply in_app_or in H. destruct H as [H|H]; [apply in_rev in H; apply (A5 o p); auto|apply (G5 o p); auto].
        + intros o p H Hp. cbn in H. apply in_app_or in H. destruct H as [H|H]; [apply in_rev in H; apply (A6 o p); auto|apply (G6 o p); auto]. }
    set (r1 := add_out outs (add_in ins r)) in *.
    assert (U1 : forall p, reported (p_in r) p -> reported (p_in r1) p) by (intros p Hp; cbn; apply reported_rev; auto).
    assert (U2 : forall p, reported (p_out r) p -> reported (p_out r1) p) by (intros p Hp; cbn; apply reported_rev; auto).
    assert (U3 : forall p, reported ins p -> reported (p_in r1) p) by (intros p Hp; cbn; apply reported_rev; auto).
    assert (U4 : forall p, reported outs p -> reported (p_out r1) p) by (intros p Hp; cbn; apply reported_rev; auto).
    set (x := b_inter xi xo) in *.
    set (xr := if regular then xb else x) in *.
    (* a point of the box is reported, or remains *)
    assert (B1 : forall p, inb p xb -> S p -> reported ins p \/ (b_is_empty x = false /\ inb p xr)).
    { intros p Hp HP. unfold ins, xr. destruct regular eqn:Er.
      - destruct (b_is_empty xi) eqn:Ei; [left; exists xb; split; [left|]; auto|]. right. split; auto.
        unfold x. apply (inter_meets xi xo xb); auto; [|intros E0; apply N0; rewrite E0 in Sb; inversion Sb; auto|apply (inb_empty p); auto].
        intros q Hq. destruct (classic (S q)); auto.
      - destruct (classic (inb p xi)) as [Hi|Hi].
        + right. assert (inb p x) by (apply b_inter_in; [exact Hi|apply Ko; auto]). split; auto. eapply inb_empty; eauto.
        + left. destruct (d_cover _ HD xb xi p Si Wb Wi Ni Hp Hi) as (d & D1 & D2). exists d; auto. }
    assert (B2 : forall p, inb p xb -> ~ S p -> reported outs p \/ (b_is_empty x = false /\ inb p xr)).
    { intros p Hp HP. unfold outs, xr. destruct regular eqn:Er.
      - destruct (b_is_empty xo) eqn:Eo; [left; exists xb; split; [left|]; auto|]. right. split; auto.
        unfold x. apply (inter_meets xi xo xb); auto; [|intros E0; apply N0; rewrite E0 in Sb; inversion Sb; auto|apply (inb_empty p); auto].
        intros q Hq. destruct (classic (S q)); auto.
      - destruct (classic (inb p xo)) as [Hi|Hi].
        + right. assert (inb p x) by (apply b_inter_in; [apply Ki; auto|exact Hi]). split; auto. eapply inb_empty; eauto.
        + left. destruct (d_cover _ HD xb xo p So Wb Wo No Hp Hi) as (d & D1 & D2). exists d; auto. }
    destruct (b_is_empty x) eqn:Ee.
    { destruct (IH _ _ _ F' G1 E) as (I1 & I2 & I3 & I4 & I5 & I6). refine (conj I1 (conj _ (conj _ (conj I4 (conj _ _))))); auto.
      - intros p Hp HP. apply pending_cons in Hp. destruct Hp as [Hp|Hp]; [|auto].
        destruct (B1 p Hp HP) as [H|[H _]]; [auto|discriminate].
      - intros p Hp HP. apply pending_cons in Hp. destruct Hp as [Hp|Hp]; [|auto].
        destruct (B2 p Hp HP) as [H|[H _]]; [auto|discriminate]. }
    assert (R3 : Forall2 sub xr xb).
    { unfold xr. destruct regular; [apply F2_sub_refl|]. eapply F2_sub_trans; [apply b_inter_sub; auto|auto]. }
    assert (R4 : Forall wf xr) by (unfold xr; destruct regular; auto; apply b_inter_wf; auto).
    assert (R5 : Forall2 sub xr x0) by (eapply F2_sub_trans; eauto).
    destruct (max_diam_lt precision xr) eqn:Em.
    + assert (G2 : fine2 (add_unk xr r1)).
      { destruct G1 as (G1 & G2 & G3 & G4). refine (conj G1 (conj G2 (conj G3 _))).
        intros u H. cbn in H. destruct H as [<-|H]; [auto|apply G4; auto]. }
      destruct (IH _ _ _ F' G2 E) as (I1 & I2 & I3 & I4 & I5 & I6).
      assert (V : forall p, inb p xr -> reported (p_unk r') p) by (intros p Hp; apply I4; exists xr; split; [left|]; auto).
      refine (conj I1 (conj _ (conj _ (conj _ (conj _ _))))); auto.
      * intros p (u & H & Hp). apply I4. exists u. split; auto. right. auto.
      * intros p Hp HP. apply pending_cons in Hp. destruct Hp as [Hp|Hp]; [|auto]. destruct (B1 p Hp HP) as [H|[_ H]]; auto.
      * intros p Hp HP. apply pending_cons in Hp. destruct Hp as [Hp|Hp]; [|auto]. destruct (B2 p Hp HP) as [H|[_ H]]; auto.
    + destruct (bis xr) as [[x1 x2]|] eqn:Eb; [|discriminate].
      destruct (b_sub _ HB _ _ _ Eb) as [S1 S2]. destruct (b_wf _ HB _ _ _ Eb R4) as [W1 W2].
      assert (F2 : Forall stacked2 (stack ++ [x1; x2])).
      { apply Forall_app. split; auto. repeat constructor; auto; eapply F2_sub_trans; eauto. }
      assert (K : forall p, inb p xr -> pending (stack ++ [x1; x2]) p).
      { intros p Hp. apply pending_app. right. destruct (b_cover _ HB _ _ _ p Eb Hp) as [H|H]; eexists; (split; [|exact H]); cbn; auto. }
      destruct (IH _ _ _ F2 G1 E) as (I1 & I2 & I3 & I4 & I5 & I6). refine (conj I1 (conj _ (conj _ (conj I4 (conj _ _))))); auto.
      * intros p Hp HP. apply pending_cons in Hp. destruct Hp as [Hp|Hp]; [|apply I5; auto; apply pending_app; auto].
        destruct (B1 p Hp HP) as [H|[_ H]]; auto.
      * intros p Hp HP. apply pending_cons in Hp. destruct Hp as [Hp|Hp]; [|apply I6; auto; apply pending_app; auto].
        destruct (B2 p Hp HP) as [H|[_ H]]; auto.
Qed.
End Sep.

(** C40 for separators.  Each solution is in an IN or UNKNOWN box, each other point in an OUT or UNKNOWN box; the IN
    (OUT) boxes are in the closure of the set (of its complement), and exactly in it for a regular paving. *)
Theorem C40_sep : forall diff bis sep S precision regular x0 fuel r, diff_ok diff -> bis_ok bis -> sep_ok S sep ->
  x0 <> [] -> Forall wf x0 -> sivia_sep diff bis sep precision regular x0 fuel = Done r ->
  (forall p, inb p x0 -> S p -> reported (p_in r) p \/ reported (p_unk r) p) /\
  (forall p, inb p x0 -> ~ S p -> reported (p_out r) p \/ reported (p_unk r) p) /\
  (forall o p, List.In o (p_out r) -> inb p o -> inb p x0 /\ limit (fun q => inb q x0 /\ ~ S q) p) /\
  (forall o p, List.In o (p_in r) -> inb p o -> inb p x0 /\ limit (fun q => inb q x0 /\ S q) p) /\
  (regular = true -> (forall p, reported (p_out r) p -> ~ S p) /\ (forall p, reported (p_in r) p -> S p)) /\
  (forall u, List.In u (p_unk r) -> max_diam_lt precision u = true /\ Forall2 sub u x0).
Proof.
  intros diff bis sep S precision regular x0 fuel r HD HB HS N W E.
  destruct (sep_loop diff bis sep S HD HB HS precision regular x0 N fuel [x0] (mkP [] [] []) r) as ((G1 & G2 & G3 & G4) & _ & _ & _ & H1 & H2).
  - constructor; [|constructor]. split; auto. apply F2_sub_refl.
  - refine (conj _ (conj _ (conj _ _))); cbn; tauto.
  - exact E.
  - refine (conj _ (conj _ (conj G1 (conj G2 (conj _ G4))))).
    + intros p Hp. apply H1. exists x0. split; [left|]; auto.
    + intros p Hp. apply H2. exists x0. split; [left|]; auto.
    + intros Er. destruct (G3 Er) as [G5 G6]. split; intros p (o & Ho & Hp); [apply (G5 o)|apply (G6 o)]; auto.
Qed.
