(** * C94: [CtcLohner] keeps the solutions of x' = f(x) *)
From Coq Require Import Reals Lra Bool List Arith Lia.
From Verif Require Import Itv Arith Tube TubeSpec TubeFacts TubeOps TubeOpsFacts TubeOpsFacts2 TubeQueries TubeQueries2 TubeCtc DynSpec Paving Static CtcDelay PropsDyn2 PropsStatic CtcEvalBody CtcEvalFacts CtcDerivFacts Picard PicardFacts PropsPicard PropsSivia PropsPaving3 Lohner LohnerFacts LohnerStep.
Import ListNotations.
Open Scope R_scope.

(** ** Specification *)
(** Interval::mid gives a point of the interval *)
Definition mid_in (bmid : itv -> R) : Prop := forall i, wf i -> i <> Emp -> In (bmid i) i.
(** and the middle of the bounded ones *)
Definition mid_half (bmid : itv -> R) : Prop := forall a b, a <= b -> bmid (Itv (Some a) (Some b)) = (a + b) / 2.
(** the matrices Q of the decompositions are inverted exactly *)
Definition inverses (n : nat) (qr inv : rmat -> rmat) : Prop := forall M, square n M -> square n (qr M) /\ square n (inv (qr M)) /\
  (forall v, length v = n -> rmv (qr M) (rmv (inv (qr M)) v) = v) /\ (forall v, length v = n -> rmv (inv (qr M)) (rmv (qr M) v) = v).
(** the function is evaluated exactly at points *)
Definition exact_at_points (n : nat) (bmid : itv -> R) (F : box -> box) (phi : list R -> list R) : Prop :=
  forall p, length p = n -> map bmid (F (map pt p)) = phi p.
(** bounded or empty *)
Definition bdd (i : itv) : Prop := match i with Emp => True | Itv (Some _) (Some _) => True | _ => False end.
(** the images of bounded boxes are bounded *)
Definition tame (F : box -> box) (J : box -> imat) : Prop := forall X, Forall bdd X -> Forall bdd (F X) /\ Forall (Forall bdd) (J X).

(** ** Any dimension, any arithmetic: one call of [integrate] *)
(** what LohnerAlgorithm knows of the point reached, and what one slice keeps *)
Theorem C94_step_partial : forall A n phi dphi F J eps bmid qr inv c fw l u ys s s',
  arith_ok A -> field n phi dphi -> enclosing n phi dphi F J -> mid_in bmid -> inverses n qr inv -> exact_at_points n bmid F phi ->
  (1 <= c)%nat -> l < u -> length ys = n -> flow phi (if fw : bool then 1 else -1) l u ys -> knows n s (vals ys l) ->
  integrate A bmid qr inv F J c eps (if fw then 1 else -1) (u - l) s = Some s' ->
  inb (vals ys u) (lo_u s') /\ (forall w, l <= w <= u -> inb (vals ys w) (lo_ut s')) /\ knows n s' (vals ys u).
Proof.
  intros A n phi dphi F J eps bmid qr inv c fw l u ys s s' HA HP HE Hm Hq Hp C LU LN HF KS HI.
  destruct (integrate_ok A HA n phi dphi F J HP HE eps bmid qr inv Hm Hq Hp fw l u ys s s' c C LU LN HF KS HI) as (K1 & _ & K2). split; [apply (kn_u _ _ _ K1)|]. split; auto.
Qed.

(** ** Exact arithmetic: symmetry *)
Definition symb (i : itv) : Prop := i = Emp \/ exists c, 0 <= c /\ i = Itv (Some (- c)) (Some c).
Lemma symb_bdd i : symb i -> bdd i. Proof. intros [->|(c & _ & ->)]; cbn; auto. Qed.
Lemma bdd_add i j : bdd i -> bdd j -> bdd (xadd i j). Proof. destruct i as [|[a|] [b|]], j as [|[c|] [d|]]; cbn; tauto. Qed.
Lemma bdd_sub i j : bdd i -> bdd j -> bdd (xsub i j). Proof. destruct i as [|[a|] [b|]], j as [|[c|] [d|]]; cbn; tauto. Qed.
Lemma bdd_mul i j : bdd i -> bdd j -> bdd (xmul i j). Proof. destruct i as [|[a|] [b|]], j as [|[c|] [d|]]; cbn; tauto. Qed.
Lemma bdd_inter i j : bdd i -> bdd j -> bdd (inter i j).
Proof. destruct i as [|[a|] [b|]], j as [|[c|] [d|]]; cbn; try tauto. unfold mk, bnd; intros; destruct (Rle_dec _ _); cbn; auto. Qed.
Lemma symb_add i j : symb i -> symb j -> symb (xadd i j).
Proof. intros [->|(c & C & ->)] [->|(d & D & ->)]; cbn; try (left; reflexivity). right. exists (c + d). split; [lra|]. repeat f_equal; lra. Qed.
Lemma symb_mul i j : bdd i -> symb j -> symb (xmul i j).
Proof.
  intros Hi [->|(c & C & ->)]; [destruct i as [|[a|] [b|]]; left; reflexivity|]. destruct i as [|[a|] [b|]]; cbn in *; try tauto; [left; reflexivity|]. right.
  replace (a * - c) with (- (a * c)) by lra. replace (b * - c) with (- (b * c)) by lra. generalize (a * c), (b * c). intros p q. exists (max4 (- p) p (- q) q).
  split; [unfold max4, Rmax; repeat destruct (Rle_dec _ _); lra|]. repeat f_equal. unfold min4, max4, Rmin, Rmax; repeat destruct (Rle_dec _ _); lra.
Qed.
Lemma symb_inter i j : symb i -> symb j -> symb (inter i j).
Proof.
  intros [->|(c & C & ->)] [->|(d & D & ->)]; cbn; try (left; reflexivity). right. exists (Rmin c d). unfold mk. assert (0 <= Rmin c d) by (apply Rmin_glb; auto).
  destruct (Rle_dec _ _) as [K|K]; [|exfalso; apply K; unfold Rmax, Rmin; destruct (Rle_dec _ _), (Rle_dec _ _); lra]. split; auto. repeat f_equal. unfold Rmax, Rmin; destruct (Rle_dec _ _), (Rle_dec _ _); lra.
Qed.
Lemma map2_F (P Q W : itv -> Prop) (g : itv -> itv -> itv) : (forall i j, P i -> Q j -> W (g i j)) -> forall x y, Forall P x -> Forall Q y -> Forall W (map2 g x y).
Proof. intros H x y Hx. revert y. induction Hx; intros y Hy; cbn; [constructor|]. destruct Hy; constructor; auto. Qed.
Lemma F_emp (P : itv -> Prop) x : P Emp -> Forall P (b_set_empty x). Proof. intros H. induction x; cbn; constructor; auto. Qed.
Lemma b_add_F (P Q W : itv -> Prop) : (forall i j, P i -> Q j -> W (xadd i j)) -> W Emp -> forall x y, Forall P x -> Forall Q y -> Forall W (b_add exact x y).
Proof. intros H H0 x y Hx Hy. unfold b_add. destruct (_ || _); [apply F_emp; auto|]. eapply map2_F; eauto. Qed.
Lemma b_sub_F (P Q W : itv -> Prop) : (forall i j, P i -> Q j -> W (xsub i j)) -> W Emp -> forall x y, Forall P x -> Forall Q y -> Forall W (b_sub exact x y).
Proof. intros H H0 x y Hx Hy. unfold b_sub. destruct (_ || _); [apply F_emp; auto|]. eapply map2_F; eauto. Qed.
Lemma scal_bdd c x : bdd c -> Forall bdd x -> Forall bdd (b_scal exact c x).
Proof. intros C H. induction H; cbn; constructor; auto. apply bdd_mul; auto. Qed.
Lemma pt_bdd v : Forall bdd (map pt v). Proof. induction v; cbn; constructor; cbn; auto. Qed.
Lemma pts_bdd M : Forall (Forall bdd) (pts M). Proof. induction M; cbn; constructor; auto. apply pt_bdd. Qed.
Lemma idot_bdd x y : Forall bdd x -> Forall bdd y -> bdd (idot exact x y).
Proof. intros H. revert y. induction H; intros y H'; cbn [idot]; [cbn; auto|]. destruct H'; [cbn; auto|]. apply bdd_add; auto. apply bdd_mul; auto. Qed.
Lemma imv_bdd M x : Forall (Forall bdd) M -> Forall bdd x -> Forall bdd (imv exact M x).
Proof. intros H Hx. induction H; cbn; constructor; auto. apply idot_bdd; auto. Qed.
Lemma ivm_bdd m row M : Forall bdd row -> Forall (Forall bdd) M -> Forall bdd (ivm exact m row M).
Proof.
  assert (Z : Forall bdd (repeat (pt 0) m)) by (clear; induction m; cbn [repeat]; constructor; auto; cbn; auto).
  intros H. revert M. induction H; intros M H'; cbn [ivm]; auto. destruct H'; auto. eapply map2_F; [|apply scal_bdd; eauto|apply IHForall; auto]. apply bdd_add.
Qed.
Lemma imm_bdd m M M' : Forall (Forall bdd) M -> Forall (Forall bdd) M' -> Forall (Forall bdd) (imm exact m M M').
Proof. intros H H'. induction H; cbn; constructor; auto. apply ivm_bdd; auto. Qed.
Lemma imscal_bdd c M : Forall (Forall bdd) M -> Forall (Forall bdd) (imscal exact c M).
Proof. intros H. induction H; cbn; constructor; auto. apply scal_bdd; auto. cbn; auto. Qed.
Lemma imadd_bdd M M' : Forall (Forall bdd) M -> Forall (Forall bdd) M' -> Forall (Forall bdd) (imadd exact M M').
Proof. intros H. revert M'. induction H; intros M' H'; cbn; [constructor|]. destruct H'; constructor; auto. eapply map2_F; eauto. apply bdd_add. Qed.
Lemma idot_symb x y : Forall bdd x -> Forall symb y -> symb (idot exact x y).
Proof.
  assert (Z : symb (pt 0)) by (right; exists 0; split; [lra|]; unfold pt; repeat f_equal; lra).
  intros H. revert y. induction H; intros y H'; cbn [idot]; [auto|]. destruct H'; [auto|]. apply symb_add; auto. apply symb_mul; auto.
Qed.
Lemma imv_symb M x : Forall (Forall bdd) M -> Forall symb x -> Forall symb (imv exact M x).
Proof. intros H Hx. induction H; cbn; constructor; auto. apply idot_symb; auto. Qed.
Lemma b_inter_F (P : itv -> Prop) : P Emp -> (forall i j, P i -> P j -> P (inter i j)) -> forall x y, Forall P x -> Forall P y -> Forall P (b_inter x y).
Proof. intros H0 H x y Hx Hy. unfold b_inter. destruct (b_is_empty x); auto. destruct (b_is_empty y); [apply F_emp; auto|]. cbn zeta. destruct (existsb _ _); [apply F_emp; auto|]. eapply map2_F; eauto. Qed.
Lemma bdd_bnd a b : bdd (bnd a b). Proof. unfold bnd, mk. destruct (Rle_dec a b); cbn; auto. Qed.

Section Exact.
  Variables (n : nat) (phi : list R -> list R) (dphi : list R -> rmat) (F : box -> box) (J : box -> imat) (eps : R) (bmid : itv -> R) (qr inv : rmat -> rmat) (c : nat).
  Hypothesis HP : field n phi dphi.
  Hypothesis HE : enclosing n phi dphi F J.
  Hypothesis Hm : mid_in bmid.
  Hypothesis Hh : mid_half bmid.
  Hypothesis Hq : inverses n qr inv.
  Hypothesis Hp : exact_at_points n bmid F phi.
  Hypothesis HT : tame F J.
  Hypothesis Hc : (1 <= c)%nat.
  Lemma symb_mid z : Forall wf z -> Forall bdd z -> Forall symb (b_sub exact z (map pt (map bmid z))).
  Proof.
    intros W B. unfold b_sub. destruct (_ || _); [apply F_emp; left; auto|]. induction W as [|i z Wi W IH]; cbn; [constructor|]. inversion B; subst. constructor; [|apply IH; auto].
    destruct i as [|[a|] [b|]]; cbn in *; try tauto; [left; auto|]. right. rewrite Hh by auto. exists ((b - a) / 2). split; [lra|]. unfold pt, xsub; cbn. f_equal; f_equal; lra.
  Qed.
  (** the shape of the state: [u] bounded, [r] symmetric *)
  Definition shape (s : lohner) : Prop := Forall bdd (lo_u s) /\ Forall symb (lo_r s).
  Lemma body_shape sg h s ut : shape s -> Forall bdd ut -> shape (lo_body exact bmid qr inv F J sg h s ut) /\
    lo_u (lo_body exact bmid qr inv F J sg h s ut) = b_add exact (map pt (lo_hat (lo_body exact bmid qr inv F J sg h s ut))) (imv exact (pts (lo_B (lo_body exact bmid qr inv F J sg h s ut))) (lo_r (lo_body exact bmid qr inv F J sg h s ut))).
  Proof.
    intros (S1 & S2) HU. split; [|reflexivity]. unfold lo_body. set (z1 := imv exact (imscal exact (1 / 2 * h * h) (J ut)) (F ut)). set (m := length (lo_u s)). destruct (HT ut HU) as (T1 & T2). destruct (HT _ S1) as (T3 & T4).
    assert (Bz : Forall bdd z1) by (apply imv_bdd; [apply imscal_bdd; auto|auto]). assert (Wz : Forall wf z1) by (apply (imv_wf exact exact_ok); [apply (imscal_wf exact exact_ok); apply (en_jwf _ _ _ _ _ HE)|apply (en_wf _ _ _ _ _ HE)]).
    set (a := imadd exact (pts (eye m)) (imscal exact (h * sg) (J (lo_u s)))). assert (Ba : Forall (Forall bdd) a) by (apply imadd_bdd; [apply pts_bdd|apply imscal_bdd; auto]).
    set (b1 := qr _). set (r1 := b_add exact _ (imv exact (pts (inv b1)) _)). assert (Sr : Forall symb r1).
    { apply (b_add_F symb symb symb); [apply symb_add|left; auto| |].
      - apply imv_symb; auto. apply imm_bdd; [apply imm_bdd; auto; apply pts_bdd|apply pts_bdd].
      - apply imv_symb; [apply pts_bdd|apply symb_mid; auto]. }
    split; cbn [lo_u lo_r]; auto. apply (b_add_F bdd bdd bdd); [apply bdd_add|cbn; auto|apply pt_bdd|]. apply imv_bdd; [apply pts_bdd|]. eapply Forall_impl; [|exact Sr]. apply symb_bdd.
  Qed.
  Lemma encl_bdd k sg h guess e : Forall bdd guess -> forall E, Forall bdd E -> encl_loop exact F eps k sg h guess E = Some e -> Forall bdd e.
  Proof.
    intros HG. induction k as [|k IH]; intros E BE; cbn [encl_loop]; [discriminate|]. destruct (b_is_subset _ _); [intros R; injection R as <-; auto|]. apply IH.
    assert (B1 : Forall bdd (b_add exact guess (b_scal exact (imul exact (pt sg) (bnd 0 h)) (F E)))).
    { apply (b_add_F bdd bdd bdd); [apply bdd_add|cbn; auto|auto|]. apply scal_bdd; [apply bdd_mul; [cbn; auto|apply bdd_bnd]|apply HT; auto]. }
    apply (b_sub_F bdd bdd bdd); [apply bdd_sub|cbn; auto| |]; apply scal_bdd; auto; cbn; auto.
  Qed.
  (** after a call of integrate *)
  Definition full (s : lohner) : Prop := shape s /\ lo_u s = b_add exact (map pt (lo_hat s)) (imv exact (pts (lo_B s)) (lo_r s)).
  Lemma iter_shape k sg h s : shape s -> forall ut s', Forall bdd ut -> lo_iter exact bmid qr inv F J eps (Datatypes.S k) sg h s ut = Some s' -> full s'.
  Proof.
    intros HS. induction k as [|k IH]; intros ut s' BU.
    - cbn [lo_iter]. intros E. injection E as <-. apply body_shape; auto.
    - change (lo_iter exact bmid qr inv F J eps (Datatypes.S (Datatypes.S k)) sg h s ut) with
        (match global_encl exact F eps (- sg) h (lo_u (lo_body exact bmid qr inv F J sg h s ut)) with None => None | Some e => lo_iter exact bmid qr inv F J eps (Datatypes.S k) sg h s (b_inter ut e) end).
      destruct (body_shape sg h s ut HS BU) as ((S1 & S2) & _). destruct (global_encl _ _ _ _ _ _) as [e|] eqn:EG; [|discriminate]. apply IH. revert EG. unfold global_encl. generalize 30%nat. intros k' EG.
      apply b_inter_F; [cbn; auto|apply bdd_inter|auto|]. eapply encl_bdd; [| |exact EG]; auto.
  Qed.
  Lemma integrate_shape sg h s s' : shape s -> integrate exact bmid qr inv F J c eps sg h s = Some s' -> full s'.
  Proof.
    intros HS. unfold integrate. destruct (global_encl _ _ _ _ _ _) as [e|] eqn:EG; [|discriminate]. destruct c as [|k]; [lia|]. apply iter_shape; auto. destruct HS as (S1 & _).
    revert EG. unfold global_encl. generalize 30%nat. intros k' EG. eapply encl_bdd; [| |exact EG]; auto.
  Qed.
  (** ** contractStep *)
  (** the new centre is reached from the same symmetric set *)
  Lemma contract_ok g s x rho : knows n s x -> Forall wf g -> inb x g -> inb rho (lo_r s) ->
    x = vadd (map bmid (b_inter g (lo_u s))) (rmv (lo_B s) rho) -> knows n (contract_step exact bmid g s) x.
  Proof.
    intros K Wg Hg Hr E. unfold contract_step. set (u := b_inter g (lo_u s)) in *. set (hat := map bmid u) in *.
    assert (Hu : inb x u) by (apply b_inter_in; [exact Hg|exact (kn_u _ _ _ K)]).
    assert (Wu : Forall wf u) by (apply b_inter_wf; auto; apply (kn_wf _ _ _ K)). assert (Hhat : inb hat u) by (apply (mids_in bmid Hm); auto; eapply inb_ne; eauto).
    assert (Lx := kn_len _ _ _ K). assert (Lh : length hat = n) by (rewrite (F2_len_ Hhat), <- (F2_len_ Hu); auto).
    assert (SB := kn_B _ _ _ K). assert (SBi := kn_Bi _ _ _ K). assert (Lrho : length rho = n) by (rewrite (F2_len_ Hr); apply (kn_lenr _ _ _ K)).
    assert (LB : length (rmv (lo_B s) rho) = n) by (rewrite rmv_len; apply SB).
    assert (IN : forall p, inb p u -> length p = n -> inb (rmv (lo_Binv s) (vsub p hat)) (imv exact (pts (lo_Binv s)) (b_sub exact u (map pt hat)))).
    { intros p Hpu Lp. apply (imv_in exact exact_ok); [apply pts_in|]. apply (b_sub_in exact exact_ok); auto; [lia|apply pt_in]. }
    assert (EW : vsub x hat = rmv (lo_B s) rho). { rewrite E. assert (LL : length hat = length (rmv (lo_B s) rho)) by lia. revert LL. generalize hat, (rmv (lo_B s) rho). clear. induction hat as [|p x IH]; intros [|q y] L; try discriminate; cbn; auto. f_equal; [lra|apply IH; auto]. }
    assert (R2 : inb rho (imv exact (pts (lo_Binv s)) (b_sub exact u (map pt hat)))) by (rewrite <- (kn_BiB _ _ _ K rho Lrho), <- EW; apply IN; auto).
    assert (Z2 : inb (repeat 0 n) (imv exact (pts (lo_Binv s)) (b_sub exact u (map pt hat)))). { assert (X := IN hat Hhat Lh). rewrite vsub_self, Lh, (rmv_0 n) in X by auto. auto. }
    constructor; cbn [lo_u lo_r lo_hat lo_B lo_Binv]; auto.
    - assert (X := b_inter_in _ _ _ Hr R2). rewrite <- (F2_len_ X). auto.
    - apply b_inter_wf; [apply (kn_wfr _ _ _ K)|]. apply (imv_wf exact exact_ok); [apply pts_wf|]. apply (b_sub_wf exact exact_ok); auto. apply ptv_wf.
    - apply b_inter_in; [exact (kn_0 _ _ _ K)|exact Z2].
    - apply (kn_BBi _ _ _ K).
    - apply (kn_BiB _ _ _ K).
    - exists rho. split; auto. apply b_inter_in; auto.
  Qed.
  Lemma contract_shape g s x : knows n s x -> knows n (contract_step exact bmid g s) x -> shape s -> shape (contract_step exact bmid g s).
  Proof.
    intros K K' (S1 & S2). assert (Z := kn_0 _ _ _ K'). unfold contract_step in *. cbn [lo_r lo_u] in *. set (u := b_inter g (lo_u s)) in *.
    assert (Wu := kn_wf _ _ _ K'). cbn [lo_u] in Wu. fold u in Wu.
    assert (Bu : Forall bdd u).
    { unfold u, b_inter. destruct (b_is_empty g) eqn:Eg; [|destruct (b_is_empty (lo_u s)); [apply F_emp; cbn; auto|]; cbn zeta; destruct (existsb _ _); [apply F_emp; cbn; auto|]; apply (map2_F (fun _ => True) bdd bdd); auto].
      - exfalso. assert (X := kn_u _ _ _ K'). cbn [lo_u] in X. fold u in X. unfold u, b_inter in X. rewrite Eg in X. apply inb_empty in X. congruence.
      - intros i j _ Hj. destruct i as [|[a|] [b|]], j as [|[p|] [q|]]; cbn in *; try tauto; unfold mk, bnd; try destruct (Rle_dec _ _); cbn; auto.
      - clear. induction g; constructor; auto. }
    split; cbn [lo_u lo_r]; auto. set (q := imv exact _ _) in *. assert (Sq : Forall symb q) by (apply imv_symb; [apply pts_bdd|apply symb_mid; auto]).
    apply b_inter_F; [left; auto|apply symb_inter|auto|auto].
  Qed.
  Lemma full_mid s x : full s -> inb x (lo_u s) -> length (lo_hat s) = length (lo_r s) -> length (lo_B s) = length (lo_r s) -> map bmid (lo_u s) = lo_hat s.
  Proof.
    intros ((_ & S) & E) Hx L1 L2. rewrite E in *. unfold b_add in *. destruct (_ || _) eqn:EE.
    - exfalso. destruct (lo_hat s) as [|h0 hat]; [cbn in EE|cbn in Hx; inversion Hx; auto]. destruct (lo_r s); [|discriminate]. destruct (lo_B s); [discriminate|discriminate].
    - assert (SS := imv_symb (pts (lo_B s)) (lo_r s) (pts_bdd _) S). assert (LL : length (lo_hat s) = length (imv exact (pts (lo_B s)) (lo_r s))) by (unfold imv, pts; rewrite !map_length; lia).
      revert Hx SS LL. generalize (lo_hat s) (imv exact (pts (lo_B s)) (lo_r s)). clear - Hh. intros hat q. revert x hat. induction q as [|i q IH]; intros x [|h0 hat] Hx SS LL; try discriminate; cbn; auto. cbn in Hx. inversion Hx as [|? ? ? ? HI1 HI2 EQ1 EQ2]; subst. inversion SS as [|? ? SS1 SS2]; subst. f_equal; [|eapply IH; eauto].
      destruct SS1 as [->|(d & D & ->)]; [destruct HI1|]. unfold pt. cbn. rewrite Hh by lra. lra.
  Qed.
  Lemma ALL_inter x u : Forall wf u -> inb x u -> b_inter (map (fun _ => ALL) u) u = u.
  Proof.
    intros W H. unfold b_inter. rewrite (inb_empty _ _ H). replace (b_is_empty (map (fun _ => ALL) u)) with false by (destruct u; reflexivity). cbn zeta.
    assert (E : map2 inter (map (fun _ => ALL) u) u = u). { clear - W. induction W as [|i u Wi W IH]; cbn; auto. rewrite IH. f_equal. destruct i as [|[p|] [q|]]; cbn in *; auto. unfold mk. destruct (Rle_dec p q); [auto|tauto]. }
    rewrite E. replace (existsb is_empty u) with false; auto. symmetry. clear - H. induction H; cbn; auto. rewrite IHForall2. destruct y; [destruct H|reflexivity].
  Qed.
  (** gates that do not cut the local enclosure *)
  Lemma uncut_ok g s x : knows n s x -> full s -> Forall (fun i => i = ALL) g -> length g = n -> knows n (contract_step exact bmid g s) x.
  Proof.
    intros K FS G LG. destruct (kn_rho _ _ _ K) as (rho & R1 & R2). assert (Lu : length (lo_u s) = n) by (rewrite <- (F2_len_ (kn_u _ _ _ K)); apply (kn_len _ _ _ K)).
    assert (Eg : g = map (fun _ => ALL) (lo_u s)) by (clear - G LG Lu; rewrite <- Lu in LG; clear Lu; revert LG; generalize (lo_u s); induction G; intros [|? ?] L; try discriminate; cbn; auto; f_equal; auto).
    assert (Eu : b_inter g (lo_u s) = lo_u s) by (rewrite Eg; eapply ALL_inter; [apply (kn_wf _ _ _ K)|apply (kn_u _ _ _ K)]).
    apply (contract_ok g s x rho); auto.
    - clear - G. induction G; constructor; auto. subst. cbn. auto.
    - assert (X := kn_u _ _ _ K). rewrite Eg. clear - X. induction X; cbn; constructor; auto. cbn. auto.
    - rewrite Eu. rewrite (full_mid s x); auto; [apply (kn_u _ _ _ K)| |].
      + rewrite (F2_len_ (kn_hat _ _ _ K)), (kn_lenr _ _ _ K). auto.
      + rewrite (kn_lenr _ _ _ K). apply (kn_B _ _ _ K).
  Qed.
  (** dimension 1 *)
  Lemma dim1_ok g s x : n = 1%nat -> knows n s x -> full s -> Forall wf g -> inb x g -> knows n (contract_step exact bmid g s) x.
  Proof.
    intros N K FS Wg Hg. set (rho := rmv (lo_Binv s) (vsub x (map bmid (b_inter g (lo_u s))))).
    assert (Hu : inb x (b_inter g (lo_u s))) by (apply b_inter_in; [exact Hg|exact (kn_u _ _ _ K)]). assert (Wu : Forall wf (b_inter g (lo_u s))) by (apply b_inter_wf; auto; apply (kn_wf _ _ _ K)).
    assert (Lx := kn_len _ _ _ K). assert (Lu : length (b_inter g (lo_u s)) = n) by (rewrite <- (F2_len_ Hu); auto).
    apply (contract_ok g s x rho); auto.
    2:{ unfold rho. rewrite (kn_BBi _ _ _ K) by (rewrite vsub_len; rewrite ?map_length; lia). assert (LL : length x = length (map bmid (b_inter g (lo_u s)))) by (rewrite map_length; lia). revert LL. generalize x (map bmid (b_inter g (lo_u s))). clear. induction x as [|p x IH]; intros [|q y] L; try discriminate; cbn; auto. f_equal; [lra|apply IH; auto]. }
    assert (BB := kn_BBi _ _ _ K). assert (SB := kn_B _ _ _ K). assert (SBi := kn_Bi _ _ _ K). assert (Z := kn_0 _ _ _ K). assert (Lr := kn_lenr _ _ _ K). assert (Wr := kn_wfr _ _ _ K). assert (Lh := F2_len_ (kn_hat _ _ _ K)). assert (LU := F2_len_ (kn_u _ _ _ K)).
    destruct FS as ((S1 & S2) & E). unfold rho. clear rho. rewrite N in *.
    destruct (lo_B s) as [|row [|? ?]]; destruct SB as (SB1 & SB2); try discriminate. inversion SB2 as [|? ? SB3 _]; subst. destruct row as [|be [|? ?]]; try discriminate.
    destruct (lo_Binv s) as [|row [|? ?]]; destruct SBi as (SC1 & SC2); try discriminate. inversion SC2 as [|? ? SC3 _]; subst. destruct row as [|bi [|? ?]]; try discriminate.
    specialize (BB [1] eq_refl). cbn in BB. injection BB as BB. destruct x as [|x [|? ?]]; try discriminate. destruct (lo_r s) as [|r [|? ?]]; try discriminate. destruct (lo_hat s) as [|hat [|? ?]]; try (rewrite <- LU in Lh; discriminate).
    inversion Z as [|? ? ? ? Z1 Z2]; subst. inversion S2 as [|? ? S3 S4]; subst. destruct S3 as [->|(d & D & ->)]; [destruct Z1|]. destruct g as [|g [|? ?]]; try (apply F2_len_ in Hg; discriminate). inversion Hg as [|? ? ? ? Hg1 Hg2]; subst. inversion Wg; subst.
    assert (EB : be * bi = 1) by lra. assert (E1 : lo_u s = [Itv (Some (hat - Rabs be * d)) (Some (hat + Rabs be * d))]).
    { rewrite E. cbn. f_equal. unfold Rabs, min4, max4, Rmin, Rmax. assert (Q1 : be * - d = - (be * d)) by lra. rewrite !Q1.
      destruct (Rcase_abs be) as [K1|K1]; [assert (X : 0 <= - be * d) by (apply Rmult_le_pos; lra)|assert (X : 0 <= be * d) by (apply Rmult_le_pos; lra)]; f_equal; f_equal; repeat destruct (Rle_dec _ _); lra. }
    rewrite E1 in *.
    assert (exists p q, p <= x <= q /\ q - p <= 2 * (Rabs be * d) /\ map bmid (b_inter [g] [Itv (Some (hat - Rabs be * d)) (Some (hat + Rabs be * d))]) = [(p + q) / 2]) as (p & q & PQ & D2 & EM).
    { assert (HX := kn_u _ _ _ K). rewrite E1 in HX. inversion HX as [|? ? ? ? HX1 HX2]; subst. cbn in HX1. destruct g as [|gl gh]; [destruct Hg1|]. unfold b_inter. cbn [b_is_empty is_empty map2]. cbn zeta. assert (HI : In x (inter (Itv gl gh) (Itv (Some (hat - Rabs be * d)) (Some (hat + Rabs be * d))))) by (apply In_inter; split; auto).
      assert (SI : sub (inter (Itv gl gh) (Itv (Some (hat - Rabs be * d)) (Some (hat + Rabs be * d)))) (Itv (Some (hat - Rabs be * d)) (Some (hat + Rabs be * d)))) by apply sub_inter_r.
      assert (WI := wf_inter (Itv gl gh) (Itv (Some (hat - Rabs be * d)) (Some (hat + Rabs be * d)))). assert (BI : bdd (inter (Itv gl gh) (Itv (Some (hat - Rabs be * d)) (Some (hat + Rabs be * d))))).
      { destruct gl, gh; cbn; unfold mk; destruct (Rle_dec _ _); cbn; auto. }
      destruct (inter _ _) as [|[p|] [q|]]; cbn in BI; try tauto. cbn in HI, WI. exists p, q. split; [lra|]. assert (Y1 := SI p ltac:(cbn; lra)). assert (Y2 := SI q ltac:(cbn; lra)). cbn in Y1, Y2. split; [lra|]. cbn. rewrite Hh by auto. auto. }
    rewrite EM. cbn. constructor; [|constructor]. cbn.
    assert (AB : Rabs be * Rabs bi = 1) by (rewrite <- Rabs_mult, EB; apply Rabs_R1). assert (AX : Rabs (x + -1 * ((p + q) / 2)) <= Rabs be * d) by (apply Rabs_le; lra).
    assert (AY : Rabs (bi * (x + -1 * ((p + q) / 2)) + 0) <= d).
    { rewrite Rplus_0_r, Rabs_mult. apply Rle_trans with (Rabs bi * (Rabs be * d)); [apply Rmult_le_compat_l; [apply Rabs_pos|auto]|]. replace (Rabs bi * (Rabs be * d)) with (Rabs be * Rabs bi * d) by ring. rewrite AB. lra. }
    assert (A1 := Rle_abs (bi * (x + -1 * ((p + q) / 2)) + 0)). assert (A2 := Rle_abs (- (bi * (x + -1 * ((p + q) / 2)) + 0))). rewrite Rabs_Ropp in A2. lra.
  Qed.
  (** ** The loop over the slices *)
  Variables (a b : R) (D : list (R * R)) (fs : list (R -> R)).
  Hypothesis Ln : length fs = n.
  Hypothesis HS : flow phi 1 a b fs.
  (** the ranks [ks] are those of neighbouring slices, from the instant [t] *)
  Fixpoint route (fwd : bool) (ks : list nat) (t : R) : Prop :=
    match ks with
    | [] => True
    | k :: ks => exists l u, nth_error D k = Some (l, u) /\ t = (if fwd then l else u) /\ Forall (fun j => if fwd then (k < j)%nat else (j < k)%nat) ks /\ route fwd ks (if fwd then u else l)
    end.
  Fixpoint stop (fwd : bool) (ks : list nat) (t : R) : R :=
    match ks with [] => t | k :: ks => stop fwd ks (match nth_error D k with Some (l, u) => if fwd then u else l | None => t end) end.
  (** the gates to come do not cut anything *)
  Definition free (fwd : bool) (ks : list nat) (xs : list tube) : Prop :=
    forall k x q, List.In k ks -> List.In x xs -> nth_error x k = Some q -> out_gate fwd q = ALL.
  Lemma flow_sub l u : a <= l -> u <= b -> flow phi 1 l u fs.
  Proof.
    intros H1 H2. destruct HS as (gs & G1 & G2). exists gs. split; [|intros t Ht; apply G2; lra]. clear - G1 H1 H2. induction G1 as [|f g ? ? (Hc & Hd)]; constructor; auto. split; intros t Ht; [apply Hc; lra|apply Hd; lra].
  Qed.
  Lemma on_comps_in (f : itv -> tube -> tube) es xs x : List.In x (on_comps f es xs) -> exists x0, List.In x0 xs /\ (x = x0 \/ exists e, x = f e x0).
  Proof.
    revert es. induction xs as [|x0 xs IH]; intros [|e es]; cbn; try tauto; try (intros [<-|H]; eauto; fail). intros [<-|H]; [exists x0; eauto|]. destruct (IH es H) as (y & Y1 & Y2). exists y. auto.
  Qed.
  Lemma free_step fwd k ks y xs : Forall (fun j => if fwd : bool then (k < j)%nat else (j < k)%nat) ks -> free fwd (k :: ks) xs -> free fwd ks (put_env k y xs).
  Proof.
    intros HK HF j x q Hj Hx Hn. destruct (on_comps_in _ _ _ _ Hx) as (x0 & H0 & HX). assert (G : forall q0, nth_error x0 j = Some q0 -> out_gate fwd q0 = ALL) by (intros q0 H; apply (HF j x0 q0); auto; right; auto).
    destruct HX as [->|(e & ->)]; [apply G; auto|]. rewrite Forall_forall in HK. specialize (HK j Hj). destruct (nth_error x0 k) as [s0|] eqn:E0.
    2:{ unfold set_envelope in Hn. rewrite E0 in Hn. apply G; auto. }
    rewrite (set_envelope_nth k e x0 s0 j E0) in Hn. destruct (Nat.eqb_spec j k); [destruct fwd; lia|]. destruct (Nat.eqb_spec (Datatypes.S j) k).
    - destruct fwd; [lia|]. destruct (nth_error x0 j) as [q0|]; [|discriminate]. injection Hn as <-. cbn. apply (G q0). auto.
    - destruct (Nat.eqb_spec j (Datatypes.S k)); [|apply G; auto]. destruct fwd; [|lia]. destruct (nth_error x0 j) as [q0|]; [|discriminate]. injection Hn as <-. cbn. apply (G q0). auto.
  Qed.
  Lemma slices_free fwd k ks xs : free fwd (k :: ks) xs -> Forall (fun i => i = ALL) (map (out_gate fwd) (slices_at k xs)).
  Proof.
    intros H. unfold slices_at. assert (G : forall x q, List.In x xs -> nth_error x k = Some q -> out_gate fwd q = ALL) by (intros; eapply H; eauto; left; auto). clear - G.
    induction xs as [|x xs IH]; cbn; [constructor|]. rewrite map_app. apply Forall_app. split; [|apply IH; intros; eapply G; eauto; right; auto].
    destruct (nth_error x k) eqn:E; cbn; constructor; [|constructor]. eapply G; eauto. left; auto.
  Qed.
  Lemma slices_ok fwd ks : forall s xs out t s' ys out', route fwd ks t -> Forall2 (sinv a b D) xs fs -> knows n s (vals fs t) -> shape s -> (n = 1%nat \/ free fwd ks xs) ->
    lo_slices exact bmid qr inv F J c eps fwd ks s xs out = Some (s', ys, out') ->
    Forall2 (sinv a b D) ys fs /\ knows n s' (vals fs (stop fwd ks t)) /\ shape s' /\ (ks = [] -> out' = out) /\ (ks <> [] -> Forall wf out' /\ inb (vals fs (stop fwd ks t)) out').
  Proof.
    induction ks as [|k ks IH]; intros s xs out t s' ys out' HR HX HK HSh HG; cbn [lo_slices stop].
    { intros E. injection E as <- <- <-. split; auto. split; auto. split; auto. split; auto. congruence. }
    destruct HR as (l & u & ED & -> & HO & HR). rewrite ED. assert (CS := cods a b fs D k xs l u HX ED). destruct (slices_at k xs) as [|q qs] eqn:EQ; [discriminate|]. rewrite <- EQ in CS.
    assert (s_lb q = l /\ s_ub q = u /\ a <= l /\ l < u /\ u <= b) as (L0 & U0 & B1 & B2 & B3) by (rewrite EQ in CS; inversion CS as [|? f ? fs' (_ & _ & H) _]; subst; exact H).
    rewrite L0, U0. destruct (integrate _ _ _ _ _ _ _ _ _ _ _) as [s1|] eqn:EI; [|discriminate]. cbn zeta. rewrite <- EQ. set (g := map (out_gate fwd) (slices_at k xs)).
    assert (FS : full s1) by (eapply integrate_shape; eauto).
    assert (K1 : knows n s1 (vals fs (if fwd then u else l)) /\ Forall wf (lo_ut s1) /\ forall w, l <= w <= u -> inb (vals fs w) (lo_ut s1)).
    { destruct fwd.
      - apply (integrate_ok exact exact_ok n phi dphi F J HP HE eps bmid qr inv Hm Hq Hp true l u fs s s1 c); auto. apply flow_sub; auto.
      - assert (FL := flow_rev _ _ _ _ _ (flow_sub l u B1 B3)).
        destruct (integrate_ok exact exact_ok n phi dphi F J HP HE eps bmid qr inv Hm Hq Hp false l u (map (fun f s => f (l + u - s)) fs) s s1 c) as (Q1 & Q2 & Q3); auto.
        + rewrite map_length. auto.
        + rewrite vals_rev. replace (l + u - l) with u by lra. auto.
        + rewrite vals_rev in Q1. replace (l + u - u) with l in Q1 by lra. split; auto. split; auto. intros w Hw. specialize (Q3 (l + u - w) ltac:(lra)). rewrite vals_rev in Q3. replace (l + u - (l + u - w)) with w in Q3 by lra. auto. }
    destruct K1 as (K1 & W1 & T1).
    assert (Lg : length g = n) by (unfold g; rewrite map_length, (F2_len_ CS); auto).
    assert (Wg : Forall wf g) by (unfold g; clear - CS; induction CS as [|s f ? ? ((_ & W1 & W2 & _) & _)]; cbn; constructor; auto; destruct fwd; auto).
    assert (Hg : inb (vals fs (if fwd then u else l)) g).
    { unfold g. clear - CS. induction CS as [|s f ? ? (_ & (I1 & I2 & _) & <- & <- & _)]; cbn; constructor; auto. destruct fwd; auto. }
    assert (K2 : knows n (contract_step exact bmid g s1) (vals fs (if fwd then u else l))).
    { destruct HG as [N|HG]; [apply dim1_ok; auto|]. apply uncut_ok; auto. eapply slices_free; eauto. }
    assert (S2 : shape (contract_step exact bmid g s1)) by (eapply contract_shape; eauto; apply FS).
    intros E. change (lo_ut (contract_step exact bmid g s1)) with (lo_ut s1) in E.
    assert (HX2 : Forall2 (sinv a b D) (put_env k (map2 inter (cod_k k xs) (lo_ut s1)) xs) fs).
    { eapply put_env_sound; eauto. apply (map2_F2 (fun i f => forall t, l <= t <= u -> In (f t) i) (fun i f => forall t, l <= t <= u -> In (f t) i)).
      + intros i j f0 Hi Hj. split; [apply wf_inter|]. intros t Ht. apply In_inter; split; auto.
      + apply (F2_all (fun t => l <= t <= u) l); [lra|]. intros t Ht. eapply cod_vals; eauto.
      + apply (F2_all (fun t => l <= t <= u) l); [lra|]. intros t Ht. apply (T1 t Ht). }
    assert (HG2 : n = 1%nat \/ free fwd ks (put_env k (map2 inter (cod_k k xs) (lo_ut s1)) xs)) by (destruct HG as [N|HG]; [left; auto|right; eapply free_step; eauto]).
    destruct (IH _ _ _ _ _ _ _ HR HX2 K2 S2 HG2 E) as (Y1 & Y2 & Y3 & Y4 & Y5).
    split; auto. split; auto. split; auto. split; [discriminate|]. intros _. destruct ks as [|k' ks']; [|apply Y5; discriminate]. rewrite (Y4 eq_refl). cbn [stop]. auto.
  Qed.
  (** the first state *)
  Lemma init_ok g x : Forall wf g -> Forall bdd g -> inb x g -> length x = n -> knows n (lo_init exact bmid n g) x /\ shape (lo_init exact bmid n g).
  Proof.
    intros W B Hx Lx. assert (Hh' : inb (map bmid g) g) by (apply (mids_in bmid Hm); auto; eapply inb_ne; eauto). assert (Lh : length (map bmid g) = n) by (rewrite map_length, <- (F2_len_ Hx); auto).
    assert (IN : forall p, inb p g -> length p = n -> inb (vsub p (map bmid g)) (b_sub exact g (map pt (map bmid g)))) by (intros p Hp' Lp; apply (b_sub_in exact exact_ok); auto; [lia|apply pt_in]).
    split.
    - unfold lo_init. constructor; cbn [lo_u lo_r lo_hat lo_B lo_Binv]; auto.
      + rewrite <- (F2_len_ (IN x Hx Lx)), vsub_len; lia.
      + apply (b_sub_wf exact exact_ok); auto. apply ptv_wf.
      + assert (X := IN _ Hh' Lh). rewrite vsub_self, Lh in X. auto.
      + apply eye_square.
      + apply eye_square.
      + intros v Lv. rewrite (eye_id n v Lv). apply (eye_id n v Lv).
      + intros v Lv. rewrite (eye_id n v Lv). apply (eye_id n v Lv).
      + exists (vsub x (map bmid g)). split; [apply IN; auto|]. rewrite eye_id by (rewrite vsub_len; lia). assert (LL : length x = length (map bmid g)) by lia. revert LL. generalize x (map bmid g). clear. induction x as [|p x IH]; intros [|q y] L; try discriminate; cbn; auto. f_equal; [lra|apply IH; auto].
    - split; cbn [lo_u lo_r lo_init]; auto. apply symb_mid; auto.
  Qed.
  Lemma nth_dom x k : map dom x = D -> nth_error D k = option_map dom (nth_error x k).
  Proof. intros <-. apply nth_error_map. Qed.
  Lemma route_fwd x : tube_ok a b x -> map dom x = D -> forall m j s, nth_error x j = Some s -> (j + m = length x)%nat -> route true (seq j m) (s_lb s) /\ stop true (seq j m) (s_lb s) = (if Nat.eqb m 0 then s_lb s else b).
  Proof.
    intros O HX. induction m as [|m IH]; intros j s E L; [cbn; auto|]. cbn [seq route stop]. assert (EN := nth_dom x j HX). rewrite E in EN. cbn in EN. rewrite EN. cbn [Nat.eqb].
    assert (FF : Forall (fun j0 => (j < j0)%nat) (seq (Datatypes.S j) m)) by (apply Forall_forall; intros i Hi; apply in_seq in Hi; lia).
    destruct (nth_error x (Datatypes.S j)) as [s2|] eqn:E2.
    - assert (C := chain_from_nth x a b j s s2 (ok_chain _ _ _ O) E E2). destruct m as [|m]; [apply nth_error_Some in L; [lia|congruence]||(assert (nth_error x (Datatypes.S j) <> None) by congruence; apply nth_error_Some in H; lia)|].
      destruct (IH (Datatypes.S j) s2 E2 ltac:(lia)) as (R1 & R2). split; [exists (s_lb s), (s_ub s); split; [reflexivity|]; split; auto; split; auto; rewrite C; auto|]. unfold dom at 1. cbv iota beta. rewrite C, R2. auto.
    - apply nth_error_None in E2. destruct m as [|m]; [|lia]. cbn. split; [exists (s_lb s), (s_ub s); auto|].
      clear - E L O. assert (tf x = b) by (eapply chain_tf; apply O). rewrite <- H. clear - E L. revert j E L. induction x as [|q x IH]; intros [|j] E L; cbn in *; try discriminate.
      + injection E as ->. destruct x; [reflexivity|cbn in L; lia].
      + destruct x as [|q2 x]; [destruct j; discriminate|]. rewrite (IH j); auto; lia.
  Qed.
  Lemma last_nth (x : tube) : x <> [] -> exists s, nth_error x (length x - 1) = Some s /\ s_ub s = tf x.
  Proof.
    intros Hx. induction x as [|s x IH]; [congruence|]. destruct x as [|q x]; [exists s; auto|]. destruct IH as (s' & E1 & E2); [discriminate|]. exists s'. rewrite tf_cons by discriminate. split; auto. cbn [length] in *. rewrite Nat.sub_succ, Nat.sub_0_r in *. exact E1.
  Qed.
  Lemma route_bwd x : tube_ok a b x -> map dom x = D -> forall m s, nth_error x m = Some s -> route false (rev (seq 0 (Datatypes.S m))) (s_ub s) /\ stop false (rev (seq 0 (Datatypes.S m))) (s_ub s) = a.
  Proof.
    intros O HX. induction m as [|m IH]; intros s E.
    - cbn [seq rev app route stop]. assert (EN := nth_dom x 0 HX). rewrite E in EN. cbn [option_map] in EN. rewrite EN. split; [exists (s_lb s), (s_ub s); auto|]. unfold dom. destruct x as [|q x]; [discriminate|]. cbn in E. injection E as ->. destruct (ok_chain _ _ _ O) as (H & _). auto.
    - rewrite seq_S, rev_app_distr. cbn [rev app Nat.add route stop]. assert (EN := nth_dom x (Datatypes.S m) HX). rewrite E in EN. cbn [option_map] in EN. rewrite EN.
      destruct (nth_error x m) as [s0|] eqn:E0; [|apply nth_error_None in E0; assert (nth_error x (Datatypes.S m) <> None) as H by congruence; apply nth_error_Some in H; lia].
      assert (C := chain_from_nth x a b m s0 s (ok_chain _ _ _ O) E0 E). destruct (IH s0 eq_refl) as (R1 & R2). unfold dom at 2. cbv iota beta. rewrite <- C. split; auto. exists (s_lb s), (s_ub s). split; [reflexivity|]. split; auto. rewrite <- C. split; auto.
      apply Forall_forall. intros j Hj. apply in_rev, in_seq in Hj. lia.
  Qed.
  Lemma bdd_sub_of i j : sub i j -> bdd j -> bdd i.
  Proof.
    intros H B. destruct i as [|[p|] [q|]]; cbn; auto; destruct j as [|[r|] [s|]]; cbn in B; try tauto.
    - exact (H p (conj (Rle_refl p) Logic.I)).
    - assert (X := H (Rmax p (s + 1)) (conj (Rmax_l _ _) Logic.I)). cbn in X. destruct X as (_ & X). assert (Y := Rmax_r p (s + 1)). lra.
    - exact (H q (conj Logic.I (Rle_refl q))).
    - assert (X := H (Rmin q (r - 1)) (conj Logic.I (Rmin_l _ _))). cbn in X. destruct X as (X & _). assert (Y := Rmin_r q (r - 1)). lra.
    - exact (H 0 (conj Logic.I Logic.I)).
    - assert (X := H (r - 1) (conj Logic.I Logic.I)). cbn in X. destruct X as (X & _). lra.
  Qed.
  Lemma b_inter_bdd x y p : inb p x -> Forall bdd y -> Forall bdd (b_inter x y).
  Proof.
    intros Hx B. unfold b_inter. destruct (b_is_empty x) eqn:Eg; [apply inb_empty in Hx; congruence|]. destruct (b_is_empty y); [apply F_emp; cbn; auto|]. cbn zeta. destruct (existsb _ _); [apply F_emp; cbn; auto|]. apply (map2_F (fun _ => True) bdd bdd); auto.
    - intros i j _ Hj. apply (bdd_sub_of _ j); auto. intros w Hw. apply In_inter in Hw. tauto.
    - clear. induction x; constructor; auto.
  Qed.
  (** the ranks of a loop, and the gate it starts from *)
  Definition ranks (fwd : bool) (nb : nat) : list nat := if fwd then seq 0 nb else rev (seq 0 nb).
  Definition start_gate (fwd : bool) (nb : nat) (xs : list tube) : box := if fwd then map s_in (slices_at 0 xs) else map s_out (slices_at (nb - 1) xs).
  Lemma gate_last ys gs D' : Forall2 (fun y f0 => sinv a b D' y f0 /\ bdd (eval_t y b)) ys gs -> Forall bdd (start_gate false (length D') ys).
  Proof.
    unfold start_gate. intros H.
    unfold slices_at. induction H as [|y g ? ? ((O & HD & HH) & Hb)]; cbn; [constructor|]. rewrite map_app. apply Forall_app. split; auto. assert (length D' = length y) as -> by (rewrite <- HD; apply map_length).
    destruct (last_nth y (ok_ne _ _ _ O)) as (s & E & U). rewrite E. constructor; [|constructor]. assert (TY : tf y = b) by (eapply chain_tf; apply O).
    assert (IN : List.In s y) by (eapply nth_error_In; eauto). destruct (chain_in_bounds _ _ _ _ (ok_chain _ _ _ O) IN) as (G1 & G2 & G3).
    rewrite (eval_t_slice a b y _ s b O E) in Hb by lra. rewrite TY in U. rewrite <- U in Hb. rewrite slice_eval_ub in Hb by lra. auto.
  Qed.
  Lemma dir_ok fwd xs ys : fs <> [] -> Forall2 (sinv a b D) xs fs ->
    Forall bdd (start_gate fwd (length D) xs) -> (n = 1%nat \/ free fwd (ranks fwd (length D)) xs) ->
    lohner_dir exact bmid qr inv F J c eps fwd xs = Some ys ->
    exists D', Forall2 (sinv a b D') ys fs /\ (fwd = true -> Forall bdd (start_gate false (length D') ys)).
  Proof.
    intros NE HX HB HG. assert (XX : exists x xs' f, xs = x :: xs' /\ sinv a b D x f) by (revert NE; destruct HX as [|x f]; [congruence|]; eauto). destruct XX as (x & xs' & f & EX & Hx).
    unfold lohner_dir. rewrite EX at 1. cbv beta iota. assert (LD : length D = length x) by (destruct Hx as (_ & <- & _); apply map_length). rewrite <- LD.
    assert (Ox := proj1 Hx). assert (Nx : x <> []) by apply Ox. assert (L0 : (length x <> 0)%nat) by (destruct x; cbn; congruence).
    assert (TF : tf x = b) by (eapply chain_tf; apply Ox). assert (T0 : t0 x = a) by (eapply chain_t0; apply Ox).
    assert (AB : a < b) by (destruct x as [|s x]; [congruence|]; destruct (sinv_nth a b D 0 (s :: x) f (s_lb s) (s_ub s)) as (q & _ & _ & _ & _ & _ & ? & ? & ?); auto; [rewrite (nth_dom _ _ (proj1 (proj2 Hx))); auto|lra]).
    fold (ranks fwd (length D)) (start_gate fwd (length D) xs).
    set (te := if fwd then b else a). set (ts := if fwd then a else b).
    assert (RT : route fwd (ranks fwd (length D)) ts /\ stop fwd (ranks fwd (length D)) ts = te).
    { unfold ranks, ts, te. rewrite LD. destruct fwd.
      - destruct x as [|s x]; [congruence|]. assert (EA : s_lb s = a) by (destruct (ok_chain _ _ _ Ox); auto). rewrite <- EA. destruct (route_fwd _ Ox (proj1 (proj2 Hx)) (length (s :: x)) 0%nat s eq_refl eq_refl) as (R1 & R2). split; auto.
      - destruct (last_nth x Nx) as (s & E & U). rewrite TF in U. rewrite <- U. destruct (route_bwd x Ox (proj1 (proj2 Hx)) _ s E) as (R1 & R2). replace (Datatypes.S (length x - 1)) with (length x) in * by lia. auto. }
    destruct RT as (RT & ST).
    assert (KE : exists k l u, nth_error D k = Some (l, u) /\ ts = (if fwd then l else u) /\ start_gate fwd (length D) xs = map (fun s => if fwd then s_in s else s_out s) (slices_at k xs)).
    { unfold start_gate, ts. destruct fwd.
      - destruct x as [|s x]; [congruence|]. exists 0%nat, (s_lb s), (s_ub s). rewrite (nth_dom _ _ (proj1 (proj2 Hx))). split; [reflexivity|]. split; [symmetry; apply (ok_chain _ _ _ Ox)|reflexivity].
      - destruct (last_nth x Nx) as (s & E & U). exists (length D - 1)%nat, (s_lb s), (s_ub s). rewrite (nth_dom _ _ (proj1 (proj2 Hx))), LD, E. split; auto. split; auto. congruence. }
    destruct KE as (k & l & u & ED & ET & EG). assert (CS := cods a b fs D k xs l u HX ED).
    assert (W0 : Forall wf (start_gate fwd (length D) xs)) by (rewrite EG; clear - CS; induction CS as [|s g ? ? ((_ & W1 & W2 & _) & _)]; cbn; constructor; auto; destruct fwd; auto).
    assert (I0 : inb (vals fs ts) (start_gate fwd (length D) xs)) by (rewrite EG, ET; clear - CS; induction CS as [|s g ? ? (_ & (I1 & I2 & _) & <- & <- & _)]; cbn; constructor; auto; destruct fwd; auto).
    assert (LX : length xs = n) by (rewrite (F2_len_ HX); auto).
    destruct (init_ok _ (vals fs ts) W0 HB I0) as (K0 & S0); [rewrite vals_len; auto|]. rewrite LX.
    destruct (lo_slices _ _ _ _ _ _ _ _ _ _ _ _ _) as [((s1 & zs) & out)|] eqn:EL; [|discriminate]. intros E. injection E as <-. rewrite TF, T0. fold te.
    destruct (slices_ok fwd (ranks fwd (length D)) _ _ _ ts _ _ _ RT HX K0 S0 HG EL) as (Y1 & Y2 & Y3 & _ & Y5). rewrite ST in Y2, Y5.
    destruct Y5 as (Y5 & Y6); [unfold ranks; rewrite LD; destruct (length x); [congruence|]; destruct fwd; [discriminate|]; rewrite seq_S, rev_app_distr; discriminate|].
    assert (TE : a <= te <= b) by (unfold te; destruct fwd; lra).
    assert (G1 : inb (vals fs te) (b_inter out (lo_u s1))) by (apply b_inter_in; [exact Y6|apply (kn_u _ _ _ Y2)]).
    assert (W1 : Forall wf (b_inter out (lo_u s1))) by (apply b_inter_wf; auto; apply (kn_wf _ _ _ Y2)).
    assert (B1 : Forall bdd (b_inter out (lo_u s1))) by (apply b_inter_bdd with (vals fs te); auto; apply Y3).
    assert (ZZ : exists z zs', zs = z :: zs' /\ map dom z = D) by (revert NE; destruct Y1 as [|z ? ? ? (_ & H & _)]; [congruence|]; eauto). destruct ZZ as (z & zs' & -> & Dz).
    assert (GQ : Forall2 (fun e (f0 : R -> R) => (wf e /\ bdd e) /\ In (f0 te) e) (b_inter out (lo_u s1)) fs).
    { apply F2_vals in G1. clear - G1 W1 B1. revert W1 B1. induction G1; intros W B; inversion W; inversion B; subst; constructor; auto. }
    assert (FIN : Forall2 (fun y f0 => sinv a b (map dom (sample te z)) y f0 /\ bdd (eval_t y te)) (on_comps (fun g y => tube_set_at g te y) (b_inter out (lo_u s1)) (z :: zs')) fs).
    { apply (on_comps_F2 (sinv a b D) _ (fun e (f0 : R -> R) => (wf e /\ bdd e) /\ In (f0 te) e)); auto. intros y e f0 (Q1 & Q2 & Q3) ((Q4 & Q5) & Q6).
      split; [split; [apply sample_gate_ok; auto|split; [rewrite tube_set_at_dom; apply sample_dom; congruence|apply (set_at_has a b); auto]]|].
      destruct (set_at_eval a b y e te Q1 Q4 TE) as (SB & _). eapply bdd_sub_of; eauto. }
    exists (map dom (sample te z)). split.
    - clear - FIN. induction FIN as [|? ? ? ? (H & _)]; constructor; auto.
    - intros ->. exact (gate_last _ _ _ FIN).
  Qed.
End Exact.

(** ** The whole contractor *)
Lemma sol_flow phi a b fs : solution a b (fun _ => phi) fs -> flow phi 1 a b fs.
Proof. intros (gs & H1 & H2). exists gs. split; auto. intros t Ht. rewrite vscal_1. auto. Qed.
Lemma gate_first a b D ys gs : Forall2 (sinv a b D) ys gs -> Forall (fun y => bdd (eval_t y a)) ys -> forall bD, Forall bdd (start_gate true bD ys).
Proof.
  intros H HB m. unfold start_gate, slices_at. induction H as [|y g ys gs (O & _) _ IH]; cbn; [constructor|]. inversion HB as [|? ? Hb HB']; subst. rewrite map_app. apply Forall_app. split; auto.
  destruct y as [|s y]; cbn; [constructor|]. constructor; [|constructor]. assert (EA : s_lb s = a) by apply (ok_chain _ _ _ O). assert (LT := proj2 (chain_in_bounds _ _ _ s (ok_chain _ _ _ O) (or_introl eq_refl))).
  rewrite (eval_t_slice a b (s :: y) 0 s a O eq_refl) in Hb by lra. rewrite <- EA in Hb. rewrite slice_eval_lb in Hb by lra. auto.
Qed.
(** In dimension 1, with exact arithmetic, a function evaluated exactly at points and at least one iteration, the
    contractor keeps the solutions of the equation contained in the tube, in any directions. *)
Theorem C94_dim1_partial : forall phi dphi F J eps bmid qr inv c a b x f x' fwd bwd,
  field 1 phi dphi -> enclosing 1 phi dphi F J -> mid_in bmid -> mid_half bmid -> inverses 1 qr inv -> exact_at_points 1 bmid F phi -> tame F J -> (1 <= c)%nat ->
  tube_ok a b x -> has x f -> solution a b (fun _ => phi) [f] ->
  (fwd = true -> bdd (eval_t x a)) -> (fwd = false -> bdd (eval_t x b)) ->
  ctc_lohner_tube exact bmid qr inv F J c eps fwd bwd x = Some x' -> tube_ok a b x' /\ has x' f.
Proof.
  intros phi dphi F J eps bmid qr inv c a b x f x' fwd bwd HP HE Hm Hh Hq Hp HT Hc HO HH HS B1 B2. apply sol_flow in HS.
  assert (H0 : Forall2 (sinv a b (map dom x)) [x] [f]) by (constructor; [split; auto|constructor]).
  unfold ctc_lohner_tube, ctc_lohner. intros E.
  assert (HF : forall ys, (if fwd then lohner_dir exact bmid qr inv F J c eps true [x] else Some [x]) = Some ys -> exists D', Forall2 (sinv a b D') ys [f] /\ Forall bdd (start_gate false (length D') ys)).
  { destruct fwd.
    - intros ys EY. destruct (dir_ok 1 phi dphi F J eps bmid qr inv c HP HE Hm Hh Hq Hp HT Hc a b (map dom x) [f] eq_refl HS true [x] ys) as (D' & Q1 & Q2); auto; [discriminate|eapply gate_first; eauto|eauto].
    - intros ys EY. injection EY as <-. exists (map dom x). split; auto. eapply gate_last. constructor; [split; [split; eauto|auto]|constructor]. }
  destruct (if fwd then _ else _) as [ys|]; [|discriminate]. destruct (HF ys eq_refl) as (D' & Q1 & Q2).
  assert (FIN : forall zs z zs', zs = z :: zs' -> (exists D2, Forall2 (sinv a b D2) zs [f]) -> tube_ok a b z /\ has z f).
  { intros zs z zs' -> (D2 & H). inversion H as [|? ? ? ? (P1 & _ & P2)]; subst. auto. }
  destruct bwd.
  - destruct (lohner_dir _ _ _ _ _ _ _ _ _ ys) as [zs|] eqn:EZ; [|discriminate]. destruct zs as [|z zs']; [discriminate|]. injection E as <-.
    destruct (dir_ok 1 phi dphi F J eps bmid qr inv c HP HE Hm Hh Hq Hp HT Hc a b D' [f] eq_refl HS false ys (z :: zs')) as (D2 & Q3 & _); auto; [discriminate|]. eapply FIN; eauto.
  - destruct ys as [|z zs']; [discriminate|]. injection E as <-. eapply FIN; eauto.
Qed.
(** In any dimension, in one direction, when the gates after the first one are not constrained. *)
Theorem C94_uncut_partial : forall n phi dphi F J eps bmid qr inv c a b D xs fs xs' (fwd : bool),
  field n phi dphi -> enclosing n phi dphi F J -> mid_in bmid -> mid_half bmid -> inverses n qr inv -> exact_at_points n bmid F phi -> tame F J -> (1 <= c)%nat -> (1 <= n)%nat -> length fs = n ->
  Forall (fun x => tube_ok a b x /\ map dom x = D) xs -> Forall2 has xs fs -> solution a b (fun _ => phi) fs ->
  Forall (fun x => bdd (eval_t x (if fwd then a else b))) xs ->
  Forall (Forall (fun s => (if fwd then s_out s else s_in s) = ALL)) xs ->
  ctc_lohner exact bmid qr inv F J c eps fwd (negb fwd) xs = Some xs' -> Forall (tube_ok a b) xs' /\ Forall2 has xs' fs.
Proof.
  intros n phi dphi F J eps bmid qr inv c a b D xs fs xs' fwd HP HE Hm Hh Hq Hp HT Hc Hn Hl HX HH HS HB HU. apply sol_flow in HS.
  assert (H0 : Forall2 (sinv a b D) xs fs) by (clear - HX HH; revert HX; induction HH; intros HX; inversion HX as [|? ? (P1 & P2) P3]; subst; constructor; auto; split; auto).
  assert (EL : ctc_lohner exact bmid qr inv F J c eps fwd (negb fwd) xs = lohner_dir exact bmid qr inv F J c eps fwd xs) by (unfold ctc_lohner; destruct fwd; cbn; [destruct (lohner_dir _ _ _ _ _ _ _ _ _ xs)|]; auto).
  rewrite EL. intros E. destruct (dir_ok n phi dphi F J eps bmid qr inv c HP HE Hm Hh Hq Hp HT Hc a b D fs Hl HS fwd xs xs') as (D' & Q1 & _); auto.
  - intros ->. cbn in Hl. lia.
  - destruct fwd; [eapply gate_first; eauto|]. apply (gate_last a b xs fs D). clear - H0 HB. cbv iota in HB. revert HB. induction H0 as [|y g ys gs Hy _ IH]; intros HB; inversion HB; subst; constructor; auto.
  - right. intros k x q _ Hx Hk. rewrite Forall_forall in HU. specialize (HU x Hx). rewrite Forall_forall in HU. apply (HU q). eapply nth_error_In; eauto.
  - clear - Q1. induction Q1 as [|? ? ? ? (P1 & _ & P2) _ (I1 & I2)]; split; constructor; auto.
Qed.
