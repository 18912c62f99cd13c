(** * One step of [CtcLohner]: global enclosure, Taylor-Lagrange remainder, local enclosure *)
From Coq Require Import Reals Lra Bool List Arith Lia.
From Verif Require Import Itv Arith Tube TubeSpec TubeFacts TubeOps TubeOpsFacts TubeOpsFacts2 TubeQueries TubeQueries2 TubeCtc DynSpec Paving Static CtcDelay PropsDyn2 PropsStatic CtcEvalBody CtcEvalFacts CtcDerivFacts Picard PicardFacts PropsPicard PropsSivia PropsPaving3 Lohner LohnerFacts.
Import ListNotations.
Open Scope R_scope.

(** ** Specification *)
(** two vectors that differ of at most [e] *)
Definition near (e : R) (p q : list R) : Prop := Forall2 (fun a b => Rabs (a - b) <= e) p q.
(** a vector whose components are at most [K] *)
Definition within (K : R) (p : list R) : Prop := Forall (fun v => Rabs v <= K) p.
(** [phi] is a differentiable vector field of dimension [n], of Jacobian matrix [dphi]: the chain rule holds along
    every differentiable curve, and [phi] is Lipschitz on bounded sets *)
Record field (n : nat) (phi : list R -> list R) (dphi : list R -> rmat) : Prop := {
  fd_len : forall p, length p = n -> length (phi p) = n;
  fd_sq : forall p, length p = n -> square n (dphi p);
  fd_chain : forall fs ds t k, length fs = n -> Forall2 (fun f d => derivable_pt_lim f t d) fs ds -> (k < n)%nat ->
    derivable_pt_lim (fun s => nth k (phi (vals fs s)) 0) t (rdot (nth k (dphi (vals fs t)) []) ds);
  fd_lip : forall K, exists L, 0 <= L /\ forall p q e, length p = n -> length q = n -> within K p -> within K q -> near e p q -> near (L * e) (phi p) (phi q)
}.
(** [F] and [J] enclose [phi] and [dphi] *)
Record enclosing (n : nat) (phi : list R -> list R) (dphi : list R -> rmat) (F : box -> box) (J : box -> imat) : Prop := {
  en_in : forall p X, length p = n -> inb p X -> inb (phi p) (F X);
  en_jac : forall p X, length p = n -> inb p X -> inm (dphi p) (J X);
  en_wf : forall X, Forall wf (F X);
  en_jwf : forall X, Forall (Forall wf) (J X)
}.
(** [y' = sg * phi(y)] over [l,u] *)
Definition flow (phi : list R -> list R) (sg l u : R) (ys : list (R -> R)) : Prop :=
  exists gs, Forall2 (derivative_on l u) ys gs /\ forall t, l < t < u -> vals gs t = vscal sg (phi (vals ys t)).

(** ** Curves *)
Lemma vals_len fs t : length (vals fs t) = length fs. Proof. apply map_length. Qed.
Lemma vals_nth fs t k : nth k (vals fs t) 0 = nth k fs (fun _ => 0) t.
Proof. exact (map_nth (fun f : R -> R => f t) fs (fun _ => 0) k). Qed.
Lemma near_cont fs s : Forall (fun f => continuity_pt f s) fs -> forall e, 0 < e -> exists d, 0 < d /\ forall u, Rabs (u - s) < d -> near e (vals fs u) (vals fs s).
Proof.
  intros H e He. induction H as [|f fs Hf H IH]; [exists 1; split; [lra|]; intros; constructor|]. destruct IH as (d1 & D1 & K1). destruct (Hf e He) as (d2 & D2 & K2).
  exists (Rmin d1 d2). split; [apply Rmin_glb_lt; auto|]. intros u Hu. constructor; [|apply K1; eapply Rlt_le_trans; [exact Hu|apply Rmin_l]].
  destruct (Req_dec u s) as [->|N]; [replace (f s - f s) with 0 by lra; rewrite Rabs_R0; lra|]. left. apply (K2 u). split; [split; [exact Logic.I|auto]|]. eapply Rlt_le_trans; [exact Hu|apply Rmin_r].
Qed.
Lemma curve_bd l u fs : l <= u -> Forall (fun f => forall t, l <= t <= u -> continuity_pt f t) fs -> exists K, 0 <= K /\ forall t, l <= t <= u -> within K (vals fs t).
Proof.
  intros LU H. induction H as [|f fs Hf H IH]; [exists 0; split; [lra|constructor]|]. destruct IH as (K & K0 & HK).
  destruct (continuity_ab_maj f l u LU Hf) as (M & HM & _). destruct (continuity_ab_min f l u LU Hf) as (m & Hm & _).
  exists (Rmax K (Rmax (Rabs (f M)) (Rabs (f m)))). split; [eapply Rle_trans; [exact K0|apply Rmax_l]|]. intros t Ht. constructor.
  - apply Rle_trans with (Rmax (Rabs (f M)) (Rabs (f m))); [|apply Rmax_r]. specialize (HM t Ht). specialize (Hm t Ht). apply Rabs_le. assert (A1 := Rmax_l (Rabs (f M)) (Rabs (f m))). assert (A2 := Rmax_r (Rabs (f M)) (Rabs (f m))).
    assert (A3 := Rle_abs (f M)). assert (A4 := Rle_abs (- f m)). rewrite Rabs_Ropp in A4. lra.
  - specialize (HK t Ht). eapply Forall_impl; [|exact HK]. intros v Hv. eapply Rle_trans; [exact Hv|apply Rmax_l].
Qed.
Lemma flow_cont phi sg l u ys : flow phi sg l u ys -> Forall (fun f => forall t, l <= t <= u -> continuity_pt f t) ys.
Proof. intros (gs & H & _). induction H as [|f g ? ? (Hc & _)]; constructor; auto. Qed.
Lemma near_within e K p q : near e p q -> within K p -> within (K + e) q.
Proof.
  induction 1 as [|a b p q H ? IH]; intros W; inversion W; subst; constructor; [|apply IH; auto]. replace b with (a + - (a - b)) by lra. eapply Rle_trans; [apply Rabs_triang|]. rewrite Rabs_Ropp. lra.
Qed.
Lemma within_mono K K' p : K <= K' -> within K p -> within K' p.
Proof. intros H. apply Forall_impl. intros. lra. Qed.
Lemma binf_out e E y : Forall wf E -> 0 <= e -> inb y (binf e E) -> exists q, inb q E /\ near e y q.
Proof.
  intros W E0. revert y. induction W as [|i E Wi W IH]; intros y H; inversion H; subst; [exists []; split; constructor|]. destruct (IH _ H4) as (q & Q1 & Q2).
  destruct (infl_out e i x Wi) as (y' & Y1 & Y2); auto; [intros ->; auto|]. exists (y' :: q). split; constructor; auto.
Qed.
Lemma binf_near e E y q : inb q E -> near e y q -> inb y (binf e E).
Proof. intros H. revert y. induction H; intros y0 N; inversion N; subst; constructor; [eapply infl_in; eauto|apply IHForall2; auto]. Qed.
Lemma list_within p : exists K, 0 <= K /\ within K p.
Proof.
  induction p as [|a p (K & K0 & H)]; [exists 0; split; [lra|constructor]|]. exists (Rmax K (Rabs a)). split; [eapply Rle_trans; [exact K0|apply Rmax_l]|]. constructor; [apply Rmax_r|]. eapply within_mono; [apply Rmax_l|auto].
Qed.
Lemma within_near K K' p q : length p = length q -> within K p -> within K' q -> near (K + K') p q.
Proof.
  revert q. induction p as [|a p IH]; intros [|b q] L Hp Hq; try discriminate; constructor; inversion Hp; inversion Hq; subst; [|apply IH; auto].
  unfold Rminus. eapply Rle_trans; [apply Rabs_triang|]. rewrite Rabs_Ropp. lra.
Qed.
Lemma firstn_S_nth {T} m (x : list T) d : (m < length x)%nat -> firstn (Datatypes.S m) x = firstn m x ++ [nth m x d].
Proof. revert m. induction x as [|a x IH]; intros [|m] H; cbn in *; try lia; auto. rewrite <- IH by lia. auto. Qed.
(** [sg * X] for [sg] = 1 or -1 *)
Definition sgn (fw : bool) : R := if fw then 1 else -1.
Definition sbox (fw : bool) (X : box) : box := if fw then X else map xneg X.
Lemma xneg_in v i : In v (xneg i) <-> In (- v) i.
Proof. destruct i as [|[a|] [b|]]; cbn; split; intros; intuition lra. Qed.
Lemma sbox_in fw v X : inb v (sbox fw X) <-> inb (vscal (sgn fw) v) X.
Proof.
  destruct fw; cbn.
  - replace (vscal 1 v) with v; [reflexivity|]. unfold vscal. rewrite <- (map_id v) at 1. apply map_ext. intros; lra.
  - revert v. induction X as [|i X IH]; intros [|a v]; cbn; split; intros H; try (constructor; fail); inversion H; subst; constructor; try (apply IH; auto).
    + replace (-1 * a) with (- a) by lra. apply xneg_in. auto.
    + apply xneg_in. replace (- a) with (-1 * a) by lra. auto.
Qed.
Lemma sgn_sq fw : sgn fw * sgn fw = 1. Proof. destruct fw; cbn; lra. Qed.
Lemma sgn_neg fw : - sgn fw = sgn (negb fw). Proof. destruct fw; cbn; lra. Qed.
Lemma sbox_wf fw X : Forall wf X -> Forall wf (sbox fw X).
Proof. destruct fw; cbn; auto. intros H. induction H; cbn; constructor; auto. destruct x as [|[a|] [b|]]; cbn in *; auto; lra. Qed.
Lemma sbox_len fw X : length (sbox fw X) = length X. Proof. destruct fw; cbn; auto. apply map_length. Qed.
Lemma inb_ne v X : inb v X -> Forall (fun i => i <> Emp) X.
Proof. induction 1; constructor; auto. intros ->. auto. Qed.
Lemma vscal_vscal a b v : vscal a (vscal b v) = vscal (a * b) v.
Proof. unfold vscal. rewrite map_map. apply map_ext. intros. lra. Qed.
Lemma vscal_1 v : vscal 1 v = v.
Proof. unfold vscal. rewrite <- (map_id v) at 2. apply map_ext. intros; lra. Qed.
Lemma near_sgn fw e p q : near e p q -> near e (vscal (sgn fw) p) (vscal (sgn fw) q).
Proof.
  induction 1 as [|a b p q H ? IH]; cbn; constructor; [|exact IH]. replace (sgn fw * a - sgn fw * b) with (sgn fw * (a - b)) by lra. rewrite Rabs_mult. replace (Rabs (sgn fw)) with 1; [lra|].
  destruct fw; cbn; [rewrite Rabs_R1; auto|]. rewrite Rabs_left; lra.
Qed.
Lemma flow_rev phi sg l u ys : flow phi sg l u ys -> flow phi (- sg) l u (map (fun f s => f (l + u - s)) ys).
Proof.
  intros (gs & H & E). exists (map (fun g s => - g (l + u - s)) gs). split.
  - clear E. induction H as [|f g ys gs (Hc & Hd) H IH]; cbn; constructor; auto. split.
    + intros t Ht. apply (continuity_pt_comp (fun s => l + u - s) f); [|apply Hc; lra]. apply derivable_continuous_pt. exists (0 - 1). apply derivable_pt_lim_minus; [apply derivable_pt_lim_const|apply derivable_pt_lim_id].
    + intros t Ht. replace (- g (l + u - t)) with (g (l + u - t) * (0 - 1)) by lra. apply (derivable_pt_lim_comp (fun s => l + u - s) f); [|apply Hd; lra]. apply derivable_pt_lim_minus; [apply derivable_pt_lim_const|apply derivable_pt_lim_id].
  - intros t Ht. unfold vals. rewrite !map_map. specialize (E (l + u - t) ltac:(lra)). unfold vals in E.
    transitivity (map Ropp (map (fun f : R -> R => f (l + u - t)) gs)); [rewrite map_map; auto|]. rewrite E. unfold vscal. rewrite !map_map. apply map_ext. intros; lra.
Qed.
Lemma vals_rev l u ys s : vals (map (fun f s => f (l + u - s)) ys) s = vals ys (l + u - s).
Proof. unfold vals. rewrite map_map. auto. Qed.

Lemma seg_0 p q : length p = length q -> vadd q (vscal 0 (vsub p q)) = q.
Proof. revert q. induction p as [|a p IH]; intros [|b q] L; try discriminate; cbn; auto. f_equal; [lra|]. apply IH. auto. Qed.
Lemma seg_1 p q : length p = length q -> vadd q (vscal 1 (vsub p q)) = p.
Proof. revert q. induction p as [|a p IH]; intros [|b q] L; try discriminate; cbn; auto. f_equal; [lra|]. apply IH. auto. Qed.
Section Step.
  Variable A : arith.
  Hypothesis HA : arith_ok A.
  Variables (n : nat) (phi : list R -> list R) (dphi : list R -> rmat) (F : box -> box) (J : box -> imat).
  Hypothesis HP : field n phi dphi.
  Hypothesis HE : enclosing n phi dphi F J.

  (** ** Global enclosure *)
  Lemma encl_ok fw l u ys guess E : l <= u -> length ys = n -> flow phi (sgn fw) l u ys -> Forall wf E -> (exists p, inb p E) -> length E = n ->
    inb (vals ys l) guess -> b_is_subset (b_add A guess (b_scal A (imul A (pt (sgn fw)) (bnd 0 (u - l))) (F E))) E = true -> forall w, l <= w <= u -> inb (vals ys w) E.
  Proof.
    intros LU LN HF WE (p & Hp) LE HG HS. destruct (curve_bd l u ys LU (flow_cont _ _ _ _ _ HF)) as (K & K0 & HK). destruct HF as (gs & Hfg & Hgs).
    assert (Lp : length p = n) by (rewrite (F2_len_ Hp); auto). destruct (list_within p) as (P & P0 & HPp). set (D := K + P).
    destruct (fd_lip _ _ _ HP (K + D)) as (L & L0 & HL). set (V := F E).
    assert (HV : inb (phi p) V) by (apply (en_in _ _ _ _ _ HE); auto). assert (LV : length V = n) by (rewrite <- (F2_len_ HV); apply (fd_len _ _ _ HP); auto).
    assert (HSV : inb (vscal (sgn fw) (phi p)) (sbox fw V)) by (apply sbox_in; rewrite vscal_vscal, sgn_sq, vscal_1; auto).
    apply (core l u ys gs (sbox fw V) E L D); auto; try (unfold D; lra).
    - apply sbox_wf. apply (en_wf _ _ _ _ _ HE).
    - eapply inb_ne; eauto.
    - rewrite sbox_len. lia.
    - intros w e Hw He H. destruct (binf_out e E _ WE ltac:(lra) H) as (q & Q1 & Q2). rewrite (Hgs w Hw). apply (binf_near _ _ _ (vscal (sgn fw) (phi q))).
      + apply sbox_in. rewrite vscal_vscal, sgn_sq, vscal_1. apply (en_in _ _ _ _ _ HE); auto. rewrite (F2_len_ Q1). auto.
      + apply near_sgn. apply HL; auto.
        * rewrite vals_len. auto.
        * rewrite (F2_len_ Q1). auto.
        * eapply within_mono; [|apply HK; lra]. unfold D. lra.
        * eapply within_mono; [|eapply near_within; [exact Q2|apply HK; lra]]. lra.
    - intros s v Hs Hv. assert (X : inb (vadd (vals ys l) (vscal (s - l) v)) (b_add A guess (b_scal A (imul A (pt (sgn fw)) (bnd 0 (u - l))) (F E)))).
      2:{ eapply subset_in; [exact HS| |exact X]. rewrite <- (F2_len_ X), vadd_len; rewrite vals_len; [lia|]. rewrite vscal_len, (F2_len_ Hv), sbox_len. lia. }
      apply (b_add_in A HA); auto.
      + rewrite vals_len, vscal_len. rewrite (F2_len_ Hv), sbox_len. lia.
      + apply sbox_in in Hv. replace (vscal (s - l) v) with (vscal (sgn fw * (s - l)) (vscal (sgn fw) v)).
        * apply (scal_in A HA); auto. apply (imul_in A HA); [cbn; lra|]. apply In_bnd. lra.
        * rewrite vscal_vscal. f_equal. assert (X := sgn_sq fw). replace (sgn fw * (s - l) * sgn fw) with (sgn fw * sgn fw * (s - l)) by ring. rewrite X. lra.
    - intros w Hw. apply (binf_near _ _ _ p); auto. apply within_near; auto. rewrite vals_len. lia.
  Qed.

  Lemma map2_len (g : itv -> itv -> itv) x y : length x = length y -> length (map2 g x y) = length x.
  Proof. revert y. induction x; intros [|b y] H; try discriminate; cbn; auto. Qed.
  Lemma map2_wf (g : itv -> itv -> itv) x y : (forall i j, wf i -> wf j -> wf (g i j)) -> Forall wf x -> Forall wf y -> Forall wf (map2 g x y).
  Proof. intros G H. revert y. induction H; intros y H'; cbn; [constructor|]. destruct H'; constructor; auto. Qed.
  Lemma emp_wf x : Forall wf (b_set_empty x). Proof. induction x; cbn; constructor; auto. cbn; auto. Qed.
  Lemma b_add_wf x y : Forall wf x -> Forall wf y -> Forall wf (b_add A x y).
  Proof. intros. unfold b_add. destruct (_ || _); [apply emp_wf|]. apply map2_wf; auto. apply (iadd_wf A HA). Qed.
  Lemma b_sub_wf x y : Forall wf x -> Forall wf y -> Forall wf (b_sub A x y).
  Proof. intros. unfold b_sub. destruct (_ || _); [apply emp_wf|]. apply map2_wf; auto. apply (isub_wf A HA). Qed.
  Lemma b_scal_wf c x : wf c -> Forall wf x -> Forall wf (b_scal A c x).
  Proof. intros C H. induction H; cbn; constructor; auto. apply (imul_wf A HA); auto. Qed.
  Lemma pt_wf c : wf (pt c). Proof. cbn. lra. Qed.
  Lemma ptv_wf v : Forall wf (map pt v). Proof. induction v; cbn; constructor; auto. apply pt_wf. Qed.
  Lemma idot_wf x y : Forall wf x -> Forall wf y -> wf (idot A x y).
  Proof. intros H. revert y. induction H; intros y H'; cbn [idot]; [apply pt_wf|]. destruct H'; [apply pt_wf|]. apply (iadd_wf A HA); auto. apply (imul_wf A HA); auto. Qed.
  Lemma imv_wf M x : Forall (Forall wf) M -> Forall wf x -> Forall wf (imv A M x).
  Proof. intros H Hx. induction H; cbn; constructor; auto. apply idot_wf; auto. Qed.
  Lemma ivm_wf m row M : Forall wf row -> Forall (Forall wf) M -> Forall wf (ivm A m row M).
  Proof.
    assert (Z : Forall wf (repeat (pt 0) m)) by (clear; induction m; cbn [repeat]; constructor; auto; apply pt_wf).
    intros H. revert M. induction H; intros M H'; cbn [ivm]; auto. destruct H'; auto. apply map2_wf; [apply (iadd_wf A HA)|apply b_scal_wf; auto|apply IHForall; auto].
  Qed.
  Lemma imm_wf m M M' : Forall (Forall wf) M -> Forall (Forall wf) M' -> Forall (Forall wf) (imm A m M M').
  Proof. intros H H'. induction H; cbn; constructor; auto. apply ivm_wf; auto. Qed.
  Lemma imscal_wf c M : Forall (Forall wf) M -> Forall (Forall wf) (imscal A c M).
  Proof. intros H. induction H; cbn; constructor; auto. apply b_scal_wf; auto. apply pt_wf. Qed.
  Lemma imadd_wf M M' : Forall (Forall wf) M -> Forall (Forall wf) M' -> Forall (Forall wf) (imadd A M M').
  Proof. intros H. revert M'. induction H; intros M' H'; cbn; [constructor|]. destruct H'; constructor; auto. apply map2_wf; auto. apply (iadd_wf A HA). Qed.
  Lemma pts_wf M : Forall (Forall wf) (pts M). Proof. induction M; cbn; constructor; auto. apply ptv_wf. Qed.

  Variable eps : R.
  Lemma encl_loop_ok fw l u ys guess e k : l <= u -> length ys = n -> flow phi (sgn fw) l u ys -> Forall wf guess -> inb (vals ys l) guess ->
    forall E, Forall wf E -> (exists p, inb p E) -> length E = n -> encl_loop A F eps k (sgn fw) (u - l) guess E = Some e ->
    Forall wf e /\ forall w, l <= w <= u -> inb (vals ys w) e.
  Proof.
    intros LU LN HF WG HG. induction k as [|k IH]; intros E WE (p & Hp) LE; cbn [encl_loop]; [discriminate|].
    destruct (b_is_subset _ E) eqn:HS; [intros R; injection R as <-; split; auto; eapply encl_ok; eauto|].
    set (u1 := b_add A guess (b_scal A (imul A (pt (sgn fw)) (bnd 0 (u - l))) (F E))) in *.
    assert (Lp : length p = n) by (rewrite (F2_len_ Hp); auto).
    assert (W1 : Forall wf u1). { apply b_add_wf; auto. apply b_scal_wf; [|apply (en_wf _ _ _ _ _ HE)]. apply (imul_wf A HA); [apply pt_wf|apply wf_mk]. }
    assert (H1 : inb (vadd (vals ys l) (vscal (sgn fw * 0) (phi p))) u1).
    { apply (b_add_in A HA); auto; [rewrite vals_len, vscal_len, (fd_len _ _ _ HP); auto|]. apply (scal_in A HA); [|apply (en_in _ _ _ _ _ HE); auto]. apply (imul_in A HA); [cbn; lra|]. apply In_bnd. lra. }
    set (v := vadd _ _) in H1. assert (Lv : length v = n) by (unfold v; rewrite vadd_len; rewrite vals_len; auto; rewrite vscal_len, (fd_len _ _ _ HP); auto).
    assert (H2 : inb (vsub (vscal (1 + eps) v) (vscal eps v)) (b_sub A (b_scal A (pt (1 + eps)) u1) (b_scal A (pt eps) u1))).
    { apply (b_sub_in A HA); [rewrite !vscal_len; auto| |]; apply (scal_in A HA); auto; cbn; lra. }
    apply IH.
    - apply b_sub_wf; apply b_scal_wf; auto; apply pt_wf.
    - eauto.
    - rewrite <- (F2_len_ H2), vsub_len; rewrite !vscal_len; auto.
  Qed.
  Lemma global_ok fw l u ys guess e : l <= u -> length ys = n -> flow phi (sgn fw) l u ys -> Forall wf guess -> inb (vals ys l) guess ->
    global_encl A F eps (sgn fw) (u - l) guess = Some e -> Forall wf e /\ forall w, l <= w <= u -> inb (vals ys w) e.
  Proof. unfold global_encl. generalize 30%nat. intros k LU LN HF WG HG R. refine (encl_loop_ok fw l u ys guess e k LU LN HF WG HG guess WG (ex_intro (fun p => inb p guess) _ HG) _ R). rewrite <- (F2_len_ HG), vals_len. auto. Qed.

  (** ** Mean value and Taylor-Lagrange formulas *)
  Lemma mvt (f f' : R -> R) a b : a < b -> (forall t, a <= t <= b -> continuity_pt f t) -> (forall t, a < t < b -> derivable_pt_lim f t (f' t)) ->
    exists c, a < c < b /\ f b - f a = (b - a) * f' c.
  Proof.
    intros AB Hc Hd. assert (pr1 : forall c, a < c < b -> derivable_pt f c) by (intros c Hcc; exists (f' c); apply Hd; auto).
    assert (pr2 : forall c, a < c < b -> derivable_pt id c) by (intros; apply derivable_pt_id).
    destruct (MVT f id a b pr1 pr2 AB Hc) as (c & P & E). { intros. apply derivable_continuous_pt, derivable_pt_id. }
    exists c. split; auto. rewrite (derive_pt_eq_0 f c (f' c) _ (Hd c P)) in E. rewrite (derive_pt_eq_0 id c 1 _ (derivable_pt_lim_id c)) in E. unfold id in E. lra.
  Qed.
  Lemma mean_value p q X : length p = n -> length q = n -> inb p X -> inb q X -> exists M, inm M (J X) /\ square n M /\ phi p = vadd (phi q) (rmv M (vsub p q)).
  Proof.
    intros Lp Lq Hp Hq. set (fs := map (fun ab s => fst ab + s * (snd ab - fst ab)) (combine q p)).
    assert (Lf : length fs = n) by (unfold fs; rewrite map_length, combine_length; lia).
    assert (Vf : forall s, vals fs s = vadd q (vscal s (vsub p q))).
    { intros s. assert (LL : length q = length p) by lia. unfold fs; clear - LL; revert p LL. induction q as [|b q IH]; intros [|a p] LL; try discriminate; cbn; auto. f_equal; [lra|]. apply IH. auto. }
    assert (VX : forall s, 0 <= s <= 1 -> inb (vals fs s) X).
    { intros s Hs. rewrite Vf. clear - Hp Hq Hs. revert q Hq. induction Hp as [|a i p X Ha Hp IH]; intros q Hq; inversion Hq; subst; cbn; constructor; [|apply IH; auto].
      destruct (Rle_dec x a).
      - apply (In_convex x _ a); auto. assert (0 <= s * (a + -1 * x)) by (apply Rmult_le_pos; lra). assert (s * (a + -1 * x) <= 1 * (a + -1 * x)) by (apply Rmult_le_compat_r; lra). lra.
      - apply (In_convex a _ x); auto. assert (0 <= s * (x - a)) by (apply Rmult_le_pos; lra). assert (s * (x - a) <= 1 * (x - a)) by (apply Rmult_le_compat_r; lra). lra. }
    assert (Df : forall t, Forall2 (fun f d => derivable_pt_lim f t d) fs (vsub p q)).
    { intros t. assert (LL : length q = length p) by lia. unfold fs; clear - LL; revert p LL. induction q as [|b q IH]; intros [|a p] LL; try discriminate; cbn; constructor; [|apply IH; auto].
      replace (a + -1 * b) with (0 + (1 * (a - b) + t * 0)) by lra. apply derivable_pt_lim_plus; [apply derivable_pt_lim_const|]. apply (derivable_pt_lim_mult id (fun _ => a - b)); [apply derivable_pt_lim_id|apply derivable_pt_lim_const]. }
    assert (G : forall k, (k < n)%nat -> exists row, length row = n /\ inb row (nth k (J X) []) /\ nth k (phi p) 0 = nth k (phi q) 0 + rdot row (vsub p q)).
    { intros k Hk. destruct (mvt (fun s => nth k (phi (vals fs s)) 0) (fun t => rdot (nth k (dphi (vals fs t)) []) (vsub p q)) 0 1) as (c & C & E); [lra| | |].
      - intros t _. apply derivable_continuous_pt. eexists. apply (fd_chain _ _ _ HP fs (vsub p q) t k); auto.
      - intros t _. apply (fd_chain _ _ _ HP fs (vsub p q) t k); auto.
      - assert (Lc : length (vals fs c) = n) by (rewrite vals_len; auto). destruct (fd_sq _ _ _ HP _ Lc) as (S1 & S2). exists (nth k (dphi (vals fs c)) []). split; [|split].
        + rewrite Forall_forall in S2. apply S2. apply nth_In. lia.
        + assert (Q := en_jac _ _ _ _ _ HE _ _ Lc (VX c ltac:(lra))). clear - Q Hk S1. revert k Hk. rewrite <- S1. clear S1. induction Q; intros [|k] Hk; cbn in *; try lia; auto. apply IHQ. lia.
        + rewrite (Vf 1), (Vf 0), seg_0, seg_1 in E by lia. lra. }
    assert (LJ : length (J X) = n). { rewrite <- (F2_len_ (en_jac _ _ _ _ _ HE _ _ Lp Hp)). apply (fd_sq _ _ _ HP _ Lp). }
    assert (G' : forall m, (m <= n)%nat -> exists M, length M = m /\ Forall2 (fun l il => inb l il) M (firstn m (J X)) /\ Forall (fun l => length l = n) M /\ forall k, (k < m)%nat -> nth k (phi p) 0 = nth k (phi q) 0 + rdot (nth k M []) (vsub p q)).
    { induction m as [|m IHm]; intros Hm; [exists []; repeat split; try constructor; intros; lia|]. destruct IHm as (M & M1 & M2 & M3 & M4); [lia|]. destruct (G m) as (row & R1 & R2 & R3); [lia|].
      exists (M ++ [row]). split; [rewrite app_length; cbn; lia|]. split; [|split].
      - rewrite (firstn_S_nth m (J X) []) by lia. apply Forall2_app; auto.
      - apply Forall_app. split; auto.
      - intros k Hk. destruct (Nat.eq_dec k m) as [->|N]; [rewrite app_nth2 by lia; rewrite M1, Nat.sub_diag; cbn; auto|]. rewrite app_nth1 by lia. apply M4. lia. }
    destruct (G' n) as (M & M1 & M2 & M3 & M4); auto. exists M. split; [unfold inm; rewrite <- (firstn_all (J X)), LJ; auto|]. split; [split; auto|].
    assert (Lr : length (rmv M (vsub p q)) = n) by (unfold rmv; rewrite map_length; auto).
    apply vec_ext; [rewrite vadd_len; rewrite !(fd_len _ _ _ HP); auto|]. intros k Hk. rewrite (fd_len _ _ _ HP) in Hk by auto. rewrite vadd_nth by (rewrite (fd_len _ _ _ HP); auto). rewrite M4 by auto. f_equal.
    unfold rmv. rewrite (nth_indep _ 0 (rdot [] (vsub p q))) by (rewrite map_length; lia). symmetry. exact (map_nth (fun row => rdot row (vsub p q)) M [] k).
  Qed.

  (** ** Taylor-Lagrange *)
  Lemma flow_nth sg l u ys k : flow phi sg l u ys -> length ys = n -> (k < n)%nat ->
    (forall t, l <= t <= u -> continuity_pt (nth k ys (fun _ => 0)) t) /\ (forall t, l < t < u -> derivable_pt_lim (nth k ys (fun _ => 0)) t (sg * nth k (phi (vals ys t)) 0)).
  Proof.
    intros (gs & H & E) LN Hk. assert (Q : derivative_on l u (nth k ys (fun _ => 0)) (nth k gs (fun _ => 0))).
    { subst n. clear - H Hk. revert k Hk. induction H; intros [|k] Hk; cbn in *; try lia; auto. apply IHForall2. lia. }
    destruct Q as (Q1 & Q2). split; auto. intros t Ht. replace (sg * nth k (phi (vals ys t)) 0) with (nth k gs (fun _ => 0) t); [auto|]. rewrite <- vscal_nth, <- E, vals_nth by auto. auto.
  Qed.
  Lemma phi_cont sg l u ys k t : flow phi sg l u ys -> length ys = n -> (k < n)%nat -> l <= t <= u -> continuity_pt (fun s => nth k (phi (vals ys s)) 0) t.
  Proof.
    intros HF LN Hk Ht e He. assert (LU : l <= u) by lra. assert (HC := flow_cont _ _ _ _ _ HF). assert (HC' : Forall (fun f => continuity_pt f t) ys) by (eapply Forall_impl; [|exact HC]; intros f Hf; apply Hf; auto).
    destruct (list_within (vals ys t)) as (K & K0 & HK). destruct (fd_lip _ _ _ HP (K + 1)) as (L & L0 & HL).
    assert (E0 : 0 < Rmin 1 (e / (2 * (L + 1)))) by (apply Rmin_glb_lt; [lra|]; apply Rdiv_lt_0_compat; lra). set (d0 := Rmin 1 (e / (2 * (L + 1)))) in *.
    destruct (near_cont ys t HC' d0 E0) as (d & D0 & HD). exists d. split; auto. intros s (_ & Hs). cbn in Hs. unfold R_dist in Hs. specialize (HD s Hs).
    assert (N : near (L * d0) (phi (vals ys s)) (phi (vals ys t))).
    { apply HL; auto; try (rewrite vals_len; auto; fail).
      - assert (NS : near d0 (vals ys t) (vals ys s)) by (clear - HD; induction HD as [|a b ? ? Hab]; constructor; auto; rewrite Rabs_minus_sym; auto). eapply within_mono; [|eapply near_within; eauto]. unfold d0. assert (X := Rmin_l 1 (e / (2 * (L + 1)))). lra.
      - eapply within_mono; [|exact HK]. lra. }
    cbn. unfold R_dist. assert (Ln : length (phi (vals ys s)) = n) by (apply (fd_len _ _ _ HP); rewrite vals_len; auto).
    assert (B : Rabs (nth k (phi (vals ys s)) 0 - nth k (phi (vals ys t)) 0) <= L * d0). { clear - N Ln Hk. rewrite <- Ln in Hk. clear Ln. revert k Hk. induction N; intros [|k] Hk; cbn in *; try lia; auto. apply IHN. lia. }
    eapply Rle_lt_trans; [exact B|]. assert (X := Rmin_r 1 (e / (2 * (L + 1)))). fold d0 in X. apply Rle_lt_trans with (L * (e / (2 * (L + 1)))); [apply Rmult_le_compat_l; auto|].
    apply Rmult_lt_reg_r with (2 * (L + 1)); [lra|]. replace (L * (e / (2 * (L + 1))) * (2 * (L + 1))) with (L * e) by (field; lra). assert (0 <= L * e) by (apply Rmult_le_pos; lra). lra.
  Qed.
  Lemma taylor fw l u ys k : l < u -> length ys = n -> flow phi (sgn fw) l u ys -> (k < n)%nat -> exists c, l < c < u /\
    nth k (vals ys u) 0 = nth k (vals ys l) 0 + (u - l) * sgn fw * nth k (phi (vals ys l)) 0 + 1 / 2 * (u - l) * (u - l) * rdot (nth k (dphi (vals ys c)) []) (phi (vals ys c)).
  Proof.
    intros LU LN HF Hk. destruct (flow_nth _ _ _ _ k HF LN Hk) as (C1 & D1). set (f := nth k ys (fun _ => 0)) in *. set (q0 := sgn fw * nth k (phi (vals ys l)) 0).
    set (kk := fun s => f s - q0 * (s - l)). set (sq := fun s : R => (s - l) * (s - l)).
    assert (Dl : forall t, derivable_pt_lim (fun s => s - l) t (1 - 0)) by (intros; apply derivable_pt_lim_minus; [apply derivable_pt_lim_id|apply derivable_pt_lim_const]).
    assert (Ds : forall t, derivable_pt_lim sq t ((1 - 0) * (t - l) + (t - l) * (1 - 0))) by (intros t; apply (derivable_pt_lim_mult (fun s => s - l) (fun s => s - l)); apply Dl).
    assert (Dq : forall t, derivable_pt_lim (fun s => q0 * (s - l)) t (q0 * (1 - 0))) by (intros t; apply (derivable_pt_lim_scal (fun s => s - l)); apply Dl).
    assert (Dk : forall t, l < t < u -> derivable_pt_lim kk t (sgn fw * nth k (phi (vals ys t)) 0 - q0 * (1 - 0))) by (intros t Ht; apply (derivable_pt_lim_minus f); [apply D1; auto|apply Dq]).
    assert (pr1 : forall c, l < c < u -> derivable_pt kk c) by (intros c Hc; eexists; apply Dk; auto).
    assert (pr2 : forall c, l < c < u -> derivable_pt sq c) by (intros c Hc; eexists; apply Ds; auto).
    destruct (MVT kk sq l u pr1 pr2 LU) as (c & P & E).
    - intros t Ht. apply (continuity_pt_minus f); [apply C1; auto|]. apply derivable_continuous_pt. eexists. apply Dq.
    - intros t Ht. apply derivable_continuous_pt. eexists. apply Ds.
    - rewrite (derive_pt_eq_0 kk c _ _ (Dk c P)) in E. rewrite (derive_pt_eq_0 sq c _ _ (Ds c)) in E.
      destruct HF as (gs & Hfg & Hgs). assert (HF : flow phi (sgn fw) l u ys) by (exists gs; auto).
      destruct (mvt (fun s => nth k (phi (vals ys s)) 0) (fun t => rdot (nth k (dphi (vals ys t)) []) (vscal (sgn fw) (phi (vals ys t)))) l c) as (c' & C' & E'); [lra| | |].
      + intros t Ht. eapply phi_cont; eauto. lra.
      + intros t Ht. apply (fd_chain _ _ _ HP); auto. rewrite <- (Hgs t) by lra. unfold vals. clear - Hfg Ht P. induction Hfg as [|? ? ? ? (_ & Hd)]; cbn; constructor; auto. apply Hd. lra.
      + exists c'. split; [lra|]. rewrite !vals_nth. fold f. set (W := rdot (nth k (dphi (vals ys c')) []) (phi (vals ys c'))). rewrite rdot_vscal_r in E'. fold W in E'.
        assert (X : sgn fw * nth k (phi (vals ys c)) 0 - q0 = (c - l) * W). { unfold q0. rewrite <- Rmult_minus_distr_l, E'. assert (S := sgn_sq fw). replace (sgn fw * ((c - l) * (sgn fw * W))) with (sgn fw * sgn fw * ((c - l) * W)) by ring. rewrite S. lra. }
        unfold kk, sq in E. replace (sgn fw * nth k (phi (vals ys c)) 0 - q0 * (1 - 0)) with ((c - l) * W) in E by lra.
        assert (Y : (c - l) * (2 * (f u - f l - q0 * (u - l)) - (u - l) * (u - l) * W) = 0) by (ring_simplify in E; ring_simplify; lra).
        apply Rmult_integral in Y. destruct Y as [Y|Y]; [lra|]. fold q0. unfold q0 in Y. lra.
  Qed.
  Lemma inb_nth z X : length z = length X -> (forall k, (k < length X)%nat -> In (nth k z 0) (nth k X Emp)) -> inb z X.
  Proof. revert X. induction z as [|a z IH]; intros [|i X] L H; try discriminate; constructor; [apply (H 0%nat); cbn; lia|]. apply IH; auto. intros k Hk. apply (H (Datatypes.S k)). cbn. lia. Qed.
  Lemma inm_nth M X k : inm M X -> (k < length M)%nat -> inb (nth k M []) (nth k X []).
  Proof. intros H. revert k. induction H; intros [|k] Hk; cbn in *; try lia; auto. apply IHForall2. lia. Qed.
  Lemma imv_nth M X k : (k < length M)%nat -> nth k (imv A M X) Emp = idot A (nth k M []) X.
  Proof. intros Hk. unfold imv. rewrite (nth_indep _ Emp (idot A [] X)) by (rewrite map_length; auto). exact (map_nth (fun row => idot A row X) M [] k). Qed.
  Lemma remainder fw l u ys ut : l < u -> length ys = n -> flow phi (sgn fw) l u ys -> (forall w, l <= w <= u -> inb (vals ys w) ut) ->
    exists zeta, inb zeta (imv A (imscal A (1 / 2 * (u - l) * (u - l)) (J ut)) (F ut)) /\ length zeta = n /\
      vals ys u = vadd (vadd (vals ys l) (vscal ((u - l) * sgn fw) (phi (vals ys l)))) zeta.
  Proof.
    intros LU LN HF HU. assert (Lv : forall t, length (vals ys t) = n) by (intros; rewrite vals_len; auto). assert (Lp : forall t, length (phi (vals ys t)) = n) by (intros; apply (fd_len _ _ _ HP); auto).
    set (base := vadd (vals ys l) (vscal ((u - l) * sgn fw) (phi (vals ys l)))). assert (Lb : length base = n) by (unfold base; rewrite vadd_len; rewrite ?vscal_len; rewrite ?Lp; auto).
    assert (LJ : length (J ut) = n). { rewrite <- (F2_len_ (en_jac _ _ _ _ _ HE _ _ (Lv l) (HU l ltac:(lra)))). apply (fd_sq _ _ _ HP); auto. }
    exists (vsub (vals ys u) base). split; [|split].
    - apply inb_nth; [rewrite vsub_len by (rewrite Lv; auto); rewrite Lv; unfold imv, imscal; rewrite !map_length; auto|].
      intros k Hk. unfold imv, imscal in Hk. rewrite !map_length, LJ in Hk. rewrite imv_nth by (unfold imscal; rewrite map_length; lia). rewrite vsub_nth by (rewrite Lv; auto).
      unfold base. rewrite vadd_nth, vscal_nth by (rewrite vscal_len, Lp; auto). destruct (taylor fw l u ys k LU LN HF Hk) as (c & C & E).
      assert (Hc : inb (vals ys c) ut) by (apply HU; lra). destruct (fd_sq _ _ _ HP _ (Lv c)) as (S1 & S2).
      replace (_ - _) with (rdot (nth k (map (vscal (1 / 2 * (u - l) * (u - l))) (dphi (vals ys c))) []) (phi (vals ys c))).
      + apply (idot_in A HA); [|apply (en_in _ _ _ _ _ HE); auto]. apply inm_nth; [|rewrite map_length; lia]. apply (imscal_in A HA). apply (en_jac _ _ _ _ _ HE); auto.
      + change (@nil R) with (vscal (1 / 2 * (u - l) * (u - l)) []) at 1. rewrite map_nth, rdot_vscal. lra.
    - rewrite vsub_len; rewrite Lv; auto.
    - assert (LL : length (vals ys u) = length base) by (rewrite Lv; auto). clear - LL. revert LL. generalize base. generalize (vals ys u). clear. induction l as [|a x IH]; intros [|b y] L; try discriminate; cbn; auto. f_equal; [lra|apply IH; auto].
  Qed.

  (** ** Local enclosure *)
  Variable bmid : itv -> R.
  Variables qr inv : rmat -> rmat.
  (** Interval::mid gives a point of the interval *)
  Hypothesis Hmid : forall i, wf i -> i <> Emp -> In (bmid i) i.
  (** the matrices Q of the decompositions are inverted exactly *)
  Hypothesis Hqr : forall M, square n M -> square n (qr M) /\ square n (inv (qr M)) /\
    (forall v, length v = n -> rmv (qr M) (rmv (inv (qr M)) v) = v) /\ (forall v, length v = n -> rmv (inv (qr M)) (rmv (qr M) v) = v).
  (** the function is evaluated exactly at points *)
  Hypothesis Hpt : forall p, length p = n -> map bmid (F (map pt p)) = phi p.

  (** what the algorithm knows of the point [x] reached by the trajectory *)
  Record knows (s : lohner) (x : list R) : Prop := {
    kn_u : inb x (lo_u s);
    kn_hat : inb (lo_hat s) (lo_u s);
    kn_len : length x = n;
    kn_lenr : length (lo_r s) = n;
    kn_wf : Forall wf (lo_u s);
    kn_wfr : Forall wf (lo_r s);
    kn_0 : inb (repeat 0 n) (lo_r s);
    kn_B : square n (lo_B s);
    kn_Bi : square n (lo_Binv s);
    kn_BBi : forall v, length v = n -> rmv (lo_B s) (rmv (lo_Binv s) v) = v;
    kn_BiB : forall v, length v = n -> rmv (lo_Binv s) (rmv (lo_B s) v) = v;
    kn_rho : exists rho, inb rho (lo_r s) /\ x = vadd (lo_hat s) (rmv (lo_B s) rho)
  }.
  Lemma mids_in X : Forall wf X -> Forall (fun i => i <> Emp) X -> inb (map bmid X) X.
  Proof. intros W. induction W; intros N; inversion N; subst; cbn; constructor; auto. apply IHW; auto. Qed.
  Lemma rmv_0 M : square n M -> rmv M (repeat 0 n) = repeat 0 n.
  Proof.
    intros (L & _). unfold rmv. transitivity (map (fun _ : list R => 0) M); [apply map_ext; intros; rewrite rdot_comm; apply rdot_zero|]. rewrite <- L. clear. induction M; cbn; f_equal; auto.
  Qed.
  Lemma vadd_00 x : vadd x (repeat 0 (length x)) = x.
  Proof. induction x; cbn; f_equal; auto. lra. Qed.
  Lemma vsub_self x : vsub x x = repeat 0 (length x).
  Proof. induction x; cbn; f_equal; auto. lra. Qed.
  Lemma mid_square X : length X = n -> Forall (fun l => length l = n) X -> square n (map (map bmid) X).
  Proof. intros L H. split; [rewrite map_length; auto|]. clear L. induction H; cbn; constructor; auto. rewrite map_length. auto. Qed.
  Lemma body_ok fw l u ys ut s : l < u -> length ys = n -> flow phi (sgn fw) l u ys -> Forall wf ut -> (forall w, l <= w <= u -> inb (vals ys w) ut) ->
    knows s (vals ys l) -> knows (lo_body A bmid qr inv F J (sgn fw) (u - l) s ut) (vals ys u).
  Proof.
    intros LU LN HF WU HU KS. set (h := u - l). set (x0 := vals ys l) in *. set (x1 := vals ys u).
    destruct (remainder fw l u ys ut LU LN HF HU) as (zeta & Z1 & Z2 & Z3). fold h x0 x1 in Z1, Z3.
    assert (Lx : length x0 = n) by apply (kn_len _ _ KS). assert (Lh : length (lo_hat s) = n) by (rewrite (F2_len_ (kn_hat _ _ KS)), <- (F2_len_ (kn_u _ _ KS)); auto).
    assert (Lu : length (lo_u s) = n) by (rewrite <- (F2_len_ (kn_u _ _ KS)); auto).
    destruct (mean_value x0 (lo_hat s) (lo_u s) Lx Lh (kn_u _ _ KS) (kn_hat _ _ KS)) as (M & M1 & M2 & M3). destruct (kn_rho _ _ KS) as (rho & R1 & R2).
    assert (Lrho : length rho = n) by (rewrite (F2_len_ R1); apply (kn_lenr _ _ KS)).
    unfold lo_body. rewrite Lu. set (z1 := imv A (imscal A (1 / 2 * h * h) (J ut)) (F ut)) in *. set (m1 := map bmid z1). set (a := imadd A (pts (eye n)) (imscal A (h * sgn fw) (J (lo_u s)))).
    set (MM := map (map bmid) (imm A n a (pts (lo_B s)))). set (b1 := qr MM). set (bi := inv b1).
    set (Ar := radd (eye n) (map (vscal (h * sgn fw)) M)). assert (SAr : square n Ar) by (apply radd_square; [apply eye_square|apply rscal_square; auto]).
    assert (HAr : inm Ar a). { apply (imadd_in A HA); [apply pts_in|apply (imscal_in A HA); auto]. }
    assert (HAB : inm (rmm n Ar (lo_B s)) (imm A n a (pts (lo_B s)))) by (apply (imm_in A HA); auto; apply pts_in).
    assert (SMM : square n MM).
    { destruct (rmm_square n _ _ SAr (kn_B _ _ KS)) as (Q1 & Q2). apply (mid_square (imm A n a (pts (lo_B s)))); [exact (eq_trans (eq_sym (F2_len_ HAB)) Q1)|]. clear - HAB Q2. induction HAB; inversion Q2; subst; constructor; auto. rewrite <- (F2_len_ H). auto. }
    destruct (Hqr MM SMM) as (SB & SBi & BBi & BiB). fold b1 in SB, BBi, BiB, SBi. fold bi in SBi, BBi, BiB.
    assert (Wz : Forall wf z1) by (apply imv_wf; [apply imscal_wf; apply (en_jwf _ _ _ _ _ HE)|apply (en_wf _ _ _ _ _ HE)]).
    assert (Hm1 : inb m1 z1) by (apply mids_in; auto; eapply inb_ne; eauto). assert (Lm : length m1 = n) by (rewrite (F2_len_ Hm1), <- (F2_len_ Z1); auto).
    rewrite (Hpt _ Lh). set (hat1 := vadd (vadd (lo_hat s) (vscal (h * sgn fw) (phi (lo_hat s)))) m1).
    assert (Lph : length (phi (lo_hat s)) = n) by (apply (fd_len _ _ _ HP); auto). assert (Lhat1 : length hat1 = n) by (unfold hat1; rewrite !vadd_len; rewrite ?vscal_len; rewrite ?vadd_len; rewrite ?vscal_len; lia).
    set (TM := rmm n (rmm n bi Ar) (lo_B s)). set (r1 := b_add A (imv A (imm A n (imm A n (pts bi) a) (pts (lo_B s))) (lo_r s)) (imv A (pts bi) (b_sub A z1 (map pt m1)))).
    assert (STM : square n TM) by (apply rmm_square; [apply rmm_square; auto|apply (kn_B _ _ KS)]).
    assert (Lrmv : forall M v, square n M -> length (rmv M v) = n) by (intros M' v (Q & _); rewrite rmv_len; auto).
    assert (ETM : forall v, rmv TM v = rmv bi (rmv Ar (rmv (lo_B s) v))).
    { intros v. destruct (kn_B _ _ KS) as (Q1 & Q2). destruct SAr as (Q3 & Q4). destruct SBi as (Q5 & Q6). unfold TM. rewrite rmv_mm; [|auto|]. rewrite rmv_mm; auto. rewrite Q3; auto.
      rewrite Q1. apply (rmm_square n bi Ar); split; auto. }
    assert (IN : forall p z, inb p (lo_r s) -> length p = n -> inb z z1 -> length z = n -> inb (vadd (rmv TM p) (rmv bi (vsub z m1))) r1).
    { intros p z Hp Lp Hz Lz. apply (b_add_in A HA).
      - rewrite (Lrmv TM), (Lrmv bi); auto.
      - apply (imv_in A HA); auto. apply (imm_in A HA); [|apply pts_in]. apply (imm_in A HA); auto. apply pts_in.
      - apply (imv_in A HA); [apply pts_in|]. apply (b_sub_in A HA); auto; [lia|apply pt_in]. }
    set (rho1 := vadd (rmv TM rho) (rmv bi (vsub zeta m1))). assert (Hrho1 : inb rho1 r1) by (apply IN; auto).
    assert (Lrho1 : length rho1 = n) by (unfold rho1; rewrite vadd_len; rewrite !Lrmv; auto).
    assert (H0 : inb (repeat 0 n) r1).
    { assert (X := IN (repeat 0 n) m1 (kn_0 _ _ KS) (repeat_length _ _) Hm1 Lm). rewrite (rmv_0 TM), vsub_self, Lm, (rmv_0 bi) in X by auto. rewrite <- (repeat_length 0 n) in X at 2. rewrite vadd_00 in X. auto. }
    assert (Wa : Forall (Forall wf) a) by (apply imadd_wf; [apply pts_wf|apply imscal_wf; apply (en_jwf _ _ _ _ _ HE)]).
    assert (Wr : Forall wf r1).
    { apply b_add_wf; [apply imv_wf; [|apply (kn_wfr _ _ KS)]|apply imv_wf; [apply pts_wf|apply b_sub_wf; auto; apply ptv_wf]]. apply imm_wf; [apply imm_wf; auto; apply pts_wf|apply pts_wf]. }
    assert (EQ : x1 = vadd hat1 (rmv b1 rho1)).
    { unfold rho1. rewrite rmv_vadd by (rewrite !Lrmv; auto). rewrite ETM, !BBi; [|rewrite vsub_len; lia|apply Lrmv; auto].
      unfold Ar. rewrite (rmv_radd n) by (auto using eye_square, rscal_square). rewrite eye_id by (apply Lrmv, (kn_B _ _ KS)). rewrite rmv_rscal.
      assert (EW : rmv (lo_B s) rho = vsub x0 (lo_hat s)). { rewrite R2. assert (LL : length (lo_hat s) = length (rmv (lo_B s) rho)) by (rewrite Lrmv; auto; apply (kn_B _ _ KS)). revert LL. generalize (lo_hat s), (rmv (lo_B s) rho). clear. induction l as [|p x IH]; intros [|q y] L; try discriminate; cbn; auto. f_equal; [lra|apply IH; auto]. }
      rewrite EW. rewrite Z3, M3. unfold hat1. assert (LM : length (rmv M (vsub x0 (lo_hat s))) = n) by (apply Lrmv; auto). revert LM. generalize (rmv M (vsub x0 (lo_hat s))). intros w LM.
      revert Lx Lh LM Z2 Lm Lph. generalize x0, (lo_hat s), zeta, m1, (phi (lo_hat s)), (h * sgn fw). clear. intros x0 hat zeta m1 ph c. revert x0 hat w zeta m1 ph. induction n as [|m IH]; intros x0 hat w zeta m1 ph L1 L2 L3 L4 L5 L6;
        destruct x0, hat, w, zeta, m1, ph; try discriminate; cbn; auto. f_equal; [lra|]. apply IH; cbn in *; auto. }
    constructor; cbn [lo_u lo_r lo_hat lo_B lo_Binv]; auto.
    - rewrite EQ. apply (b_add_in A HA); [rewrite Lrmv; auto|apply pt_in|apply (imv_in A HA); auto; apply pts_in].
    - assert (X : inb (vadd hat1 (rmv b1 (repeat 0 n))) (b_add A (map pt hat1) (imv A (pts b1) r1))).
      { apply (b_add_in A HA); [rewrite Lrmv; auto|apply pt_in|apply (imv_in A HA); auto; apply pts_in]. }
      rewrite (rmv_0 b1) in X by auto. rewrite <- Lhat1 in X at 1. rewrite vadd_00 in X. auto.
    - unfold x1. rewrite vals_len. auto.
    - rewrite <- (F2_len_ Hrho1). auto.
    - apply b_add_wf; [apply ptv_wf|apply imv_wf; auto; apply pts_wf].
    - exists rho1. auto.
  Qed.
  Lemma body_ut sg h s ut : lo_ut (lo_body A bmid qr inv F J sg h s ut) = ut. Proof. reflexivity. Qed.
  Lemma b_inter_wf x y : Forall wf x -> Forall wf y -> Forall wf (b_inter x y).
  Proof. intros H1 H2. unfold b_inter. destruct (b_is_empty x); auto. destruct (b_is_empty y); [apply emp_wf|]. cbn zeta. destruct (existsb _ _); [apply emp_wf|]. apply map2_wf; auto. intros; apply wf_inter. Qed.
  Lemma iter_ok fw l u ys s c : l < u -> length ys = n -> flow phi (sgn fw) l u ys -> knows s (vals ys l) ->
    forall ut s', Forall wf ut -> (forall w, l <= w <= u -> inb (vals ys w) ut) -> lo_iter A bmid qr inv F J eps (Datatypes.S c) (sgn fw) (u - l) s ut = Some s' ->
    knows s' (vals ys u) /\ Forall wf (lo_ut s') /\ forall w, l <= w <= u -> inb (vals ys w) (lo_ut s').
  Proof.
    intros LU LN HF KS. induction c as [|c IH]; intros ut s' WU HU.
    - cbn [lo_iter]. intros E. injection E as <-. split; [apply body_ok; auto|]. rewrite body_ut. auto.
    - change (lo_iter A bmid qr inv F J eps (Datatypes.S (Datatypes.S c)) (sgn fw) (u - l) s ut) with
        (match global_encl A F eps (- sgn fw) (u - l) (lo_u (lo_body A bmid qr inv F J (sgn fw) (u - l) s ut)) with None => None | Some e => lo_iter A bmid qr inv F J eps (Datatypes.S c) (sgn fw) (u - l) s (b_inter ut e) end).
      assert (KB := body_ok fw l u ys ut s LU LN HF WU HU KS). destruct (global_encl _ _ _ _ _ _) as [e|] eqn:EG; [|discriminate].
      rewrite sgn_neg in EG. assert (HF' := flow_rev _ _ _ _ _ HF). rewrite sgn_neg in HF'.
      assert (LR : length (map (fun (f : R -> R) s => f (l + u - s)) ys) = n) by (rewrite map_length; auto).
      destruct (global_ok (negb fw) l u _ _ e ltac:(lra) LR HF' (kn_wf _ _ KB)) as (We & HEe); auto.
      { rewrite vals_rev. replace (l + u - l) with u by lra. apply (kn_u _ _ KB). }
      apply IH; [apply b_inter_wf; auto|]. intros w Hw. specialize (HEe (l + u - w) ltac:(lra)). rewrite vals_rev in HEe. replace (l + u - (l + u - w)) with w in HEe by lra. apply b_inter_in; [apply HU; auto|exact HEe].
  Qed.
  Lemma integrate_ok fw l u ys s s' c : (1 <= c)%nat -> l < u -> length ys = n -> flow phi (sgn fw) l u ys -> knows s (vals ys l) ->
    integrate A bmid qr inv F J c eps (sgn fw) (u - l) s = Some s' ->
    knows s' (vals ys u) /\ Forall wf (lo_ut s') /\ forall w, l <= w <= u -> inb (vals ys w) (lo_ut s').
  Proof.
    intros C LU LN HF KS. unfold integrate. destruct (global_encl _ _ _ _ _ _) as [e|] eqn:EG; [|discriminate]. destruct (global_ok fw l u ys _ e ltac:(lra) LN HF (kn_wf _ _ KS) (kn_u _ _ KS) EG) as (We & HEe).
    destruct c as [|c]; [lia|]. intros R. eapply iter_ok; eauto.
  Qed.
End Step.
