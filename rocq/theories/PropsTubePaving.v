(** * C80: TubePaving classifies the boxes reached by a tube *)

From Coq Require Import Reals Lra Lia Bool List Arith NArith.
Import ListNotations.
From Verif Require Import Itv Tube TubeSpec TubeFacts TubeOps TubeOpsFacts TubeQueries CtcDerivFacts CtcEval CtcEvalFacts PropsEval PropsDyn2 Static PropsStatic
  Sivia PropsSivia PropsSiviaTerm PropsSiviaEx Concrete Paving PropsPaving PropsPaving2 PropsPaving3 TubePaving.
Open Scope R_scope.

(** ** Specification, without the model: what trajectories of the tubes reach *)
(** the values reached at some instant by trajectories of the components *)
Definition reached (a b : R) (xs : list tube) (p : list R) : Prop :=
  exists fs t, Forall2 has xs fs /\ a <= t <= b /\ p = map (fun f => f t) fs.
(** the graph of the trajectories of a scalar tube *)
Definition graph (a b : R) (x : tube) (p : list R) : Prop :=
  exists f t, has x f /\ a <= t <= b /\ p = [t; f t].

(** ** Trajectories *)
(** [f], with the value [v] at [t] *)
Definition moved (f : R -> R) (t v : R) : R -> R := fun u => if Req_EM_T u t then v else f u.
Lemma moved_at f t v : moved f t v t = v.
Proof. unfold moved. destruct (Req_EM_T t t); congruence. Qed.
Lemma moved_ne f t v u : u <> t -> moved f t v u = f u.
Proof. unfold moved. destruct (Req_EM_T u t); congruence. Qed.
Lemma moved_has f t v : forall x a b k s, chain_from a x b -> has x f -> nth_error x k = Some s -> s_lb s < t < s_ub s -> In v (s_cod s) ->
  has x (moved f t v).
Proof.
  induction x as [|s0 r IH]; intros a b k s C H E Ht Hv; [destruct k; discriminate|]. destruct C as (C1 & C2 & C3).
  apply has_cons in H. destruct H as [H1 H2]. apply has_cons. destruct k as [|k]; cbn in E.
  - injection E as ->. split.
    + destruct H1 as (I1 & I2 & I3). unfold slice_has. rewrite !moved_ne by lra. refine (conj I1 (conj I2 _)).
      intros u Hu. destruct (Req_EM_T u t) as [->|N]; [rewrite moved_at; auto|rewrite moved_ne; auto].
    + intros q Hq. destruct (chain_in_bounds _ _ _ _ C3 Hq) as (B1 & B2 & B3). destruct (H2 q Hq) as (I1 & I2 & I3).
      unfold slice_has. rewrite !moved_ne by lra. refine (conj I1 (conj I2 _)). intros u Hu. rewrite moved_ne by lra. auto.
  - destruct (chain_in_bounds _ _ _ _ C3 (nth_error_In _ _ E)) as (B1 & B2 & B3). split; [|eapply IH; eauto].
    destruct H1 as (I1 & I2 & I3). unfold slice_has. rewrite !moved_ne by lra. refine (conj I1 (conj I2 _)). intros u Hu. rewrite moved_ne by lra. auto.
Qed.

(** ** The vector *)
Lemma hd_nth (s : slice) xs j : nth_error (map (hd s) xs) j = option_map (hd s) (nth_error xs j).
Proof. apply nth_error_map. Qed.
Lemma forallb_nth2 {A B} (g : A * B -> bool) : forall l m k i j, forallb g (combine l m) = true -> nth_error l k = Some i -> nth_error m k = Some j -> g (i, j) = true.
Proof.
  induction l as [|x l IH]; intros [|y m] k i j H E1 E2; try (destruct k; discriminate).
  cbn in H. apply andb_true_iff in H. destruct H as [H1 H2]. destruct k; cbn in *; [congruence|eauto].
Qed.
Lemma in_slices_spec y ub : forall x0 xs, length y = S (length xs) -> (forall x, List.In x xs -> map dom x = map dom x0) ->
  in_slices y ub x0 xs = true ->
  exists k, forall j x yj, nth_error (x0 :: xs) j = Some x -> nth_error y j = Some yj ->
    exists s, nth_error x k = Some s /\ sub yj (s_cod s).
Proof.
  induction x0 as [|s r IH]; intros xs L D E; [discriminate|]. cbn [in_slices] in E. destruct (Rleb (s_ub s) ub); [|discriminate].
  apply orb_true_iff in E. destruct E as [E|E].
  - exists 0%nat. intros j x yj Ex Ey. destruct j as [|j]; cbn in Ex.
    + injection Ex as <-. exists s. split; auto. apply is_subset_sub.
      apply (forallb_nth2 _ _ _ 0%nat yj s E); auto.
    + pose proof (D x (nth_error_In _ _ Ex)) as Dx. destruct x as [|s1 x]; [discriminate|]. exists s1. split; auto.
      apply is_subset_sub. apply (forallb_nth2 _ _ _ (S j) yj s1 E); auto. cbn. rewrite nth_error_map, Ex. auto.
  - destruct (IH (map (@tl slice) xs)) as (k & Hk); auto.
    + rewrite map_length. auto.
    + intros x Hx. apply in_map_iff in Hx. destruct Hx as (x1 & <- & Hx). specialize (D _ Hx).
      destruct x1 as [|s1 x1]; [discriminate|]. cbn in D |- *. congruence.
    + exists (S k). intros j x yj Ex Ey. destruct j as [|j]; cbn in Ex.
      * injection Ex as <-. apply (Hk 0%nat r yj); auto.
      * destruct (Hk (S j) (tl x) yj) as (s1 & E1 & S1); auto; [cbn; rewrite nth_error_map, Ex; auto|].
        exists s1. split; auto. destruct x; [destruct k; discriminate|auto].
Qed.
Lemma skipn_nth_error {A} (l : list A) : forall n k, nth_error (skipn n l) k = nth_error l (n + k).
Proof. induction l as [|x l IH]; intros [|n] k; cbn; auto. destruct k; auto. Qed.
Lemma reach_build : forall t xs fs p, Forall2 has xs fs -> length p = length xs ->
  (forall j x f v, nth_error xs j = Some x -> nth_error fs j = Some f -> nth_error p j = Some v -> exists g, has x g /\ g t = v) ->
  exists gs, Forall2 has xs gs /\ p = map (fun g => g t) gs.
Proof.
  intros t xs fs p F. revert p. induction F as [|x f xs fs H F IH]; intros [|v p] L K; try discriminate.
  - exists []. split; auto.
  - destruct (K 0%nat x f v) as (g & Hg & Eg); auto. destruct (IH p) as (gs & Hgs & Ep); [cbn in L; lia| |].
    + intros j. exact (K (S j)).
    + exists (g :: gs). split; auto. cbn. congruence.
Qed.
Lemma F2_nth {A B} (P : A -> B -> Prop) l m j x y : Forall2 P l m -> nth_error l j = Some x -> nth_error m j = Some y -> P x y.
Proof. intros H. revert j. induction H; intros [|j] E1 E2; try discriminate; cbn in *; [congruence|eauto]. Qed.
Lemma inb_nth : forall p y j v yj, inb p y -> nth_error p j = Some v -> nth_error y j = Some yj -> In v yj.
Proof.
  intros p y j v yj H. revert j. induction H; intros [|j] E1 E2; try discriminate; cbn in *; [congruence|eauto].
Qed.
Definition slicing (xs : list tube) : Prop := forall x x', List.In x xs -> List.In x' xs -> map dom x = map dom x'.
Lemma tdomain_ok a b x : tube_ok a b x -> tube_tdomain x = bnd a b.
Proof.
  intros H. unfold tube_tdomain. destruct x as [|s r]; [destruct (ok_ne _ _ _ H); auto|].
  rewrite (chain_t0 (s :: r) a b), (chain_tf (s :: r) a b) by apply H. auto.
Qed.
Lemma test_tubes_ok a b xs fs : xs <> [] -> Forall (tube_ok a b) xs -> slicing xs -> Forall2 has xs fs ->
  (forall y p, Forall wf y -> test_tubes xs y = Some V_IN -> inb p y -> length y = length xs -> reached a b xs p) /\
  (forall y p, Forall wf y -> test_tubes xs y = Some V_OUT -> inb p y -> length y = length xs -> ~ reached a b xs p).
Proof.
  intros Hne HF HD Hh. split.
  - intros y p W E Hp Ly. unfold test_tubes in E. destruct (vinvert_list xs y _) as [|w ws] eqn:Ev; [discriminate|]. rewrite <- Ev in E.
    destruct (existsb _ _) eqn:Ee; [|discriminate]. apply existsb_exists in Ee. destruct Ee as (i & _ & Ei).
    unfold in_window in Ei. destruct xs as [|x0 r]; [congruence|]. destruct i as [|[lb|] [ub|]]; try discriminate.
    destruct (in_tdomain x0 lb); [|discriminate].
    assert (Dx : forall x, List.In x r -> map dom x = map dom x0) by (intros x Hx; apply HD; [right|left]; auto).
    apply in_slices_spec in Ei.
    2:{ rewrite map_length. exact Ly. }
    2:{ intros x Hx. apply in_map_iff in Hx. destruct Hx as (x1 & <- & Hx). rewrite !map_skipn_dom, (idx_dom lb x1 x0) by (apply Dx; auto).
        rewrite (Dx x1 Hx). auto. }
    destruct Ei as (k & Hk).
    set (m := (time_to_index lb x0 + k)%nat).
    assert (K : forall j x yj, nth_error (x0 :: r) j = Some x -> nth_error y j = Some yj -> exists s, nth_error x m = Some s /\ sub yj (s_cod s)).
    { intros j x yj Ex Ey. destruct j as [|j]; cbn in Ex.
      - injection Ex as <-. destruct (Hk 0%nat _ yj eq_refl Ey) as (s & Es & Ss). exists s. split; auto. rewrite skipn_nth_error in Es. auto.
      - destruct (Hk (S j) (skipn (time_to_index lb x) x) yj) as (s & Es & Ss); auto; [cbn; rewrite nth_error_map, Ex; auto|].
        exists s. split; auto. rewrite skipn_nth_error in Es. rewrite (idx_dom lb x x0) in Es by (apply Dx; eapply nth_error_In; eauto). auto. }
    destruct (nth_error y 0) as [y0|] eqn:Ey0; [|apply nth_error_None in Ey0; cbn in Ly; lia].
    destruct (K 0%nat x0 y0 eq_refl Ey0) as (s0 & Es0 & _).
    assert (Ok0 : tube_ok a b x0) by (inversion HF; auto).
    destruct (chain_in_bounds _ _ _ _ (ok_chain _ _ _ Ok0) (nth_error_In _ _ Es0)) as (B1 & B2 & B3).
    set (t := (s_lb s0 + s_ub s0) / 2).
    destruct (reach_build t (x0 :: r) fs p Hh) as (gs & Hgs & Ep).
    + apply F2_len in Hp. lia.
    + intros j x f v Ex Ef Ep. destruct (nth_error y j) as [yj|] eqn:Ey; [|apply nth_error_None in Ey; assert (j < length (x0 :: r))%nat by (apply nth_error_Some; congruence); lia].
      destruct (K j x yj Ex Ey) as (s & Es & Ss). exists (moved f t v). split; [|apply moved_at].
      assert (Hx : tube_ok a b x) by (rewrite Forall_forall in HF; apply HF; eapply nth_error_In; eauto).
      apply (moved_has f t v x a b m s); auto; try apply Hx.
      * exact (F2_nth _ _ _ j x f Hh Ex Ef).
      * destruct (dom_nth x0 x m s0 s) as [D1 D2]; auto; [apply HD; [left; auto|eapply nth_error_In; eauto]|]. unfold t. lra.
      * apply Ss. eapply inb_nth; eauto.
    + exists gs, t. refine (conj Hgs (conj _ Ep)). unfold t. lra.
  - intros y p W E Hp Ly (gs & t & Hgs & Ht & Ep). unfold test_tubes in E. destruct xs as [|x0 r]; [congruence|].
    assert (Ok0 : tube_ok a b x0) by (inversion HF; auto). rewrite (tdomain_ok a b x0 Ok0) in E.
    assert (V : vsol (x0 :: r) y gs t).
    { refine (conj Ly (conj (eq_sym (F2_len _ _ _ Hgs)) _)). intros j x g yj Ex Eg Ey. split.
      - exact (F2_nth _ _ _ j x g Hgs Ex Eg).
      - apply (inb_nth p y j); auto. rewrite Ep, nth_error_map, Eg. auto. }
    destruct (vinvert_list_in a b (x0 :: r) y gs (bnd a b) t) as (i & Hi & _); auto; [apply In_bnd; auto|].
    destruct (vinvert_list (x0 :: r) y (bnd a b)) as [|w ws]; [destruct Hi|]. destruct (existsb _ _); discriminate.
Qed.

(** ** The leaves of a paving *)
(** the leaves cover [x]; their value is what the test says, or they are below the precision *)
Definition tested (test : box -> option N) (precision : R) (x : box) (l : list cell) : Prop :=
  (forall p, inb p x -> exists c, List.In c l /\ inb p (c_box c)) /\
  (forall c, List.In c l -> Forall wf (c_box c) /\ Forall2 sub (c_box c) x /\
     (test (c_box c) = Some (c_val c) \/ (c_val c = V_UNKNOWN /\ max_diam_lt precision (c_box c) = true))).
Lemma compute_tested test bis precision : bis_ok bis -> forall fuel c next p n, Forall wf (c_box c) ->
  compute test bis precision fuel c next = Some (p, n) -> tested test precision (c_box c) (leaves p).
Proof.
  intros HB. induction fuel as [|fuel IH]; intros c next p n W E; cbn [compute] in E.
  all: destruct (test (c_box c)) as [v|] eqn:Et.
  1,3: injection E; intros <- <-; split; [intros q Hq; exists (with_val v c); split; [left|]; auto|];
       intros d [<-|[]]; refine (conj W (conj (F2_sub_refl _) _)); cbn; auto.
  all: destruct (max_diam_lt precision (c_box c)) eqn:M.
  1,3: injection E; intros <- <-; split; [intros q Hq; exists (with_val V_UNKNOWN c); split; [left|]; auto|];
       intros d [<-|[]]; refine (conj W (conj (F2_sub_refl _) _)); cbn; auto.
  - discriminate.
  - destruct (bis (c_box c)) as [[x1 x2]|] eqn:Eb; [|discriminate].
    destruct (compute _ _ _ _ (mkC next _ _ _) _) as [[p1 n1]|] eqn:E1; [|discriminate].
    destruct (compute _ _ _ _ (mkC (S next) _ _ _) _) as [[p2 n2]|] eqn:E2; [|discriminate]. injection E; intros <- <-.
    destruct (b_wf _ HB _ _ _ Eb W) as [W1 W2]. destruct (b_sub _ HB _ _ _ Eb) as [S1 S2].
    apply IH in E1; auto. apply IH in E2; auto. destruct E1 as [C1 D1], E2 as [C2 D2]. cbn [c_box] in *. split.
    + intros q Hq. destruct (b_cover _ HB _ _ _ q Eb Hq) as [H|H]; [destruct (C1 q H) as (d & D & K)|destruct (C2 q H) as (d & D & K)];
        exists d; split; auto; cbn; apply in_or_app; auto.
    + intros d Hd. cbn in Hd. apply in_app_or in Hd. destruct Hd as [Hd|Hd]; [destruct (D1 d Hd) as (K0 & K1 & K2)|destruct (D2 d Hd) as (K0 & K1 & K2)];
        refine (conj K0 (conj _ K2)); eapply F2_sub_trans; eauto.
Qed.
Lemma sivia_tested test bis precision x fuel p : bis_ok bis -> Forall wf x -> sivia_paving test bis precision x fuel = Some p ->
  tested test precision x (leaves p).
Proof.
  intros HB W E. unfold sivia_paving in E. destruct (compute _ _ _ _ _ _) as [[p1 n1]|] eqn:Ec; [|discriminate]. injection E; intros <-.
  change x with (c_box (mkC 0 x V_UNKNOWN 0)). eapply compute_tested; eauto.
Qed.

(** The leaves cover the box; an IN box only holds values reached by the tube, no value of an OUT box is reached,
    the other ones are below the precision. *)
Theorem C80_vector : forall a b xs fs bis precision y fuel p, xs <> [] -> Forall (tube_ok a b) xs -> slicing xs -> Forall2 has xs fs ->
  bis_ok bis -> Forall wf y -> length y = length xs -> tube_paving_vec xs bis precision y fuel = Some p ->
  classified (reached a b xs) precision y (leaves p).
Proof.
  intros a b xs fs bis precision y fuel p Hne HF HD Hh HB W L E. apply sivia_tested in E; auto. destruct E as [C D].
  destruct (test_tubes_ok a b xs fs Hne HF HD Hh) as [TI TO]. split; auto. intros c Hc. destruct (D c Hc) as (K0 & K1 & [K|K]); split; auto.
  pose proof (F2_len _ _ _ K1) as L1. assert (L2 : length (c_box c) = length xs) by lia.
  assert (V : c_val c = V_OUT \/ c_val c = V_IN).
  { unfold test_tubes in K. destruct (vinvert_list _ _ _); [left; congruence|]. destruct (existsb _ _); [right; congruence|discriminate]. }
  destruct V as [V|V]; rewrite V in K; [right; left|left]; split; auto; intros q Hq; eauto.
Qed.

(** ** The scalar tube *)
Lemma all_slices_spec y1 ub : forall x k s, all_slices y1 ub x = true -> nth_error x k = Some s ->
  (forall j q, (j <= k)%nat -> nth_error x j = Some q -> s_lb q <= ub) -> sub y1 (s_cod s).
Proof.
  induction x as [|s0 r IH]; intros k s E Ek H; [destruct k; discriminate|]. cbn [all_slices] in E.
  rewrite (proj2 (Rleb_true _ _)) in E by (apply (H 0%nat); auto; lia). apply andb_true_iff in E. destruct E as [E1 E2].
  destruct k as [|k]; cbn in Ek; [injection Ek as <-; apply is_subset_sub; auto|].
  eapply IH; eauto. intros j q Hj Eq. apply (H (S j)); auto. lia.
Qed.
(** the instant [t] is not the bound of a slice *)
Definition inside (x : tube) (t : R) : Prop := forall s, List.In s x -> t <> s_lb s /\ t <> s_ub s.
Lemma test_tube_ok a b x f : tube_ok a b x -> has x f ->
  (forall y0 y1 t v, wf y0 -> wf y1 -> test_tube x [y0; y1] = Some V_OUT -> In t y0 -> In v y1 -> ~ graph a b x [t; v]) /\
  (forall y0 y1 t v, wf y0 -> wf y1 -> test_tube x [y0; y1] = Some V_IN -> In t y0 -> In v y1 -> a <= t <= b /\
     (exists s, List.In s x /\ s_lb s <= t <= s_ub s /\ In v (s_cod s)) /\ (inside x t -> graph a b x [t; v])).
Proof.
  intros Hx Hf. split.
  - intros y0 y1 t v W0 W1 E Ht Hv (g & u & Hg & Hu & Ep). injection Ep as <- ->. unfold test_tube in E. cbn [nth] in E.
    rewrite (tdomain_ok a b x Hx) in E. assert (In t (inter (bnd a b) y0)) as T by (apply In_inter; split; auto; apply In_bnd; auto).
    assert (In (g t) (inter (codomain x) y1)) as V1 by (apply In_inter; split; auto; apply (codomain_in a b); auto).
    assert (In (g t) (inter y1 (eval_itv x (inter (bnd a b) y0)))) as V2 by (apply In_inter; split; auto; apply (eval_itv_in a b); auto).
    rewrite (not_emp _ _ T), (not_emp _ _ V1), (not_emp _ _ V2) in E. cbn [orb] in E.
    destruct (_ && _); [|discriminate]. destruct y0 as [|[l|] [h|]]; try discriminate. destruct (all_slices _ _ _); discriminate.
  - intros y0 y1 t v W0 W1 E Ht Hv. unfold test_tube in E. cbn [nth] in E. destruct (_ || _ || _); [discriminate|].
    destruct (_ && _) eqn:E1; [|discriminate]. apply andb_true_iff in E1. destruct E1 as [E1 _]. apply is_subset_sub in E1.
    rewrite (tdomain_ok a b x Hx) in E1. assert (Ht2 : a <= t <= b) by (apply In_bnd; apply E1; auto).
    destruct y0 as [|[l|] [h|]]; try discriminate. destruct (all_slices _ _ _) eqn:E2; [|discriminate]. cbn in Ht.
    destruct (idx_spec x a b t) as (s & Es & Bs & _); try apply Hx; auto.
    assert (Hl : a <= l <= b). { apply In_bnd. apply E1. cbn. cbn in W0. lra. }
    assert (Cs : sub y1 (s_cod s)).
    { destruct (idx_spec x a b l) as (sl & El & Bl & _); try apply Hx; auto.
      assert (Hm : (time_to_index l x <= time_to_index t x)%nat) by (apply (idx_ge x a b t _ sl); auto; try apply Hx; lra).
      apply (all_slices_spec y1 h (skipn (time_to_index l x) x) (time_to_index t x - time_to_index l x) s); auto.
      - rewrite skipn_nth_error. rewrite <- Es. f_equal. lia.
      - intros j q Hj Eq. rewrite skipn_nth_error in Eq. pose proof (chain_lb_mono x a b _ _ q s Hx Eq Es ltac:(lia)). lra. }
    refine (conj Ht2 (conj _ _)).
    + exists s. refine (conj (nth_error_In _ _ Es) (conj Bs _)). apply Cs; auto.
    + intros Hi. destruct (Hi s (nth_error_In _ _ Es)) as [I1 I2]. exists (moved f t v), t. refine (conj _ (conj Ht2 _)).
      * apply (moved_has f t v x a b (time_to_index t x) s); auto; try apply Hx. lra.
      * rewrite moved_at. auto.
Qed.

(** No point of an OUT box is on the graph of a trajectory; the points of an IN box that are not at the bound of a slice
    are all on the graph of a trajectory; at a bound, they are in the codomain of a slice, not always in the gate (see
    [C80_gate_refuted]). *)
Theorem C80_scalar_partial : forall a b x f bis precision y fuel p, tube_ok a b x -> has x f ->
  bis_ok bis -> Forall wf y -> length y = 2%nat -> tube_paving x bis precision y fuel = Some p ->
  (forall q, inb q y -> exists c, List.In c (leaves p) /\ inb q (c_box c)) /\
  forall c, List.In c (leaves p) -> Forall2 sub (c_box c) y /\
    ((c_val c = V_OUT /\ forall q, inb q (c_box c) -> ~ graph a b x q) \/
     (c_val c = V_IN /\ forall t v, inb [t; v] (c_box c) -> a <= t <= b /\
        (exists s, List.In s x /\ s_lb s <= t <= s_ub s /\ In v (s_cod s)) /\ (inside x t -> graph a b x [t; v])) \/
     (c_val c = V_UNKNOWN /\ max_diam_lt precision (c_box c) = true)).
Proof.
  intros a b x f bis precision y fuel p Hx Hf HB W L E. apply sivia_tested in E; auto. destruct E as [C D].
  destruct (test_tube_ok a b x f Hx Hf) as [TO TI]. split; auto. intros c Hc. destruct (D c Hc) as (K0 & K1 & [K|K]); split; auto.
  pose proof (F2_len _ _ _ K1) as L1. rewrite L in L1. destruct (c_box c) as [|y0 [|y1 [|]]] eqn:Eb; try discriminate L1.
  inversion K0 as [|? ? W0 K0']; subst. inversion K0' as [|? ? W1 _]; subst.
  assert (V : c_val c = V_OUT \/ c_val c = V_IN).
  { unfold test_tube in K. cbn [nth] in K. destruct (_ || _ || _); [left; congruence|]. destruct (_ && _); [|discriminate].
    destruct y0 as [|[l|] [h|]]; try discriminate. destruct (all_slices _ _ _); [right; congruence|discriminate]. }
  destruct V as [V|V]; rewrite V in K; [left|right; left]; split; auto.
  - intros q Hq. inversion Hq as [|t ? q1 ? Ht Hq1]; subst. inversion Hq1 as [|v ? q2 ? Hv Hq2]; subst. inversion Hq2; subst. exact (TO _ _ _ _ W0 W1 K Ht Hv).
  - intros t v Hq. inversion Hq as [|? ? ? ? Ht Hq1]; subst. inversion Hq1 as [|? ? ? ? Hv _]; subst. exact (TI _ _ _ _ W0 W1 K Ht Hv).
Qed.

(** Both computations end, for a bisector that reduces the boxes. *)
Theorem C80_ends : forall bis q precision y, bis_ok bis -> bis_shrinks q bis -> bis_bounded bis -> 0 < precision -> Forall bounded y ->
  (forall xs, exists fuel p, tube_paving_vec xs bis precision y fuel = Some p) /\ (forall x, exists fuel p, tube_paving x bis precision y fuel = Some p).
Proof. intros bis q precision y HB HS HK Hp B. split; intros; eapply C63_ends; eauto. Qed.

(** ** Concrete cases *)
(** one slice, [0,1] x [0,1] *)
Definition sV : slice := mkS 0 1 (I2 0 1) (I2 0 1) (I2 0 1).
Lemma sV_ok : tube_ok 0 1 [sV]. Proof. tube_ok_tac. Qed.
Lemma sV_has : has [sV] (fun _ => 1/2). Proof. has_tac. Qed.
Lemma sV_invert c d : c <= d -> slice_invert sV (I2 c d) (inter (bnd 0 1) (s_dom sV)) = if Rleb c 1 && Rleb 0 d then I2 0 1 else Emp.
Proof.
  intros H. assert (inter (bnd 0 1) (s_dom sV) = I2 0 1) as -> by (unfold bnd, s_dom, sV, I2; cbn; unfold mk; reval; auto).
  unfold slice_invert, sV, s_dom, I2, intersects. cbn. unfold mk. reval.
  unfold Rleb, Rmax, Rmin. destruct (Rle_dec c 0); destruct (Rle_dec d 1); cbn.
  all: repeat match goal with |- context [Rle_dec ?u ?v] => destruct (Rle_dec u v); cbn; try (exfalso; lra); try reflexivity end.
Qed.
Lemma sV_test c d e h : c <= d -> e <= h -> 0 <= d -> e <= 1 -> 0 <= h ->
  test_tubes [[sV]; [sV]] [I2 c d; I2 e h] = if Rltb 1 c then Some V_OUT else if Rleb 0 c && Rleb d 1 && (Rleb 0 e && Rleb h 1) then Some V_IN else None.
Proof.
  intros H1 H2 H3 H4 H5. unfold test_tubes. assert (tube_tdomain [sV] = Itv (Some 0) (Some 1)) as -> by (unfold tube_tdomain, bnd; cbn; unfold mk; reval; auto).
  unfold vinvert_list. rewrite (Rltb_f 0 (t0 [sV])), (Rltb_f (tf [sV]) 1) by (cbn; lra). cbn [orb map].
  assert (time_to_index 0 [sV] = 0%nat) as -> by (cbn; reval; reflexivity). cbn [skipn vinvert_locs s_lb sV map hd tl].
  rewrite (Rleb_t 0 1) by lra. unfold CtcEval.map2. cbn [combine map fst snd fold_left]. fold sV.
  rewrite !sV_invert by auto. rewrite (Rleb_t 0 d), (Rleb_t e 1), (Rleb_t 0 h) by lra. rewrite andb_true_r. cbn [andb].
  destruct (Rleb c 1) eqn:C1; [apply Rleb_true in C1; rewrite (Rltb_f 1 c) by lra|apply Rleb_false in C1; rewrite (Rltb_t 1 c) by lra; reflexivity].
  assert (inter (inter ALL (I2 0 1)) (I2 0 1) = I2 0 1) as -> by (unfold I2; cbn; unfold mk; reval; auto).
  change (windows [I2 0 1] Emp) with [I2 0 1]. cbn [existsb].
  change (in_window [[sV]; [sV]] [I2 c d; I2 e h] (I2 0 1)) with (if in_tdomain [sV] 0 then in_slices [I2 c d; I2 e h] 1
    (skipn (time_to_index 0 [sV]) [sV]) [skipn (time_to_index 0 [sV]) [sV]] else false).
  assert (in_tdomain [sV] 0 = true) as -> by (cbn; reval; reflexivity).
  assert (time_to_index 0 [sV] = 0%nat) as -> by (cbn; reval; reflexivity). cbn [skipn in_slices map hd tl combine].
  rewrite (Rleb_t (s_ub sV) 1) by (cbn; lra). cbn [forallb fst snd]. cbn. rewrite !orb_false_r, andb_true_r. reflexivity.
Qed.
Lemma lf_first c d e h m : c < d -> h - e <= d - c -> m = c + 1 / 2 * (d - c) ->
  lf (1 / 2) [I2 c d; I2 e h] = Some ([I2 c m; I2 e h], [I2 m d; I2 e h]).
Proof. intros H1 H2 ->. unfold lf. cbn. rewrite (Rleb_t (h - e) (d - c)) by lra. cbn. rewrite (Rltb_t 0 (d - c)) by lra. reflexivity. Qed.
Lemma compute_bis test bis precision fuel c next x1 x2 : test (c_box c) = None -> max_diam_lt precision (c_box c) = false -> bis (c_box c) = Some (x1, x2) ->
  compute test bis precision (S fuel) c next =
  match compute test bis precision fuel (mkC next x1 (c_val c) (c_root c)) (S (S next)) with
  | Some (p1, n1) => match compute test bis precision fuel (mkC (S next) x2 (c_val c) (c_root c)) n1 with Some (p2, n2) => Some (Node c p1 p2, n2) | None => None end
  | None => None
  end.
Proof. intros E1 E2 E3. cbn [compute]. rewrite E1, E2, E3. reflexivity. Qed.
Lemma compute_val test bis precision fuel c next v : test (c_box c) = Some v -> compute test bis precision fuel c next = Some (Leaf (with_val v c), next).
Proof. intros E1. destruct fuel; cbn [compute]; rewrite E1; reflexivity. Qed.
Lemma compute_unk test bis precision fuel c next : test (c_box c) = None -> max_diam_lt precision (c_box c) = true ->
  compute test bis precision fuel c next = Some (Leaf (with_val V_UNKNOWN c), next).
Proof. intros E1 E2. destruct fuel; cbn [compute]; rewrite E1, E2; reflexivity. Qed.
Example C80_vector_example : exists p, tube_paving_vec [[sV]; [sV]] (lf (1 / 2)) (3 / 2) [I2 0 4; I2 0 1] 2 = Some p /\
  map c_val (leaves p) = [V_IN; V_UNKNOWN; V_OUT] /\ classified (reached 0 1 [[sV]; [sV]]) (3 / 2) [I2 0 4; I2 0 1] (leaves p).
Proof.
  assert (E : exists p, tube_paving_vec [[sV]; [sV]] (lf (1 / 2)) (3 / 2) [I2 0 4; I2 0 1] 2 = Some p /\ map c_val (leaves p) = [V_IN; V_UNKNOWN; V_OUT]).
  { unfold tube_paving_vec, sivia_paving.
    rewrite (compute_bis _ _ _ _ _ _ [I2 0 2; I2 0 1] [I2 2 4; I2 0 1]); [|cbn [c_box]; rewrite sV_test by lra; reval; auto|cbn; reval; auto|apply lf_first; lra].
    rewrite (compute_bis _ _ _ _ _ _ [I2 0 1; I2 0 1] [I2 1 2; I2 0 1]); [|cbn [c_box]; rewrite sV_test by lra; reval; auto|cbn; reval; auto|apply lf_first; lra].
    rewrite (compute_val _ _ _ _ _ _ V_IN) by (cbn [c_box]; rewrite sV_test by lra; reval; auto).
    rewrite compute_unk by (cbn [c_box]; first [rewrite sV_test by lra; reval; auto|cbn; reval; auto]).
    rewrite (compute_val _ _ _ _ _ _ V_OUT) by (cbn [c_box]; rewrite sV_test by lra; reval; auto).
    eexists. split; reflexivity. }
  destruct E as (p & E & V). exists p. refine (conj E (conj V _)).
  eapply (C80_vector 0 1 [[sV]; [sV]] [(fun _ => 1/2); (fun _ => 1/2)]); [discriminate| | | | | | |exact E].
  - apply Forall_cons; [exact sV_ok|apply Forall_cons; [exact sV_ok|apply Forall_nil]].
  - intros x x' [<-|[<-|[]]] [<-|[<-|[]]]; reflexivity.
  - constructor; [exact sV_has|constructor; [exact sV_has|constructor]].
  - apply lf_ok. lra.
  - repeat constructor; cbn; lra.
  - reflexivity.
Qed.

(** two slices, the gate between them is thinner than the codomains *)
Definition xG : tube := [mkS 0 1 (I2 0 2) (I2 0 2) (I2 0 1); mkS 1 2 (I2 0 2) (I2 0 1) (I2 0 2)].
Lemma xG_ok : tube_ok 0 2 xG. Proof. tube_ok_tac. Qed.
Lemma xG_has : has xG (fun _ => 1). Proof. has_tac. Qed.
Lemma xG_test : test_tube xG [I2 0 2; I2 0 2] = Some V_IN.
Proof.
  unfold test_tube. cbn [nth]. rewrite (tdomain_ok 0 2 xG xG_ok).
  assert (inter (bnd 0 2) (I2 0 2) = I2 0 2) as -> by (unfold bnd, mk; reval; unfold I2; cbn; unfold mk; reval; auto).
  assert (eval_itv xG (I2 0 2) = I2 0 2) as -> by (unfold xG, I2; cbn; reval; unfold mk; reval; auto).
  assert (codomain xG = I2 0 2) as -> by (unfold xG, I2, codomain; cbn; unfold mk; reval; auto).
  assert (bnd 0 2 = I2 0 2) as -> by (unfold bnd, mk, I2; reval; auto).
  unfold I2 at 1 2 3 4 5 6 7 8 9. cbn. unfold mk. reval. auto.
Qed.
(** A box that is IN and that holds a point which no trajectory of the tube reaches: codac_TubePaving.cpp 97-103 looks at
    the codomains of the slices, not at their gates. *)
Theorem C80_gate_refuted : exists a b x f y p c q, tube_ok a b x /\ has x f /\ Forall wf y /\
  (forall bis precision fuel, tube_paving x bis precision y fuel = Some p) /\
  List.In c (leaves p) /\ c_val c = V_IN /\ inb q (c_box c) /\ ~ graph a b x q.
Proof.
  exists 0, 2, xG, (fun _ => 1), [I2 0 2; I2 0 2], (Leaf (mkC 0 [I2 0 2; I2 0 2] V_IN 0)), (mkC 0 [I2 0 2; I2 0 2] V_IN 0), [1; 2].
  refine (conj xG_ok (conj xG_has (conj _ (conj _ (conj _ (conj eq_refl (conj _ _))))))).
  - repeat constructor; cbn; lra.
  - intros bis precision fuel. unfold tube_paving, sivia_paving. rewrite (compute_val _ _ _ _ _ _ V_IN) by exact xG_test. reflexivity.
  - left. reflexivity.
  - repeat constructor; cbn; lra.
  - intros (g & t & Hg & Ht & Ep). injection Ep as <- Eg. destruct (Hg _ (or_introl eq_refl)) as (_ & K & _). cbn in K. lra.
Qed.
(** at an instant which is not the bound of a slice, the same box is right; outside of the tube, OUT *)
Example C80_scalar_example : test_tube xG [I2 0 2; I2 0 2] = Some V_IN /\ inside xG (1 / 2) /\ graph 0 2 xG [1 / 2; 2] /\
  test_tube xG [I2 0 2; I2 3 4] = Some V_OUT /\ ~ graph 0 2 xG [1; 3].
Proof.
  destruct (test_tube_ok 0 2 xG _ xG_ok xG_has) as [TO TI].
  assert (K : inside xG (1 / 2)) by (intros s [<-|[<-|[]]]; cbn; lra).
  assert (O : test_tube xG [I2 0 2; I2 3 4] = Some V_OUT).
  { unfold test_tube. cbn [nth]. rewrite (tdomain_ok 0 2 xG xG_ok).
    assert (codomain xG = I2 0 2) as -> by (unfold xG, I2, codomain; cbn; unfold mk; reval; auto).
    assert (inter (I2 0 2) (I2 3 4) = Emp) as -> by (unfold I2; cbn; unfold mk; reval; auto). cbn [is_empty]. rewrite orb_true_r. reflexivity. }
  refine (conj xG_test (conj K (conj _ (conj O _)))).
  - apply (TI (I2 0 2) (I2 0 2)); auto; try (cbn; lra). exact xG_test.
  - apply (TO (I2 0 2) (I2 3 4)); auto; cbn; lra.
Qed.

Print Assumptions C80_vector.
Print Assumptions C80_scalar_partial.
Print Assumptions C80_ends.
Print Assumptions C80_gate_refuted.
