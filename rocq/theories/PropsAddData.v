(** * C33, C62: live data *)

From Coq Require Import Reals Lra Bool List Arith Lia.
From Verif Require Import Itv Tube TubeSpec TubeFacts TubeOps TubeOpsFacts TubeCtc Trajectory TrajFacts Concrete PropsTraj AddData.
Import ListNotations.
Open Scope R_scope.

(** ** Specification *)

Notation datum := (R * (R * R))%type (only parsing).
(** the data kept: those whose time is after the ones of the data kept before *)
Fixpoint kept_after (p : R) (l : list datum) : list datum :=
  match l with
  | [] => []
  | d :: r => if Rlt_dec p (fst d) then d :: kept_after (fst d) r else kept_after p r
  end.
Definition kept (l : list datum) : list datum :=
  match l with [] => [] | d :: r => d :: kept_after (fst d) r end.

(** between two successive data, f stays between the lines that join their bounds *)
Definition consistent (l : list datum) (f : R -> R) : Prop :=
  forall l1 t1 a1 b1 t2 a2 b2 l2, l = l1 ++ (t1, (a1, b1)) :: (t2, (a2, b2)) :: l2 ->
  forall t, t1 <= t <= t2 ->
    a1 + (t - t1) * (a2 - a1) / (t2 - t1) <= f t <= b1 + (t - t1) * (b2 - b1) / (t2 - t1).

(** v is the value at a time of [c,d] of one of the lines that join the lower bounds, or the upper
    bounds, of two successive data *)
Definition on_line (l : list datum) (c d v : R) : Prop :=
  exists l1 t1 a1 b1 t2 a2 b2 l2 t, l = l1 ++ (t1, (a1, b1)) :: (t2, (a2, b2)) :: l2 /\ t1 <= t <= t2 /\ c <= t <= d /\
    (v = a1 + (t - t1) * (a2 - a1) / (t2 - t1) \/ v = b1 + (t - t1) * (b2 - b1) / (t2 - t1)).

(** the data start before c and end after d *)
Definition covers (l : list datum) (c d : R) : Prop :=
  exists p q, List.In p l /\ List.In q l /\ fst p <= c /\ d <= fst q.

(** ** Lists of data *)

Definition lows (l : list datum) : smap := map (fun d => (fst d, fst (snd d))) l.
Definition highs (l : list datum) : smap := map (fun d => (fst d, snd (snd d))) l.
Definition chrono (l : list datum) : Prop := sorted (lows l).

Lemma lows_key l t : is_key (lows l) t <-> exists y, List.In (t, y) l.
Proof.
  unfold is_key, lows. split.
  - intros [v H]. apply in_map_iff in H. destruct H as ([k [a b]] & E & H). injection E as -> _. eauto.
  - intros [[a b] H]. exists a. apply in_map_iff. exists (t, (a, b)). auto.
Qed.
Lemma highs_key l t : is_key (highs l) t <-> exists y, List.In (t, y) l.
Proof.
  unfold is_key, highs. split.
  - intros [v H]. apply in_map_iff in H. destruct H as ([k [a b]] & E & H). injection E as -> _. eauto.
  - intros [[a b] H]. exists b. apply in_map_iff. exists (t, (a, b)). auto.
Qed.
Lemma sorted_highs : forall l, chrono l -> sorted (highs l).
Proof.
  unfold chrono. induction l as [|[t [a b]] l IH]; intros H; cbn in *; auto. destruct H as [H1 H2]. split; auto.
  apply Forall_forall. intros p Hp. apply in_map_iff in Hp. destruct Hp as (d & <- & Hd). cbn.
  rewrite Forall_forall in H1. apply (H1 (fst d, fst (snd d))). apply in_map_iff. eauto.
Qed.
Lemma chrono_tail d l : chrono (d :: l) -> chrono l.
Proof. unfold chrono. cbn. tauto. Qed.
Lemma chrono_head d l e : chrono (d :: l) -> List.In e l -> fst d < fst e.
Proof.
  unfold chrono. cbn. intros [H _] He. rewrite Forall_forall in H. apply (H (fst e, fst (snd e))). apply in_map_iff. eauto.
Qed.

(** a time between two data is between two successive ones *)
Lemma segment : forall l t p q, chrono l -> List.In p l -> List.In q l -> fst p <= t <= fst q -> fst p < fst q ->
  exists l1 d1 d2 l2, l = l1 ++ d1 :: d2 :: l2 /\ fst d1 <= t <= fst d2.
Proof.
  induction l as [|d l IH]; intros t p q Hc Hp Hq Ht Hpq; [destruct Hp|].
  destruct Hq as [->|Hq].
  - exfalso. destruct Hp as [->|Hp]; [lra|]. pose proof (chrono_head _ _ _ Hc Hp). lra.
  - destruct l as [|d2 l]; [destruct Hq|]. destruct (Rle_dec t (fst d2)).
    + destruct (Rle_dec (fst d) t).
      * exists [], d, d2, l. split; auto.
      * exfalso. destruct Hp as [->|Hp]; [lra|]. pose proof (chrono_head _ _ _ Hc Hp). lra.
    + destruct (IH t d2 q) as (l1 & e1 & e2 & l2 & E & H); auto.
      * apply (chrono_tail _ _ Hc).
      * left; auto.
      * lra.
      * lra.
      * exists (d :: l1), e1, e2, l2. rewrite E. auto.
Qed.

Lemma pl_lows l l1 t1 a1 b1 t2 a2 b2 l2 t : chrono l -> l = l1 ++ (t1, (a1, b1)) :: (t2, (a2, b2)) :: l2 -> t1 <= t <= t2 ->
  pl (lows l) t = Some (a1 + (t - t1) * (a2 - a1) / (t2 - t1)).
Proof. intros Hc -> Ht. apply (pl_seg _ (lows l1) t1 a1 t2 a2 (lows l2)); auto. unfold lows. rewrite map_app. auto. Qed.
Lemma pl_highs l l1 t1 a1 b1 t2 a2 b2 l2 t : chrono l -> l = l1 ++ (t1, (a1, b1)) :: (t2, (a2, b2)) :: l2 -> t1 <= t <= t2 ->
  pl (highs l) t = Some (b1 + (t - t1) * (b2 - b1) / (t2 - t1)).
Proof. intros Hc -> Ht. apply (pl_seg _ (highs l1) t1 b1 t2 b2 (highs l2)); auto using sorted_highs. unfold highs. rewrite map_app. auto. Qed.

(** ** State of the trajectories *)

Record fed (l : list datum) (s : dst) : Prop := mkFed {
  f_lb : traj_ok (d_lb s); f_ub : traj_ok (d_ub s);
  f_lmap : t_map (d_lb s) = lows l; f_umap : t_map (d_ub s) = highs l; f_chr : chrono l }.

Lemma fed_dom l s c d : fed l s -> c < d -> (covers l c d <-> In c (t_dom (d_lb s)) /\ In d (t_dom (d_lb s))).
Proof.
  intros F Hcd. pose proof (f_lb _ _ F) as Ok. rewrite !dom_contains by auto. rewrite !pl_def by apply Ok. rewrite (f_lmap _ _ F). split.
  - intros (p & q & Hp & Hq & Hc & Hd).
    assert (Kp : is_key (lows l) (fst p)) by (apply lows_key; exists (snd p); destruct p; auto).
    assert (Kq : is_key (lows l) (fst q)) by (apply lows_key; exists (snd q); destruct q; auto).
    split; exists (fst p), (fst q); repeat split; auto; lra.
  - intros [(k1 & k2 & K1 & K2 & H1) (k3 & k4 & K3 & K4 & H2)].
    apply lows_key in K1, K4. destruct K1 as [y1 K1], K4 as [y4 K4]. exists (k1, y1), (k4, y4). cbn. repeat split; auto; lra.
Qed.
Lemma fed_domu l s c d : fed l s -> c < d -> covers l c d -> In c (t_dom (d_ub s)) /\ In d (t_dom (d_ub s)).
Proof.
  intros F Hcd. pose proof (f_ub _ _ F) as Ok. rewrite !dom_contains by auto. rewrite !pl_def by apply Ok. rewrite (f_umap _ _ F).
  intros (p & q & Hp & Hq & Hc & Hd).
  assert (Kp : is_key (highs l) (fst p)) by (apply highs_key; exists (snd p); destruct p; auto).
  assert (Kq : is_key (highs l) (fst q)) by (apply highs_key; exists (snd q); destruct q; auto).
  split; exists (fst p), (fst q); repeat split; auto; lra.
Qed.

(** the envelope computed for a slice *)
Lemma env_spec l s c d : fed l s -> c < d -> covers l c d -> exists e1 e2, traj_on (d_lb s) c d = Some e1 /\ traj_on (d_ub s) c d = Some e2 /\
  smallest (on_line l c d) (hull e1 e2).
Proof.
  intros F Hcd Hc. destruct (proj1 (fed_dom l s c d F Hcd) Hc) as [L1 L2]. destruct (fed_domu l s c d F Hcd Hc) as [U1 U2].
  pose proof (f_lb _ _ F) as Ol. pose proof (f_ub _ _ F) as Ou. pose proof (f_chr _ _ F) as Ch.
  destruct (C34_interval (d_lb s) c d) as (e1 & E1 & S1); auto using ok_sampled; [lra|].
  destruct (C34_interval (d_ub s) c d) as (e2 & E2 & S2); auto using ok_sampled; [lra|].
  exists e1, e2. split; auto. split; auto. eapply smallest_ext; [|apply (smallest_hull _ _ _ _ S1 S2)].
  intros v. unfold taken. split.
  - intros H. assert (G : exists t, c <= t <= d /\ (pl (lows l) t = Some v \/ pl (highs l) t = Some v)).
    { rewrite <- (f_lmap _ _ F), <- (f_umap _ _ F). destruct H as [(t & Ht & H)|(t & Ht & H)]; rewrite traj_at_pl in H by auto; eauto. }
    destruct G as (t & Ht & H'). destruct Hc as (p & q & Hp & Hq & Hpc & Hqd).
    destruct (segment l t p q Ch Hp Hq) as (l1 & [t1 [a1 b1]] & [t2 [a2 b2]] & l2 & E & Hs); try lra. cbn in Hs.
    exists l1, t1, a1, b1, t2, a2, b2, l2, t. do 3 (split; auto).
    rewrite (pl_lows _ _ _ _ _ _ _ _ _ _ Ch E Hs), (pl_highs _ _ _ _ _ _ _ _ _ _ Ch E Hs) in H'. destruct H' as [H'|H']; injection H' as <-; auto.
  - intros (l1 & t1 & a1 & b1 & t2 & a2 & b2 & l2 & t & E & Hs & Ht & Hv). destruct Hv as [->| ->].
    + left. exists t. split; auto. rewrite traj_at_pl, (f_lmap _ _ F) by auto. apply (pl_lows l l1 t1 a1 b1 t2 a2 b2 l2); auto.
    + right. exists t. split; auto. rewrite traj_at_pl, (f_umap _ _ F) by auto. apply (pl_highs l l1 t1 a1 b1 t2 a2 b2 l2); auto.
Qed.
Lemma consistent_in l c d e f : chrono l -> covers l c d -> c < d -> consistent l f -> smallest (on_line l c d) e -> forall t, c <= t <= d -> In (f t) e.
Proof.
  intros Ch (p & q & Hp & Hq & Hpc & Hqd) Hcd Hf He t Ht.
  destruct (segment l t p q Ch Hp Hq) as (l1 & [t1 [a1 b1]] & [t2 [a2 b2]] & l2 & E & Hs); try lra. cbn in Hs.
  apply (smallest_between _ _ _ _ _ He) with (3 := Hf _ _ _ _ _ _ _ _ E t Hs).
  - exists l1, t1, a1, b1, t2, a2, b2, l2, t. auto 8.
  - exists l1, t1, a1, b1, t2, a2, b2, l2, t. auto 8.
Qed.

(** ** The loop *)

Lemma is_subset_bnd c d i : c < d -> (is_subset (bnd c d) i = true <-> In c i /\ In d i).
Proof.
  intros H. split.
  - intros E. apply is_subset_sub in E. split; apply E; apply In_bnd; lra.
  - intros [A B]. apply sub_is_subset; [apply wf_mk|]. intros t Ht. apply In_bnd in Ht. apply (In_convex c t d); auto.
Qed.

(** one iteration *)
Lemma contract_step l s a b x k sl : fed l s -> tube_ok a b x -> nth_error x k = Some sl ->
  (~ covers l (s_lb sl) (s_ub sl) /\ contract_down (S k) (d_lb s) (d_ub s) x = Some x) \/
  (covers l (s_lb sl) (s_ub sl) /\ exists e, smallest (on_line l (s_lb sl) (s_ub sl)) e /\
     ((sub (s_cod sl) e /\ contract_down (S k) (d_lb s) (d_ub s) x = Some x) \/
      (~ sub (s_cod sl) e /\ contract_down (S k) (d_lb s) (d_ub s) x = contract_down k (d_lb s) (d_ub s) (set_envelope k e true x)))).
Proof.
  intros F Hx E. cbn [contract_down]. rewrite E.
  destruct (chain_in_bounds _ _ _ _ (ok_chain _ _ _ Hx) (nth_error_In _ _ E)) as (_ & Hlt & _).
  assert (W : wf (s_cod sl)).
  { pose proof (ok_slices _ _ _ Hx) as HF. rewrite Forall_nth in HF. apply (HF _ _ E). }
  destruct (is_subset (bnd (s_lb sl) (s_ub sl)) (t_dom (d_lb s))) eqn:Ei.
  - right. apply is_subset_bnd in Ei; auto. assert (Hc : covers l (s_lb sl) (s_ub sl)) by (apply (fed_dom l s); auto). split; auto.
    destruct (env_spec l s _ _ F Hlt Hc) as (e1 & e2 & -> & -> & He). exists (hull e1 e2). split; auto. cbn zeta.
    destruct (is_subset (s_cod sl) (hull e1 e2)) eqn:Es.
    + left. split; auto. apply is_subset_sub; auto.
    + right. split; auto. intros Hs. apply sub_is_subset in Hs; auto. congruence.
  - left. split; auto. intros Hc. apply (fed_dom l s) in Hc; auto. apply (is_subset_bnd _ _ _ Hlt) in Hc. congruence.
Qed.
Lemma smallest_wf P i : smallest P i -> wf i.
Proof. intros (W & _). auto. Qed.

Lemma contract_down_ok l s a b : fed l s -> forall n x, tube_ok a b x -> (n <= length x)%nat ->
  exists x', contract_down n (d_lb s) (d_ub s) x = Some x' /\ tube_ok a b x' /\ map dom x' = map dom x /\
    forall f, has x f -> consistent l f -> has x' f.
Proof.
  intros F. induction n as [|k IH]; intros x Hx Hn; [exists x; auto|].
  destruct (nth_error x k) as [sl|] eqn:E; [|apply nth_error_None in E; lia].
  destruct (contract_step l s a b x k sl F Hx E) as [[_ ->]|(Hc & e & He & [[_ ->]|[_ ->]])]; eauto.
  pose proof (set_envelope_ok a b x k e Hx (smallest_wf _ _ He)) as Hx1.
  destruct (IH _ Hx1) as (x' & E' & Ok' & D' & K').
  { rewrite (length_dom _ x); [lia|apply set_envelope_dom]. }
  exists x'. rewrite D', set_envelope_dom. split; auto. split; auto. split; auto. intros f Hf Hl. apply K'; auto.
  apply (set_envelope_has a b x k sl e f); auto.
  destruct (chain_in_bounds _ _ _ _ (ok_chain _ _ _ Hx) (nth_error_In _ _ E)) as (_ & Hlt & _).
  apply (consistent_in l (s_lb sl) (s_ub sl) e f (f_chr _ _ F) Hc Hlt Hl He).
Qed.

(** ** One call *)

Lemma kept_snoc_aux : forall l p d, kept_after p (l ++ [d]) = kept_after p l ++
  (if Rlt_dec (last (map fst (kept_after p l)) p) (fst d) then [d] else []).
Proof.
  induction l as [|e l IH]; intros p d; cbn [kept_after app map last].
  - destruct (Rlt_dec p (fst d)); auto.
  - destruct (Rlt_dec p (fst e)); auto. cbn [app]. f_equal. rewrite IH. cbn [map last]. f_equal.
    destruct (map fst (kept_after (fst e) l)) as [|a m] eqn:Em; [reflexivity|]. rewrite (last_default (a :: m) p (fst e)) by discriminate. auto.
Qed.

(** the time of the last datum *)
Lemma fed_last l d s : fed (l ++ [d]) s -> exists a, t_dom (d_lb s) = Itv a (Some (fst d)).
Proof.
  intros F. pose proof (f_lb _ _ F) as (_ & Hs & (W & A & B) & _). rewrite (f_lmap _ _ F) in *. 
  assert (K : In (fst d) (t_dom (d_lb s))).
  { apply A. apply lows_key. exists (snd d). apply in_or_app. right; left. destruct d; auto. }
  assert (M : sub (t_dom (d_lb s)) (Itv None (Some (fst d)))).
  { apply B. intros v Hv. apply lows_key in Hv. destruct Hv as [y Hy]. cbn. split; auto. apply in_app_or in Hy. destruct Hy as [Hy|[->|[]]]; [|cbn; lra].
    apply Rlt_le. pose proof (f_chr _ _ F) as C. clear - C Hy. induction l as [|e l IH]; [destruct Hy|]. destruct Hy as [->|Hy].
    - apply (chrono_head _ _ d C). apply in_or_app. right; left; auto.
    - apply IH; auto. apply (chrono_tail _ _ C). }
  destruct (t_dom (d_lb s)) as [|a [b|]]; [destruct K| |].
  - exists a. assert (G : b = fst d); [|subst; auto]. cbn in K. assert (In b (Itv a (Some b))).
    { destruct a; cbn in W |- *; split; auto; lra. }
    apply M in H. cbn in H. lra.
  - exfalso. assert (G : In (Rmax (fst d) 0 + 1) (Itv a None)).
    { pose proof (Rmax_l (fst d) 0). destruct a; cbn in K |- *; split; auto; lra. }
    apply M in G. cbn in G. pose proof (Rmax_l (fst d) 0). lra.
Qed.

Lemma lows_app l m : lows (l ++ m) = lows l ++ lows m. Proof. apply map_app. Qed.
Lemma highs_app l m : highs (l ++ m) = highs l ++ highs m. Proof. apply map_app. Qed.

(** adding a datum after the others to the two trajectories *)
Lemma fed_add l s t lo hi x : fed l s -> (forall d, List.In d l -> fst d < t) ->
  exists lb ub, traj_set lo t (d_lb s) = Some lb /\ traj_set hi t (d_ub s) = Some ub /\ fed (l ++ [(t, (lo, hi))]) (mkD x lb ub).
Proof.
  intros [Ol Ou Ml Mu C] Ht. destruct (set_def lo t _ Ol) as [lb El], (set_def hi t _ Ou) as [ub Eu]. exists lb, ub. split; auto. split; auto.
  assert (Pl : t_map lb = lows (l ++ [(t, (lo, hi))])).
  { rewrite (set_map _ _ _ _ El), Ml, lows_app. apply put_last. apply Forall_forall. intros p Hp. apply in_map_iff in Hp. destruct Hp as (d & <- & Hd). apply (Ht d Hd). }
  assert (Pu : t_map ub = highs (l ++ [(t, (lo, hi))])).
  { rewrite (set_map _ _ _ _ Eu), Mu, highs_app. apply put_last. apply Forall_forall. intros p Hp. apply in_map_iff in Hp. destruct Hp as (d & <- & Hd). apply (Ht d Hd). }
  split; auto.
  - apply (ok_set _ _ _ _ Ol El).
  - apply (ok_set _ _ _ _ Ou Eu).
  - unfold chrono. rewrite <- Pl. apply (ok_set _ _ _ _ Ol El).
Qed.

(** a call, in terms of the data kept so far *)
Definition start (t : R) (x : tube) : nat := if Rltb t (tf x) then time_to_index t x else length x.
Lemma add_data_cases l s t lo hi a b : fed l s -> tube_ok a b (d_tube s) ->
  (l = [] /\ exists s', add_data t lo hi s = Some (true, s') /\ d_tube s' = d_tube s /\ fed [(t, (lo, hi))] s') \/
  (exists l0 d, l = l0 ++ [d] /\ t <= fst d /\ add_data t lo hi s = Some (false, s)) \/
  (exists l0 d lb ub, l = l0 ++ [d] /\ fst d < t /\ (forall x, fed (l ++ [(t, (lo, hi))]) (mkD x lb ub)) /\
     ((fst d < a /\ add_data t lo hi s = Some (true, mkD (d_tube s) lb ub)) \/
      (a <= fst d /\ add_data t lo hi s =
         match contract_down (start t (d_tube s)) lb ub (d_tube s) with Some x => Some (true, mkD x lb ub) | None => None end))).
Proof.
  intros F Hx. destruct l as [|d0 l0] using rev_ind.
  - left. split; auto. destruct (fed_add [] s t lo hi (d_tube s) F) as (lb & ub & El & Eu & F'); [intros d []|].
    unfold add_data. rewrite (f_lmap _ _ F). cbn [lows map]. rewrite El, Eu. eexists. split; [reflexivity|]. auto.
  - right. clear IHl0. destruct (fed_last _ _ _ F) as [lo0 Ed].
    assert (Em : exists p m, t_map (d_lb s) = p :: m).
    { rewrite (f_lmap _ _ F), lows_app. destruct l0 as [|e l1]; cbn; eauto. }
    destruct Em as (p & m & Em). unfold add_data. rewrite Em, Ed. destruct (Rleb t (fst d0)) eqn:Et.
    + left. apply Rleb_true in Et. eauto.
    + right. apply Rleb_false in Et. destruct (fed_add _ s t lo hi (d_tube s) F) as (lb & ub & El & Eu & F').
      { intros d Hd. apply in_app_or in Hd. destruct Hd as [Hd|[<-|[]]]; auto. apply Rlt_trans with (fst d0); auto.
        pose proof (f_chr _ _ F) as C. clear - C Hd. induction l0 as [|e l IH]; [destruct Hd|]. destruct Hd as [->|Hd].
        - apply (chrono_head _ _ d0 C). apply in_or_app. right; left; auto.
        - apply IH; auto. apply (chrono_tail _ _ C). }
      exists l0, d0, lb, ub. split; auto. split; auto. split.
      { intros x. destruct F' as [O1 O2 M1 M2 C]. split; auto. }
      rewrite El, Eu. rewrite (chain_t0 _ _ _ (ok_chain _ _ _ Hx) (ok_ne _ _ _ Hx)). destruct (Rltb (fst d0) a) eqn:Ea.
      * left. apply Rltb_true in Ea. auto.
      * right. apply Rltb_false in Ea. split; auto.
Qed.
Lemma start_le t x : (start t x <= length x)%nat.
Proof.
  unfold start. destruct (Rltb t (tf x)); auto. induction x as [|s r IH]; cbn; auto. destruct (Rltb t (s_ub s)); [lia|]. destruct r; lia.
Qed.

(** ** C33 *)

(** what the history of data [k] leaves, from the tube x *)
Record state_ok (a b : R) (x : tube) (k : list datum) (s : dst) : Prop := mkSO {
  so_fed : fed k s; so_ok : tube_ok a b (d_tube s); so_dom : map dom (d_tube s) = map dom x;
  so_has : forall f, has x f -> consistent k f -> has (d_tube s) f }.

Lemma consistent_app l m f : consistent (l ++ m) f -> consistent l f.
Proof.
  intros H l1 t1 a1 b1 t2 a2 b2 l2 E. apply (H l1 t1 a1 b1 t2 a2 b2 (l2 ++ m)). rewrite E, <- app_assoc. auto.
Qed.
Lemma add_data_ok a b x l s t lo hi : state_ok a b x l s ->
  exists r s', add_data t lo hi s = Some (r, s') /\
    state_ok a b x (if r then l ++ [(t, (lo, hi))] else l) s' /\
    (r = false <-> exists d, List.In d l /\ t <= fst d) /\ (r = false -> s' = s).
Proof.
  intros [F Ok D H]. destruct (add_data_cases l s t lo hi a b F Ok) as [(-> & s' & E & Et & F')|[(l0 & d & -> & Ht & E)|(l0 & d & lb & ub & -> & Ht & F' & Hcase)]].
  - exists true, s'. split; auto. split; [|split; [|discriminate]].
    + split; auto; rewrite ?Et; auto. intros f Hf _. apply H; auto. intros l1 ? ? ? ? ? ? ? E'. destruct l1; discriminate.
    + split; [discriminate|]. intros (d & [] & _).
  - exists false, s. split; auto. split; [split; auto|]. split; auto. split; auto. intros _. exists d. split; auto. apply in_or_app. right; left; auto.
  - assert (Hno : true = false <-> exists d', List.In d' (l0 ++ [d]) /\ t <= fst d').
    { split; [discriminate|]. intros (d' & Hd & Ht'). exfalso. pose proof (f_chr _ _ (F' [])) as C. clear - C Hd Ht'.
      induction (l0 ++ [d]) as [|e l IH]; [destruct Hd|]. destruct Hd as [->|Hd].
      - assert (fst d' < fst (t, (lo, hi))) by (apply (chrono_head _ _ _ C); apply in_or_app; right; left; auto). cbn in *; lra.
      - apply IH; auto. apply (chrono_tail _ _ C). }
    destruct Hcase as [[_ E]|[_ E]].
    + exists true. eexists. split; [exact E|]. split; [|split; [exact Hno|discriminate]]. split; auto. cbn. intros f Hf Hc. apply H; auto. apply (consistent_app _ _ _ Hc).
    + destruct (contract_down_ok _ (mkD (d_tube s) lb ub) a b (F' (d_tube s)) (start t (d_tube s)) (d_tube s) Ok (start_le _ _)) as (x' & E' & Ok' & D' & H').
      cbn [d_lb d_ub] in E'. rewrite E' in E. exists true. eexists. split; [exact E|]. split; [|split; [exact Hno|discriminate]].
      split; auto; cbn [d_tube].
      * congruence.
      * intros f Hf Hc. apply H'; auto. apply H; auto. apply (consistent_app _ _ _ Hc).
Qed.
Lemma state_new a b x : tube_ok a b x -> state_ok a b x [] (dst_new x).
Proof.
  intros H. split; auto. split; auto using ok_new. cbn. exact I.
Qed.

Definition after_kept (k l : list datum) : list datum :=
  match k with [] => kept l | _ => k ++ kept_after (fst (last k (0, (0, 0)))) l end.
Lemma chrono_last l d e : chrono (l ++ [d]) -> List.In e (l ++ [d]) -> fst e <= fst d.
Proof.
  induction l as [|c l IH]; intros C H.
  - destruct H as [->|[]]. lra.
  - destruct H as [->|H].
    + apply Rlt_le, (chrono_head _ _ d C). apply in_or_app. right; left; auto.
    + apply IH; auto. apply (chrono_tail _ _ C).
Qed.
(** induction over the calls: P holds of the data kept and of the state *)
Lemma feed_ind a b x (P : list datum -> dst -> Prop) :
  (forall k s t lo hi s', state_ok a b x k s -> P k s -> add_data t lo hi s = Some (true, s') -> P (k ++ [(t, (lo, hi))]) s') ->
  forall l k s, state_ok a b x k s -> P k s ->
  exists s', feed l s = Some s' /\ state_ok a b x (after_kept k l) s' /\ P (after_kept k l) s'.
Proof.
  intros Hstep. induction l as [|[t [lo hi]] l IH]; intros k s Hs HP.
  - exists s. split; auto. assert (E : after_kept k [] = k) by (destruct k; cbn; auto; rewrite app_nil_r; auto). rewrite E. auto.
  - cbn [feed]. destruct (add_data_ok a b x k s t lo hi Hs) as (r & s1 & E & Hs1 & Hr & Hf). rewrite E.
    assert (Ek : after_kept k ((t, (lo, hi)) :: l) = after_kept (if r then k ++ [(t, (lo, hi))] else k) l).
    { destruct k as [|d0 k0 _] using rev_ind.
      - destruct r; auto. destruct (proj1 Hr eq_refl) as (d & [] & _).
      - assert (Ea : forall m, after_kept (k0 ++ [d0]) m = (k0 ++ [d0]) ++ kept_after (fst d0) m).
        { intros m. unfold after_kept. rewrite last_last. destruct k0; auto. }
        rewrite Ea. cbn [kept_after fst]. destruct (Rlt_dec (fst d0) t).
        + destruct r.
          * unfold after_kept. rewrite last_last. destruct ((k0 ++ [d0]) ++ [(t, (lo, hi))]) eqn:E0; [destruct (k0 ++ [d0]); discriminate|].
            rewrite <- E0, <- !app_assoc. auto.
          * exfalso. destruct (proj1 Hr eq_refl) as (d & Hd & Ht). pose proof (chrono_last _ _ _ (f_chr _ _ (so_fed _ _ _ _ _ Hs)) Hd). lra.
        + destruct r; [|rewrite Ea; auto]. exfalso. assert (true = false); [|discriminate]. apply Hr. exists d0. split; [apply in_or_app; right; left; auto|lra]. }
    rewrite Ek. destruct r.
    + apply IH; auto. apply (Hstep _ _ _ _ _ _ Hs HP E).
    + rewrite (Hf eq_refl) in *. apply IH; auto.
Qed.

(** For each sequence of data, no call fails, and each trajectory that is in the tube and that is
    consistent with the data kept remains in the tube. *)
Theorem C33_keeps a b x l : tube_ok a b x -> exists s, feed l (dst_new x) = Some s /\ tube_ok a b (d_tube s) /\ same_dom (d_tube s) x /\
  forall f, has x f -> consistent (kept l) f -> has (d_tube s) f.
Proof.
  intros Hx. destruct (feed_ind a b x (fun _ _ => True)) with (l := l) (k := @nil datum) (s := dst_new x) as (s & E & [F Ok D H] & _); auto using state_new.
  exists s. auto.
Qed.

(** *** What the new envelopes are *)

Lemma on_line_pl l c d v : chrono l -> covers l c d -> c < d ->
  (on_line l c d v <-> exists t, c <= t <= d /\ (pl (lows l) t = Some v \/ pl (highs l) t = Some v)).
Proof.
  intros Ch Hc Hcd. split.
  - intros (l1 & t1 & a1 & b1 & t2 & a2 & b2 & l2 & t & E & Hs & Ht & Hv). exists t. split; auto. destruct Hv as [->| ->].
    + left. apply (pl_lows l l1 t1 a1 b1 t2 a2 b2 l2); auto.
    + right. apply (pl_highs l l1 t1 a1 b1 t2 a2 b2 l2); auto.
  - intros (t & Ht & H'). destruct Hc as (p & q & Hp & Hq & Hpc & Hqd).
    destruct (segment l t p q Ch Hp Hq) as (l1 & [t1 [a1 b1]] & [t2 [a2 b2]] & l2 & E & Hs); try lra. cbn in Hs.
    exists l1, t1, a1, b1, t2, a2, b2, l2, t. do 3 (split; auto).
    rewrite (pl_lows _ _ _ _ _ _ _ _ _ _ Ch E Hs), (pl_highs _ _ _ _ _ _ _ _ _ _ Ch E Hs) in H'. destruct H' as [H'|H']; injection H' as <-; auto.
Qed.
Lemma stable l e c d v : chrono (l ++ [e]) -> covers l c d -> c < d -> (on_line (l ++ [e]) c d v <-> on_line l c d v).
Proof.
  intros Ch Hc Hcd.
  assert (Cl : chrono l).
  { clear - Ch. induction l as [|x l IH]; [exact I|]. split; [|apply IH, (chrono_tail _ _ Ch)]. apply Forall_forall. intros p Hp.
    apply in_map_iff in Hp. destruct Hp as (z & <- & Hz). cbn. apply (chrono_head _ _ z Ch). apply in_or_app; auto. }
  assert (Hc' : covers (l ++ [e]) c d) by (destruct Hc as (p & q & Hp & Hq & H); exists p, q; rewrite !in_app_iff; auto).
  rewrite !on_line_pl by auto.
  assert (G : forall t, c <= t <= d -> pl (lows (l ++ [e])) t = pl (lows l) t /\ pl (highs (l ++ [e])) t = pl (highs l) t).
  { intros t Ht. destruct Hc as (p & q & Hp & Hq & Hpc & Hqd).
    destruct (segment l t p q Cl Hp Hq) as (l1 & [t1 [a1 b1]] & [t2 [a2 b2]] & l2 & E & Hs); try lra. cbn in Hs.
    assert (E' : l ++ [e] = l1 ++ (t1, (a1, b1)) :: (t2, (a2, b2)) :: (l2 ++ [e])) by (rewrite E, <- app_assoc; auto).
    rewrite (pl_lows _ _ _ _ _ _ _ _ _ _ Cl E Hs), (pl_highs _ _ _ _ _ _ _ _ _ _ Cl E Hs).
    rewrite (pl_lows _ _ _ _ _ _ _ _ _ _ Ch E' Hs), (pl_highs _ _ _ _ _ _ _ _ _ _ Ch E' Hs). auto. }
  split; intros (t & Ht & H); exists t; (split; [auto|]); destruct (G t Ht) as [G1 G2]; rewrite G1, G2 in *; auto.
Qed.
Lemma on_line_in l c d v (i : itv) : chrono l -> (forall e, List.In e l -> In (fst (snd e)) i /\ In (snd (snd e)) i) -> on_line l c d v -> In v i.
Proof.
  intros Ch H (l1 & t1 & a1 & b1 & t2 & a2 & b2 & l2 & t & E & Hs & Ht & Hv).
  destruct (H (t1, (a1, b1))) as [A1 B1]; [rewrite E; apply in_or_app; right; left; auto|].
  destruct (H (t2, (a2, b2))) as [A2 B2]; [rewrite E; apply in_or_app; right; right; left; auto|]. cbn in *.
  assert (Hlt : t1 < t2).
  { rewrite E in Ch. clear - Ch. induction l1 as [|x l1 IH]; [apply (chrono_head _ _ (t2, (a2, b2)) Ch); left; auto|apply IH, (chrono_tail _ _ Ch)]. }
  assert (G : forall p q, In p i -> In q i -> In (p + (t - t1) * (q - p) / (t2 - t1)) i).
  { intros p q Hp Hq. set (w := (t - t1) / (t2 - t1)). assert (Hw : 0 <= w <= 1).
    { unfold w. split; [apply Rmult_le_pos; [lra|apply Rlt_le, Rinv_0_lt_compat; lra]|]. apply Rmult_le_reg_r with (t2 - t1); [lra|]. unfold Rdiv. rewrite Rmult_assoc, Rinv_l by lra. lra. }
    replace ((t - t1) * (q - p) / (t2 - t1)) with (w * (q - p)) by (unfold w; field; lra).
    destruct (Rle_dec p q); [apply (In_convex p _ q)|apply (In_convex q _ p)]; auto; nra. }
  destruct Hv as [->| ->]; auto.
Qed.

(** slices after set_envelope *)
Lemma env_nth k y x sk j s' : nth_error x k = Some sk -> nth_error (set_envelope k y true x) j = Some s' ->
  exists s, nth_error x j = Some s /\ s_lb s' = s_lb s /\ s_ub s' = s_ub s /\ s_cod s' = if Nat.eqb j k then y else s_cod s.
Proof.
  intros E. rewrite (set_envelope_nth k y x sk j E). destruct (Nat.eqb_spec j k) as [->|N].
  - intros H. injection H as <-. eauto.
  - destruct (Nat.eqb (S j) k); [|destruct (Nat.eqb j (S k))]; destruct (nth_error x j) as [s|]; cbn; intros H; try discriminate; injection H as <-; eauto.
Qed.

(** *** Tubes that contain the data before they come *)

(** each slice contains all the data, or is inside of the envelope of the data kept *)
Definition wide (L l : list datum) (x : tube) : Prop := forall s, List.In s x ->
  (forall e, List.In e L -> In (fst (snd e)) (s_cod s) /\ In (snd (snd e)) (s_cod s)) \/
  (covers l (s_lb s) (s_ub s) /\ exists e, smallest (on_line l (s_lb s) (s_ub s)) e /\ sub (s_cod s) e).

Lemma contract_down_sub L l s a b : fed l s -> incl l L -> forall n x x', tube_ok a b x -> wide L l x ->
  contract_down n (d_lb s) (d_ub s) x = Some x' -> tsub x' x /\ wide L l x'.
Proof.
  intros F Hi. induction n as [|k IH]; intros x x' Hx Hw H; [injection H as <-; split; auto using tsub_refl|].
  destruct (nth_error x k) as [sl|] eqn:E; [|cbn in H; rewrite E in H; discriminate].
  destruct (contract_step l s a b x k sl F Hx E) as [[_ E1]|(Hc & e & He & [[_ E1]|[Hns E1]])]; rewrite E1 in H.
  - injection H as <-; split; auto using tsub_refl.
  - injection H as <-; split; auto using tsub_refl.
  - assert (Hall : forall e, List.In e L -> In (fst (snd e)) (s_cod sl) /\ In (snd (snd e)) (s_cod sl)).
    { destruct (Hw sl (nth_error_In _ _ E)) as [G|(_ & e' & He' & Hs)]; auto. rewrite (smallest_uniq _ _ _ He' He) in Hs. contradiction. }
    assert (Hes : sub e (s_cod sl)).
    { destruct He as (_ & _ & Hm). apply Hm. intros v Hv. exact (on_line_in l (s_lb sl) (s_ub sl) v (s_cod sl) (f_chr _ _ F) (fun d Hd => Hall d (Hi d Hd)) Hv). }
    destruct (IH (set_envelope k e true x) x') as [S' W']; auto.
    + apply set_envelope_ok; auto. apply (smallest_wf _ _ He).
    + intros s' Hs'. apply In_nth_error in Hs'. destruct Hs' as [j Ej]. destruct (env_nth _ _ _ _ _ _ E Ej) as (s0 & E0 & L0 & U0 & C0).
      rewrite L0, U0, C0. destruct (Nat.eqb_spec j k) as [->|N].
      * assert (s0 = sl) by congruence. subst s0. right. split; auto. exists e. split; auto. apply sub_refl.
      * apply Hw. apply (nth_error_In _ _ E0).
    + split; auto. apply tsub_trans with (set_envelope k e true x); auto. apply set_envelope_tsub with sl; auto. apply (ok_shared _ _ _ Hx).
Qed.

Lemma wide_add L l e x a b : chrono (l ++ [e]) -> tube_ok a b x -> wide L l x -> wide L (l ++ [e]) x.
Proof.
  intros Ch Hx H s Hs. destruct (H s Hs) as [G|(Hc & i & Hi & Hsub)]; auto. right.
  destruct (chain_in_bounds _ _ _ _ (ok_chain _ _ _ Hx) Hs) as (_ & Hlt & _).
  split; [destruct Hc as (p & q & Hp & Hq & R); exists p, q; rewrite !in_app_iff; auto|]. exists i. split; auto.
  apply (smallest_ext (on_line l (s_lb s) (s_ub s))); auto. intros v. symmetry. apply stable; auto.
Qed.
Lemma add_data_sub L a b x k s t lo hi s' : state_ok a b x k s -> incl (k ++ [(t, (lo, hi))]) L -> wide L k (d_tube s) ->
  add_data t lo hi s = Some (true, s') -> tsub (d_tube s') (d_tube s) /\ wide L (k ++ [(t, (lo, hi))]) (d_tube s').
Proof.
  intros [F Ok D H] Hi Hw E. destruct (add_data_cases k s t lo hi a b F Ok) as [(-> & s1 & E1 & Et & F')|[(l0 & d & -> & Ht & E1)|(l0 & d & lb & ub & -> & Ht & F' & Hcase)]].
  - rewrite E1 in E. injection E as <-. rewrite Et. split; [apply tsub_refl|]. intros q Hq. destruct (Hw q Hq) as [G|((p & _ & [] & _) & _)]. auto.
  - rewrite E1 in E. discriminate.
  - pose proof (wide_add _ _ _ _ _ _ (f_chr _ _ (F' [])) Ok Hw) as Hw'. destruct Hcase as [[_ E1]|[_ E1]]; rewrite E1 in E.
    + injection E as <-. cbn. auto using tsub_refl.
    + destruct (contract_down (start t (d_tube s)) lb ub (d_tube s)) as [x'|] eqn:Ec; [|discriminate]. injection E as <-. cbn [d_tube].
      apply (contract_down_sub L _ _ a b (F' (d_tube s)) Hi (start t (d_tube s)) (d_tube s) x'); auto.
Qed.

Lemma kept_after_incl : forall l p, incl (kept_after p l) l.
Proof.
  induction l as [|d l IH]; intros p; cbn; [apply incl_refl|]. destruct (Rlt_dec p (fst d)).
  - apply incl_cons; [left; auto|]. apply incl_tl, IH.
  - apply incl_tl, IH.
Qed.
Lemma kept_incl l : incl (kept l) l.
Proof. destruct l as [|d l]; [apply incl_refl|]. apply incl_cons; [left; auto|]. apply incl_tl, kept_after_incl. Qed.

(** If each slice contains all the data (for instance when nothing is known of the tube before the data)
    then each call only contracts the tube: the gates and the codomains after l ++ [d] are inside of the
    ones after l. *)
Theorem C33_partial a b x l d : tube_ok a b x ->
  (forall s e, List.In s x -> List.In e (l ++ [d]) -> In (fst (snd e)) (s_cod s) /\ In (snd (snd e)) (s_cod s)) ->
  exists s s', feed l (dst_new x) = Some s /\ feed (l ++ [d]) (dst_new x) = Some s' /\
    tsub (d_tube s') (d_tube s) /\ tsub (d_tube s) x.
Proof.
  intros Hx HL. set (L := l ++ [d]) in *.
  destruct (feed_ind a b x (fun k s => incl k L -> wide L k (d_tube s) /\ tsub (d_tube s) x)) with (l := l) (k := @nil datum) (s := dst_new x)
    as (s & E & Hs & HW); auto using state_new.
  - intros k s t lo hi s' Hs HP E Hi. destruct HP as [HW HT]; [intros z Hz; apply Hi, in_or_app; auto|].
    destruct (add_data_sub L a b x k s t lo hi s' Hs Hi HW E). split; auto. apply tsub_trans with (d_tube s); auto.
  - intros _. split; [|apply tsub_refl]. intros s Hs. left. intros e He. apply HL; auto.
  - cbn [after_kept] in *. destruct HW as [HW HT]; [intros z Hz; apply in_or_app; left; apply kept_incl; auto|].
    destruct d as [t [lo hi]]. destruct (add_data_ok a b x _ s t lo hi Hs) as (r & s' & E' & Hs' & _ & Hf).
    exists s, s'. split; auto. split; [|split; auto].
    + clear - E E'. unfold L. revert E E'. generalize (dst_new x). induction l as [|[t0 [lo0 hi0]] l IH]; intros s0 E E'; cbn [app feed] in *.
      * injection E as ->. rewrite E'. auto.
      * destruct (add_data t0 lo0 hi0 s0) as [[r0 s1]|]; [|discriminate]. apply IH; auto.
    + destruct r; [|rewrite Hf; auto using tsub_refl]. apply (add_data_sub L a b x (kept l) s t lo hi s'); auto.
      intros z Hz. apply in_app_or in Hz. apply in_or_app. destruct Hz as [Hz|[<-|[]]]; [left; apply kept_incl; auto|right; left; auto].
Qed.

(** *** A tube without prior knowledge: the result *)

Definition All : itv := Itv None None.
Definition exact_env (l : list datum) (s : slice) : Prop :=
  (covers l (s_lb s) (s_ub s) -> smallest (on_line l (s_lb s) (s_ub s)) (s_cod s)) /\ (~ covers l (s_lb s) (s_ub s) -> s_cod s = All).

Lemma bounded_data : forall l : list datum, exists M, 0 <= M /\ forall e, List.In e l -> In (fst (snd e)) (I2 (- M) M) /\ In (snd (snd e)) (I2 (- M) M).
Proof.
  induction l as [|[t [u v]] l (M & HM & H)]; [exists 0; split; [lra|intros ? []]|].
  exists (Rmax M (Rmax (Rabs u) (Rabs v))). pose proof (Rmax_l M (Rmax (Rabs u) (Rabs v))). pose proof (Rmax_r M (Rmax (Rabs u) (Rabs v))).
  pose proof (Rmax_l (Rabs u) (Rabs v)). pose proof (Rmax_r (Rabs u) (Rabs v)). split; [lra|]. intros e [<-|He].
  - cbn [fst snd]. unfold I2. cbn. unfold Rabs in *. destruct (Rcase_abs u), (Rcase_abs v); lra.
  - destruct (H e He) as [G1 G2]. unfold I2 in *. cbn in *. lra.
Qed.
Lemma classic_covers l c d : covers l c d \/ ~ covers l c d.
Proof.
  destruct (Exists_dec (fun p : datum => fst p <= c) l (fun p => Rle_dec (fst p) c)) as [H1|H1].
  - destruct (Exists_dec (fun p : datum => d <= fst p) l (fun p => Rle_dec d (fst p))) as [H2|H2].
    + left. apply Exists_exists in H1, H2. destruct H1 as (p & Hp & H1), H2 as (q & Hq & H2). exists p, q. auto.
    + right. intros (p & q & Hp & Hq & R1 & R2). apply H2, Exists_exists. eauto.
  - right. intros (p & q & Hp & Hq & R1 & R2). apply H1, Exists_exists. eauto.
Qed.
Lemma not_all l c d e : chrono l -> smallest (on_line l c d) e -> ~ sub All e.
Proof.
  intros Ch (_ & _ & Hm) H. destruct (bounded_data l) as (M & HM & HB). assert (G : sub e (I2 (- M) M)).
  { apply Hm. intros v Hv. apply (on_line_in l c d); auto. }
  assert (K : In (M + 1) (I2 (- M) M)) by (apply G, H; cbn; auto). unfold I2 in K. cbn in K. lra.
Qed.
Lemma nth_order a b x i j si sj : tube_ok a b x -> nth_error x i = Some si -> nth_error x j = Some sj -> (i < j)%nat -> s_ub si <= s_lb sj.
Proof.
  intros Hx Ei Ej Hij. replace j with (S i + (j - S i))%nat in Ej by lia. revert sj Ej. induction (j - S i)%nat as [|n IH]; intros sj Ej.
  - rewrite Nat.add_0_r in Ej. rewrite (chain_from_nth _ _ _ _ _ _ (ok_chain _ _ _ Hx) Ei Ej). lra.
  - replace (S i + S n)%nat with (S (S i + n)) in Ej by lia.
    destruct (nth_error x (S i + n)) as [sm|] eqn:Em.
    + pose proof (IH sm eq_refl). rewrite <- (chain_from_nth _ _ _ _ _ _ (ok_chain _ _ _ Hx) Em Ej).
      destruct (chain_in_bounds _ _ _ _ (ok_chain _ _ _ Hx) (nth_error_In _ _ Em)). lra.
    + exfalso. apply nth_error_None in Em. assert (nth_error x (S (S i + n)) <> None) by congruence. apply nth_error_Some in H. lia.
Qed.

Lemma contract_down_exact k0 d s a b : fed (k0 ++ [d]) s -> forall n x x', tube_ok a b x ->
  (forall j sj, nth_error x j = Some sj -> if Nat.ltb j n then exact_env k0 sj /\ s_ub sj <= fst d else exact_env (k0 ++ [d]) sj) ->
  contract_down n (d_lb s) (d_ub s) x = Some x' -> forall sj, List.In sj x' -> exact_env (k0 ++ [d]) sj.
Proof.
  intros F. pose proof (f_chr _ _ F) as Ch. induction n as [|k IH]; intros x x' Hx Hn H.
  - injection H as <-. intros sj Hj. apply In_nth_error in Hj. destruct Hj as [j Ej]. apply (Hn _ _ Ej).
  - destruct (nth_error x k) as [sl|] eqn:E; [|cbn in H; rewrite E in H; discriminate].
    pose proof (Hn _ _ E) as Hk. rewrite (proj2 (Nat.ltb_lt k (S k))) in Hk by lia. destruct Hk as [[Hk1 Hk2] Hku].
    destruct (chain_in_bounds _ _ _ _ (ok_chain _ _ _ Hx) (nth_error_In _ _ E)) as (_ & Hlt & _).
    assert (Hmono : forall c e, covers k0 c e -> covers (k0 ++ [d]) c e).
    { intros c e (p & q & Hp & Hq & R). exists p, q. rewrite !in_app_iff. auto. }
    destruct (contract_step _ s a b x k sl F Hx E) as [[Hc E1]|(Hc & e & He & [[Hs E1]|[Hns E1]])]; rewrite E1 in H.
    + injection H as <-. intros sj Hj. apply In_nth_error in Hj. destruct Hj as [j Ej]. pose proof (Hn _ _ Ej) as Hj.
      destruct (Nat.ltb_spec j (S k)) as [Hjk|]; auto. destruct Hj as [[_ Hj2] Hju].
      assert (Hnc : ~ covers (k0 ++ [d]) (s_lb sj) (s_ub sj)).
      { intros (p & q & Hp & Hq & R1 & R2). apply Hc. exists p, d. split; auto. split; [apply in_or_app; right; left; auto|]. split; auto.
        destruct (Nat.eq_dec j k) as [->|N]; [assert (sj = sl) by congruence; subst; auto|].
        pose proof (nth_order a b x j k sj sl Hx Ej E ltac:(lia)).
        destruct (chain_in_bounds _ _ _ _ (ok_chain _ _ _ Hx) (nth_error_In _ _ Ej)) as (_ & Hlj & _). lra. }
      split; [contradiction|]. intros _. apply Hj2. intros G. apply Hnc. auto.
    + injection H as <-. assert (Hold : covers k0 (s_lb sl) (s_ub sl)).
      { destruct (classic_covers k0 (s_lb sl) (s_ub sl)) as [G|G]; auto. exfalso. rewrite (Hk2 G) in Hs. apply (not_all _ _ _ _ Ch He Hs). }
      intros sj Hj. apply In_nth_error in Hj. destruct Hj as [j Ej]. pose proof (Hn _ _ Ej) as Hj.
      destruct (Nat.ltb_spec j (S k)) as [Hjk|]; auto. destruct Hj as [[Hj1 Hj2] Hju].
      destruct (chain_in_bounds _ _ _ _ (ok_chain _ _ _ Hx) (nth_error_In _ _ Ej)) as (_ & Hlj & _).
      split; [|intros G; apply Hj2; auto]. intros (p & q & Hp & Hq & R1 & R2).
      assert (Hj : covers k0 (s_lb sj) (s_ub sj)).
      { destruct Hold as (p' & q' & Hp' & Hq' & R1' & R2').
        assert (Hpk : List.In p k0).
        { apply in_app_or in Hp. destruct Hp as [Hp|[<-|[]]]; auto. lra. }
        exists p, q'. do 3 (split; auto). destruct (Nat.eq_dec j k) as [->|N]; [assert (sj = sl) by congruence; subst; auto|].
        pose proof (nth_order a b x j k sj sl Hx Ej E ltac:(lia)). lra. }
      apply (smallest_ext (on_line k0 (s_lb sj) (s_ub sj))); auto. intros v. symmetry. apply stable; auto.
    + apply (IH (set_envelope k e true x) x'); auto.
      * apply set_envelope_ok; auto. apply (smallest_wf _ _ He).
      * intros j sj Ej. destruct (env_nth _ _ _ _ _ _ E Ej) as (s0 & E0 & L0 & U0 & C0). pose proof (Hn _ _ E0) as Hj.
        unfold exact_env in *. rewrite L0, U0, C0. destruct (Nat.eqb_spec j k) as [->|N].
        -- rewrite (proj2 (Nat.ltb_ge k k)) by lia. assert (s0 = sl) by congruence. subst s0. split; auto. contradiction.
        -- destruct (Nat.ltb_spec j (S k)), (Nat.ltb_spec j k); auto; lia.
Qed.

Lemma index_spec : forall x a b t j sj, chain_from a x b -> x <> [] -> t < b -> nth_error x j = Some sj ->
  if Nat.ltb j (time_to_index t x) then s_ub sj <= t else t < s_ub sj.
Proof.
  induction x as [|s r IH]; intros a b t j sj Hc Hne Ht E; [congruence|]. cbn in Hc. destruct Hc as (_ & Hlt & Hc). cbn [time_to_index].
  destruct (Rltb t (s_ub s)) eqn:Et.
  - apply Rltb_true in Et. cbn. destruct j as [|j]; [injection E as <-; auto|]. cbn in E.
    pose proof (chain_in_bounds _ _ _ _ Hc (nth_error_In _ _ E)). lra.
  - apply Rltb_false in Et. destruct r as [|s2 r]; [cbn in Hc; lra|]. destruct j as [|j]; [injection E as <-; cbn; auto|].
    cbn [nth_error] in E. apply (IH (s_ub s) b t j sj Hc ltac:(discriminate) Ht E).
Qed.
Lemma start_spec a b x t j sj : tube_ok a b x -> nth_error x j = Some sj ->
  if Nat.ltb j (start t x) then s_ub sj <= t else t < s_ub sj.
Proof.
  intros Hx E. unfold start. rewrite (chain_tf _ _ _ (ok_chain _ _ _ Hx) (ok_ne _ _ _ Hx)). destruct (Rltb t b) eqn:Et.
  - apply Rltb_true in Et. apply (index_spec x a b t j sj (ok_chain _ _ _ Hx) (ok_ne _ _ _ Hx) Et E).
  - apply Rltb_false in Et. assert (Hj : (j < length x)%nat) by (apply nth_error_Some; congruence). rewrite (proj2 (Nat.ltb_lt _ _) Hj).
    pose proof (chain_in_bounds _ _ _ _ (ok_chain _ _ _ Hx) (nth_error_In _ _ E)). lra.
Qed.

(** ** C62 *)

Lemma add_data_exact a b x k s t lo hi s' : state_ok a b x k s -> (match k with [] => True | d :: _ => a <= fst d end) ->
  (forall sl, List.In sl (d_tube s) -> exact_env k sl) -> add_data t lo hi s = Some (true, s') ->
  forall sl, List.In sl (d_tube s') -> exact_env (k ++ [(t, (lo, hi))]) sl.
Proof.
  intros [F Ok D H] Ha Hex E. destruct (add_data_cases k s t lo hi a b F Ok) as [(-> & s1 & E1 & Et & F')|[(l0 & d & -> & Ht & E1)|(l0 & d & lb & ub & -> & Ht & F' & Hcase)]].
  - rewrite E1 in E. injection E as <-. rewrite Et. intros sl Hsl. destruct (chain_in_bounds _ _ _ _ (ok_chain _ _ _ Ok) Hsl) as (_ & Hlt & _). split.
    + intros (p & q & [<-|[]] & [<-|[]] & R1 & R2). cbn in *. lra.
    + intros _. destruct (Hex sl Hsl) as [_ G]. apply G. intros (p & _ & [] & _).
  - rewrite E1 in E. discriminate.
  - assert (Hl : forall e, List.In e ((l0 ++ [d]) ++ [(t, (lo, hi))]) -> fst e <= t).
    { intros e He. apply (chrono_last _ _ e (f_chr _ _ (F' [])) He). }
    destruct Hcase as [[Hlt _]|[_ E1]].
    + exfalso. destruct l0 as [|d0 l0]; cbn in Ha; [lra|].
      assert (fst d0 < fst d) by (apply (chrono_head _ _ _ (f_chr _ _ F)); apply in_or_app; right; left; auto). lra.
    + rewrite E1 in E. destruct (contract_down (start t (d_tube s)) lb ub (d_tube s)) as [x'|] eqn:Ec; [|discriminate]. injection E as <-. cbn [d_tube].
      apply (contract_down_exact _ _ _ a b (F' (d_tube s)) (start t (d_tube s)) (d_tube s) x'); auto.
      intros j sj Ej. pose proof (start_spec a b _ t j sj Ok Ej) as Hst. pose proof (Hex sj (nth_error_In _ _ Ej)) as He.
      destruct (Nat.ltb j (start t (d_tube s))); [split; auto|]. destruct He as [_ He].
      assert (Hno : forall l, incl l ((l0 ++ [d]) ++ [(t, (lo, hi))]) -> ~ covers l (s_lb sj) (s_ub sj)).
      { intros l Hi (p & q & Hp & Hq & R1 & R2). pose proof (Hl q (Hi q Hq)). lra. }
      split; [intros G; exfalso; apply (Hno _ (incl_refl _) G)|]. intros _. apply He, Hno. apply incl_appl, incl_refl.
Qed.

(** When nothing is known of the tube and the first datum is not before the tube, then after each sequence
    of data: each slice covered by the data kept has for codomain the smallest interval that contains the
    lines between the data over the slice; the others are still unknown. *)
Theorem C62_partial a b x l : tube_ok a b x -> (forall s, List.In s x -> s_cod s = All) ->
  match l with [] => True | d :: _ => a <= fst d end ->
  exists s, feed l (dst_new x) = Some s /\ same_dom (d_tube s) x /\ forall sl, List.In sl (d_tube s) ->
    (covers (kept l) (s_lb sl) (s_ub sl) -> smallest (on_line (kept l) (s_lb sl) (s_ub sl)) (s_cod sl)) /\
    (~ covers (kept l) (s_lb sl) (s_ub sl) -> s_cod sl = All).
Proof.
  intros Hx HA Hl.
  destruct (feed_ind a b x (fun k s => match k with [] => True | d :: _ => a <= fst d end -> forall sl, List.In sl (d_tube s) -> exact_env k sl))
    with (l := l) (k := @nil datum) (s := dst_new x) as (s & E & [F Ok D H] & HW); auto using state_new.
  - intros k s t lo hi s' Hs HP E Ha. assert (Hk : match k with [] => True | d :: _ => a <= fst d end) by (destruct k; auto).
    apply (add_data_exact a b x k s t lo hi s' Hs Hk (HP Hk) E).
  - intros _ sl Hsl. split; [intros (p & _ & [] & _)|]. intros _. apply HA; auto.
  - exists s. split; auto. split; auto. cbn [after_kept] in HW. apply HW. destruct l; auto.
Qed.

(** ** Cases and counterexamples *)

Definition tD : tube := [mkS 0 1 All All All; mkS 1 2 All All All].
Definition dD : list datum := [(0, (0, 1)); (1/2, (1/2, 2)); (1/4, (0, 0)); (3, (-1, 5))].
Lemma tD_ok : tube_ok 0 2 tD.
Proof. unfold tD, All. split; [discriminate|cbn; lra|cbn; auto|]. repeat constructor; cbn; auto. Qed.
Example C33_case : tube_ok 0 2 tD /\ length (kept dD) = 3%nat /\ covers (kept dD) 1 2 /\
  (forall s e, List.In s tD -> List.In e dD -> In (fst (snd e)) (s_cod s) /\ In (snd (snd e)) (s_cod s)) /\
  consistent (kept dD) (fun t => 1/2 + t / 2) /\ has tD (fun t => 1/2 + t / 2).
Proof.
  assert (K : kept dD = [(0, (0, 1)); (1/2, (1/2, 2)); (3, (-1, 5))]).
  { unfold kept, dD. cbn [kept_after fst]. destruct (Rlt_dec 0 (1/2)); [|lra]. destruct (Rlt_dec (1/2) (1/4)); [lra|]. destruct (Rlt_dec (1/2) 3); [auto|lra]. }
  split; [apply tD_ok|]. rewrite K. split; auto. split.
  { exists (0, (0, 1)), (3, (-1, 5)). cbn. repeat split; auto; lra. }
  split.
  { intros s e [<-|[<-|[]]] _; cbn; auto. }
  split.
  - intros l1 t1 a1 b1 t2 a2 b2 l2 E t Ht. destruct l1 as [|? [|? [|? [|? ?]]]]; try discriminate; injection E; intros; subst.
    + unfold Rdiv. replace (/ (1 * / 2 - 0)) with 2 by field. lra.
    + unfold Rdiv. replace (/ (3 - 1 * / 2)) with (2 * / 5) by field. lra.
  - intros s [<-|[<-|[]]]; repeat split; cbn; auto.
Qed.

(** two data with the same interval *)
Lemma flat_line t1 t2 lo hi c d v : t1 < t2 -> on_line [(t1, (lo, hi)); (t2, (lo, hi))] c d v -> v = lo \/ v = hi.
Proof.
  intros Hlt (l1 & u1 & a1 & b1 & u2 & a2 & b2 & l2 & t & E & Hs & Ht & Hv).
  destruct l1 as [|? [|? [|? ?]]]; try discriminate. injection E; intros; subst. unfold Rdiv in Hv. 
  destruct Hv as [->| ->]; [left|right]; ring.
Qed.
Lemma line_flat t1 t2 lo hi c d : t1 <= c -> c < d -> d <= t2 ->
  on_line [(t1, (lo, hi)); (t2, (lo, hi))] c d lo /\ on_line [(t1, (lo, hi)); (t2, (lo, hi))] c d hi.
Proof.
  intros H1 Hcd H2. split; exists [], t1, lo, hi, t2, lo, hi, [], c; (split; [auto|]); (split; [lra|]); (split; [lra|]); unfold Rdiv; [left|right]; ring.
Qed.
Lemma kept_two t1 t2 y1 y2 : t1 < t2 -> kept [(t1, y1); (t2, y2)] = [(t1, y1); (t2, y2)].
Proof. intros H. unfold kept. cbn [kept_after fst]. destruct (Rlt_dec t1 t2); auto. lra. Qed.
Lemma covers_two t1 t2 y1 y2 c d : t1 <= c -> d <= t2 -> covers [(t1, y1); (t2, y2)] c d.
Proof. intros. exists (t1, y1), (t2, y2). cbn. auto. Qed.

(** two calls *)
Lemma feed_two a b x t1 t2 lo hi : tube_ok a b x -> t1 < t2 -> exists lb ub,
  (forall z, fed [(t1, (lo, hi)); (t2, (lo, hi))] (mkD z lb ub)) /\
  ((t1 < a /\ feed [(t1, (lo, hi)); (t2, (lo, hi))] (dst_new x) = Some (mkD x lb ub)) \/
   (a <= t1 /\ feed [(t1, (lo, hi)); (t2, (lo, hi))] (dst_new x) =
      match contract_down (start t2 x) lb ub x with Some z => Some (mkD z lb ub) | None => None end)).
Proof.
  intros Hx Hlt. pose proof (state_new a b x Hx) as [F0 Ok0 _ _].
  destruct (add_data_cases [] (dst_new x) t1 lo hi a b F0 Ok0) as [(_ & s1 & E1 & Et & F1)|[(l0 & d & E & _)|(l0 & d & lb & ub & E & _)]]; [|destruct l0; discriminate..].
  cbn [d_tube dst_new] in Et. assert (Ok1 : tube_ok a b (d_tube s1)) by (rewrite Et; auto).
  destruct (add_data_cases _ s1 t2 lo hi a b F1 Ok1) as [(E & _)|[(l0 & d & E & Ht & _)|(l0 & d & lb & ub & E & Ht & F2 & Hc)]]; [discriminate|exfalso|].
  - destruct l0 as [|? [|? ?]]; try discriminate. injection E as <-. cbn in Ht. lra.
  - destruct l0 as [|? [|? ?]]; try discriminate. injection E as <-. cbn in Ht, Hc, F2. exists lb, ub. split; [exact F2|].
    cbn [feed]. rewrite E1, Et in *. destruct Hc as [[Ha E2]|[Ha E2]]; rewrite E2; [left; auto|right]. split; auto. destruct (contract_down _ _ _ _); auto.
Qed.

(** A slice over [0,1] with the codomain [0,1], two data [1/2,3] at 0 and 1: the codomain becomes
    [1/2,3], values are added. *)
Theorem C33_refuted : exists x l s f, tube_ok 0 1 x /\ feed l (dst_new x) = Some s /\ has (d_tube s) f /\ consistent (kept l) f /\ ~ has x f.
Proof.
  set (sl := mkS 0 1 (I2 0 1) (I2 0 1) (I2 0 1)).
  assert (Hx : tube_ok 0 1 [sl]) by (unfold sl; tube_ok_tac).
  exists [sl], [(0, (1/2, 3)); (1, (1/2, 3))].
  destruct (feed_two 0 1 [sl] 0 1 (1/2) 3 Hx ltac:(lra)) as (lb & ub & F & [[? _]|[_ E]]); [lra|].
  assert (Es : start 1 [sl] = 1%nat) by (unfold start; cbn; rewrite (Rltb_f 1 1) by lra; auto). rewrite Es in E.
  destruct (contract_step _ _ 0 1 [sl] 0 sl (F [sl]) Hx eq_refl) as [[Hc _]|(Hc & e & He & [[Hs _]|[Hns E1]])].
  - exfalso. apply Hc. apply covers_two; cbn; lra.
  - exfalso. assert (K : In 0 e) by (apply Hs; cbn; lra). destruct He as (_ & _ & Hm).
    assert (sub e (I2 (1/2) 3)) by (apply Hm; intros v Hv; apply flat_line in Hv; [cbn; lra|lra]). apply H in K. cbn in K. lra.
  - cbn [d_lb d_ub] in E1. rewrite E1 in E. cbn [contract_down] in E. eexists. exists (fun t => if Rle_dec t 0 then 1 else if Rle_dec 1 t then 1 else 2).
    split; auto. split; [exact E|]. cbn [d_tube].
    destruct (line_flat 0 1 (1/2) 3 0 1) as [L1 L2]; try lra.
    assert (He' : forall v, 1/2 <= v <= 3 -> In v e) by (intros v Hv; apply (smallest_between _ _ _ _ _ He L1 L2 Hv)).
    split; [|split].
    + intros s [<-|[]]. split; [|split]; cbn -[inter In Rle_dec].
      * destruct (Rle_dec 0 0); [|lra]. apply In_inter. split; [cbn; lra|apply He'; lra].
      * destruct (Rle_dec 1 0); [lra|]. destruct (Rle_dec 1 1); [|lra]. apply In_inter. split; [cbn; lra|apply He'; lra].
      * intros t Ht. destruct (Rle_dec t 0); [lra|]. destruct (Rle_dec 1 t); [lra|]. apply He'. lra.
    + rewrite kept_two by lra. intros l1 t1 a1 b1 t2 a2 b2 l2 E2 t Ht. destruct l1 as [|? [|? [|? ?]]]; try discriminate. injection E2; intros; subst. unfold Rdiv.
      replace ((t - 0) * (1 * / 2 - 1 * / 2) * / (1 - 0)) with 0 by ring. replace ((t - 0) * (3 - 3) * / (1 - 0)) with 0 by ring.
      destruct (Rle_dec t 0); [lra|]. destruct (Rle_dec 1 t); lra.
    + intros Hf. destruct (Hf sl (or_introl eq_refl)) as (_ & _ & Hf3). specialize (Hf3 (1/2)). cbn in Hf3.
      destruct (Rle_dec (1/2) 0); [lra|]. destruct (Rle_dec 1 (1/2)); lra.
Qed.

(** C62 for each tube is false: a slice that is already inside of its envelope hides the previous ones
    (slices [-5,5] over [0,1] and [0,1/2] over [1,2], data [0,1] at 0 and 2). *)
Theorem C62_refuted : exists x l s sl, tube_ok 0 2 x /\ feed l (dst_new x) = Some s /\ List.In sl (d_tube s) /\
  covers (kept l) (s_lb sl) (s_ub sl) /\ In 4 (s_cod sl) /\ forall v, on_line (kept l) (s_lb sl) (s_ub sl) v -> 0 <= v <= 1.
Proof.
  set (s1 := mkS 0 1 (I2 (-5) 5) (I2 (-5) 5) (I2 0 (1/2))). set (s2 := mkS 1 2 (I2 0 (1/2)) (I2 0 (1/2)) (I2 0 (1/2))).
  assert (Hx : tube_ok 0 2 [s1; s2]) by (unfold s1, s2; tube_ok_tac).
  exists [s1; s2], [(0, (0, 1)); (2, (0, 1))].
  destruct (feed_two 0 2 [s1; s2] 0 2 0 1 Hx ltac:(lra)) as (lb & ub & F & [[? _]|[_ E]]); [lra|].
  assert (Es : start 2 [s1; s2] = 2%nat) by (unfold start; cbn; rewrite (Rltb_f 2 2) by lra; auto). rewrite Es in E.
  destruct (line_flat 0 2 0 1 1 2) as [L1 L2]; try lra.
  destruct (contract_step _ _ 0 2 [s1; s2] 1 s2 (F [s1; s2]) Hx eq_refl) as [[Hc _]|(Hc & e & He & [[Hs E1]|[Hns _]])].
  - exfalso. apply Hc. apply covers_two; cbn; lra.
  - cbn [d_lb d_ub] in E1. rewrite E1 in E. eexists. exists s1. split; auto. split; [exact E|]. cbn [d_tube]. split; [left; auto|]. rewrite kept_two by lra.
    split; [apply covers_two; cbn; lra|]. split; [cbn; lra|]. intros v Hv. apply flat_line in Hv; lra.
  - exfalso. apply Hns. intros v Hv. cbn in Hv. apply (smallest_between _ _ _ _ _ He L1 L2). lra.
Qed.
(** and two data around a tube leave it as it is (exit at line 867-868, the previous datum being before the
    tube) *)
Theorem C62_around_refuted : exists x l s sl, tube_ok 0 1 x /\ feed l (dst_new x) = Some s /\ List.In sl (d_tube s) /\
  covers (kept l) (s_lb sl) (s_ub sl) /\ s_cod sl = All.
Proof.
  set (sl := mkS 0 1 All All All). assert (Hx : tube_ok 0 1 [sl]).
  { unfold sl, All. split; [discriminate|cbn; lra|cbn; auto|]. repeat constructor; cbn; auto. }
  exists [sl], [(-1, (0, 1)); (2, (0, 1))].
  destruct (feed_two 0 1 [sl] (-1) 2 0 1 Hx ltac:(lra)) as (lb & ub & F & [[_ E]|[? _]]); [|lra].
  eexists. exists sl. split; auto. split; [exact E|]. cbn [d_tube]. split; [left; auto|]. rewrite kept_two by lra. split; auto. apply covers_two; cbn; lra.
Qed.
Example C62_case : tube_ok 0 2 tD /\ (forall s, List.In s tD -> s_cod s = All) /\ 0 <= fst (hd (0, (0, 0)) dD).
Proof. split; [apply tD_ok|]. split; [intros s [<-|[<-|[]]]; auto|cbn; lra]. Qed.

Print Assumptions C33_keeps.
Print Assumptions C33_partial.
Print Assumptions C33_refuted.
Print Assumptions C62_partial.
Print Assumptions C62_refuted.
Print Assumptions C62_around_refuted.
