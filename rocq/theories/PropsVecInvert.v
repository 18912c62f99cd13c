(** * Inversion of a vector of tubes returning one interval (C109) *)
From Coq Require Import Reals Lra Bool List Arith Lia.
From Verif Require Import Itv Arith Tube TubeSpec TubeFacts TubeOps TubeOpsFacts TubeOpsFacts2 TubeQueries TubeQueries2 TubeCtc
  Concrete DynSpec CtcDeriv CtcDerivFacts CtcEval CtcEvalFacts PropsDyn PropsEval TubePaving TubeVecOps PropsTubeVecOps VecInvert.
Import ListNotations.
Open Scope R_scope.

(** ** The loops *)
Definition row (k : nat) (xs : list (list cell)) (cs : list cell) : Prop := Forall2 (fun x c => nth_error x k = Some c) xs cs.
Lemma heads_row : forall xs cs, heads xs = Some cs <-> row 0 xs cs.
Proof.
  induction xs as [|x xs IH]; intros cs; cbn.
  - split; intros H; [injection H as <-; constructor|inversion H; auto].
  - destruct x as [|c x]. { split; intros H; [discriminate|inversion H; subst; discriminate]. }
    destruct (heads xs) as [l|] eqn:E.
    + split; intros H. { injection H as <-. constructor; [reflexivity|]. apply IH. reflexivity. }
      inversion H; subst. cbn in *. apply IH in H4. injection H4 as <-. congruence.
    + split; intros H; [discriminate|]. inversion H; subst. apply IH in H4. discriminate.
Qed.
Lemma row_tl k : forall xs cs, row k (map (@tl cell) xs) cs <-> row (Datatypes.S k) xs cs.
Proof.
  unfold row. induction xs as [|x xs IH]; intros cs; cbn; split; intros H; inversion H; subst; try constructor; try (apply IH; auto).
  - destruct x; cbn in *; [destruct k; discriminate|auto].
  - destruct x; cbn in *; [discriminate|auto].
Qed.
Lemma row_exists k : forall (xs : list (list cell)), (forall x, List.In x xs -> (k < length x)%nat) -> exists cs, row k xs cs.
Proof.
  induction xs as [|x xs IH]; intros H; [exists []; constructor|]. destruct IH as (cs & E); [intros; apply H; right; auto|].
  destruct (nth_error x k) as [c|] eqn:Ec; [|apply nth_error_None in Ec; pose proof (H x (or_introl eq_refl)); lia].
  exists (c :: cs). constructor; auto.
Qed.
Lemma row_fun k : forall xs c1 c2, row k xs c1 -> row k xs c2 -> c1 = c2.
Proof. induction xs as [|x xs IH]; intros c1 c2 H1 H2; inversion H1; inversion H2; subst; auto. f_equal; [congruence|eauto]. Qed.

Section Walk.
  Variables (inv : slice -> slice -> itv -> itv -> itv) (go : slice -> bool) (u v : R) (y : list itv).
  Lemma walk_spec : forall x0 xs, (forall x, List.In x xs -> length x = length x0) -> exists r, walk inv go u v y x0 xs = Some r /\
    (r = Emp \/ exists k c cs, nth_error x0 k = Some c /\ row k xs cs /\ go (fst c) = true /\ r = vloc inv u v y c cs) /\
    (forall k c cs t, nth_error x0 k = Some c -> row k xs cs -> (forall j c', (j <= k)%nat -> nth_error x0 j = Some c' -> go (fst c') = true) ->
       In t (vloc inv u v y c cs) ->
       exists j c' cs', (j <= k)%nat /\ nth_error x0 j = Some c' /\ row j xs cs' /\ r = vloc inv u v y c' cs' /\ r <> Emp).
  Proof.
    induction x0 as [|c0 x0 IH]; intros xs HL.
    - exists Emp. split; [reflexivity|]. split; [left; auto|]. intros [|k] c cs t E; discriminate.
    - cbn [walk]. destruct (go (fst c0)) eqn:G.
      + destruct (row_exists 0 xs) as (cs0 & R0). { intros x Hx. rewrite (HL x Hx). cbn. lia. }
        rewrite (proj2 (heads_row xs cs0) R0). cbv zeta. destruct (is_empty (vloc inv u v y c0 cs0)) eqn:Em.
        * apply is_empty_true in Em. destruct (IH (map (@tl cell) xs)) as (r & E & H1 & H2).
          { intros x Hx. apply in_map_iff in Hx. destruct Hx as (z & <- & Hz). specialize (HL z Hz). destruct z; cbn in *; lia. }
          exists r. split; [exact E|]. split.
          { destruct H1 as [H1|(k & c & cs & A & B & C & D)]; [left; auto|]. right. exists (Datatypes.S k), c, cs.
            refine (conj A (conj _ (conj C D))). apply row_tl. auto. }
          intros [|k] c cs t Ek Rk Hg Ht.
          { cbn in Ek. injection Ek as <-. rewrite (row_fun _ _ _ _ Rk R0), Em in Ht. destruct Ht. }
          destruct (H2 k c cs t) as (j & c' & cs' & A & B & C & D); auto. { apply row_tl; auto. }
          { intros j c' Hj Ej. apply (Hg (Datatypes.S j)); auto. lia. }
          exists (Datatypes.S j), c', cs'. refine (conj _ (conj B (conj _ D))); [lia|]. apply row_tl; auto.
        * apply is_empty_false in Em. exists (vloc inv u v y c0 cs0). split; [reflexivity|]. split.
          { right. exists 0%nat, c0, cs0. auto. }
          intros k c cs t Ek Rk Hg Ht. exists 0%nat, c0, cs0. refine (conj _ (conj eq_refl (conj R0 (conj eq_refl Em)))). lia.
      + exists Emp. split; [reflexivity|]. split; [left; auto|]. intros k c cs t Ek Rk Hg _.
        specialize (Hg 0%nat c0 (Nat.le_0_l k) eq_refl). congruence.
  Qed.
  Lemma vloc_in c cs t : In t (s_dom (fst c)) ->
    (forall i d yi, nth_error (c :: cs) i = Some d -> nth_error y i = Some yi -> In t (inv (fst d) (snd d) yi (inter (bnd u v) (s_dom (fst d))))) ->
    In t (vloc inv u v y c cs).
  Proof.
    intros H1 H2. unfold vloc. apply fold_inter_in; auto. intros i Hi. apply map2_nth in Hi. destruct Hi as (j & d & yj & E1 & E2 & ->).
    apply (H2 j); auto.
  Qed.
  Lemma fold_inter_out t : forall l acc, In t (fold_left inter l acc) -> In t acc /\ forall i, List.In i l -> In t i.
  Proof.
    induction l as [|i l IH]; cbn; intros acc H; [split; [auto|tauto]|]. apply IH in H. destruct H as [H H']. apply In_inter in H.
    split; [tauto|]. intros j [<-|Hj]; [tauto|auto].
  Qed.
  Lemma vloc_out c cs t : In t (vloc inv u v y c cs) -> In t (s_dom (fst c)) /\
    forall i d yi, nth_error (c :: cs) i = Some d -> nth_error y i = Some yi -> In t (inv (fst d) (snd d) yi (inter (bnd u v) (s_dom (fst d)))).
  Proof.
    intros H. apply fold_inter_out in H. destruct H as [H1 H2]. split; [exact H1|]. intros i d yi E1 E2.
    apply H2. exact (nth_error_In _ _ (map2_nth_error (fun (d : slice * slice) yi => inv (fst d) (snd d) yi (inter (bnd u v) (s_dom (fst d)))) _ _ i _ _ E1 E2)).
  Qed.
  Lemma wf_vloc c cs : s_lb (fst c) <= s_ub (fst c) -> wf (vloc inv u v y c cs).
  Proof.
    intros H. unfold vloc. assert (W : wf (s_dom (fst c))) by exact H. revert W. generalize (s_dom (fst c)).
    match goal with |- forall i, wf i -> wf (fold_left inter ?l i) => generalize l end.
    intros l. induction l as [|i l IH]; cbn; intros j W; auto. apply IH. apply wf_inter.
  Qed.
End Walk.

Lemma wf_point i : wf i -> i <> Emp -> exists t, In t i.
Proof.
  destruct i as [|[l|] [h|]]; cbn; intros W H; [congruence|exists l; lra|exists l; lra|exists h; lra|exists 0; tauto].
Qed.

Lemma nth_error_rev' {A} (l : list A) k : (k < length l)%nat -> nth_error (rev l) k = nth_error l (length l - 1 - k).
Proof.
  intros H. destruct l as [|d l']; [cbn in H; lia|]. set (l := d :: l') in *.
  rewrite (nth_error_nth' (rev l) d), (nth_error_nth' l d) by (rewrite ?rev_length; lia). rewrite rev_nth by auto. f_equal. f_equal. lia.
Qed.
Lemma nth_combine {A B} : forall (l : list A) (m : list B) k a b, nth_error l k = Some a -> nth_error m k = Some b -> nth_error (combine l m) k = Some (a, b).
Proof.
  induction l as [|x l IH]; intros [|z m] [|k] a b E1 E2; cbn in *; try discriminate; [congruence|]. apply IH; auto.
Qed.
Lemma nth_combine_inv {A B} : forall (l : list A) (m : list B) k c, nth_error (combine l m) k = Some c -> nth_error l k = Some (fst c) /\ nth_error m k = Some (snd c).
Proof.
  induction l as [|x l IH]; intros [|z m] [|k] c E; cbn in *; try discriminate; [injection E as <-; auto|]. apply IH; auto.
Qed.

Lemma Forall2_len {A B} (P : A -> B -> Prop) l m : Forall2 P l m -> length l = length m.
Proof. induction 1; cbn; auto. Qed.
(** Vectors of pairs whose components all have the slicing [D] *)
Definition sliced (D : list (R * R)) (xs : list (tube * tube)) : Prop := forall p, List.In p xs -> map dom (fst p) = D /\ map dom (snd p) = D.

Lemma fwd_nth D u (p : tube * tube) (x0 : tube) k c : map dom (fst p) = D -> map dom (snd p) = D -> map dom x0 = D ->
  nth_error (fwd_cells u p) k = Some c <-> nth_error (combine (fst p) (snd p)) (time_to_index u x0 + k) = Some c.
Proof.
  intros D1 D2 D0. unfold fwd_cells. rewrite (idx_dom u (fst p) x0), (idx_dom u (snd p) x0) by congruence. split; intros E.
  - apply nth_combine_inv in E. rewrite !nth_error_skipn' in E. destruct c; apply nth_combine; apply E.
  - apply nth_combine_inv in E. destruct c; apply nth_combine; rewrite nth_error_skipn'; apply E.
Qed.
Lemma dom_len (x z : tube) : map dom x = map dom z -> length x = length z.
Proof. intros H. rewrite <- (map_length dom x), H. apply map_length. Qed.
Lemma bwd_nth D v (p : tube * tube) (x0 : tube) k c : map dom (fst p) = D -> map dom (snd p) = D -> map dom x0 = D -> (time_to_index v x0 < length x0)%nat ->
  nth_error (bwd_cells v p) k = Some c <-> (k <= time_to_index v x0)%nat /\ nth_error (combine (fst p) (snd p)) (time_to_index v x0 - k) = Some c.
Proof.
  intros D1 D2 D0 L. unfold bwd_cells. rewrite (idx_dom v (fst p) x0), (idx_dom v (snd p) x0) by congruence.
  assert (L1 : length (fst p) = length x0) by (apply dom_len; congruence). assert (L2 : length (snd p) = length x0) by (apply dom_len; congruence).
  set (m := time_to_index v x0) in *.
  assert (F : forall (x : tube), length x = length x0 -> length (firstn (S m) x) = S m) by (intros x Hx; rewrite firstn_length; lia).
  assert (N : forall (x : tube), length x = length x0 -> (k <= m)%nat -> nth_error (rev (firstn (S m) x)) k = nth_error x (m - k)).
  { intros x Hx Hk. rewrite nth_error_rev'; rewrite (F x Hx); [|lia]. rewrite nth_error_firstn' by lia. f_equal. lia. }
  split.
  - intros E. assert (Hk : (k <= m)%nat).
    { apply nth_combine_inv in E. destruct E as [E _]. assert (k < length (rev (firstn (S m) (fst p))))%nat by (apply nth_error_Some; congruence).
      rewrite rev_length, F in H by auto. lia. }
    split; auto. apply nth_combine_inv in E. rewrite (N _ L1 Hk), (N _ L2 Hk) in E. destruct c; apply nth_combine; apply E.
  - intros [Hk E]. apply nth_combine_inv in E. destruct c; apply nth_combine; rewrite N by auto; apply E.
Qed.
Lemma fwd_len D u (p : tube * tube) (x0 : tube) : map dom (fst p) = D -> map dom (snd p) = D -> map dom x0 = D -> length (fwd_cells u p) = (length x0 - time_to_index u x0)%nat.
Proof.
  intros D1 D2 D0. unfold fwd_cells. rewrite (idx_dom u (fst p) x0), (idx_dom u (snd p) x0) by congruence.
  unfold cell. rewrite combine_length, !skipn_length, (dom_len (fst p) x0), (dom_len (snd p) x0) by congruence. lia.
Qed.
Lemma bwd_len D v (p : tube * tube) (x0 : tube) : map dom (fst p) = D -> map dom (snd p) = D -> map dom x0 = D -> length (bwd_cells v p) = Nat.min (S (time_to_index v x0)) (length x0).
Proof.
  intros D1 D2 D0. unfold bwd_cells. rewrite (idx_dom v (fst p) x0), (idx_dom v (snd p) x0) by congruence.
  unfold cell. rewrite combine_length, !rev_length, !firstn_length, (dom_len (fst p) x0), (dom_len (snd p) x0) by congruence. lia.
Qed.
(** The cells at index [k] *)
Definition at_k (k : nat) (xs : list (tube * tube)) (cs : list cell) : Prop := Forall2 (fun (p : tube * tube) (c : cell) => nth_error (combine (fst p) (snd p)) k = Some c) xs cs.
Lemma fwd_row D u x0 k : map dom x0 = D -> forall xs cs, sliced D xs -> row k (map (fwd_cells u) xs) cs <-> at_k (time_to_index u x0 + k) xs cs.
Proof.
  intros D0. unfold row, at_k. induction xs as [|p xs IH]; intros cs HS; cbn; split; intros H; inversion H; subst; constructor;
    try (apply IH; auto; intros q Hq; apply HS; right; auto); destruct (HS p (or_introl eq_refl)) as [Q1 Q2].
  - apply (fwd_nth (map dom x0) u p x0 k); auto.
  - apply (fwd_nth (map dom x0) u p x0 k); auto.
Qed.
Lemma bwd_row D v x0 k : map dom x0 = D -> (time_to_index v x0 < length x0)%nat -> (k <= time_to_index v x0)%nat ->
  forall xs cs, sliced D xs -> row k (map (bwd_cells v) xs) cs <-> at_k (time_to_index v x0 - k) xs cs.
Proof.
  intros D0 L Hk. unfold row, at_k. induction xs as [|p xs IH]; intros cs HS; cbn; split; intros H; inversion H; subst; constructor;
    try (apply IH; auto; intros q Hq; apply HS; right; auto); destruct (HS p (or_introl eq_refl)) as [Q1 Q2].
  - apply (bwd_nth (map dom x0) v p x0 k) in H2; auto. apply H2.
  - apply (bwd_nth (map dom x0) v p x0 k); auto.
Qed.
Lemma at_k_exists D k : forall xs, sliced D xs -> (k < length D)%nat -> exists cs, at_k k xs cs.
Proof.
  unfold at_k. induction xs as [|p xs IH]; intros HS L; [exists []; constructor|]. destruct IH as (cs & E); auto. { intros q Hq; apply HS; right; auto. }
  destruct (HS p (or_introl eq_refl)) as [Q1 Q2].
  destruct (nth_error (combine (fst p) (snd p)) k) as [c|] eqn:Ec.
  - exists (c :: cs). constructor; auto.
  - apply nth_error_None in Ec. rewrite combine_length in Ec. rewrite <- Q1 in L at 1. rewrite map_length in L.
    rewrite <- (map_length dom (fst p)), <- (map_length dom (snd p)), Q1, Q2 in Ec. rewrite <- (map_length dom (fst p)), Q1 in L. lia.
Qed.
Lemma at_k_nth k : forall xs cs i d, at_k k xs cs -> nth_error cs i = Some d -> exists p, nth_error xs i = Some p /\ nth_error (fst p) k = Some (fst d) /\ nth_error (snd p) k = Some (snd d).
Proof.
  intros xs cs i d H. revert i. induction H as [|p c xs cs E H IH]; intros [|i] Ei; cbn in *; try discriminate.
  - injection Ei as <-. exists p. split; auto. apply nth_combine_inv; auto.
  - auto.
Qed.

Lemma at_k_fun k xs c cs c' cs' : at_k k xs (c :: cs) -> at_k k xs (c' :: cs') -> c = c' /\ cs = cs'.
Proof.
  assert (G : forall l1 l2, at_k k xs l1 -> at_k k xs l2 -> l1 = l2).
  { unfold at_k. induction xs as [|p l IH]; intros c1 c2 H1 H2; inversion H1; inversion H2; subst; auto. f_equal; [congruence|eauto]. }
  intros H1 H2. specialize (G _ _ H1 H2). injection G; auto.
Qed.

Section Generic.
  Variables (inv : slice -> slice -> itv -> itv -> itv) (a b u v : R) (x0 : tube * tube) (xs : list (tube * tube)) (y : list itv).
  Hypotheses (HO : tube_ok a b (fst x0)) (HS : sliced (map dom (fst x0)) (x0 :: xs)) (HL : length y = S (length xs)) (Hu : a <= u) (Huv : u <= v) (Hv : v <= b).
  Hypothesis HT : vec_tdomain (map fst (x0 :: xs)) <> None.

  Let D := map dom (fst x0).
  Let ku := time_to_index u (fst x0).
  Let kv := time_to_index v (fst x0).
  Let lt_len t : a <= t <= b -> (time_to_index t (fst x0) < length (fst x0))%nat.
  Proof. intros H. destruct (idx_spec (fst x0) a b t) as (s & E & _); try apply HO; auto. apply nth_error_Some. congruence. Qed.

  (** What the result is: the hull of two local inversions, the first is before (or at) the index of any instant found, the
      second is after (or at) it *)
  Lemma union_spec : exists r1 r2, invert_union inv (x0 :: xs) y (bnd u v) = Some (hull r1 r2) /\
    (r1 = Emp \/ exists k c cs, at_k k (x0 :: xs) (c :: cs) /\ r1 = vloc inv u v y c cs) /\
    (r2 = Emp \/ exists k c cs, at_k k (x0 :: xs) (c :: cs) /\ r2 = vloc inv u v y c cs) /\
    (forall k c cs t, (ku <= k)%nat -> at_k k (x0 :: xs) (c :: cs) -> s_lb (fst c) < v -> In t (vloc inv u v y c cs) ->
       exists j c' cs', (ku <= j <= k)%nat /\ at_k j (x0 :: xs) (c' :: cs') /\ r1 = vloc inv u v y c' cs' /\ r1 <> Emp) /\
    (forall k c cs t, (k <= kv)%nat -> at_k k (x0 :: xs) (c :: cs) -> u < s_ub (fst c) -> In t (vloc inv u v y c cs) ->
       exists j c' cs', (k <= j <= kv)%nat /\ at_k j (x0 :: xs) (c' :: cs') /\ r2 = vloc inv u v y c' cs' /\ r2 <> Emp).
  Proof.
    assert (HS' : sliced D xs) by (intros p Hp; apply HS; right; auto).
    destruct (HS x0 (or_introl eq_refl)) as [Q1 Q2]. fold D in Q1, Q2.
    destruct (walk_spec inv (fun s => Rltb (s_lb s) v) u v y (fwd_cells u x0) (map (fwd_cells u) xs)) as (r1 & E1 & A1 & B1).
    { intros z Hz. apply in_map_iff in Hz. destruct Hz as (p & <- & Hp). destruct (HS' p Hp).
      rewrite (fwd_len D u p (fst x0)), (fwd_len D u x0 (fst x0)) by auto. reflexivity. }
    destruct (walk_spec inv (fun s => Rltb u (s_ub s)) u v y (bwd_cells v x0) (map (bwd_cells v) xs)) as (r2 & E2 & A2 & B2).
    { intros z Hz. apply in_map_iff in Hz. destruct Hz as (p & <- & Hp). destruct (HS' p Hp).
      rewrite (bwd_len D v p (fst x0)), (bwd_len D v x0 (fst x0)) by auto. reflexivity. }
    assert (Lv : (kv < length (fst x0))%nat) by (apply lt_len; lra).
    exists r1, r2. split.
    { unfold invert_union. rewrite HL. cbn [length]. rewrite Nat.eqb_refl.
      assert (bnd u v = Itv (Some u) (Some v)) as -> by (unfold bnd, mk; destruct (Rle_dec u v); [auto|lra]).
      destruct (vec_tdomain (map fst (x0 :: xs))); [|congruence].
      rewrite (chain_t0 (fst x0) a b), (chain_tf (fst x0) a b) by apply HO.
      rewrite (proj2 (Rltb_false u a)), (proj2 (Rltb_false b v)) by lra. cbn [orb]. rewrite E1, E2. reflexivity. }
    assert (CF : forall k c cs, nth_error (fwd_cells u x0) k = Some c -> row k (map (fwd_cells u) xs) cs -> at_k (ku + k) (x0 :: xs) (c :: cs)).
    { intros k c cs Ec R. constructor; [apply (fwd_nth D u x0 (fst x0) k c); auto|apply (fwd_row D u (fst x0) k); auto]. }
    assert (CB : forall k c cs, nth_error (bwd_cells v x0) k = Some c -> row k (map (bwd_cells v) xs) cs -> (k <= kv)%nat /\ at_k (kv - k) (x0 :: xs) (c :: cs)).
    { intros k c cs Ec R. apply (bwd_nth D v x0 (fst x0) k c) in Ec; auto. destruct Ec as [Hk Ec]. split; auto.
      constructor; [auto|apply (bwd_row D v (fst x0) k); auto]. }
    split; [|split; [|split]].
    - destruct A1 as [A1|(k & c & cs & P1 & P2 & _ & P4)]; [left; auto|]. right. exists (ku + k)%nat, c, cs. split; auto.
    - destruct A2 as [A2|(k & c & cs & P1 & P2 & _ & P4)]; [left; auto|]. right. exists (kv - k)%nat, c, cs. split; auto. apply CB; auto.
    - intros k c cs t Hk Hat Hlb Ht. inversion Hat; subst.
      destruct (B1 (k - ku)%nat c cs t) as (j & c' & cs' & P1 & P2 & P3 & P4 & P5); auto.
      + apply (fwd_nth D u x0 (fst x0)); auto. fold ku. replace (ku + (k - ku))%nat with k by lia. auto.
      + apply (fwd_row D u (fst x0)); auto. fold ku. replace (ku + (k - ku))%nat with k by lia. auto.
      + intros j c' Hj Ej. apply Rltb_true. apply (fwd_nth D u x0 (fst x0)) in Ej; auto. fold ku in Ej.
        apply nth_combine_inv in Ej. apply nth_combine_inv in H2. 
        destruct (Nat.eq_dec (ku + j) k) as [E|E]. { rewrite E in Ej. destruct Ej as [Ej _]. destruct H2 as [H2 _]. pose proof (eq_trans (eq_sym Ej) H2) as Q. injection Q as ->. lra. }
        destruct (Rle_lt_dec (s_lb (fst c')) (s_lb (fst c))); [lra|]. exfalso.
        assert (k <= time_to_index (s_lb (fst c)) (fst x0))%nat by (apply (idx_ge _ a b _ _ (fst c)); [apply HO|apply H2|lra]).
        assert (time_to_index (s_lb (fst c)) (fst x0) <= ku + j)%nat.
        { apply (idx_le _ _ _ (fst c')); [apply Ej|]. destruct Ej as [Ej _]. apply nth_error_In in Ej.
          destruct (chain_in_bounds _ _ _ _ (ok_chain _ _ _ HO) Ej). lra. }
        lia.
      + exists (ku + j)%nat, c', cs'. refine (conj _ (conj _ (conj P4 P5))); [lia|]. auto.
    - intros k c cs t Hk Hat Hub Ht. inversion Hat; subst.
      destruct (B2 (kv - k)%nat c cs t) as (j & c' & cs' & P1 & P2 & P3 & P4 & P5); auto.
      + apply (bwd_nth D v x0 (fst x0)); auto. fold kv. split; [lia|]. replace (kv - (kv - k))%nat with k by lia. auto.
      + apply (bwd_row D v (fst x0)); auto. { fold kv; lia. } fold kv. replace (kv - (kv - k))%nat with k by lia. auto.
      + intros j c' Hj Ej. apply Rltb_true. apply (bwd_nth D v x0 (fst x0)) in Ej; auto. fold kv in Ej. destruct Ej as [Hj' Ej].
        apply nth_combine_inv in Ej. apply nth_combine_inv in H2. destruct Ej as [Ej _]. destruct H2 as [H2 _].
        destruct (Rle_lt_dec (s_ub (fst c)) (s_ub (fst c'))); [lra|]. exfalso.
        pose proof (nth_error_In _ _ H2) as I1. pose proof (nth_error_In _ _ Ej) as I2.
        destruct (chain_in_bounds _ _ _ _ (ok_chain _ _ _ HO) I1) as (G1 & G2 & G3). destruct (chain_in_bounds _ _ _ _ (ok_chain _ _ _ HO) I2) as (G4 & G5 & G6).
        assert (time_to_index (s_ub (fst c')) (fst x0) <= k)%nat by (apply (idx_le _ _ _ (fst c)); auto).
        assert (kv - j <= time_to_index (s_lb (fst c')) (fst x0))%nat by (apply (idx_ge _ a b _ _ (fst c')); auto; [apply HO|lra]).
        assert (kv - j <= k)%nat.
        { apply Nat.le_trans with (time_to_index (s_ub (fst c')) (fst x0)); auto. apply (idx_ge _ a b _ _ (fst c')); auto; [apply HO|lra]. }
        assert (kv - j = k)%nat as Eq by lia. rewrite Eq in Ej. pose proof (eq_trans (eq_sym Ej) H2) as Q. injection Q as Q. rewrite Q in *. lra.
      + destruct (CB j c' cs' P2 P3) as [Q Q']. exists (kv - j)%nat, c', cs'. refine (conj _ (conj _ (conj P4 P5))); [lia|]. auto.
  Qed.

  Lemma union_sound t : u <= t <= v ->
    (forall i p yi k s sv, nth_error (x0 :: xs) i = Some p -> nth_error y i = Some yi -> nth_error (fst p) k = Some s -> nth_error (snd p) k = Some sv ->
       s_lb s <= t <= s_ub s -> In t (inv s sv yi (inter (bnd u v) (s_dom s)))) ->
    exists r, invert_union inv (x0 :: xs) y (bnd u v) = Some r /\ In t r.
  Proof.
    intros Ht H. destruct union_spec as (r1 & r2 & E & _ & _ & F1 & F2). exists (hull r1 r2). split; [exact E|].
    destruct (idx_spec (fst x0) a b t) as (s & Es & Bs & Us); try apply HO; try lra. set (k := time_to_index t (fst x0)) in *.
    destruct (at_k_exists D k (x0 :: xs)) as (cs0 & Hat); auto. { unfold D. rewrite map_length. apply nth_error_Some. congruence. }
    destruct cs0 as [|c cs]; [inversion Hat|].
    assert (fst c = s) as Ec. { inversion Hat; subst. apply nth_combine_inv in H3. destruct H3. congruence. }
    assert (Hin : In t (vloc inv u v y c cs)).
    { apply vloc_in; [rewrite Ec; cbn; lra|]. intros i d yi Ed Ey. destruct (at_k_nth k _ _ i d Hat Ed) as (p & Ep & E1 & E2).
      apply (H i p yi k); auto. apply nth_error_In in Ep. destruct (HS p Ep) as [Q _].
      assert (map dom (fst p) = D) as Q' by auto. unfold D in Q'.
      assert (dom (fst d) = dom s) as Ed'. { apply (f_equal (fun l => nth_error l k)) in Q'. rewrite !nth_error_map, E1, Es in Q'. cbn in Q'. congruence. }
      unfold dom in Ed'. injection Ed' as -> ->. lra. }
    destruct (idx_spec (fst x0) a b u) as (su & Eu & Bu & _); try apply HO; try lra.
    assert (ku <= k)%nat as K1 by (apply (idx_ge _ a b t _ su); auto; [apply HO|lra]).
    assert (k <= kv)%nat as K2 by (apply (idx_ge _ a b v _ s); auto; [apply HO|lra]).
    assert (Hs : List.In s (fst x0)) by (eapply nth_error_In; eauto).
    destruct (chain_in_bounds _ _ _ _ (ok_chain _ _ _ HO) Hs) as (G1 & G2 & G3).
    assert (T1 : s_lb s < v -> In t r1 \/ exists p, p <= t /\ In p r1).
    { intros Lv. destruct (F1 k c cs t) as (j & c' & cs' & Hj & Hat' & Er & Ne); auto; [rewrite Ec; auto|].
      assert (nth_error (fst x0) j = Some (fst c')) as Ej by (inversion Hat'; subst; apply nth_combine_inv in H3; tauto).
      destruct (Nat.eq_dec j k) as [->|Nk].
      - left. destruct (at_k_fun _ _ _ _ _ _ Hat Hat') as [<- <-]. rewrite Er. auto.
      - right. pose proof (nth_error_In _ _ Ej) as Hj'. destruct (chain_in_bounds _ _ _ _ (ok_chain _ _ _ HO) Hj') as (G4 & G5 & G6).
        destruct (wf_point r1) as (p & Hp); auto. { rewrite Er. apply wf_vloc. lra. }
        exists p. split; auto. rewrite Er in Hp. apply vloc_out in Hp. destruct Hp as [Hp _]. cbn in Hp.
        destruct (Rle_lt_dec p t); auto. exfalso. assert (k <= j)%nat; [|lia]. apply (idx_le (fst x0) t j (fst c')); auto. lra. }
    assert (T2 : u < s_ub s -> In t r2 \/ exists p, t <= p /\ In p r2).
    { intros Lv. destruct (F2 k c cs t) as (j & c' & cs' & Hj & Hat' & Er & Ne); auto; [rewrite Ec; auto|].
      assert (nth_error (fst x0) j = Some (fst c')) as Ej by (inversion Hat'; subst; apply nth_combine_inv in H3; tauto).
      destruct (Nat.eq_dec j k) as [->|Nk].
      - left. destruct (at_k_fun _ _ _ _ _ _ Hat Hat') as [<- <-]. rewrite Er. auto.
      - right. pose proof (nth_error_In _ _ Ej) as Hj'. destruct (chain_in_bounds _ _ _ _ (ok_chain _ _ _ HO) Hj') as (G4 & G5 & G6).
        destruct (wf_point r2) as (p & Hp); auto. { rewrite Er. apply wf_vloc. lra. }
        exists p. split; auto. rewrite Er in Hp. apply vloc_out in Hp. destruct Hp as [Hp _]. cbn in Hp.
        destruct (Rle_lt_dec t p); auto. exfalso. assert (j <= k)%nat; [|lia]. apply (idx_ge (fst x0) a b t j (fst c')); auto; [apply HO|lra]. }
    destruct (Rlt_le_dec (s_lb s) v) as [Lv|Lv].
    - destruct (T1 Lv) as [X|(p & Hp & Xp)]; [apply In_hull_l; auto|]. destruct (Rlt_le_dec u (s_ub s)) as [Lu|Lu].
      + destruct (T2 Lu) as [X|(q & Hq & Xq)]; [apply In_hull_r; auto|].
        apply (In_convex p t q); [apply In_hull_l; auto|apply In_hull_r; auto|lra].
      + (* the end of the tube *)
        assert (t = b) by (apply Us; lra). assert (u = b) by lra. assert (k = ku) by (unfold k, ku; f_equal; lra).
        destruct (F1 k c cs t) as (j & c' & cs' & Hj & Hat' & Er & Ne); auto; [rewrite Ec; auto|].
        assert (j = k) by lia. subst j. apply In_hull_l. destruct (at_k_fun _ _ _ _ _ _ Hat Hat') as [<- <-]. rewrite Er. auto.
    - (* t = v is the beginning of a slice *)
      assert (t = v) by lra. assert (k = kv) by (unfold k, kv; f_equal; auto).
      destruct (F2 k c cs t) as (j & c' & cs' & Hj & Hat' & Er & Ne); auto; [rewrite Ec; lra|].
      assert (j = k) by lia. subst j. apply In_hull_r. destruct (at_k_fun _ _ _ _ _ _ Hat Hat') as [<- <-]. rewrite Er. auto.
  Qed.
End Generic.

(** ** C109 *)
(** The components of the vector share their slicing *)
Definition one_slicing (xs : list tube) : Prop := forall x x', List.In x xs -> List.In x' xs -> map dom x = map dom x'.

Lemma sliced_self x0 xs : one_slicing (x0 :: xs) -> sliced (map dom x0) (map (fun x => (x, x)) (x0 :: xs)).
Proof. intros H p Hp. apply in_map_iff in Hp. destruct Hp as (x & <- & Hx). cbn [fst snd]. split; apply H; auto; left; auto. Qed.
Lemma map_fst_self (xs : list tube) : map fst (map (fun x => (x, x)) xs) = xs.
Proof. rewrite map_map. cbn. apply map_id. Qed.
Lemma sub_clip u v s : sub (inter (bnd u v) (s_dom s)) (s_dom s). Proof. apply sub_inter_r. Qed.

(** No instant of the search domain at which the values are in the box is lost, whatever the search domain inside the domain of
    the tubes (a single instant included), and the result is inside the search domain. *)
Theorem C109_union : forall a b u v xs y, vec_ok a b xs -> one_slicing xs -> length y = length xs -> a <= u -> u <= v -> v <= b ->
  exists r, vec_invert xs y (bnd u v) = Some r /\ sub r (bnd u v) /\
    forall fs t, vsol xs y fs t -> u <= t <= v -> In t r.
Proof.
  intros a b u v xs y O S L Hu Huv Hv. destruct xs as [|x0 xs]; [destruct O as [O _]; congruence|].
  assert (O0 : tube_ok a b x0) by (apply (vec_nth a b (x0 :: xs) 0); auto).
  unfold vec_invert. rewrite (map_cons _ x0 xs).
  pose proof (sliced_self x0 xs S) as HS. cbn [map] in HS. set (X := map (fun x => (x, x)) xs) in *.
  assert (HL : length y = Datatypes.S (length X)) by (unfold X; rewrite map_length; auto).
  assert (HT : vec_tdomain (map fst ((x0, x0) :: X)) <> None).
  { unfold X. cbn [map fst]. rewrite map_fst_self, (vec_tdomain_ok a b) by auto. discriminate. }
  destruct (union_spec (fun s _ => slice_invert s) a b u v (x0, x0) X y O0 HS HL Hu Huv Hv HT) as (r1 & r2 & E & A1 & A2 & _).
  exists (hull r1 r2). split; [exact E|]. split.
  - assert (G : forall r, (r = Emp \/ exists k c cs, at_k k ((x0, x0) :: X) (c :: cs) /\ r = vloc (fun s _ => slice_invert s) u v y c cs) ->
      wf r /\ sub r (bnd u v)).
    { intros r [->|(k & c & cs & Hat & ->)]; [split; [exact Logic.I|intros t []]|].
      assert (Hc : List.In (fst c) x0). { inversion Hat; subst. apply nth_combine_inv in H2. eapply nth_error_In. apply H2. }
      destruct (chain_in_bounds _ _ _ _ (ok_chain _ _ _ O0) Hc) as (G1 & G2 & G3).
      split; [apply wf_vloc; lra|]. intros t Ht. apply vloc_out in Ht. destruct Ht as [_ Ht].
      destruct y as [|y0 y]; [cbn in HL; lia|]. specialize (Ht 0%nat c y0 eq_refl eq_refl).
      apply slice_invert_sub in Ht; [|apply wf_inter|apply sub_clip]. apply In_inter in Ht. tauto. }
    destruct (G r1 A1), (G r2 A2). apply hull_least; auto.
  - intros fs t (L1 & L2 & HV) Ht.
    destruct (union_sound (fun s _ => slice_invert s) a b u v (x0, x0) X y O0 HS HL Hu Huv Hv HT t Ht) as (r & E' & Hr).
    + intros i p yi k s sv Ep Ey Es _ Hs.
      assert (exists x, nth_error (x0 :: xs) i = Some x /\ p = (x, x)) as (x & Ex & ->).
      { destruct i as [|i]; cbn in Ep |- *; [injection Ep as <-; eauto|]. unfold X in Ep. rewrite nth_error_map in Ep.
        destruct (nth_error xs i); [|discriminate]. cbn in Ep. injection Ep as <-. eauto. }
      cbn [fst] in Es. destruct (nth_error fs i) as [f|] eqn:Ef.
      2:{ apply nth_error_None in Ef. assert (i < length (x0 :: xs))%nat by (apply nth_error_Some; congruence). lia. }
      destruct (HV i x f yi Ex Ef Ey) as [Hh Hy]. apply nth_error_In in Es.
      apply slice_invert_in with (f := f); auto.
      * exact (ok_in _ _ _ _ (vec_nth _ _ _ _ _ O Ex) Es).
      * apply In_inter. split; [apply In_bnd; lra|cbn; lra].
      * apply sub_clip.
    + assert (Some (hull r1 r2) = Some r) as Q by (rewrite <- E; exact E'). injection Q as ->. exact Hr.
Qed.

(** Nothing is found when, on each slice, one of the components has a non-empty codomain that misses its
    interval.  (An empty codomain is a subset of any interval: see the refutation below.) *)
Theorem C109_empty_partial : forall a b u v xs y, vec_ok a b xs -> one_slicing xs -> length y = length xs -> a <= u -> u <= v -> v <= b ->
  (forall k x0 s0, nth_error xs 0 = Some x0 -> nth_error x0 k = Some s0 ->
     exists i x s yi, nth_error xs i = Some x /\ nth_error x k = Some s /\ nth_error y i = Some yi /\ s_cod s <> Emp /\ forall w, In w (s_cod s) -> ~ In w yi) ->
  vec_invert xs y (bnd u v) = Some Emp.
Proof.
  intros a b u v xs y O S L Hu Huv Hv HE. destruct xs as [|x0 xs]; [destruct O as [O _]; congruence|].
  assert (O0 : tube_ok a b x0) by (apply (vec_nth a b (x0 :: xs) 0); auto).
  unfold vec_invert. rewrite (map_cons _ x0 xs).
  pose proof (sliced_self x0 xs S) as HS. cbn [map] in HS.
  assert (HX : forall i x, nth_error (x0 :: xs) i = Some x -> nth_error ((x0, x0) :: map (fun x => (x, x)) xs) i = Some (x, x)).
  { intros [|i] x Ex; cbn in Ex |- *; [congruence|]. rewrite nth_error_map, Ex. reflexivity. }
  set (X := map (fun x => (x, x)) xs) in *.
  assert (HL : length y = Datatypes.S (length X)) by (unfold X; rewrite map_length; auto).
  assert (HT : vec_tdomain (map fst ((x0, x0) :: X)) <> None).
  { unfold X. cbn [map fst]. rewrite map_fst_self, (vec_tdomain_ok a b) by auto. discriminate. }
  destruct (union_spec (fun s _ => slice_invert s) a b u v (x0, x0) X y O0 HS HL Hu Huv Hv HT) as (r1 & r2 & E & A1 & A2 & _).
  assert (G : forall r, (r = Emp \/ exists k c cs, at_k k ((x0, x0) :: X) (c :: cs) /\ r = vloc (fun s _ => slice_invert s) u v y c cs) -> r = Emp).
  { intros r [->|(k & c & cs & Hat & ->)]; [reflexivity|].
    assert (Ec : nth_error x0 k = Some (fst c)). { inversion Hat; subst. apply nth_combine_inv in H2. apply H2. }
    destruct (chain_in_bounds _ _ _ _ (ok_chain _ _ _ O0) (nth_error_In _ _ Ec)) as (G1 & G2 & G3).
    destruct (HE k x0 (fst c) eq_refl Ec) as (i & x & s & yi & Ex & Es & Ey & Hne & Hmiss).
    destruct (vloc (fun s _ => slice_invert s) u v y c cs) as [|l h] eqn:Ev; [reflexivity|]. exfalso.
    destruct (wf_point (vloc (fun s _ => slice_invert s) u v y c cs)) as (t & Ht); [apply wf_vloc; lra|rewrite Ev; discriminate|].
    assert (Hd : exists d, nth_error (c :: cs) i = Some d /\ fst d = s).
    { specialize (HX i x Ex). pose proof (Forall2_len _ _ _ Hat) as Len.
      destruct (nth_error (c :: cs) i) as [d|] eqn:Ed.
      - exists d. split; auto. destruct (at_k_nth k _ _ i d Hat Ed) as (p & Ep & E1 & _). rewrite HX in Ep. injection Ep as <-. cbn in E1. congruence.
      - apply nth_error_None in Ed. assert (i < length ((x0, x0) :: X))%nat by (apply nth_error_Some; congruence). rewrite Len in H. lia. }
    destruct Hd as (d & Ed & Es'). apply vloc_out in Ht. destruct Ht as [_ Ht]. specialize (Ht i d yi Ed Ey). cbn beta in Ht. rewrite Es' in Ht.
    pose proof (ok_in _ _ _ _ (vec_nth _ _ _ _ _ O Ex) (nth_error_In _ _ Es)) as (Wc & _ & _ & SI & SO).
    assert (M : forall g, sub g (s_cod s) -> intersects yi g = false).
    { intros g Hg. destruct (intersects yi g) eqn:Ei; auto. exfalso. apply intersects_spec in Ei. destruct Ei as (w & W1 & W2). apply (Hmiss w); auto. }
    assert (dom s = dom (fst c)) as Dd.
    { assert (map dom x = map dom x0) as Q by (apply S; [eapply nth_error_In; eauto|left; auto]).
      apply (f_equal (fun l => nth_error l k)) in Q. rewrite !nth_error_map, Es, Ec in Q. cbn in Q. congruence. }
    unfold dom in Dd. injection Dd as D1 D2.
    revert Ht. unfold slice_invert. 
    destruct (is_empty (inter (bnd u v) (s_dom s))) eqn:E0; [intros []|].
    assert (lb_lt (inter (bnd u v) (s_dom s)) (s_lb s) || ub_gt (inter (bnd u v) (s_dom s)) (s_ub s) = false) as ->.
    { unfold bnd, mk, s_dom in *. destruct (Rle_dec u v); [|lra]. cbn in E0 |- *. unfold mk in *. destruct (Rle_dec _ _); [|discriminate]. cbn.
      apply orb_false_iff. split; apply Rltb_false; [apply Rmax_r|apply Rmin_r]. }
    destruct (itv_eqb _ _ && is_subset (s_cod s) yi) eqn:E1.
    { exfalso. apply andb_true_iff in E1. destruct E1 as [_ E1]. apply is_subset_sub in E1.
      destruct (wf_point _ Wc Hne) as (w & Hw). apply (Hmiss w); auto. }
    rewrite (M (s_in s) SI), (M (s_out s) SO), (M (s_cod s)) by (intros w Hw; exact Hw).
    clear E1. repeat match goal with |- context [if ?q then Emp else _] => destruct q end; cbn; tauto. }
  rewrite (G r1 A1), (G r2 A2) in E. exact E.
Qed.

(** With the derivative. *)
Theorem C109_derivative : forall c a b u v xs vs y, pint_ok (e_pint c) -> vec_ok a b xs -> vec_ok a b vs -> length xs = length vs ->
  one_slicing xs -> (forall i x w, nth_error xs i = Some x -> nth_error vs i = Some w -> map dom x = map dom w) ->
  length y = length xs -> a <= u -> u <= v -> v <= b ->
  exists r, vec_invert_v c xs vs y (bnd u v) = Some r /\
    forall fs gs t, vsol xs y fs t -> length gs = length vs ->
      (forall i w f g, nth_error vs i = Some w -> nth_error fs i = Some f -> nth_error gs i = Some g -> has w g /\ derivative_on a b f g) ->
      u <= t <= v -> In t r.
Proof.
  intros c a b u v xs vs y HP O Ov Lv S Sv L Hu Huv Hv. unfold vec_invert_v.
  rewrite L, Lv, !Nat.eqb_refl, (vec_tdomain_ok a b xs), (vec_tdomain_ok a b vs), same_tdom_refl by auto. cbn [andb].
  assert (forallb (fun p => same_slicing (fst p) (snd p)) (combine xs vs) = true) as ->.
  { apply forallb_forall. intros [x w] Hp. apply In_nth_error in Hp. destruct Hp as (i & Hi). apply nth_combine_inv in Hi. cbn [fst snd] in *.
    apply same_slicing_dom. apply (Sv i); apply Hi. }
  destruct xs as [|x0 xs]; [destruct O as [O _]; congruence|]. destruct vs as [|w0 vs]; [discriminate|].
  assert (O0 : tube_ok a b x0) by (apply (vec_nth a b (x0 :: xs) 0); auto). cbn [combine].
  assert (HS : sliced (map dom x0) ((x0, w0) :: combine xs vs)).
  { intros p Hp. change (List.In p (combine (x0 :: xs) (w0 :: vs))) in Hp. apply In_nth_error in Hp. destruct Hp as (i & Hi).
    apply nth_combine_inv in Hi. destruct Hi as [H1 H2]. assert (map dom (fst p) = map dom x0) as Q by (apply S; [eapply nth_error_In; eauto|left; auto]).
    split; auto. rewrite <- (Sv i _ _ H1 H2). auto. }
  assert (HL : length y = Datatypes.S (length (combine xs vs))). { rewrite combine_length. cbn in L, Lv. lia. }
  assert (HT : vec_tdomain (map fst ((x0, w0) :: combine xs vs)) <> None).
  { cbn [map fst]. assert (map fst (combine xs vs) = xs) as ->. { cbn in Lv. clear - Lv. revert vs Lv. induction xs as [|x xs IH]; intros [|w vs] E; cbn in *; auto; try discriminate. f_equal. apply IH. lia. }
    rewrite (vec_tdomain_ok a b) by auto. discriminate. }
  destruct (union_spec (slice_invert_v c) a b u v (x0, w0) (combine xs vs) y O0 HS HL Hu Huv Hv HT) as (r1 & r2 & E & _).
  exists (hull r1 r2). split; [exact E|].
  intros fs gs t (L1 & L2 & HV) Lg HG Ht.
  destruct (union_sound (slice_invert_v c) a b u v (x0, w0) (combine xs vs) y O0 HS HL Hu Huv Hv HT t Ht) as (r & E' & Hr).
  - intros i p yi k s sv Ep Ey Es Esv Hs. change (nth_error (combine (x0 :: xs) (w0 :: vs)) i = Some p) in Ep. apply nth_combine_inv in Ep. destruct Ep as [Ex Ew].
    assert (i < length (x0 :: xs))%nat as Hi by (apply nth_error_Some; congruence).
    destruct (nth_error fs i) as [f|] eqn:Ef; [|apply nth_error_None in Ef; lia].
    destruct (nth_error gs i) as [g|] eqn:Eg; [|apply nth_error_None in Eg; lia].
    destruct (HV i _ f yi Ex Ef Ey) as [Hh Hy]. destruct (HG i _ f g Ew Ef Eg) as [Hg Hd].
    pose proof (nth_error_In _ _ Es) as Is. pose proof (nth_error_In _ _ Esv) as Isv.
    pose proof (vec_nth _ _ _ _ _ O Ex) as Ox. pose proof (vec_nth _ _ _ _ _ Ov Ew) as Ow.
    destruct (chain_in_bounds _ _ _ _ (ok_chain _ _ _ Ox) Is) as (G1 & G2 & G3).
    assert (Dd : dom s = dom sv).
    { pose proof (Sv i _ _ Ex Ew) as Q. apply (f_equal (fun l => nth_error l k)) in Q. rewrite !nth_error_map, Es, Esv in Q. cbn in Q. congruence. }
    unfold dom in Dd. injection Dd as D1 D2.
    apply slice_invert_v_in with (f := f); auto.
    + exact (ok_in _ _ _ _ Ox Is).
    + exact (proj1 (ok_in _ _ _ _ Ow Isv)).
    + apply (rises_of_derivative a b f g); auto. intros z Hz. destruct (Hg sv Isv) as (Q1 & Q2 & Q3). first [apply Q1|apply Q2|apply Q3]; lra.
    + apply In_inter. split; [apply In_bnd; lra|cbn; lra].
    + apply sub_clip.
  - assert (Some (hull r1 r2) = Some r) as Q by (rewrite <- E; exact E'). injection Q as ->. exact Hr.
Qed.

(** An empty search domain gives the empty set, a search domain that leaves the domain of the tubes gives [-oo,oo]. *)
Theorem C109_search : forall a b xs y, vec_ok a b xs -> length y = length xs ->
  vec_invert xs y Emp = Some Emp /\
  forall i, (exists t, In t i /\ ~ a <= t <= b) -> vec_invert xs y i = Some ALL.
Proof.
  intros a b xs y O L. assert (EL : Nat.eqb (length (map (fun x : tube => (x, x)) xs)) (length y) = true) by (rewrite map_length, L; apply Nat.eqb_refl).
  split; [unfold vec_invert, invert_union; rewrite EL; reflexivity|]. intros i (t & Ht & Hn).
  unfold vec_invert, invert_union. rewrite EL, map_fst_self, (vec_tdomain_ok a b) by auto.
  destruct xs as [|x0 xs]; [destruct O as [O _]; congruence|].
  assert (O0 : tube_ok a b x0) by (apply (vec_nth a b (x0 :: xs) 0); auto). cbn [map].
  destruct i as [|[l|] [h|]]; [destruct Ht| | | | ]; auto. cbn [fst]. rewrite (chain_t0 x0 a b), (chain_tf x0 a b) by apply O0.
  cbn in Ht. destruct (Rltb l a) eqn:E1; [reflexivity|]. destruct (Rltb b h) eqn:E2; [reflexivity|].
  apply Rltb_false in E1. apply Rltb_false in E2. exfalso. apply Hn. lra.
Qed.

(** ** Slicings that differ: no assertion checks it *)
Definition one : tube := [mkS 0 3 (I2 0 3) (I2 0 3) (I2 0 3)].
Definition bump : tube := [mkS 0 1 (I2 0 1) (I2 0 0) (I2 1 1); mkS 1 2 (I2 1 2) (I2 1 1) (I2 1 1); mkS 2 3 (I2 0 1) (I2 1 1) (I2 0 0)].
Definition fbump (t : R) : R := if Rle_dec t (3/2) then t else 3 - t.
Lemma one_ok : tube_ok 0 3 one. Proof. tube_ok_tac. Qed.
Lemma bump_ok : tube_ok 0 3 bump. Proof. tube_ok_tac. Qed.
Lemma one_f : has one fbump.
Proof. unfold fbump, one. apply has_cons; split; [|apply has_nil]. (split; [|split]); intros; cbn in *; unfold I2; simpl; destruct (Rle_dec _ _); lra. Qed.
Lemma bump_f : has bump fbump.
Proof.
  unfold fbump, bump. repeat (apply has_cons; split; [|]); [| | |apply has_nil];
  (split; [|split]); intros; cbn in *; unfold I2; simpl; destruct (Rle_dec _ _); lra.
Qed.
Lemma inter_Emp_r' i : inter i Emp = Emp. Proof. destruct i; reflexivity. Qed.
Lemma miss_invert s l h c d search : slice_ok s -> s_cod s = I2 l h -> l <= h -> h < c -> c <= d -> sub search (s_dom s) -> wf search ->
  slice_invert s (I2 c d) search = Emp.
Proof.
  intros (_ & _ & _ & SI & SO) Ec H1 H2 H3 Hs W. rewrite Ec in SI, SO. unfold slice_invert. destruct (is_empty search) eqn:E0; [reflexivity|]. apply is_empty_false in E0.
  assert (lb_lt search (s_lb s) || ub_gt search (s_ub s) = false) as ->.
  { destruct (wf_point search W E0) as (t & Ht). apply orb_false_iff. 
    destruct search as [|[l'|] [h'|]]; [congruence| | | | ]; cbn in *; destruct Ht as [Ht1 Ht2].
    - split; apply Rltb_false; [destruct (Hs l')|destruct (Hs h')]; cbn in *; lra.
    - exfalso. destruct (Hs (Rmax t (s_ub s + 1))) as [_ Hx]; [split; cbn; auto; pose proof (Rmax_l t (s_ub s + 1)); lra|]. cbn in Hx. pose proof (Rmax_r t (s_ub s + 1)). lra.
    - exfalso. destruct (Hs (Rmin t (s_lb s - 1))) as [Hx _]; [split; cbn; auto; pose proof (Rmin_l t (s_lb s - 1)); lra|]. cbn in Hx. pose proof (Rmin_r t (s_lb s - 1)). lra.
    - exfalso. destruct (Hs (s_ub s + 1)) as [_ Hx]; [split; cbn; auto|]. cbn in Hx. lra. }
  assert (is_subset (s_cod s) (I2 c d) = false) as ->.
  { rewrite Ec. cbn. rewrite (Rleb_f c l) by lra. reflexivity. }
  rewrite andb_false_r.
  assert (M : forall g, sub g (I2 l h) -> intersects (I2 c d) g = false).
  { intros g Hg. apply intersects_false. intros w W1 W2. specialize (Hg w W2). cbn in *. lra. }
  rewrite (M (s_in s) SI), (M (s_out s) SO), Ec, (M (I2 l h)) by (intros w Hw; exact Hw).
  repeat match goal with |- context [if ?q then Emp else _] => destruct q end; reflexivity.
Qed.

(** The values of the two components are in the box in the middle of the domain only; the first component has one slice, the second
    one has three slices: only the first and the last ones are visited and the result is empty. *)
Theorem C109_slicing_refuted : exists a b u v xs y fs t, vec_ok a b xs /\ length y = length xs /\ a <= u /\ u <= v /\ v <= b /\
  vsol xs y fs t /\ u <= t <= v /\ vec_invert xs y (bnd u v) = Some Emp.
Proof.
  exists 0, 3, 0, 3, [one; bump], [I2 1 2; I2 (5/4) 2], [fbump; fbump], (3/2).
  split. { split; [discriminate|]. constructor; [exact one_ok|]. constructor; [exact bump_ok|]. constructor. }
  split; [reflexivity|]. do 3 (split; [lra|]). split.
  { split; [reflexivity|]. split; [reflexivity|]. intros [|[|[|j]]] y f zj E1 E2 E3; cbn in *; try discriminate;
    injection E1 as <-; injection E2 as <-; injection E3 as <-; (split; [first [exact one_f|exact bump_f]|]);
    unfold fbump; destruct (Rle_dec _ _); cbn; lra. }
  split; [lra|]. unfold vec_invert, invert_union.
  assert (bnd 0 3 = I2 0 3) as -> by (unfold bnd, mk; reval; reflexivity). unfold I2 at 3.
  cbn [length map Nat.eqb fst snd].
  assert (vec_tdomain [one; bump] = Some (bnd 0 3)) as ->.
  { apply (vec_tdomain_ok 0 3). split; [discriminate|]. constructor; [exact one_ok|]. constructor; [exact bump_ok|]. constructor. }
  rewrite (chain_t0 one 0 3), (chain_tf one 0 3) by apply one_ok. rewrite (Rltb_f 0 0), (Rltb_f 3 3) by lra. cbn [orb].
  unfold fwd_cells, bwd_cells. cbn [fst snd].
  assert (time_to_index 0 one = 0%nat) as -> by (cbn; reval; reflexivity).
  assert (time_to_index 3 one = 0%nat) as -> by (cbn; reval; reflexivity).
  assert (time_to_index 0 bump = 0%nat) as -> by (cbn; reval; reflexivity).
  assert (time_to_index 3 bump = 2%nat) as -> by (cbn; reval; reflexivity).
  unfold one, bump. cbn [skipn firstn rev app combine walk heads fst snd s_lb s_ub]. rewrite !(Rltb_t 0 3) by lra.
  unfold vloc, map2. cbn [combine map fst snd fold_left].
  rewrite (miss_invert (mkS 0 1 (I2 0 1) (I2 0 0) (I2 1 1)) 0 1 (5/4) 2), (miss_invert (mkS 2 3 (I2 0 1) (I2 1 1) (I2 0 0)) 0 1 (5/4) 2) by first [apply wf_inter|apply sub_inter_r|reflexivity|lra|slice_ok_tac].
  rewrite !inter_Emp_r'. reflexivity.
Qed.

(** The first component has two slices, the second one has only one: the loop dereferences a null pointer. *)
Theorem C109_null_refuted : exists a b u v xs y, vec_ok a b xs /\ length y = length xs /\ a <= u /\ u <= v /\ v <= b /\
  vec_invert xs y (bnd u v) = None.
Proof.
  exists 0, 3, 0, 3, [bump; one], [I2 4 5; I2 4 5].
  assert (O : vec_ok 0 3 [bump; one]). { split; [discriminate|]. constructor; [exact bump_ok|]. constructor; [exact one_ok|]. constructor. }
  split; [exact O|]. split; [reflexivity|]. do 3 (split; [lra|]). unfold vec_invert, invert_union.
  assert (bnd 0 3 = I2 0 3) as -> by (unfold bnd, mk; reval; reflexivity). unfold I2 at 3.
  cbn [length map Nat.eqb fst snd]. rewrite (vec_tdomain_ok 0 3 _ O).
  rewrite (chain_t0 bump 0 3), (chain_tf bump 0 3) by apply bump_ok. rewrite (Rltb_f 0 0), (Rltb_f 3 3) by lra. cbn [orb].
  unfold fwd_cells. cbn [fst snd].
  assert (time_to_index 0 one = 0%nat) as -> by (cbn; reval; reflexivity).
  assert (time_to_index 0 bump = 0%nat) as -> by (cbn; reval; reflexivity).
  unfold one, bump. cbn [skipn combine walk heads fst snd s_lb s_ub map tl]. rewrite (Rltb_t 0 3), (Rltb_t 1 3) by lra.
  unfold vloc at 1, map2. cbn [combine map fst snd fold_left].
  rewrite (miss_invert (mkS 0 3 (I2 0 3) (I2 0 3) (I2 0 3)) 0 3 4 5) by first [apply wf_inter|apply sub_inter_r|reflexivity|lra|slice_ok_tac].
  rewrite !inter_Emp_r'. reflexivity.
Qed.

Definition void : tube := [mkS 0 1 Emp Emp Emp].
(** A component with an empty slice does not make the result empty: the whole slice is returned (an empty codomain is a subset of
    anything), although no trajectory goes through it. *)
Theorem C109_empty_refuted : exists a b u v xs y, vec_ok a b xs /\ one_slicing xs /\ length y = length xs /\ a <= u /\ u <= v /\ v <= b /\
  (forall fs, ~ exists t, vsol xs y fs t) /\ vec_invert xs y (bnd u v) = Some (bnd u v).
Proof.
  exists 0, 1, 0, 1, [void], [I2 4 5].
  assert (Oe : tube_ok 0 1 void).
  { unfold void. constructor; [discriminate|cbn; repeat split; lra|cbn; auto|]. constructor; [|constructor].
    unfold slice_ok. cbn. do 3 (split; [exact Logic.I|]). split; intros w []. }
  assert (O : vec_ok 0 1 [void]). { split; [discriminate|]. constructor; [exact Oe|]. constructor. }
  split; [exact O|]. split. { intros x x' [<-|[]] [<-|[]]. reflexivity. } split; [reflexivity|]. do 3 (split; [lra|]). split.
  { intros fs (t & _ & L & H). destruct fs as [|f fs]; [discriminate|]. destruct (H 0%nat void f (I2 4 5) eq_refl eq_refl eq_refl) as [Hh _].
    specialize (Hh (mkS 0 1 Emp Emp Emp) (or_introl eq_refl)). destruct Hh as (Q & _). exact Q. }
  unfold vec_invert, invert_union. assert (bnd 0 1 = I2 0 1) as -> by (unfold bnd, mk; reval; reflexivity). unfold I2 at 2.
  cbn [length map Nat.eqb fst snd]. rewrite (vec_tdomain_ok 0 1 _ O).
  rewrite (chain_t0 void 0 1), (chain_tf void 0 1) by apply Oe. rewrite (Rltb_f 0 0), (Rltb_f 1 1) by lra. cbn [orb].
  unfold fwd_cells, bwd_cells. cbn [fst snd].
  assert (time_to_index 0 void = 0%nat) as -> by (cbn; reval; reflexivity).
  assert (time_to_index 1 void = 0%nat) as -> by (cbn; reval; reflexivity).
  unfold void. cbn [skipn firstn rev app combine walk heads fst snd s_lb s_ub map tl]. rewrite !(Rltb_t 0 1) by lra.
  assert (E : vloc (fun s _ => slice_invert s) 0 1 [I2 4 5] (mkS 0 1 Emp Emp Emp, mkS 0 1 Emp Emp Emp) [] = I2 0 1).
  { unfold vloc, map2. cbn [combine map fst snd fold_left]. assert (inter (bnd 0 1) (s_dom (mkS 0 1 Emp Emp Emp)) = I2 0 1) as ->.
    { unfold bnd, mk, s_dom. cbn. reval. unfold mk. cbn. reval. reflexivity. }
    unfold slice_invert, s_dom. cbn. reval. unfold mk. reval. cbn. unfold mk. reval. reflexivity. }
  rewrite !E. cbn. reval. reflexivity.
Qed.

(** ** Examples *)
Lemma vAB_ok : vec_ok 0 3 [bump; bump]. Proof. split; [discriminate|]. constructor; [exact bump_ok|]. constructor; [exact bump_ok|]. constructor. Qed.
Lemma vAB_one : one_slicing [bump; bump]. Proof. intros x x' [<-|[<-|[]]] [<-|[<-|[]]]; reflexivity. Qed.
Lemma vAB_sol t : 5/4 <= t <= 7/4 -> vsol [bump; bump] [I2 (5/4) 2; I2 1 2] [fbump; fbump] t.
Proof.
  intros H. split; [reflexivity|]. split; [reflexivity|]. intros [|[|[|j]]] y f zj E1 E2 E3; cbn in *; try discriminate;
    injection E1 as <-; injection E2 as <-; injection E3 as <-; (split; [exact bump_f|]); unfold fbump; destruct (Rle_dec _ _); cbn; lra.
Qed.
(** solutions in the middle slice only: the loops skip the others *)
Example C109_union_example : exists r, vec_invert [bump; bump] [I2 (5/4) 2; I2 1 2] (bnd 0 3) = Some r /\ forall t, 5/4 <= t <= 7/4 -> In t r.
Proof.
  destruct (C109_union 0 3 0 3 [bump; bump] [I2 (5/4) 2; I2 1 2] vAB_ok vAB_one eq_refl) as (r & E & _ & H); try lra.
  exists r. split; [exact E|]. intros t Ht. apply (H [fbump; fbump]); [apply vAB_sol; auto|lra].
Qed.
(** one instant, at a gate *)
Example C109_instant_example : exists r, vec_invert [bump; bump] [I2 1 2; I2 1 2] (bnd 2 2) = Some r /\ In 2 r.
Proof.
  destruct (C109_union 0 3 2 2 [bump; bump] [I2 1 2; I2 1 2] vAB_ok vAB_one eq_refl) as (r & E & _ & H); try lra.
  exists r. split; [exact E|]. clear E. apply (H [fbump; fbump]); [clear H|lra].
  split; [reflexivity|]. split; [reflexivity|]. intros [|[|[|j]]] y f zj E1 E2 E3; cbn in *; try discriminate;
    injection E1 as <-; injection E2 as <-; injection E3 as <-; (split; [exact bump_f|]); unfold fbump; destruct (Rle_dec _ _); cbn; lra.
Qed.
Example C109_empty_example : vec_invert [bump; bump] [I2 1 2; I2 4 5] (bnd 0 3) = Some Emp.
Proof.
  apply (C109_empty_partial 0 3); auto using vAB_ok, vAB_one; try lra. intros k x0 s0 E0 Ek. cbn in E0. injection E0 as <-.
  exists 1%nat, bump, s0, (I2 4 5). split; [reflexivity|]. split; [exact Ek|]. split; [reflexivity|].
  destruct k as [|[|[|k]]]; cbn in Ek; try (destruct k; discriminate); injection Ek as <-; (split; [discriminate|]); cbn; intros; lra.
Qed.
Example C109_derivative_example : exists r, vec_invert_v (mkE exact pint_box true true ALL) [tA; tA] [PropsDyn.vA; PropsDyn.vA] [I2 1 2; I2 1 2] (bnd 0 2) = Some r /\ In (3/4) r.
Proof.
  destruct (C109_derivative (mkE exact pint_box true true ALL) 0 2 0 2 [tA; tA] [PropsDyn.vA; PropsDyn.vA] [I2 1 2; I2 1 2] pint_box_ok) as (r & E & H); try lra; try reflexivity.
  - split; [discriminate|]. constructor; [exact tA_ok|]. constructor; [exact tA_ok|]. constructor.
  - split; [discriminate|]. constructor; [exact PropsDyn.vA_ok|]. constructor; [exact PropsDyn.vA_ok|]. constructor.
  - intros x x' [<-|[<-|[]]] [<-|[<-|[]]]; reflexivity.
  - intros [|[|[|i]]] x w E1 E2; cbn in *; try discriminate; injection E1 as <-; injection E2 as <-; reflexivity.
  - exists r. split; [exact E|]. apply (H [fA; fA] [fun _ => 1; fun _ => 1]); [| reflexivity | | lra].
    + split; [reflexivity|]. split; [reflexivity|]. intros [|[|[|j]]] y f zj E1 E2 E3; cbn in *; try discriminate;
      injection E1 as <-; injection E2 as <-; injection E3 as <-; (split; [exact tA_fA|]); unfold fA; cbn; lra.
    + intros [|[|[|i]]] w f g E1 E2 E3; cbn in *; try discriminate;
      injection E1 as <-; injection E2 as <-; injection E3 as <-; (split; [exact vA_one|exact fA_derivative]).
Qed.
Example C109_search_example : vec_invert [bump; bump] [I2 1 2; I2 1 2] (I2 2 4) = Some ALL.
Proof. apply (C109_search 0 3); auto using vAB_ok. exists 4. split; [cbn; lra|lra]. Qed.

Print Assumptions C109_union.
Print Assumptions C109_empty_partial.
Print Assumptions C109_derivative.
Print Assumptions C109_search.
Print Assumptions C109_slicing_refuted.
Print Assumptions C109_null_refuted.
Print Assumptions C109_empty_refuted.
