(** * Tubes of codac2: set, operator= (C51), operator&= (C69), evaluation (C68)

    Specification: the trajectories of a tube ([traj_in], PropsTDomain.v) and the values of its slices. *)

From Coq Require Import Reals Bool List Lra Lia Arith.
Import ListNotations.
From Verif Require Import Itv Concrete Codac2 PropsTDomain.
Open Scope R_scope.
Set Bullet Behavior "Strict Subproofs".

(** the temporal domains *)
Definition times (d : list tslice) : list itv := map ts_t d.
Lemma len_times l l' : times l = times l' -> length l = length l'.
Proof. intros H. apply (f_equal (@length _)) in H. unfold times in H. rewrite !map_length in H. exact H. Qed.
(** two values have a common point *)
Definition meets (x y : itv) : Prop := exists v, In v x /\ In v y.
Lemma meets_inter x y : is_empty (inter x y) = false <-> meets x y.
Proof.
  split.
  - intros H. destruct (wf_witness (inter x y)) as [v V]; [apply wf_inter|apply is_empty_false; exact H|]. apply In_inter in V. exists v. exact V.
  - intros (v & V). apply is_empty_false. intro E. apply In_inter in V. rewrite E in V. destruct V.
Qed.
Lemma inter_idem x : wf x -> inter x x = x.
Proof. intros W. apply inter_sub_eq; [exact W|intros v; auto]. Qed.

(** ** C51: set *)
Section Set_y.
Variable y : itv.
Hypothesis Wy : wf y.
Hypothesis Ny : is_empty y = false.

(** the pairs of consecutive TSlices: the gate, or the second slice *)
Fixpoint ready (l : list tslice) : bool :=
  match l with
  | a :: ((b :: _) as t) => negb (is_empty (inter (ts_x (if is_gate a then a else b)) y)) && ready t
  | _ => true
  end.
Fixpoint noadj (l : list tslice) : Prop :=
  match l with a :: ((b :: _) as t) => (is_gate a = true -> is_gate b = false) /\ noadj t | _ => True end.
Definition mg (l : list tslice) : list tslice :=
  match l with p :: l' => if is_gate p then set_x p (inter (ts_x p) y) :: l' else l | [] => [] end.
Definition junct (rl l : list tslice) : list tslice := match rl with p :: _ => if is_gate p then p :: l else l | [] => l end.
Lemma set_x_gate s x : is_gate (set_x s x) = is_gate s. Proof. reflexivity. Qed.
Lemma gates_mg l : map is_gate (mg l) = map is_gate l.
Proof. destruct l as [|p l]; [reflexivity|]. cbn. destruct (is_gate p) eqn:E; cbn; rewrite ?set_x_gate, ?E; reflexivity. Qed.
Lemma times_mg l : times (mg l) = times l.
Proof. destruct l as [|p l]; [reflexivity|]. cbn. destruct (is_gate p); reflexivity. Qed.
Definition bad (l : list tslice) : bool := match l with p :: _ => is_empty (inter (ts_x p) y) | [] => false end.
Lemma set_slice rl s r : is_gate s = false ->
  slice_set y (rl, s, r) = if bad rl || bad r then (all_empty (mg rl), set_x s Emp, all_empty (mg r)) else (mg rl, set_x s y, mg r).
Proof.
  intros G. unfold slice_set. assert (E : forall l, set_side l (set_x s y) = (set_x s y, mg l)).
  { intros [|p l]; [reflexivity|]. unfold set_side. rewrite set_x_gate, G. cbn [mg]. destruct (is_gate p); reflexivity. }
  rewrite !E. unfold slice_is_empty. rewrite set_x_gate, G.
  assert (S : forall l, is_empty (slice_gate (mg l) (set_x s y)) = bad l).
  { intros [|p l]; [exact Ny|]. cbn [mg bad]. destruct (is_gate p) eqn:Gp; cbn [slice_gate]; rewrite ?set_x_gate, Gp; cbn [set_x ts_x]; [reflexivity|].
    rewrite inter_comm. reflexivity. }
  rewrite !S. destruct (bad rl || bad r); reflexivity.
Qed.
(** an emptied tube stays empty *)
Definition allE (l : list tslice) : Prop := forall s, List.In s l -> ts_x s = Emp.
Lemma all_empty_E l : allE (all_empty l). Proof. intros s S. apply in_map_iff in S as (a & <- & _). reflexivity. Qed.
Lemma times_all_empty l : times (all_empty l) = times l. Proof. unfold times, all_empty. rewrite map_map. reflexivity. Qed.
Lemma inter_E x : inter x Emp = Emp. Proof. destruct x; reflexivity. Qed.
Lemma set_emptied z rl s r : allE rl -> allE (s :: r) -> (rl <> [] \/ r <> []) ->
  exists rl' s' r', slice_set z (rl, s, r) = (rl', s', r') /\ allE rl' /\ allE (s' :: r') /\ times rl' = times rl /\ ts_t s' = ts_t s /\ times r' = times r.
Proof.
  intros A B Ne. unfold slice_set. destruct (set_side rl (set_x s z)) as [s1 rl1] eqn:E1. destruct (set_side r s1) as [s2 r1] eqn:E2.
  assert (Es1 : ts_t s1 = ts_t s /\ times rl1 = times rl /\ (rl <> [] -> if is_gate s then ts_x s1 = Emp else allE rl1) /\ (is_gate s = true -> allE rl1 \/ rl1 = rl) /\ (is_gate s = false -> ts_x s1 = z)).
  { destruct rl as [|p rl]; cbn [set_side] in E1.
    - injection E1 as <- <-. refine (conj eq_refl (conj eq_refl (conj _ (conj _ _)))); auto; congruence.
    - rewrite set_x_gate in E1. destruct (is_gate s) eqn:G.
      + injection E1 as <- <-. cbn. refine (conj eq_refl (conj eq_refl (conj _ (conj _ _)))); auto; try congruence. intros _. rewrite (A p (or_introl eq_refl)). apply inter_E.
      + destruct (is_gate p) eqn:Gp; injection E1 as <- <-; cbn; refine (conj eq_refl (conj eq_refl (conj _ (conj _ _)))); auto; try congruence.
        intros _ q [<-|Q]; [cbn; rewrite (A p (or_introl eq_refl)); reflexivity|apply A; right; exact Q]. }
  destruct Es1 as (T1 & R1 & Q1 & Q1' & Q1'').
  assert (Gs1 : is_gate s1 = is_gate s) by (unfold is_gate; rewrite T1; reflexivity).
  assert (Es2 : ts_t s2 = ts_t s /\ times r1 = times r /\ (if is_gate s then (r <> [] \/ ts_x s1 = Emp -> ts_x s2 = Emp) /\ r1 = r else allE r1)).
  { destruct r as [|n r]; cbn [set_side] in E2.
    - injection E2 as <- <-. refine (conj T1 (conj eq_refl _)). destruct (is_gate s); [|intros ? []]. split; [|reflexivity]. intros [H|H]; [congruence|exact H].
    - rewrite Gs1 in E2. destruct (is_gate s) eqn:G.
      + injection E2 as <- <-. cbn. refine (conj T1 (conj eq_refl _)). split; [|reflexivity]. intros _. rewrite (B n); [apply inter_E|right; left; reflexivity].
      + destruct (is_gate n) eqn:Gn; injection E2 as <- <-; cbn; refine (conj T1 (conj eq_refl _)); intros q Q.
        * destruct Q as [<-|Q]; [cbn; rewrite (B n); [reflexivity|right; left; reflexivity]|apply B; right; right; exact Q].
        * apply B. right. exact Q. }
  destruct Es2 as (T2 & R2 & Q2).
  assert (Em : slice_is_empty (rl1, s2, r1) = true).
  { unfold slice_is_empty. assert (Gs2 : is_gate s2 = is_gate s) by (unfold is_gate; rewrite T2; reflexivity). rewrite Gs2. destruct (is_gate s) eqn:G.
    - destruct Q2 as [Q2 _]. rewrite Q2; [reflexivity|]. destruct Ne as [H|H]; [right; apply Q1, H|left; exact H].
    - assert (S : forall l, l <> [] -> allE l -> is_empty (slice_gate l s2) = true).
      { intros [|p l] H1 H2; [congruence|]. cbn. rewrite (H2 p (or_introl eq_refl)), inter_E. destruct (is_gate p); reflexivity. }
      destruct Ne as [H|H]; apply orb_true_iff; [left|right]; apply S.
      + intros ->. destruct rl; [congruence|discriminate].
      + apply Q1, H.
      + intros ->. destruct r; [congruence|discriminate].
      + exact Q2. }
  rewrite Em. exists (all_empty rl1), (set_x s2 Emp), (all_empty r1). rewrite !times_all_empty.
  refine (conj eq_refl (conj (all_empty_E _) (conj _ (conj R1 (conj T2 R2))))). intros q [<-|Q]; [reflexivity|apply (all_empty_E r1), Q].
Qed.
Lemma rev_append_in rl l (s : tslice) : List.In s (rev_append rl l) <-> List.In s rl \/ List.In s l.
Proof. rewrite rev_append_rev, in_app_iff, <- in_rev. tauto. Qed.
Lemma loop_emptied fs : forall rl l, allE rl -> allE l -> (2 <= length rl + length l)%nat -> 
  allE (set_loop fs rl l) /\ times (set_loop fs rl l) = times (rev_append rl l).
Proof.
  assert (Base : forall rl l, allE rl -> allE l -> allE (rev_append rl l)).
  { intros rl l A B s S. apply rev_append_in in S as [S|S]; auto. }
  induction fs as [|[f|] fs IH]; intros rl l A B N; [cbn; auto| |].
  - destruct l as [|s r]; [cbn; split; [apply Base; auto|reflexivity]|]. cbn [set_loop].
    destruct (set_emptied (f (ts_x s)) rl s r A B) as (rl' & s' & r' & E & A' & B' & T1 & T2 & T3).
    { destruct rl; [|left; discriminate]. destruct r; [cbn in N; lia|right; discriminate]. }
    rewrite E. pose proof (len_times _ _ T1) as L1. pose proof (len_times _ _ T3) as L3.
    destruct (IH (s' :: rl') r') as [I1 I2].
    + intros q [<-|Q]; [apply B'; left; reflexivity|apply A', Q].
    + intros q Q. apply B'. right. exact Q.
    + cbn. cbn in N. lia.
    + split; [exact I1|]. rewrite I2. unfold times in *. rewrite !rev_append_rev, !map_app. cbn. rewrite !map_app, !map_rev, T1, T3. cbn. rewrite T2, <- app_assoc. reflexivity.
  - destruct l as [|s r]; [cbn; split; [apply Base; auto|reflexivity]|]. cbn [set_loop]. apply (IH (s :: rl) r).
    + intros q [<-|Q]; [apply B; left; reflexivity|apply A, Q].
    + intros q Q. apply B. right. exact Q.
    + cbn in *. lia.
Qed.

(** the first loop *)
Definition sel (s : tslice) : option (itv -> itv) := if is_gate s then None else Some (fun _ => y).
Lemma sel_gates l l' : map is_gate l = map is_gate l' -> map sel l = map sel l'.
Proof.
  revert l'. induction l as [|a l IH]; intros [|b l'] H; try discriminate; [reflexivity|]. cbn in *. injection H as H1 H2.
  unfold sel at 1 3. rewrite H1. f_equal. apply IH, H2.
Qed.
Lemma inter_yy x : inter (inter x y) y = inter x y.
Proof. rewrite inter_assoc, (inter_idem y Wy). reflexivity. Qed.
Lemma ready_mg r : ready (mg r) = ready r.
Proof.
  destruct r as [|a [|b r]]; [reflexivity| |].
  - cbn. destruct (is_gate a); reflexivity.
  - cbn [mg]. destruct (is_gate a) eqn:G; [|reflexivity]. cbn [ready]. rewrite set_x_gate, G. cbn [set_x ts_x]. rewrite inter_yy. reflexivity.
Qed.
Lemma noadj_gates l l' : map is_gate l = map is_gate l' -> noadj l -> noadj l'.
Proof.
  revert l'. induction l as [|a l IH]; intros [|b l'] H N; try discriminate; [exact I|]. cbn in H. injection H as H1 H2.
  destruct l as [|c l], l' as [|c' l']; try discriminate; [exact I|]. change ((is_gate b = true -> is_gate c' = false) /\ noadj (c' :: l')).
  destruct N as [N1 N2]. split; [|apply IH; assumption]. cbn in H2. injection H2 as H2 _. rewrite <- H1, <- H2. exact N1.
Qed.
Lemma noadj_tl a l : noadj (a :: l) -> noadj l. Proof. destruct l; [auto|]. intros [_ H]. exact H. Qed.
(** slices are [y] *)
Definition slY (l : list tslice) : Prop := forall s, List.In s l -> is_gate s = false -> ts_x s = y.
Lemma slY_mg l : slY l -> slY (mg l).
Proof.
  intros H s S G. destruct l as [|p l]; [destruct S|]. cbn in S. destruct (is_gate p) eqn:E; [|apply H; auto].
  destruct S as [<-|S]; [rewrite set_x_gate in G; congruence|]. apply H; [right; exact S|exact G].
Qed.
Lemma loop1 : forall n l rl, (length l <= n)%nat -> slY rl -> noadj (junct rl l) -> (2 <= length rl + length l)%nat ->
  let d1 := set_loop (map sel l) rl l in
  times d1 = times (rev_append rl l) /\ (if ready (junct rl l) then slY d1 else allE d1).
Proof.
  induction n as [|n IH]; intros [|s r] rl Ln A N L d1; unfold d1; clear d1.
  2: cbn in Ln; lia.
  1,2: cbn [map set_loop]; split; [reflexivity|];
    assert (E : ready (junct rl []) = true) by (destruct rl as [|p rl]; [reflexivity|cbn; destruct (is_gate p); reflexivity]);
    rewrite E; intros s S; apply rev_append_in in S as [S|[]]; apply A, S.
  - cbn [map]. destruct (is_gate s) eqn:G;
      [assert (Es : sel s = None) by (unfold sel; rewrite G; reflexivity)|assert (Es : sel s = Some (fun _ => y)) by (unfold sel; rewrite G; reflexivity)]; rewrite Es; clear Es.
    + cbn [set_loop]. assert (Ar : slY (s :: rl)) by (intros q [<-|Q] H; [congruence|apply A; auto]).
      specialize (IH r (s :: rl) ltac:(cbn in Ln; lia) Ar). cbn zeta in IH. cbn [junct] in IH. rewrite G in IH.
      assert (J : junct rl (s :: r) = s :: r).
      { destruct rl as [|p rl]; [reflexivity|]. cbn [junct] in N |- *. destruct (is_gate p) eqn:Gp; [|reflexivity]. exfalso. destruct N as [N _]. rewrite N in G; congruence. }
      rewrite J in *. apply IH; [exact N|cbn in *; lia].
    + cbn [set_loop]. rewrite (set_slice rl s r G).
      assert (Q : ready (junct rl (s :: r)) = negb (bad rl || bad r) && ready (junct (set_x s y :: mg rl) (mg r))).
      { cbn [junct]. rewrite set_x_gate, G. rewrite ready_mg.
        assert (Q1 : ready (s :: r) = negb (bad r) && ready r) by (destruct r as [|nx r]; [reflexivity|]; cbn [ready bad]; rewrite G; reflexivity).
        destruct rl as [|p rl]; [cbn [junct bad orb]; exact Q1|]. cbn [junct bad]. destruct (is_gate p) eqn:Gp.
        - cbn [ready]. rewrite Gp. fold (ready (s :: r)). change (match r with [] => true | b :: _ => negb (is_empty (inter (ts_x (if is_gate s then s else b)) y)) && ready r end) with (ready (s :: r)).
          rewrite Q1, negb_orb, andb_assoc. reflexivity.
        - rewrite (A p (or_introl eq_refl) Gp), (inter_idem y Wy), Ny. cbn [orb]. exact Q1. }
      rewrite Q. destruct (bad rl || bad r); cbn [negb andb].
      * destruct (loop_emptied (map sel r) (set_x s Emp :: all_empty (mg rl)) (all_empty (mg r))) as [E1 E2].
        -- intros q [<-|H]; [reflexivity|apply (all_empty_E (mg rl)), H].
        -- apply all_empty_E.
        -- unfold all_empty. cbn [length]. rewrite !map_length, (len_times _ _ (times_mg rl)), (len_times _ _ (times_mg r)). cbn in L. lia.
        -- split; [|exact E1]. rewrite E2. unfold times. rewrite !rev_append_rev, !map_app, !map_rev. cbn [map set_x ts_t rev].
           fold (times (all_empty (mg rl))) (times (all_empty (mg r))). rewrite !times_all_empty, !times_mg. cbn [rev]. rewrite <- app_assoc. reflexivity.
      * rewrite (sel_gates r (mg r)) by (symmetry; apply gates_mg). 
        destruct (IH (mg r) (set_x s y :: mg rl)) as [E1 E2].
        -- rewrite (len_times _ _ (times_mg r)). cbn in Ln. lia.
        -- intros q [<-|H] Gq; [reflexivity|]. apply (slY_mg rl A q H Gq).
        -- cbn [junct]. rewrite set_x_gate, G. apply (noadj_gates r); [symmetry; apply gates_mg|]. apply (noadj_tl s).
           destruct rl as [|p rl]; [exact N|]. cbn [junct] in N. destruct (is_gate p); [apply (noadj_tl p), N|exact N].
        -- cbn [length]. rewrite (len_times _ _ (times_mg rl)), (len_times _ _ (times_mg r)). cbn in L. lia.
        -- split; [|exact E2]. rewrite E1. unfold times. rewrite !rev_append_rev, !map_app, !map_rev. cbn [map set_x ts_t rev].
           fold (times (mg rl)) (times (mg r)). rewrite !times_mg. cbn [rev]. rewrite <- app_assoc. reflexivity.
Qed.
(** the second loop *)
Definition selg (s : tslice) : option (itv -> itv) := if is_gate s then Some (fun _ => y) else None.
Lemma loop2 : forall l rl, (forall s, List.In s rl -> ts_x s = y) -> slY l -> noadj l ->
  match rl, l with p :: _, s :: _ => is_gate p = true -> is_gate s = false | _, _ => True end ->
  set_loop (map selg l) rl l = rev_append rl (map (fun s => set_x s y) l).
Proof.
  induction l as [|s r IH]; intros rl A B N J; [reflexivity|]. cbn [map]. unfold selg at 1. destruct (is_gate s) eqn:G.
  - cbn [set_loop]. assert (E : slice_set y (rl, s, r) = (rl, set_x s y, r)).
    { unfold slice_set. assert (E1 : set_side rl (set_x s y) = (set_x s y, rl)).
      { destruct rl as [|p rl]; [reflexivity|]. cbn [set_side]. rewrite set_x_gate, G. cbn [set_x ts_x]. rewrite (A p (or_introl eq_refl)), (inter_idem y Wy). reflexivity. }
      rewrite E1. assert (E2 : set_side r (set_x s y) = (set_x s y, r)).
      { destruct r as [|n r]; [reflexivity|]. cbn [set_side]. rewrite set_x_gate, G. cbn [set_x ts_x].
        rewrite (B n), (inter_idem y Wy); [reflexivity|right; left; reflexivity|]. apply N, G. }
      rewrite E2. unfold slice_is_empty. rewrite set_x_gate, G. cbn [set_x ts_x]. rewrite Ny. reflexivity. }
    rewrite E, (IH (set_x s y :: rl)).
    + reflexivity.
    + intros q [<-|Q]; [reflexivity|apply A, Q].
    + intros q Q. apply B. right. exact Q.
    + apply (noadj_tl s), N.
    + destruct r as [|n r]; [exact I|]. intros _. apply N, G.
  - cbn [set_loop]. assert (Es : set_x s y = s) by (destruct s as [t x]; unfold set_x; cbn [ts_t]; f_equal; symmetry; apply (B (TS t x)); [left; reflexivity|exact G]).
    rewrite (IH (s :: rl)).
    + cbn [map rev_append]. rewrite Es. reflexivity.
    + intros q [<-|Q]; [apply B; [left; reflexivity|exact G]|apply A, Q].
    + intros q Q. apply B. right. exact Q.
    + apply (noadj_tl s), N.
    + destruct r as [|n r]; [exact I|]. congruence.
Qed.
Lemma tube_set_spec d : noadj d -> (2 <= length d)%nat ->
  tube_set y d = map (fun s => set_x s (if ready d then y else Emp)) d.
Proof.
  intros N L. unfold tube_set. destruct (loop1 (length d) d [] (le_n _) (fun s S => match S with end) N L) as [T H].
  fold sel selg. cbv zeta in T, H. cbn [junct rev_append] in T, H. set (d1 := set_loop (map sel d) [] d) in *.
  assert (Ld : length d1 = length d) by (apply len_times, T).
  assert (Tm : forall z l l', times l = times l' -> map (fun s => set_x s z) l = map (fun s => set_x s z) l').
  { intros z l. induction l as [|a l IH]; intros [|b l'] E; try discriminate; [reflexivity|]. cbn in *. injection E as E1 E2.
    f_equal; [unfold set_x; congruence|apply IH, E2]. }
  assert (Gm : forall l l', times l = times l' -> map is_gate l = map is_gate l').
  { intros l. induction l as [|a l IH]; intros [|b l'] E; try discriminate; [reflexivity|]. cbn in *. injection E as E1 E2.
    f_equal; [unfold is_gate; congruence|apply IH, E2]. }
  destruct (ready d).
  - change (set_loop (map selg d1) [] d1 = map (fun s => set_x s y) d). rewrite (loop2 d1 []).
    + cbn [rev_append]. apply Tm, T.
    + intros s [].
    + exact H.
    + apply (noadj_gates d); [symmetry; apply Gm, T|exact N].
    + exact I.
  - destruct (loop_emptied (map selg d1) [] d1) as [E1 E2]; [intros s []|exact H|cbn; lia|]. cbn [rev_append] in E2. 
    change (set_loop (map selg d1) [] d1 = map (fun s => set_x s Emp) d).
    rewrite <- (Tm Emp _ _ (eq_trans E2 T)). clear - E1. revert E1. generalize (set_loop (map selg d1) [] d1). intros l E.
    rewrite <- (map_id l) at 1. apply map_ext_in. intros s S. destruct s as [t x]. unfold set_x. cbn. f_equal. apply (E (TS t x) S).
Qed.
Lemma ready_spec d : ready d = true <-> forall l a b r, d = l ++ a :: b :: r -> meets (ts_x (if is_gate a then a else b)) y.
Proof.
  induction d as [|a d IH]; [cbn; split; [|auto]; intros _ [|? ?] ? ? ? H; discriminate|]. destruct d as [|b d].
  - cbn. split; [|auto]. intros _ [|? [|? ?]] ? ? ? H; discriminate.
  - change (ready (a :: b :: d)) with (negb (is_empty (inter (ts_x (if is_gate a then a else b)) y)) && ready (b :: d)).
    rewrite andb_true_iff, IH, negb_true_iff, meets_inter. split.
    + intros [H1 H2] [|c l] a' b' r' E; [injection E as <- <- <-; exact H1|]. injection E as <- E. apply (H2 l a' b' r' E).
    + intros H. split; [apply (H [] a b d eq_refl)|]. intros l a' b' r' E. apply (H (a :: l) a' b' r'). rewrite E. reflexivity.
Qed.
End Set_y.

Lemma linked_noadj d : linked d -> noadj d.
Proof.
  induction d as [|a d IH]; intros L; [exact I|]. destruct d as [|b d]; [exact I|].
  change ((is_gate a = true -> is_gate b = false) /\ noadj (b :: d)). change (link a b /\ linked (b :: d)) in L. destruct L as [[_ L1] L2].
  split; [|apply IH, L2]. intros Ga. destruct (is_gate b); [exfalso; auto|reflexivity].
Qed.
Lemma eval_const y d t : wf y -> (forall s, List.In s d -> ts_x s = y) -> In t (t0_tf d) -> d <> [] -> eval t d = y.
Proof.
  intros W H T N. unfold eval. rewrite (proj2 (contains_true _ _) T). unfold iterator_tslice. destruct d as [|s r]; [congruence|].
  rewrite (proj2 (contains_true _ _) T). destruct (find_ts t [] s r) as [[rl s1] r1] eqn:F.
  assert (Q : forall l rl0 s0, (forall q, List.In q (rl0 ++ s0 :: l) -> ts_x q = y) -> forall rl2 s2 r2, find_ts t rl0 s0 l = (rl2, s2, r2) -> forall q, List.In q (rl2 ++ s2 :: r2) -> ts_x q = y).
  { induction l as [|b l IH]; intros rl0 s0 A rl2 s2 r2 E; cbn [find_ts] in E.
    - destruct (ts_at s0 t); injection E as <- <- <-; exact A.
    - destruct (ts_at s0 t); [injection E as <- <- <-; exact A|]. apply (IH (s0 :: rl0) b); [|exact E]. intros q Q. apply A.
      cbn in Q. rewrite in_app_iff in *. cbn in *. tauto. }
  assert (X : forall q, List.In q (rl ++ s1 :: r1) -> ts_x q = y) by (apply (Q r [] s); [exact H|exact F]).
  assert (X1 : ts_x s1 = y) by (apply X; apply in_app_iff; right; left; reflexivity).
  destruct (negb (is_gate s1) && opt_eqb (Some t) (t_lb s1)); [|exact X1]. destruct rl as [|p rl]; [exact X1|].
  rewrite X1, (X p) by (left; reflexivity). apply inter_idem, W.
Qed.
(** x.set(y): all the values become [y] exactly when the old value of each gate, and of each slice that follows a
    slice, has a common point with [y]; otherwise the whole tube becomes empty. *)
Theorem C51_set_partial : forall y d, wf y -> y <> Emp -> partition d ->
  times (tube_set y d) = times d /\
  ((length d = 1%nat \/ forall l a b r, d = l ++ a :: b :: r -> meets (ts_x (if is_gate a then a else b)) y) ->
     (forall s, List.In s (tube_set y d) -> ts_x s = y) /\ (forall t, In t (t0_tf d) -> eval t (tube_set y d) = y)) /\
  (forall l a b r, d = l ++ a :: b :: r -> ~ meets (ts_x (if is_gate a then a else b)) y ->
     forall s, List.In s (tube_set y d) -> ts_x s = Emp).
Proof.
  intros y d W Ny P. pose proof P as (P1 & P2 & P3). apply is_empty_false in Ny. pose proof (linked_noadj d P3) as N.
  assert (X : exists z, tube_set y d = map (fun s => set_x s z) d /\
     ((length d = 1%nat \/ forall l a b r, d = l ++ a :: b :: r -> meets (ts_x (if is_gate a then a else b)) y) -> z = y) /\
     (forall l a b r, d = l ++ a :: b :: r -> ~ meets (ts_x (if is_gate a then a else b)) y -> z = Emp)).
  { destruct d as [|s [|s' r]]; [congruence| |].
    - exists y. refine (conj _ (conj _ _)); [|reflexivity|intros [|? [|? ?]] ? ? ? H; discriminate].
      assert (E : forall q, slice_set y ([], q, []) = ([], set_x q y, [])).
      { intros q. unfold slice_set, set_side, slice_is_empty, slice_gate. cbn [set_x ts_x]. destruct (is_gate _); rewrite Ny; reflexivity. }
      unfold tube_set. destruct (is_gate s) eqn:G; cbn [map set_loop rev_append]; rewrite ?G; cbn [set_loop rev_append map];
        rewrite ?E; cbn [set_loop rev_append map]; rewrite ?set_x_gate, ?G; cbn [set_loop rev_append map]; rewrite ?E; reflexivity.
    - exists (if ready y (s :: s' :: r) then y else Emp). rewrite (tube_set_spec y W Ny _ N) by (cbn; lia). refine (conj eq_refl (conj _ _)).
      + intros [H|H]; [discriminate|]. rewrite (proj2 (ready_spec y _) H). reflexivity.
      + intros l a b r' E H. destruct (ready y (s :: s' :: r)) eqn:Q; [|reflexivity]. exfalso. apply H. apply (proj1 (ready_spec y _) Q l a b r' E). }
  destruct X as (z & E & X1 & X2). rewrite E.
  assert (Tm : times (map (fun s => set_x s z) d) = times d) by (unfold times; rewrite map_map; reflexivity).
  assert (V : forall s, List.In s (map (fun s => set_x s z) d) -> ts_x s = z) by (intros s S; apply in_map_iff in S as (q & <- & _); reflexivity).
  refine (conj Tm (conj _ _)).
  - intros H. rewrite (X1 H) in *. split; [exact V|]. intros t T. apply eval_const; [exact W|exact V| |destruct d; [congruence|discriminate]].
    assert (F : forall l, t_lb (set_x l y) = t_lb l /\ t_ub (set_x l y) = t_ub l) by (intros; split; reflexivity).
    unfold t0_tf, d_ub, d_lb in *. rewrite <- map_rev. destruct (rev d) as [|u rd]; [destruct d; [congruence|exact T]|]. destruct d as [|v d]; [congruence|exact T].
  - intros l a b r D H s S. rewrite (X2 l a b r D H) in S, V. apply V, S.
Qed.
Theorem C51_set_refuted : exists y d, wf y /\ y <> Emp /\ partition d /\ (forall s, List.In s d -> wf (ts_x s) /\ ts_x s <> Emp) /\
  tube_is_empty d = false /\ (forall s, List.In s (tube_set y d) -> ts_x s = Emp) /\ forall t, In t (t0_tf d) -> eval t (tube_set y d) = Emp.
Proof.
  set (s1 := TS (Itv (Some 0) (Some 1)) (pt 0)). set (s2 := TS (Itv (Some 1) (Some 2)) (pt 0)).
  exists (pt 1), [s1; s2]. assert (G1 : is_gate s1 = false) by (unfold is_gate; cbn; apply Reqb_f; lra).
  assert (G2 : is_gate s2 = false) by (unfold is_gate; cbn; apply Reqb_f; lra).
  assert (P : partition [s1; s2]).
  { refine (conj _ (conj _ _)); [discriminate| |].
    - intros s [<-|[<-|[]]]; exists 1; cbn; lra.
    - cbn [linked]. split; [|exact I]. split; [exists 1; auto|]. intros [H _]. congruence. }
  assert (W : wf (pt 1)) by (cbn; lra).
  destruct (C51_set_partial (pt 1) [s1; s2] W ltac:(discriminate) P) as (T & _ & E).
  assert (E' : forall s, List.In s (tube_set (pt 1) [s1; s2]) -> ts_x s = Emp).
  { apply (E [] s1 s2 []); [reflexivity|]. rewrite G1. intros (v & V1 & V2). cbn in V1, V2. lra. }
  refine (conj W (conj _ (conj P (conj _ (conj _ (conj E' _)))))).
  - discriminate.
  - intros s [<-|[<-|[]]]; split; cbn; (lra || discriminate).
  - unfold tube_is_empty, some_empty, slice_is_empty, slice_gate. rewrite G1, G2. cbn. unfold mk. reval. reflexivity.
  - intros t Ht. destruct (tube_set (pt 1) [s1; s2]) as [|q1 [|q2 [|? ?]]] eqn:Q; try discriminate. 
    unfold times in T. cbn in T. injection T as T1 T2. rewrite <- Q in *. apply eval_const; [exact I|exact E'| |rewrite Q; discriminate].
    rewrite Q. unfold t0_tf, d_lb, d_ub, t_lb, t_ub in *. cbn in *. rewrite T1, T2. exact Ht.
Qed.

(** ** C68: evaluation *)
(** the gates are included in the neighbouring slices *)
Definition gates_in (d : list tslice) : Prop := forall l a b r, d = l ++ a :: b :: r ->
  (is_gate a = true -> sub (ts_x a) (ts_x b)) /\ (is_gate b = true -> sub (ts_x b) (ts_x a)).
Lemma mid_in (l : list tslice) s r : List.In s (l ++ s :: r). Proof. apply in_app_iff. right. left. reflexivity. Qed.
(** x(t) contains the common values of all TSlices that contain [t]; and it is exactly their intersection when the
    gates are included in the neighbouring slices. *)
Theorem C68_eval : forall d t, partition d -> In t (t0_tf d) ->
  (forall v, (forall s, List.In s d -> In t (ts_t s) -> In v (ts_x s)) -> In v (eval t d)) /\
  (gates_in d -> forall v, In v (eval t d) -> forall s, List.In s d -> In t (ts_t s) -> In v (ts_x s)).
Proof.
  intros d t P T. destruct (iterator_spec t d P T) as (rl & s & r & E & D & Hs & Hp & Hc). pose proof P as (P1 & P2 & P3).
  unfold eval. rewrite (proj2 (contains_true _ _) T), E. 
  assert (Ns : exists t, In t (ts_t s)) by eauto.
  split.
  - intros v V. assert (Vs : In v (ts_x s)) by (apply V; [rewrite D; apply mid_in|exact Hs]).
    destruct (negb (is_gate s) && opt_eqb (Some t) (t_lb s)) eqn:B; [|exact Vs]. destruct rl as [|p rl]; [exact Vs|].
    apply In_inter. split; [exact Vs|]. apply andb_true_iff in B as [_ B]. apply opt_eqb_true in B.
    cbn [rev] in D. rewrite <- app_assoc in D. cbn [app] in D. apply V; [rewrite D; apply mid_in|].
    assert (Np : exists t, In t (ts_t p)) by (apply P2; rewrite D; apply mid_in). rewrite D in P3. apply linked_app in P3 as [_ [[(u & U1 & U2) _] _]].
    apply (in_ts p t Np). destruct (ts_itv p Np) as [_ Op]. assert (u = t) by congruence. subst u. rewrite U1. cbn. split; [|lra].
    destruct (t_lb p) as [w|]; cbn; [apply (Op w t); auto|exact I].
  - intros G v V s0 S0 T0. assert (N0 : exists t, In t (ts_t s0)) by eauto.
    pose proof (proj1 (in_ts s t Ns) Hs) as [Ls Us]. pose proof (proj1 (in_ts s0 t N0) T0) as [L0 U0].
    rewrite D in S0. apply in_app_iff in S0 as [S0|[<-|S0]].
    + apply in_rev in S0. destruct rl as [|p rl]; [destruct S0|]. cbn [rev] in D. rewrite <- app_assoc in D. cbn [app] in D.
      assert (Np : exists t, In t (ts_t p)) by (apply P2; rewrite D; apply mid_in).
      rewrite D in P2, P3. assert (L2 := P3). apply linked_app in L2 as [_ [[(u & U1 & U2) _] _]].
      rewrite U2 in Ls. cbn in Ls.
      assert (s0 = p) as ->.
      { destruct S0 as [<-|S0]; [reflexivity|]. exfalso.
        destruct (linked_before (rev rl) p (s :: r) s0 P2 P3) as (u0 & v0 & A1 & A2 & A3); [apply in_rev in S0; exact S0|].
        destruct (ts_itv p Np) as [_ Op]. specialize (Op v0 u A2 U1). rewrite A1 in U0. cbn in U0.
        assert (X : ts_at p t = true); [|rewrite (Hp p (or_introl eq_refl)) in X; discriminate].
        apply (at_true p t Np). left. assert (v0 = t /\ u = t) as [-> ->] by lra. split; [|exact A2]. apply (gate_true p Np). eauto. }
      rewrite U1 in U0. cbn in U0. assert (u = t) by lra. subst u. destruct (is_gate s) eqn:Gs; cbn [negb andb] in V.
      * apply (G (rev rl) p s r D); assumption.
      * rewrite U2 in V. rewrite (proj2 (opt_eqb_true (Some t) (Some t)) eq_refl) in V. apply In_inter in V as [_ V]. exact V.
    + destruct (negb (is_gate s) && opt_eqb (Some t) (t_lb s)); [|exact V]. destruct rl; [exact V|]. apply In_inter in V as [V _]. exact V.
    + rewrite D in P2, P3. destruct (linked_after (rev rl) s r s0 P2 P3 S0) as (u & v0 & A1 & A2 & A3). rewrite A2 in L0. cbn in L0.
      destruct Hc as [Hc|(-> & _)]; [|destruct S0]. apply (at_true s t Ns) in Hc as [[Gs Lt]|[_ H]]; [|rewrite A1 in H; lra].
      rewrite Gs in V. cbn [negb andb] in V. destruct r as [|n r]; [destruct S0|].
      assert (Nn : exists t, In t (ts_t n)) by (apply P2; apply in_app_iff; right; right; left; reflexivity).
      assert (L2 := P3). apply linked_app in L2 as [_ [[(u' & B1 & B2) Gn] _]]. assert (u' = u) by congruence. subst u'.
      assert (u = t). { apply (gate_true s Ns) in Gs as (a & C1 & C2). congruence. } subst u.
      destruct S0 as [<-|S0]; [apply (G (rev rl) s n r D); assumption|]. exfalso. apply Gn. split; [exact Gs|].
      assert (D2 : rev rl ++ s :: n :: r = (rev rl ++ [s]) ++ n :: r) by (rewrite <- app_assoc; reflexivity). rewrite D2 in P2, P3.
      destruct (linked_after (rev rl ++ [s]) n r s0 P2 P3 S0) as (u2 & v2 & C1 & C2 & C3).
      apply (gate_true n Nn). exists t. split; [exact B2|]. destruct (ts_itv n Nn) as [_ On]. specialize (On t u2 B2 C1).
      assert (u2 = t); [|congruence]. assert (v2 = v0) by congruence. subst v2. lra.
Qed.
Lemma split_le (l1 : list tslice) : forall l2 s r s' r', l1 ++ s :: r = l2 ++ s' :: r' -> (length l1 <= length l2)%nat ->
  exists m, s :: r = m ++ s' :: r' /\ l2 = l1 ++ m.
Proof.
  induction l1 as [|a l1 IH]; intros [|b l2] s r s' r' E L.
  - exists []. auto.
  - exists (b :: l2). auto.
  - cbn in L. lia.
  - injection E as <- E. destruct (IH l2 s r s' r' E) as (m & M1 & M2); [cbn in L; lia|]. exists m. split; [exact M1|]. rewrite M2. reflexivity.
Qed.
Lemma eval_loop_acc b v : forall l acc, In v acc -> In v (eval_loop b acc l).
Proof.
  induction l as [|s l IH]; intros acc H; cbn [eval_loop]; [exact H|]. destruct (opt_eqb (t_lb s) (Some b)); [exact H|]. apply IH, In_hull_l, H.
Qed.
Lemma eval_loop_in b t f : forall m acc s', t <= b -> 
  (forall s, List.In s (m ++ [s']) -> exists t, In t (ts_t s)) -> linked (m ++ [s']) -> traj_in f (m ++ [s']) ->
  In b (ts_t s') -> lo_le (d_lb (m ++ [s'])) t -> d_lb (m ++ [s']) <> Some b -> In (f t) (eval_loop b acc (m ++ [s'])).
Proof.
  induction m as [|s m IH]; intros acc s' Tb N L F Hb Lt Nb; cbn [app eval_loop d_lb] in *.
  - rewrite (proj2 (opt_eqb_false (t_lb s') (Some b)) Nb). apply In_hull_r. apply (F s' t); [left; reflexivity|].
    assert (Ns : exists t, In t (ts_t s')) by eauto. apply (in_ts s' t Ns). apply (in_ts s' b Ns) in Hb as [_ U]. split; [exact Lt|]. destruct (t_ub s'); cbn in *; lra.
  - rewrite (proj2 (opt_eqb_false (t_lb s) (Some b)) Nb). assert (Ns : exists t, In t (ts_t s)) by (apply N; left; reflexivity).
    destruct (In_dec t (ts_t s)) as [I|I].
    + apply eval_loop_acc, In_hull_r, (F s t); [left; reflexivity|exact I].
    + assert (Q : exists n q, m ++ [s'] = n :: q) by (destruct m; eexists; eexists; reflexivity). destruct Q as (n & q & Q).
      rewrite Q in L. cbn [linked] in L. destruct L as [[(u & U1 & U2) _] L]. rewrite (in_ts s t Ns), U1 in I.
      assert (u < t) by (apply Rnot_le_lt; intro H; apply I; split; [exact Lt|exact H]).
      apply IH; [exact Tb| |rewrite Q; exact L| |exact Hb| |].
      * intros x X. apply N. right. exact X.
      * intros x y X. apply F. right. exact X.
      * rewrite Q. cbn. rewrite U2. cbn. lra.
      * rewrite Q. cbn. rewrite U2. intros H'. injection H' as ->. lra.
Qed.
(** x([a,b]) encloses the values on [a,b] of all trajectories of the tube. *)
Theorem C68_eval_itv : forall d f a b t, partition d -> traj_in f d -> a <= t <= b -> In t (t0_tf d) -> In (f t) (eval_itv a b d).
Proof.
  intros d f a b t P F T Td. unfold eval_itv. destruct (is_subset (bnd a b) (t0_tf d)) eqn:Sb; [|split; exact I].
  apply is_subset_sub in Sb. assert (Ta : In a (t0_tf d)) by (apply Sb, In_bnd; lra). assert (Tb : In b (t0_tf d)) by (apply Sb, In_bnd; lra).
  assert (X : forall t, In t (t0_tf d) -> In (f t) (eval t d)).
  { intros u U. apply (C68_eval d u P U). intros s Hs. apply F, Hs. }
  destruct (Reqb a b) eqn:Q; [apply Reqb_true in Q; subst b; assert (t = a) by lra; subst t; apply X, Ta|]. apply Reqb_false in Q.
  destruct (iterator_spec a d P Ta) as (rl & s & r & E & D & Ha & Hp & Hc). destruct (iterator_spec b d P Tb) as (rl' & s' & r' & E' & D' & Hb & Hp' & Hc').
  rewrite E, E'. pose proof P as (P1 & P2 & P3). assert (Ns : exists t, In t (ts_t s)) by eauto. assert (Ns' : exists t, In t (ts_t s')) by eauto.
  pose proof (proj1 (in_ts s a Ns) Ha) as [La Ua]. pose proof (proj1 (in_ts s' b Ns') Hb) as [Lb Ub].
  assert (L : (length (rev rl) <= length (rev rl'))%nat).
  { destruct (le_lt_dec (length (rev rl)) (length (rev rl'))) as [H|H]; [exact H|exfalso].
    assert (D2 := D). rewrite D' in D2. destruct (split_le _ _ _ _ _ _ D2) as (m & M1 & M2); [lia|]. destruct m as [|c m]; [rewrite app_nil_r in M2; rewrite M2 in H; lia|].
    injection M1 as <- M1. rewrite D in P2, P3. destruct (linked_before (rev rl) s r s' P2 P3) as (u & v & A1 & A2 & A3); [rewrite M2; apply mid_in|].
    rewrite A1 in Ub. rewrite A2 in La. cbn in *. lra. }
  destruct (split_le (rev rl) (rev rl') s r s' r') as (m & M1 & M2); [congruence|exact L|].
  assert (Ln : (S (length rl') - length rl = S (length m))%nat).
  { apply (f_equal (@length _)) in M2. rewrite app_length, !rev_length in M2. lia. }
  rewrite Ln, M1. assert (Fn : firstn (S (length m)) (m ++ s' :: r') = m ++ [s']).
  { change (s' :: r') with ([s'] ++ r'). rewrite app_assoc. assert (Lm : S (length m) = length (m ++ [s'])) by (rewrite app_length; cbn; lia).
    rewrite Lm, firstn_app, firstn_all, Nat.sub_diag. cbn. apply app_nil_r. }
  rewrite Fn. assert (Dm : d = rev rl ++ (m ++ [s']) ++ r') by (rewrite D, M1, <- app_assoc; reflexivity).
  assert (Hd : d_lb (m ++ [s']) = t_lb s) by (destruct m as [|c m]; injection M1 as <- _; reflexivity).
  apply eval_loop_in.
  - lra.
  - intros x Hx. apply P2. rewrite Dm. apply in_app_iff. right. apply in_app_iff. left. exact Hx.
  - rewrite D in P3. apply linked_app in P3 as [_ P3]. rewrite M1 in P3. apply linked_app in P3 as [P3 _]. exact P3.
  - intros x y Hx. apply F. rewrite Dm. apply in_app_iff. right. apply in_app_iff. left. exact Hx.
  - exact Hb.
  - rewrite Hd. destruct (t_lb s); cbn in *; [lra|exact I].
  - rewrite Hd. intros H. rewrite H in La. cbn in La. lra.
Qed.

(** ** The trajectories after Slice::set *)
Definition adj (l : list tslice) (s : tslice) : Prop :=
  match l with
  | [] => True
  | p :: _ => (exists t, In t (ts_t s) /\ In t (ts_t p)) /\
      (is_gate s = true -> forall t, In t (ts_t s) -> In t (ts_t p)) /\ (is_gate p = true -> forall t, In t (ts_t p) -> In t (ts_t s))
  end.
Lemma traj_cons2 f s l : traj_in f (s :: l) <-> (forall t, In t (ts_t s) -> In (f t) (ts_x s)) /\ traj_in f l.
Proof.
  split.
  - intros H. split; [intros t; apply H; left; reflexivity|intros q t Q; apply H; right; exact Q].
  - intros [H1 H2] q t [<-|Q]; [apply H1|apply H2, Q].
Qed.
Lemma side_traj f l s : adj l s -> let '(s1, l1) := set_side l s in
  ts_t s1 = ts_t s /\ times l1 = times l /\ (traj_in f (s1 :: l1) <-> traj_in f (s :: l)) /\
  (forall q, List.In q l1 -> List.In q l \/ match l with p :: _ => ts_t q = ts_t p | [] => False end).
Proof.
  intros A. destruct l as [|p l]; cbn [set_side].
  - refine (conj eq_refl (conj eq_refl (conj _ _))); [tauto|auto].
  - destruct A as (_ & A1 & A2). destruct (is_gate s); [|destruct (is_gate p)].
    + refine (conj eq_refl (conj eq_refl (conj _ _))); [|auto]. rewrite !traj_cons2. cbn [set_x ts_t ts_x]. split.
      * intros [H1 H2]. split; [|exact H2]. intros t T. specialize (H1 t T). apply In_inter in H1 as [H1 _]. exact H1.
      * intros [H1 [H2 H3]]. split; [|auto]. intros t T. apply In_inter. split; auto.
    + refine (conj eq_refl (conj eq_refl (conj _ _))).
      * rewrite !traj_cons2. cbn [set_x ts_t ts_x]. split.
        -- intros [H1 [H2 H3]]. refine (conj H1 (conj _ H3)). intros t T. specialize (H2 t T). apply In_inter in H2 as [H2 _]. exact H2.
        -- intros [H1 [H2 H3]]. refine (conj H1 (conj _ H3)). intros t T. apply In_inter. split; auto.
      * intros q [<-|Q]; [right; reflexivity|left; right; exact Q].
    + refine (conj eq_refl (conj eq_refl (conj _ _))); [tauto|auto].
Qed.
Lemma adj_ext l l' s s' : times l = times l' -> ts_t s = ts_t s' -> adj l s -> adj l' s'.
Proof.
  intros T E. destruct l as [|p l], l' as [|p' l']; try discriminate; [auto|]. cbn in T. injection T as T _. unfold adj, is_gate. rewrite T, E. auto.
Qed.
Lemma linked_adj rl s r : (forall q, List.In q (rev rl ++ s :: r) -> exists t, In t (ts_t q)) -> linked (rev rl ++ s :: r) -> adj rl s /\ adj r s.
Proof.
  intros N L. assert (X : forall a b, (exists t, In t (ts_t a)) -> (exists t, In t (ts_t b)) -> link a b ->
    (exists t, In t (ts_t a) /\ In t (ts_t b)) /\ (is_gate a = true -> forall t, In t (ts_t a) -> In t (ts_t b)) /\ (is_gate b = true -> forall t, In t (ts_t b) -> In t (ts_t a))).
  { intros a b Na Nb [(u & U1 & U2) _]. destruct (ts_itv a Na) as [_ Oa]. destruct (ts_itv b Nb) as [_ Ob].
    assert (Ia : In u (ts_t a)). { apply (in_ts a u Na). rewrite U1. cbn. split; [|lra]. destruct (t_lb a); cbn; [apply Oa; auto|exact I]. }
    assert (Ib : In u (ts_t b)). { apply (in_ts b u Nb). rewrite U2. cbn. split; [lra|]. destruct (t_ub b); cbn; [apply Ob; auto|exact I]. }
    refine (conj _ (conj _ _)); [eauto| |].
    - intros G t T. apply (gate_true a Na) in G as (c & C1 & C2). apply (in_ts a t Na) in T. rewrite C1, C2 in T. cbn in T. assert (t = u) by (assert (c = u) by congruence; lra). subst; exact Ib.
    - intros G t T. apply (gate_true b Nb) in G as (c & C1 & C2). apply (in_ts b t Nb) in T. rewrite C1, C2 in T. cbn in T. assert (t = u) by (assert (c = u) by congruence; lra). subst; exact Ia. }
  split.
  - destruct rl as [|p rl]; [exact I|]. cbn [rev] in *. rewrite <- app_assoc in *. cbn [app] in *. apply linked_app in L as [_ [L _]].
    destruct (X p s) as ((t & T1 & T2) & X1 & X2); [apply N, mid_in|apply N, in_app_iff; right; right; left; reflexivity|exact L|].
    refine (conj _ (conj X2 X1)). eauto.
  - destruct r as [|n r]; [exact I|]. apply linked_app in L as [_ [L _]].
    apply (X s n); [apply N, mid_in|apply N, in_app_iff; right; right; left; reflexivity|exact L].
Qed.
Definition good_times (d : list tslice) : Prop := (forall q, List.In q d -> exists t, In t (ts_t q)) /\ linked d.
Lemma times_good d d' : times d = times d' -> good_times d -> good_times d'.
Proof.
  revert d'. induction d as [|a d IH]; intros [|b d'] E G; try discriminate; [exact G|]. cbn in E. injection E as E1 E2.
  destruct G as [G1 G2]. assert (Gd : good_times d) by (split; [intros q Q; apply G1; right; exact Q|destruct d; [exact I|apply G2]]).
  destruct (IH d' E2 Gd) as [I1 I2]. split.
  - intros q [<-|Q]; [rewrite <- E1; apply G1; left; reflexivity|apply I1, Q].
  - destruct d as [|c d], d' as [|c' d']; try discriminate; [exact I|]. split; [|exact I2]. cbn in E2. injection E2 as E2 _.
    destruct G2 as [[G2 G3] _]. unfold link, is_gate, t_ub, t_lb in *. rewrite <- E1, <- E2. auto.
Qed.
Lemma traj_perm f rl l : traj_in f (rev rl ++ l) <-> traj_in f rl /\ traj_in f l.
Proof.
  unfold traj_in. split.
  - intros H. split; intros s t S; apply H; apply in_app_iff; [left; apply in_rev in S; exact S|right; exact S].
  - intros [H1 H2] s t S. apply in_app_iff in S as [S|S]; [apply H1; apply in_rev; exact S|apply H2, S].
Qed.
Lemma slice_set_traj f v rl s r : good_times (rev rl ++ s :: r) ->
  let '(rl', s', r') := slice_set v (rl, s, r) in
  times rl' = times rl /\ ts_t s' = ts_t s /\ times r' = times r /\
  (traj_in f (rev rl' ++ s' :: r') <-> traj_in f (rev rl ++ set_x s v :: r)).
Proof.
  intros [N L]. destruct (linked_adj rl s r N L) as [Al Ar]. unfold slice_set.
  pose proof (side_traj f rl (set_x s v)) as S1. destruct (set_side rl (set_x s v)) as [s1 rl1].
  destruct S1 as (T1 & R1 & F1 & _); [eapply adj_ext; [| |exact Al]; reflexivity|].
  pose proof (side_traj f r s1) as S2. destruct (set_side r s1) as [s2 r1]. cbn [set_x ts_t] in T1.
  destruct S2 as (T2 & R2 & F2 & _); [eapply adj_ext; [| |exact Ar]; [reflexivity|congruence]|].
  assert (F : traj_in f (rev rl1 ++ s2 :: r1) <-> traj_in f (rev rl ++ set_x s v :: r)).
  { rewrite !traj_perm, F2. rewrite !traj_cons2 in *. tauto. }
  assert (T : ts_t s2 = ts_t s) by congruence.
  destruct (slice_is_empty (rl1, s2, r1)) eqn:Em; [|auto].
  rewrite !times_all_empty. refine (conj R1 (conj T (conj R2 _))). rewrite <- F.
  assert (Ns : exists t, In t (ts_t s)) by (apply N, mid_in).
  split.
  - intros H. exfalso. destruct Ns as [t Ht]. apply (H (set_x s2 Emp) t); [apply mid_in|cbn; rewrite T; exact Ht].
  - intros H. exfalso. apply traj_perm in H as [Hl H]. apply traj_cons2 in H as [Hs Hr].
    assert (X : forall l, traj_in f l -> adj l s2 -> is_empty (slice_gate l s2) = true -> False).
    { intros [|p l] Hp Ap E; cbn [slice_gate] in E; apply is_empty_true in E || (destruct (is_gate p); apply is_empty_true in E).
      - destruct Ns as [t Ht]. rewrite <- T in Ht. specialize (Hs t Ht). rewrite E in Hs. destruct Hs.
      - destruct Ap as ((t & A1 & A2) & _). specialize (Hs t A1). specialize (Hp p t (or_introl eq_refl) A2).
        destruct (is_gate p).
        + rewrite E in Hp. destruct Hp.
        + assert (Q : In (f t) (inter (ts_x s2) (ts_x p))) by (apply In_inter; auto). rewrite E in Q. destruct Q. }
    assert (A1 : adj rl1 s2) by (apply (adj_ext rl rl1 s s2); auto). assert (A2 : adj r1 s2) by (apply (adj_ext r r1 s s2); auto).
    unfold slice_is_empty in Em. destruct (is_gate s2).
    + apply is_empty_true in Em. destruct Ns as [t Ht]. rewrite <- T in Ht. specialize (Hs t Ht). rewrite Em in Hs. destruct Hs.
    + apply orb_true_iff in Em as [Em|Em]; [apply (X rl1)|apply (X r1)]; assumption.
Qed.

(** ** C69: operator&= *)
Lemma times_rev_app rl l : times (rev rl ++ l) = rev (times rl) ++ times l.
Proof. unfold times. rewrite map_app, map_rev. reflexivity. Qed.
Lemma inter_loop f : forall z rl l, good_times (rev rl ++ l) -> times z = times l ->
  let d' := set_loop (map (fun s => Some (fun c => inter c (ts_x s))) z) rl l in
  times d' = times (rev rl ++ l) /\ (traj_in f d' <-> traj_in f (rev rl ++ l) /\ traj_in f z).
Proof.
  induction z as [|c z IH]; intros rl l G T d'; unfold d'; clear d'.
  - cbn [map set_loop]. rewrite rev_append_rev. split; [reflexivity|]. split; [|tauto]. intros H. split; [exact H|]. intros s t [].
  - destruct l as [|s r]; [discriminate|]. cbn in T. injection T as T1 T2. cbn [map set_loop].
    pose proof (slice_set_traj f (inter (ts_x s) (ts_x c)) rl s r G) as X. destruct (slice_set (inter (ts_x s) (ts_x c)) (rl, s, r)) as [[rl' s'] r'].
    destruct X as (E1 & E2 & E3 & X).
    assert (Tm : times (rev (s' :: rl') ++ r') = times (rev rl ++ s :: r)).
    { cbn [rev]. rewrite <- app_assoc, times_rev_app. cbn [app]. rewrite times_rev_app, E1. cbn. rewrite E2. fold (times r') (times r). rewrite E3. reflexivity. }
    destruct (IH (s' :: rl') r') as [I1 I2].
    + apply (times_good (rev rl ++ s :: r)); [symmetry; exact Tm|exact G].
    + unfold times in *; congruence.
    + split; [rewrite I1; exact Tm|]. rewrite I2. cbn [rev]. rewrite <- app_assoc. cbn [app]. rewrite X, !traj_perm, !traj_cons2. cbn [set_x ts_t ts_x]. rewrite T1.
      split.
      * intros ((H1 & H2 & H3) & H4). repeat (split; try assumption); intros t Ht; specialize (H2 t Ht); apply In_inter in H2; tauto.
      * intros ((H1 & H2 & H3) & H4 & H5). repeat (split; try assumption). intros t Ht. apply In_inter. auto.
Qed.
(** x &= z contains exactly the trajectories that are in x and in z *)
Theorem C69 : forall z d, partition d -> times z = times d ->
  times (tube_inter z d) = times d /\ forall f, traj_in f (tube_inter z d) <-> traj_in f d /\ traj_in f z.
Proof.
  intros z d (_ & P2 & P3) T. assert (G : good_times d) by (split; assumption). split.
  - apply (inter_loop (fun _ => 0) z [] d G T).
  - intros f. apply (inter_loop f z [] d G T).
Qed.

(** ** C51: operator= *)
(** a tube whose gates are included in the neighbouring slices, and whose consecutive slices have a common value *)
Definition regular (z : list tslice) : Prop :=
  (forall s, List.In s z -> wf (ts_x s) /\ ts_x s <> Emp) /\ gates_in z /\
  (forall l a b r, z = l ++ a :: b :: r -> is_gate a = false -> is_gate b = false -> meets (ts_x a) (ts_x b)).
(** [x] contains [z] *)
Definition over (z x : list tslice) : Prop := Forall2 (fun a b => ts_t a = ts_t b /\ sub (ts_x a) (ts_x b)) z x.
Lemma sub_nonempty x y : wf x -> x <> Emp -> sub x y -> is_empty y = false.
Proof. intros W N S. destruct (wf_witness x W N) as [v V]. apply is_empty_false. intros ->. exact (S v V). Qed.
Lemma set_x_same s : set_x s (ts_x s) = s. Proof. destruct s; reflexivity. Qed.
Lemma assign_ok : forall zl rl l, regular (rev rl ++ zl) -> over zl l ->
  set_loop (map (fun s => Some (fun _ => ts_x s)) zl) rl l = rev rl ++ zl.
Proof.
  induction zl as [|z zl IH]; intros rl l Rg O.
  - inversion O; subst. cbn. rewrite rev_append_rev. reflexivity.
  - inversion O as [|? s ? r [Ts Ss] Or]; subst. cbn [map set_loop]. pose proof Rg as (R1 & R2 & R3).
    destruct (R1 z) as [Wz Nz]; [apply mid_in|].
    assert (Gs : is_gate s = is_gate z) by (unfold is_gate; rewrite Ts; reflexivity).
    assert (Es : set_x s (ts_x z) = z) by (unfold set_x; rewrite <- Ts; destruct z; reflexivity).
    assert (X : exists r', slice_set (ts_x z) (rl, s, r) = (rl, z, r') /\ over zl r').
    { unfold slice_set. rewrite Es.
      assert (E1 : set_side rl z = (z, rl)).
      { destruct rl as [|p rl]; [reflexivity|]. cbn [set_side]. cbn [rev] in *. rewrite <- app_assoc in *. cbn [app] in *.
        destruct (R2 (rev rl) p z zl eq_refl) as [P1 P2]. destruct (R1 p) as [Wp Np]; [apply mid_in|]. destruct (is_gate z) eqn:Gz; [|destruct (is_gate p)].
        - rewrite (inter_sub_eq _ _ Wz (P2 eq_refl)), set_x_same. reflexivity.
        - rewrite (inter_sub_eq _ _ Wp (P1 eq_refl)), set_x_same. reflexivity.
        - reflexivity. }
      rewrite E1. assert (E2 : exists r', set_side r z = (z, r') /\ over zl r' /\ (is_gate z = false -> is_empty (slice_gate r' z) = false)).
      { destruct r as [|n r]; cbn [set_side].
        - exists []. refine (conj eq_refl (conj Or _)). intros _. cbn. apply is_empty_false, Nz.
        - inversion Or as [|n0 ? zl' ? [Tn Sn] Or']; subst zl. subst. assert (Gn : is_gate n = is_gate n0) by (unfold is_gate; rewrite Tn; reflexivity).
          destruct (R2 (rev rl) z n0 zl' eq_refl) as [P1 P2]. destruct (R1 n0) as [Wn Nn]; [apply in_app_iff; right; right; left; reflexivity|].
          specialize (R3 (rev rl) z n0 zl' eq_refl). destruct (is_gate z) eqn:Gz; [|destruct (is_gate n) eqn:Gn'].
          + exists (n :: r). rewrite inter_sub_eq, set_x_same; [|exact Wz|intros v V; apply Sn, P1; auto]. refine (conj eq_refl (conj Or _)). discriminate.
          + assert (Q : sub (ts_x n0) (inter (ts_x n) (ts_x z))) by (intros v V; apply In_inter; split; [apply Sn, V|apply P2; auto]).
            exists (set_x n (inter (ts_x n) (ts_x z)) :: r). refine (conj eq_refl (conj _ _)).
            * constructor; [|exact Or']. split; [exact Tn|exact Q].
            * intros _. cbn [slice_gate]. rewrite set_x_gate, Gn'. cbn [set_x ts_x]. apply (sub_nonempty (ts_x n0)); assumption.
          + exists (n :: r). refine (conj eq_refl (conj Or _)). intros _. cbn [slice_gate]. rewrite Gn'. apply meets_inter.
            destruct (R3 eq_refl ltac:(congruence)) as (v & V1 & V2). exists v. split; [exact V1|apply Sn, V2]. }
      destruct E2 as (r' & -> & Or2 & Em). exists r'. split; [|exact Or2].
      assert (E3 : slice_is_empty (rl, z, r') = false).
      { unfold slice_is_empty. destruct (is_gate z) eqn:Gz; [apply is_empty_false, Nz|]. rewrite (Em eq_refl), orb_false_r.
        destruct rl as [|p rl]; cbn [slice_gate]; [apply is_empty_false, Nz|]. cbn [rev] in *. rewrite <- app_assoc in *. cbn [app] in *.
        destruct (is_gate p) eqn:Gp; [apply is_empty_false, (R1 p), mid_in|]. apply meets_inter.
        destruct (R3 (rev rl) p z zl eq_refl Gp Gz) as (v & V1 & V2). exists v. auto. }
      rewrite E3. reflexivity. }
    destruct X as (r' & -> & O'). rewrite (IH (z :: rl) r'); [|cbn [rev]; rewrite <- app_assoc; exact Rg|exact O'].
    cbn [rev]. rewrite <- app_assoc. reflexivity.
Qed.
(** x = z gives z when the old content of x contains z *)
Theorem C51_assign_partial : forall z x, regular z -> over z x -> tube_assign z x = z.
Proof. intros z x R O. apply (assign_ok z [] x R O). Qed.
(** in general not: the old content of the slices remains in the gates; here, the tube becomes empty *)
Theorem C51_assign_refuted : exists z x, partition z /\ times z = times x /\ regular z /\ regular x /\
  (exists f, traj_in f z) /\ forall s, List.In s (tube_assign z x) -> ts_x s = Emp.
Proof.
  set (mkt := fun y => [TS (pt 0) y; TS (Itv (Some 0) (Some 1)) y]). exists (mkt (pt 5)), (mkt (pt 0)).
  assert (G0 : forall y, is_gate (TS (pt 0) y) = true) by (intros y; unfold is_gate; cbn; apply Reqb_refl).
  assert (G1 : forall y, is_gate (TS (Itv (Some 0) (Some 1)) y) = false) by (intros y; unfold is_gate; cbn; apply Reqb_f; lra).
  assert (Rg : forall v, regular (mkt (pt v))).
  { intros v. refine (conj _ (conj _ _)).
    - intros s [<-|[<-|[]]]; split; cbn; (lra || discriminate).
    - intros [|? [|? [|? ?]]] a b r E; try discriminate. injection E as <- <- <-. split; [intros _ w W; exact W|]. rewrite G1. discriminate.
    - intros [|? [|? [|? ?]]] a b r E; try discriminate. injection E as <- <- <-. rewrite G0. discriminate. }
  refine (conj _ (conj eq_refl (conj (Rg 5) (conj (Rg 0) (conj _ _))))).
  - refine (conj _ (conj _ _)); [discriminate| |].
    + intros s [<-|[<-|[]]]; exists 0; cbn; lra.
    + cbn [linked mkt]. split; [|exact I]. split; [exists 0; auto|]. rewrite G1. intros [_ H]. discriminate.
  - exists (fun _ => 5). intros s t [<-|[<-|[]]] _; cbn; lra.
  - unfold tube_assign, mkt. cbn [map set_loop].
    assert (E1 : slice_set (pt 5) ([], TS (pt 0) (pt 0), [TS (Itv (Some 0) (Some 1)) (pt 0)]) = ([], TS (pt 0) Emp, [TS (Itv (Some 0) (Some 1)) Emp])).
    { unfold slice_set, set_side, slice_is_empty, is_gate. cbn. unfold mk. reval. reflexivity. }
    assert (E2 : slice_set (pt 5) ([TS (pt 0) Emp], TS (Itv (Some 0) (Some 1)) Emp, []) = ([TS (pt 0) Emp], TS (Itv (Some 0) (Some 1)) Emp, [])).
    { unfold slice_set, set_side, slice_is_empty, slice_gate, is_gate. cbn. unfold mk. reval. reflexivity. }
    cbn [ts_x]. rewrite E1. cbn [ts_x]. rewrite E2. cbn. intros s [<-|[<-|[]]]; reflexivity.
Qed.

(** ** Concrete cases *)
(** a gate and a slice, of values [x] and [z] *)
Definition tube_gs (x z : itv) : list tslice := [TS (pt 0) x; TS (Itv (Some 0) (Some 1)) z].
Lemma gs_ok x z : partition (tube_gs x z).
Proof.
  refine (conj _ (conj _ _)); [discriminate| |].
  - intros s [<-|[<-|[]]]; exists 0; cbn; lra.
  - cbn [linked tube_gs]. split; [|exact I]. split; [exists 0; auto|]. intros [_ H]. unfold is_gate in H. cbn in H. apply Reqb_true in H. lra.
Qed.
Example C51_set_ex : let d := tube_gs (I2 0 2) (I2 0 3) in partition d /\ eval (1/2) (tube_set (I2 1 5) d) = I2 1 5.
Proof.
  intros d. split; [apply gs_ok|]. destruct (C51_set_partial (I2 1 5) d) as (_ & H & _); [cbn; lra|discriminate|apply gs_ok|].
  apply H; [|cbn; unfold d_ub; cbn; lra]. right. intros [|? [|? [|? ?]]] a b r E; try discriminate. injection E as <- <- <-.
  assert (G : is_gate (TS (pt 0) (I2 0 2)) = true) by (unfold is_gate; cbn; apply Reqb_refl). rewrite G. exists 1. cbn. lra.
Qed.
Lemma gs_regular x z : wf x -> wf z -> x <> Emp -> sub x z -> regular (tube_gs x z).
Proof.
  intros Wx Wz Nx S. assert (G0 : is_gate (TS (pt 0) x) = true) by (unfold is_gate; cbn; apply Reqb_refl).
  assert (G1 : is_gate (TS (Itv (Some 0) (Some 1)) z) = false) by (unfold is_gate; cbn; apply Reqb_f; lra).
  refine (conj _ (conj _ _)).
  - intros s [<-|[<-|[]]]; cbn; (split; [assumption|]); [exact Nx|]. destruct (wf_witness x Wx Nx) as [v V]. intros ->. exact (S v V).
  - intros [|? [|? [|? ?]]] a b r E; try discriminate. injection E as <- <- <-. split; [intros _; exact S|congruence].
  - intros [|? [|? [|? ?]]] a b r E; try discriminate. injection E as <- <- <-. congruence.
Qed.
Example C51_assign_ex : let z := tube_gs (I2 1 2) (I2 0 3) in regular z /\ over z (tube_gs ALL (I2 0 4)) /\ tube_assign z (tube_gs ALL (I2 0 4)) = z.
Proof.
  intros z. assert (R : regular z) by (apply gs_regular; [cbn; lra|cbn; lra|discriminate|intros v V; cbn in *; lra]).
  assert (O : over z (tube_gs ALL (I2 0 4))).
  { constructor; [split; [reflexivity|intros v V; split; exact I]|]. constructor; [split; [reflexivity|intros v V; cbn in *; lra]|constructor]. }
  refine (conj R (conj O _)). apply C51_assign_partial; assumption.
Qed.
Example C68_ex : exists d f, partition d /\ gates_in d /\ traj_in f d /\ f 1 <> f 0 /\ In (1/2) (t0_tf d).
Proof.
  exists (tube_gs (I2 0 1) (I2 0 3)), (fun t => t). refine (conj (gs_ok _ _) (conj _ (conj _ (conj _ _)))).
  - apply gs_regular; [cbn; lra|cbn; lra|discriminate|intros v V; cbn in *; lra].
  - intros s t [<-|[<-|[]]] H; cbn in *; lra.
  - lra.
  - cbn. unfold d_ub. cbn. lra.
Qed.
Example C69_ex : exists z d f, partition d /\ times z = times d /\ traj_in f (tube_inter z d) /\ ~ traj_in (fun _ => 0) (tube_inter z d).
Proof.
  set (z := tube_gs ALL (I2 1 5)). set (d := tube_gs (I2 0 2) (I2 0 3)). exists z, d, (fun _ => 1).
  destruct (C69 z d (gs_ok _ _) eq_refl) as [_ H]. refine (conj (gs_ok _ _) (conj eq_refl (conj _ _))).
  - apply H. split; intros s t [<-|[<-|[]]] _; cbn; (lra || (split; exact I)).
  - rewrite H. intros [_ F]. specialize (F (TS (Itv (Some 0) (Some 1)) (I2 1 5)) 0 ltac:(right; left; reflexivity)). cbn in F. specialize (F ltac:(lra)). lra.
Qed.
Print Assumptions C51_set_partial.
Print Assumptions C51_assign_partial.
Print Assumptions C68_eval.
Print Assumptions C68_eval_itv.
Print Assumptions C69.

(** ** C68: the codomain of a tube *)
Lemma codomain_fold : forall d a, (wf a -> Forall (fun s => wf (ts_x s)) d -> wf (fold_left (fun a s => hull a (ts_x s)) d a)) /\
  sub a (fold_left (fun a s => hull a (ts_x s)) d a) /\
  (forall s, List.In s d -> sub (ts_x s) (fold_left (fun a s => hull a (ts_x s)) d a)) /\
  (wf a -> (forall s, List.In s d -> wf (ts_x s)) -> forall y, sub a y -> (forall s, List.In s d -> sub (ts_x s) y) -> sub (fold_left (fun a s => hull a (ts_x s)) d a) y).
Proof.
  induction d as [|s d IH]; intros a; cbn [fold_left].
  - refine (conj (fun w _ => w) (conj (fun v V => V) (conj _ (fun _ _ y H _ => H)))). intros s [].
  - destruct (IH (hull a (ts_x s))) as (I1 & I2 & I3 & I4). refine (conj _ (conj _ (conj _ _))).
    + intros W F. inversion F; subst. apply I1; [apply wf_hull; assumption|assumption].
    + intros v V. apply I2, In_hull_l, V.
    + intros q [<-|Q]; [intros v V; apply I2, In_hull_r, V|apply I3, Q].
    + intros W Ws y A H. assert (wf (ts_x s)) by (apply Ws; left; reflexivity).
      apply I4; [apply wf_hull; assumption|intros q Q; apply Ws; right; exact Q| |intros q Q; apply H; right; exact Q].
      apply hull_least; auto. apply H; left; reflexivity.
Qed.
Theorem C68_codomain : forall d, (forall f t, partition d -> traj_in f d -> In t (t0_tf d) -> In (f t) (tube_codomain d)) /\
  (forall s, List.In s d -> sub (ts_x s) (tube_codomain d)) /\
  ((forall s, List.In s d -> wf (ts_x s)) -> forall y, (forall s, List.In s d -> sub (ts_x s) y) -> sub (tube_codomain d) y).
Proof.
  intros d. destruct (codomain_fold d Emp) as (_ & _ & H & L). refine (conj _ (conj H _)).
  - intros f t P F T. destruct (iterator_spec t d P T) as (rl & s & r & _ & E & Ht & _).
    assert (S : List.In s d) by (rewrite E; apply mid_in). apply (H s S), F; assumption.
  - intros W y Y. apply L; [exact I|exact W|intros v []|exact Y].
Qed.
Example C68_codomain_ex : tube_codomain (tube_gs (I2 0 2) (I2 1 3)) = I2 0 3.
Proof. unfold tube_codomain, tube_gs. cbn. reval. reflexivity. Qed.
Print Assumptions C68_codomain.
