(** * C100: a subset whose topological degree is not zero contains a zero of the function *)
From Coq Require Import Reals Lra Lia Bool List Arith NArith ZArith Permutation.
Import ListNotations.
From Verif Require Import Itv Concrete PropsDyn2 Static PropsStatic Sivia PropsSivia Paving PropsPaving PolarE DegTurn Degree DegTile DegEdge.
Open Scope R_scope.

Lemma filter_and {A} (P Q : A -> bool) l : filter (fun a => P a && Q a) l = filter Q (filter P l).
Proof. induction l as [|a l IH]; auto. cbn [filter]. rewrite IH. destruct (P a); auto. Qed.
Section Degree.
Context (w : list pav) (p : pav) (F : box -> box) (f : field2) (items : list cell).
Context (OK : paving_ok p) (HT : tiled p) (HL : lookup (c_addr (p_cell p)) w = Some p).
Context (Hitems : forall c, List.In c items -> List.In c (leaves p)) (HND : NoDup items).
Context (Hclosed : forall it c, List.In it items -> List.In c (leaves p) -> touch it c -> List.In c items \/ meets (c_val c) V_OUT = true).
Context (Hout : forall it, List.In it items -> meets (c_val it) V_OUT = false).
Context (Hunk : forall it c, List.In it items -> List.In c (leaves p) -> meets (c_val c) V_OUT = true -> edge it c -> meets (c_val it) V_UNKNOWN = true).
Context (HF : forall n x y, List.In n (leaves p) -> meets (c_val n) V_OUT = true -> inrect (X0 n) (X1 n) (Y0 n) (Y1 n) x y -> inb [fst (f x y); snd (f x y)] (F (c_box n))).
Context (HZ : forall n, List.In n (leaves p) -> meets (c_val n) V_OUT = true -> ~ inb [0; 0] (F (c_box n))).

Lemma lf_rect c : List.In c (leaves p) -> rectangular c.
Proof. intros H. apply (tiled_leaf p HT c H). Qed.
Lemma lf_apart a b : List.In a (leaves p) -> List.In b (leaves p) -> a <> b -> apart a b.
Proof. apply tiled_apart; auto. apply leaves_addr. apply (po_addr _ OK). Qed.
Lemma lf_eq a b : List.In a (leaves p) -> List.In b (leaves p) -> c_addr a = c_addr b -> a = b.
Proof. apply by_addr. apply leaves_addr. apply (po_addr _ OK). Qed.
Lemma out_item n it : meets (c_val n) V_OUT = true -> List.In it items -> n <> it.
Proof. intros M H ->. rewrite (Hout it H) in M. discriminate. Qed.

(** an edge of the boundary: an item and a leaf of value OUT *)
Definition isedge (e : cell * cell) : Prop :=
  List.In (fst e) items /\ List.In (snd e) (leaves p) /\ meets (c_val (snd e)) V_OUT = true /\ edge (fst e) (snd e).
Lemma item_edges_eq it v : List.In it items -> (forall n, List.In n v -> List.In n (leaves p) /\ touch it n /\ n <> it) ->
  item_edges it v = map ebox (map (pair it) (filter (fun n => if edge_dec it n then true else false) v)).
Proof.
  intros Hi. induction v as [|n v IH]; intros H; auto. destruct (H n) as (Ln & T & Ne); [left; auto|].
  unfold item_edges in *. cbn [map filter].
  assert (Ri := lf_rect it (Hitems it Hi)). assert (Rn := lf_rect n Ln). rewrite inter_ebox by auto.
  assert (D : apart it n) by (apply lf_apart; auto).
  assert (EP := edge_point it n Ri Rn D T). destruct (edge_dec it n) as [E|E].
  - rewrite (proj2 EP E). cbn [negb map]. f_equal. apply IH. intros m Hm. apply H. right; auto.
  - destruct (is_point (ebox (it, n))); [|exfalso; apply E; apply EP; auto]. cbn [negb]. apply IH. intros m Hm. apply H. right; auto.
Qed.
Lemma boundary_edges l : (forall c, List.In c l -> List.In c items) -> NoDup l -> exists E, get_boundary w l = Some (map ebox E) /\ NoDup E /\
  (forall e, List.In e E <-> List.In (fst e) l /\ isedge e).
Proof.
  induction l as [|it l IH]; intros Hl ND.
  - exists []. refine (conj eq_refl (conj (NoDup_nil _) _)). intros e. split; [intros []|intros [[] _]].
  - inversion ND as [|? ? N1 N2]; subst. destruct IH as (E & EB & NE & HE); auto; [intros c Hc; apply Hl; right; auto|].
    assert (Hi : List.In it items) by (apply Hl; left; auto). cbn [get_boundary].
    destruct (neighbours w p V_OUT OK HL (fun _ => false) it (Hitems it Hi)) as (v & EV & NV & Hv).
    destruct (meets (c_val it) V_UNKNOWN) eqn:M.
    + rewrite EV, EB. rewrite (item_edges_eq it v Hi).
      2:{ intros n Hn. apply Hv in Hn. destruct Hn as ((Ln & _) & T & Ne & _). auto. }
      rewrite <- map_app. eexists. split; [reflexivity|]. split.
      * apply NoDup_app_i; auto.
        -- apply FinFun.Injective_map_NoDup; [intros a b H; congruence|]. apply NoDup_filter'. auto.
        -- intros e H1 H2. apply in_map_iff in H1. destruct H1 as (n & <- & _). apply HE in H2. apply N1. apply H2.
      * intros e. rewrite in_app_iff, in_map_iff, HE. split.
        -- intros [(n & <- & Hn)|[H1 H2]]; [|split; [right; auto|auto]]. apply filter_In in Hn. destruct Hn as [Hn HD].
           destruct (edge_dec it n) as [ED|]; [|discriminate]. apply Hv in Hn. destruct Hn as ((Ln & Mn) & _). cbn [fst snd]. split; [left; auto|].
           refine (conj Hi (conj Ln (conj _ ED))). apply meets_iff; auto.
        -- intros [[H1|H1] H2]; [|right; auto]. left. destruct e as [a n]. cbn [fst snd] in *. subst a. exists n. split; [auto|].
           destruct H2 as (_ & Ln & Mn & ED). cbn [fst snd] in *.
           apply filter_In. split; [|destruct (edge_dec it n); auto]. apply Hv. refine (conj (conj Ln _) (conj _ (conj _ eq_refl))).
           ++ apply meets_iff; auto.
           ++ apply edge_touch; auto; apply lf_rect; auto.
           ++ apply out_item; auto.
    + exists E. refine (conj EB (conj NE _)). intros e. rewrite HE. split; [intros [H1 H2]; split; [right; auto|auto]|].
      intros [[H1|H1] H2]; [|auto]. exfalso. destruct H2 as (H2 & Ln & Mn & ED). assert (K := Hunk (fst e) (snd e) H2 Ln Mn ED). rewrite <- H1 in K. congruence.
Qed.

(** ** Sums on the boundary *)
Lemma fsum_if {A} (g : A -> R) (P : A -> bool) l : fsum g (filter P l) = fsum (fun a => if P a then g a else 0) l.
Proof. induction l; cbn; auto. destruct (P a); cbn; rewrite IHl; lra. Qed.
Definition outedge (it n : cell) : bool := meets (c_val n) V_OUT && (if edge_dec it n then true else false).
Definition all_edges (l : list cell) : list (cell * cell) := flat_map (fun it => map (pair it) (filter (outedge it) (leaves p))) l.
Lemma all_edges_in l e : List.In e (all_edges l) <-> List.In (fst e) l /\ List.In (snd e) (leaves p) /\ meets (c_val (snd e)) V_OUT = true /\ edge (fst e) (snd e).
Proof.
  unfold all_edges. rewrite in_flat_map. split.
  - intros (it & Hi & H). apply in_map_iff in H. destruct H as (n & <- & Hn). apply filter_In in Hn. destruct Hn as [Ln Hn].
    unfold outedge in Hn. apply andb_true_iff in Hn. destruct Hn as [Mn Hn]. cbn [fst snd]. destruct (edge_dec it n); [|discriminate]. auto.
  - destruct e as [it n]. cbn [fst snd]. intros (Hi & Ln & Mn & He). exists it. split; auto. apply List.in_map. apply filter_In. split; auto.
    unfold outedge. rewrite Mn. destruct (edge_dec it n); auto.
Qed.
Lemma all_edges_nodup l : NoDup l -> NoDup (all_edges l).
Proof.
  induction 1 as [|it l N1 N2 IH]; [constructor|]. cbn. fold (all_edges l). apply NoDup_app_i; auto.
  - apply FinFun.Injective_map_NoDup; [intros a b H; congruence|]. apply NoDup_filter'. eapply NoDup_of_map. apply leaves_addr. apply (po_addr _ OK).
  - intros e H1 H2. apply in_map_iff in H1. destruct H1 as (n & <- & _). apply all_edges_in in H2. apply N1. apply H2.
Qed.
Definition isitem (c : cell) : bool := existsb (fun it => Nat.eqb (c_addr it) (c_addr c)) items.
Lemma isitem_iff c : List.In c (leaves p) -> isitem c = true <-> List.In c items.
Proof.
  intros Lc. unfold isitem. rewrite existsb_exists. split.
  - intros (it & Hi & E). apply Nat.eqb_eq in E. rewrite <- (lf_eq it c); auto.
  - intros H. exists c. rewrite Nat.eqb_refl. auto.
Qed.
Lemma items_perm : Permutation items (filter isitem (leaves p)).
Proof.
  apply NoDup_Permutation; auto.
  - apply NoDup_filter'. eapply NoDup_of_map. apply leaves_addr. apply (po_addr _ OK).
  - intros c. rewrite filter_In. split; [intros H; split; auto; apply isitem_iff; auto|]. intros [H1 H2]. apply isitem_iff; auto.
Qed.
Context (Hin : forall it, List.In it items -> inside it (p_cell p)).
Lemma edges_sum (G : cell -> R -> R -> R) E : NoDup E -> (forall e, List.In e E <-> isedge e) ->
  (forall a b, List.In a items -> List.In b items -> a <> b -> edge a b -> kap (G a) a b = - kap (G b) b a) ->
  fsum (fun e => kap (G (fst e)) (fst e) (snd e)) E = 0.
Proof.
  intros NE HE HA.
  assert (Permutation E (all_edges items)) as PE.
  { apply NoDup_Permutation; auto; [apply all_edges_nodup; auto|]. intros e. rewrite HE, all_edges_in. unfold isedge. tauto. }
  rewrite (fsum_perm _ _ _ PE). unfold all_edges. rewrite fsum_flat.
  assert (forall it, List.In it items -> fsum (fun e => kap (G (fst e)) (fst e) (snd e)) (map (pair it) (filter (outedge it) (leaves p))) = - fsum (kap (G it) it) items) as H.
  { intros it Hi. rewrite fsum_map. cbn [fst snd]. rewrite fsum_if, (fsum_perm (kap (G it) it) _ _ items_perm), fsum_if.
    assert (fsum (kap (G it) it) (leaves p) = 0) as Z by (apply kap_total; auto; apply lf_rect; auto).
    assert (fsum (kap (G it) it) (leaves p) = fsum (fun a => (if outedge it a then kap (G it) it a else 0) + (if isitem a then kap (G it) it a else 0)) (leaves p)) as S.
    { apply fsum_ext. intros c Lc. destruct (outedge it c) eqn:O, (isitem c) eqn:I; try lra.
      - exfalso. apply isitem_iff in I; auto. unfold outedge in O. rewrite Hout in O by auto. discriminate.
      - destruct (Nat.eq_dec (c_addr c) (c_addr it)) as [EA|NA]; [rewrite (lf_eq c it); auto; rewrite kap_self; lra|].
        rewrite kap_none; [lra|apply lf_rect; auto|apply lf_rect; auto|apply lf_apart; auto; congruence|].
        intros ED. destruct (Hclosed it c) as [K|K]; auto.
        + apply edge_touch; auto; apply lf_rect; auto.
        + apply isitem_iff in K; auto. congruence.
        + unfold outedge in O. rewrite K in O. destruct (edge_dec it c); [discriminate|contradiction]. }
    rewrite fsum_plus in S. lra. }
  rewrite (fsum_ext _ (fun it => - fsum (kap (G it) it) items)) by auto.
  assert (fsum (fun it => fsum (kap (G it) it) items) items = 0) as Z.
  { apply (fsum_anti (fun a b => kap (G a) a b)). intros a b Ha Hb. destruct (Nat.eq_dec (c_addr a) (c_addr b)) as [EA|NA].
    - rewrite (lf_eq a b); auto. rewrite kap_self. lra.
    - assert (a <> b) by congruence. destruct (edge_dec a b) as [ED|ED]; [apply HA; auto|].
      rewrite !kap_none; try apply lf_rect; auto; try (apply lf_apart; auto); [lra|intros K; apply ED, edge_sym; auto]. }
  rewrite (fsum_ext _ (fun it => -1 * fsum (kap (G it) it) items)) by (intros; lra). rewrite fsum_scal, Z. lra.
Qed.

(** ** What the code computes on the edges *)
Definition vbox (v : R * R) : box := B2 (fst v) (fst v) (snd v) (snd v).
Definition touchb (e : cell * cell) (v : R * R) : bool := b_intersects (ebox e) (vbox v).
Lemma touchb_iff e v : edge (fst e) (snd e) -> touchb e v = true <-> touches e v.
Proof. intros E. apply edge_le in E. unfold touchb, ebox, vbox. rewrite b_meet_pt by apply E. reflexivity. Qed.
Lemma touch_rect e v : touches e v -> inrect (X0 (snd e)) (X1 (snd e)) (Y0 (snd e)) (Y1 (snd e)) (fst v) (snd v).
Proof. unfold touches, inrect. pose proof (ebox_bounds (fst e) (snd e)). lra. Qed.
Lemma edge_not_point e : edge (fst e) (snd e) -> is_point (ebox e) = false.
Proof. intros E. unfold ebox. rewrite B2_point. apply andb_false_iff. rewrite !Reqb_false. unfold edge in E. lra. Qed.
Lemma ebox_in_n e : isedge e -> b_inter (ebox e) (c_box (snd e)) = ebox e.
Proof.
  intros (_ & Ln & _ & E). apply edge_le in E. pose proof (ebox_bounds (fst e) (snd e)) as B. rewrite (rect_box (snd e)) by (apply lf_rect; auto).
  unfold ebox. rewrite B2_inter; rewrite ?Rmax_left, ?Rmin_left by lra; auto; lra.
Qed.
Lemma cof_unique e l : isedge e -> edge_cofaces p (ebox e) = Some l -> intersecting_nd V_OUT (ebox e) p = [snd e] /\ l = [c_box (snd e)].
Proof.
  intros He H. assert (He' := He). destruct He' as (_ & Ln & Mn & E). unfold edge_cofaces in H.
  assert (K : List.In (snd e) (intersecting_nd V_OUT (ebox e) p)).
  { apply nd_leaf; auto; rewrite ebox_in_n by auto; [reflexivity|apply edge_not_point; auto]. }
  destruct (intersecting_nd V_OUT (ebox e) p) as [|n [|m r]]; try discriminate. destruct K as [->|[]]. injection H as <-. auto.
Qed.
Lemma cof_other e n v : isedge e -> intersecting_nd V_OUT (ebox e) p = [snd e] -> List.In n (leaves p) -> meets (c_val n) V_OUT = true -> n <> snd e ->
  touches e v -> inrect (X0 n) (X1 n) (Y0 n) (Y1 n) (fst v) (snd v) -> is_point (b_inter (c_box n) (ebox e)) = true.
Proof.
  intros He H Ln Mn Ne Tv Rv. destruct (is_point (b_inter (c_box n) (ebox e))) eqn:P; auto. exfalso.
  assert (K : List.In n (intersecting_nd V_OUT (ebox e) p)); [|rewrite H in K; destruct K as [K|[]]; congruence].
  unfold touches, inrect in *. rewrite (rect_box n) in P by (apply lf_rect; auto). unfold ebox in P. rewrite B2_inter in P by (mmax; lra).
  apply nd_leaf; auto; rewrite (rect_box n) by (apply lf_rect; auto); unfold ebox; rewrite B2_inter by (mmax; lra); [reflexivity|].
  rewrite (Rmax_comm _ (X0 n)), (Rmin_comm _ (X1 n)), (Rmax_comm _ (Y0 n)), (Rmin_comm _ (Y1 n)). exact P.
Qed.

Section Boundary.
Context (E : list (cell * cell)) (HND_E : NoDup E) (HE : forall e, List.In e E <-> isedge e).
Context (HC : forall e, List.In e E -> intersecting_nd V_OUT (ebox e) p = [snd e]).
Definition same_n (e e' : cell * cell) : bool := Nat.eqb (c_addr (snd e')) (c_addr (snd e)).
Lemma same_n_iff e e' : List.In e E -> List.In e' E -> same_n e e' = true <-> snd e' = snd e.
Proof.
  intros H H'. unfold same_n. rewrite Nat.eqb_eq. split; [|congruence]. intros K. apply lf_eq; auto; [apply HE in H'; apply H'|apply HE in H; apply H].
Qed.
Lemma along_eq e e' v : List.In e E -> List.In e' E -> touches e v -> along (vbox v) (c_box (snd e)) (ebox e') = touchb e' v && same_n e e'.
Proof.
  intros H H' T. unfold along. fold (touchb e' v). destruct (touchb e' v) eqn:T'; auto. cbn [andb].
  assert (I := proj1 (HE e) H). assert (I' := proj1 (HE e') H'). apply touchb_iff in T'; [|apply I'].
  destruct (same_n e e') eqn:S.
  - apply same_n_iff in S; auto. rewrite <- S.
    rewrite (rect_box (snd e')) by (apply lf_rect; apply I'). destruct I' as (_ & _ & _ & Ed). apply edge_le in Ed as L.
    pose proof (ebox_bounds (fst e') (snd e')). unfold ebox. rewrite B2_inter; rewrite ?Rmax_right, ?Rmin_right by lra; try lra.
    apply negb_true_iff. apply (edge_not_point e' Ed).
  - apply negb_false_iff. apply (cof_other e' (snd e) v); auto; try apply I.
    + intros K. rewrite (proj2 (same_n_iff e e' H H')) in S; [discriminate|auto].
    + apply touch_rect; auto.
Qed.
Definition near_n (e : cell * cell) (v : R * R) : list (cell * cell) := filter (fun e' => touchb e' v && same_n e e') E.
Definition near_v (v : R * R) : list (cell * cell) := filter (fun e' => touchb e' v) E.
Lemma filter_map_swap {A B} (h : A -> B) (P : B -> bool) (Q : A -> bool) l : (forall a, List.In a l -> P (h a) = Q a) -> filter P (map h l) = map h (filter Q l).
Proof. induction l; cbn; intros H; auto. rewrite (H a) by auto. destruct (Q a); cbn; rewrite IHl; auto. Qed.
Lemma vertex_cof e v L : List.In e E -> touches e v -> vertex_cofaces (map ebox E) (vbox v) (c_box (snd e)) = Some L ->
  exists e1 e2, L = [ebox e1; ebox e2] /\ (near_n e v = [e1; e2] \/ length (near_n e v) <> 2%nat /\ near_v v = [e1; e2]).
Proof.
  intros He T H. unfold vertex_cofaces in H.
  rewrite (filter_map_swap ebox _ (fun e' => touchb e' v && same_n e e')) in H by (intros; apply along_eq; auto).
  rewrite (filter_map_swap ebox _ (fun e' => touchb e' v)) in H by reflexivity. fold (near_n e v) (near_v v) in H. rewrite map_length in H.
  destruct (Nat.eqb_spec (length (near_n e v)) 2) as [L2|L2].
  - rewrite map_length in H. rewrite L2 in H. cbn in H. injection H as <-. destruct (near_n e v) as [|e1 [|e2 [|e3 r]]]; try discriminate. exists e1, e2. split; auto.
  - rewrite map_length in H. destruct (Nat.eqb_spec (length (near_v v)) 2) as [L3|L3]; [|discriminate]. injection H as <-.
    destruct (near_v v) as [|e1 [|e2 [|e3 r]]]; try discriminate. exists e1, e2. split; auto.
Qed.
(** signs *)
Definition sg (i : nat) (e : cell * cell) : Z := nth i (sign2 F (c_box (snd e))) 0%Z.
Definition fv (v : R * R) : R * R := f (fst v) (snd v).
Lemma F_two e : isedge e -> exists i j, F (c_box (snd e)) = [i; j].
Proof.
  intros (_ & Ln & Mn & Ed). apply edge_le in Ed.
  assert (H := HF (snd e) (ex0 (fst e) (snd e)) (ey0 (fst e) (snd e)) Ln Mn). pose proof (ebox_bounds (fst e) (snd e)).
  assert (inrect (X0 (snd e)) (X1 (snd e)) (Y0 (snd e)) (Y1 (snd e)) (ex0 (fst e) (snd e)) (ey0 (fst e) (snd e))) as R by (unfold inrect; lra).
  apply H in R. inversion R as [|? i ? q H1 H2]; subst. inversion H2 as [|? j ? q' H3 H4]; subst. inversion H4; subst. exists i, j. auto.
Qed.
Lemma sign2_two e : isedge e -> sign2 F (c_box (snd e)) = [sg 0 e; sg 1 e].
Proof. intros He. unfold sg, sign2. destruct (F_two e He) as (i & j & ->). reflexivity. Qed.
Lemma sign1_eq e : List.In e E -> sign1 F p (ebox e) = Some [sg 0 e; sg 1 e].
Proof.
  intros H. assert (I := proj1 (HE e) H). unfold sign1, edge_cofaces. rewrite (HC e H). cbn [merge_cofaces].
  assert (Rn : rectangular (snd e)) by (apply lf_rect; apply I).
  assert (box_dimension (c_box (snd e)) = 2%nat) as ->.
  { rewrite (rect_box _ Rn). unfold box_dimension, B2, I2. destruct Rn as (_ & A & B). cbn. rewrite !Reqb_f by lra. reflexivity. }
  cbn [Nat.eqb]. rewrite (sign2_two e I). cbn [merge_signs]. destruct (Z.eqb_spec (sg 0 e) 0) as [E0|E0], (Z.eqb_spec (sg 1 e) 0) as [E1|E1]; cbn; rewrite ?E0, ?E1; reflexivity.
Qed.
Lemma ebox_dim e : isedge e -> box_dimension (ebox e) = 1%nat.
Proof.
  intros (_ & _ & _ & Ed). unfold box_dimension, ebox, B2, I2. cbn. unfold edge in Ed.
  destruct Ed as [[A B]|[A B]]; [rewrite (Reqb_t _ _ A), (Reqb_f (ey0 _ _)) by lra|rewrite (Reqb_t _ _ B), (Reqb_f (ex0 _ _)) by lra]; reflexivity.
Qed.
Lemma sg_vals e : isedge e -> forall v, touches e v ->
  (sg 0 e = 1%Z -> 0 < fst (fv v)) /\ (sg 0 e = (-1)%Z -> fst (fv v) < 0) /\ (sg 1 e = 1%Z -> 0 < snd (fv v)) /\ (sg 1 e = (-1)%Z -> snd (fv v) < 0) /\
  (sg 0 e = 1%Z \/ sg 0 e = 0%Z \/ sg 0 e = (-1)%Z) /\ (sg 1 e = 1%Z \/ sg 1 e = 0%Z \/ sg 1 e = (-1)%Z) /\ ~ (sg 0 e = 0%Z /\ sg 1 e = 0%Z).
Proof.
  intros I v T. apply touch_rect in T. assert (Q := HF (snd e) _ _ (proj1 (proj2 I)) (proj1 (proj2 (proj2 I))) T).
  assert (NZ := HZ (snd e) (proj1 (proj2 I)) (proj1 (proj2 (proj2 I)))). unfold sg, sign2, fv.
  destruct (F_two e I) as (i & j & EF). rewrite EF in *. cbn [map nth]. inversion Q as [|? ? ? ? H1 H2]; subst. inversion H2 as [|? ? ? ? H3 H4]; subst.
  refine (conj _ (conj _ (conj _ (conj _ (conj _ (conj _ _)))))).
  - intros S. eapply sign_pos; eauto.
  - intros S. eapply sign_neg; eauto.
  - intros S. eapply sign_pos; eauto.
  - intros S. eapply sign_neg; eauto.
  - apply sign_cases.
  - apply sign_cases.
  - intros [S1 S2]. apply NZ. constructor; [apply sign_zero; auto|]. constructor; [apply sign_zero; auto|]. constructor.
Qed.
Definition vdeg (e : cell * cell) (v : R * R) : option Z := vertex_degree F p (map ebox E) (vbox v) (c_box (snd e)).
Lemma near_n_in e v : List.In e E -> touches e v -> List.In e (near_n e v).
Proof.
  intros H T. unfold near_n. apply filter_In. split; auto. apply andb_true_iff. split; [apply touchb_iff; auto; apply HE in H; apply H|]. unfold same_n. apply Nat.eqb_refl.
Qed.
Lemma near_v_in e v : List.In e E -> touches e v -> List.In e (near_v v).
Proof. intros H T. unfold near_v. apply filter_In. split; auto. apply touchb_iff; auto. apply HE in H. apply H. Qed.
Lemma vdeg_pair e v d : List.In e E -> touches e v -> vdeg e v = Some d -> exists e1 e2,
  (near_n e v = [e1; e2] \/ length (near_n e v) <> 2%nat /\ near_v v = [e1; e2]) /\ (d = 1%Z \/ d = 0%Z) /\
  (sg 0 e = 1%Z -> (d = 1%Z <-> sg 1 e1 = 1%Z \/ sg 1 e2 = 1%Z)).
Proof.
  intros He T H. unfold vdeg, vertex_degree, sign0 in H. destruct (vertex_cofaces _ _ _) as [L|] eqn:V; [|discriminate].
  destruct (vertex_cof e v L He T V) as (e1 & e2 & -> & HP). exists e1, e2. split; auto.
  assert (List.In e [e1; e2] /\ List.In e1 E /\ List.In e2 E) as (Hin' & H1 & H2).
  { destruct HP as [HP|[_ HP]].
    - assert (K := near_n_in e v He T). rewrite HP in K. split; auto.
      split; [assert (K1 : List.In e1 (near_n e v)) by (rewrite HP; left; auto)|assert (K1 : List.In e2 (near_n e v)) by (rewrite HP; right; left; auto)]; apply filter_In in K1; apply K1.
    - assert (K := near_v_in e v He T). rewrite HP in K. split; auto.
      split; [assert (K1 : List.In e1 (near_v v)) by (rewrite HP; left; auto)|assert (K1 : List.In e2 (near_v v)) by (rewrite HP; right; left; auto)]; apply filter_In in K1; apply K1. }
  cbn [merge_cofaces] in H. rewrite (ebox_dim e1), (ebox_dim e2), (sign1_eq e1), (sign1_eq e2) in H by (auto; apply HE; auto). cbn [Nat.eqb] in H.
  destruct (merge_signs [0; 0]%Z [sg 0 e1; sg 1 e1]) as [s0|] eqn:M0; [|discriminate].
  destruct (merge_two _ _ (sg 0 e2) (sg 1 e2) s0 M0) as (-> & M1).
  destruct (merge_signs [sg 0 e1; sg 1 e1] [sg 0 e2; sg 1 e2]) as [s|] eqn:M2; [|discriminate].
  destruct (M1 s eq_refl) as (a & b & -> & Ha & Hb). injection H as <-. cbn [nth all_positive_signs forallb].
  split; [destruct (Z.eqb b 1), (Z.eqb a 1); cbn; auto|]. intros S0.
  assert (a = 1%Z) as A. { apply Ha. destruct Hin' as [<-|[<-|[]]]; auto. }
  rewrite A. cbn [Z.eqb Pos.eqb andb]. rewrite <- Hb. destruct (Z.eqb_spec b 1) as [B|B]; cbn; split; auto; try lia.
Qed.

(** ** The difference between the code and the variation of the angle, at each vertex *)
Definition pv (e : cell * cell) (v : R * R) : R := match vdeg e v with Some d => IZR d | None => 0 end.
Definition dv (e : cell * cell) (v : R * R) : R := if Z.eqb (sg 0 e) 1 then above (fv v) - pv e v else 0.
Context (HV : forall e v, List.In e E -> sg 0 e = 1%Z -> v = lo e \/ v = hi e -> vdeg e v <> None).
Lemma end_touch e v : isedge e -> v = lo e \/ v = hi e -> touches e v.
Proof. intros (_ & _ & _ & Ed) [-> | ->]; [apply lo_touch|apply hi_touch]; auto. Qed.
(** the two faces of a vertex *)
Lemma pair_dv e1 e2 v : List.In e1 E -> List.In e2 E -> (v = lo e1 \/ v = hi e1) -> (v = lo e2 \/ v = hi e2) ->
  (forall e, e = e1 \/ e = e2 -> (near_n e v = [e1; e2] \/ length (near_n e v) <> 2%nat /\ near_v v = [e1; e2])) -> dv e1 v = dv e2 v.
Proof.
  intros H1 H2 N1 N2 HP.
  assert (forall e, e = e1 \/ e = e2 -> sg 0 e = 1%Z -> exists d, pv e v = IZR d /\ (d = 1%Z \/ d = 0%Z) /\ (d = 1%Z <-> sg 1 e1 = 1%Z \/ sg 1 e2 = 1%Z)) as HD.
  { intros e He S. assert (List.In e E /\ (v = lo e \/ v = hi e)) as [Ee Ne] by (destruct He; subst; auto).
    assert (T : touches e v) by (apply end_touch; auto; apply HE; auto).
    unfold pv. destruct (vdeg e v) as [d|] eqn:D; [|exfalso; eapply HV; eauto]. exists d. split; auto.
    destruct (vdeg_pair e v d Ee T D) as (a & b & K & K1 & K2). split; auto. rewrite (K2 S).
    assert ([a; b] = [e1; e2]) as Eq. { clear - HP He K. destruct (HP e He) as [P|[P P']], K as [Q|[Q Q']]; [congruence|exfalso; apply Q; rewrite P; reflexivity|exfalso; apply P; rewrite Q; reflexivity|congruence]. }
    injection Eq as -> ->. reflexivity. }
  assert (T1 : touches e1 v) by (apply end_touch; auto; apply HE; auto). assert (T2 : touches e2 v) by (apply end_touch; auto; apply HE; auto).
  destruct (sg_vals e1 (proj1 (HE e1) H1) v T1) as (A1 & A2 & A3 & A4 & A5 & A6 & A7).
  destruct (sg_vals e2 (proj1 (HE e2) H2) v T2) as (B1 & B2 & B3 & B4 & B5 & B6 & B7).
  unfold dv, above.
  destruct (Z.eqb_spec (sg 0 e1) 1) as [S1|S1], (Z.eqb_spec (sg 0 e2) 1) as [S2|S2]; auto.
  - destruct (HD e1 (or_introl eq_refl) S1) as (d1 & -> & C1 & D1). destruct (HD e2 (or_intror eq_refl) S2) as (d2 & -> & C2 & D2).
    assert (d1 = 1%Z <-> d2 = 1%Z) as DD by (rewrite D1, D2; reflexivity). clear - C1 C2 DD. assert (d1 = d2) by lia. subst. auto.
  - destruct (HD e1 (or_introl eq_refl) S1) as (d1 & -> & C1 & D1). destruct (Rlt_dec 0 (snd (fv v))) as [P|P].
    + assert (d1 = 1%Z) as ->; [|lra]. apply D1. right.
      (* the first sign of e2 is not -1 *)
      destruct B5 as [B5|[B5|B5]]; [lia| |exfalso; specialize (A1 S1); specialize (B2 B5); lra].
      destruct B6 as [B6|[B6|B6]]; [auto|exfalso; apply B7; auto|exfalso; specialize (B4 B6); lra].
    + assert (d1 = 0%Z) as ->; [|lra]. destruct C1 as [C1|C1]; auto. exfalso. apply D1 in C1. destruct C1 as [C1|C1]; [apply A3 in C1|apply B3 in C1]; lra.
  - destruct (HD e2 (or_intror eq_refl) S2) as (d1 & -> & C1 & D1). destruct (Rlt_dec 0 (snd (fv v))) as [P|P].
    + assert (d1 = 1%Z) as ->; [|lra]. apply D1. left.
      destruct A5 as [A5|[A5|A5]]; [lia| |exfalso; specialize (B1 S2); specialize (A2 A5); lra].
      destruct A6 as [A6|[A6|A6]]; [auto|exfalso; apply A7; auto|exfalso; specialize (A4 A6); lra].
    + assert (d1 = 0%Z) as ->; [|lra]. destruct C1 as [C1|C1]; auto. exfalso. apply D1 in C1. destruct C1 as [C1|C1]; [apply A3 in C1|apply B3 in C1]; lra.
Qed.
Lemma eps_sum v : fsum (fun e => eps e v) E = 0.
Proof.
  rewrite <- (edges_sum (fun _ x y => at_pt (x, y) v) E); auto.
  - apply fsum_ext. intros e He. apply HE in He. destruct He as (Hi & Ln & _ & Ed). rewrite kap_sgn by (auto; apply lf_rect; auto). reflexivity.
  - intros a b Ha Hb _ Ed. apply kap_anti; auto; apply lf_rect; auto.
Qed.
Lemma near_v_eps v g : (forall e, List.In e E -> ~ touches e v -> g e = 0) -> fsum g (near_v v) = fsum g E.
Proof.
  intros H. unfold near_v. apply fsum_filter0. intros e He T. apply H; auto. intros K. apply touchb_iff in K; [congruence|]. apply HE in He. apply He.
Qed.
Lemma eps_touch e v : List.In e E -> ~ touches e v -> eps e v = 0.
Proof.
  intros He N. destruct (Req_EM_T (eps e v) 0) as [|Z]; auto. exfalso. apply N. apply end_touch; [apply HE; auto|apply eps_end; auto].
Qed.
Lemma vertex_sum v : fsum (fun e => eps e v * dv e v) E = 0.
Proof.
  rewrite <- (near_v_eps v) by (intros e He N; rewrite eps_touch; auto; lra).
  destruct (Nat.eq_dec (length (near_v v)) 2) as [L2|L2].
  - assert (S := eps_sum v). rewrite <- (near_v_eps v) in S by (intros e He N; apply eps_touch; auto).
    assert (forall e, List.In e (near_v v) -> List.In e E) as HI by (intros e K; apply filter_In in K; apply K).
    assert (forall e, length (near_n e v) = 2%nat -> near_n e v = near_v v) as HS.
    { intros e K. assert (near_n e v = filter (same_n e) (near_v v)) as EQ by (apply filter_and). rewrite EQ in K |- *.
      destruct (near_v v) as [|a [|b [|c r]]]; try discriminate. cbn in *. destruct (same_n e a), (same_n e b); cbn in *; try discriminate; auto. }
    destruct (near_v v) as [|e1 [|e2 [|e3 r]]] eqn:EN; try discriminate. cbn [fsum] in *.
    destruct (Req_EM_T (eps e1 v) 0) as [Z|Z].
    + assert (eps e2 v = 0) as Z2 by lra. rewrite Z, Z2. lra.
    + assert (eps e2 v <> 0) as Z2 by lra. assert (dv e1 v = dv e2 v) as ->.
      { apply pair_dv; try (apply HI; cbn; auto; fail); try (apply eps_end; auto; fail).
        intros e He. destruct (Nat.eq_dec (length (near_n e v)) 2) as [K|K]; [left; auto|right; auto]. }
      replace (eps e2 v) with (- eps e1 v) by lra. lra.
  - apply (fsum_classes Nat.eq_dec (fun e => c_addr (snd e))). intros k.
    set (A := filter _ (near_v v)).
    assert (forall e, List.In e A -> List.In e E /\ touches e v /\ near_n e v = A) as HA.
    { intros e K. apply filter_In in K. destruct K as [K1 K2]. apply filter_In in K1. destruct K1 as [K1 K3].
      destruct (Nat.eq_dec (c_addr (snd e)) k) as [EK|]; [|discriminate]. split; auto. split; [apply touchb_iff; auto; apply HE in K1; apply K1|].
      unfold A, near_n. rewrite filter_and. fold (near_v v). apply filter_ext. intros a. unfold same_n. rewrite EK.
      destruct (Nat.eq_dec (c_addr (snd a)) k) as [Q|Q]; [apply Nat.eqb_eq|apply Nat.eqb_neq]; auto. }
    destruct (Nat.eq_dec (length A) 2) as [L3|L3].
    + assert (NoDup A) as NA by (unfold A, near_v; do 2 apply NoDup_filter'; auto).
      destruct A as [|e1 [|e2 [|e3 r]]] eqn:EA; try discriminate. cbn [fsum].
      destruct (HA e1) as (I1 & T1 & P1); [left; auto|]. destruct (HA e2) as (I2 & T2 & P2); [right; left; auto|].
      assert (e1 <> e2) as Ne by (inversion NA as [|? ? Q1 Q2]; subst; intros ->; apply Q1; left; auto).
      assert (snd e1 = snd e2) as Sn.
      { assert (K1 : List.In e1 (e1 :: [e2])) by (left; auto). assert (K2 : List.In e2 (e1 :: [e2])) by (right; left; auto). rewrite <- EA in K1, K2.
        apply filter_In in K1. apply filter_In in K2. destruct K1 as [_ K1], K2 as [_ K2].
        destruct (Nat.eq_dec (c_addr (snd e1)) k); [|discriminate]. destruct (Nat.eq_dec (c_addr (snd e2)) k); [|discriminate].
        apply HE in I1. apply HE in I2. apply lf_eq; [apply I1|apply I2|congruence]. }
      assert (eps e1 v + eps e2 v = 0) as S.
      { apply HE in I1. apply HE in I2. destruct e1 as [a n], e2 as [b n']. cbn [snd] in Sn. subst n'.
        destruct I1 as (Ha & Ln & _ & Ea), I2 as (Hb & _ & _ & Eb). cbn [fst snd] in *.
        apply eps_pair; auto; try (apply lf_rect; auto). apply lf_apart; auto. congruence. }
      destruct (Req_EM_T (eps e1 v) 0) as [Z|Z]; [assert (eps e2 v = 0) as Z2 by lra; rewrite Z, Z2; lra|].
      assert (eps e2 v <> 0) by lra.
      assert (dv e1 v = dv e2 v) as ->.
      { apply pair_dv; auto; try (apply eps_end; auto; fail). intros e [-> | ->]; left; auto. }
      replace (eps e2 v) with (- eps e1 v) by lra. lra.
    + apply fsum_zero. intros e K. destruct (HA e K) as (Ie & Te & Pe). destruct (Req_EM_T (eps e v) 0) as [Z|Z]; [rewrite Z; lra|].
      unfold dv. destruct (Z.eqb_spec (sg 0 e) 1) as [S1|S1]; [|lra]. exfalso.
      assert (V := HV e v Ie S1 (eps_end e v Z)). destruct (vdeg e v) as [d|] eqn:D; [|congruence].
      destruct (vdeg_pair e v d Ie Te D) as (a & b & [Q|[_ Q]] & _).
      * rewrite Pe in Q. rewrite Q in L3. apply L3. reflexivity.
      * rewrite Q in L2. apply L2. reflexivity.
Qed.
Lemma pt_dec (u v : R * R) : {u = v} + {u <> v}.
Proof. destruct u as [a b], v as [c d]. destruct (Req_EM_T a c), (Req_EM_T b d); try (right; congruence). left. congruence. Qed.
Lemma at_pt_dec u v : at_pt u v = if pt_dec u v then 1 else 0.
Proof.
  destruct (pt_dec u v) as [->|N]; [apply at_pt_refl|]. destruct (Req_EM_T (at_pt u v) 0) as [|Z]; auto. exfalso. apply N. apply at_pt_1. auto.
Qed.
Lemma ends_sum : fsum (fun e => sgn e * (dv e (hi e) - dv e (lo e))) E = 0.
Proof.
  set (H := flat_map (fun e : cell * cell => [(e, true); (e, false)]) E).
  set (g := fun h : (cell * cell) * bool => if snd h then sgn (fst h) * dv (fst h) (hi (fst h)) else - (sgn (fst h) * dv (fst h) (lo (fst h)))).
  assert (fsum g H = 0) as Z.
  { apply (fsum_classes pt_dec (fun h : (cell * cell) * bool => if snd h then hi (fst h) else lo (fst h))). intros v.
    transitivity (fsum (fun e => eps e v * dv e v) E); [|apply vertex_sum]. unfold H. generalize E at 1 2 as l. intros l. unfold eps.
    induction l as [|e l IH]; auto. cbn [flat_map app filter fsum fst snd]. rewrite !at_pt_dec.
    destruct (pt_dec (hi e) v) as [E1|E1], (pt_dec (lo e) v) as [E2|E2]; cbn [fsum]; rewrite IH; unfold g; cbn [fst snd]; rewrite ?E1, ?E2; lra. }
  rewrite <- Z. unfold H. rewrite fsum_flat. apply fsum_ext. intros e _. cbn [fsum]. unfold g. cbn [fst snd]. lra.
Qed.

(** ** The variation of the angle *)
Definition s1 (e : cell * cell) : R := if Z.eqb (sg 0 e) 1 then 1 else 0.
Context (HCf : forall it x y, List.In it items -> inrect (X0 it) (X1 it) (Y0 it) (Y1 it) x y -> fcont f x y).
Context (HNZ : forall it x y, List.In it items -> inrect (X0 it) (X1 it) (Y0 it) (Y1 it) x y -> fst (f x y) <> 0 \/ snd (f x y) <> 0).
Definition lift_on (it : cell) (L : R * (R -> R -> R)) : Prop :=
  0 < fst L /\ tame f (fst L) (X0 it) (X1 it) (Y0 it) (Y1 it) /\ lift f (fst L) (X0 it) (X1 it) (Y0 it) (Y1 it) (snd L).
Lemma choose_lifts l : (forall c, List.In c l -> List.In c items) -> exists L, forall c, List.In c l -> lift_on c (L c).
Proof.
  induction l as [|it l IH]; intros Hl.
  - exists (fun _ => (0, fun _ _ => 0)). intros c [].
  - destruct IH as (L & H); [intros c Hc; apply Hl; right; auto|]. assert (Hi : List.In it items) by (apply Hl; left; auto).
    destruct (lf_rect it (Hitems it Hi)) as (_ & R1 & R2).
    destruct (lift_ok f (X0 it) (X1 it) (Y0 it) (Y1 it)) as (del & Phi & K1 & K2 & K3); try lra; [intros x y; apply (HCf it); auto|intros x y; apply (HNZ it); auto|].
    exists (fun c => if Nat.eq_dec (c_addr c) (c_addr it) then (del, Phi) else L c). intros c Hc.
    destruct (Nat.eq_dec (c_addr c) (c_addr it)) as [EA|NA].
    + rewrite (lf_eq c it); auto. split; auto.
    + destruct Hc as [->|Hc]; [congruence|auto].
Qed.
Lemma above_sum : fsum (fun e => sgn e * (s1 e * (above (fv (hi e)) - above (fv (lo e))))) E = 0.
Proof.
  destruct (choose_lifts items) as (L & HLf); auto. pose proof PI_RGT_0.
  assert (fsum (fun e => kap (snd (L (fst e))) (fst e) (snd e)) E = 0) as Z1.
  { apply (edges_sum (fun c => snd (L c))); auto. intros a b Ha Hb _ Ed.
    assert (Ra := lf_rect a (Hitems a Ha)). assert (Rb := lf_rect b (Hitems b Hb)). rewrite kap_anti by auto. apply f_equal.
    assert (K1 := kap_sgn (snd (L a)) (b, a) Rb Ra (edge_sym _ _ Ed)). assert (K2 := kap_sgn (snd (L b)) (b, a) Rb Ra (edge_sym _ _ Ed)).
    cbn [fst snd] in K1, K2. rewrite K1, K2. apply f_equal. unfold hi, lo. cbn [fst snd].
    destruct (HLf a Ha) as (D1 & T1 & L1). destruct (HLf b Hb) as (D2 & T2 & L2). apply edge_sym in Ed.
    apply (lift_agree f (fst (L a)) (X0 a) (X1 a) (Y0 a) (Y1 a) (snd (L a)) (fst (L b)) (X0 b) (X1 b) (Y0 b) (Y1 b) (snd (L b))); auto.
    - apply edge_le in Ed. apply Ed.
    - apply edge_le in Ed. apply Ed.
    - unfold edge in Ed. lra.
    - intros x y S. apply (seg_edge b a x y Ed S).
    - intros x y S. apply (seg_edge b a x y Ed S). }
  assert (fsum (fun e => kap (fun x y => psi (f x y)) (fst e) (snd e)) E = 0) as Z2.
  { apply (edges_sum (fun _ x y => psi (f x y))); auto. intros a b Ha Hb _ Ed. apply kap_anti; auto; apply lf_rect; auto. }
  assert (fsum (fun e => kap (snd (L (fst e))) (fst e) (snd e)) E = fsum (fun e => kap (fun x y => psi (f x y)) (fst e) (snd e)) E + 2 * PI * fsum (fun e => sgn e * (s1 e * (above (fv (hi e)) - above (fv (lo e))))) E) as Z3.
  { rewrite <- fsum_scal, <- fsum_plus. apply fsum_ext. intros e He. assert (I := proj1 (HE e) He). assert (I' := I). destruct I' as (Hi & Ln & Mn & Ed).
    assert (Ra := lf_rect (fst e) (Hitems _ Hi)). assert (Rb := lf_rect (snd e) Ln). rewrite !kap_sgn by auto.
    destruct (HLf (fst e) Hi) as (D1 & T1 & L1).
    assert (snd (L (fst e)) (fst (hi e)) (snd (hi e)) - snd (L (fst e)) (fst (lo e)) (snd (lo e)) =
      psi (fv (hi e)) - psi (fv (lo e)) + 2 * PI * ((if Z.eqb (sg 0 e) 1 then 1 else 0) * (above (fv (hi e)) - above (fv (lo e))))) as K.
    { unfold fv, hi, lo. cbn [fst snd].
      apply (lift_turn f (fst (L (fst e))) (X0 (fst e)) (X1 (fst e)) (Y0 (fst e)) (Y1 (fst e))); auto.
      - apply edge_le in Ed. apply Ed.
      - apply edge_le in Ed. apply Ed.
      - unfold edge in Ed. lra.
      - intros x y S. apply (seg_edge _ _ x y Ed S).
      - assert (forall x y, seg (ex0 (fst e) (snd e)) (ey0 (fst e) (snd e)) (ex1 (fst e) (snd e)) (ey1 (fst e) (snd e)) x y -> touches e (x, y)) as TS.
        { intros x y S. unfold touches. cbn [fst snd]. unfold seg in S. apply edge_le in Ed. lra. }
        destruct (Z.eqb_spec (sg 0 e) 1) as [S|S].
        + intros x y Sg. apply (sg_vals e I (x, y) (TS x y Sg)). auto.
        + destruct (sg_vals e I (lo e) (lo_touch e Ed)) as (_ & _ & _ & _ & V1 & V2 & V3).
          destruct V1 as [V1|[V1|V1]]; [congruence| |left; intros x y Sg; apply (sg_vals e I (x, y) (TS x y Sg)); auto].
          destruct V2 as [V2|[V2|V2]]; [right; left; intros x y Sg; apply (sg_vals e I (x, y) (TS x y Sg)); auto|exfalso; apply V3; auto|].
          right; right; intros x y Sg; apply (sg_vals e I (x, y) (TS x y Sg)); auto. }
    rewrite K. unfold s1, fv. ring. }
  rewrite Z1, Z2 in Z3. apply (Rmult_eq_reg_l (2 * PI)); lra.
Qed.

(** ** The loop *)
Definition edeg (e : cell * cell) : option Z := edge_degree F p (map ebox E) (ebox e) (c_box (snd e)).
Lemma pv_sum : fsum (fun e => sgn e * (s1 e * (pv e (hi e) - pv e (lo e)))) E = 0.
Proof.
  assert (Z := ends_sum). assert (Z' := above_sum).
  assert (fsum (fun e => sgn e * (dv e (hi e) - dv e (lo e))) E =
    fsum (fun e => sgn e * (s1 e * (above (fv (hi e)) - above (fv (lo e))))) E + -1 * fsum (fun e => sgn e * (s1 e * (pv e (hi e) - pv e (lo e)))) E) as K; [|lra].
  rewrite <- fsum_scal, <- fsum_plus. apply fsum_ext. intros e _. unfold dv, s1. destruct (Z.eqb (sg 0 e) 1); ring.
Qed.
End Boundary.

Lemma orientation_sgn e : isedge e -> IZR (orientation (ebox e) (c_box (snd e)) 1) = - sgn e.
Proof.
  intros (Hi & Ln & _ & Ed). assert (Rn := lf_rect _ Ln). assert (Ra := lf_rect _ (Hitems _ Hi)).
  destruct e as [a n]. cbn [fst snd] in *. assert (N := edge_norm a n Ra Rn Ed). rewrite (rect_box n Rn). destruct Rn as (_ & N1 & N2).
  unfold orientation, ebox, B2, I2. cbn [fst snd orientation_loop is_degenerated at_lb at_ub].
  rewrite (Reqb_f (X0 n) (X1 n)), (Reqb_f (Y0 n) (Y1 n)) by lra.
  destruct N as [S1 S2 S3 S4 ->|S1 S2 S3 S4 ->|S1 S2 S3 S4 ->|S1 S2 S3 S4 ->]; rewrite S2, S3.
  - rewrite !Reqb_refl. cbn. lra.
  - rewrite !Reqb_refl, (Reqb_f (X1 n) (X0 n)) by lra. cbn. lra.
  - rewrite !Reqb_refl, (Reqb_f (ex0 a n) (ex1 a n)) by lra. cbn. lra.
  - rewrite !Reqb_refl, (Reqb_f (ex0 a n) (ex1 a n)), (Reqb_f (Y1 n) (Y0 n)) by lra. cbn. lra.
Qed.
Lemma faces e : isedge e -> face_l (ebox e) = vbox (lo e) /\ face_u (ebox e) = vbox (hi e).
Proof.
  intros (_ & _ & _ & Ed). unfold face_l, face_u, ebox, vbox, B2, I2, lo, hi. cbn [map is_degenerated fst snd]. unfold edge in Ed.
  destruct Ed as [[A B]|[A B]]; [rewrite (Reqb_t _ _ A), (Reqb_f (ey0 _ _)) by lra|rewrite (Reqb_t _ _ B), (Reqb_f (ex0 _ _)) by lra]; rewrite ?A, ?B; auto.
Qed.
Lemma loop_edges E l : (forall e, List.In e l -> isedge e) -> forall d z, degree_loop F p (map ebox E) (map ebox l) d = Some z ->
  (forall e, List.In e l -> intersecting_nd V_OUT (ebox e) p = [snd e] /\ edeg E e <> None) /\
  IZR z = IZR d + fsum (fun e => - sgn e * match edeg E e with Some k => IZR k | None => 0 end) l.
Proof.
  induction l as [|e l IH]; intros Hl d z H.
  - cbn in H. injection H as <-. split; [intros e []|cbn; lra].
  - assert (I := Hl e (or_introl eq_refl)). cbn [map degree_loop] in H. rewrite ebox_dim in H by auto. cbn [Nat.eqb negb] in H.
    destruct (edge_cofaces p (ebox e)) as [k|] eqn:EC; [|discriminate]. destruct (cof_unique e k I EC) as [U ->].
    fold (edeg E e) in H. destruct (edeg E e) as [g|] eqn:EG; [|discriminate].
    destruct (IH (fun c Hc => Hl c (or_intror Hc)) _ _ H) as [H1 H2]. split.
    + intros c [<-|Hc]; auto. split; auto. congruence.
    + cbn [fsum]. rewrite EG, H2, plus_IZR, mult_IZR, (orientation_sgn e I). lra.
Qed.
Lemma edeg_value E e k : NoDup E -> (forall e, List.In e E <-> isedge e) -> (forall e, List.In e E -> intersecting_nd V_OUT (ebox e) p = [snd e]) ->
  List.In e E -> edeg E e = Some k ->
  (sg 0 e = 1%Z -> vdeg E e (lo e) <> None /\ vdeg E e (hi e) <> None) /\ IZR k = s1 e * (pv E e (hi e) - pv E e (lo e)).
Proof.
  intros NE HE HC He H. assert (I := proj1 (HE e) He). unfold edeg, edge_degree in H. rewrite (sign1_eq E) in H by auto. cbn [nth] in H.
  destruct (faces e I) as [FL FU]. rewrite FL, FU in H. fold (vdeg E e (lo e)) (vdeg E e (hi e)) in H. unfold s1, pv.
  destruct (Z.eqb_spec (sg 0 e) 1) as [S|S]; cbn [negb] in H.
  - destruct (vdeg E e (lo e)) as [a|]; [|discriminate]. destruct (vdeg E e (hi e)) as [b|]; [|discriminate]. injection H as <-.
    split; [intros _; split; congruence|]. rewrite plus_IZR, opp_IZR. lra.
  - injection H as <-. split; [congruence|lra].
Qed.
Lemma degree_zero z : (forall it x y, List.In it items -> inrect (X0 it) (X1 it) (Y0 it) (Y1 it) x y -> fcont f x y) ->
  (forall it x y, List.In it items -> inrect (X0 it) (X1 it) (Y0 it) (Y1 it) x y -> fst (f x y) <> 0 \/ snd (f x y) <> 0) ->
  forall v_bi, get_boundary w items = Some v_bi -> degree_loop F p v_bi v_bi 0 = Some z -> z = 0%Z.
Proof.
  intros HCf HNZ v_bi HB HD. destruct (boundary_edges items (fun c H => H) HND) as (E & EB & NE & HE). rewrite EB in HB. injection HB as <-.
  assert (HE' : forall e, List.In e E <-> isedge e). { intros e. rewrite HE. unfold isedge. tauto. }
  destruct (loop_edges E E (fun e He => proj1 (HE' e) He) 0%Z z HD) as [H1 H2].
  assert (HC : forall e, List.In e E -> intersecting_nd V_OUT (ebox e) p = [snd e]) by (intros e He; apply H1; auto).
  assert (HV : forall e v, List.In e E -> sg 0 e = 1%Z -> v = lo e \/ v = hi e -> vdeg E e v <> None).
  { intros e v He S Hv. destruct (edeg E e) as [k|] eqn:EK; [|exfalso; apply (proj2 (H1 e He)); auto].
    destruct (proj1 (edeg_value E e k NE HE' HC He EK) S) as [V1 V2]. destruct Hv; subst; auto. }
  assert (Z := pv_sum E NE HE' HC HV HCf HNZ).
  apply eq_IZR. rewrite H2. rewrite (fsum_ext _ (fun e => -1 * (sgn e * (s1 e * (pv E e (hi e) - pv E e (lo e)))))).
  - rewrite fsum_scal, Z. lra.
  - intros e He. destruct (edeg E e) as [k|] eqn:EK; [|exfalso; apply (proj2 (H1 e He)); auto].
    rewrite (proj2 (edeg_value E e k NE HE' HC He EK)). ring.
Qed.
End Degree.

(** ** Statements *)
(** The values of the leaves of a paving: a leaf is UNKNOWN, IN or OUT *)
Definition valued (p : pav) : Prop := forall c, List.In c (leaves p) -> c_val c = V_UNKNOWN \/ c_val c = V_IN \/ c_val c = V_OUT.
(** no leaf of value IN has a common point with a leaf of value OUT *)
Definition in_out_apart (p : pav) : Prop :=
  forall a b, List.In a (leaves p) -> List.In b (leaves p) -> c_val a = V_IN -> c_val b = V_OUT -> ~ touch a b.
(** [F] encloses [f] on the leaves of value OUT, and proves that these leaves have no zero *)
Definition proves_out (f : field2) (F : box -> box) (p : pav) : Prop :=
  forall n, List.In n (leaves p) -> c_val n = V_OUT ->
    (forall x y, inb [x; y] (c_box n) -> inb [fst (f x y); snd (f x y)] (F (c_box n))) /\ ~ inb [0; 0] (F (c_box n)).
Lemma rect_pt c x y : rectangular c -> inb [x; y] (c_box c) <-> inrect (X0 c) (X1 c) (Y0 c) (Y1 c) x y.
Proof.
  intros R. rewrite (rect_box c R). unfold B2, I2, inb, inrect. split.
  - intros H. inversion H as [|? ? ? ? H1 H2]; subst. inversion H2 as [|? ? ? ? H3 _]; subst. cbn in H1, H3. lra.
  - intros H. constructor; [|constructor; [|constructor]]; cbn; lra.
Qed.
Theorem C100_partial : forall w p (f : field2) F fuel fl res items,
  paving_ok p -> tiled p -> lookup (c_addr (p_cell p)) w = Some p -> valued p -> in_out_apart p -> proves_out f F p ->
  (forall x y, inb [x; y] (c_box (p_cell p)) -> fcont f x y) ->
  (length (leaves p) <= fuel)%nat -> get_connected_subsets w p (N.lor V_UNKNOWN V_IN) fuel fl = Some res -> List.In items res ->
  zero_proven w F items = Some true ->
  exists it x y, List.In it items /\ inb [x; y] (c_box it) /\ f x y = (0, 0).
Proof.
  intros w p f F fuel fl res items OK HT HL HV HA HO HC Fu HR Hi HZ.
  destruct (C42 w p (N.lor V_UNKNOWN V_IN) fuel fl OK HL Fu) as (res' & E & ND & HM & HK & _). rewrite HR in E. injection E as <-.
  set (val := N.lor V_UNKNOWN V_IN) in *.
  assert (MV : forall c, List.In c (leaves p) -> matching val p c \/ c_val c = V_OUT).
  { intros c Hc. destruct (HV c Hc) as [K|[K|K]]; [left|left|right; auto]; (split; [auto|rewrite K; discriminate]). }
  assert (MO : forall c, meets (c_val c) V_OUT = true -> List.In c (leaves p) -> c_val c = V_OUT).
  { intros c M Hc. destruct (HV c Hc) as [K|[K|K]]; auto; rewrite K in M; discriminate. }
  assert (IM : forall c, List.In c items -> matching val p c).
  { intros c Hc. apply HM. apply in_concat. exists items. auto. }
  assert (IL : forall c, List.In c items -> List.In c (leaves p)) by (intros c Hc; apply (IM c Hc)).
  assert (RC : forall c, List.In c (leaves p) -> rectangular c) by (intros c Hc; apply (tiled_leaf p HT c Hc)).
  assert (NDi : NoDup items).
  { clear - ND Hi. induction res as [|s res IH]; [destruct Hi|]. cbn [concat] in ND. pose proof (NoDup_app_l _ _ ND) as N1. pose proof (NoDup_app_r _ _ ND) as N2.
    destruct Hi as [<-|Hi]; auto. }
  unfold zero_proven in HZ. destruct (topological_degree w F items) as [d|] eqn:ET; [|discriminate]. cbn in HZ. injection HZ as HZ.
  apply negb_true_iff in HZ. apply Z.eqb_neq in HZ.
  unfold topological_degree in ET. destruct items as [|i0 items']; [discriminate|]. set (items := i0 :: items') in *.
  assert (L0 : lookup (c_root i0) w = Some p).
  { rewrite <- HL. f_equal. apply (po_root _ OK). apply leaves_cells. apply IL. left; auto. }
  rewrite L0 in ET. destruct (strictly_included (subset_box items) (c_box (p_cell p))) eqn:SI; cbn [negb] in ET; [|injection ET as <-; congruence].
  assert (INS := subset_inside items (p_cell p) (fun c Hc => RC c (IL c Hc)) (tiled_rect p HT) SI).
  destruct (get_boundary w items) as [v_bi|] eqn:EB; [|discriminate]. destruct (length v_bi <? 4)%nat; [discriminate|].
  destruct (Classical_Prop.classic (exists it x y, List.In it items /\ inb [x; y] (c_box it) /\ f x y = (0, 0))) as [|NZ]; auto.
  exfalso. apply HZ. refine (degree_zero w p F f items OK HT HL IL NDi _ _ _ _ _ INS d _ _ v_bi EB ET).
  - intros it c Hit Hc T. destruct (MV c Hc) as [M|M]; [left|right; rewrite M; auto].
    apply (HK items it c Hi Hit). apply link_step with it; auto. constructor. auto.
  - intros it Hit. destruct (HV it (IL it Hit)) as [K|[K|K]]; try (rewrite K; reflexivity). exfalso. destruct (IM it Hit) as [_ M]. rewrite K in M. apply M. reflexivity.
  - intros it c Hit Hc M ED. destruct (HV it (IL it Hit)) as [K|[K|K]]; try (rewrite K; reflexivity); exfalso.
    + apply (HA it c); auto. apply edge_touch; auto.
    + destruct (IM it Hit) as [_ M']. rewrite K in M'. apply M'. reflexivity.
  - intros n x y Hn M I. apply (HO n Hn (MO n M Hn)). apply rect_pt; auto.
  - intros n Hn M. apply (HO n Hn (MO n M Hn)).
  - intros it x y Hit I. apply HC. apply rect_pt; [apply (tiled_rect p HT)|]. specialize (INS it Hit). unfold inside in INS. unfold inrect in *. lra.
  - intros it x y Hit I. destruct (Req_dec (fst (f x y)) 0) as [Z1|]; auto. destruct (Req_dec (snd (f x y)) 0) as [Z2|]; auto.
    exfalso. apply NZ. exists it, x, y. refine (conj Hit (conj _ _)); [apply rect_pt; auto|]. destruct (f x y); cbn in *; subst; auto.
Qed.
(** the number of zeros that is returned is then not positive without a zero *)
Theorem C100_number_partial : forall w p (f : field2) F nonsing fuel fl res items k,
  paving_ok p -> tiled p -> lookup (c_addr (p_cell p)) w = Some p -> valued p -> in_out_apart p -> proves_out f F p ->
  (forall x y, inb [x; y] (c_box (p_cell p)) -> fcont f x y) ->
  (length (leaves p) <= fuel)%nat -> get_connected_subsets w p (N.lor V_UNKNOWN V_IN) fuel fl = Some res -> List.In items res ->
  zeros_number w F nonsing items = Some k -> (0 < k)%Z ->
  exists it x y, List.In it items /\ inb [x; y] (c_box it) /\ f x y = (0, 0).
Proof.
  intros w p f F ns fuel fl res items k OK HT HL HV HA HO HC Fu HR Hi HN Hk.
  apply (C100_partial w p f F fuel fl res items); auto. unfold zeros_number in HN. unfold zero_proven.
  destruct (topological_degree w F items) as [d|]; [|discriminate]. cbn. f_equal. apply negb_true_iff. apply Z.eqb_neq. intros ->.
  injection HN as <-. destruct ns; cbn in Hk; lia.
Qed.
