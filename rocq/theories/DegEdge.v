(** * Boxes, edges and signs used by the topological degree (C100) *)
From Coq Require Import Reals Lra Lia Bool List Arith NArith ZArith Permutation.
Import ListNotations.
From Verif Require Import Itv Concrete PropsDyn2 Static PropsStatic Sivia PropsSivia Paving PropsPaving PolarE DegTurn Degree DegTile.
Open Scope R_scope.

(** ** Boxes *)
Definition B2 (a b c d : R) : box := [I2 a b; I2 c d].
Lemma B2_inter a b c d a' b' c' d' : Rmax a a' <= Rmin b b' -> Rmax c c' <= Rmin d d' ->
  b_inter (B2 a b c d) (B2 a' b' c' d') = B2 (Rmax a a') (Rmin b b') (Rmax c c') (Rmin d d').
Proof. intros H1 H2. unfold b_inter, B2. cbn [b_is_empty is_empty I2 map2]. fold (I2 a b) (I2 c d) (I2 a' b') (I2 c' d'). rewrite !inter_I by auto. reflexivity. Qed.
Lemma B2_inter_emp a b c d a' b' c' d' : Rmin b b' < Rmax a a' \/ Rmin d d' < Rmax c c' ->
  b_is_empty (b_inter (B2 a b c d) (B2 a' b' c' d')) = true.
Proof.
  intros H. unfold b_inter, B2. cbn [b_is_empty is_empty I2 map2]. fold (I2 a b) (I2 c d) (I2 a' b') (I2 c' d').
  destruct (Rle_dec (Rmax a a') (Rmin b b')) as [L|L].
  - rewrite inter_I by auto. rewrite inter_I_emp by (destruct H; lra). reflexivity.
  - rewrite inter_I_emp by lra. reflexivity.
Qed.
Lemma B2_point a b c d : is_point (B2 a b c d) = Reqb a b && Reqb c d.
Proof. reflexivity. Qed.
Lemma B2_in a b c d x y : inb [x; y] (B2 a b c d) <-> a <= x <= b /\ c <= y <= d.
Proof.
  split.
  - intros H. inversion H as [|? ? ? ? H1 H2]; subst. inversion H2 as [|? ? ? ? H3 H4]; subst. cbn in H1, H3. lra.
  - intros [H1 H2]. constructor; [cbn; lra|]. constructor; [cbn; lra|]. constructor.
Qed.
Lemma rect_box c : rectangular c -> c_box c = B2 (X0 c) (X1 c) (Y0 c) (Y1 c).
Proof. intros [H _]. exact H. Qed.
Lemma b_meet_pt a b c d x y : a <= b -> c <= d -> b_intersects (B2 a b c d) (B2 x x y y) = true <-> a <= x <= b /\ c <= y <= d.
Proof.
  intros H1 H2. unfold b_intersects, B2. cbn [b_is_empty is_empty I2 combine forallb fst snd orb]. fold (I2 a b) (I2 c d) (I2 x x) (I2 y y).
  rewrite andb_true_r, andb_true_iff, !negb_true_iff. split.
  - intros [A B]. split.
    + destruct (Rle_dec (Rmax a x) (Rmin b x)); [mmax; lra|]. rewrite inter_I_emp in A by lra. discriminate.
    + destruct (Rle_dec (Rmax c y) (Rmin d y)); [mmax; lra|]. rewrite inter_I_emp in B by lra. discriminate.
  - intros [A B]. rewrite !inter_I by (mmax; lra). auto.
Qed.

(** the box of the subset *)
Lemma hull_I a b c d : hull (I2 a b) (I2 c d) = I2 (Rmin a c) (Rmax b d).
Proof. reflexivity. Qed.
Lemma fold_hull items : (forall c, List.In c items -> rectangular c) -> forall a b c d, exists a' b' c' d',
  fold_left (fun x e => b_hull x (c_box e)) items (B2 a b c d) = B2 a' b' c' d' /\ a' <= a /\ b <= b' /\ c' <= c /\ d <= d' /\
  forall e, List.In e items -> a' <= X0 e /\ X1 e <= b' /\ c' <= Y0 e /\ Y1 e <= d'.
Proof.
  induction items as [|e items IH]; intros HR a b c d.
  - exists a, b, c, d. cbn. refine (conj eq_refl _). do 4 (split; [lra|]). intros e [].
  - cbn [fold_left]. rewrite (rect_box e) by (apply HR; left; auto).
    change (b_hull (B2 a b c d) (B2 (X0 e) (X1 e) (Y0 e) (Y1 e))) with (B2 (Rmin a (X0 e)) (Rmax b (X1 e)) (Rmin c (Y0 e)) (Rmax d (Y1 e))).
    destruct (IH (fun c Hc => HR c (or_intror Hc)) (Rmin a (X0 e)) (Rmax b (X1 e)) (Rmin c (Y0 e)) (Rmax d (Y1 e))) as (a' & b' & c' & d' & E & L1 & L2 & L3 & L4 & H).
    exists a', b', c', d'. refine (conj E _).
    pose proof (Rmin_l a (X0 e)). pose proof (Rmin_r a (X0 e)). pose proof (Rmax_l b (X1 e)). pose proof (Rmax_r b (X1 e)).
    pose proof (Rmin_l c (Y0 e)). pose proof (Rmin_r c (Y0 e)). pose proof (Rmax_l d (Y1 e)). pose proof (Rmax_r d (Y1 e)).
    do 4 (split; [lra|]). intros g [<-|Hg]; [lra|auto].
Qed.
Lemma subset_inside items r : (forall c, List.In c items -> rectangular c) -> rectangular r -> strictly_included (subset_box items) (c_box r) = true ->
  forall e, List.In e items -> inside e r.
Proof.
  intros HR Rr S e He. rewrite (rect_box r Rr) in S. destruct items as [|i items]; [destruct He|].
  unfold subset_box in S. cbn [fold_left] in S. rewrite (rect_box i) in S by (apply HR; left; auto).
  change (b_hull [Emp; Emp] (B2 (X0 i) (X1 i) (Y0 i) (Y1 i))) with (B2 (X0 i) (X1 i) (Y0 i) (Y1 i)) in S.
  destruct (fold_hull items (fun c Hc => HR c (or_intror Hc)) (X0 i) (X1 i) (Y0 i) (Y1 i)) as (a' & b' & c' & d' & E & L1 & L2 & L3 & L4 & H).
  rewrite E in S. unfold strictly_included, B2, I2 in S. cbn in S. rewrite andb_true_r, !andb_true_iff, !Rltb_true in S. unfold inside.
  destruct He as [<-|He]; [lra|]. specialize (H e He). lra.
Qed.

(** ** Intersections with the leaves *)
Lemma touch_coords a b : rectangular a -> rectangular b -> touch a b <-> ex0 a b <= ex1 a b /\ ey0 a b <= ey1 a b.
Proof.
  intros Ra Rb. unfold touch. rewrite (rect_box a), (rect_box b) by auto. unfold ex0, ex1, ey0, ey1. destruct Ra as (_ & A1 & A2), Rb as (_ & B1 & B2'). split.
  - intros (q & Q1 & Q2). inversion Q1 as [|x ? q' ? H1 H2]; subst. inversion H2 as [|y ? q'' ? H3 H4]; subst. inversion H4; subst.
    apply B2_in in Q1. apply B2_in in Q2. mmax; lra.
  - intros [H1 H2]. exists [Rmax (X0 a) (X0 b); Rmax (Y0 a) (Y0 b)]. rewrite !B2_in. mmax; lra.
Qed.
Definition ebox (e : cell * cell) : box := B2 (ex0 (fst e) (snd e)) (ex1 (fst e) (snd e)) (ey0 (fst e) (snd e)) (ey1 (fst e) (snd e)).
Lemma inter_ebox a b : rectangular a -> rectangular b -> touch a b -> b_inter (c_box a) (c_box b) = ebox (a, b).
Proof. intros Ra Rb T. apply touch_coords in T; auto. rewrite (rect_box a), (rect_box b) by auto. apply B2_inter; apply T. Qed.
Lemma edge_le a b : edge a b -> ex0 a b <= ex1 a b /\ ey0 a b <= ey1 a b.
Proof. unfold edge. lra. Qed.
Lemma edge_touch a b : rectangular a -> rectangular b -> edge a b -> touch a b.
Proof. intros Ra Rb E. apply touch_coords; auto. apply edge_le; auto. Qed.
Lemma edge_point a b : rectangular a -> rectangular b -> apart a b -> touch a b -> is_point (ebox (a, b)) = false <-> edge a b.
Proof.
  intros Ra Rb D T. apply touch_coords in T; auto. unfold ebox. rewrite B2_point. cbn [fst snd]. rewrite andb_false_iff, !Reqb_false.
  assert (ex0 a b = ex1 a b \/ ey0 a b = ey1 a b). { destruct Ra as (_ & A1 & A2), Rb as (_ & B1 & B2'). unfold ex0, ex1, ey0, ey1 in *. unfold apart in D. mmax; lra. }
  unfold edge. split; intros G; lra.
Qed.
(** the leaves found by get_pavings_intersecting *)
Lemma nd_in b c d x : rectangular c -> rectangular d -> X0 d <= X0 c -> X1 c <= X1 d -> Y0 d <= Y0 c -> Y1 c <= Y1 d ->
  x = B2 (lbR (comp 0 x)) (ubR (comp 0 x)) (lbR (comp 1 x)) (ubR (comp 1 x)) ->
  b = b_inter x (c_box c) -> b_is_empty b = false -> is_point b = false ->
  b_is_empty (b_inter x (c_box d)) = false /\ is_point (b_inter x (c_box d)) = false.
Proof.
  intros Rc Rd H1 H2 H3 H4 Ex -> Hb Hp. rewrite Ex in *. rewrite (rect_box c Rc), (rect_box d Rd) in *. clear Ex.
  set (a0 := lbR (comp 0 x)) in *. set (a1 := ubR (comp 0 x)) in *. set (b0 := lbR (comp 1 x)) in *. set (b1 := ubR (comp 1 x)) in *. clearbody a0 a1 b0 b1. clear x.
  destruct (Rle_dec (Rmax a0 (X0 c)) (Rmin a1 (X1 c))) as [L1|L1]; [|rewrite B2_inter_emp in Hb by (left; lra); discriminate].
  destruct (Rle_dec (Rmax b0 (Y0 c)) (Rmin b1 (Y1 c))) as [L2|L2]; [|rewrite B2_inter_emp in Hb by (right; lra); discriminate].
  assert (Rmax a0 (X0 d) <= Rmax a0 (X0 c)) by (mmax; lra). assert (Rmin a1 (X1 c) <= Rmin a1 (X1 d)) by (mmax; lra).
  assert (Rmax b0 (Y0 d) <= Rmax b0 (Y0 c)) by (mmax; lra). assert (Rmin b1 (Y1 c) <= Rmin b1 (Y1 d)) by (mmax; lra).
  rewrite B2_inter in Hp by auto. rewrite B2_point in Hp. rewrite B2_inter by lra. split; [reflexivity|]. rewrite B2_point.
  apply andb_false_iff in Hp. apply andb_false_iff. rewrite !Reqb_false in *. lra.
Qed.
Lemma nd_leaf x : x = B2 (lbR (comp 0 x)) (ubR (comp 0 x)) (lbR (comp 1 x)) (ubR (comp 1 x)) -> forall p, tiled p -> forall c, List.In c (leaves p) ->
  meets (c_val c) V_OUT = true -> b_is_empty (b_inter x (c_box c)) = false -> is_point (b_inter x (c_box c)) = false ->
  List.In c (intersecting_nd V_OUT x p).
Proof.
  intros Ex. induction p as [d|d p1 IH1 p2 IH2]; intros T c Hc M Hb Hp.
  - destruct Hc as [<-|[]]. cbn [intersecting_nd p_cell]. rewrite Hb, Hp, M. left. auto.
  - destruct (tiled_leaf _ T c Hc) as (Rc & L1 & L2 & L3 & L4). assert (Rd := tiled_rect _ T). cbn [p_cell] in *.
    destruct (nd_in _ c d x Rc Rd L1 L2 L3 L4 Ex eq_refl Hb Hp) as [H1 H2]. cbn [intersecting_nd p_cell]. rewrite H1, H2. cbn [orb].
    destruct T as (_ & T1 & T2 & _). cbn [leaves] in Hc. apply in_app_or in Hc. apply in_or_app. destruct Hc as [Hc|Hc]; [left; apply IH1|right; apply IH2]; auto.
Qed.
Lemma ebox_form e : ebox e = B2 (lbR (comp 0 (ebox e))) (ubR (comp 0 (ebox e))) (lbR (comp 1 (ebox e))) (ubR (comp 1 (ebox e))).
Proof. reflexivity. Qed.
(** the two ends of an edge are in both leaves *)
Lemma ebox_bounds a b : X0 a <= ex0 a b /\ X0 b <= ex0 a b /\ ex1 a b <= X1 a /\ ex1 a b <= X1 b /\ Y0 a <= ey0 a b /\ Y0 b <= ey0 a b /\ ey1 a b <= Y1 a /\ ey1 a b <= Y1 b.
Proof. unfold ex0, ex1, ey0, ey1. mmax; lra. Qed.

(** ** Signs *)
Lemma sign_pos i x : sign_of i = 1%Z -> In x i -> 0 < x.
Proof.
  unfold sign_of. destruct (contains i 0); [discriminate|]. destruct i as [|[l|] h]; try discriminate. destruct (Rltb 0 l) eqn:E; [|discriminate].
  apply Rltb_true in E. cbn. intros _ H. destruct h; lra.
Qed.
Lemma sign_neg i x : sign_of i = (-1)%Z -> In x i -> x < 0.
Proof.
  unfold sign_of. destruct (contains i 0) eqn:C; [discriminate|]. apply contains_false in C.
  destruct i as [|[l|] h]; [intros _ []| |].
  - destruct (Rltb 0 l) eqn:E; [discriminate|]. apply Rltb_false in E. intros _ H. destruct h as [h|]; cbn in H; [|exfalso; apply C; cbn; split; [exact E|exact Logic.I]]. apply Rnot_le_lt. intros N. apply C. cbn. lra.
  - intros _ H. destruct h as [h|]; cbn in H; [|exfalso; apply C; cbn; auto]. apply Rnot_le_lt. intros N. apply C. cbn. split; [auto|lra].
Qed.
Lemma sign_zero i : sign_of i = 0%Z -> In 0 i.
Proof.
  unfold sign_of. destruct (contains i 0) eqn:C; [intros _; apply contains_true; auto|]. destruct i as [|[l|] h]; try discriminate. destruct (Rltb 0 l); discriminate.
Qed.
Lemma sign_cases i : sign_of i = 1%Z \/ sign_of i = 0%Z \/ sign_of i = (-1)%Z.
Proof. unfold sign_of. destruct (contains i 0); auto. destruct i as [|[l|] h]; auto. destruct (Rltb 0 l); auto. Qed.
(** merging the signs of two faces *)
Lemma merge_two a b a' b' s0 : merge_signs [0; 0]%Z [a; b] = Some s0 -> s0 = [a; b] /\ (forall s, merge_signs [a; b] [a'; b'] = Some s ->
  exists u v, s = [u; v] /\ (u = 1%Z <-> a = 1%Z \/ a' = 1%Z) /\ (v = 1%Z <-> b = 1%Z \/ b' = 1%Z)).
Proof.
  cbn. intros H. split.
  - destruct (Z.eqb_spec b 0), (Z.eqb_spec a 0); subst; cbn in H; injection H; intros; subst; auto.
  - intros s. cbn.
    destruct (Z.eqb_spec b' 0); [|destruct (Z.eqb_spec b 0), (Z.eqb_spec b b'); cbn]; try discriminate;
      (destruct (Z.eqb_spec a' 0); [|destruct (Z.eqb_spec a 0), (Z.eqb_spec a a'); cbn]; try discriminate);
      intros E; injection E; intros <-; subst; eexists; eexists; (split; [reflexivity|]); split; lia.
Qed.

(** ** The two ends of an edge *)
Definition sgn (e : cell * cell) : R := if fwd_dec (fst e) (snd e) then 1 else -1.
Definition lo (e : cell * cell) : R * R := (ex0 (fst e) (snd e), ey0 (fst e) (snd e)).
Definition hi (e : cell * cell) : R * R := (ex1 (fst e) (snd e), ey1 (fst e) (snd e)).
Definition touches (e : cell * cell) (v : R * R) : Prop :=
  ex0 (fst e) (snd e) <= fst v <= ex1 (fst e) (snd e) /\ ey0 (fst e) (snd e) <= snd v <= ey1 (fst e) (snd e).
Definition at_pt (u v : R * R) : R := if Req_EM_T (fst u) (fst v) then if Req_EM_T (snd u) (snd v) then 1 else 0 else 0.
(** 1 when [v] is the last end of the edge, -1 when it is the first one *)
Definition eps (e : cell * cell) (v : R * R) : R := sgn e * (at_pt (hi e) v - at_pt (lo e) v).
Lemma kap_sgn G e : rectangular (fst e) -> rectangular (snd e) -> edge (fst e) (snd e) ->
  kap G (fst e) (snd e) = sgn e * (G (fst (hi e)) (snd (hi e)) - G (fst (lo e)) (snd (lo e))).
Proof.
  intros Ra Rb E. apply kap_edge; auto. assert (S := edge_side _ _ Ra Rb E). unfold apart. destruct S; lra.
Qed.
Lemma ex_sym a b : ex0 a b = ex0 b a /\ ex1 a b = ex1 b a /\ ey0 a b = ey0 b a /\ ey1 a b = ey1 b a.
Proof. unfold ex0, ex1, ey0, ey1. rewrite (Rmax_comm (X0 b)), (Rmax_comm (Y0 b)), (Rmin_comm (X1 b)), (Rmin_comm (Y1 b)). auto. Qed.
Lemma sgn_opp a b : rectangular a -> rectangular b -> edge a b -> sgn (b, a) = - sgn (a, b).
Proof.
  intros Ra Rb E. assert (S := edge_side a b Ra Rb E). destruct (ex_sym a b) as (E0 & E1 & E2 & E3). destruct Ra as (_ & A1 & A2), Rb as (_ & B1 & B2').
  unfold sgn. cbn [fst snd]. destruct (fwd_dec b a) as [f|f], (fwd_dec a b) as [g|g]; try lra; exfalso.
  - unfold fwd in f, g. rewrite <- E0, <- E1, <- E2, <- E3 in f. unfold edge in E. destruct S; lra.
  - unfold fwd in f, g. rewrite <- E0, <- E1, <- E2, <- E3 in f. unfold edge in E. destruct S as [a b S L|a b S L|a b S L|a b S L].
    + apply g. left. lra.
    + apply f. left. lra.
    + apply f. right. lra.
    + apply g. right. lra.
Qed.
Lemma kap_anti G a b : rectangular a -> rectangular b -> edge a b -> kap G a b = - kap G b a.
Proof.
  intros Ra Rb E. assert (K1 := kap_sgn G (a, b) Ra Rb E). assert (K2 := kap_sgn G (b, a) Rb Ra (edge_sym _ _ E)). cbn [fst snd] in K1, K2. rewrite K1, K2, (sgn_opp a b Ra Rb E).
  unfold hi, lo. cbn [fst snd]. destruct (ex_sym a b) as (E0 & E1 & E2 & E3). rewrite E0, E1, E2, E3. lra.
Qed.
Lemma seg_edge a b x y : edge a b -> seg (ex0 a b) (ey0 a b) (ex1 a b) (ey1 a b) x y ->
  inrect (X0 a) (X1 a) (Y0 a) (Y1 a) x y /\ inrect (X0 b) (X1 b) (Y0 b) (Y1 b) x y.
Proof. intros E S. pose proof (ebox_bounds a b). unfold edge in E. unfold seg in S. unfold inrect. lra. Qed.
Lemma lo_touch e : edge (fst e) (snd e) -> touches e (lo e).
Proof. unfold edge, touches, lo. cbn [fst snd]. lra. Qed.
Lemma hi_touch e : edge (fst e) (snd e) -> touches e (hi e).
Proof. unfold edge, touches, hi. cbn [fst snd]. lra. Qed.
Lemma at_pt_1 u v : at_pt u v <> 0 -> u = v.
Proof. unfold at_pt. destruct (Req_EM_T (fst u) (fst v)), (Req_EM_T (snd u) (snd v)); try lra. intros _. destruct u, v; cbn in *; congruence. Qed.
Lemma at_pt_refl u : at_pt u u = 1.
Proof. unfold at_pt. destruct (Req_EM_T (fst u) (fst u)), (Req_EM_T (snd u) (snd u)); congruence. Qed.
Lemma eps_end e v : eps e v <> 0 -> v = lo e \/ v = hi e.
Proof.
  unfold eps. intros H. destruct (Req_EM_T (at_pt (hi e) v) 0) as [E|E]; [|right; symmetry; apply at_pt_1; auto].
  destruct (Req_EM_T (at_pt (lo e) v) 0) as [E'|E']; [|left; symmetry; apply at_pt_1; auto]. rewrite E, E' in H. lra.
Qed.
(** two edges along the same leaf of value OUT, that share a vertex *)
Inductive norm (a n : cell) : Prop :=
| n_right : X1 a = X0 n -> ex0 a n = X0 n -> ex1 a n = X0 n -> ey0 a n < ey1 a n -> sgn (a, n) = 1 -> norm a n
| n_left : X0 a = X1 n -> ex0 a n = X1 n -> ex1 a n = X1 n -> ey0 a n < ey1 a n -> sgn (a, n) = -1 -> norm a n
| n_top : Y1 a = Y0 n -> ey0 a n = Y0 n -> ey1 a n = Y0 n -> ex0 a n < ex1 a n -> sgn (a, n) = -1 -> norm a n
| n_bottom : Y0 a = Y1 n -> ey0 a n = Y1 n -> ey1 a n = Y1 n -> ex0 a n < ex1 a n -> sgn (a, n) = 1 -> norm a n.
Lemma edge_norm a n : rectangular a -> rectangular n -> edge a n -> norm a n.
Proof.
  intros Ra Rn E. assert (S := edge_side a n Ra Rn E). destruct Ra as (_ & A1 & A2), Rn as (_ & N1 & N2).
  destruct S as [a n S L|a n S L|a n S L|a n S L].
  - assert (ex0 a n = X0 n) as E0 by (unfold ex0; mmax; lra). assert (ex1 a n = X0 n) as E1 by (unfold ex1; mmax; lra).
    apply n_right; auto. unfold sgn. cbn [fst snd]. destruct (fwd_dec a n) as [|g]; auto. exfalso. apply g. left. lra.
  - assert (ex0 a n = X1 n) as E0 by (unfold ex0; mmax; lra). assert (ex1 a n = X1 n) as E1 by (unfold ex1; mmax; lra).
    apply n_left; auto. unfold sgn. cbn [fst snd]. destruct (fwd_dec a n) as [g|]; auto. exfalso. unfold fwd in g. lra.
  - assert (ey0 a n = Y0 n) as E0 by (unfold ey0; mmax; lra). assert (ey1 a n = Y0 n) as E1 by (unfold ey1; mmax; lra).
    apply n_top; auto. unfold sgn. cbn [fst snd]. destruct (fwd_dec a n) as [g|]; auto. exfalso. unfold fwd in g. lra.
  - assert (ey0 a n = Y1 n) as E0 by (unfold ey0; mmax; lra). assert (ey1 a n = Y1 n) as E1 by (unfold ey1; mmax; lra).
    apply n_bottom; auto. unfold sgn. cbn [fst snd]. destruct (fwd_dec a n) as [|g]; auto. exfalso. apply g. right. lra.
Qed.
Lemma eps_pair a b n v : rectangular a -> rectangular b -> rectangular n -> apart a b -> edge a n -> edge b n ->
  touches (a, n) v -> touches (b, n) v -> eps (a, n) v + eps (b, n) v = 0.
Proof.
  intros Ra Rb Rn D Ea Eb Ta Tb. assert (Sa := edge_norm a n Ra Rn Ea). assert (Sb := edge_norm b n Rb Rn Eb).
  destruct Ra as (_ & A1 & A2), Rb as (_ & B1 & B2'), Rn as (_ & N1 & N2). destruct v as [vx vy].
  pose proof (ebox_bounds a n) as Ba. pose proof (ebox_bounds b n) as Bb. clear Ea Eb.
  unfold touches in Ta, Tb. cbn [fst snd] in Ta, Tb.
  destruct Sa as [S1 S2 S3 S4 S5|S1 S2 S3 S4 S5|S1 S2 S3 S4 S5|S1 S2 S3 S4 S5], Sb as [S1' S2' S3' S4' S5'|S1' S2' S3' S4' S5'|S1' S2' S3' S4' S5'|S1' S2' S3' S4' S5'];
    try (exfalso; lra); unfold eps; rewrite S5, S5'; unfold at_pt, hi, lo; cbn [fst snd]; clear S5 S5'; unfold apart in D;
    try (assert (ey1 a n <= ey0 b n \/ ey1 b n <= ey0 a n) by lra);
    try (assert (ex1 a n <= ex0 b n \/ ex1 b n <= ex0 a n) by lra);
    repeat match goal with |- context [Req_EM_T ?x ?y] => destruct (Req_EM_T x y) end; lra.
Qed.

