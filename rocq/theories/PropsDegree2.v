(** * C100: concrete pavings; a zero "proven" for a function that has none when a leaf IN touches a leaf OUT *)
From Coq Require Import Reals Lra Lia Bool List Arith NArith ZArith Permutation.
Import ListNotations.
From Verif Require Import Itv Arith Concrete PropsDyn2 Static PropsStatic Sivia PropsSivia Paving PropsPaving PolarE DegTurn Degree DegTile DegEdge PropsDegree.
Open Scope R_scope.

(** ** Evaluation *)
Lemma int_t a b c d a' b' c' d' : a <= b' -> a' <= b -> c <= d' -> c' <= d -> a <= b -> a' <= b' -> c <= d -> c' <= d' ->
  b_intersects (B2 a b c d) (B2 a' b' c' d') = true.
Proof.
  intros. unfold b_intersects, B2. cbn [b_is_empty is_empty I2 combine forallb fst snd orb]. fold (I2 a b) (I2 c d) (I2 a' b') (I2 c' d').
  rewrite !inter_I by (mmax; lra). reflexivity.
Qed.
Lemma int_f a b c d a' b' c' d' : b' < a \/ b < a' \/ d' < c \/ d < c' -> a <= b -> a' <= b' -> c <= d -> c' <= d' ->
  b_intersects (B2 a b c d) (B2 a' b' c' d') = false.
Proof.
  intros H ? ? ? ?. unfold b_intersects, B2. cbn [b_is_empty is_empty I2 combine forallb fst snd orb]. fold (I2 a b) (I2 c d) (I2 a' b') (I2 c' d').
  rewrite andb_true_r, andb_false_iff, !negb_false_iff. destruct (Rle_dec (Rmax a a') (Rmin b b')); [right|left]; rewrite inter_I_emp; auto; mmax; lra.
Qed.
Lemma B2_ne a b c d : b_is_empty (B2 a b c d) = false. Proof. reflexivity. Qed.
Lemma lt_or4 a b c d a' b' c' d' : b < a' \/ b' < a \/ d < c' \/ d' < c -> Rmin b b' < Rmax a a' \/ Rmin d d' < Rmax c c'.
Proof. intros H. mmax; lra. Qed.
Ltac lor := first [left; lra | right; lor | lra].
Ltac bi := match goal with
  | |- context [b_is_empty (b_inter (B2 ?a ?b ?c ?d) (B2 ?a' ?b' ?c' ?d'))] =>
      rewrite (B2_inter_emp a b c d a' b' c' d') by (apply lt_or4; lor)
  | |- context [b_inter (B2 ?a ?b ?c ?d) (B2 ?a' ?b' ?c' ?d')] =>
      rewrite (B2_inter a b c d a' b' c' d') by (repeat rstep; lra); repeat rstep
  | |- context [b_intersects (B2 ?a ?b ?c ?d) (B2 ?a' ?b' ?c' ?d')] =>
      first [rewrite (int_t a b c d a' b' c' d') by lra | rewrite (int_f a b c d a' b' c' d') by (try lor; lra)]
  | |- context [is_point (B2 ?a ?b ?c ?d)] => rewrite (B2_point a b c d); repeat rstep; cbn [andb]
  end.
Ltac go := repeat (progress (try bi; rewrite ?B2_ne; cbn [andb orb negb app filter map length Nat.eqb])).

(** ** A proven zero *)
(** the square [0,6]x[0,6], its middle [2,4]x[2,4] is UNKNOWN, the four other leaves are OUT *)
Definition e_l : cell := mkC 1 (B2 0 2 0 6) V_OUT 0.
Definition e_r : cell := mkC 4 (B2 4 6 0 6) V_OUT 0.
Definition e_b : cell := mkC 5 (B2 2 4 0 2) V_OUT 0.
Definition e_m : cell := mkC 7 (B2 2 4 2 4) V_UNKNOWN 0.
Definition e_t : cell := mkC 8 (B2 2 4 4 6) V_OUT 0.
Definition e_p : pav :=
  Node (mkC 0 (B2 0 6 0 6) V_UNKNOWN 0) (Leaf e_l)
   (Node (mkC 2 (B2 2 6 0 6) V_UNKNOWN 0)
     (Node (mkC 3 (B2 2 4 0 6) V_UNKNOWN 0) (Leaf e_b) (Node (mkC 6 (B2 2 4 2 6) V_UNKNOWN 0) (Leaf e_m) (Leaf e_t)))
     (Leaf e_r)).
Lemma mOO : meets V_OUT V_OUT = true. Proof. reflexivity. Qed.
Lemma mUO : meets V_UNKNOWN V_OUT = false. Proof. reflexivity. Qed.
Lemma mIO : meets V_IN V_OUT = false. Proof. reflexivity. Qed.
Ltac cells := cbn [e_l e_b e_m e_t e_r c_val c_addr c_box p_cell]; rewrite ?mOO, ?mUO, ?mIO.
Lemma e_boundary : get_boundary [e_p] [e_m] = Some [B2 2 2 2 4; B2 2 4 2 2; B2 2 4 4 4; B2 4 4 2 4].
Proof.
  cbn [get_boundary]. unfold get_neighbours. cbn [e_m c_val meets c_root lookup e_p find_in p_cell c_addr Nat.eqb c_box length B2].
  fold (B2 2 4 2 4). change (length (B2 2 4 2 4)) with 2%nat.
  change (meets V_UNKNOWN V_UNKNOWN) with true. cbn [Nat.eqb]. fold e_m.
  cbn [intersecting p_cell c_box e_l e_b e_m e_t e_r c_val c_addr]. go. cells. go.
  unfold item_edges. cells. go. cells. go. reflexivity.
Qed.
(** f(x,y) = (x-3, y-3) and its natural extension *)
Definition e_f : field2 := fun x y => (x - 3, y - 3).
Definition e_F (b : box) : box := match b with [Itv (Some a) (Some b); Itv (Some c) (Some d)] => B2 (a - 3) (b - 3) (c - 3) (d - 3) | _ => [ALL; ALL] end.
Lemma sg_p a b : 0 < a -> sign_of (I2 a b) = 1%Z.
Proof. intros H. unfold sign_of, I2. cbn. reval. reflexivity. Qed.
Lemma sg_n a b : a <= 0 -> b < 0 -> sign_of (I2 a b) = (-1)%Z.
Proof. intros H K. unfold sign_of, I2. cbn. reval. reflexivity. Qed.
Lemma sg_0 a b : a <= 0 <= b -> sign_of (I2 a b) = 0%Z.
Proof. intros H. unfold sign_of, I2. cbn. reval. reflexivity. Qed.
Ltac sgn1 := match goal with |- context [sign_of (I2 ?a ?b)] =>
  first [rewrite (sg_p a b) by lra | rewrite (sg_n a b) by lra | rewrite (sg_0 a b) by lra] end.
Lemma e_c1 : edge_cofaces e_p (B2 2 2 2 4) = Some [B2 0 2 0 6].
Proof. unfold edge_cofaces. cbn [intersecting_nd e_p]. cbv zeta. cells. go. reflexivity. Qed.
Lemma e_c2 : edge_cofaces e_p (B2 2 4 2 2) = Some [B2 2 4 0 2].
Proof. unfold edge_cofaces. cbn [intersecting_nd e_p]. cbv zeta. cells. go. reflexivity. Qed.
Lemma e_c3 : edge_cofaces e_p (B2 2 4 4 4) = Some [B2 2 4 4 6].
Proof. unfold edge_cofaces. cbn [intersecting_nd e_p]. cbv zeta. cells. go. reflexivity. Qed.
Lemma e_c4 : edge_cofaces e_p (B2 4 4 2 4) = Some [B2 4 6 0 6].
Proof. unfold edge_cofaces. cbn [intersecting_nd e_p]. cbv zeta. cells. go. reflexivity. Qed.
Lemma B2_dim a b c d : box_dimension (B2 a b c d) = ((if Reqb a b then 0 else 1) + (if Reqb c d then 0 else 1))%nat.
Proof. unfold box_dimension, B2, I2. cbn. destruct (Reqb a b), (Reqb c d); reflexivity. Qed.
Lemma faces_x a b c : Reqb a b = false -> face_l (B2 a b c c) = B2 a a c c /\ face_u (B2 a b c c) = B2 b b c c.
Proof. intros H. unfold face_l, face_u, B2, I2. cbn. rewrite H, Reqb_t by auto. auto. Qed.
Lemma faces_y a c d : Reqb c d = false -> face_l (B2 a a c d) = B2 a a c c /\ face_u (B2 a a c d) = B2 a a d d.
Proof. intros H. unfold face_l, face_u, B2, I2. cbn. rewrite H, Reqb_t by auto. auto. Qed.
Lemma sign1_val F p b a a' c c' r : edge_cofaces p b = Some [B2 a a' c c'] -> Reqb a a' = false -> Reqb c c' = false -> sign2 F (B2 a a' c c') = r ->
  length r = 2%nat -> sign1 F p b = Some r.
Proof.
  intros H H1 H2 H3 H4. unfold sign1. rewrite H. cbn [merge_cofaces]. rewrite B2_dim, H1, H2. cbn [Nat.eqb Nat.add]. rewrite H3.
  destruct r as [|u [|v [|? ?]]]; try discriminate. cbn. destruct u, v; reflexivity.
Qed.
Lemma sign2_B F b a a' c c' : F b = B2 a a' c c' -> sign2 F b = [sign_of (I2 a a'); sign_of (I2 c c')].
Proof. intros H. unfold sign2. rewrite H. reflexivity. Qed.
Ltac edge_sign c := eapply sign1_val; [exact c|apply Reqb_f; lra|apply Reqb_f; lra| |];
  [erewrite sign2_B by reflexivity; repeat sgn1; reflexivity|reflexivity].
Lemma e_s1 : sign1 e_F e_p (B2 2 2 2 4) = Some [-1; 0]%Z. Proof. edge_sign e_c1. Qed.
Lemma e_s2 : sign1 e_F e_p (B2 2 4 2 2) = Some [0; -1]%Z. Proof. edge_sign e_c2. Qed.
Lemma e_s3 : sign1 e_F e_p (B2 2 4 4 4) = Some [0; 1]%Z. Proof. edge_sign e_c3. Qed.
Lemma e_s4 : sign1 e_F e_p (B2 4 4 2 4) = Some [1; 0]%Z. Proof. edge_sign e_c4. Qed.
Definition e_bd : list box := [B2 2 2 2 4; B2 2 4 2 2; B2 2 4 4 4; B2 4 4 2 4].
Ltac vertex := unfold vertex_cofaces, along; cbn [filter]; go.
Ltac dims := repeat (rewrite B2_dim; repeat rstep; cbn [Nat.add Nat.eqb negb]).
Lemma e_v1 : vertex_degree e_F e_p e_bd (B2 4 4 2 2) (B2 4 6 0 6) = Some 0%Z.
Proof.
  unfold vertex_degree, sign0. assert (H : vertex_cofaces e_bd (B2 4 4 2 2) (B2 4 6 0 6) = Some [B2 2 4 2 2; B2 4 4 2 4]) by (unfold e_bd; vertex; reflexivity).
  rewrite H. cbn [merge_cofaces]. dims. rewrite e_s2, e_s4. reflexivity.
Qed.
Lemma e_v2 : vertex_degree e_F e_p e_bd (B2 4 4 4 4) (B2 4 6 0 6) = Some 1%Z.
Proof.
  unfold vertex_degree, sign0. assert (H : vertex_cofaces e_bd (B2 4 4 4 4) (B2 4 6 0 6) = Some [B2 2 4 4 4; B2 4 4 2 4]) by (unfold e_bd; vertex; reflexivity).
  rewrite H. cbn [merge_cofaces]. dims. rewrite e_s3, e_s4. reflexivity.
Qed.
Lemma no_degree F p v b n s : sign1 F p b = Some s -> nth 0 s 0%Z <> 1%Z -> edge_degree F p v b n = Some 0%Z.
Proof. intros H K. unfold edge_degree. rewrite H. apply Z.eqb_neq in K. rewrite K. reflexivity. Qed.
Lemma e_degree : topological_degree [e_p] e_F [e_m] = Some (-1)%Z.
Proof.
  unfold topological_degree. change (lookup (c_root e_m) [e_p]) with (Some e_p). rewrite e_boundary.
  assert (S : strictly_included (subset_box [e_m]) (c_box (p_cell e_p)) = true) by (cbn; reval; reflexivity). rewrite S. cbn [negb length Nat.ltb Nat.leb].
  fold e_bd. unfold e_bd at 2. cbn [degree_loop]. dims. rewrite e_c1, e_c2, e_c3, e_c4.
  rewrite (no_degree _ _ _ _ _ _ e_s1), (no_degree _ _ _ _ _ _ e_s2), (no_degree _ _ _ _ _ _ e_s3) by discriminate. rewrite !Z.mul_0_r.
  unfold edge_degree. rewrite e_s4. cbn [nth Z.eqb Pos.eqb negb]. destruct (faces_y 4 2 4) as [-> ->]; [apply Reqb_f; lra|]. rewrite e_v1, e_v2.
  unfold orientation. cbn. reval. reflexivity.
Qed.
Lemma e_subsets : get_connected_subsets [e_p] e_p (N.lor V_UNKNOWN V_IN) 5 (fun _ => false) = Some [[e_m]].
Proof.
  unfold get_connected_subsets. set (f := reset_flags e_p (fun _ => false)).
  assert (Hf : get_first_leaf (N.lor V_UNKNOWN V_IN) f e_p = Some e_m) by reflexivity.
  assert (HN : get_neighbours [e_p] (N.lor V_UNKNOWN V_IN) (fset 7 true f) e_m = Some []).
  { unfold get_neighbours. change (lookup (c_root e_m) [e_p]) with (Some e_p). change (length (c_box e_m)) with 2%nat. cbn [Nat.eqb].
    assert (HI : intersecting (N.lor V_UNKNOWN V_IN) (c_box e_m) e_p = [e_m]).
    { cbn [intersecting e_p]. cells. go. reflexivity. }
    rewrite HI. reflexivity. }
  cbn [subsets_loop]. rewrite Hf. cbn [subset_loop app]. change (c_addr e_m) with 7%nat. rewrite HN. cbn [fold_left app].
  assert (Hf2 : get_first_leaf (N.lor V_UNKNOWN V_IN) (fset 7 true f) e_p = None) by reflexivity.
  rewrite Hf2. reflexivity.
Qed.
Ltac rect := unfold rectangular; cbn; split; [reflexivity|lra].
Lemma e_ok : paving_ok e_p.
Proof.
  constructor.
  - cbn. repeat constructor; cbn; intuition lia.
  - cbn. intuition (subst; auto).
  - cbn [nested e_p p_cell c_box]. repeat match goal with |- _ /\ _ => split end; try exact Logic.I; (constructor; [intros v; cbn; lra|]; constructor; [intros v; cbn; lra|]; constructor).
  - cbn. intros c H. repeat (destruct H as [<-|H]; [split; [unfold B2, I2; repeat (constructor; [cbn; lra|]); constructor|reflexivity]|]). destruct H.
Qed.
Lemma e_tiled : tiled e_p.
Proof.
  cbn. repeat match goal with |- _ /\ _ => split end; try exact Logic.I; try reflexivity; try lra.
  all: rect.
Qed.
Example C100_ex : paving_ok e_p /\ tiled e_p /\ lookup (c_addr (p_cell e_p)) [e_p] = Some e_p /\ valued e_p /\ in_out_apart e_p /\ proves_out e_f e_F e_p /\
  (forall x y, inb [x; y] (c_box (p_cell e_p)) -> fcont e_f x y) /\ (length (leaves e_p) <= 5)%nat /\
  get_connected_subsets [e_p] e_p (N.lor V_UNKNOWN V_IN) 5 (fun _ => false) = Some [[e_m]] /\ zero_proven [e_p] e_F [e_m] = Some true.
Proof.
  refine (conj e_ok (conj e_tiled (conj eq_refl (conj _ (conj _ (conj _ (conj _ (conj _ (conj e_subsets _))))))))).
  - intros c H. cbn in H. repeat (destruct H as [<-|H]; [cbn; auto|]). destruct H.
  - intros a b H _ V. exfalso. cbn in H. repeat (destruct H as [<-|H]; [discriminate V|]). destruct H.
  - intros c H V. cbn [leaves e_p app] in H. repeat (destruct H as [<-|H]; [first [discriminate V|split; [intros x y I; cbn [c_box e_l e_r e_b e_m e_t] in *; apply B2_in in I; apply B2_in; cbn; lra|cbn [c_box e_l e_r e_b e_m e_t]; intros I; apply B2_in in I; lra]]|]). destruct H.
  - intros x y _. split; intros eps; exists eps; intros u v Hu Hv; cbn in *; [replace (u - 3 - (x - 3)) with (u - x) by ring|replace (v - 3 - (y - 3)) with (v - y) by ring]; auto.
  - cbn. lia.
  - unfold zero_proven. rewrite e_degree. reflexivity.
Qed.

(** ** A leaf IN next to leaves OUT *)
(** the same paving, the middle is cut in [2,3]x[2,4] (IN) and [3,4]x[2,4] (UNKNOWN), the right part is cut in two *)
Definition r_i : cell := mkC 9 (B2 2 3 2 4) V_IN 0.
Definition r_m : cell := mkC 10 (B2 3 4 2 4) V_UNKNOWN 0.
Definition r_1 : cell := mkC 11 (B2 4 6 0 3) V_OUT 0.
Definition r_2 : cell := mkC 12 (B2 4 6 3 6) V_OUT 0.
Definition r_p : pav :=
  Node (mkC 0 (B2 0 6 0 6) V_UNKNOWN 0) (Leaf e_l)
   (Node (mkC 2 (B2 2 6 0 6) V_UNKNOWN 0)
     (Node (mkC 3 (B2 2 4 0 6) V_UNKNOWN 0) (Leaf e_b)
       (Node (mkC 6 (B2 2 4 2 6) V_UNKNOWN 0) (Node (mkC 7 (B2 2 4 2 4) V_UNKNOWN 0) (Leaf r_i) (Leaf r_m)) (Leaf e_t)))
     (Node (mkC 4 (B2 4 6 0 6) V_UNKNOWN 0) (Leaf r_1) (Leaf r_2))).
(** f(x,y) = (1, y-3), which has no zero, and an enclosure of it *)
Definition r_f : field2 := fun x y => (1, y - 3).
Definition r_F (b : box) : box :=
  match b with [Itv (Some a) (Some b); Itv (Some c) (Some d)] => B2 ((a + b - 6) * (a + b - 6) / 16) 1 (c - 3) (d - 3) | _ => [ALL; ALL] end.
Ltac rcells := cbn [e_l e_b e_m e_t e_r r_i r_m r_1 r_2 c_val c_addr c_box p_cell]; rewrite ?mOO, ?mUO, ?mIO.
Lemma r_ok : paving_ok r_p.
Proof.
  constructor.
  - cbn. repeat constructor; cbn; intuition lia.
  - cbn. intuition (subst; auto).
  - cbn [nested r_p p_cell c_box]. repeat match goal with |- _ /\ _ => split end; try exact Logic.I; (constructor; [intros v; cbn; lra|]; constructor; [intros v; cbn; lra|]; constructor).
  - cbn. intros c H. repeat (destruct H as [<-|H]; [split; [unfold B2, I2; repeat (constructor; [cbn; lra|]); constructor|reflexivity]|]). destruct H.
Qed.
Lemma r_tiled : tiled r_p.
Proof.
  cbn. repeat match goal with |- _ /\ _ => split end; try exact Logic.I; try reflexivity; try lra. all: rect.
Qed.
Definition r_bd : list box := [B2 3 4 2 2; B2 3 4 4 4; B2 4 4 2 3; B2 4 4 3 4].
Lemma r_boundary : get_boundary [r_p] [r_i; r_m] = Some r_bd.
Proof.
  cbn [get_boundary]. change (meets (c_val r_i) V_UNKNOWN) with false. change (meets (c_val r_m) V_UNKNOWN) with true.
  unfold get_neighbours. change (lookup (c_root r_m) [r_p]) with (Some r_p). change (length (c_box r_m)) with 2%nat. cbn [Nat.eqb].
  assert (HI : intersecting V_OUT (c_box r_m) r_p = [e_b; e_t; r_1; r_2]).
  { cbn [intersecting r_p]. rcells. go. reflexivity. }
  rewrite HI. cbn [filter e_b e_t r_1 r_2 c_addr r_m Nat.eqb negb andb c_val]. rewrite mOO. cbn [andb].
  unfold item_edges. cbn [map]. rcells. go. reflexivity.
Qed.
Lemma r_subsets : get_connected_subsets [r_p] r_p (N.lor V_UNKNOWN V_IN) 7 (fun _ => false) = Some [[r_i; r_m]].
Proof.
  unfold get_connected_subsets. set (f := reset_flags r_p (fun _ => false)).
  assert (Hf : get_first_leaf (N.lor V_UNKNOWN V_IN) f r_p = Some r_i) by reflexivity.
  assert (HI : forall c, c = r_i \/ c = r_m -> intersecting (N.lor V_UNKNOWN V_IN) (c_box c) r_p = [r_i; r_m]).
  { intros c [-> | ->]; cbn [intersecting r_p]; rcells; go; reflexivity. }
  assert (HN : forall c g, c = r_i \/ c = r_m -> get_neighbours [r_p] (N.lor V_UNKNOWN V_IN) g c =
    Some (filter (fun d => negb (Nat.eqb (c_addr d) (c_addr c)) && meets (c_val d) (N.lor V_UNKNOWN V_IN) && negb (g (c_addr d))) [r_i; r_m])).
  { intros c g Hc. unfold get_neighbours. replace (lookup (c_root c) [r_p]) with (Some r_p) by (destruct Hc as [-> | ->]; reflexivity). rewrite (HI c Hc). destruct Hc as [-> | ->]; reflexivity. }
  cbn [subsets_loop]. rewrite Hf. cbn [subset_loop]. rewrite HN by auto.
  match goal with |- context [filter ?P [r_i; r_m]] => change (filter P [r_i; r_m]) with [r_m] end. cbn [app subset_loop fold_left]. rewrite HN by auto.
  match goal with |- context [filter ?P [r_i; r_m]] => change (filter P [r_i; r_m]) with (@nil cell) end. cbn [app fold_left].
  match goal with |- context [get_first_leaf ?v ?g r_p] => change (get_first_leaf v g r_p) with (@None cell) end. reflexivity.
Qed.
Ltac cof := unfold edge_cofaces; cbn [intersecting_nd r_p]; cbv zeta; rcells; go; reflexivity.
Lemma r_c1 : edge_cofaces r_p (B2 3 4 2 2) = Some [B2 2 4 0 2]. Proof. cof. Qed.
Lemma r_c2 : edge_cofaces r_p (B2 3 4 4 4) = Some [B2 2 4 4 6]. Proof. cof. Qed.
Lemma r_c3 : edge_cofaces r_p (B2 4 4 2 3) = Some [B2 4 6 0 3]. Proof. cof. Qed.
Lemma r_c4 : edge_cofaces r_p (B2 4 4 3 4) = Some [B2 4 6 3 6]. Proof. cof. Qed.
Lemma r_s1 : sign1 r_F r_p (B2 3 4 2 2) = Some [0; -1]%Z. Proof. edge_sign r_c1. Qed.
Lemma r_s2 : sign1 r_F r_p (B2 3 4 4 4) = Some [0; 1]%Z. Proof. edge_sign r_c2. Qed.
Lemma r_s3 : sign1 r_F r_p (B2 4 4 2 3) = Some [1; 0]%Z. Proof. edge_sign r_c3. Qed.
Lemma r_s4 : sign1 r_F r_p (B2 4 4 3 4) = Some [1; 0]%Z. Proof. edge_sign r_c4. Qed.
Ltac vdeg := unfold vertex_degree, sign0;
  match goal with |- context [vertex_cofaces r_bd ?b ?c] => let H := fresh in eassert (H : vertex_cofaces r_bd b c = Some _) by (unfold r_bd; vertex; reflexivity); rewrite H; clear H end;
  cbn [merge_cofaces]; dims; rewrite ?r_s1, ?r_s2, ?r_s3, ?r_s4; reflexivity.
Lemma r_v1 : vertex_degree r_F r_p r_bd (B2 4 4 2 2) (B2 4 6 0 3) = Some 0%Z. Proof. vdeg. Qed.
Lemma r_v2 : vertex_degree r_F r_p r_bd (B2 4 4 3 3) (B2 4 6 0 3) = Some 0%Z. Proof. vdeg. Qed.
Lemma r_v3 : vertex_degree r_F r_p r_bd (B2 4 4 3 3) (B2 4 6 3 6) = Some 0%Z. Proof. vdeg. Qed.
Lemma r_v4 : vertex_degree r_F r_p r_bd (B2 4 4 4 4) (B2 4 6 3 6) = Some 1%Z. Proof. vdeg. Qed.
Lemma r_degree : topological_degree [r_p] r_F [r_i; r_m] = Some (-1)%Z.
Proof.
  unfold topological_degree. change (lookup (c_root r_i) [r_p]) with (Some r_p). rewrite r_boundary.
  assert (S : strictly_included (subset_box [r_i; r_m]) (c_box (p_cell r_p)) = true) by (cbn; reval; reflexivity). rewrite S. cbn [negb length Nat.ltb Nat.leb r_bd].
  fold r_bd. unfold r_bd at 2. cbn [degree_loop]. dims. rewrite r_c1, r_c2, r_c3, r_c4.
  rewrite (no_degree _ _ _ _ _ _ r_s1), (no_degree _ _ _ _ _ _ r_s2) by discriminate. rewrite !Z.mul_0_r.
  unfold edge_degree. rewrite r_s3, r_s4. cbn [nth Z.eqb Pos.eqb negb].
  destruct (faces_y 4 2 3) as [-> ->]; [apply Reqb_f; lra|]. destruct (faces_y 4 3 4) as [-> ->]; [apply Reqb_f; lra|]. rewrite r_v1, r_v2, r_v3, r_v4.
  unfold orientation. cbn. reval. reflexivity.
Qed.
(** Without [in_out_apart] the conclusion is lost: the edges of an item of value IN are not in the boundary. *)
Theorem C100_refuted : exists w p (f : field2) F fuel fl res items,
  paving_ok p /\ tiled p /\ lookup (c_addr (p_cell p)) w = Some p /\ valued p /\ proves_out f F p /\
  (forall x y, fcont f x y) /\ (length (leaves p) <= fuel)%nat /\
  get_connected_subsets w p (N.lor V_UNKNOWN V_IN) fuel fl = Some res /\ List.In items res /\
  zero_proven w F items = Some true /\ zeros_number w F true items = Some 1%Z /\ forall x y, f x y <> (0, 0).
Proof.
  exists [r_p], r_p, r_f, r_F, 7%nat, (fun _ => false), [[r_i; r_m]], [r_i; r_m].
  refine (conj r_ok (conj r_tiled (conj eq_refl (conj _ (conj _ (conj _ (conj _ (conj r_subsets (conj _ (conj _ (conj _ _))))))))))).
  - intros c H. cbn in H. repeat (destruct H as [<-|H]; [cbn; auto|]). destruct H.
  - intros c H V. cbn [leaves r_p app] in H. repeat (destruct H as [<-|H]; [first [discriminate V|split; [intros x y I; cbn [c_box e_l e_r e_b e_m e_t r_i r_m r_1 r_2] in *; apply B2_in in I; apply B2_in; cbn; lra|cbn [c_box e_l e_r e_b e_m e_t r_i r_m r_1 r_2]; intros I; apply B2_in in I; lra]]|]). destruct H.
  - intros x y. split; intros eps; exists eps; intros u v Hu Hv; cbn in *; [replace (1 - 1) with 0 by ring; rewrite Rabs_R0; apply (cond_pos eps)|replace (v - 3 - (y - 3)) with (v - y) by ring; auto].
  - cbn. lia.
  - left. reflexivity.
  - unfold zero_proven. rewrite r_degree. reflexivity.
  - unfold zeros_number. rewrite r_degree. reflexivity.
  - intros x y H. injection H. lra.
Qed.
