(** * ConvexPolygon::contains on points: exact verdicts *)

From Coq Require Import Reals Lra Psatz Bool List Arith Lia Classical_Prop.
Import ListNotations.
From Verif Require Import Itv Arith Tube TubeOps Concrete Geometry PropsGeom PropsGeom2.
Open Scope R_scope.

(** ** Words of labels of the edges *)
(** an edge does not meet the horizontal line, goes downwards (left side), goes upwards (right side) *)
Inductive lab : Type := LS | LL | LR.
Definition lab_dec (a b : lab) : {a = b} + {a <> b}. Proof. decide equality. Defined.
(** number of times a run of labels [x] is entered; [p]: the previous label, LS apart, is [x] *)
Fixpoint runs (x : lab) (w : list lab) (p : bool) : nat :=
  match w with
  | [] => 0
  | LS :: w => runs x w p
  | y :: w => if lab_dec y x then (if p then 0 else 1) + runs x w true else runs x w false
  end%nat.
Fixpoint after (x : lab) (w : list lab) (p : bool) : bool :=
  match w with [] => p | LS :: w => after x w p | y :: w => after x w (if lab_dec y x then true else false) end.
Lemma runs_app x w1 w2 p : runs x (w1 ++ w2) p = (runs x w1 p + runs x w2 (after x w1 p))%nat.
Proof.
  revert p. induction w1 as [|a w IH]; intros p; [reflexivity|].
  cbn [app runs after]. destruct a; [apply IH| |]; destruct (lab_dec _ x); rewrite IH; lia.
Qed.
Lemma runs_out x w p : ~ List.In x w -> runs x w p = 0%nat.
Proof.
  revert p. induction w as [|a w IH]; intros p H; [reflexivity|].
  cbn in H. assert (H1 : ~ List.In x w) by tauto. cbn [runs].
  destruct a; [apply IH, H1| |]; (destruct (lab_dec _ x); [subst; tauto|apply IH, H1]).
Qed.
Lemma after_false x w : ~ List.In x w -> after x w false = false.
Proof.
  induction w as [|a w IH]; intros H; [reflexivity|].
  cbn in H. assert (H1 : ~ List.In x w) by tauto. cbn [after].
  destruct a; [apply IH, H1| |]; (destruct (lab_dec _ x); [subst; tauto|apply IH, H1]).
Qed.
(** another label resets *)
Lemma after_other x y w p : ~ List.In x w -> y <> LS -> y <> x -> List.In y w -> after x w p = false.
Proof.
  revert p. induction w as [|a w IH]; intros p H Hy Hx E; [destruct E|]. destruct E as [E|E].
  - subst a. cbn [after]. cbn in H. destruct y; [contradiction| |]; (destruct (lab_dec _ x); [contradiction|]); apply after_false; tauto.
  - cbn in H. assert (H1 : ~ List.In x w) by tauto. cbn [after].
    destruct a; [apply IH; assumption| |]; (destruct (lab_dec _ x); [subst; tauto|apply IH; assumption]).
Qed.
Lemma first_occ x (w : list lab) : List.In x w -> exists A B, w = A ++ x :: B /\ ~ List.In x A.
Proof.
  induction w as [|a w IH]; [intros []|]. intros H. destruct (lab_dec a x) as [->|N].
  - exists [], w. split; [reflexivity|intros []].
  - destruct H as [H|H]; [contradiction|]. destruct (IH H) as (A & B & -> & HA).
    exists (a :: A), B. split; [reflexivity|]. cbn. intros [E|E]; [contradiction|tauto].
Qed.
(** the positions of [x] are pairwise adjacent, cyclically *)
Definition cyc_adj (x : lab) (w : list lab) : Prop :=
  forall i j, (i < j)%nat -> nth_error w i = Some x -> nth_error w j = Some x ->
    j = S i \/ (i = 0%nat /\ S j = length w).
Lemma nth_mid {A} (l1 : list A) a l2 : nth_error (l1 ++ a :: l2) (length l1) = Some a.
Proof. rewrite nth_error_app2 by lia. rewrite Nat.sub_diag. reflexivity. Qed.
Lemma last_app1 {A} (l : list A) a d : last (l ++ [a]) d = a.
Proof. induction l as [|b l IH]; [reflexivity|]. cbn [app]. destruct (l ++ [a]) eqn:E; [destruct l; discriminate|]. rewrite <- E in *. cbn [last]. rewrite E, <- E. exact IH. Qed.
Definition is_lab (x y : lab) : bool := if lab_dec y x then true else false.
Lemma one_run x y w : x <> LS -> y <> LS -> y <> x -> List.In x w -> List.In y w -> cyc_adj x w ->
  runs x w (is_lab x (last w LS)) = 1%nat.
Proof.
  intros Sx Sy Nxy Hx Hy Adj.
  assert (R1 : forall B p, runs x (x :: B) p = ((if p then 0 else 1) + runs x B true)%nat).
  { intros B p. cbn [runs]. destruct x; [contradiction| |]; (destruct (lab_dec _ _); [reflexivity|contradiction]). }
  assert (A1 : forall B p, after x (x :: B) p = after x B true).
  { intros B p. cbn [after]. destruct x; [contradiction| |]; (destruct (lab_dec _ _); [reflexivity|contradiction]). }
  destruct (first_occ x w Hx) as (A & B & -> & HA).
  destruct (in_dec lab_dec x B) as [HB|HB].
  - destruct (first_occ x B HB) as (B1 & B2 & -> & HB1).
    assert (N2 : nth_error (A ++ x :: B1 ++ x :: B2) (length A + S (length B1)) = Some x).
    { replace (length A + S (length B1))%nat with (length (A ++ x :: B1)) by (rewrite app_length; reflexivity).
      rewrite app_comm_cons, app_assoc. apply nth_mid. }
    destruct (Adj (length A) (length A + S (length B1))%nat) as [E|[E1 E2]]; [lia|apply nth_mid|exact N2| |].
    + assert (B1 = []) as -> by (destruct B1; [reflexivity|cbn in E; lia]). cbn [app] in *.
      destruct (in_dec lab_dec x B2) as [HB2|HB2].
      { exfalso. apply in_split in HB2 as (C1 & C2 & ->).
        assert (N3 : nth_error (A ++ x :: x :: C1 ++ x :: C2) (length A + 2 + length C1) = Some x).
        { replace (length A + 2 + length C1)%nat with (length (A ++ x :: x :: C1)) by (rewrite app_length; cbn; lia).
          rewrite !app_comm_cons, app_assoc. apply nth_mid. }
        destruct (Adj (length A) (length A + 2 + length C1)%nat) as [E'|[E1 E2]]; [lia|apply nth_mid|exact N3|lia|].
        destruct (Adj (length A + 1)%nat (length A + 2 + length C1)%nat) as [E3|[E3 E4]]; [lia| |exact N3| |lia].
        { replace (length A + 1)%nat with (length (A ++ [x])) by (rewrite app_length; cbn; lia).
          replace (A ++ x :: x :: C1 ++ x :: C2) with ((A ++ [x]) ++ x :: C1 ++ x :: C2) by (rewrite <- app_assoc; reflexivity).
          apply nth_mid. }
        destruct A; [|discriminate]. destruct C1; [|cbn in E3; lia]. cbn in E2. destruct C2; [|cbn in E2; lia].
        cbn in Hy. intuition congruence. }
      assert (HP : is_lab x (last (A ++ x :: x :: B2) LS) = true -> B2 = []).
      { destruct (exists_last (l := x :: B2)) as (C & c & EC); [discriminate|].
        replace (A ++ x :: x :: B2) with ((A ++ x :: C) ++ [c]) by (rewrite EC, <- app_assoc; reflexivity).
        rewrite last_app1. unfold is_lab. destruct (lab_dec c x) as [->|]; [|discriminate]. intros _.
        destruct B2 as [|b B2]; [reflexivity|]. exfalso. apply HB2.
        destruct C as [|c0 C]; [discriminate|]. injection EC as <- EC. rewrite EC. apply in_or_app. right. left. reflexivity. }
      rewrite runs_app, R1, R1, (runs_out x A), (runs_out x B2) by assumption.
      destruct (is_lab x (last _ LS)) eqn:EP.
      * specialize (HP eq_refl). subst B2.
        rewrite (after_other x y A); [reflexivity|assumption..|]. apply in_app_or in Hy as [Hy|Hy]; [exact Hy|]. cbn in Hy. intuition congruence.
      * rewrite after_false by assumption. reflexivity.
    + assert (A = []) as -> by (destruct A; [reflexivity|discriminate]). cbn [app length] in *.
      assert (B2 = []) as ->.
      { rewrite app_length in E2. cbn in E2. destruct B2; [reflexivity|cbn in E2; lia]. }
      assert (EL : last (x :: B1 ++ [x]) LS = x) by (apply (last_app1 (x :: B1))).
      rewrite EL. unfold is_lab. destruct (lab_dec x x); [|contradiction]. rewrite R1, runs_app, (runs_out x B1) by assumption.
      rewrite (after_other x y B1); [|assumption..|].
      * rewrite R1. reflexivity.
      * destruct Hy as [Hy|Hy]; [congruence|]. apply in_app_or in Hy as [Hy|Hy]; [exact Hy|]. cbn in Hy. intuition congruence.
  - rewrite runs_app, R1, (runs_out x A), (runs_out x B) by assumption.
    destruct (is_lab x (last _ LS)) eqn:EP.
    + assert (B = []) as ->.
      { destruct (exists_last (l := x :: B)) as (C & c & EC); [discriminate|].
        replace (A ++ x :: B) with ((A ++ C) ++ [c]) in EP by (rewrite EC, <- app_assoc; reflexivity).
        rewrite last_app1 in EP. unfold is_lab in EP. destruct (lab_dec c x) as [->|]; [|discriminate].
        destruct B as [|b B]; [reflexivity|]. exfalso. apply HB.
        destruct C as [|c0 C]; [discriminate|]. injection EC as <- EC. rewrite EC. apply in_or_app. right. left. reflexivity. }
      rewrite (after_other x y A); [reflexivity|assumption..|]. apply in_app_or in Hy as [Hy|Hy]; [exact Hy|]. cbn in Hy. intuition congruence.
    + rewrite after_false by assumption. reflexivity.
Qed.

(** ** Facts on a strictly convex polygon *)
Lemma area_cyc a b c : area a b c = area b c a. Proof. unfold area. ring. Qed.
(** the area of a triangle with a point of a segment *)
Lemma area_mix a b p q z k : fst z = fst p + k * (fst q - fst p) -> snd z = snd p + k * (snd q - snd p) ->
  area a b z = (1 - k) * area a b p + k * area a b q.
Proof. intros Hx Hy. unfold area. rewrite Hx, Hy. ring. Qed.
(** the area of a triangle with a point at the level of an edge *)
Lemma area_xat v w x y : snd v <> snd w -> area v w (x, y) = (snd w - snd v) * (xat v w y - x).
Proof. intros N. unfold area, xat. cbn [fst snd]. field. lra. Qed.
Lemma area_on a b z : on_seg a b z -> area a b z = 0.
Proof. intros (k & K & Hx & Hy). rewrite (area_mix a b a b z k Hx Hy). unfold area. ring. Qed.
(** consecutive edges a -> m -> b turn to the left; the point c is at the left of both *)
Lemma wedge (a m b c : pt2) :
  (snd c - snd m) * area a m b = (snd b - snd m) * area a m c - (snd m - snd a) * area m b c.
Proof. unfold area. ring. Qed.

Section Poly.
  Variable vs : list pt2.
  Hypothesis CC : ccw vs.
  Let n := length vs.
  Let V i := nth i vs (0, 0).
  Let nx i := (S i mod n)%nat.

  Lemma n3 : (3 <= n)%nat. Proof. apply CC. Qed.
  Lemma nx_lt i : (nx i < n)%nat. Proof. apply Nat.mod_upper_bound. pose proof n3. lia. Qed.
  Lemma nx_cases i : (i < n)%nat -> ((S i < n /\ nx i = S i) \/ (S i = n /\ nx i = 0))%nat.
  Proof.
    intros H. unfold nx. destruct (Nat.eq_dec (S i) n) as [E|E].
    - right. split; [exact E|]. rewrite E. apply Nat.mod_same. pose proof n3. lia.
    - left. split; [lia|]. apply Nat.mod_small. lia.
  Qed.
  Lemma nx_neq i : (i < n)%nat -> nx i <> i.
  Proof. intros H. pose proof n3. destruct (nx_cases i H) as [[_ E]|[E0 E]]; lia. Qed.
  Lemma nx_inj i j : (i < n)%nat -> (j < n)%nat -> nx i = nx j -> i = j.
  Proof. intros Hi Hj E. destruct (nx_cases i Hi) as [[? E1]|[? E1]], (nx_cases j Hj) as [[? E2]|[? E2]]; lia. Qed.
  Lemma nx_surj j : (j < n)%nat -> exists i, (i < n)%nat /\ nx i = j.
  Proof.
    intros Hj. pose proof n3. destruct j as [|j].
    - exists (n - 1)%nat. split; [lia|]. unfold nx. replace (S (n - 1)) with n by lia. apply Nat.mod_same. lia.
    - exists j. split; [lia|]. apply Nat.mod_small. exact Hj.
  Qed.
  Lemma nx2 i : (i < n)%nat -> nx (nx i) <> i.
  Proof.
    intros H. pose proof n3. pose proof (nx_lt i) as H2. destruct (nx_cases i H) as [[? E1]|[? E1]], (nx_cases _ H2) as [[? E2]|[? E2]]; lia.
  Qed.
  Lemma area_pos i k : (i < n)%nat -> (k < n)%nat -> k <> i -> k <> nx i -> 0 < area (V i) (V (nx i)) (V k).
  Proof.
    intros Hi Hk N1 N2. destruct CC as [_ C]. destruct (nx_cases i Hi) as [[L E]|[L E]]; rewrite E in *.
    - destruct (Nat.lt_ge_cases k i) as [H|H].
      + rewrite <- area_cyc. apply C; [lia|exact L].
      + apply C; [lia|exact Hk].
    - rewrite area_cyc. apply C; lia.
  Qed.
  Lemma area_nonneg i k : (i < n)%nat -> (k < n)%nat -> 0 <= area (V i) (V (nx i)) (V k).
  Proof.
    intros Hi Hk. destruct (Nat.eq_dec k i) as [->|N1]; [unfold area; lra|].
    destruct (Nat.eq_dec k (nx i)) as [->|N2]; [unfold area; lra|]. apply Rlt_le, area_pos; assumption.
  Qed.
  Lemma area_conv i z : (i < n)%nat -> conv vs z -> 0 <= area (V i) (V (nx i)) z.
  Proof.
    intros Hi H.
    set (a := V i). set (b := V (nx i)).
    replace (area a b z) with (- (snd b - snd a) * fst z + (fst b - fst a) * snd z + (- (fst b - fst a) * snd a + (snd b - snd a) * fst a))
      by (unfold area; ring).
    apply (conv_half vs); [|exact H]. intros v Hv.
    replace (- (snd b - snd a) * fst v + (fst b - fst a) * snd v + (- (fst b - fst a) * snd a + (snd b - snd a) * fst a)) with (area a b v)
      by (unfold area; ring).
    destruct (In_nth _ _ (0, 0) Hv) as (k & Hk & <-). apply area_nonneg; assumption.
  Qed.
  Lemma V_conv i : (i < n)%nat -> conv vs (V i).
  Proof. intros H. apply conv_vertex, nth_In, H. Qed.
  Lemma seg_conv i z : (i < n)%nat -> on_seg (V i) (V (nx i)) z -> conv vs z.
  Proof. intros H. apply conv_seg; apply V_conv; [exact H|apply nx_lt]. Qed.
  Lemma boundary_conv z : on_boundary vs z -> conv vs z.
  Proof. intros (i & Hi & H). apply (seg_conv i z Hi H). Qed.

  (** two different edges meet in a vertex only *)
  Lemma edges_meet i j z : (i < n)%nat -> (j < n)%nat -> i <> j ->
    on_seg (V i) (V (nx i)) z -> on_seg (V j) (V (nx j)) z -> (j = nx i /\ z = V j) \/ (i = nx j /\ z = V i).
  Proof.
    intros Hi Hj N Z1 Z2. pose proof (area_on _ _ _ Z1) as A.
    destruct Z2 as (k & K & Hx & Hy). rewrite (area_mix _ _ _ _ z k Hx Hy) in A.
    pose proof (area_nonneg i j Hi Hj). pose proof (area_nonneg i (nx j) Hi (nx_lt j)).
    destruct (Nat.eq_dec j (nx i)) as [E|E].
    - left. split; [exact E|]. assert (P : 0 < area (V i) (V (nx i)) (V (nx j))).
      { apply area_pos; [exact Hi|apply nx_lt| |]; rewrite E; [apply nx2, Hi|apply nx_neq, nx_lt]. }
      rewrite E in A at 1. replace (area (V i) (V (nx i)) (V (nx i))) with 0 in A by (unfold area; ring).
      assert (k = 0) by nra. subst k. destruct z. cbn in *. rewrite (surjective_pairing (V j)). f_equal; lra.
    - assert (P : 0 < area (V i) (V (nx i)) (V j)) by (apply area_pos; auto).
      destruct (Nat.eq_dec i (nx j)) as [E2|E2].
      + right. split; [exact E2|]. rewrite <- E2 in *. replace (area (V i) (V (nx i)) (V i)) with 0 in A by (unfold area; ring).
        assert (k = 1) by nra. subst k. destruct z. cbn in *. rewrite (surjective_pairing (V i)). f_equal; lra.
      + exfalso. assert (P2 : 0 < area (V i) (V (nx i)) (V (nx j))).
        { apply area_pos; [exact Hi|apply nx_lt|auto|]. intro E3. apply nx_inj in E3; auto. }
        assert (0 <= (1 - k) * area (V i) (V (nx i)) (V j)) by (apply Rmult_le_pos; lra).
        assert (0 <= k * area (V i) (V (nx i)) (V (nx j))) by (apply Rmult_le_pos; lra).
        destruct (Rle_dec k (1 / 2)); nra.
  Qed.
  (** a point of the polygon that is not on its boundary is strictly at the left of each edge *)
  Lemma interior_pos z i : (i < n)%nat -> conv vs z -> ~ on_boundary vs z -> 0 < area (V i) (V (nx i)) z.
  Proof.
    intros Hi C NB. destruct (area_conv i z Hi C) as [H|H]; [exact H|exfalso]. symmetry in H.
    pose proof (nx_lt i) as Hn.
    destruct (nx_surj i Hi) as (h & Hh & Eh).
    assert (P1 : 0 < area (V i) (V (nx i)) (V (nx (nx i)))).
    { apply area_pos; [exact Hi|apply nx_lt|apply nx2, Hi|apply nx_neq, Hn]. }
    assert (P2 : 0 < area (V h) (V i) (V (nx i))).
    { rewrite <- Eh at 1. apply area_pos; [exact Hh|exact Hn| |].
      - rewrite <- Eh. apply nx2, Hh.
      - rewrite Eh. apply nx_neq, Hi. }
    pose proof (area_conv (nx i) z Hn C) as Q1. pose proof (area_conv h z Hh C) as Q2. rewrite Eh in Q2.
    (* z is on the line: parameter k *)
    set (a := V i) in *. set (b := V (nx i)) in *. set (c := V (nx (nx i))) in *. set (d := V h) in *.
    assert (E : exists k, fst z = fst a + k * (fst b - fst a) /\ snd z = snd a + k * (snd b - snd a)).
    { unfold area in H. destruct (Req_dec (fst b - fst a) 0) as [E0|E0].
      - assert (E1 : snd b - snd a <> 0) by (intro E1; unfold area in P1; rewrite E0, E1 in P1; lra).
        exists ((snd z - snd a) / (snd b - snd a)). split; [|field; exact E1].
        rewrite E0, Rmult_0_r. rewrite E0 in H. assert (fst z - fst a = 0); [|lra].
        destruct (Rmult_integral (snd b - snd a) (fst z - fst a)); [lra|contradiction|assumption].
      - exists ((fst z - fst a) / (fst b - fst a)). split; [field; exact E0|].
        apply Rmult_eq_reg_l with (fst b - fst a); [|exact E0].
        replace ((fst b - fst a) * (snd a + (fst z - fst a) / (fst b - fst a) * (snd b - snd a)))
          with ((fst b - fst a) * snd a + (snd b - snd a) * (fst z - fst a)) by (field; exact E0). lra. }
    destruct E as (k & Kx & Ky).
    rewrite (area_mix b c a b z k Kx Ky) in Q1. rewrite (area_mix d a a b z k Kx Ky) in Q2.
    replace (area b c b) with 0 in Q1 by (unfold area; ring). replace (area d a a) with 0 in Q2 by (unfold area; ring).
    rewrite <- (area_cyc a b c) in Q1.
    apply NB. exists i. split; [exact Hi|]. exists k. split; [|split; assumption]. split; nra.
  Qed.
  (** no point of the interior is at an extreme level *)
  Lemma interior_level z : conv vs z -> ~ on_boundary vs z ->
    (exists k, (k < n)%nat /\ snd (V k) < snd z) /\ (exists k, (k < n)%nat /\ snd z < snd (V k)).
  Proof.
    intros C NB.
    assert (MIN : forall s, (s = 1 \/ s = -1) -> exists m, (m < n)%nat /\ forall k, (k < n)%nat -> s * snd (V m) <= s * snd (V k)).
    { intros s _.
      assert (G : forall j, (j <= n)%nat -> (0 < j)%nat -> exists m, (m < j)%nat /\ forall k, (k < j)%nat -> s * snd (V m) <= s * snd (V k)).
      { induction j as [|j IH]; [lia|]. intros Hj _. destruct (Nat.eq_dec j 0) as [->|N].
        - exists 0%nat. split; [lia|]. intros k Hk. replace k with 0%nat by lia. lra.
        - destruct IH as (m & Hm & M); [lia|lia|]. destruct (Rle_dec (s * snd (V m)) (s * snd (V j))).
          + exists m. split; [lia|]. intros k Hk. destruct (Nat.eq_dec k j) as [->|]; [assumption|apply M; lia].
          + exists j. split; [lia|]. intros k Hk. destruct (Nat.eq_dec k j) as [->|]; [lra|]. specialize (M k). assert (k < j)%nat by lia. specialize (M H). lra. }
      destruct (G n) as (m & Hm & M); [lia|pose proof n3; lia|]. exists m. auto. }
    assert (KEY : forall s, (s = 1 \/ s = -1) -> exists k, (k < n)%nat /\ s * snd (V k) < s * snd z).
    { intros s Hs. destruct (MIN s Hs) as (m & Hm & M). exists m. split; [exact Hm|].
      apply Rnot_le_lt. intro L.
      destruct (nx_surj m Hm) as (h & Hh & Eh).
      pose proof (interior_pos z h Hh C NB) as A1. pose proof (interior_pos z m Hm C NB) as A2. rewrite Eh in A1.
      assert (A3 : 0 < area (V h) (V m) (V (nx m))).
      { rewrite <- Eh at 1. apply area_pos; [exact Hh|apply nx_lt| |].
        - rewrite <- Eh. apply nx2, Hh.
        - rewrite Eh. apply nx_neq, Hm. }
      pose proof (wedge (V h) (V m) (V (nx m)) z) as W.
      pose proof (M h Hh) as M1. pose proof (M (nx m) (nx_lt m)) as M2.
      set (a := area (V h) (V m) (V (nx m))) in *. set (b := area (V h) (V m) z) in *. set (c := area (V m) (V (nx m)) z) in *.
      assert (E1 : s * (snd z - snd (V m)) * a <= 0) by (apply Ropp_le_cancel; rewrite Ropp_0, Ropp_mult_distr_l; apply Rmult_le_pos; lra).
      assert (E2 : 0 <= s * (snd (V (nx m)) - snd (V m)) * b) by (apply Rmult_le_pos; lra).
      assert (E3 : 0 <= s * (snd (V h) - snd (V m)) * c) by (apply Rmult_le_pos; lra).
      assert (E4 : s * (snd (V (nx m)) - snd (V m)) * b = 0 /\ s * (snd (V h) - snd (V m)) * c = 0).
      { assert (s * ((snd z - snd (V m)) * a) = s * ((snd (V (nx m)) - snd (V m)) * b - (snd (V m) - snd (V h)) * c)) by (rewrite W; reflexivity).
        split; nra. }
      destruct E4 as [E4 E5]. assert (S0 : s <> 0) by lra.
      assert (F1 : snd (V (nx m)) = snd (V m)).
      { apply Rmult_integral in E4 as [E4|E4]; [|lra]. apply Rmult_integral in E4 as [E4|E4]; [contradiction|lra]. }
      assert (F2 : snd (V h) = snd (V m)).
      { apply Rmult_integral in E5 as [E5|E5]; [|lra]. apply Rmult_integral in E5 as [E5|E5]; [contradiction|lra]. }
      subst a. unfold area in A3. rewrite F1, F2 in A3. lra. }
    split.
    - destruct (KEY 1) as (k & Hk & H); [auto|]. exists k. split; [exact Hk|lra].
    - destruct (KEY (-1)) as (k & Hk & H); [auto|]. exists k. split; [exact Hk|lra].
  Qed.

  (** ** A horizontal line that crosses the polygon *)
  Lemma ivt (g : nat -> R) y a m : g a < y -> y <= g (a + m)%nat -> exists i, g i < y <= g (S i).
  Proof.
    induction m as [|m IH]; intros H1 H2; [rewrite Nat.add_0_r in H2; lra|].
    destruct (Rle_dec y (g (a + m)%nat)) as [H|H]; [apply IH; assumption|].
    exists (a + m)%nat. replace (S (a + m)) with (a + S m)%nat by lia. lra.
  Qed.
  Section Level.
    Variable y : R.
    Hypothesis Below : exists k, (k < n)%nat /\ snd (V k) < y.
    Hypothesis Above : exists k, (k < n)%nat /\ y < snd (V k).

    (** the edge meets the line *)
    Definition meets (i : nat) : Prop := rng (snd (V i)) (snd (V (nx i))) y.
    Definition X (i : nat) : R := xat (V i) (V (nx i)) y.

    Lemma meets_slanted i : (i < n)%nat -> meets i -> snd (V i) <> snd (V (nx i)).
    Proof.
      intros Hi M E. unfold meets, rng in M. rewrite E, Rmin_left, Rmax_left in M by lra.
      destruct Below as (k & Hk & B). destruct Above as (l & Hl & A).
      pose proof (area_nonneg i k Hi Hk) as P. pose proof (area_nonneg i l Hi Hl) as Q.
      assert (k <> i /\ k <> nx i /\ l <> i /\ l <> nx i) as (N1 & N2 & N3 & N4).
      { refine (conj _ (conj _ (conj _ _))); intros ->; lra. }
      pose proof (area_pos i k Hi Hk N1 N2) as P'. pose proof (area_pos i l Hi Hl N3 N4) as Q'.
      unfold area in P', Q'. rewrite <- E in P', Q'. assert (snd (V i) = y) by lra. nra.
    Qed.
    Lemma meets_seg i : (i < n)%nat -> meets i -> on_seg (V i) (V (nx i)) (X i, y).
    Proof. intros Hi M. apply xat_seg; [apply meets_slanted; assumption|exact M]. Qed.
    Lemma X_conv i : (i < n)%nat -> meets i -> conv vs (X i, y).
    Proof. intros Hi M. apply (seg_conv i); [exact Hi|apply meets_seg; assumption]. Qed.
    Definition up (i : nat) : Prop := (i < n)%nat /\ meets i /\ snd (V i) < snd (V (nx i)).
    Definition down (i : nat) : Prop := (i < n)%nat /\ meets i /\ snd (V (nx i)) < snd (V i).
    (** upward edges bound the polygon on the right *)
    Lemma up_right i x : up i -> conv vs (x, y) -> x <= X i.
    Proof.
      intros (Hi & M & U) C. pose proof (area_conv i _ Hi C) as A. rewrite area_xat in A by lra. fold (X i) in A. nra.
    Qed.
    Lemma down_left i x : down i -> conv vs (x, y) -> X i <= x.
    Proof.
      intros (Hi & M & U) C. pose proof (area_conv i _ Hi C) as A. rewrite area_xat in A by lra. fold (X i) in A. nra.
    Qed.
    Lemma up_same i j : up i -> up j -> X i = X j.
    Proof.
      intros U1 U2. apply Rle_antisym; eapply up_right; eauto; apply X_conv; try apply U1; apply U2.
    Qed.
    Lemma down_same i j : down i -> down j -> X i = X j.
    Proof.
      intros U1 U2. apply Rle_antisym; eapply down_left; eauto; apply X_conv; try apply U1; apply U2.
    Qed.
    Lemma mod_nx i : nx (i mod n) = (S i mod n)%nat.
    Proof. unfold nx. pose proof n3. rewrite <- (Nat.add_1_l (i mod n)), <- (Nat.add_1_l i). apply Nat.add_mod_idemp_r. lia. Qed.
    Lemma walk k l : (k < n)%nat -> (l < n)%nat -> (k + (l + n - k) = l + n)%nat /\ ((k + (l + n - k)) mod n = l)%nat /\ (k mod n = k)%nat.
    Proof.
      intros Hk Hl. assert (E : (k + (l + n - k) = l + n)%nat) by lia. refine (conj E (conj _ _)).
      - rewrite E, <- (Nat.mul_1_l n) at 1. rewrite Nat.mod_add by lia. apply Nat.mod_small, Hl.
      - apply Nat.mod_small, Hk.
    Qed.
    Lemma some_up : exists i, up i.
    Proof.
      destruct Below as (k & Hk & B). destruct Above as (l & Hl & A). destruct (walk k l Hk Hl) as (_ & E1 & E2).
      destruct (ivt (fun i => snd (V (i mod n))) y k (l + n - k)) as (i & H); cbn beta; [rewrite E2; exact B|rewrite E1; lra|].
      cbn beta in H. exists (i mod n)%nat. rewrite <- mod_nx in H. refine (conj _ (conj _ _)).
      - apply Nat.mod_upper_bound. pose proof n3. lia.
      - unfold meets. apply rng_pos; lra.
      - lra.
    Qed.
    Lemma some_down : exists i, down i.
    Proof.
      destruct Below as (k & Hk & B). destruct Above as (l & Hl & A). destruct (walk l k Hl Hk) as (_ & E1 & E2).
      destruct (ivt (fun i => - snd (V (i mod n))) (- y) l (k + n - l)) as (i & H); cbn beta; [rewrite E2; lra|rewrite E1; lra|].
      cbn beta in H. exists (i mod n)%nat. rewrite <- mod_nx in H. refine (conj _ (conj _ _)).
      - apply Nat.mod_upper_bound. pose proof n3. lia.
      - unfold meets. apply rng_neg; lra.
      - lra.
    Qed.
    (** the left side is strictly at the left of the right side *)
    Lemma left_right i j : up i -> down j -> X j < X i.
    Proof.
      intros U D. destruct (up_right i (X j) U) as [H|H]; [apply X_conv; apply D|exact H|exfalso].
      destruct U as (Hi & Mi & U), D as (Hj & Mj & D).
      pose proof (meets_seg i Hi Mi) as S1. pose proof (meets_seg j Hj Mj) as S2. rewrite H in S2.
      assert (N : i <> j) by (intros ->; lra).
      destruct (edges_meet i j _ Hi Hj N S1 S2) as [[E Z]|[E Z]].
      - assert (Y : snd (V j) = y) by (rewrite <- Z; reflexivity).
        destruct Above as (l & Hl & A).
        pose proof (wedge (V i) (V j) (V (nx j)) (V l)) as W.
        assert (P : 0 < area (V i) (V j) (V (nx j))).
        { rewrite E at 1. apply area_pos; [exact Hi|apply nx_lt| |]; rewrite E; [apply nx2, Hi|apply nx_neq, nx_lt]. }
        assert (Q : 0 <= area (V i) (V j) (V l)) by (rewrite E; apply area_nonneg; assumption).
        pose proof (area_nonneg j l Hj Hl) as Q2. rewrite <- E in U.
        assert (0 < (snd (V l) - snd (V j)) * area (V i) (V j) (V (nx j))) by (apply Rmult_lt_0_compat; lra).
        assert (0 <= (snd (V j) - snd (V (nx j))) * area (V i) (V j) (V l)) by (apply Rmult_le_pos; lra).
        assert (0 <= (snd (V j) - snd (V i)) * area (V j) (V (nx j)) (V l)) by (apply Rmult_le_pos; lra). lra.
      - assert (Y : snd (V i) = y) by (rewrite <- Z; reflexivity).
        destruct Below as (l & Hl & A).
        pose proof (wedge (V j) (V i) (V (nx i)) (V l)) as W.
        assert (P : 0 < area (V j) (V i) (V (nx i))).
        { rewrite E at 1. apply area_pos; [exact Hj|apply nx_lt| |]; rewrite E; [apply nx2, Hj|apply nx_neq, nx_lt]. }
        assert (Q : 0 <= area (V j) (V i) (V l)) by (rewrite E; apply area_nonneg; assumption).
        pose proof (area_nonneg i l Hi Hl) as Q2. rewrite <- E in D.
        assert (0 < (snd (V i) - snd (V l)) * area (V j) (V i) (V (nx i))) by (apply Rmult_lt_0_compat; lra).
        assert (0 <= (snd (V (nx i)) - snd (V i)) * area (V j) (V i) (V l)) by (apply Rmult_le_pos; lra).
        assert (0 <= (snd (V j) - snd (V i)) * area (V i) (V (nx i)) (V l)) by (apply Rmult_le_pos; lra). lra.
    Qed.
    Lemma adjacent i j : (i < j)%nat -> (j < n)%nat -> meets i -> meets j -> X i = X j -> j = S i \/ (i = 0%nat /\ S j = n).
    Proof.
      intros L Hj Mi Mj E. assert (Hi : (i < n)%nat) by lia.
      pose proof (meets_seg i Hi Mi) as S1. pose proof (meets_seg j Hj Mj) as S2. rewrite <- E in S2.
      assert (N : i <> j) by lia. destruct (edges_meet i j _ Hi Hj N S1 S2) as [[F _]|[F _]].
      - destruct (nx_cases i Hi) as [[_ G]|[_ G]]; lia.
      - destruct (nx_cases j Hj) as [[_ G]|[G1 G]]; lia.
    Qed.
  End Level.
End Poly.

Lemma up_def vs y i : up vs y i <-> (i < length vs)%nat /\ rng (snd (nth i vs (0, 0))) (snd (nth (S i mod length vs) vs (0, 0))) y /\
  snd (nth i vs (0, 0)) < snd (nth (S i mod length vs) vs (0, 0)).
Proof. reflexivity. Qed.
Lemma down_def vs y i : down vs y i <-> (i < length vs)%nat /\ rng (snd (nth i vs (0, 0))) (snd (nth (S i mod length vs) vs (0, 0))) y /\
  snd (nth (S i mod length vs) vs (0, 0)) < snd (nth i vs (0, 0)).
Proof. reflexivity. Qed.
(** ** The loop *)
(** label of an edge *)
Definition plab (y : R) (e : pt2 * pt2) : lab :=
  if Rleb (Rmin (snd (fst e)) (snd (snd e))) y && Rleb y (Rmax (snd (fst e)) (snd (snd e)))
  then if Rltb (snd (fst e)) (snd (snd e)) then LR else LL else LS.
(** the edges of a polygon, as pairs of vertices *)
Definition pairs (vs : list pt2) : list (pt2 * pt2) := match vs with [] => [] | v :: r => combine vs (r ++ [v]) end.
Lemma edges_pairs vs : edges vs = map (fun e => (tvec (fst e), tvec (snd e))) (pairs vs).
Proof. destruct vs; reflexivity. Qed.
Lemma nth_combine {A B} (l1 : list A) (l2 : list B) i a b :
  nth_error l1 i = Some a -> nth_error l2 i = Some b -> nth_error (combine l1 l2) i = Some (a, b).
Proof.
  revert l2 i. induction l1 as [|x l1 IH]; intros [|y l2] [|i] H1 H2; try discriminate.
  - cbn in *. congruence.
  - cbn in *. apply IH; assumption.
Qed.
Lemma pairs_length vs : length (pairs vs) = length vs.
Proof. destruct vs as [|v r]; [reflexivity|]. unfold pairs. rewrite combine_length, app_length. cbn [length]. lia. Qed.
Lemma pairs_nth vs i : (i < length vs)%nat ->
  nth_error (pairs vs) i = Some (nth i vs (0, 0), nth (S i mod length vs) vs (0, 0)).
Proof.
  destruct vs as [|v r]; [cbn; lia|]. intros H. unfold pairs. apply nth_combine.
  - apply nth_error_nth'. exact H.
  - cbn [length] in *. destruct (Nat.eq_dec i (length r)) as [->|N].
    + rewrite Nat.mod_same by lia. rewrite nth_error_app2, Nat.sub_diag by lia. reflexivity.
    + rewrite Nat.mod_small by lia. rewrite nth_error_app1 by lia. cbn [nth]. apply nth_error_nth'. lia.
Qed.
Lemma pairs_In vs e : List.In e (pairs vs) -> exists i, (i < length vs)%nat /\ e = (nth i vs (0, 0), nth (S i mod length vs) vs (0, 0)).
Proof.
  intros H. apply In_nth_error in H as (i & H). assert (L : (i < length vs)%nat).
  { rewrite <- pairs_length. apply nth_error_Some. congruence. }
  exists i. split; [exact L|]. rewrite (pairs_nth vs i L) in H. congruence.
Qed.

(** number of crossings that are counted; [vl], [vr]: the left (right) side is at the right of the point *)
Fixpoint cnt (vl vr : bool) (w : list lab) (p : lab) : nat :=
  match w with
  | [] => 0
  | LS :: w => cnt vl vr w p
  | LL :: w => if vl then if lab_dec p LL then cnt vl vr w p else S (cnt vl vr w LL) else cnt vl vr w LS
  | LR :: w => if vr then if lab_dec p LR then cnt vl vr w p else S (cnt vl vr w LR) else cnt vl vr w LS
  end%nat.
Lemma cnt_none w p : cnt false false w p = 0%nat.
Proof. revert p. induction w as [|[] w IH]; intros p; cbn; auto. Qed.
Lemma cnt_right w p : p <> LL -> cnt false true w p = runs LR w (is_lab LR p).
Proof.
  revert p. induction w as [|[] w IH]; intros p H; cbn [cnt runs]; [reflexivity|apply IH, H| |].
  - destruct (lab_dec LL LR); [discriminate|]. rewrite IH by discriminate. reflexivity.
  - destruct (lab_dec LR LR); [|contradiction]. unfold is_lab. destruct (lab_dec p LR) as [->|].
    + rewrite IH by discriminate. reflexivity.
    + rewrite IH by discriminate. reflexivity.
Qed.
Lemma cnt_both w p : cnt true true w p = (runs LR w (is_lab LR p) + runs LL w (is_lab LL p))%nat.
Proof.
  revert p. induction w as [|[] w IH]; intros p; cbn [cnt runs]; [reflexivity|apply IH| |].
  - destruct (lab_dec LL LR); [discriminate|]. destruct (lab_dec LL LL); [|contradiction]. unfold is_lab.
    destruct (lab_dec p LL) as [->|]; rewrite IH; cbn; lia.
  - destruct (lab_dec LR LL); [discriminate|]. destruct (lab_dec LR LR); [|contradiction]. unfold is_lab.
    destruct (lab_dec p LR) as [->|]; rewrite IH; cbn; lia.
Qed.

(** no intersection when the edge does not meet the line *)
Lemma intersects_range (v w : pt2) y : intersects (I2 (Rmin (snd v) (snd w)) (Rmax (snd v) (snd w))) (pt y) =
  Rleb (Rmin (snd v) (snd w)) y && Rleb y (Rmax (snd v) (snd w)).
Proof.
  assert (L : Rmin (snd v) (snd w) <= Rmax (snd v) (snd w)) by (unfold Rmin, Rmax; destruct (Rle_dec _ _); lra).
  change (pt y) with (I2 y y). rewrite intersects_I2 by lra. reflexivity.
Qed.
Lemma e_inter_out (v w p : pt2) m : Rleb (Rmin (snd v) (snd w)) (snd p) && Rleb (snd p) (Rmax (snd v) (snd w)) = false ->
  e_inter gexact (tvec v, tvec w) (tvec p, tvec (m, snd p)) = t_none.
Proof.
  intros H. unfold e_inter. cbv zeta. rewrite !e_box_pts. cbn [fst snd].
  rewrite (Rmin_left (snd p) (snd p)), (Rmax_left (snd p) (snd p)) by lra. change (I2 (snd p) (snd p)) with (pt (snd p)).
  replace (inter (inter _ (I2 (Rmin (snd v) (snd w)) (Rmax (snd v) (snd w)))) (pt (snd p))) with Emp.
  { unfold tpt, t_none. cbn [is_empty]. destruct (is_empty _); reflexivity. }
  apply wf_ext; [exact I|apply wf_inter|]. intros x. rewrite !In_inter, In_pt. cbn. split; [contradiction|].
  intros [[_ [H1 H2]] ->]. rewrite (Rleb_t _ _ H1), (Rleb_t _ _ H2) in H. discriminate.
Qed.

Section Sim.
  Variables (p : pt2) (m XL XR xl xu yl yu : R).
  Let b : tpoint := (I2 xl xu, I2 yl yu).
  Let ray : tedge := (tvec p, tvec (m, snd p)).
  Definition of_lab (a : lab) : tpoint := match a with LS => t_none | LL => tvec (XL, snd p) | LR => tvec (XR, snd p) end.
  Definition vis (x : R) : bool := Rltb (fst p) x.
  (** what the intersection of an edge with the ray gives *)
  Definition seen (a : lab) : lab := match a with LS => LS | LL => if vis XL then LL else LS | LR => if vis XR then LR else LS end.
  Hypothesis Hm : fst p < m.
  Hypothesis HL : XL <= m.
  Hypothesis HR : XR <= m.
  Hypothesis NL : fst p <> XL.
  Hypothesis NR : fst p <> XR.
  Hypothesis HLR : XL <> XR.
  Hypothesis HY : yl < snd p < yu.
  (** the edges that meet the line *)
  Definition e_ok (e : pt2 * pt2) : Prop :=
    match plab (snd p) e with
    | LS => True
    | LL => snd (fst e) <> snd (snd e) /\ xat (fst e) (snd e) (snd p) = XL
    | LR => snd (fst e) <> snd (snd e) /\ xat (fst e) (snd e) (snd p) = XR
    end.
  Lemma seen_edge e : e_ok e -> e_inter gexact (tvec (fst e), tvec (snd e)) ray = of_lab (seen (plab (snd p) e)).
  Proof.
    intros H. unfold e_ok in H. unfold ray. unfold plab in *.
    destruct (Rleb (Rmin (snd (fst e)) (snd (snd e))) (snd p) && Rleb (snd p) (Rmax (snd (fst e)) (snd (snd e)))) eqn:E.
    2: { rewrite e_inter_out by exact E. reflexivity. }
    assert (K : forall x, fst p <> x -> x <= m -> snd (fst e) <> snd (snd e) -> xat (fst e) (snd e) (snd p) = x ->
       e_inter gexact (tvec (fst e), tvec (snd e)) (tvec p, tvec (m, snd p)) = if vis x then tvec (x, snd p) else t_none).
    { intros x Nx Hx N Ex. rewrite ray_edge by assumption. rewrite E, Ex. cbn [andb]. unfold vis.
      destruct (Rle_dec (fst p) x).
      - rewrite !Rleb_t, Rltb_t by lra. reflexivity.
      - rewrite Rleb_f, Rltb_f by lra. reflexivity. }
    destruct (Rltb (snd (fst e)) (snd (snd e))); destruct H as [N Ex].
    - rewrite (K XR NR HR N Ex). cbn [seen]. destruct (vis XR); reflexivity.
    - rewrite (K XL NL HL N Ex). cbn [seen]. destruct (vis XL); reflexivity.
  Qed.
  Lemma loop_sim es : Forall e_ok es -> forall prev a,
    ray_loop gexact (map (fun e => (tvec (fst e), tvec (snd e))) es) ray b (tvec p) (of_lab prev) a =
    if Nat.odd (a + cnt (vis XL) (vis XR) (map (plab (snd p)) es) prev) then YES else NO.
  Proof.
    induction 1 as [|e es He _ IH]; intros prev a; cbn [map ray_loop cnt].
    { rewrite Nat.add_0_r. reflexivity. }
    rewrite e_box_pts. cbn [fst snd]. change (snd (tvec p)) with (pt (snd p)). rewrite intersects_range.
    rewrite (seen_edge e He).
    destruct (Rleb (Rmin (snd (fst e)) (snd (snd e))) (snd p) && Rleb (snd p) (Rmax (snd (fst e)) (snd (snd e)))) eqn:E.
    2: { cbn [negb]. unfold plab at 1. rewrite E. apply IH. }
    cbn [negb].
    assert (ST : forall x q, fst p <> x -> (of_lab q = if vis x then tvec (x, snd p) else t_none) ->
      (vis x = true -> q <> LS) -> (vis x = false -> q = LS) ->
      (if t_empty (of_lab q) then ray_loop gexact (map (fun e => (tvec (fst e), tvec (snd e))) es) ray b (tvec p) (of_lab q) a
       else if intersects (fst (of_lab q)) (fst (tvec p)) then MAYBE
       else if intersects (snd (of_lab q)) (at_bound (olb (snd b))) || intersects (snd (of_lab q)) (at_bound (oub (snd b)))
       then ray_loop gexact (map (fun e => (tvec (fst e), tvec (snd e))) es) ray b (tvec p) (of_lab prev) a
       else if intersects (fst (of_lab prev)) (fst (of_lab q)) then ray_loop gexact (map (fun e => (tvec (fst e), tvec (snd e))) es) ray b (tvec p) (of_lab prev) a
       else ray_loop gexact (map (fun e => (tvec (fst e), tvec (snd e))) es) ray b (tvec p) (of_lab q)
              match olb (fst (of_lab q)), oub (fst (tvec p)) with Some l, Some u => if Rltb u l then S a else a | _, _ => a end)
      = if Nat.odd (a + (if vis x then if lab_dec prev q then cnt (vis XL) (vis XR) (map (plab (snd p)) es) prev
                                  else S (cnt (vis XL) (vis XR) (map (plab (snd p)) es) q)
                         else cnt (vis XL) (vis XR) (map (plab (snd p)) es) LS)) then YES else NO).
    { intros x q Nx Eq V1 V2. rewrite Eq. destruct (vis x) eqn:Vx.
      - change (t_empty (tvec (x, snd p))) with false. cbv iota.
        change (fst (tvec (x, snd p))) with (pt x). change (snd (tvec (x, snd p))) with (pt (snd p)).
        change (fst (tvec p)) with (pt (fst p)). cbn [b snd olb oub at_bound I2].
        rewrite !intersects_pt. rewrite (Reqb_f x (fst p)) by lra. rewrite (Reqb_f (snd p) yl), (Reqb_f (snd p) yu) by lra. cbn [orb].
        unfold vis in Vx. cbn [olb oub pt]. rewrite Vx. rewrite <- Eq.
        destruct (lab_dec prev q) as [->|N].
        + rewrite Eq. change (fst (tvec (x, snd p))) with (pt x). rewrite intersects_pt, Reqb_refl. rewrite <- Eq. apply IH.
        + replace (intersects (fst (of_lab prev)) (pt x)) with false.
          2: { symmetry. specialize (V1 eq_refl).
               destruct prev, q; try congruence; try reflexivity; cbn [of_lab] in *; change (fst (tvec ?a)) with (pt (fst a)); cbn [fst]; rewrite intersects_pt; apply Reqb_f; intro EX;
               change (tvec ?a) with (pt (fst a), pt (snd a)) in Eq; cbn [fst snd] in Eq; injection Eq; intros; lra. }
          rewrite IH. rewrite Nat.add_succ_comm. reflexivity.
      - rewrite V2 in Eq by reflexivity. change (t_empty t_none) with true. cbv iota. rewrite <- Eq at 1. apply IH. }
    unfold e_ok in He. unfold plab in He. rewrite E in He.
    assert (EP : plab (snd p) e = if Rltb (snd (fst e)) (snd (snd e)) then LR else LL) by (unfold plab; rewrite E; reflexivity).
    rewrite EP. destruct (Rltb (snd (fst e)) (snd (snd e))).
    - cbn [seen]. destruct (vis XR) eqn:VR.
      + etransitivity; [apply (ST XR LR NR)|]; rewrite ?VR; try congruence; reflexivity.
      + etransitivity; [apply (ST XR LS NR)|]; rewrite ?VR; try congruence; reflexivity.
    - cbn [seen]. destruct (vis XL) eqn:VL.
      + etransitivity; [apply (ST XL LL NL)|]; rewrite ?VL; try congruence; reflexivity.
      + etransitivity; [apply (ST XL LS NL)|]; rewrite ?VL; try congruence; reflexivity.
  Qed.
End Sim.

(** ** The other cases of the loop *)
(** the point is on an edge *)
Lemma loop_maybe es p m b prev a : fst p < m ->
  (exists e, List.In e es /\ on_seg (fst e) (snd e) p) ->
  ray_loop gexact (map (fun e => (tvec (fst e), tvec (snd e))) es) (tvec p, tvec (m, snd p)) b (tvec p) prev a = MAYBE.
Proof.
  intros Hm. revert prev a. induction es as [|e es IH]; intros prev a (f & Hf & S); [destruct Hf|].
  cbn [map ray_loop]. destruct (classic (on_seg (fst e) (snd e) p)) as [S1|N].
  - clear f Hf S IH.
    assert (Q : ptin p (e_inter gexact (edge (tvec (fst e)) (tvec (snd e))) (edge (tvec p) (tvec (m, snd p))))).
    { apply (C65_intersection_partial gexact gexact_ok _ _ _ _ (fst e) (snd e) p (m, snd p)); try apply ptin_tvec; [exact S1| |].
      - exists 0. cbn. lra.
      - destruct (Req_dec (snd (fst e)) (snd (snd e))) as [E|E].
        + right. split; right; [exact E|reflexivity].
        + left. unfold det. cbn [fst snd]. replace (snd p - snd p) with 0 by ring. intro Z.
          assert (Z1 : (snd (snd e) - snd (fst e)) * (m - fst p) = 0) by lra.
          apply Rmult_integral in Z1 as [Z1|Z1]; lra. }
    rewrite !tedge_pts in Q. rewrite (ptin_not_empty _ _ Q).
    replace (intersects (snd (e_box (tvec (fst e), tvec (snd e)))) (snd (tvec p))) with true.
    2: { symmetry. apply intersects_spec. exists (snd p). split; [|apply (ptin_tvec p)].
         apply (on_seg_box (tvec (fst e)) (tvec (snd e)) (fst e) (snd e) p); try apply ptin_tvec. exact S1. }
    cbn [negb].
    replace (intersects (fst (e_inter gexact (tvec (fst e), tvec (snd e)) (tvec p, tvec (m, snd p)))) (fst (tvec p))) with true; [reflexivity|].
    symmetry. apply intersects_spec. exists (fst p). split; [apply Q|apply (ptin_tvec p)].
  - assert (H : exists e, List.In e es /\ on_seg (fst e) (snd e) p).
    { destruct Hf as [->|Hf]; [contradiction|]. exists f. auto. }
    destruct (negb _); [apply IH, H|]. destruct (t_empty _); [apply IH, H|].
    destruct (intersects _ (fst (tvec p))); [reflexivity|]. destruct (_ || _); [apply IH, H|].
    destruct (intersects _ _); apply IH, H.
Qed.
(** what is found is on the ray and in the box of the edge *)
Lemma e_inter_sub e p m z : ptin z (e_inter gexact (tvec (fst e), tvec (snd e)) (tvec p, tvec (m, snd p))) ->
  snd z = snd p /\ rng (fst (fst e)) (fst (snd e)) (fst z) /\ rng (snd (fst e)) (snd (snd e)) (snd z).
Proof.
  unfold e_inter. cbv zeta. rewrite tpt_in. rewrite !e_box_pts. cbn [fst snd].
  rewrite (Rmin_left (snd p) (snd p)), (Rmax_left (snd p) (snd p)) by lra. change (I2 (snd p) (snd p)) with (pt (snd p)).
  intros [H1 H2]. apply In_inter in H1 as [H1 _]. apply In_inter in H1 as [_ H1].
  apply In_inter in H2 as [H2 H3]. apply In_inter in H2 as [_ H2]. apply In_pt in H3. split; [exact H3|]. split; assumption.
Qed.
Lemma wf_tpt_witness x y : wf x -> wf y -> t_empty (tpt x y) = false -> exists z, ptin z (tpt x y).
Proof.
  intros Wx Wy H. unfold tpt in *. destruct x as [|a c]; [destruct (is_empty y); discriminate|].
  destruct y as [|d f]; [discriminate|]. cbn in *.
  destruct (wf_witness (Itv a c) Wx) as (u & Hu); [discriminate|]. destruct (wf_witness (Itv d f) Wy) as (w & Hw); [discriminate|].
  exists (u, w). split; assumption.
Qed.
(** a level at which the polygon is a vertex or an edge *)
Lemma loop_extreme es p m xl xu yl yu prev : fst p < m -> snd p = yl \/ snd p = yu ->
  Forall (fun e => fst e <> snd e /\ ~ on_seg (fst e) (snd e) p) es ->
  ray_loop gexact (map (fun e => (tvec (fst e), tvec (snd e))) es) (tvec p, tvec (m, snd p)) (I2 xl xu, I2 yl yu) (tvec p) prev 0 = NO.
Proof.
  intros Hm HY H. revert prev. induction H as [|e es [Ne He] _ IH]; intros prev; [reflexivity|].
  cbn [map ray_loop]. destruct (negb _); [apply IH|].
  destruct (t_empty _) eqn:T; [apply IH|].
  destruct (wf_tpt_witness _ _ (wf_inter _ _) (wf_inter _ _) T) as (z & Hz).
  fold (e_inter gexact (tvec (fst e), tvec (snd e)) (tvec p, tvec (m, snd p))) in Hz.
  pose proof (e_inter_sub e p m z Hz) as (Z1 & Z2 & Z3).
  set (q := e_inter gexact (tvec (fst e), tvec (snd e)) (tvec p, tvec (m, snd p))) in *.
  replace (intersects (fst q) (fst (tvec p))) with false.
  2: { symmetry. apply intersects_false. intros x H1 H2. apply In_pt in H2. subst x. apply He.
       assert (H2 : ptin p q) by (split; [exact H1|rewrite <- Z1; apply Hz]).
       destruct (Req_dec (snd (fst e)) (snd (snd e))) as [E|E].
       - pose proof (e_inter_sub e p m p H2) as (_ & Y2 & Y3).
         unfold rng in Y2, Y3. rewrite E, Rmin_left, Rmax_left in Y3 by lra.
         assert (N : fst (fst e) <> fst (snd e)).
         { intro N. apply Ne. rewrite (surjective_pairing (fst e)), (surjective_pairing (snd e)). congruence. }
         assert (S : on_seg (snd (fst e), fst (fst e)) (snd (snd e), fst (snd e)) (snd p, fst p)).
         { replace (snd p) with (xat (snd (fst e), fst (fst e)) (snd (snd e), fst (snd e)) (fst p)).
           - apply xat_seg; cbn [snd]; assumption.
           - unfold xat. cbn [fst snd]. rewrite E. replace (snd (snd e) - snd (snd e)) with 0 by ring. unfold Rdiv. rewrite Rmult_0_r, Rmult_0_l. lra. }
         destruct S as (k & K & S1 & S2). cbn [fst snd] in S1, S2. exists k. auto.
       - unfold q in H2. rewrite ray_edge in H2 by assumption.
         destruct (Rleb (Rmin (snd (fst e)) (snd (snd e))) (snd p) && Rleb (snd p) (Rmax (snd (fst e)) (snd (snd e)))) eqn:R.
         2: { cbn [andb] in H2. destruct H2 as [[] _]. }
         apply andb_prop in R as [R1 R2]. apply Rleb_true in R1, R2.
         destruct (true && _).
         + destruct H2 as [H2 _]. cbn [fst] in H2. change (fst (tvec ?a)) with (pt (fst a)) in H2. apply In_pt in H2. cbn [fst] in H2.
           rewrite (surjective_pairing p). rewrite H2. apply xat_seg; [exact E|split; assumption].
         + destruct H2 as [[] _]. }
  replace (intersects (snd q) (at_bound (olb (snd (I2 xl xu, I2 yl yu)))) || intersects (snd q) (at_bound (oub (snd (I2 xl xu, I2 yl yu))))) with true; [apply IH|].
  symmetry. apply orb_true_intro. cbn [snd olb oub I2 at_bound].
  destruct HY as [HY|HY]; [left|right]; apply intersects_spec; exists (snd z); (split; [apply Hz|apply In_pt; congruence]).
Qed.

(** ** Box of a polygon *)
Lemma hull_I2_pt a b c : hull (I2 a b) (pt c) = I2 (Rmin a c) (Rmax b c). Proof. reflexivity. Qed.
Lemma fold_box vs : forall xl xu yl yu, exists xl' xu' yl' yu',
  fold_left (fun b v => t_hull b (tvec v)) vs (I2 xl xu, I2 yl yu) = (I2 xl' xu', I2 yl' yu') /\
  (xl' <= xl /\ xu <= xu' /\ yl' <= yl /\ yu <= yu') /\
  (forall v, List.In v vs -> xl' <= fst v <= xu' /\ yl' <= snd v <= yu') /\
  (yl' = yl \/ exists v, List.In v vs /\ snd v = yl') /\ (yu' = yu \/ exists v, List.In v vs /\ snd v = yu').
Proof.
  induction vs as [|v vs IH]; intros xl xu yl yu.
  - exists xl, xu, yl, yu. refine (conj eq_refl (conj _ (conj _ (conj _ _)))); [lra|intros v []|auto|auto].
  - cbn [fold_left]. change (t_hull (I2 xl xu, I2 yl yu) (tvec v)) with (I2 (Rmin xl (fst v)) (Rmax xu (fst v)), I2 (Rmin yl (snd v)) (Rmax yu (snd v))).
    destruct (IH (Rmin xl (fst v)) (Rmax xu (fst v)) (Rmin yl (snd v)) (Rmax yu (snd v))) as (xl' & xu' & yl' & yu' & E & (B1 & B2 & B3 & B4) & A & L & U).
    pose proof (Rmin_l xl (fst v)). pose proof (Rmin_r xl (fst v)). pose proof (Rmax_l xu (fst v)). pose proof (Rmax_r xu (fst v)).
    pose proof (Rmin_l yl (snd v)). pose proof (Rmin_r yl (snd v)). pose proof (Rmax_l yu (snd v)). pose proof (Rmax_r yu (snd v)).
    exists xl', xu', yl', yu'. refine (conj E (conj _ (conj _ (conj _ _)))); [lra| | |].
    + intros w [<-|Hw]; [lra|apply A, Hw].
    + destruct L as [L|(w & Hw & L)]; [|right; exists w; split; [right; exact Hw|exact L]].
      destruct (Rle_dec yl (snd v)); [left; rewrite L, Rmin_left by lra; reflexivity|].
      right. exists v. split; [left; reflexivity|]. rewrite L, Rmin_right by lra. reflexivity.
    + destruct U as [U|(w & Hw & U)]; [|right; exists w; split; [right; exact Hw|exact U]].
      destruct (Rle_dec (snd v) yu); [left; rewrite U, Rmax_left by lra; reflexivity|].
      right. exists v. split; [left; reflexivity|]. rewrite U, Rmax_right by lra. reflexivity.
Qed.
Lemma box_spec vs : vs <> [] -> exists xl xu yl yu,
  poly_box vs = (I2 xl xu, I2 yl yu) /\ (forall v, List.In v vs -> xl <= fst v <= xu /\ yl <= snd v <= yu) /\
  (exists v, List.In v vs /\ snd v = yl) /\ (exists v, List.In v vs /\ snd v = yu).
Proof.
  intros N. destruct vs as [|v vs]; [contradiction|]. unfold poly_box. cbn [fold_left].
  change (t_hull t_none (tvec v)) with (I2 (fst v) (fst v), I2 (snd v) (snd v)).
  destruct (fold_box vs (fst v) (fst v) (snd v) (snd v)) as (xl & xu & yl & yu & E & B & A & L & U).
  exists xl, xu, yl, yu. refine (conj E (conj _ (conj _ _))).
  - intros w [<-|Hw]; [lra|apply A, Hw].
  - destruct L as [L|(w & Hw & L)]; [exists v|exists w]; cbn; auto.
  - destruct U as [U|(w & Hw & U)]; [exists v|exists w]; cbn; auto.
Qed.

(** ** Assembly *)
Lemma nonnil {A} (l : list A) : l <> [] -> match l with [] => true | _ => false end = false.
Proof. destruct l; [contradiction|reflexivity]. Qed.
Section Verdict.
  Variables (vs : list pt2) (z : pt2) (xl xu yl yu : R).
  Hypothesis CC : ccw vs.
  Hypothesis EB : poly_box vs = (I2 xl xu, I2 yl yu).
  Hypothesis AB : forall v, List.In v vs -> xl <= fst v <= xu /\ yl <= snd v <= yu.
  Let n := length vs.
  Let V i := nth i vs (0, 0).
  Let b : tpoint := (I2 xl xu, I2 yl yu).
  Let ray : tedge := (tvec z, tvec (xu + 1, snd z)).

  Lemma vs_nil : vs <> [].
  Proof. intros E. destruct CC as [H _]. rewrite E in H. cbn in H. clear - H. lia. Qed.
  Lemma last_map {A B} (f : A -> B) l d d' : l <> [] -> last (map f l) d' = f (last l d).
  Proof.
    intros N. destruct (exists_last N) as (l' & a & ->). rewrite map_app. cbn [map]. rewrite !last_app1. reflexivity.
  Qed.
  Lemma contains_in : xl <= fst z <= xu -> yl <= snd z <= yu ->
    poly_contains gexact vs (tvec z) =
    ray_loop gexact (map (fun e => (tvec (fst e), tvec (snd e))) (pairs vs)) ray b (tvec z)
      (e_inter gexact (tvec (fst (last (pairs vs) ((0, 0), (0, 0)))), tvec (snd (last (pairs vs) ((0, 0), (0, 0))))) ray) 0.
  Proof.
    intros Hx Hy. unfold poly_contains. rewrite EB.
    rewrite (nonnil vs vs_nil).
    change (t_empty (tvec z)) with false. cbn [orb].
    replace (t_empty (t_inter (tvec z) (I2 xl xu, I2 yl yu))) with false.
    2: { symmetry. apply (ptin_not_empty z). apply tpt_in. split; apply In_inter; (split; [apply (ptin_tvec z)|assumption]). }
    rewrite edges_pairs. rewrite (last_map _ (pairs vs) ((0, 0), (0, 0))); [reflexivity|].
    intro E. apply vs_nil. apply length_zero_iff_nil. rewrite <- pairs_length, E. reflexivity.
  Qed.
  Lemma contains_out : ~ (xl <= fst z <= xu /\ yl <= snd z <= yu) -> poly_contains gexact vs (tvec z) = NO.
  Proof.
    intros H. unfold poly_contains. rewrite EB. change (t_empty (tvec z)) with false.
    rewrite (nonnil vs vs_nil). cbn [orb].
    destruct (t_empty (t_inter (tvec z) (I2 xl xu, I2 yl yu))) eqn:T; [reflexivity|exfalso]. unfold t_inter in T.
    destruct (wf_tpt_witness _ _ (wf_inter _ _) (wf_inter _ _) T) as (u & Hu).
    rewrite tpt_in in Hu. destruct Hu as [H1 H2]. apply In_inter in H1 as [H1 H3]. apply In_inter in H2 as [H2 H4].
    apply In_pt in H1. apply In_pt in H2. rewrite H1 in H3. rewrite H2 in H4. apply H. split; assumption.
  Qed.
  Lemma conv_box : conv vs z -> xl <= fst z <= xu /\ yl <= snd z <= yu.
  Proof.
    intros C.
    pose proof (conv_half vs 1 0 (- xl) z) as H1. pose proof (conv_half vs (-1) 0 xu z) as H2.
    pose proof (conv_half vs 0 1 (- yl) z) as H3. pose proof (conv_half vs 0 (-1) yu z) as H4.
    assert (0 <= 1 * fst z + 0 * snd z + - xl) by (apply H1; [intros v Hv; pose proof (AB v Hv); lra|exact C]).
    assert (0 <= -1 * fst z + 0 * snd z + xu) by (apply H2; [intros v Hv; pose proof (AB v Hv); lra|exact C]).
    assert (0 <= 0 * fst z + 1 * snd z + - yl) by (apply H3; [intros v Hv; pose proof (AB v Hv); lra|exact C]).
    assert (0 <= 0 * fst z + -1 * snd z + yu) by (apply H4; [intros v Hv; pose proof (AB v Hv); lra|exact C]). lra.
  Qed.
  Lemma pair_on e : List.In e (pairs vs) -> on_seg (fst e) (snd e) z -> on_boundary vs z.
  Proof. intros H S. destruct (pairs_In vs e H) as (i & Hi & ->). exists i. split; [exact Hi|exact S]. Qed.

  Section Cross.
    Hypothesis Below : exists k, (k < n)%nat /\ snd (V k) < snd z.
    Hypothesis Above : exists k, (k < n)%nat /\ snd z < snd (V k).
    Hypothesis NB : ~ on_boundary vs z.
    Hypothesis HX : xl <= fst z <= xu.
    Let w := map (plab (snd z)) (pairs vs).

    Lemma w_nth i : (i < n)%nat -> nth_error w i = Some (plab (snd z) (V i, V (S i mod n))).
    Proof. intros H. unfold w. rewrite nth_error_map, (pairs_nth vs i H). reflexivity. Qed.
    Lemma w_lt i a : nth_error w i = Some a -> (i < n)%nat.
    Proof. intros H. unfold n. rewrite <- pairs_length. rewrite <- (map_length (plab (snd z))). apply nth_error_Some. fold w. congruence. Qed.
    Lemma lab_LR i : (i < n)%nat -> (plab (snd z) (V i, V (S i mod n)) = LR <-> up vs (snd z) i).
    Proof.
      intros Hi. unfold plab. cbn [fst snd]. rewrite up_def. unfold rng. fold n. fold (V i) (V (S i mod n)).
      destruct (Rleb (Rmin (snd (V i)) (snd (V (S i mod n)))) (snd z) && Rleb (snd z) (Rmax (snd (V i)) (snd (V (S i mod n))))) eqn:E.
      - apply andb_prop in E as [E1 E2]. apply Rleb_true in E1, E2.
        destruct (Rltb _ _) eqn:L.
        + apply Rltb_true in L. split; [auto|reflexivity].
        + apply Rltb_false in L. split; [discriminate|]. intros (_ & _ & U). lra.
      - split; [discriminate|]. intros (_ & [M1 M2] & _). rewrite (Rleb_t _ _ M1), (Rleb_t _ _ M2) in E. discriminate.
    Qed.
    Lemma lab_LL i : (i < n)%nat -> (plab (snd z) (V i, V (S i mod n)) = LL <-> down vs (snd z) i).
    Proof.
      intros Hi. unfold plab. cbn [fst snd]. rewrite down_def. unfold rng. fold n. fold (V i) (V (S i mod n)).
      destruct (Rleb (Rmin (snd (V i)) (snd (V (S i mod n)))) (snd z) && Rleb (snd z) (Rmax (snd (V i)) (snd (V (S i mod n))))) eqn:E.
      - apply andb_prop in E as [E1 E2]. apply Rleb_true in E1, E2.
        assert (M : meets vs (snd z) i) by (split; assumption).
        assert (N : snd (V i) <> snd (V (S i mod n))) by exact (meets_slanted vs CC (snd z) Below Above i Hi M).
        destruct (Rltb _ _) eqn:L.
        + apply Rltb_true in L. split; [discriminate|]. intros (_ & _ & U). lra.
        + apply Rltb_false in L. split; [|reflexivity]. intros _. refine (conj Hi (conj _ _)); lra.
      - split; [discriminate|]. intros (_ & [M1 M2] & _). rewrite (Rleb_t _ _ M1), (Rleb_t _ _ M2) in E. discriminate.
    Qed.
    Lemma cross : exists XL XR, XL < XR /\ fst z <> XL /\ fst z <> XR /\ conv vs (XL, snd z) /\ conv vs (XR, snd z) /\
      (forall x, conv vs (x, snd z) -> XL <= x <= XR) /\
      poly_contains gexact vs (tvec z) = if negb (vis z XL) && vis z XR then YES else NO.
    Proof.
      destruct (some_up vs CC (snd z) Below Above) as (u & U). destruct (some_down vs CC (snd z) Below Above) as (d & D).
      set (XR := X vs (snd z) u). set (XL := X vs (snd z) d).
      assert (LT : XL < XR) by (apply (left_right vs CC (snd z) Below Above u d U D)).
      assert (CL : conv vs (XL, snd z)) by (apply (X_conv vs CC (snd z) Below Above); apply D).
      assert (CR : conv vs (XR, snd z)) by (apply (X_conv vs CC (snd z) Below Above); apply U).
      assert (ML : XL <= xu).
      { pose proof (conv_half vs (-1) 0 xu (XL, snd z)) as H. cbn [fst snd] in H.
        assert (0 <= -1 * XL + 0 * snd z + xu) by (apply H; [intros v Hv; pose proof (AB v Hv); lra|exact CL]). lra. }
      assert (MR : XR <= xu).
      { pose proof (conv_half vs (-1) 0 xu (XR, snd z)) as H. cbn [fst snd] in H.
        assert (0 <= -1 * XR + 0 * snd z + xu) by (apply H; [intros v Hv; pose proof (AB v Hv); lra|exact CR]). lra. }
      assert (NL : fst z <> XL).
      { intro E. apply NB. exists d. split; [apply D|]. rewrite (surjective_pairing z), E.
        apply (meets_seg vs CC (snd z) Below Above); apply D. }
      assert (NR : fst z <> XR).
      { intro E. apply NB. exists u. split; [apply U|]. rewrite (surjective_pairing z), E.
        apply (meets_seg vs CC (snd z) Below Above); apply U. }
      exists XL, XR. refine (conj LT (conj NL (conj NR (conj CL (conj CR (conj _ _)))))).
      { intros x C. split; [apply (down_left vs CC (snd z) d x D C)|apply (up_right vs CC (snd z) u x U C)]. }
      assert (HY : yl < snd z < yu).
      { destruct Below as (k & Hk & B). destruct Above as (l & Hl & A).
        pose proof (AB (V k) (nth_In _ _ Hk)). pose proof (AB (V l) (nth_In _ _ Hl)). lra. }
      assert (OK : Forall (e_ok z XL XR) (pairs vs)).
      { apply Forall_forall. intros e He. destruct (pairs_In vs e He) as (i & Hi & ->). unfold e_ok. fold n. fold (V i) (V (S i mod n)).
        destruct (plab (snd z) (V i, V (S i mod n))) eqn:E; [exact I| |]; cbn [fst snd].
        - apply lab_LL in E; [|exact Hi]. split; [assert (E3 : snd (V (S i mod n)) < snd (V i)) by apply E; lra|].
          apply (down_same vs CC (snd z) Below Above i d E D).
        - apply lab_LR in E; [|exact Hi]. split; [assert (E3 : snd (V i) < snd (V (S i mod n))) by apply E; lra|].
          apply (up_same vs CC (snd z) Below Above i u E U). }
      rewrite contains_in by lra. set (le := last (pairs vs) ((0, 0), (0, 0))).
      assert (LE : List.In le (pairs vs)).
      { unfold le. destruct (exists_last (l := pairs vs)) as (l' & a & E).
        - intro E. apply vs_nil. apply length_zero_iff_nil. rewrite <- pairs_length, E. reflexivity.
        - rewrite E, last_app1. apply in_or_app. right. left. reflexivity. }
      unfold ray. rewrite (seen_edge z (xu + 1) XL XR); [|lra..|rewrite Forall_forall in OK; apply OK, LE].
      rewrite (loop_sim z (xu + 1) XL XR xl xu yl yu); [|lra..|exact OK]. fold w.
      assert (LW : plab (snd z) le = last w LS).
      { unfold w, le. symmetry. apply last_map. intro E. rewrite E in LE. exact LE. }
      rewrite LW. rewrite Nat.add_0_l.
      assert (IR : List.In LR w).
      { apply nth_error_In with u. rewrite w_nth by apply U. f_equal. apply lab_LR; [apply U|exact U]. }
      assert (IL : List.In LL w).
      { apply nth_error_In with d. rewrite w_nth by apply D. f_equal. apply lab_LL; [apply D|exact D]. }
      assert (LEN : length w = n) by (unfold w; rewrite map_length; apply pairs_length).
      assert (AR : cyc_adj LR w).
      { intros i j L Ei Ej. pose proof (w_lt i _ Ei) as Hi. pose proof (w_lt j _ Ej) as Hj.
        rewrite w_nth in Ei, Ej by assumption. injection Ei as Ei. injection Ej as Ej.
        apply lab_LR in Ei; [|exact Hi]. apply lab_LR in Ej; [|exact Hj]. rewrite LEN.
        apply (adjacent vs CC (snd z) Below Above i j L Hj); [apply Ei|apply Ej|].
        apply (up_same vs CC (snd z) Below Above); assumption. }
      assert (AL : cyc_adj LL w).
      { intros i j L Ei Ej. pose proof (w_lt i _ Ei) as Hi. pose proof (w_lt j _ Ej) as Hj.
        rewrite w_nth in Ei, Ej by assumption. injection Ei as Ei. injection Ej as Ej.
        apply lab_LL in Ei; [|exact Hi]. apply lab_LL in Ej; [|exact Hj]. rewrite LEN.
        apply (adjacent vs CC (snd z) Below Above i j L Hj); [apply Ei|apply Ej|].
        apply (down_same vs CC (snd z) Below Above); assumption. }
      assert (RR : runs LR w (is_lab LR (last w LS)) = 1%nat) by (apply (one_run LR LL); congruence || assumption).
      assert (RL : runs LL w (is_lab LL (last w LS)) = 1%nat) by (apply (one_run LL LR); congruence || assumption).
      destruct (vis z XL) eqn:VL, (vis z XR) eqn:VR; cbn [negb andb].
      - rewrite cnt_both. unfold seen. rewrite VL, VR.
        destruct (last w LS) eqn:EL; rewrite RR, RL; reflexivity.
      - unfold vis in VL, VR. apply Rltb_true in VL. apply Rltb_false in VR. lra.
      - unfold seen. rewrite VL, VR. destruct (last w LS) eqn:EL; rewrite cnt_right by discriminate.
        + rewrite RR. reflexivity.
        + change (is_lab LR LS) with (is_lab LR LL). rewrite RR. reflexivity.
        + rewrite RR. reflexivity.
      - rewrite cnt_none. reflexivity.
    Qed.
  End Cross.
End Verdict.

(** For a strictly convex polygon and a point, with the exact arithmetic, the verdict is exact: MAYBE on the boundary,
    YES in the interior, NO outside. *)
Theorem C47_point_partial : forall vs z, ccw vs ->
  (poly_contains gexact vs (tvec z) = MAYBE <-> on_boundary vs z) /\
  (poly_contains gexact vs (tvec z) = YES <-> conv vs z /\ ~ on_boundary vs z) /\
  (poly_contains gexact vs (tvec z) = NO <-> ~ conv vs z).
Proof.
  intros vs z CC.
  destruct (box_spec vs (vs_nil vs CC)) as (xl & xu & yl & yu & EB & AB & YL & YU).
  assert (P1 : on_boundary vs z -> poly_contains gexact vs (tvec z) = MAYBE).
  { intros OB. pose proof (conv_box vs z xl xu yl yu AB (boundary_conv vs CC z OB)) as [Bx By].
    rewrite (contains_in vs z xl xu yl yu CC EB Bx By). apply loop_maybe; [lra|].
    destruct OB as (i & Hi & S). eexists. split; [apply (nth_error_In (pairs vs) i), (pairs_nth vs i Hi)|exact S]. }
  assert (P2 : conv vs z -> ~ on_boundary vs z -> poly_contains gexact vs (tvec z) = YES).
  { intros C NB. pose proof (conv_box vs z xl xu yl yu AB C) as [Bx By].
    destruct (interior_level vs CC z C NB) as [Be Ab].
    destruct (cross vs z xl xu yl yu CC EB AB Be Ab NB Bx) as (XL & XR & LT & NL & NR & CL & CR & HC & E). rewrite E.
    destruct (HC (fst z)) as [H1 H2]; [rewrite <- surjective_pairing; exact C|].
    unfold vis. rewrite (Rltb_t (fst z) XR), (Rltb_f (fst z) XL) by lra. reflexivity. }
  assert (P3 : ~ conv vs z -> poly_contains gexact vs (tvec z) = NO).
  { intros NC. assert (NB : ~ on_boundary vs z) by (intro OB; apply NC, (boundary_conv vs CC z OB)).
    destruct (classic (xl <= fst z <= xu /\ yl <= snd z <= yu)) as [[Bx By]|NBX].
    2: { apply (contains_out vs z xl xu yl yu CC EB NBX). }
    destruct (Req_dec (snd z) yl) as [E1|E1]; [|destruct (Req_dec (snd z) yu) as [E2|E2]].
    1,2: rewrite (contains_in vs z xl xu yl yu CC EB Bx By); apply loop_extreme; [lra|auto|]; apply Forall_forall; intros e He;
      (split; [|intro S; apply NB, (pair_on vs z e He S)]);
      destruct (pairs_In vs e He) as (i & Hi & ->); cbn [fst snd]; intro EV;
      assert (HA : exists k, (k < length vs)%nat /\ k <> i /\ k <> (S i mod length vs)%nat)
        by (pose proof (n3 vs CC); exists (S (S i mod length vs) mod length vs)%nat;
            split; [apply (nx_lt vs CC)|split; [apply (nx2 vs CC i Hi)|apply (nx_neq vs CC), (nx_lt vs CC)]]);
      destruct HA as (k & Hk & K1 & K2); pose proof (area_pos vs CC i k Hi Hk K1 K2) as A; cbv beta zeta in A; rewrite <- EV in A; unfold area in A; lra.
    destruct YL as (vl & VL & EL). destruct YU as (vu & VU & EU).
    destruct (In_nth _ _ (0, 0) VL) as (k & Hk & Ek). destruct (In_nth _ _ (0, 0) VU) as (l & Hl & El).
    destruct (cross vs z xl xu yl yu CC EB AB) as (XL & XR & LT & NL & NR & CL & CR & HC & E).
    - exists k. split; [exact Hk|]. apply (Rle_lt_trans _ yl); [right; rewrite <- EL, <- Ek; reflexivity|lra].
    - exists l. split; [exact Hl|]. apply (Rlt_le_trans _ yu); [lra|right; rewrite <- EU, <- El; reflexivity].
    - exact NB.
    - exact Bx.
    - rewrite E. unfold vis. destruct (Rlt_dec (fst z) XL) as [L|L].
      + rewrite Rltb_t by lra. reflexivity.
      + destruct (Rlt_dec (fst z) XR) as [L2|L2].
        * exfalso. apply NC. apply (conv_seg vs (XL, snd z) (XR, snd z) z CL CR).
          exists ((fst z - XL) / (XR - XL)). cbn [fst snd]. split; [|split; [field; lra|ring]]. split.
          -- apply div_ge0; lra.
          -- apply Rmult_le_reg_r with (XR - XL); [lra|]. unfold Rdiv. rewrite Rmult_assoc, Rinv_l by lra. lra.
        * rewrite (Rltb_f (fst z) XR) by lra. rewrite andb_false_r. reflexivity. }
  destruct (classic (on_boundary vs z)) as [OB|NB].
  { pose proof (boundary_conv vs CC z OB) as C. rewrite (P1 OB). split; [tauto|]. split; split; try discriminate; tauto. }
  destruct (classic (conv vs z)) as [C|NC].
  - rewrite (P2 C NB). split; [split; [discriminate|tauto]|]. split; [tauto|]. split; [discriminate|tauto].
  - rewrite (P3 NC). split; [split; [discriminate|tauto]|]. split; [split; [discriminate|tauto]|]. tauto.
Qed.
(** a quadrilateral and the three verdicts *)
Example C47_point_ex :
  poly_contains gexact quad (tvec (1, 1)) = YES /\ poly_contains gexact quad (tvec (1, 1 / 3)) = MAYBE /\ poly_contains gexact quad (tvec (3, 3)) = NO.
Proof.
  refine (conj _ (conj _ _)).
  - apply (proj1 (proj2 (C47_point_partial quad (1, 1) quad_ccw))). split.
    + apply (conv_seg quad (1, 1 / 3) (1, 5 / 2)).
      * apply (conv_seg quad (0, 0) (3, 1)); [apply conv_vertex; cbn; tauto|apply conv_vertex; cbn; tauto|]. exists (1 / 3). cbn. lra.
      * apply (conv_seg quad (2, 2) (0, 3)); [apply conv_vertex; cbn; tauto|apply conv_vertex; cbn; tauto|]. exists (1 / 2). cbn. lra.
      * exists ((1 - 1 / 3) / (13 / 6)). cbn. lra.
    + intros (i & Hi & k & K & Zx & Zy). cbn in Hi.
      assert ((i = 0 \/ i = 1 \/ i = 2 \/ i = 3)%nat) as [->|[->|[->| ->]]] by lia; cbn in Zx, Zy; lra.
  - apply (proj1 (C47_point_partial quad (1, 1 / 3) quad_ccw)). exists 1%nat. split; [cbn; lia|]. exists (1 / 3). cbn. lra.
  - apply (proj2 (proj2 (C47_point_partial quad (3, 3) quad_ccw))). intros C.
    apply (conv_half quad (-1) (-1) 4) in C; [cbn in C; lra|]. intros v [<-|[<-|[<-|[<-|[]]]]]; cbn; lra.
Qed.

Print Assumptions C47_point_partial.
