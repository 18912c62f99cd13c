(** * C52: octahedral symmetries form a group that acts on boxes, and CtcAction is sound *)

From Coq Require Import Reals Lra Lia Bool List Arith ZArith.
Import ListNotations.
From Verif Require Import Itv Arith Static PropsStatic Sivia PropsSivia PropsSep2 Concrete Octa.
Open Scope R_scope.

(** ** Specification *)
(** a signed permutation of the [n] first integers *)
Definition sperm (n : nat) (s : list Z) : Prop :=
  length s = n /\ Forall (fun a => (1 <= Z.abs a <= Z.of_nat n)%Z) s /\ NoDup (map Z.abs s).
(** its action on a point of R^n: the component [i] of the result is plus or minus the component [|s_i|], counted from
    1, of the point *)
Definition pact (s : list Z) (p : list R) : list R :=
  map (fun a => IZR (Z.sgn a) * nth (Z.to_nat (Z.abs a)) (0 :: p) 0) s.
(** the neutral symmetry (1 2 ... n) *)
Definition neutral (n : nat) : list Z := map Z.of_nat (seq 1 n).

(** ** Proofs *)
Lemma map_nth_lt {A B} (f : A -> B) l d d' i : (i < length l)%nat -> nth i (map f l) d' = f (nth i l d).
Proof. revert i. induction l; intros [|i] H; cbn in *; try lia; auto. apply IHl. lia. Qed.
Lemma idx_abs a : (1 <= Z.abs a)%Z -> S (idx a) = Z.to_nat (Z.abs a).
Proof. unfold idx. lia. Qed.
Lemma sperm_idx n s a : sperm n s -> List.In a s -> (idx a < n)%nat /\ a <> 0%Z /\ S (idx a) = Z.to_nat (Z.abs a) /\ Z.abs a = Z.of_nat (S (idx a)).
Proof.
  intros (L & F & _) Ha. rewrite Forall_forall in F. specialize (F _ Ha). cbv beta in F. unfold idx. lia.
Qed.
Lemma sperm_nth n s i : sperm n s -> (i < n)%nat -> List.In (nth i s 0%Z) s.
Proof. intros (L & _) H. apply nth_In. lia. Qed.
Lemma sperm_inj n s i j : sperm n s -> (i < n)%nat -> (j < n)%nat -> idx (nth i s 0%Z) = idx (nth j s 0%Z) -> i = j.
Proof.
  intros Hs Hi Hj E. pose proof (sperm_nth _ _ _ Hs Hi) as Ii. pose proof (sperm_nth _ _ _ Hs Hj) as Ij.
  apply (sperm_idx n) in Ii; auto. apply (sperm_idx n) in Ij; auto.
  destruct Hs as (L & F & N). rewrite (NoDup_nth (map Z.abs s) 0%Z) in N. apply N; rewrite ?map_length; try lia.
  change 0%Z with (Z.abs 0). rewrite !map_nth. lia.
Qed.
Lemma sperm_surj n s k : sperm n s -> (k < n)%nat -> exists i, (i < n)%nat /\ idx (nth i s 0%Z) = k.
Proof.
  intros Hs Hk. destruct Hs as (L & F & N).
  assert (P : incl (map Z.of_nat (seq 1 n)) (map Z.abs s)).
  { apply NoDup_length_incl; auto.
    - rewrite !map_length, seq_length. lia.
    - intros a Ha. apply in_map_iff in Ha. destruct Ha as (b & <- & Hb). rewrite Forall_forall in F. specialize (F _ Hb). cbv beta in F.
      apply in_map_iff. exists (Z.to_nat (Z.abs b)). split; [lia|]. apply in_seq. lia. }
  specialize (P (Z.of_nat (S k))). assert (Q : List.In (Z.of_nat (S k)) (map Z.abs s)).
  { apply P. apply List.in_map. apply in_seq. lia. }
  apply in_map_iff in Q. destruct Q as (a & E & Ha). apply (In_nth _ _ 0%Z) in Ha. destruct Ha as (i & Hi & <-).
  exists i. split; [lia|]. unfold idx. lia.
Qed.

Lemma vset_len k a v : length (vset k a v) = length v.
Proof. revert k. induction v; intros [|k]; cbn; auto. Qed.
Lemma vset_same k a v d : (k < length v)%nat -> nth k (vset k a v) d = a.
Proof. revert k. induction v; intros [|k] H; cbn in *; try lia; auto. apply IHv. lia. Qed.
Lemma vset_other k j a v d : j <> k -> nth j (vset k a v) d = nth j v d.
Proof. revert k j. induction v; intros [|k] [|j] H; cbn; auto; try congruence. Qed.

Lemma loop_len s i v : length (invert_loop s i v) = length v.
Proof. revert i v. induction s; intros i v; cbn; auto. rewrite IHs. apply vset_len. Qed.
Lemma loop_other s i v k d : ~ List.In k (map idx s) -> nth k (invert_loop s i v) d = nth k v d.
Proof.
  revert i v. induction s as [|a s IH]; intros i v H; cbn in *; auto. rewrite IH by tauto. apply vset_other. intuition.
Qed.
Lemma loop_at s : forall i v j d, NoDup (map idx s) -> (forall a, List.In a s -> (idx a < length v)%nat) -> (j < length s)%nat ->
  nth (idx (nth j s 0%Z)) (invert_loop s i v) d = (Z.of_nat (i + j + 1) * (if (0 <=? nth j s 0%Z)%Z then 1 else -1))%Z.
Proof.
  induction s as [|a s IH]; intros i v j d N B Hj; cbn [length] in Hj; [lia|]. cbn [map] in N. inversion N; subst.
  destruct j as [|j]; cbn [nth invert_loop].
  - rewrite loop_other by auto. rewrite vset_same by (apply B; left; reflexivity). f_equal; lia.
  - rewrite IH; auto; [|intros b Hb; rewrite vset_len; apply B; right; exact Hb|lia]. f_equal; lia.
Qed.

Lemma nodup_idx n s : sperm n s -> NoDup (map idx s).
Proof.
  intros Hs. apply (NoDup_nth _ (idx 0)). rewrite map_length. intros i j Hi Hj E. rewrite !map_nth in E. pose proof Hs as (L & _).
  apply (sperm_inj n s); auto; lia.
Qed.

(** the inverse at the place of [s_i] *)
Lemma invert_at n s i : sperm n s -> (i < n)%nat ->
  nth (idx (nth i s 0%Z)) (invert s) 0%Z = (Z.of_nat (i + 1) * Z.sgn (nth i s 0%Z))%Z.
Proof.
  intros Hs Hi. unfold invert. pose proof Hs as (L & _). rewrite loop_at; try lia.
  - pose proof (sperm_idx n s _ Hs (sperm_nth _ _ _ Hs Hi)) as (_ & Z0 & _). replace (0 + i + 1)%nat with (i + 1)%nat by lia.
    f_equal. destruct (Z.leb_spec 0 (nth i s 0%Z)); lia.
  - apply (nodup_idx n); auto.
  - intros a Ha. rewrite L. apply (sperm_idx n s); auto.
Qed.
Lemma invert_len n s : sperm n s -> length (invert s) = n.
Proof. intros (L & _). unfold invert. rewrite loop_len. exact L. Qed.

Theorem C52_invert : forall n s, sperm n s -> sperm n (invert s).
Proof.
  intros n s Hs. pose proof (invert_len _ _ Hs) as L.
  assert (V : forall k, (k < n)%nat -> exists i, (i < n)%nat /\ idx (nth i s 0%Z) = k /\ Z.abs (nth k (invert s) 0%Z) = Z.of_nat (i + 1)).
  { intros k Hk. destruct (sperm_surj _ _ _ Hs Hk) as (i & Hi & E). exists i. refine (conj Hi (conj E _)). subst k.
    rewrite (invert_at n) by auto. pose proof (sperm_idx n s _ Hs (sperm_nth _ _ _ Hs Hi)) as (_ & Z0 & _). lia. }
  refine (conj L (conj _ _)).
  - rewrite Forall_forall. intros a Ha. apply (In_nth _ _ 0%Z) in Ha. destruct Ha as (k & Hk & <-). rewrite L in Hk.
    destruct (V k Hk) as (i & Hi & _ & E). lia.
  - apply (NoDup_nth _ (Z.abs 0)). rewrite map_length, L. intros j k Hj Hk E. rewrite !map_nth in E.
    destruct (V j Hj) as (i1 & _ & E1 & A1). destruct (V k Hk) as (i2 & _ & E2 & A2).
    assert (i1 = i2) by lia. congruence.
Qed.

(** ** the group *)
Lemma nth_compose s1 s2 i : (i < length s1)%nat ->
  nth i (compose s1 s2) 0%Z = (Z.sgn (nth i s2 0%Z) * nth (idx (nth i s2 0%Z)) s1 0%Z)%Z.
Proof.
  intros H. unfold compose. rewrite (map_nth_lt _ _ 0%nat) by (rewrite seq_length; exact H).
  rewrite seq_nth by exact H. cbn [Nat.add]. f_equal. unfold isign.
  destruct (Z.ltb_spec 0 (nth i s2 0%Z)); [lia|]. destruct (Z.ltb_spec (nth i s2 0%Z) 0); lia.
Qed.
Lemma compose_len s1 s2 : length (compose s1 s2) = length s1.
Proof. unfold compose. rewrite map_length, seq_length. reflexivity. Qed.
Lemma compose_at n s1 s2 i : sperm n s1 -> sperm n s2 -> (i < n)%nat ->
  Z.abs (nth i (compose s1 s2) 0%Z) = Z.abs (nth (idx (nth i s2 0%Z)) s1 0%Z) /\
  Z.sgn (nth i (compose s1 s2) 0%Z) = (Z.sgn (nth i s2 0%Z) * Z.sgn (nth (idx (nth i s2 0%Z)) s1 0%Z))%Z.
Proof.
  intros H1 H2 Hi. rewrite nth_compose by (destruct H1 as (-> & _); exact Hi).
  pose proof (sperm_idx n s2 _ H2 (sperm_nth _ _ _ H2 Hi)) as (B & Z0 & _).
  rewrite Z.abs_mul, Z.sgn_mul, Z.sgn_sgn. split; auto. lia.
Qed.
Lemma idx_eq a b : Z.abs a = Z.abs b -> idx a = idx b. Proof. unfold idx. intros ->. reflexivity. Qed.

Theorem C52_compose : forall n s1 s2, sperm n s1 -> sperm n s2 -> sperm n (compose s1 s2).
Proof.
  intros n s1 s2 H1 H2. assert (L : length (compose s1 s2) = n) by (rewrite compose_len; apply H1).
  refine (conj L (conj _ _)).
  - rewrite Forall_forall. intros a Ha. apply (In_nth _ _ 0%Z) in Ha. destruct Ha as (i & Hi & <-). rewrite L in Hi.
    destruct (compose_at n s1 s2 i H1 H2 Hi) as (-> & _).
    pose proof (sperm_idx n s2 _ H2 (sperm_nth _ _ _ H2 Hi)) as (B & _).
    pose proof (sperm_idx n s1 _ H1 (sperm_nth _ _ _ H1 B)) as (B' & Z0 & _ & E). lia.
  - apply (NoDup_nth _ (Z.abs 0)). rewrite map_length, L. intros i j Hi Hj E. rewrite !map_nth in E.
    destruct (compose_at n s1 s2 i H1 H2 Hi) as (E1 & _). destruct (compose_at n s1 s2 j H1 H2 Hj) as (E2 & _).
    apply (sperm_inj n s2); auto. rewrite E1, E2 in E. apply idx_eq in E.
    pose proof (sperm_idx n s2 _ H2 (sperm_nth _ _ _ H2 Hi)) as (B & _).
    pose proof (sperm_idx n s2 _ H2 (sperm_nth _ _ _ H2 Hj)) as (B' & _).
    apply (sperm_inj n s1); auto.
Qed.

Lemma zeq a b : Z.abs a = Z.abs b -> Z.sgn a = Z.sgn b -> a = b.
Proof. lia. Qed.
Lemma list_ext (a b : list Z) n : length a = n -> length b = n -> (forall i, (i < n)%nat -> nth i a 0%Z = nth i b 0%Z) -> a = b.
Proof. intros La Lb H. apply (nth_ext a b 0%Z 0%Z); try congruence. intros i Hi. apply H. lia. Qed.

Theorem C52_assoc : forall n s1 s2 s3, sperm n s1 -> sperm n s2 -> sperm n s3 ->
  compose (compose s1 s2) s3 = compose s1 (compose s2 s3).
Proof.
  intros n s1 s2 s3 H1 H2 H3. pose proof (C52_compose _ _ _ H1 H2) as H12. pose proof (C52_compose _ _ _ H2 H3) as H23.
  apply list_ext with (n := n); rewrite ?compose_len; try apply H1. intros i Hi.
  pose proof (sperm_idx n s3 _ H3 (sperm_nth _ _ _ H3 Hi)) as (B & _).
  destruct (compose_at _ _ _ _ H12 H3 Hi) as (A1 & S1). destruct (compose_at _ _ _ _ H1 H23 Hi) as (A2 & S2).
  destruct (compose_at _ _ _ _ H2 H3 Hi) as (A3 & S3). destruct (compose_at _ _ _ _ H1 H2 B) as (A4 & S4).
  apply idx_eq in A3. rewrite A3 in A2, S2.
  apply zeq; [congruence|]. rewrite S1, S2, S3, S4. ring.
Qed.

Lemma neutral_nth n i : (i < n)%nat -> nth i (neutral n) 0%Z = Z.of_nat (S i).
Proof.
  intros H. unfold neutral. rewrite (map_nth_lt _ _ 0%nat) by (rewrite seq_length; exact H).
  rewrite seq_nth by exact H. reflexivity.
Qed.
Lemma neutral_len n : length (neutral n) = n. Proof. unfold neutral. rewrite map_length. apply seq_length. Qed.

Theorem C52_inverse : forall n s, sperm n s ->
  compose s (invert s) = neutral n /\ compose (invert s) s = neutral n /\ invert (invert s) = s /\
  compose s (neutral n) = s /\ compose (neutral n) s = s.
Proof.
  intros n s Hs. pose proof (C52_invert _ _ Hs) as Hi. pose proof (invert_len _ _ Hs) as Li. pose proof Hs as (L & _).
  assert (II : forall i, (i < n)%nat -> idx (nth (idx (nth i s 0%Z)) (invert s) 0%Z) = i /\
                Z.sgn (nth (idx (nth i s 0%Z)) (invert s) 0%Z) = Z.sgn (nth i s 0%Z)).
  { intros i H. rewrite (invert_at n) by auto. pose proof (sperm_idx n s _ Hs (sperm_nth _ _ _ Hs H)) as (_ & Z0 & _).
    unfold idx at 1. split; lia. }
  refine (conj _ (conj _ (conj _ (conj _ _)))).
  - apply list_ext with (n := n); rewrite ?compose_len, ?neutral_len; auto. intros k Hk. rewrite neutral_nth by auto.
    destruct (sperm_surj _ _ _ Hs Hk) as (i & H & <-). destruct (II i H) as (E & Sg).
    destruct (compose_at n s (invert s) _ Hs Hi Hk) as (A & B). rewrite E in A, B.
    pose proof (sperm_idx n s _ Hs (sperm_nth _ _ _ Hs H)) as (_ & Z0 & _ & Ab).
    apply zeq; [lia|]. rewrite B, Sg. lia.
  - apply list_ext with (n := n); rewrite ?compose_len, ?neutral_len; auto. intros i H. rewrite neutral_nth by auto.
    rewrite nth_compose by lia. rewrite (invert_at n) by auto.
    pose proof (sperm_idx n s _ Hs (sperm_nth _ _ _ Hs H)) as (_ & Z0 & _). lia.
  - apply list_ext with (n := n); auto; [rewrite (invert_len n); auto|]. intros i H. destruct (II i H) as (E & Sg).
    pose proof (sperm_idx n s _ Hs (sperm_nth _ _ _ Hs H)) as (B & Z0 & _ & Ab).
    pose proof (invert_at n (invert s) (idx (nth i s 0%Z)) Hi B) as V. rewrite E in V. rewrite V, Sg. lia.
  - apply list_ext with (n := n); rewrite ?compose_len; auto. intros i H. rewrite nth_compose by lia. rewrite neutral_nth by auto.
    replace (idx (Z.of_nat (S i))) with i by (unfold idx; lia). lia.
  - apply list_ext with (n := n); rewrite ?compose_len, ?neutral_len; auto. intros i H. rewrite nth_compose by (rewrite neutral_len; lia).
    pose proof (sperm_idx n s _ Hs (sperm_nth _ _ _ Hs H)) as (B & Z0 & _ & Ab). rewrite neutral_nth by auto. lia.
Qed.

(** ** the action on boxes *)
Lemma sign_mul_sgn a b i : Z.sgn a = Z.sgn b -> sign_mul a i = sign_mul b i.
Proof.
  intros E. unfold sign_mul. destruct (Z.ltb_spec 0 a), (Z.ltb_spec 0 b); try lia; auto.
  destruct (Z.ltb_spec a 0), (Z.ltb_spec b 0); try lia; auto.
Qed.
Lemma xneg_xneg i : xneg (xneg i) = i.
Proof. destruct i as [|[a|] [b|]]; cbn; auto; rewrite ?Ropp_involutive; auto. Qed.
Lemma sign_mul_mul a b i : a <> 0%Z -> b <> 0%Z -> sign_mul a (sign_mul b i) = sign_mul (Z.sgn a * Z.sgn b) i.
Proof.
  intros Ha Hb. unfold sign_mul. destruct (Z.ltb_spec 0 a), (Z.ltb_spec a 0); try lia; destruct (Z.ltb_spec 0 b), (Z.ltb_spec b 0); try lia;
  rewrite ?(Z.sgn_pos a), ?(Z.sgn_neg a), ?(Z.sgn_pos b), ?(Z.sgn_neg b) by lia; cbn; auto using xneg_xneg.
Qed.
Lemma In_sign_mul a v i : a <> 0%Z -> (In (IZR (Z.sgn a) * v) (sign_mul a i) <-> In v i).
Proof.
  intros Ha. unfold sign_mul. destruct (Z.ltb_spec 0 a), (Z.ltb_spec a 0); try lia;
  rewrite ?(Z.sgn_pos a), ?(Z.sgn_neg a) by lia.
  - rewrite Rmult_1_l. tauto.
  - destruct i as [|[c|] [d|]]; cbn; intuition lra.
Qed.

Lemma act_len s x y : act s x = Some y -> length y = length s /\ length x = length s.
Proof. unfold act. destruct (Nat.eqb_spec (length x) (length s)); intros H; inversion H; subst. rewrite map_length. auto. Qed.
Lemma act_nth s x y i : act s x = Some y -> (i < length s)%nat -> nth i y Emp = sign_mul (nth i s 0%Z) (nth (idx (nth i s 0%Z)) x Emp).
Proof.
  unfold act. destruct (Nat.eqb (length x) (length s)); intros H Hi; inversion H; subst.
  rewrite (map_nth_lt _ _ 0%Z) by exact Hi. reflexivity.
Qed.
Lemma act_some s x : length x = length s -> exists y, act s x = Some y.
Proof. intros H. unfold act. rewrite H, Nat.eqb_refl. eauto. Qed.
Lemma pact_nth s p i : (i < length s)%nat -> (1 <= Z.abs (nth i s 0%Z))%Z ->
  nth i (pact s p) 0 = IZR (Z.sgn (nth i s 0%Z)) * nth (idx (nth i s 0%Z)) p 0.
Proof.
  intros H B. unfold pact.
  rewrite (map_nth_lt _ _ 0%Z) by exact H. f_equal. rewrite <- idx_abs by lia. reflexivity.
Qed.
Lemma pact_len s p : length (pact s p) = length s. Proof. apply map_length. Qed.
Lemma inb_nth p x : inb p x <-> length p = length x /\ forall i, (i < length x)%nat -> In (nth i p 0) (nth i x Emp).
Proof.
  split.
  - intros H. induction H as [|a b p x Hab Hp [L IH]]; cbn; split; auto; try lia. intros [|i] Hi; auto. apply IH. lia.
  - revert p. induction x as [|b x IH]; intros p [L H]; destruct p as [|a p]; cbn in L; try lia; constructor.
    + apply (H 0%nat). cbn; lia.
    + apply IH. split; [lia|]. intros i Hi. apply (H (S i)). cbn; lia.
Qed.

(** the image of a box is exactly the set of the images of its points *)
Theorem C52_image : forall n s x y p, sperm n s -> act s x = Some y -> length p = n ->
  (inb (pact s p) y <-> inb p x).
Proof.
  intros n s x y p Hs Ha Lp. pose proof (act_len _ _ _ Ha) as (Ly & Lx). pose proof Hs as (L & _).
  rewrite !inb_nth, pact_len. split; intros [_ H]; split; try congruence.
  - intros k Hk. destruct (sperm_surj n s k Hs) as (i & Hi & <-); [congruence|]. specialize (H i ltac:(lia)).
    rewrite (act_nth _ _ _ _ Ha) in H by lia. pose proof (sperm_idx n s _ Hs (sperm_nth _ _ _ Hs Hi)) as (B & Z0 & _ & Ab).
    rewrite pact_nth in H by lia. rewrite In_sign_mul in H; auto.
  - intros i Hi. rewrite (act_nth _ _ _ _ Ha) by lia. pose proof (sperm_idx n s _ Hs (sperm_nth _ _ i Hs ltac:(lia))) as (B & Z0 & _ & Ab).
    rewrite pact_nth by lia. rewrite In_sign_mul; auto. apply H. lia.
Qed.

Theorem C52_action : forall n s1 s2 x y z, sperm n s1 -> sperm n s2 ->
  act s1 x = Some y -> act s2 y = Some z -> act (compose s1 s2) x = Some z.
Proof.
  intros n s1 s2 x y z H1 H2 A1 A2. pose proof (C52_compose _ _ _ H1 H2) as H12.
  pose proof (act_len _ _ _ A1) as (Ly & Lx). pose proof (act_len _ _ _ A2) as (Lz & Lz2).
  assert (Lc : length (compose s1 s2) = n) by apply H12. pose proof H1 as (L1 & _). pose proof H2 as (L2 & _).
  destruct (act_some (compose s1 s2) x) as (w & Hw); [congruence|]. rewrite Hw. f_equal.
  pose proof (act_len _ _ _ Hw) as (Lw & _).
  apply (nth_ext w z Emp Emp); [congruence|]. intros i Hi. assert (Hn : (i < n)%nat) by congruence.
  rewrite (act_nth _ _ _ _ Hw), (act_nth _ _ _ _ A2) by congruence.
  pose proof (sperm_idx n s2 _ H2 (sperm_nth _ _ _ H2 Hn)) as (B & Z2 & _).
  pose proof (sperm_idx n s1 _ H1 (sperm_nth _ _ _ H1 B)) as (B' & Z1 & _).
  rewrite (act_nth _ _ _ _ A1) by congruence. rewrite sign_mul_mul by auto.
  destruct (compose_at _ _ _ _ H1 H2 Hn) as (A & Sg). rewrite (idx_eq _ _ A). apply sign_mul_sgn.
  rewrite Sg, Z.sgn_mul, !Z.sgn_sgn. reflexivity.
Qed.

Lemma act_neutral n x : length x = n -> act (neutral n) x = Some x.
Proof.
  intros L. destruct (act_some (neutral n) x) as (y & Hy); [rewrite neutral_len; exact L|]. rewrite Hy. f_equal.
  pose proof (act_len _ _ _ Hy) as (Ly & _). rewrite neutral_len in Ly. apply (nth_ext y x Emp Emp); [congruence|]. intros i Hi.
  rewrite (act_nth _ _ _ _ Hy) by (rewrite neutral_len; congruence). rewrite neutral_nth by congruence.
  replace (idx (Z.of_nat (S i))) with i by (unfold idx; lia). unfold sign_mul. destruct (Z.ltb_spec 0 (Z.of_nat (S i))); auto; lia.
Qed.

Theorem C52_inverse_action : forall n s x y, sperm n s -> act s x = Some y -> act (invert s) y = Some x.
Proof.
  intros n s x y Hs Ha. pose proof (C52_invert _ _ Hs) as Hi. pose proof (act_len _ _ _ Ha) as (Ly & Lx). pose proof Hs as (L & _).
  destruct (act_some (invert s) y) as (z & Hz); [rewrite (invert_len n); congruence|].
  pose proof (C52_action n _ _ _ _ _ Hs Hi Ha Hz) as C. destruct (C52_inverse _ _ Hs) as (E & _).
  rewrite E, act_neutral in C by congruence. congruence.
Qed.

(** what CtcAction keeps: exactly the points of the box whose image is kept by the contractor *)
Lemma inb_len p x : inb p x -> length p = length x.
Proof. rewrite inb_nth. tauto. Qed.
Theorem C52_ctc : forall n s c x, sperm n s -> length x = n -> (forall y, length y = n -> length (c y) = n) ->
  exists y z, act s x = Some y /\ ctc_action c s x = Some z /\
    (forall p, length p = n -> (inb p z <-> inb p x /\ inb (pact s p) (c y))).
Proof.
  intros n s c x Hs Lx Lc. pose proof Hs as (L & _). destruct (act_some s x) as (y & Hy); [congruence|].
  pose proof (act_len _ _ _ Hy) as (Ly & _). assert (Lcy : length (c y) = n) by (apply Lc; congruence).
  destruct (act_some (invert s) (c y)) as (w & Hw); [rewrite (invert_len n); auto|].
  exists y, (b_inter x w). refine (conj Hy (conj _ _)).
  - unfold ctc_action. rewrite Hy, Hw. reflexivity.
  - intros p Lp. pose proof (act_len _ _ _ Hw) as (Lw & _). rewrite (invert_len n) in Lw by auto.
    assert (Q : inb (pact s p) (c y) <-> inb p w).
    { pose proof (C52_inverse_action n (invert s) (c y) w (C52_invert _ _ Hs) Hw) as A.
      destruct (C52_inverse _ _ Hs) as (_ & _ & E & _). rewrite E in A. apply (C52_image n s w (c y)); auto. }
    rewrite Q. split.
    + apply inb_inter. congruence.
    + intros [H1 H2]. apply b_inter_in; auto.
Qed.

(** ** C52: CtcAction(c,s) keeps each point whose image by s satisfies the constraint of c *)
Theorem C52 : forall n s c (P : list R -> Prop), sperm n s -> (forall y, length y = n -> length (c y) = n) ->
  (forall y p, inb p y -> P p -> inb p (c y)) ->
  forall x, length x = n -> exists z, ctc_action c s x = Some z /\
    Forall2 sub z x /\ (forall p, inb p x -> P (pact s p) -> inb p z).
Proof.
  intros n s c P Hs Lc K x Lx. destruct (C52_ctc n s c x Hs Lx Lc) as (y & z & Hy & Hz & E). exists z. refine (conj Hz (conj _ _)).
  - unfold ctc_action in Hz. rewrite Hy in Hz. destruct (act (invert s) (c y)) as [w|] eqn:Hw; [|discriminate]. inversion Hz.
    apply b_inter_sub. pose proof (act_len _ _ _ Hw) as (Lw & _). rewrite (invert_len n) in Lw by auto. congruence.
  - intros p Hp HP. assert (Lp : length p = n) by (rewrite (inb_len _ _ Hp); auto). apply E; auto. split; auto. apply K; auto.
    apply (C52_image n s x y p); auto.
Qed.

(** ** The constructor accepts lists that are not permutations, and CtcAction then loses solutions *)
Definition b12 : box := [I2 0 1; I2 2 3].
Theorem C52_refuted : exists s, octa_new s = Some s /\ length s = 2%nat /\
  exists x p z, length x = 2%nat /\ inb p x /\ ctc_action (fun b => b) s x = Some z /\ ~ inb p z.
Proof.
  exists [1%Z; 1%Z]. refine (conj eq_refl (conj eq_refl _)). exists b12, [0; 2], (b_inter b12 [I2 0 1; I2 0 1]).
  refine (conj eq_refl (conj _ (conj eq_refl _))).
  - repeat constructor; cbn; lra.
  - intros H. apply inb_inter in H; [|reflexivity]. destruct H as [_ H]. inversion H as [|? ? ? ? _ H2]; subst. inversion H2 as [|? ? ? ? H3 _]; subst. cbn in H3. lra.
Qed.
Theorem C52_no_inverse_refuted : exists s, octa_new s = Some s /\ compose s (invert s) <> neutral (length s).
Proof. exists [1%Z; 1%Z]. split; [reflexivity|]. cbn. discriminate. Qed.

(** ** Example: the symmetry (-2 1 -3) *)
Definition s3 : list Z := [(-2)%Z; 1%Z; (-3)%Z].
Example C52_ex_sperm : sperm 3 s3 /\ octa_new s3 = Some s3 /\ invert s3 = [2%Z; (-1)%Z; (-3)%Z] /\
  compose s3 (invert s3) = [1%Z; 2%Z; 3%Z].
Proof.
  refine (conj (conj eq_refl (conj _ _)) (conj eq_refl (conj eq_refl eq_refl))).
  - repeat constructor; lia.
  - cbn. repeat constructor; cbn; intuition lia.
Qed.
(** with the contractor of "the first component is at least -1", i.e. "x2 <= 1" seen through the symmetry *)
Definition half : ctc_t := fun b => b_inter b [Itv (Some (-1)) None; ALL; ALL].
Lemma pact_s3 a b c : pact s3 [a; b; c] = [- b; a; - c].
Proof.
  unfold pact, s3. cbn [map Z.sgn Z.abs]. change (Z.to_nat 2) with 2%nat. change (Z.to_nat 1) with 1%nat. change (Z.to_nat 3) with 3%nat.
  cbn [nth]. repeat (f_equal; try ring).
Qed.
Ltac pts := repeat apply Forall2_cons; try apply Forall2_nil; cbn; try lra.
Example C52_ex : exists z, ctc_action half s3 [I2 0 5; I2 0 5; I2 0 5] = Some z /\ inb [5; 1; 2] z /\ ~ inb [5; 2; 2] z.
Proof.
  destruct (C52_ctc 3 s3 half [I2 0 5; I2 0 5; I2 0 5]) as (y & z & Hy & Hz & E); [apply C52_ex_sperm|reflexivity| |].
  { intros y Ly. unfold half. destruct y as [|a [|b [|d [|? ?]]]]; try discriminate. cbn -[inter].
    unfold b_inter; cbn -[inter]. repeat match goal with |- context [if ?b then _ else _] => destruct b end; reflexivity. }
  exists z. refine (conj Hz (conj _ _)).
  - apply E; [reflexivity|]. rewrite pact_s3. split; [pts|]. inversion Hy; subst. apply b_inter_in; pts; tauto.
  - intros H. apply E in H; [|reflexivity]. destruct H as [_ H]. rewrite pact_s3 in H. inversion Hy; subst. apply inb_inter in H; [|reflexivity]. destruct H as [_ H].
    inversion H as [|? ? ? ? H1 _]; subst. cbn in H1. lra.
Qed.

Print Assumptions C52.
Print Assumptions C52_ctc.
Print Assumptions C52_assoc.
Print Assumptions C52_inverse.
Print Assumptions C52_action.
Print Assumptions C52_refuted.
