(** * Facts on the memory of tubes: deletion of the first and last slices, truncation, merge of similar slices *)
From Coq Require Import Reals Lra Bool List Arith Lia.
From Verif Require Import Itv Tube TubeSpec TubeFacts TubeOps TubeOpsFacts TubeQueries2 HeapTube HeapTubeFacts HeapTree.
Import ListNotations.
Open Scope R_scope.

(** ** Domains of the slices *)
Lemma sample_slice_chain t s r a b : s_lb s = a -> s_lb s < s_ub s -> chain_from (s_ub s) r b -> s_lb s <= t <= s_ub s -> chain_from a (sample_slice t s r) b.
Proof.
  intros E H C T. unfold sample_slice. destruct (Reqb (s_lb s) t) eqn:E1; [cbn; auto|]. destruct (Reqb (s_ub s) t) eqn:E2; [cbn; auto|]. cbn [orb].
  apply Reqb_false in E1, E2. destruct r as [|q r]; cbn [chain_rest].
  - cbn. repeat split; auto; try lra; apply C.
  - cbn in *. destruct C as (C1 & C2 & C3). repeat split; auto; lra.
Qed.
Lemma sample_chain t : forall x a b, chain_from a x b -> a <= t <= b -> chain_from a (sample t x) b.
Proof.
  induction x as [|s x IH]; intros a b C T; cbn in C |- *; auto. destruct C as (C1 & C2 & C3).
  destruct (Rltb t (s_ub s)) eqn:E. { apply Rltb_true in E. apply sample_slice_chain; auto; lra. } apply Rltb_false in E.
  destruct x as [|s2 x]. { apply sample_slice_chain; auto. cbn in C3. lra. }
  change (chain_from a (s :: sample t (s2 :: x)) b). cbn [chain_from]. repeat split; auto. apply IH; auto. lra.
Qed.
Lemma chain_all_dom x y a b : map dom x = map dom y -> chain_from a x b -> chain_from a y b.
Proof. apply chain_from_dom. Qed.
Lemma merge_chain k x a b : chain_from a x b -> chain_from a (merge_at k x) b.
Proof.
  intros C. unfold merge_at. destruct (nth_error x k) as [s1|] eqn:E1; auto. destruct (nth_error x (S k)) as [s2|] eqn:E2; auto. cbv zeta.
  set (X := set_envelope k _ true x). assert (CX : chain_from a X b) by (apply (chain_from_dom x); auto; symmetry; apply set_envelope_dom).
  assert (D : map dom X = map dom x) by apply set_envelope_dom.
  assert (P : forall j s, nth_error x j = Some s -> exists u, nth_error X j = Some u /\ s_lb u = s_lb s /\ s_ub u = s_ub s).
  { intros j s E. assert (M : nth_error (map dom X) j = nth_error (map dom x) j) by congruence. rewrite !nth_error_map, E in M. cbn in M.
    destruct (nth_error X j) as [u|]; cbn in M; [|discriminate]. injection M as M1 M2. exists u. auto. }
  destruct (P _ _ E1) as (u1 & F1 & L1 & U1). destruct (P _ _ E2) as (u2 & F2 & L2 & U2).
  destruct (split_two _ _ _ _ F1 F2) as (y1 & y3 & EX & Ly). rewrite EX, <- Ly, upd_mid.
  rewrite EX in CX. apply chain_app in CX. destruct CX as (c & C1 & C2). cbn in C2. destruct C2 as (A1 & A2 & A3 & A4 & A5).
  replace (firstn (S (length y1)) _) with (y1 ++ [set_out (s_out s2) (set_dom (Rmin (s_lb s1) (s_lb s2)) (Rmax (s_ub s1) (s_ub s2)) u1)]).
  2:{ replace (S (length y1)) with (length y1 + 1)%nat by lia. rewrite firstn_app_2. reflexivity. }
  replace (skipn (S (S (length y1))) _) with y3.
  2:{ replace (S (S (length y1))) with (length y1 + 2)%nat by lia. rewrite skipn_app. rewrite skipn_all2 by lia. replace (length y1 + 2 - length y1)%nat with 2%nat by lia. reflexivity. }
  apply chain_app. exists (s_ub s2). split; [|rewrite <- U2; auto]. apply chain_app. exists c. split; auto. cbn.
  rewrite Rmin_left, Rmax_right by lra. repeat split; auto; lra.
Qed.
Lemma merge_loop_chain close : forall fuel k x a b, chain_from a x b -> chain_from a (merge_loop fuel close k x) b.
Proof.
  induction fuel as [|fuel IH]; intros k x a b C; cbn [merge_loop]; auto. destruct (nth_error x k) as [s1|]; auto. destruct (nth_error x (S k)) as [s2|]; auto.
  destruct (close _ _); apply IH; auto. apply merge_chain; auto.
Qed.
Lemma truncate_chain u v x a b : chain_from a x b -> a <= u -> u < v -> v <= b -> chain_from u (truncate_tdomain u v x) v /\ truncate_tdomain u v x <> [].
Proof.
  intros C A U V. destruct (truncate_shape a b x u v C A U V) as [(l1 & s & l2 & E & B1 & B2 & ->)|(l1 & s & m & q & l2 & E & B1 & B2 & ->)].
  - split; [|discriminate]. cbn. repeat split; lra.
  - split; [|discriminate]. rewrite E in C. apply chain_app in C. destruct C as (c & C1 & C2). destruct C2 as (<- & Hs & C2). cbn. repeat split; try lra. eapply chain_mid; eauto. lra.
Qed.

(** ** Composition of transitions *)
Lemma trans_comp l gs l1 gs1 l2 gs2 h h1 h2 : hok h -> trans l gs l1 gs1 h h1 -> trans l1 gs1 l2 gs2 h1 h2 -> trans l gs l2 gs2 h h2.
Proof.
  intros K [A1 A2 A3 A4 A5 A6 A7] [B1 B2 B3 B4 B5 B6 B7]. destruct A1 as [O1 O2], B1 as [O3 O4]. constructor; auto; try lia.
  - split; intros c N; rewrite in_app_iff in N.
    + destruct (in_dec Nat.eq_dec c l1) as [J|J]. { rewrite B2 by tauto. symmetry. apply K. apply A4; tauto. } rewrite O3, O1; auto; rewrite in_app_iff; tauto.
    + destruct (in_dec Nat.eq_dec c gs1) as [J|J]. { rewrite B3 by tauto. symmetry. apply K. apply A5; tauto. } rewrite O4, O2; auto; rewrite in_app_iff; tauto.
  - intros c I N. destruct (in_dec Nat.eq_dec c l1) as [J|J]; auto. rewrite O3; auto. rewrite in_app_iff. tauto.
  - intros c I N. destruct (in_dec Nat.eq_dec c gs1) as [J|J]; auto. rewrite O4; auto. rewrite in_app_iff. tauto.
  - intros c I N. destruct (in_dec Nat.eq_dec c l1) as [J|J]; auto. specialize (B4 c I J). lia.
  - intros c I N. destruct (in_dec Nat.eq_dec c gs1) as [J|J]; auto. specialize (B5 c I J). lia.
Qed.

(** ** Deletion of the first slice *)
Lemma del_first h a l g gs s x : hok h -> rep h (a :: l) (g :: gs) (s :: x) -> x <> [] ->
  exists h', del_slice h a = Done h' /\ rep h' l gs x /\ trans (a :: l) (g :: gs) l gs h h'.
Proof.
  intros K R NE. assert (N1 := rp_nd _ _ _ _ R). assert (N2 := rp_gnd _ _ _ _ R). inversion N1 as [|? ? M1 N1']; subst. inversion N2 as [|? ? M2 N2']; subst.
  assert (Ln := rp_len _ _ _ _ R). assert (Lg := rp_glen _ _ _ _ R). cbn in Ln, Lg.
  destruct x as [|s2 x]; [congruence|]. destruct l as [|b l]; [cbn in Ln; lia|].
  assert (Ca := rp_cell _ _ _ _ R 0 a s eq_refl eq_refl). assert (Cb := rp_cell _ _ _ _ R 1 b s2 eq_refl eq_refl). cbn [prevp nth_error] in Ca, Cb.
  assert (Gi := rp_in _ _ _ _ R 0 s g eq_refl eq_refl).
  assert (ab : b <> a) by (intros ->; apply M1; left; auto).
  unfold del_slice, rd. rewrite Ca. cbn [obind h_prev h_next h_gin h_gout]. unfold wr. rewrite Cb. cbn [obind hsl hgt hnxt freeg]. rewrite Gi. cbn [obind hsl hgt hnxt].
  set (cb := w_prev None _). eexists. split; [reflexivity|]. set (h' := mkHeap _ _ _).
  assert (Sa : hsl h' a = None) by (cbn; apply put_eq).
  assert (Sb : hsl h' b = Some cb) by (cbn; rewrite put_neq by auto; apply put_eq).
  assert (So : forall c, c <> a -> c <> b -> hsl h' c = hsl h c) by (intros c ? ?; cbn; rewrite !put_neq by auto; auto).
  assert (Gg : hgt h' g = None) by (cbn; apply put_eq).
  assert (Go : forall c, c <> g -> hgt h' c = hgt h c) by (intros c ?; cbn; rewrite put_neq by auto; auto).
  split.
  - constructor; auto; try (cbn in *; lia).
    + intros [|k] c u Ec Eu; cbn in Ec, Eu.
      * injection Ec as <-. injection Eu as <-. rewrite Sb. reflexivity.
      * assert (X := rp_cell _ _ _ _ R (S (S k)) c u Ec Eu). rewrite So; auto.
        { intros ->. apply M1. right. eapply nth_error_In; eauto. }
        { intros ->. inversion N1' as [|? ? Q _]. apply Q. eapply nth_error_In; eauto. }
    + intros k u c Eu Ec. rewrite Go. { apply (rp_in _ _ _ _ R (S k) u c Eu). exact Ec. } intros ->. apply M2. eapply nth_error_In; eauto.
    + intros k u c Eu Ec. rewrite Go. { apply (rp_out _ _ _ _ R (S k) u c Eu). exact Ec. } intros ->. apply M2. eapply nth_error_In; eauto.
  - constructor; try (cbn; lia); auto.
    + split; intros c N; [apply So|apply Go]; intros ->; apply N; cbn; auto.
    + intros c [<-|I] N; [auto|tauto].
    + intros c [<-|I] N; [auto|tauto].
    + intros c I N. exfalso. apply N. right; auto.
    + intros c I N. exfalso. apply N. right; auto.
    + intros c Lc. destruct (K c Lc) as [Ka Kb]. split; [rewrite So; auto|rewrite Go; auto]; intros ->; congruence.
Qed.

(** ** Deletion of the last slice *)
Lemma nth_error_snoc {A} (l : list A) a k b : nth_error (l ++ [a]) k = Some b -> (k < length l)%nat /\ nth_error l k = Some b \/ k = length l /\ b = a.
Proof.
  intros E. destruct (Nat.lt_ge_cases k (length l)). { rewrite nth_error_app1 in E by auto. auto. }
  rewrite nth_error_app2 in E by auto. destruct (k - length l)%nat as [|n] eqn:Ek; cbn in E; [injection E as <-; right; split; auto; lia|destruct n; discriminate].
Qed.
Lemma nth_snoc_eq {A} (l : list A) a : nth_error (l ++ [a]) (length l) = Some a.
Proof. rewrite nth_error_app2, Nat.sub_diag by lia. reflexivity. Qed.
Lemma NoDup_snoc_not {A} (l : list A) a : NoDup (l ++ [a]) -> NoDup l /\ ~ List.In a l.
Proof. intros N. split; [apply NoDup_remove_1 in N; rewrite app_nil_r in N; auto|apply NoDup_remove_2 in N; rewrite app_nil_r in N; auto]. Qed.

Lemma nth_two_fst {A} (l : list A) a b : nth_error ((l ++ [a]) ++ [b]) (length l) = Some a.
Proof. rewrite nth_error_app1 by (rewrite app_length; cbn; lia). apply nth_snoc_eq. Qed.
Lemma nth_two_snd {A} (l : list A) a b : nth_error ((l ++ [a]) ++ [b]) (S (length l)) = Some b.
Proof. replace (S (length l)) with (length (l ++ [a])) by (rewrite app_length; cbn; lia). apply nth_snoc_eq. Qed.

Lemma del_last h b l gs gq s x : hok h -> rep h (l ++ [b]) (gs ++ [gq]) (x ++ [s]) -> x <> [] ->
  exists h', del_slice h b = Done h' /\ rep h' l gs x /\ trans (l ++ [b]) (gs ++ [gq]) l gs h h'.
Proof.
  intros K R NE. destruct (NoDup_snoc_not _ _ (rp_nd _ _ _ _ R)) as [N1 M1]. destruct (NoDup_snoc_not _ _ (rp_gnd _ _ _ _ R)) as [N2 M2].
  assert (Ln := rp_len _ _ _ _ R). assert (Lg := rp_glen _ _ _ _ R). rewrite !app_length in Ln, Lg. cbn in Ln, Lg.
  destruct (@exists_last _ x NE) as (x' & sa & ->). rewrite app_length in Ln, Lg. cbn in Ln, Lg.
  destruct (@exists_last _ l) as (l' & a & ->). { intros ->. cbn in Ln. lia. } rewrite app_length in Ln. cbn in Ln.
  assert (Lx : length x' = length l') by lia.
  assert (P1 : nth_error ((l' ++ [a]) ++ [b]) (length l') = Some a) by apply nth_two_fst.
  assert (P2 : nth_error ((l' ++ [a]) ++ [b]) (S (length l')) = Some b) by apply nth_two_snd.
  assert (P3 : nth_error ((l' ++ [a]) ++ [b]) (S (S (length l'))) = None) by (apply nth_error_None; rewrite !app_length; cbn; lia).
  assert (Q1 : nth_error ((x' ++ [sa]) ++ [s]) (length l') = Some sa) by (rewrite <- Lx; apply nth_two_fst).
  assert (Q2 : nth_error ((x' ++ [sa]) ++ [s]) (S (length l')) = Some s) by (rewrite <- Lx; apply nth_two_snd).
  assert (G1 : nth_error (gs ++ [gq]) (S (S (length l'))) = Some gq) by (replace (S (S (length l'))) with (length gs) by lia; apply nth_snoc_eq).
  assert (Cb := rp_cell _ _ _ _ R (S (length l')) b s P2 Q2). cbn [prevp] in Cb. rewrite P1, P3, G1 in Cb.
  assert (Ca : exists ca, hsl h a = Some ca /\ ca = mkH (s_lb sa) (s_ub sa) (s_cod sa) (prevp (l' ++ [a]) (length l')) (Some b) (nth_error gs (length l')) (nth_error gs (S (length l')))).
  { eexists. split; [|reflexivity]. rewrite (rp_cell _ _ _ _ R (length l') a sa P1 Q1), P2. f_equal. f_equal.
    - destruct (length l') as [|n] eqn:En; cbn [prevp]; auto. rewrite (nth_error_app1 (l' ++ [a]) [b]); auto. rewrite app_length; cbn; lia.
    - rewrite nth_error_app1; auto. lia.
    - rewrite nth_error_app1; auto. lia. }
  destruct Ca as (ca & Ca & Eca).
  assert (Go0 : hgt h gq = Some (s_out s)).
  { exact (rp_out _ _ _ _ R (S (length l')) s gq Q2 G1). }
  assert (ab : a <> b) by (intros ->; apply M1; apply in_or_app; cbn; auto).
  unfold del_slice, rd. rewrite Cb. cbn [obind h_prev h_next h_gin h_gout]. unfold wr. rewrite Ca. cbn [obind hsl hgt hnxt freeg]. rewrite Go0. cbn [obind hsl hgt hnxt].
  eexists. split; [reflexivity|]. set (h' := mkHeap _ _ _).
  assert (Sb : hsl h' b = None) by (cbn; apply put_eq).
  assert (Sa : hsl h' a = Some (w_next None ca)) by (cbn; rewrite put_neq by auto; apply put_eq).
  assert (So : forall c, c <> a -> c <> b -> hsl h' c = hsl h c) by (intros c ? ?; cbn; rewrite !put_neq by auto; auto).
  assert (Gg : hgt h' gq = None) by (cbn; apply put_eq).
  assert (Go : forall c, c <> gq -> hgt h' c = hgt h c) by (intros c ?; cbn; rewrite put_neq by auto; auto).
  split.
  - constructor; auto; try (rewrite ?app_length; cbn; lia).
    + intros k c u Ec Eu. destruct (nth_error_snoc _ _ _ _ Ec) as [[Lk Ek]|[-> ->]].
      * assert (A1 : forall j, (j <= length l')%nat -> nth_error ((l' ++ [a]) ++ [b]) j = nth_error (l' ++ [a]) j) by (intros; apply nth_error_app1; rewrite app_length; cbn; lia).
        assert (A2 : nth_error ((x' ++ [sa]) ++ [s]) k = Some u) by (rewrite nth_error_app1; auto; rewrite app_length; cbn; lia).
        assert (A3 : forall j, (j <= S (length l'))%nat -> nth_error (gs ++ [gq]) j = nth_error gs j) by (intros; apply nth_error_app1; lia).
        assert (X := rp_cell _ _ _ _ R k c u). rewrite A1 in X by lia. specialize (X Ec A2). rewrite A1, !A3 in X by lia.
        rewrite So; [rewrite X; f_equal; f_equal|..].
        -- destruct k as [|k]; cbn [prevp]; auto. apply A1. lia.
        -- intros ->. apply (proj2 (NoDup_snoc_not _ _ N1)). eapply nth_error_In; eauto.
        -- intros ->. apply M1. apply in_or_app. left. eapply nth_error_In; eauto.
      * rewrite Sa, Eca. rewrite nth_error_app2 in Eu by lia. replace (length l' - length x')%nat with 0%nat in Eu by lia. injection Eu as <-.
        replace (nth_error (l' ++ [a]) (S (length l'))) with (@None nat) by (symmetry; apply nth_error_None; rewrite app_length; cbn; lia). reflexivity.
    + intros k u c Eu Ec. rewrite Go. { apply (rp_in _ _ _ _ R k u c); rewrite nth_error_app1; auto; apply nth_error_Some; congruence. } intros ->. apply M2. eapply nth_error_In; eauto.
    + intros k u c Eu Ec. rewrite Go. { apply (rp_out _ _ _ _ R k u c); rewrite nth_error_app1; auto; apply nth_error_Some; congruence. } intros ->. apply M2. eapply nth_error_In; eauto.
  - constructor; try (cbn; lia); auto.
    + split; intros c N; [apply So|apply Go]; intros ->; apply N; rewrite !in_app_iff; cbn; auto.
    + intros c I N. apply in_app_or in I. destruct I as [I|[<-|[]]]; [tauto|auto].
    + intros c I N. apply in_app_or in I. destruct I as [I|[<-|[]]]; [tauto|auto].
    + intros c I N. exfalso. apply N. apply in_or_app; auto.
    + intros c I N. exfalso. apply N. apply in_or_app; auto.
    + intros c Lc. destruct (K c Lc) as [Ka Kb]. split; [rewrite So; auto|rewrite Go; auto]; intros ->; congruence.
Qed.

(** ** Truncation *)
Lemma outside_dom a b e s y1 y2 y3 : is_outside_of a b e (mkS (s_lb s) (s_ub s) y1 y2 y3) = is_outside_of a b e s. Proof. reflexivity. Qed.
Lemma drop_first_heap a b : forall x fuel h l gs, hok h -> rep h l gs x -> drop_first a b x <> [] -> (length x <= fuel)%nat ->
  exists c h' l' gs', hdrop_first fuel h a b (hd_error l) = Done (c, h') /\ hd_error l' = Some c /\ rep h' l' gs' (drop_first a b x) /\ trans l gs l' gs' h h' /\ (exists l0, l = l0 ++ l').
Proof.
  induction x as [|s x IH]; intros fuel h l gs K R NE F; cbn [drop_first] in *; [congruence|]. assert (Ln := rp_len _ _ _ _ R). assert (Lg := rp_glen _ _ _ _ R). cbn in Ln, Lg.
  destruct l as [|c l]; [discriminate|]. destruct gs as [|g gs]; [discriminate|]. destruct fuel as [|fuel]; [cbn in F; lia|]. cbn [hd_error hdrop_first].
  rewrite (rd_spec _ _ _ _ 0 c s R eq_refl eq_refl). cbn [obind h_lb h_ub h_next]. rewrite outside_dom. destruct (is_outside_of a b a s).
  - assert (NX : x <> []) by (intros ->; apply NE; reflexivity). destruct (del_first _ _ _ _ _ _ _ K R NX) as (h1 & E1 & R1 & T1). rewrite E1. cbn [obind nth_error].
    destruct (IH fuel h1 l gs) as (c' & h2 & l' & gs' & E2 & H2 & R2 & T2 & (l0 & I1)); auto. { apply T1. } { cbn in F. lia. }
    exists c', h2, l', gs'. split; [destruct l; exact E2|]. split; auto. split; auto. split; [|exists (c :: l0); rewrite I1; reflexivity].
    apply (trans_comp _ _ l gs _ _ _ h1); auto.
  - exists c, h, (c :: l), (g :: gs). split; auto. split; auto. split; auto. split; [apply trans_refl; auto|]. exists []. reflexivity.
Qed.

Lemma rev_snoc {A} (l : list A) a : rev (a :: l) = rev l ++ [a]. Proof. reflexivity. Qed.
Lemma drop_last_heap a b : forall r fuel h l gs, hok h -> rep h l gs (rev r) -> drop_last a b r <> [] -> (length r <= fuel)%nat ->
  exists e c h' l' gs', nth_error l (length l - 1) = Some e /\ hdrop_last fuel h a b (Some e) = Done (c, h') /\ nth_error l' (length l' - 1) = Some c /\ hd_error l' = hd_error l /\
    rep h' l' gs' (rev (drop_last a b r)) /\ trans l gs l' gs' h h' /\ incl l' l /\ incl gs' gs.
Proof.
  induction r as [|s r IH]; intros fuel h l gs K R NE F; cbn [drop_last] in *; [congruence|]. rewrite rev_snoc in R. assert (Ln := rp_len _ _ _ _ R). assert (Lg := rp_glen _ _ _ _ R).
  rewrite app_length in Ln, Lg. cbn in Ln, Lg.
  destruct (@exists_last _ l) as (l0 & e & ->). { intros ->. cbn in Ln. lia. } destruct (@exists_last _ gs) as (g0 & gq & ->). { intros ->. cbn in Lg. lia. }
  rewrite !app_length in *. cbn in Ln, Lg. exists e. replace (length l0 + length [e] - 1)%nat with (length l0) by (cbn; lia).
  destruct fuel as [|fuel]; [cbn in F; lia|]. cbn [hdrop_last].
  assert (Es : nth_error (rev r ++ [s]) (length l0) = Some s). { replace (length l0) with (length (rev r)) by lia. apply nth_snoc_eq. }
  rewrite (rd_spec _ _ _ _ (length l0) e s R (nth_snoc_eq _ _) Es). cbn [obind h_lb h_ub h_prev]. rewrite outside_dom. destruct (is_outside_of a b b s).
  - assert (NX : rev r <> []). { intros E. apply NE. destruct r; auto. apply (f_equal (@length _)) in E. rewrite rev_length in E. discriminate. }
    destruct (del_last _ _ _ _ _ _ _ K R NX) as (h1 & E1 & R1 & T1). rewrite E1. cbn [obind].
    destruct (IH fuel h1 l0 g0) as (e' & c & h2 & l' & gs' & E2 & E3 & E4 & E5 & R2 & T2 & I1 & I2); auto. { apply T1. } { cbn in F. lia. }
    assert (NL : l0 <> []) by (intros ->; discriminate).
    exists c, h2, l', gs'. split; [apply nth_snoc_eq|]. split.
    { rewrite <- E3. f_equal. destruct l0 as [|q l0]; [congruence|]. rewrite <- E2. cbn [prevp length]. rewrite nth_error_app1 by (cbn; lia). f_equal. cbn. lia. }
    split; auto. split. { rewrite E5. destruct l0; [congruence|reflexivity]. }
    split; auto. split; [|split; apply incl_appl; auto]. apply (trans_comp _ _ l0 g0 _ _ _ h1); auto.
  - exists e, h, (l0 ++ [e]), (g0 ++ [gq]). split; [apply nth_snoc_eq|]. split; auto. split; [rewrite app_length; cbn; replace (length l0 + 1 - 1)%nat with (length l0) by lia; apply nth_snoc_eq|].
    split; auto. split; [rewrite rev_snoc; auto|]. split; [apply trans_refl; auto|]. split; apply incl_refl.
Qed.
Lemma last_heap h l gs x : rep h l gs x -> forall n fuel k, (n = length l - k)%nat -> (k < length l)%nat -> (n <= fuel)%nat ->
  exists e, nth_error l (length l - 1) = Some e /\ hlast fuel h (nth_error l k) = Done e.
Proof.
  intros R. induction n as [|n IH]; intros fuel k En Lk F; [lia|]. destruct fuel as [|fuel]; [lia|].
  destruct (nth_error l k) as [c|] eqn:Ec; [|apply nth_error_None in Ec; lia]. destruct (rep_slice _ _ _ _ _ _ R Ec) as (s & Es).
  cbn [hlast]. rewrite (rd_spec _ _ _ _ _ _ _ R Ec Es). cbn [obind h_next]. destruct (nth_error l (S k)) as [q|] eqn:Eq.
  - assert (S k < length l)%nat by (apply nth_error_Some; congruence). rewrite <- Eq. apply IH; lia.
  - apply nth_error_None in Eq. exists c. split; auto. replace (length l - 1)%nat with k by lia. auto.
Qed.

Lemma inter_of a b e s : a < b -> (e = a \/ e = b) -> is_outside_of a b e s = false -> s_lb s < s_ub s ->
  inter (bnd a b) (s_dom s) = Itv (Some (Rmax a (s_lb s))) (Some (Rmin b (s_ub s))).
Proof.
  intros H E O Hs. unfold is_outside_of in O. apply orb_false_iff in O. destruct O as [O _]. apply negb_false_iff in O. apply contains_true in O. cbn in O.
  apply inter_dom; [lra|]. unfold Rmax, Rmin. destruct (Rle_dec a (s_lb s)), (Rle_dec b (s_ub s)), E; subst; lra.
Qed.
Lemma clip_heap h l gs x k c s a b : hok h -> rep h l gs x -> x <> [] -> nth_error l k = Some c -> nth_error x k = Some s ->
  inter (bnd a b) (s_dom s) = Itv (Some (Rmax a (s_lb s))) (Some (Rmin b (s_ub s))) -> s_lb s < s_ub s ->
  exists h', hclip h a b c = Done h' /\ rep h' l gs (upd k (clip_dom a b) x) /\ trans l gs l gs h h'.
Proof.
  intros K R NE Ec Es Ei Hs. unfold hclip. rewrite (rd_spec _ _ _ _ _ _ _ R Ec Es). cbn [obind h_lb h_ub].
  replace (bnd (s_lb s) (s_ub s)) with (s_dom s). 2:{ unfold bnd, mk, s_dom. destruct (Rle_dec _ _); auto. lra. } rewrite Ei.
  destruct (does_trans _ _ _ _ _ _ K R NE (wr_dom_does h l gs x k c (Rmax a (s_lb s)) (Rmin b (s_ub s)) R Ec)) as (h' & E & R' & T). exists h'. split; auto. split; auto.
  replace (upd k (clip_dom a b) x) with (upd k (set_dom (Rmax a (s_lb s)) (Rmin b (s_ub s))) x); auto.
  clear - Es Ei. revert k Es. induction x as [|q x IH]; intros [|k] Es; cbn [upd nth_error] in *; try discriminate; auto.
  - injection Es as ->. unfold clip_dom. rewrite Ei. reflexivity.
  - f_equal. apply IH; auto.
Qed.

Lemma drop_last_head a b : forall r q r', drop_last a b r = q :: r' -> is_outside_of a b b q = false /\ List.In q r.
Proof.
  induction r as [|s r IH]; intros q r' E; cbn [drop_last] in E; [discriminate|]. destruct (is_outside_of a b b s) eqn:O.
  - destruct (IH _ _ E). split; auto. right; auto.
  - injection E as <- <-. split; auto. left; auto.
Qed.
Lemma truncate_heap a b x fuel h l gs u v : hok h -> rep h l gs x -> chain_from u x v -> u <= a -> a < b -> b <= v -> (length x <= fuel)%nat ->
  exists c h1 h2 e c2 h3 h4 l' gs', hdrop_first fuel h a b (hd_error l) = Done (c, h1) /\ hclip h1 a b c = Done h2 /\ hlast fuel h2 (Some c) = Done e /\ nth_error l (length l - 1) = Some e /\
    hdrop_last fuel h2 a b (Some e) = Done (c2, h3) /\ hclip h3 a b c2 = Done h4 /\ rep h4 l' gs' (truncate_tdomain a b x) /\ hd_error l' = Some c /\ trans l gs l' gs' h h4.
Proof.
  intros K R C U AB V F. destruct (truncate_chain a b x u v C U AB V) as [CT NT].
  destruct (drop_first_spec a b x u v C U AB V) as (x0 & s & r & Ex & Ed & Bs).
  assert (Cs : chain_from (s_lb s) (s :: r) v). { rewrite Ex in C. apply chain_app in C. destruct C as (c & _ & C). assert (c = s_lb s) as <- by (symmetry; apply C). auto. }
  assert (Hs : s_lb s < s_ub s) by apply Cs.
  destruct (drop_first_heap a b x fuel h l gs K R) as (c & h1 & l1 & g1 & E1 & H1 & R1 & T1 & (l0 & I1)); auto. { rewrite Ed. discriminate. }
  rewrite Ed in R1. assert (K1 := tr_ok _ _ _ _ _ _ T1).
  assert (L1 : (length (s :: r) <= length x)%nat) by (rewrite Ex, app_length; lia).
  assert (Ec0 : nth_error l1 0 = Some c) by (destruct l1; auto).
  destruct (clip_heap h1 l1 g1 (s :: r) 0 c s a b K1 R1) as (h2 & E2 & R2 & T2); auto; try discriminate.
  { apply inter_dom; try lra. unfold Rmax, Rmin. destruct (Rle_dec _ _), (Rle_dec _ _); lra. }
  set (x1 := upd 0 (clip_dom a b) (s :: r)) in *. assert (K2 := tr_ok _ _ _ _ _ _ T2). assert (Ln := rp_len _ _ _ _ R2).
  assert (Lx1 : length x1 = length (s :: r)) by apply upd_length.
  destruct (last_heap h2 l1 g1 x1 R2 (length l1) fuel 0) as (e & Ee & E3); try lia. { cbn in *. lia. } rewrite Ec0 in E3.
  assert (ET : truncate_tdomain a b x = upd (length (rev (drop_last a b (rev x1))) - 1) (clip_dom a b) (rev (drop_last a b (rev x1)))) by (unfold truncate_tdomain; rewrite Ed; reflexivity).
  destruct (drop_last a b (rev x1)) as [|q r'] eqn:Eq. { exfalso. apply NT. rewrite ET. reflexivity. }
  destruct (drop_last_head _ _ _ _ _ Eq) as [Oq Iq]. apply in_rev in Iq.
  assert (Hq : s_lb q < s_ub q).
  { unfold x1 in Iq. cbn [upd] in Iq. destruct Iq as [<-|Iq].
    - unfold clip_dom. rewrite inter_dom; try lra.
      + cbn. unfold Rmax, Rmin. destruct (Rle_dec _ _), (Rle_dec _ _); lra.
      + unfold Rmax, Rmin. destruct (Rle_dec _ _), (Rle_dec _ _); lra.
    - destruct (chain_in_bounds (s :: r) (s_lb s) v q Cs); [right; auto|lra]. }
  assert (R2' : rep h2 l1 g1 (rev (rev x1))) by (rewrite rev_involutive; auto).
  destruct (drop_last_heap a b (rev x1) fuel h2 l1 g1 K2 R2') as (e' & c2 & h3 & l2 & g2 & Ee' & E4 & Ec2 & Hd & R3 & T3 & I3 & _).
  { rewrite Eq. discriminate. } { rewrite rev_length. cbn in *. lia. }
  assert (e' = e) as -> by congruence. rewrite Eq in R3. assert (K3 := tr_ok _ _ _ _ _ _ T3).
  assert (Lr := rp_len _ _ _ _ R3).
  assert (Eqn : nth_error (rev (q :: r')) (length l2 - 1) = Some q). { rewrite Lr. rewrite rev_length. cbn [length rev]. replace (S (length r') - 1)%nat with (length (rev r')) by (rewrite rev_length; lia). apply nth_snoc_eq. }
  destruct (clip_heap h3 l2 g2 (rev (q :: r')) (length l2 - 1) c2 q a b K3 R3) as (h4 & E5 & R4 & T4); auto.
  { cbn. destruct (rev r'); discriminate. } { apply (inter_of a b b); auto. }
  exists c, h1, h2, e, c2, h3, h4, l2, g2. rewrite ET, <- Lr. split; auto. split; auto. split; auto.
  split. { rewrite I1, app_length, nth_error_app2 by (cbn in *; lia). replace (length l0 + length l1 - 1 - length l0)%nat with (length l1 - 1)%nat by (cbn in *; lia). auto. }
  split; auto. split; auto. split; auto. split. { rewrite Hd. destruct l1; auto. }
  apply (trans_comp _ _ l1 g1 _ _ _ h1); auto. apply (trans_comp _ _ l1 g1 _ _ _ h2); auto. apply (trans_comp _ _ l2 g2 _ _ _ h3); auto.
Qed.

(** ** Merge of similar slices *)
Lemma merge_at_len k x s1 s2 : nth_error x k = Some s1 -> nth_error x (S k) = Some s2 -> length (merge_at k x) = (length x - 1)%nat.
Proof.
  intros E1 E2. unfold merge_at. rewrite E1, E2. cbv zeta. rewrite app_length, firstn_length, skipn_length, !upd_length, !set_envelope_len.
  assert (S k < length x)%nat by (apply nth_error_Some; congruence). lia.
Qed.
Lemma chain_adj : forall x a b k s1 s2, chain_from a x b -> nth_error x k = Some s1 -> nth_error x (S k) = Some s2 -> s_ub s1 = s_lb s2.
Proof.
  induction x as [|s x IH]; intros a b k s1 s2 C E1 E2; [destruct k; discriminate|]. destruct C as (_ & _ & C). destruct k as [|k]; cbn in E1, E2; [|eapply IH; eauto].
  injection E1 as ->. destruct x as [|q x]; [discriminate|]. injection E2 as ->. symmetry. apply C.
Qed.
Lemma with_w_w t w w' : with_w (with_w t w) w' = with_w t w'. Proof. reflexivity. Qed.
Lemma alive_some t r : alive t r = Done tt -> r = None \/ exists i o, r = Some i /\ trees t i = Some o.
Proof. unfold alive. destruct r as [i|]; auto. destruct (trees t i) as [o|] eqn:E; [|discriminate]. right. eauto. Qed.
Lemma notify_ok t l gs x r : rep (heap_of t) l gs x -> (forall c, List.In c l -> refs t c = r) -> alive t r = Done tt ->
  forall fuel ints k c, nth_error l k = Some c -> (length x - S k <= fuel)%nat -> notify fuel ints t c = Done tt.
Proof.
  intros R Rf Al. destruct (alive_some _ _ Al) as [->|(i & o & -> & Eo)].
  - intros fuel ints k c Ec _. unfold notify. rewrite Rf by (eapply nth_error_In; eauto). reflexivity.
  - assert (NR : forall m k fuel, (m = length x - k)%nat -> (m <= fuel)%nat -> notify_rest fuel t (nth_error l k) = Done tt).
    { induction m as [|m IH]; intros k fuel Em Lf.
      - replace (nth_error l k) with (@None nat) by (symmetry; apply nth_error_None; rewrite (rp_len _ _ _ _ R); lia). destruct fuel; reflexivity.
      - destruct (nth_error l k) as [c|] eqn:Ec; [|apply nth_error_None in Ec; rewrite (rp_len _ _ _ _ R) in Ec; lia]. destruct (rep_slice _ _ _ _ _ _ R Ec) as (s & Es).
        destruct fuel as [|fuel]; [lia|]. cbn [notify_rest]. rewrite (rd_spec _ _ _ _ _ _ _ R Ec Es). cbn [obind h_next]. rewrite Rf by (eapply nth_error_In; eauto). rewrite Al. cbn [obind].
        apply IH; lia. }
    intros fuel ints k c Ec Lf. unfold notify. rewrite Rf by (eapply nth_error_In; eauto). rewrite Al. cbn [obind]. destruct ints; auto. destruct (rep_slice _ _ _ _ _ _ R Ec) as (s & Es).
    rewrite (rd_spec _ _ _ _ _ _ _ R Ec Es). cbn [obind h_next]. apply (NR (length x - S k)%nat); lia.
Qed.
Lemma merge_similar_heap close r : forall m n fuel t k l gs x a b, hok (heap_of t) -> rep (heap_of t) l gs x -> chain_from a x b -> (forall c, List.In c l -> refs t c = r) -> alive t r = Done tt ->
  (m = length x - S k)%nat -> (m <= n)%nat -> (m <= fuel)%nat -> (k < length x)%nat ->
  exists h' l' gs', hmerge_similar fuel t close (nth_error l (S k)) = Done (with_w t (mkW h' (tb (tw t)))) /\ rep h' l' gs' (merge_loop n close k x) /\
    hd_error l' = hd_error l /\ incl l' l /\ trans l gs l' gs' (heap_of t) h'.
Proof.
  induction m as [|m IH]; intros n fuel t k l gs x a b K R C Rf Al Em Ln Lf Lk; assert (Lx := rp_len _ _ _ _ R).
  - assert (E : nth_error l (S k) = None) by (apply nth_error_None; lia). assert (E' : nth_error x (S k) = None) by (apply nth_error_None; lia).
    exists (heap_of t), l, gs. rewrite E. split; [destruct t as [[? ?] ? ? ? ? ? ? ?]; destruct fuel; reflexivity|]. split.
    + destruct n; cbn [merge_loop]; auto. rewrite E'. destruct (nth_error x k); auto.
    + split; auto. split; [apply incl_refl|]. apply trans_refl; auto.
  - destruct (nth_error x k) as [s1|] eqn:E1; [|apply nth_error_None in E1; lia]. destruct (nth_error x (S k)) as [s2|] eqn:E2; [|apply nth_error_None in E2; lia].
    destruct (nth_error l k) as [c1|] eqn:F1; [|apply nth_error_None in F1; lia]. destruct (nth_error l (S k)) as [c2|] eqn:F2; [|apply nth_error_None in F2; lia].
    destruct fuel as [|fuel]; [lia|]. destruct n as [|n]; [lia|]. cbn [hmerge_similar merge_loop]. rewrite (rd_spec _ _ _ _ _ _ _ R F2 E2). cbn [obind h_prev h_next h_cod prevp].
    rewrite F1, E1, E2, (rd_spec _ _ _ _ _ _ _ R F1 E1). cbn [obind h_cod]. destruct (close (s_cod s1) (s_cod s2)).
    + rewrite (notify_ok t l gs x r R Rf Al (S fuel) true k c1 F1) by lia. cbn [obind].
      destruct (merge_spec_at _ _ _ _ _ _ _ _ _ K R F1 F2 E1 E2 (chain_adj _ _ _ _ _ _ C E1 E2)) as (h1 & l1 & l3 & g1 & M1 & M2 & M3 & M4 & M5). rewrite M1. cbn [obind].
      assert (I1 : incl (l1 ++ c1 :: l3) l). { rewrite M2. intros z I. rewrite in_app_iff in *. cbn in *. tauto. }
      replace (nth_error l (S (S k))) with (nth_error (l1 ++ c1 :: l3) (S k)).
      2:{ rewrite M2, !nth_error_app2 by lia. replace (S k - length l1)%nat with 1%nat by lia. replace (S (S k) - length l1)%nat with 2%nat by lia. reflexivity. }
      assert (ML := merge_at_len _ _ _ _ E1 E2).
      destruct (IH n fuel (with_w t (mkW h1 (tb (tw t)))) k (l1 ++ c1 :: l3) g1 (merge_at k x) a b) as (h' & l' & gs' & P1 & P2 & P3 & P4 & P5); auto; try lia.
      { apply M5. } { apply merge_chain; auto. } { intros c I. apply Rf. apply I1. auto. }
      exists h', l', gs'. split; [exact P1|]. split; auto. split. { rewrite P3, M2. destruct l1; reflexivity. } split; [eapply incl_tran; eauto|]. eapply trans_comp; eauto.
    + destruct (IH n fuel t (S k) l gs x a b) as (h' & l' & gs' & P); auto; try lia. exists h', l', gs'. auto.
Qed.
Lemma merge_similar_first close fuel t l gs x a b r : hok (heap_of t) -> rep (heap_of t) l gs x -> x <> [] -> chain_from a x b -> (forall c, List.In c l -> refs t c = r) -> alive t r = Done tt -> (length x <= fuel)%nat ->
  exists h' l' gs', hmerge_similar fuel t close (hd_error l) = Done (with_w t (mkW h' (tb (tw t)))) /\ rep h' l' gs' (merge_similar_slices close x) /\
    hd_error l' = hd_error l /\ incl l' l /\ trans l gs l' gs' (heap_of t) h'.
Proof.
  intros K R N C Rf Al F. assert (Lx := rp_len _ _ _ _ R). destruct x as [|s x]; [congruence|]. destruct l as [|c l]; [discriminate|]. destruct fuel as [|fuel]; [cbn in F; lia|].
  cbn [hd_error hmerge_similar]. rewrite (rd_spec _ _ _ _ 0 c s R eq_refl eq_refl). cbn [obind h_prev h_next prevp]. unfold merge_similar_slices.
  apply (merge_similar_heap close r (length (s :: x) - 1) _ fuel t 0 (c :: l) gs (s :: x) a b); auto; cbn in *; try lia.
Qed.
Lemma merge_loop_ne close : forall n k x, x <> [] -> merge_loop n close k x <> [].
Proof.
  induction n as [|n IH]; intros k x N; cbn [merge_loop]; auto. destruct (nth_error x k) as [s1|] eqn:E1; auto. destruct (nth_error x (S k)) as [s2|] eqn:E2; auto.
  destruct (close _ _); apply IH; auto. intros E. assert (M := merge_at_len _ _ _ _ E1 E2). rewrite E in M. cbn in M.
  assert (S k < length x)%nat by (apply nth_error_Some; congruence). lia.
Qed.
