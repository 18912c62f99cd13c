(** * SepProj: separators of IBEX and concrete calls (C88, C89, C90) *)

From Coq Require Import Reals Lra Lia Bool List Arith Classical_Prop.
Import ListNotations.
From Verif Require Import Itv PropsDyn2 Tube TubeFacts Static PropsStatic Sivia PropsSivia PropsSiviaTerm Concrete PropsSiviaEx
  Paving PropsPaving3 Separators PropsSep PropsSep2 SepProj PropsSepProj.
Open Scope R_scope.

(** ** SepBox and the union of separators *)
Lemma sep_box_in_len mb x : forall ks acc, Forall (fun k => (k < length x)%nat) ks -> length acc = length x -> length (sep_box_in mb x ks acc) = length x.
Proof.
  induction ks as [|k ks IH]; intros acc F L; cbn [sep_box_in]; auto. inversion F; subst. apply IH; auto. destruct (is_subset _ _); auto.
  rewrite b_hull_len; auto. rewrite swap_len; auto.
Qed.
Lemma sep_box_zsep N mb : length mb = N -> zsep N (fun p => inb p mb) (sep_box mb).
Proof.
  intros L. constructor.
  - intros z p (Lz & W & _) Hp NZ. destruct (C45_box mb z z) as (_ & _ & A & _); try congruence; auto.
  - intros z p (Lz & W & _) Hp HZ. destruct (C45_box mb z z) as (_ & _ & _ & A); try congruence; auto.
  - intros z (Lz & W & Nz) E. unfold sep_box; cbn [fst snd].
    assert (K : length (sep_box_in mb z (seq 0 (length z)) (repeat Emp (length z))) = length z).
    { apply sep_box_in_len; [apply Forall_forall; intros k Hk; apply in_seq in Hk; lia|apply repeat_length]. }
    split; (split; [rewrite b_inter_len; congruence|split; [apply b_inter_wf; auto|apply b_inter_normal]]).
  - intros z (Lz & W & Nz) E. unfold sep_box; cbn [fst snd].
    assert (K : length (sep_box_in mb z (seq 0 (length z)) (repeat Emp (length z))) = length z).
    { apply sep_box_in_len; [apply Forall_forall; intros k Hk; apply in_seq in Hk; lia|apply repeat_length]. }
    split; apply b_inter_sub; congruence.
Qed.
(** the union of two separators (SepUnion of IBEX) *)
Definition sep_or (s t : sep_t) : sep_t := fun xi xo => (b_inter (fst (s xi xo)) (fst (t xi xo)), b_hull (snd (s xi xo)) (snd (t xi xo))).
Lemma sep_or_zsep N A B s t : zsep N A s -> zsep N B t -> zsep N (fun p => A p \/ B p) (sep_or s t).
Proof.
  intros [S1 S2 S3 S4] [T1 T2 T3 T4]. unfold sep_or. constructor; cbn [fst snd].
  - intros z p G Hp NZ. assert (E := inb_empty _ _ Hp). destruct (S3 z G E), (T3 z G E). apply (inter_pts N); auto. split; [apply S1|apply T1]; auto.
  - intros z p G Hp HZ. assert (E := inb_empty _ _ Hp). destruct (S3 z G E), (T3 z G E). apply (hull_pts N); auto. destruct HZ; auto.
  - intros z G E. destruct (S3 z G E), (T3 z G E). split; [apply good_inter|apply good_hull]; auto.
  - intros z G E. destruct (S3 z G E), (T3 z G E), (S4 z G E), (T4 z G E). split; [|apply b_hull_sub; auto; [apply H0|apply H2]].
    eapply F2_sub_trans; [apply b_inter_sub|]; eauto. destruct H, H1; congruence.
Qed.
(** the two boxes given by a separator cover the box that it is given *)
Lemma zsep_hull N Z sep z : zsep N Z sep -> good N z -> b_is_empty z = false -> b_hull (fst (sep z z)) (snd (sep z z)) = z.
Proof.
  intros [S1 S2 S3 S4] G E. destruct (S3 z G E) as (G1 & G2), (S4 z G E) as (H1 & H2). assert (GH := good_hull N _ _ G1 G2).
  apply NNPP. intros NE. destruct (box_strict (b_hull (fst (sep z z)) (snd (sep z z))) z) as (p & P1 & P2); auto; [apply GH|apply G|apply G; auto|apply b_hull_sub; auto; [apply G1|apply G2]|].
  apply P2. apply (hull_pts N); auto. destruct (classic (Z p)); auto.
Qed.
(** a contractor of the box *)
Definition sep_ctc (mb : box) : sep_t := fun xi xo => (xi, b_inter xo mb).
Lemma sep_ctc_zsep N mb : length mb = N -> zsep N (fun p => inb p mb) (sep_ctc mb).
Proof.
  intros L. constructor; unfold sep_ctc; cbn [fst snd]; auto.
  - intros z p (Lz & W & _) Hp HZ. apply b_inter_in; auto.
  - intros z G E. split; auto. destruct G as (Lz & W & Nz). split; [rewrite b_inter_len; congruence|split; [apply b_inter_wf; auto|apply b_inter_normal]].
  - intros z (Lz & W & _) E. split; [apply F2_sub_refl|apply b_inter_sub; congruence].
Qed.

(** ** Evaluation *)
Ltac itvlit i := lazymatch i with Itv _ _ => idtac | Emp => idtac | I2 _ _ => idtac | pt _ => idtac end.
Ltac lit b := lazymatch b with [] => idtac | ?i :: ?r => itvlit i; lit r end.
Ltac norm t := let H := fresh "N" in
  eassert (H : t = _) by (unfold b_inter, b_hull, box_eqb, cdiff, flat, slabs, b_is_subset, outside, sp_small, b_is_flat, max_diam, I2, pt; cbn; reval; reflexivity);
  rewrite ?H; clear H.
Ltac ev1 := match goal with
 | |- context [outside ?a ?b] => itvlit a; itvlit b; norm (outside a b)
 | |- context [is_subset ?a ?b] => itvlit a; itvlit b; norm (is_subset a b)
 | |- context [b_inter ?a ?b] => lit a; lit b; norm (b_inter a b)
 | |- context [b_hull ?a ?b] => lit a; lit b; norm (b_hull a b)
 | |- context [box_eqb ?a ?b] => lit a; lit b; norm (box_eqb a b)
 | |- context [cdiff ?a ?b] => lit a; lit b; norm (cdiff a b)
 | |- context [b_is_subset ?a ?b] => lit a; lit b; norm (b_is_subset a b)
 | |- context [sp_small ?p ?a ?b] => lit a; lit b; norm (sp_small p a b)
 end.
Ltac evs := cbn [sep_box_in seq length repeat nth firstn skipn app fst snd map]; repeat (ev1; cbv iota beta; cbn [sep_box_in seq length repeat nth firstn skipn app fst snd]).
(** the intervals are written with [I2] *)
Ltac fl := unfold pt; repeat match goal with |- context [Itv (Some ?a) (Some ?b)] => change (Itv (Some a) (Some b)) with (I2 a b) end.
Ltac evf := repeat (fl; ev1; cbv iota beta zeta; cbn [sep_box_in seq length repeat nth firstn skipn app fst snd map andb orb negb b_is_empty is_empty f_cin f_cout b_set_empty I2]); fl.
Ltac sb := unfold sep_or, sep_box, sep_ctc; evs; reflexivity.
Lemma cbis_1 a b c : a < b -> c = a + 45 / 100 * (b - a) -> cbis [I2 a b] = Some ([I2 a c], [I2 c b]).
Proof. intros L ->. unfold cbis, lf, I2. cbn. unfold Rltb. destruct (Rlt_dec 0 (b - a)); [reflexivity|lra]. Qed.
Lemma cmid_1 a b c : c = (a + b) / 2 -> cmid [I2 a b] = [c].
Proof. intros ->. reflexivity. Qed.
(** the components of a box are written with [I2] *)
Lemma I2_eq a b : Itv (Some a) (Some b) = I2 a b.
Proof. reflexivity. Qed.
Lemma pt_eq a : I2 a a = pt a.
Proof. reflexivity. Qed.

(** ** The call without assertions *)
Definition bz : box := [I2 80 120; I2 40 160].
Lemma bz_1 : sep_box bz [I2 60 160; I2 0 60] [I2 60 160; I2 0 60] = ([I2 60 160; I2 0 60], [I2 80 120; I2 40 60]).
Proof. unfold bz. sb. Qed.
Lemma bz_2 : sep_box bz [I2 60 160; I2 30 30] [I2 60 160; I2 30 30] = ([I2 60 160; I2 30 30], [Emp; Emp]).
Proof. unfold bz. sb. Qed.
Lemma bz_3 : sep_box bz [I2 80 120; I2 0 27] [I2 80 120; I2 0 27] = ([I2 80 120; I2 0 27], [Emp; Emp]).
Proof. unfold bz. sb. Qed.
Lemma bz_4 : sep_box bz [I2 80 120; I2 27 60] [I2 80 120; I2 27 60] = ([I2 80 120; I2 27 40], [I2 80 120; I2 40 60]).
Proof. unfold bz. sb. Qed.
Lemma bz_m1 : cmid [I2 0 60] = [30]. Proof. apply cmid_1. lra. Qed.
Lemma bz_m2 : cmid [I2 0 27] = [27 / 2]. Proof. apply cmid_1. lra. Qed.
Lemma bz_m3 : cmid [I2 27 60] = [87 / 2]. Proof. apply cmid_1. lra. Qed.
Lemma bz_b1 : cbis [I2 0 60] = Some ([I2 0 27], [I2 27 60]). Proof. apply cbis_1; lra. Qed.
Global Hint Rewrite bz_1 bz_2 bz_3 bz_4 bz_m1 bz_m2 bz_m3 bz_b1 : spj.
Ltac go := repeat (progress (evf; autorewrite with spj; unfold hull_all, fold_left; cbn [seq length repeat nth firstn skipn app fst snd map andb orb negb b_is_empty is_empty f_cin f_cout b_set_empty I2 set_flag sp_in sp_res sp_queue]; fl)).
(** one turn of the loop *)
Ltac turn := unfold sp_turn, sp_complementary; go; unfold sp_fixpoint, sp_impact; go; unfold sp_process at 1; go; unfold sp_process; go; unfold sp_reconstruct; go; try reflexivity.
Lemma z1 : forall asserts, sp_turn asserts cdiff cmid cbis (sep_box bz) 10 [I2 60 160] [I2 60 160] [Emp] [I2 60 160] [I2 0 60] [] =
  Some (mkSP [I2 60 160] [Emp] [([I2 80 120], [I2 0 27]); ([I2 80 120], [I2 27 60])]).
Proof. intros [|]; turn. Qed.
Lemma z2 : forall asserts, sp_turn asserts cdiff cmid cbis (sep_box bz) 10 [I2 60 160] [I2 60 160] [Emp] [I2 80 120] [I2 0 27] [([I2 80 120], [I2 27 60])] =
  Some (mkSP [I2 60 160] [Emp] [([I2 80 120], [I2 27 60])]).
Proof. intros [|]; turn. Qed.
Lemma z3 : sp_turn false cdiff cmid cbis (sep_box bz) 10 [I2 60 160] [I2 60 160] [Emp] [I2 80 120] [I2 27 60] [] = Some (mkSP [Emp] [I2 80 120] []).
Proof. turn. Qed.
Lemma z4 : sp_turn true cdiff cmid cbis (sep_box bz) 10 [I2 60 160] [I2 60 160] [Emp] [I2 80 120] [I2 27 60] [] = None.
Proof. turn. Qed.
Lemma z_start asserts fuel : sp_separate asserts cdiff cmid cbis (sep_box bz) 10 [I2 0 60] (S (S (S fuel))) [I2 60 160] [I2 60 160] =
  match sp_turn asserts cdiff cmid cbis (sep_box bz) 10 [I2 60 160] [I2 60 160] [Emp] [I2 80 120] [I2 27 60] [] with
  | None => SPAbort | Some s => sp_loop asserts cdiff cmid cbis (sep_box bz) 10 [I2 60 160] fuel s end.
Proof.
  unfold sp_separate. rewrite box_eqb_refl, andb_false_r. evf. cbn [sp_loop sp_queue sp_in sp_res]. rewrite z1. cbn [sp_loop sp_queue sp_in sp_res]. rewrite z2.
  cbn [sp_loop sp_queue sp_in sp_res]. reflexivity.
Qed.
Lemma z_done fuel : sp_separate false cdiff cmid cbis (sep_box bz) 10 [I2 0 60] (S (S (S fuel))) [I2 60 160] [I2 60 160] = SPDone [Emp] [I2 80 120].
Proof. rewrite z_start, z3. destruct fuel; reflexivity. Qed.
Lemma z_abort fuel : sp_separate true cdiff cmid cbis (sep_box bz) 10 [I2 0 60] (S (S (S fuel))) [I2 60 160] [I2 60 160] = SPAbort.
Proof. rewrite z_start, z4. reflexivity. Qed.
Lemma good_1 a b : a <= b -> good 1 [I2 a b] /\ b_is_empty [I2 a b] = false.
Proof. intros L. split; auto. split; [auto|split; [boxt|]]. intros _ [K|[]]. discriminate. Qed.
Lemma pbis_min_c prec : pbis_min prec cbis.
Proof. intros y _. unfold cbis. destruct (lf _ _); discriminate. Qed.

(** ** C88: without the assertions (NDEBUG) *)
(** The same call without assertions: for SepBox, that is a separator of the box, the points that are removed from x_in
    are not all in the projection. *)
Theorem C88_release_refuted : exists n m Z sep diff mid bis prec x0 y0 fuel xi xo, (0 < n)%nat /\ zsep (n + m) Z sep /\ pdiff n diff /\ pmid m mid /\ pbis m bis /\
  good n x0 /\ good m y0 /\ b_is_empty y0 = false /\ 0 < prec /\ pbis_min prec bis /\
  sp_separate false diff mid bis sep prec y0 fuel x0 x0 = SPDone xi xo /\
  exists p, inb p x0 /\ ~ inb p xi /\ ~ exists q, inb q y0 /\ Z (p ++ q).
Proof.
  exists 1%nat, 1%nat, (fun p => inb p bz), (sep_box bz), cdiff, cmid, cbis, 10, [I2 60 160], [I2 0 60], 3%nat, [Emp], [I2 80 120].
  refine (conj _ (conj _ (conj _ (conj _ (conj _ (conj _ (conj _ (conj _ (conj _ (conj _ (conj _ _))))))))))); auto using cdiff_pdiff, cmid_pmid, cbis_pbis, pbis_min_c, z_done.
  - apply sep_box_zsep. reflexivity.
  - apply good_1. lra.
  - apply good_1. lra.
  - lra.
  - exists [70]. refine (conj _ (conj _ _)); [boxt| |].
    + intros K. inversion K; subst. cbn in *. auto.
    + intros (q & Hq & K). inversion K; subst. cbn in *. lra.
Qed.

(** ** C90: an assertion fails *)
(** With the assertions, the same call stops the program: the assertion of codac_SepProj.cpp 184-188 fails. *)
Theorem C90_refuted : exists n m Z sep diff mid bis prec x0 y0 fuel, (0 < n)%nat /\ zsep (n + m) Z sep /\ pdiff n diff /\ pmid m mid /\ pbis m bis /\
  good n x0 /\ good m y0 /\ b_is_empty y0 = false /\ 0 < prec /\ pbis_min prec bis /\
  (forall z, good (n + m) z -> b_is_empty z = false -> b_hull (fst (sep z z)) (snd (sep z z)) = z) /\
  sp_separate true diff mid bis sep prec y0 fuel x0 x0 = SPAbort.
Proof.
  exists 1%nat, 1%nat, (fun p => inb p bz), (sep_box bz), cdiff, cmid, cbis, 10, [I2 60 160], [I2 0 60], 3%nat.
  refine (conj _ (conj _ (conj _ (conj _ (conj _ (conj _ (conj _ (conj _ (conj _ (conj _ (conj _ _))))))))))); auto using cdiff_pdiff, cmid_pmid, cbis_pbis, pbis_min_c, z_abort.
  - apply sep_box_zsep. reflexivity.
  - apply good_1. lra.
  - apply good_1. lra.
  - lra.
  - intros z G E. apply (zsep_hull 2 (fun p => inb p bz)); auto. apply sep_box_zsep. reflexivity.
Qed.

(** ** C90: the calls whose assertions hold *)
Lemma same_box n a b : good n a -> good n b -> b_is_empty b = false -> (forall p, inb p a <-> inb p b) -> a = b.
Proof.
  intros Ga Gb E H. apply NNPP. intros NE. assert (K : Forall2 sub a b).
  { apply incl_sub; [apply Ga| |destruct Ga, Gb; congruence|intros p; apply H]. apply Ga. destruct (b_is_empty a) eqn:Ea; auto.
    destruct (good_point n b Gb E) as (p & Hp). apply H in Hp. destruct (empty_pts a Ea p Hp). }
  destruct (box_strict a b) as (q & Q1 & Q2); auto; [apply Ga|apply Gb|apply Gb; auto|]. apply Q2, H; auto.
Qed.
Lemma inter_absorb n X a : good n X -> good n a -> b_is_empty a = false -> (forall p, inb p a -> inb p X) -> b_inter X a = a.
Proof.
  intros GX Ga E S. apply (same_box n); auto; [apply good_inter; auto|]. intros p. rewrite (inter_pts n) by auto. split; [tauto|auto].
Qed.
Lemma hull_is n x0 a b : good n x0 -> good n a -> good n b -> b_is_empty x0 = false -> (forall p, inb p a -> inb p x0) -> (forall p, inb p b -> inb p x0) ->
  (forall p, inb p x0 -> inb p a \/ inb p b) -> b_hull a b = x0.
Proof.
  intros G0 Ga Gb E A B C. apply (same_box n); auto; [apply good_hull; auto|]. intros p. split; [|intros Hp; apply (hull_pts n); auto].
  apply (hull_incl n); auto. apply G0.
Qed.
Section Runs.
  Variables (n m : nat) (Z : list R -> Prop) (sep : sep_t) (diff : box -> box -> list box) (mid : box -> list R).
  Hypothesis Hn : (0 < n)%nat.
  Hypothesis HZ : zsep (n + m) Z sep.
  Hypothesis HD : pdiff n diff.
  Hypothesis HM : pmid m mid.
  Lemma process_some X y f up : good n X -> good m y -> b_is_empty y = false -> exists a b f' stop, sp_process true diff sep X X y f up = Some (a, b, f', stop).
  Proof.
    intros GX Gy Ey. unfold sp_process. rewrite box_eqb_refl. cbn [andb negb]. rewrite (inter_self n X GX).
    destruct (b_is_empty X) eqn:EX; [do 4 eexists; reflexivity|]. destruct (good_app n m X y) as (Gz & Ez); auto.
    assert (K := zsep_hull (n + m) Z sep (X ++ y) HZ Gz Ez). rewrite K, box_eqb_refl. cbn [negb].
    destruct (b_is_empty (fst (sep (X ++ y) (X ++ y)))) eqn:E1, (b_is_empty (snd (sep (X ++ y) (X ++ y)))) eqn:E2; cbn [andb orb].
    - exfalso. unfold b_hull in K. rewrite E2 in K. congruence.
    - do 4 eexists; reflexivity.
    - destruct (negb _); do 4 eexists; reflexivity.
    - destruct (negb _); do 4 eexists; reflexivity.
  Qed.
  (** the two calls of process of a fixpoint *)
  Lemma fixpoint_pre xi xo y : good n xi -> good n xo -> good m y -> b_is_empty y = false -> b_is_empty (b_inter xi xo) = false ->
    exists a b f', turn_res n m Z sep diff (b_inter xi xo) y (sp_impact diff xi xo) a b f' /\
      sp_fixpoint true diff mid sep xi xo y = match sp_reconstruct true a b (b_hull xi xo) f' with
        | None => None | Some (a, b) => if true && negb (box_eqb (b_hull a b) (b_hull xi xo)) then None else Some (a, b) end.
  Proof.
    intros Gi Go Gy Ey EX. unfold sp_fixpoint. set (X := b_inter xi xo) in *. set (f := sp_impact diff xi xo) in *. set (x0 := b_hull xi xo) in *.
    assert (GX : good n X) by (apply good_inter; auto).
    assert (XI : b_inter X X = X) by (apply (inter_self n); auto).
    assert (EQ : b_inter xo X = X). { apply (inter_absorb n); auto. intros p. unfold X. rewrite (inter_pts n) by auto. tauto. }
    rewrite EQ. destruct (process_some X y f false GX Gy Ey) as (a & b & f1 & stop & P1). rewrite P1.
    apply (process_spec n m Z sep diff Hn HZ) in P1; auto. destruct P1 as [(Ga & Sa) (Gb & Sb) RI RO RC RD RS RE RF RG]. rewrite XI in *.
    unfold flag_step in RC, RD. rewrite XI in RC, RD. destruct RC as (RC1 & RC2).
    destruct stop.
    - exists a, b, f1. split; auto. constructor; auto. split; auto. intros li K. destruct (RC2 li K) as [|(A & B)]; auto. right. split; auto. exists a. auto.
    - destruct (RS eq_refl) as (Ea & Eb).
      rewrite (inter_absorb n X a GX Ga Ea) by (intros p Hp; apply (sub_pts _ _ _ Sa Hp)).
      destruct (good_map_pt n m Z sep mid HZ HM (mid y)) as (Gm & Em); [rewrite (inb_len _ _ (HM y Gy Ey)); apply Gy|].
      destruct (process_some a (map pt (mid y)) f1 true Ga Gm Em) as (a2 & b2 & f2 & stop2 & P2). rewrite P2.
      apply (process_spec n m Z sep diff Hn HZ) in P2; auto. assert (AI : b_inter a a = a) by (apply (inter_self n); auto).
      destruct P2 as [(Ga2 & Sa2) _ RI2 _ RC' RD' _ RE2 _ RG2]. rewrite AI in *. unfold flag_step in RC'. rewrite AI in RC'. destruct RC' as (RC3 & RC4).
      exists a2, b, f2. split; auto. constructor; auto.
      + split; auto. eapply F2_sub_trans; eauto.
      + intros p Hp N. destruct (classic (inb p a)) as [Ha|Ha]; [|apply RI; auto].
        destruct (RI2 p Ha N) as (q & Q1 & Q2). apply map_pt_in in Q1. subst q. exists (mid y). split; auto.
      + split.
        * intros K. destruct (RC3 K) as (K1 & K2). destruct (RC1 K1) as (K3 & K4). auto.
        * intros li K. destruct (RC4 li K) as [K1|(K1 & K2)].
          -- destruct (RC2 li K1) as [|(A & B)]; auto. right. split; auto. exists a. repeat split; auto; try apply Ga. intros p. apply sub_pts. auto.
          -- destruct (RC1 K1) as (K3 & K4). right. split; auto. exists a2. refine (conj Ga2 (conj _ (conj _ _))); auto; [eapply F2_sub_trans; eauto|].
             subst li. f_equal. apply (same_box n); auto. intros p. split; auto. apply sub_pts; auto.
      + rewrite RD'. auto.
      + rewrite RD'. auto.
      + intros K. destruct (RG K), (RG2 K). split; congruence.
  Qed.
  (** the first turn *)
  Lemma fixpoint_first x0 y : good n x0 -> b_is_empty x0 = false -> good m y -> b_is_empty y = false -> sp_fixpoint true diff mid sep x0 x0 y <> None.
  Proof.
    intros G0 E0 Gy Ey. assert (XI : b_inter x0 x0 = x0) by (apply (inter_self n); auto).
    assert (HX : b_hull x0 x0 = x0) by (apply (hull_is n); auto).
    destruct (fixpoint_pre x0 x0 y) as (a & b & f' & T & ->); auto; [rewrite XI; auto|]. rewrite XI, HX in *.
    assert (EI : sp_impact diff x0 x0 = mkF None None) by (unfold sp_impact; rewrite box_eqb_refl; auto). rewrite EI in T.
    destruct T as [(Ga & Sa) (Gb & Sb) TI TO (C1 & C2) (D1 & D2) TE TF _]. cbn [f_cin f_cout] in *.
    assert (PaX : forall p, inb p a -> inb p x0) by (intros p; apply sub_pts; auto).
    assert (PbX : forall p, inb p b -> inb p x0) by (intros p; apply sub_pts; auto).
    assert (AB : forall p, inb p x0 -> inb p a \/ inb p b). { intros p Hp. destruct (classic (inb p a)); auto. right. destruct (TI p Hp H) as (q & Q1 & Q2). eauto. }
    assert (LI : forall li, f_cin f' = Some li -> Forall (good n) li /\ (forall d, List.In d li -> forall p, inb p d -> inb p x0)).
    { intros li E. destruct (C2 li E) as [K|(_ & c & Gc & Sc & -> & _)]; [discriminate|]. destruct (HD x0 c G0 Gc) as (A & _); [intros p; apply sub_pts; auto|].
      rewrite Forall_forall in A. split; [apply Forall_forall; intros d Hd; apply A; auto|]. intros d Hd p. apply sub_pts, A; auto. }
    assert (LO : forall lo, f_cout f' = Some lo -> Forall (good n) lo /\ (forall d, List.In d lo -> forall p, inb p d -> inb p x0) /\ (forall p, inb p x0 -> ~ inb p b -> exists d, List.In d lo /\ inb p d)).
    { intros lo E. destruct (D2 lo E) as [K|(_ & ->)]; [discriminate|]. destruct (HD x0 b G0 Gb) as (A & B); [intros p; apply sub_pts; auto|].
      rewrite Forall_forall in A. split; [apply Forall_forall; intros d Hd; apply A; auto|]. split; auto. intros d Hd p. apply sub_pts, A; auto. }
    specialize (TE E0). specialize (TF E0).
    assert (FIN : forall u v, good n u -> good n v -> (forall p, inb p u -> inb p x0) -> (forall p, inb p v -> inb p x0) -> (forall p, inb p x0 -> inb p u \/ inb p v) ->
      (if true && negb (box_eqb (b_hull u v) x0) then None else Some (u, v)) <> None).
    { intros u v Gu Gv Pu Pv C. rewrite (hull_is n x0 u v), box_eqb_refl; auto. discriminate. }
    unfold sp_reconstruct.
    destruct (b_is_empty a) eqn:Ea, (b_is_empty b) eqn:Eb, (f_cin f') as [li|] eqn:Ci, (f_cout f') as [lo|] eqn:Co;
      try (destruct (TE eq_refl eq_refl)); try (destruct (TF eq_refl eq_refl));
      try (destruct (LI li eq_refl) as (L1 & L2)); try (destruct (LO lo eq_refl) as (M1 & M2 & M3));
      try (destruct (C1 eq_refl) as (_ & C3)); try (destruct (D1 eq_refl) as (_ & D3));
      try (destruct (hull_all_spec n li b Gb L1) as (H1 & H2 & H3)); try (destruct (hull_all_spec n lo a Ga M1) as (N1 & N2 & N3));
      try (apply FIN; auto; fail).
    - apply FIN; auto. + intros p. apply H3; auto. apply G0. + intros p Hp. right. apply H2. left. destruct (AB p Hp); auto. destruct (empty_pts a Ea p); auto.
    - apply FIN; auto; [intros p; apply N3; auto; apply G0|intros p; apply H3; auto; apply G0|]. intros p Hp.
      destruct (AB p Hp); [left; apply N2; auto|right; apply H2; auto].
  Qed.
  (** a separator that never contracts x_in *)
  Lemma fixpoint_outer_some x0 xo y : outer n m sep -> good n x0 -> b_is_empty x0 = false -> good n xo -> b_is_empty xo = false -> (forall p, inb p xo -> inb p x0) ->
    good m y -> b_is_empty y = false -> sp_fixpoint true diff mid sep x0 xo y <> None.
  Proof.
    intros O G0 E0 Go Eo Po Gy Ey. assert (HX : b_hull x0 xo = x0) by (apply (hull_is n); auto).
    assert (XI : b_inter x0 xo = xo) by (apply (inter_absorb n); auto).
    destruct (fixpoint_pre x0 xo y) as (a & b & f' & T & ->); auto; [rewrite XI; auto|]. rewrite XI, HX in *.
    destruct (t_full _ _ _ _ _ _ _ _ _ _ _ T O) as (-> & T2).
    assert (E1 : f_cin (sp_impact diff x0 xo) = None).
    { unfold sp_impact. destruct (box_eqb x0 xo); auto. rewrite HX. cbn. rewrite box_eqb_refl. auto. }
    assert (E2 : f_cout (sp_impact diff x0 xo) = None -> xo = x0).
    { unfold sp_impact. destruct (box_eqb x0 xo) eqn:E; [apply box_eqb_eq in E; auto|]. rewrite HX. cbn. destruct (box_eqb xo x0) eqn:E2; [apply box_eqb_eq in E2; auto|discriminate]. }
    destruct T as [_ (Gb & Sb) _ _ _ (D1 & _) _ TF _]. specialize (TF Eo).
    assert (Pb : forall p, inb p b -> inb p x0) by (intros p Hp; apply Po, (sub_pts _ _ _ Sb Hp)).
    assert (HB : b_hull x0 b = x0) by (apply (hull_is n); auto).
    rewrite E1 in T2. unfold sp_reconstruct. rewrite T2, Eo.
    destruct (f_cout f') as [lo|] eqn:Co, (b_is_empty b) eqn:Eb; try (destruct (TF eq_refl eq_refl)); try (rewrite HB, box_eqb_refl; discriminate).
    destruct (D1 eq_refl) as (D2 & _). rewrite (E2 D2), HB, box_eqb_refl. discriminate.
  Qed.
  Variables (bis : box -> option (box * box)) (prec : R) (x0 y0 : box).
  Hypothesis HB : pbis m bis.
  Hypothesis G0 : good n x0.
  Hypothesis E0 : b_is_empty x0 = false.
  Hypothesis Gy0 : good m y0.
  Hypothesis Ey0 : b_is_empty y0 = false.
  Lemma complementary_some xo xi : good n xo -> good n xi -> (forall p, inb p xo -> inb p x0) -> (forall p, inb p xi -> inb p x0) ->
    (exists xo', sp_complementary true diff xo xi x0 = Some xo') /\ forall xo', sp_complementary true diff xo xi x0 = Some xo' -> b_hull xi xo' = x0.
  Proof.
    intros Go Gi Po Pi. unfold sp_complementary. destruct (box_eqb xo x0) eqn:E.
    - apply box_eqb_eq in E. subst xo. split; [eauto|]. intros xo' K. injection K as <-. apply (hull_is n); auto.
    - cbn [andb]. destruct (HD x0 xi G0 Gi Pi) as (A & B). destruct (hull_all_spec n (diff x0 xi) xo Go) as (H1 & H2 & H3); [eapply Forall_impl; [|exact A]; cbn; tauto|].
      assert (PH : forall p, inb p (hull_all xo (diff x0 xi)) -> inb p x0).
      { intros p. apply H3; auto; [apply G0|]. rewrite Forall_forall in A. intros d Hd r. apply sub_pts, A. auto. }
      assert (C : forall p, inb p x0 -> inb p (hull_all xo (diff x0 xi)) \/ inb p xi).
      { intros p Hp. destruct (classic (inb p xi)) as [K|K]; auto. }
      rewrite (hull_is n x0 (hull_all xo (diff x0 xi)) xi), box_eqb_refl; auto. cbn [negb]. split; [eauto|]. intros xo' K. injection K as <-.
      apply (hull_is n); auto. intros p Hp. destruct (C p Hp); auto.
  Qed.
  (** no turn stops the program *)
  Definition queue_ne (s : sp_state) : Prop := Forall (fun q => b_is_empty (fst q) = false) (sp_queue s).
  Lemma turn_outer_some s xo y l : outer n m sep -> sp_in s = x0 -> state_ok n m Z x0 y0 s -> queue_ne s -> sp_queue s = (xo, y) :: l ->
    exists s', sp_turn true diff mid bis sep prec x0 (sp_in s) (sp_res s) xo y l = Some s' /\ queue_ne s'.
  Proof.
    intros O IN (Gi & Pi & (Gr & Pr) & F & _) Q EQ. rewrite IN in *. clear IN. unfold queue_ne in *. rewrite EQ in *.
    inversion F as [|? ? I1 F']; inversion Q as [|? ? Q1 Q']; subst. destruct I1 as (Go & Po & Gy & Ey & Py). cbn [fst snd] in *.
    unfold sp_turn. destruct (b_is_subset xo (sp_res s)); [eexists; split; [reflexivity|auto]|].
    destruct (complementary_some xo x0 Go Gi Po Pi) as ((xo' & EC) & HC). rewrite EC. rewrite (HC xo' EC), box_eqb_refl. cbn [andb negb].
    destruct (complementary_spec n diff HD x0 G0 xo x0 xo' Go Gi Po Pi EC) as (Go' & Co' & Po' & _).
    assert (Eo' : b_is_empty xo' = false). { destruct (good_point n xo Go Q1) as (p & Hp). apply (inb_empty p). auto. }
    destruct (sp_fixpoint true diff mid sep x0 xo' y) as [[a b]|] eqn:EF; [|destruct (fixpoint_outer_some x0 xo' y O G0 E0 Go' Eo' Po' Gy Ey EF)].
    destruct (fixpoint_spec n m Z sep diff mid Hn HZ HD HM x0 xo' y a b Gi Go' Gy Ey EF) as [_ XH _ _]. rewrite (HC xo' EC) in XH.
    destruct (b_is_empty b) eqn:Eb; [eexists; split; [reflexivity|auto]|]. rewrite XH, box_eqb_refl. cbn [negb].
    destruct (sp_small _ _ _); [eexists; split; [reflexivity|auto]|]. destruct (_ || _); [eexists; split; [reflexivity|auto]|].
    destruct (bis y) as [[y1 y2]|]; (eexists; split; [reflexivity|]); auto. cbn [sp_queue]. apply Forall_app. split; auto.
  Qed.
  Lemma loop_outer fuel : forall s, outer n m sep -> reach sep diff mid bis prec x0 (init x0 y0) s -> queue_ne s -> sp_loop true diff mid bis sep prec x0 fuel s <> SPAbort.
  Proof.
    induction fuel as [|fuel IH]; intros s O HR Q; cbn [sp_loop]; destruct (sp_queue s) as [|[xo y] l] eqn:EQ; try discriminate.
    destruct (turn_outer_some s xo y l O) as (s' & T & Q'); auto.
    - exact (reach_outer n m Z sep diff mid Hn HZ HD HM bis prec x0 y0 HB G0 Gy0 Ey0 s O HR).
    - exact (reach_ok n m Z sep diff mid Hn HZ HD HM bis prec x0 y0 HB G0 Gy0 Ey0 s HR).
    - rewrite T. apply IH; auto. eapply reach_S; eauto.
  Qed.
End Runs.

(** For a sound separator, the assertions of the first turn of the loop hold. *)
Theorem C90_partial : forall n m Z sep diff mid bis prec x0 y0, (0 < n)%nat -> zsep (n + m) Z sep -> pdiff n diff -> pmid m mid -> pbis m bis ->
  good n x0 -> b_is_empty x0 = false -> good m y0 -> b_is_empty y0 = false ->
  sp_turn true diff mid bis sep prec x0 x0 (b_set_empty x0) x0 y0 [] <> None.
Proof.
  intros n m Z sep diff mid bis prec x0 y0 Hn HZ HD HM HB G0 E0 Gy Ey. unfold sp_turn. destruct (b_is_subset _ _); [discriminate|].
  unfold sp_complementary. rewrite box_eqb_refl. assert (HX : b_hull x0 x0 = x0) by (apply (hull_is n); auto). rewrite HX, box_eqb_refl. cbn [andb negb].
  destruct (sp_fixpoint true diff mid sep x0 x0 y0) as [[a b]|] eqn:EF; [|destruct (fixpoint_first n m Z sep diff mid Hn HZ HD HM x0 y0 G0 E0 Gy Ey EF)].
  destruct (fixpoint_spec n m Z sep diff mid Hn HZ HD HM x0 x0 y0 a b G0 G0 Gy Ey EF) as [_ XH _ _]. rewrite HX in XH.
  destruct (b_is_empty b); [discriminate|]. rewrite XH, box_eqb_refl. cbn [negb]. destruct (sp_small _ _ _); [discriminate|].
  destruct (_ || _); [discriminate|]. destruct (bis y0) as [[y1 y2]|]; discriminate.
Qed.
(** For a separator that never contracts x_in (a contractor of [Z]), no assertion fails. *)
Theorem C90_outer_partial : forall n m Z sep diff mid bis prec x0 y0 fuel, (0 < n)%nat -> zsep (n + m) Z sep -> pdiff n diff -> pmid m mid -> pbis m bis ->
  good n x0 -> b_is_empty x0 = false -> good m y0 -> b_is_empty y0 = false ->
  (forall z, good (n + m) z -> fst (sep z z) = z) ->
  sp_separate true diff mid bis sep prec y0 fuel x0 x0 <> SPAbort.
Proof.
  intros n m Z sep diff mid bis prec x0 y0 fuel Hn HZ HD HM HB G0 E0 Gy Ey O. unfold sp_separate. rewrite box_eqb_refl, (inter_self n x0 G0). cbn [andb negb].
  apply (loop_outer n m Z sep diff mid Hn HZ HD HM bis prec x0 y0 HB G0 E0 Gy Ey); auto; [constructor|]. repeat constructor. auto.
Qed.

(** ** C89: points of the projection are lost *)
(** the union of three boxes *)
Definition u1 : box := [I2 1200 2000; I2 188 240].
Definition u2 : box := [I2 800 1400; I2 80 100].
Definition u3 : box := [I2 (-400) 200; I2 (-400) 20].
Definition su : sep_t := sep_or (sep_or (sep_box u1) (sep_box u2)) (sep_box u3).
Ltac su_ := unfold su, u1, u2, u3, sep_or, sep_box; evf.

Ltac evsu := match goal with |- context [su ?a ?a] => lit a; let H := fresh "N" in eassert (H : su a a = _) by (su_; reflexivity); rewrite ?H; clear H end.
Ltac go2 := repeat (progress (try evsu; go)).
Ltac turn2 := unfold sp_turn, sp_complementary; go2; unfold sp_fixpoint, sp_impact; go2; unfold sp_process at 1; go2; unfold sp_process; go2; unfold sp_reconstruct; go2.
Lemma um1 : cmid [I2 0 400] = [200]. Proof. apply cmid_1. lra. Qed.
Lemma um2 : cmid [I2 0 180] = [90]. Proof. apply cmid_1. lra. Qed.
Lemma um3 : cmid [I2 180 400] = [290]. Proof. apply cmid_1. lra. Qed.
Lemma um4 : cmid [I2 0 81] = [81 / 2]. Proof. apply cmid_1. lra. Qed.
Lemma um5 : cmid [I2 81 180] = [261 / 2]. Proof. apply cmid_1. lra. Qed.
Lemma ub1 : cbis [I2 0 400] = Some ([I2 0 180], [I2 180 400]). Proof. apply cbis_1; lra. Qed.
Lemma ub2 : cbis [I2 0 180] = Some ([I2 0 81], [I2 81 180]). Proof. apply cbis_1; lra. Qed.
Global Hint Rewrite um1 um2 um3 um4 um5 ub1 ub2 : spj.

Lemma ut1 : sp_turn true cdiff cmid cbis su 200 [I2 0 1600] [I2 0 1600] [Emp] [I2 0 1600] [I2 0 400] [] =
  Some (mkSP [I2 0 1200] [Emp] [([I2 0 1600], [I2 0 180]); ([I2 0 1600], [I2 180 400])]).
Proof. turn2. reflexivity. Qed.
Lemma ut2 : sp_turn true cdiff cmid cbis su 200 [I2 0 1600] [I2 0 1200] [Emp] [I2 0 1600] [I2 0 180] [([I2 0 1600], [I2 180 400])] =
  Some (mkSP [I2 0 800] [Emp] [([I2 0 1600], [I2 180 400]); ([I2 0 1600], [I2 0 81]); ([I2 0 1600], [I2 81 180])]).
Proof. turn2. reflexivity. Qed.
Lemma ut3 l : sp_turn true cdiff cmid cbis su 200 [I2 0 1600] [I2 0 800] [Emp] [I2 0 1600] [I2 180 400] l = Some (mkSP [I2 0 1600] [Emp] l).
Proof. turn2. reflexivity. Qed.
Lemma ut4 l : sp_turn true cdiff cmid cbis su 200 [I2 0 1600] [I2 0 1600] [Emp] [I2 0 1600] [I2 0 81] l = Some (mkSP [I2 0 1600] [I2 0 1400] l).
Proof. turn2. reflexivity. Qed.
Lemma ut5 l : sp_turn true cdiff cmid cbis su 200 [I2 0 1600] [I2 0 1600] [I2 0 1400] [I2 0 1600] [I2 81 180] l = Some (mkSP [I2 0 1600] [I2 0 1400] l).
Proof. turn2. reflexivity. Qed.
Lemma u_done : sp_separate true cdiff cmid cbis su 200 [I2 0 400] 5 [I2 0 1600] [I2 0 1600] = SPDone [I2 0 1600] [I2 0 1400].
Proof.
  unfold sp_separate. rewrite box_eqb_refl. evf. cbn [sp_loop sp_queue sp_in sp_res]. rewrite ut1. cbn [sp_loop sp_queue sp_in sp_res]. rewrite ut2.
  cbn [sp_loop sp_queue sp_in sp_res]. rewrite ut3. cbn [sp_loop sp_queue sp_in sp_res]. rewrite ut4. cbn [sp_loop sp_queue sp_in sp_res]. rewrite ut5. reflexivity.
Qed.
(** With the assertions, a call that ends normally for the separator of a union of three boxes: x_out does not contain
    the point 1500 of the projection. *)
Theorem C89_refuted : exists n m Z sep diff mid bis prec x0 y0 fuel xi xo, (0 < n)%nat /\ zsep (n + m) Z sep /\ pdiff n diff /\ pmid m mid /\ pbis m bis /\
  good n x0 /\ good m y0 /\ b_is_empty y0 = false /\ 0 < prec /\ pbis_min prec bis /\
  sp_separate true diff mid bis sep prec y0 fuel x0 x0 = SPDone xi xo /\
  exists p q, inb p x0 /\ inb q y0 /\ Z (p ++ q) /\ ~ inb p xo.
Proof.
  exists 1%nat, 1%nat, (fun p => (inb p u1 \/ inb p u2) \/ inb p u3), su, cdiff, cmid, cbis, 200, [I2 0 1600], [I2 0 400], 5%nat, [I2 0 1600], [I2 0 1400].
  refine (conj _ (conj _ (conj _ (conj _ (conj _ (conj _ (conj _ (conj _ (conj _ (conj _ (conj _ _))))))))))); auto using cdiff_pdiff, cmid_pmid, cbis_pbis, pbis_min_c, u_done.
  - apply (sep_or_zsep 2 (fun p => inb p u1 \/ inb p u2)); [apply sep_or_zsep|]; apply sep_box_zsep; reflexivity.
  - apply good_1. lra.
  - apply good_1. lra.
  - lra.
  - exists [1500], [200]. refine (conj _ (conj _ (conj _ _))); [boxt|boxt|left; left; unfold u1; cbn [app]; boxt|]. intros K. inversion K; subst. cbn in *. lra.
Qed.

(** ** Calls that meet the hypotheses *)
Lemma bz_5 : sep_box bz [I2 100 160; I2 50 60] [I2 100 160; I2 50 60] = ([I2 120 160; I2 50 60], [I2 100 120; I2 50 60]).
Proof. unfold bz. sb. Qed.
Lemma bz_6 : sep_box bz [I2 120 160; I2 55 55] [I2 120 160; I2 55 55] = ([I2 120 160; I2 55 55], [I2 120 120; I2 55 55]).
Proof. unfold bz. sb. Qed.
Lemma bz_m5 : cmid [I2 50 60] = [55]. Proof. apply cmid_1. lra. Qed.
Global Hint Rewrite bz_5 bz_6 bz_m5 : spj.
Lemma e1 : sp_turn true cdiff cmid cbis (sep_box bz) 10 [I2 100 160] [I2 100 160] [Emp] [I2 100 160] [I2 50 60] [] = Some (mkSP [I2 120 160] [I2 100 120] []).
Proof. turn. Qed.
Lemma e_done : sp_separate true cdiff cmid cbis (sep_box bz) 10 [I2 50 60] 1 [I2 100 160] [I2 100 160] = SPDone [I2 120 160] [I2 100 120].
Proof. unfold sp_separate. rewrite box_eqb_refl. evf. cbn [sp_loop sp_queue sp_in sp_res]. rewrite e1. reflexivity. Qed.
Example C88_ex : sp_separate true cdiff cmid cbis (sep_box bz) 10 [I2 50 60] 1 [I2 100 160] [I2 100 160] = SPDone [I2 120 160] [I2 100 120] /\
  exists q, inb q [I2 50 60] /\ inb ([110] ++ q) bz.
Proof.
  split; [apply e_done|]. destruct (good_1 100 160 ltac:(lra)) as (G0 & _), (good_1 50 60 ltac:(lra)) as (Gy & Ey).
  destruct (C88 1 1 (fun p => inb p bz) (sep_box bz) cdiff cmid cbis 10 [I2 100 160] [I2 50 60] 1 _ _ ltac:(lia) (sep_box_zsep 2 bz eq_refl) (cdiff_pdiff 1) (cmid_pmid 1)
    (cbis_pbis 1) G0 Gy Ey e_done) as (_ & _ & A). apply A; [boxt|]. intros K. inversion K; subst. cbn in *. lra.
Qed.
Example C89_ex : inb [105] [I2 100 120].
Proof.
  destruct (good_1 100 160 ltac:(lra)) as (G0 & _), (good_1 50 60 ltac:(lra)) as (Gy & Ey).
  apply (C89_partial 1 1 (fun p => inb p bz) (sep_box bz) cdiff cmid cbis 10 [I2 100 160] [I2 50 60] 1 [I2 120 160] [I2 100 120] ltac:(lia) (sep_box_zsep 2 bz eq_refl) (cdiff_pdiff 1) (cmid_pmid 1)
    (cbis_pbis 1) G0 Gy Ey ltac:(lra) (pbis_min_c 10)) with (q := [55]); [|apply e_done|boxt|boxt|unfold bz; cbn [app]; boxt].
  intros s xo y l HR Q NE. exfalso.
  assert (K : s = init [I2 100 160] [I2 50 60] \/ sp_queue s = []).
  { clear NE Q. induction HR as [|s xo' y' l' s' HR IH Q T]; auto. right. destruct IH as [->|IH]; [|congruence]. cbn in Q. injection Q as <- <- <-.
    assert (K : Some s' = Some (mkSP [I2 120 160] [I2 100 120] [])) by (rewrite <- T; exact e1). injection K as ->. reflexivity. }
  destruct K as [->|K]; [|congruence]. apply NE. reflexivity.
Qed.
Lemma c1 : sp_turn true cdiff cmid cbis (sep_ctc bz) 50 [I2 60 160] [I2 60 160] [Emp] [I2 60 160] [I2 0 60] [] = Some (mkSP [I2 60 160] [I2 80 120] []).
Proof. unfold sep_ctc, bz. turn. Qed.
Lemma c_done : sp_separate true cdiff cmid cbis (sep_ctc bz) 50 [I2 0 60] 1 [I2 60 160] [I2 60 160] = SPDone [I2 60 160] [I2 80 120].
Proof. unfold sp_separate. rewrite box_eqb_refl. evf. cbn [sp_loop sp_queue sp_in sp_res]. rewrite c1. reflexivity. Qed.
Example C89_outer_ex : inb [90] [I2 80 120].
Proof.
  destruct (good_1 60 160 ltac:(lra)) as (G0 & _), (good_1 0 60 ltac:(lra)) as (Gy & Ey).
  destruct (C89_outer_partial 1 1 (fun p => inb p bz) (sep_ctc bz) cdiff cmid cbis 50 [I2 60 160] [I2 0 60] 1 _ _ ltac:(lia) (sep_ctc_zsep 2 bz eq_refl) (cdiff_pdiff 1) (cmid_pmid 1)
    (cbis_pbis 1) G0 Gy Ey ltac:(lra) (pbis_min_c 50) (fun z _ => eq_refl) c_done) as (_ & A). apply (A [90] [50]); [boxt|boxt|unfold bz; cbn [app]; boxt].
Qed.
Example C90_ex : forall fuel, sp_separate true cdiff cmid cbis (sep_ctc bz) 50 [I2 0 60] fuel [I2 60 160] [I2 60 160] <> SPAbort.
Proof.
  intros fuel. destruct (good_1 60 160 ltac:(lra)) as (G0 & E0), (good_1 0 60 ltac:(lra)) as (Gy & Ey).
  apply (C90_outer_partial 1 1 (fun p => inb p bz)); auto using cdiff_pdiff, cmid_pmid, cbis_pbis. apply sep_ctc_zsep. reflexivity.
Qed.
Example C90_first_ex : sp_turn true cdiff cmid cbis (sep_box bz) 10 [I2 60 160] [I2 60 160] [Emp] [I2 60 160] [I2 0 60] [] <> None.
Proof.
  destruct (good_1 60 160 ltac:(lra)) as (G0 & E0), (good_1 0 60 ltac:(lra)) as (Gy & Ey).
  apply (C90_partial 1 1 (fun p => inb p bz) (sep_box bz) cdiff cmid cbis 10 [I2 60 160] [I2 0 60]); auto using cdiff_pdiff, cmid_pmid, cbis_pbis. apply sep_box_zsep. reflexivity.
Qed.

Print Assumptions C88.
Print Assumptions C88_release_refuted.
Print Assumptions C89_partial.
Print Assumptions C89_outer_partial.
Print Assumptions C89_refuted.
Print Assumptions C90_partial.
Print Assumptions C90_outer_partial.
Print Assumptions C90_refuted.
