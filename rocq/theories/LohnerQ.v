(** * Evaluation of the model of [CtcLohner] on rational numbers

    Copies over [Q] of the functions of Lohner.v, with exact arithmetic, and the proof that they give the same results:
    the examples and counterexamples of PropsLohner2.v are computed with them. *)
From Coq Require Import Reals Lra Bool List Arith Lia QArith Qreals Qminmax.
From Verif Require Import Itv Arith Tube TubeOps Concrete Paving Static Picard PropsSivia Lohner.
Import ListNotations.
Open Scope R_scope.

(** ** Intervals with rational bounds *)
Inductive qitv : Type := QE | QI (l h : option Q).
Definition qb (l : option Q) : option R := option_map Q2R l.
Definition emb (i : qitv) : itv := match i with QE => Emp | QI l h => Itv (qb l) (qb h) end.
Definition ebox (x : list qitv) : box := map emb x.
Definition emat (M : list (list qitv)) : imat := map ebox M.
Definition evec (x : list Q) : list R := map Q2R x.
Definition ermat (M : list (list Q)) : rmat := map evec M.

Lemma red q : Q2R (Qred q) = Q2R q. Proof. apply Qeq_eqR, Qred_correct. Qed.
Lemma leb_q a b : Qle_bool a b = true -> Q2R a <= Q2R b. Proof. intros H. apply Qle_Rle, Qle_bool_iff; auto. Qed.
Lemma leb_q' a b : Qle_bool a b = false -> Q2R b < Q2R a.
Proof. intros H. apply Qlt_Rlt. destruct (Qlt_le_dec b a); auto. apply Qle_bool_iff in q. congruence. Qed.
Lemma Rleb_q a b : Rleb (Q2R a) (Q2R b) = Qle_bool a b.
Proof. destruct (Qle_bool a b) eqn:E; [apply Rleb_t, leb_q|apply Rleb_f, leb_q']; auto. Qed.
Definition qmin (a b : Q) : Q := if Qle_bool a b then a else b.
Definition qmax (a b : Q) : Q := if Qle_bool a b then b else a.
Lemma qmin_ok a b : Q2R (qmin a b) = Rmin (Q2R a) (Q2R b).
Proof. unfold qmin. destruct (Qle_bool a b) eqn:E; [apply leb_q in E; rewrite Rmin_left|apply leb_q' in E; rewrite Rmin_right]; auto; lra. Qed.
Lemma qmax_ok a b : Q2R (qmax a b) = Rmax (Q2R a) (Q2R b).
Proof. unfold qmax. destruct (Qle_bool a b) eqn:E; [apply leb_q in E; rewrite Rmax_right|apply leb_q' in E; rewrite Rmax_left]; auto; lra. Qed.

Definition qplus (a b : Q) : Q := Qred (a + b).
Definition qtimes (a b : Q) : Q := Qred (a * b).
Lemma qplus_ok a b : Q2R (qplus a b) = Q2R a + Q2R b. Proof. unfold qplus. rewrite red. apply Q2R_plus. Qed.
Lemma qtimes_ok a b : Q2R (qtimes a b) = Q2R a * Q2R b. Proof. unfold qtimes. rewrite red. apply Q2R_mult. Qed.
Arguments qplus : simpl never. Arguments qtimes : simpl never. Arguments qmin : simpl never. Arguments qmax : simpl never. Arguments Qopp : simpl never. Arguments Qred : simpl never.
Definition qpt (x : Q) : qitv := QI (Some x) (Some x).
Lemma qpt_ok x : pt (Q2R x) = emb (qpt x). Proof. reflexivity. Qed.
Definition qoadd (a b : option Q) : option Q := match a, b with Some x, Some y => Some (qplus x y) | _, _ => None end.
Definition qoneg (a : option Q) : option Q := option_map Qopp a.
Definition qadd (i j : qitv) : qitv := match i, j with QI a b, QI c d => QI (qoadd a c) (qoadd b d) | _, _ => QE end.
Definition qneg (i : qitv) : qitv := match i with QI a b => QI (qoneg b) (qoneg a) | QE => QE end.
Definition qsub (i j : qitv) : qitv := qadd i (qneg j).
Definition qmul (i j : qitv) : qitv :=
  match i, j with
  | QE, _ | _, QE => QE
  | QI (Some a) (Some b), QI (Some c) (Some d) =>
      let p := qtimes a c in let q := qtimes a d in let r := qtimes b c in let s := qtimes b d in
      QI (Some (qmin (qmin p q) (qmin r s))) (Some (qmax (qmax p q) (qmax r s)))
  | _, _ => QI None None
  end.
Definition qmk (l h : option Q) : qitv := match l, h with Some a, Some b => if Qle_bool a b then QI l h else QE | _, _ => QI l h end.
Definition qinter (i j : qitv) : qitv :=
  match i, j with
  | QI a b, QI c d =>
      qmk (match a, c with None, y => y | x, None => x | Some x, Some y => Some (qmax x y) end)
          (match b, d with None, y => y | x, None => x | Some x, Some y => Some (qmin x y) end)
  | _, _ => QE
  end.
Definition q_is_subset (i j : qitv) : bool :=
  match i, j with
  | QE, _ => true
  | QI _ _, QE => false
  | QI a b, QI c d => (match c, a with None, _ => true | Some _, None => false | Some x, Some y => Qle_bool x y end)
                      && (match b, d with _, None => true | None, Some _ => false | Some x, Some y => Qle_bool x y end)
  end.
Definition q_is_empty (i : qitv) : bool := match i with QE => true | _ => false end.
Definition qmid (i : qitv) : Q :=
  match i with QI (Some a) (Some b) => Qred ((a + b) / 2) | QI (Some a) None => a | QI None (Some b) => b | _ => 0%Q end.
(** Interval::mid, ibex::Interval, included by codac_Interval.h 15-20 (exact; a point of the unbounded intervals) *)
Definition midR (i : itv) : R :=
  match i with Itv (Some a) (Some b) => (a + b) / 2 | Itv (Some a) None => a | Itv None (Some b) => b | _ => 0 end.

Lemma oadd_ok a b : oadd (qb a) (qb b) = qb (qoadd a b). Proof. destruct a, b; cbn; auto. rewrite qplus_ok. auto. Qed.
Lemma oneg_ok a : oneg (qb a) = qb (qoneg a). Proof. destruct a; cbn; auto. rewrite Q2R_opp. auto. Qed.
Lemma qadd_ok i j : xadd (emb i) (emb j) = emb (qadd i j). Proof. destruct i, j; cbn; auto. rewrite !oadd_ok. auto. Qed.
Lemma qneg_ok i : xneg (emb i) = emb (qneg i). Proof. destruct i; cbn; auto. rewrite !oneg_ok. auto. Qed.
Lemma qsub_ok i j : xsub (emb i) (emb j) = emb (qsub i j). Proof. unfold xsub, qsub. rewrite qneg_ok. apply qadd_ok. Qed.
Lemma qmul_ok i j : xmul (emb i) (emb j) = emb (qmul i j).
Proof. destruct i as [|[a|] [b|]], j as [|[c|] [d|]]; cbn; auto. unfold min4, max4. rewrite !qmin_ok, !qmax_ok, !qtimes_ok. auto. Qed.
Lemma qmk_ok l h : mk (qb l) (qb h) = emb (qmk l h).
Proof. destruct l as [a|], h as [b|]; cbn; auto. destruct (Qle_bool a b) eqn:E; [rewrite Rle_dec_t|rewrite Rle_dec_f]; auto; [apply leb_q|apply leb_q']; auto. Qed.
Lemma qinter_ok i j : inter (emb i) (emb j) = emb (qinter i j).
Proof.
  destruct i as [|a b], j as [|c d]; cbn [inter emb qinter]; auto. rewrite <- qmk_ok. f_equal; [destruct a, c; cbn; auto; rewrite qmax_ok; auto|destruct b, d; cbn; auto; rewrite qmin_ok; auto].
Qed.
Lemma q_is_subset_ok i j : is_subset (emb i) (emb j) = q_is_subset i j.
Proof. destruct i as [|[a|] [b|]], j as [|[c|] [d|]]; cbn; auto; rewrite ?Rleb_q; auto. Qed.
Lemma q_is_empty_ok i : is_empty (emb i) = q_is_empty i. Proof. destruct i; auto. Qed.
Lemma half_ok a b : Q2R (Qred ((a + b) / 2)) = (Q2R a + Q2R b) / 2.
Proof. rewrite red. unfold Qdiv, Rdiv. rewrite Q2R_mult, Q2R_plus. f_equal. unfold Q2R. cbn. lra. Qed.
Lemma qmid_ok i : midR (emb i) = Q2R (qmid i).
Proof. destruct i as [|[a|] [b|]]; cbn [emb qb option_map midR qmid]; auto; try (unfold Q2R; cbn; lra). symmetry. apply half_ok. Qed.

(** ** Boxes and matrices *)
Fixpoint qmap2 (g : qitv -> qitv -> qitv) (x y : list qitv) : list qitv := match x, y with i :: x, j :: y => g i j :: qmap2 g x y | _, _ => [] end.
Lemma qmap2_ok g G : (forall i j, g (emb i) (emb j) = emb (G i j)) -> forall x y, map2 g (ebox x) (ebox y) = ebox (qmap2 G x y).
Proof. intros H. induction x as [|i x IH]; intros [|j y]; cbn; auto. rewrite H. f_equal. apply IH. Qed.
Definition qb_empty (x : list qitv) : bool := match x with [] => false | i :: _ => q_is_empty i end.
Lemma qb_empty_ok x : b_is_empty (ebox x) = qb_empty x. Proof. destruct x; cbn; auto. apply q_is_empty_ok. Qed.
Definition qb_set_empty (x : list qitv) : list qitv := map (fun _ => QE) x.
Lemma qb_set_empty_ok x : b_set_empty (ebox x) = ebox (qb_set_empty x). Proof. unfold b_set_empty, ebox, qb_set_empty. rewrite !map_map. auto. Qed.
Definition qb_op (g : qitv -> qitv -> qitv) (x y : list qitv) : list qitv := if qb_empty x || qb_empty y then qb_set_empty x else qmap2 g x y.
Lemma qb_add_ok x y : b_add exact (ebox x) (ebox y) = ebox (qb_op qadd x y).
Proof. unfold b_add, qb_op. rewrite !qb_empty_ok. destruct (_ || _); [apply qb_set_empty_ok|apply qmap2_ok; apply qadd_ok]. Qed.
Lemma qb_sub_ok x y : b_sub exact (ebox x) (ebox y) = ebox (qb_op qsub x y).
Proof. unfold b_sub, qb_op. rewrite !qb_empty_ok. destruct (_ || _); [apply qb_set_empty_ok|apply qmap2_ok; apply qsub_ok]. Qed.
Definition qb_inter (x y : list qitv) : list qitv :=
  if qb_empty x then x else if qb_empty y then qb_set_empty x else let r := qmap2 qinter x y in if existsb q_is_empty r then qb_set_empty x else r.
Lemma qb_inter_ok x y : b_inter (ebox x) (ebox y) = ebox (qb_inter x y).
Proof.
  unfold b_inter, qb_inter. rewrite !qb_empty_ok. destruct (qb_empty x); auto. destruct (qb_empty y); [apply qb_set_empty_ok|]. cbn zeta. rewrite (qmap2_ok inter qinter qinter_ok).
  assert (E : forall l, existsb is_empty (ebox l) = existsb q_is_empty l) by (induction l as [|i l IH]; cbn; auto; rewrite q_is_empty_ok; f_equal; auto).
  rewrite E. destruct (existsb _ _); auto. apply qb_set_empty_ok.
Qed.
Definition qb_subset (x y : list qitv) : bool :=
  if qb_empty x then true else if qb_empty y then false else forallb (fun q => q_is_subset (fst q) (snd q)) (combine x y).
Lemma qb_subset_ok x y : b_is_subset (ebox x) (ebox y) = qb_subset x y.
Proof.
  unfold b_is_subset, qb_subset. rewrite !qb_empty_ok. destruct (qb_empty x); auto. destruct (qb_empty y); auto. revert y. induction x as [|i x IH]; intros [|j y]; cbn; auto. rewrite q_is_subset_ok. f_equal. apply IH.
Qed.
Lemma qb_scal_ok h x : b_scal exact (emb h) (ebox x) = ebox (map (qmul h) x).
Proof. unfold b_scal, ebox. rewrite !map_map. apply map_ext. intros. apply qmul_ok. Qed.
Fixpoint qdot (x y : list qitv) : qitv := match x, y with i :: x, j :: y => qadd (qmul i j) (qdot x y) | _, _ => qpt 0 end.
Lemma pt0 : pt 0 = emb (qpt 0). Proof. cbn. unfold pt. replace (Q2R 0) with 0 by (unfold Q2R; cbn; lra). auto. Qed.
Lemma qdot_ok x : forall y, idot exact (ebox x) (ebox y) = emb (qdot x y).
Proof. induction x as [|i x IH]; intros [|j y]; try exact pt0. cbn [ebox map idot qdot]. rewrite <- qadd_ok, <- qmul_ok. cbn [exact iadd imul]. f_equal. apply IH. Qed.
Definition qmv (M : list (list qitv)) (x : list qitv) : list qitv := map (fun row => qdot row x) M.
Lemma qmv_ok M x : imv exact (emat M) (ebox x) = ebox (qmv M x).
Proof. unfold imv, emat, qmv, ebox. rewrite !map_map. apply map_ext. intros row. apply qdot_ok. Qed.
Fixpoint qvm (n : nat) (row : list qitv) (M : list (list qitv)) : list qitv :=
  match row, M with a :: row, l :: M => qmap2 qadd (map (qmul a) l) (qvm n row M) | _, _ => repeat (qpt 0) n end.
Lemma rep0 n : repeat (pt 0) n = ebox (repeat (qpt 0) n). Proof. rewrite pt0. unfold ebox. induction n as [|n IH]; cbn [repeat map]; auto. rewrite IH. auto. Qed.
Lemma qvm_ok n row : forall M, ivm exact n (ebox row) (emat M) = ebox (qvm n row M).
Proof.
  induction row as [|a row IH]; intros [|l M]; try apply rep0. cbn [ebox map emat ivm qvm]. fold (ebox row). fold (emat M). fold (ebox l). rewrite IH, qb_scal_ok. apply qmap2_ok. apply qadd_ok.
Qed.
Definition qmm (n : nat) (M M' : list (list qitv)) : list (list qitv) := map (fun row => qvm n row M') M.
Lemma qmm_ok n M M' : imm exact n (emat M) (emat M') = emat (qmm n M M').
Proof. unfold imm, qmm, emat. rewrite !map_map. apply map_ext. intros row. apply qvm_ok. Qed.
Lemma qscal_ok c M : imscal exact (Q2R c) (emat M) = emat (map (map (qmul (qpt c))) M).
Proof. unfold imscal, emat. rewrite !map_map. apply map_ext. intros row. apply (qb_scal_ok (qpt c)). Qed.
Fixpoint qmadd (M M' : list (list qitv)) : list (list qitv) := match M, M' with l :: M, l' :: M' => qmap2 qadd l l' :: qmadd M M' | _, _ => [] end.
Lemma qmadd_ok M : forall M', imadd exact (emat M) (emat M') = emat (qmadd M M').
Proof. induction M as [|l M IH]; intros [|l' M']; cbn [emat map imadd qmadd]; auto. f_equal; [apply qmap2_ok, qadd_ok|apply IH]. Qed.
Definition qpts (M : list (list Q)) : list (list qitv) := map (map qpt) M.
Lemma qpts_ok M : pts (ermat M) = emat (qpts M).
Proof. unfold pts, ermat, emat, qpts, ebox, evec. rewrite !map_map. apply map_ext. intros r. rewrite !map_map. auto. Qed.
Lemma qptv_ok x : map pt (evec x) = ebox (map qpt x). Proof. unfold evec, ebox. rewrite !map_map. auto. Qed.
Lemma qmids_ok x : map midR (ebox x) = evec (map qmid x).
Proof. unfold ebox, evec. rewrite !map_map. apply map_ext. apply qmid_ok. Qed.
Lemma qmidm_ok M : map (map midR) (emat M) = ermat (map (map qmid) M).
Proof. unfold emat, ermat. rewrite !map_map. apply map_ext. intros. apply qmids_ok. Qed.
Definition qeye (n : nat) : list (list Q) := map (fun i => map (fun j => if Nat.eqb i j then 1%Q else 0%Q) (seq 0 n)) (seq 0 n).
Lemma qeye_ok n : eye n = ermat (qeye n).
Proof.
  unfold eye, qeye, ermat, evec. rewrite !map_map. apply map_ext. intros i. rewrite !map_map. apply map_ext. intros j. destruct (Nat.eqb i j); unfold Q2R; cbn; lra.
Qed.
Fixpoint qvadd (x y : list Q) : list Q := match x, y with a :: x, b :: y => qplus a b :: qvadd x y | _, _ => [] end.
Lemma qvadd_ok x : forall y, vadd (evec x) (evec y) = evec (qvadd x y).
Proof. induction x as [|a x IH]; intros [|b y]; cbn; auto. rewrite qplus_ok. f_equal. apply IH. Qed.
Lemma qvscal_ok c x : vscal (Q2R c) (evec x) = evec (map (qtimes c) x).
Proof. unfold vscal, evec. rewrite !map_map. apply map_ext. intros. rewrite qtimes_ok. auto. Qed.

(** ** The algorithm *)
Record qlohner : Type := mkQ { q_u : list qitv; q_r : list qitv; q_ut : list qitv; q_B : list (list Q); q_Binv : list (list Q); q_hat : list Q }.
Definition elo (s : qlohner) : lohner := mkL (ebox (q_u s)) (ebox (q_r s)) (ebox (q_ut s)) (ermat (q_B s)) (ermat (q_Binv s)) (evec (q_hat s)).
Section Run.
  Variables (qr inv : rmat -> rmat) (F : box -> box) (J : box -> imat).
  Variables (QQ QV : list (list Q) -> option (list (list Q))) (QF : list qitv -> list qitv) (QJ : list qitv -> list (list qitv)).
  Variables (eps : Q).
  Hypothesis Hqr : forall M M', QQ M = Some M' -> qr (ermat M) = ermat M'.
  Hypothesis Hiv : forall M M', QV M = Some M' -> inv (ermat M) = ermat M'.
  Hypothesis HF : forall X, F (ebox X) = ebox (QF X).
  Hypothesis HJ : forall X, J (ebox X) = emat (QJ X).

  Definition q_init (n : nat) (u0 : list qitv) : qlohner := mkQ u0 (qb_op qsub u0 (map qpt (map qmid u0))) [] (qeye n) (qeye n) (map qmid u0).
  Lemma q_init_ok n u0 : lo_init exact midR n (ebox u0) = elo (q_init n u0).
  Proof. unfold lo_init, elo, q_init. cbn [q_u q_r q_ut q_B q_Binv q_hat]. rewrite qmids_ok, qptv_ok, qb_sub_ok, qeye_ok. auto. Qed.
  Fixpoint q_encl (n : nat) (sg h : Q) (guess u0 : list qitv) : option (list qitv) :=
    match n with
    | O => None
    | Datatypes.S n =>
        let u1 := qb_op qadd guess (map (qmul (qmul (qpt sg) (qmk (Some 0%Q) (Some h)))) (QF u0)) in
        if qb_subset u1 u0 then Some u0 else q_encl n sg h guess (qb_op qsub (map (qmul (qpt (1 + eps))) u1) (map (qmul (qpt eps)) u1))
    end.
  Lemma q_encl_ok n sg h guess : forall u0, encl_loop exact F (Q2R eps) n (Q2R sg) (Q2R h) (ebox guess) (ebox u0) = option_map ebox (q_encl n sg h guess u0).
  Proof.
    induction n as [|n IH]; intros u0; cbn [encl_loop q_encl]; auto. cbn zeta. change (imul exact) with xmul.
    assert (B : bnd 0 (Q2R h) = emb (qmk (Some 0%Q) (Some h))) by (rewrite <- qmk_ok; cbn [qb option_map]; unfold bnd; f_equal; f_equal; unfold Q2R; cbn; lra).
    rewrite B, (qpt_ok sg), qmul_ok, HF, qb_scal_ok, qb_add_ok, qb_subset_ok. destruct (qb_subset _ _); auto.
    replace (1 + Q2R eps) with (Q2R (1 + eps)) by (rewrite Q2R_plus; f_equal; unfold Q2R; cbn; lra). rewrite !qpt_ok, !qb_scal_ok, qb_sub_ok. apply IH.
  Qed.
  Definition q_body (sg h : Q) (s : qlohner) (ut : list qitv) : option qlohner :=
    let n := length (q_u s) in
    let z1 := qmv (map (map (qmul (qpt (Qred ((1 # 2) * h * h))))) (QJ ut)) (QF ut) in
    let m1 := map qmid z1 in
    let a := qmadd (qpts (qeye n)) (map (map (qmul (qpt (qtimes h sg)))) (QJ (q_u s))) in
    match QQ (map (map qmid) (qmm n a (qpts (q_B s)))) with
    | None => None
    | Some b1 =>
        match QV b1 with
        | None => None
        | Some b1inv =>
            let r1 := qb_op qadd (qmv (qmm n (qmm n (qpts b1inv) a) (qpts (q_B s))) (q_r s)) (qmv (qpts b1inv) (qb_op qsub z1 (map qpt m1))) in
            let hat1 := qvadd (qvadd (q_hat s) (map (qtimes (qtimes h sg)) (map qmid (QF (map qpt (q_hat s)))))) m1 in
            Some (mkQ (qb_op qadd (map qpt hat1) (qmv (qpts b1) r1)) r1 ut b1 b1inv hat1)
        end
    end.
  Lemma q_body_ok sg h s ut s' : q_body sg h s ut = Some s' -> lo_body exact midR qr inv F J (Q2R sg) (Q2R h) (elo s) (ebox ut) = elo s'.
  Proof.
    unfold q_body, lo_body. cbn zeta. cbn [elo lo_u lo_r lo_ut lo_B lo_Binv lo_hat]. assert (L : length (ebox (q_u s)) = length (q_u s)) by apply map_length. rewrite !L.
    assert (H1 : 1 / 2 * Q2R h * Q2R h = Q2R (Qred ((1 # 2) * h * h))) by (rewrite red, !Q2R_mult; do 2 f_equal; unfold Q2R; cbn; lra).
    rewrite H1, <- !qtimes_ok, !HF, !HJ, !qscal_ok, qmv_ok, qmids_ok, qeye_ok, !qpts_ok, qmadd_ok, qmm_ok, qmidm_ok.
    set (z1 := qmv _ (QF ut)). set (a := qmadd _ _). destruct (QQ _) as [b1|] eqn:E1; [|discriminate]. rewrite (Hqr _ _ E1). destruct (QV b1) as [b2|] eqn:E2; [|discriminate]. rewrite (Hiv _ _ E2). intros E. injection E as <-.
    rewrite !qpts_ok, !qmm_ok, !qptv_ok, qb_sub_ok, !qmv_ok, qb_add_ok, HF, qmids_ok, qvscal_ok, !qvadd_ok, qmv_ok, qptv_ok, qb_add_ok. reflexivity.
  Qed.
  Fixpoint q_iter (c : nat) (sg h : Q) (s : qlohner) (ut : list qitv) : option qlohner :=
    match c with
    | O => Some (mkQ (q_u s) (q_r s) ut (q_B s) (q_Binv s) (q_hat s))
    | Datatypes.S c =>
        match q_body sg h s ut with
        | None => None
        | Some s1 =>
            match c with
            | O => Some s1
            | Datatypes.S _ => match q_encl 30 (- sg) h (q_u s1) (q_u s1) with None => None | Some e => q_iter c sg h s (qb_inter ut e) end
            end
        end
    end.
  Lemma q_iter_ok c sg h s : forall ut s', q_iter c sg h s ut = Some s' -> lo_iter exact midR qr inv F J (Q2R eps) c (Q2R sg) (Q2R h) (elo s) (ebox ut) = Some (elo s').
  Proof.
    induction c as [|c IH]; intros ut s' E; cbn [q_iter lo_iter] in *.
    - injection E as <-. reflexivity.
    - cbn zeta. destruct (q_body sg h s ut) as [s1|] eqn:E1; [|discriminate]. rewrite (q_body_ok _ _ _ _ _ E1). destruct c as [|c]; [injection E as <-; auto|]. unfold global_encl. rewrite <- Q2R_opp. cbn [elo lo_u]. rewrite q_encl_ok.
      destruct (q_encl 30 _ _ _ _) as [e|]; [|discriminate]. cbn [option_map]. rewrite qb_inter_ok. apply IH. auto.
  Qed.
  Definition q_integrate (c : nat) (sg h : Q) (s : qlohner) : option qlohner :=
    match q_encl 30 sg h (q_u s) (q_u s) with None => None | Some ut => q_iter c sg h s ut end.
  Lemma q_integrate_ok c sg h s s' : q_integrate c sg h s = Some s' -> integrate exact midR qr inv F J c (Q2R eps) (Q2R sg) (Q2R h) (elo s) = Some (elo s').
  Proof.
    unfold q_integrate, integrate, global_encl. cbn [elo lo_u]. rewrite q_encl_ok. destruct (q_encl 30 _ _ _ _) as [ut|]; [|discriminate]. apply q_iter_ok.
  Qed.
  Definition q_step (g : list qitv) (s : qlohner) : qlohner :=
    let u := qb_inter g (q_u s) in let hat := map qmid u in
    mkQ u (qb_inter (q_r s) (qmv (qpts (q_Binv s)) (qb_op qsub u (map qpt hat)))) (q_ut s) (q_B s) (q_Binv s) hat.
  Lemma q_step_ok g s : contract_step exact midR (ebox g) (elo s) = elo (q_step g s).
  Proof.
    unfold contract_step, q_step. cbn zeta. cbn [elo lo_u lo_r lo_ut lo_B lo_Binv lo_hat]. rewrite qb_inter_ok, qmids_ok, qptv_ok, qb_sub_ok, qpts_ok, qmv_ok, qb_inter_ok. reflexivity.
  Qed.
End Run.

(** ** The matrix Q of the decompositions, in dimension 2 *)
(** Eigen::HouseholderQR for a matrix of two rows, used in codac_CtcLohner.cpp 149: the reflection which sends the first
    column on the first axis, the identity when it is already there *)
Definition qr2 (M : rmat) : rmat :=
  match M with
  | (a :: _) :: (b :: _) :: _ =>
      if Reqb b 0 then eye 2 else let s := if Rleb 0 a then - sqrt (a * a + b * b) else sqrt (a * a + b * b) in [[a / s; b / s]; [b / s; - (a / s)]]
  | _ => eye 2
  end.
Definition isqrt (q : Q) : option Q :=
  let p := Qred q in let n := Z.sqrt (Qnum p) in let d := Pos.sqrt (Qden p) in
  if Qeq_bool ((n # d) * (n # d)) q && Qle_bool 0 (n # d) then Some (n # d) else None.
Lemma isqrt_ok q s : isqrt q = Some s -> sqrt (Q2R q) = Q2R s.
Proof.
  unfold isqrt. cbn zeta. set (v := _ # _). destruct (Qeq_bool _ _ && _) eqn:E; [|discriminate]. intros H. injection H as <-. apply andb_true_iff in E. destruct E as [E1 E2]. apply Qeq_bool_iff, Qeq_eqR in E1. rewrite Q2R_mult in E1. rewrite <- E1. apply sqrt_square. apply leb_q in E2. replace (Q2R 0) with 0 in E2 by (unfold Q2R; cbn; lra). auto.
Qed.
Definition qqr2 (M : list (list Q)) : option (list (list Q)) :=
  match M with
  | (a :: _) :: (b :: _) :: _ =>
      if Qeq_bool b 0 then Some (qeye 2)
      else match isqrt (a * a + b * b) with
           | Some s => if Qeq_bool s 0 then None else let s := if Qle_bool 0 a then (- s)%Q else s in Some [[Qred (a / s); Qred (b / s)]; [Qred (b / s); (- Qred (a / s))%Q]]
           | None => None
           end
  | _ => None
  end.
Lemma Q2R_0' : Q2R 0 = 0. Proof. unfold Q2R; cbn; lra. Qed.
Lemma qdiv_ok a s : Qeq_bool s 0 = false -> Q2R (Qred (a / s)) = Q2R a / Q2R s.
Proof. intros H. rewrite red. apply Q2R_div. intros E. apply Qeq_bool_iff in E. congruence. Qed.
Lemma qqr2_ok M M' : qqr2 M = Some M' -> qr2 (ermat M) = ermat M'.
Proof.
  destruct M as [|[|a ra] [|[|b rb] M]]; try discriminate. cbn [qqr2 ermat evec map qr2].
  destruct (Qeq_bool b 0) eqn:Eb.
  - apply Qeq_bool_iff, Qeq_eqR in Eb. rewrite Q2R_0' in Eb. rewrite Reqb_t by auto. intros E. injection E as <-. apply qeye_ok.
  - assert (Q2R b <> 0) by (rewrite <- Q2R_0'; intros E; apply eqR_Qeq, Qeq_bool_iff in E; congruence). rewrite Reqb_f by auto. destruct (isqrt _) as [s|] eqn:Es; [|discriminate]. apply isqrt_ok in Es. rewrite Q2R_plus, !Q2R_mult in Es. rewrite Es.
    destruct (Qeq_bool s 0) eqn:E0; [discriminate|]. cbn zeta. intros E. injection E as <-. assert (EL : Rleb 0 (Q2R a) = Qle_bool 0 a) by (rewrite <- Rleb_q, Q2R_0'; auto). rewrite EL.
    set (s' := if Qle_bool 0 a then (- s)%Q else s). assert (E1 : (if Qle_bool 0 a then - Q2R s else Q2R s) = Q2R s') by (unfold s'; destruct (Qle_bool 0 a); auto; rewrite Q2R_opp; auto).
    assert (E2 : Qeq_bool s' 0 = false).
    { unfold s'. destruct (Qle_bool 0 a); auto. destruct (Qeq_bool (- s) 0) eqn:EE; auto. apply Qeq_bool_iff in EE. assert (s == 0)%Q by (setoid_replace s with (- - s)%Q by ring; rewrite EE; reflexivity). apply Qeq_bool_iff in H0. congruence. }
    rewrite E1. cbn [ermat evec map]. rewrite Q2R_opp, !qdiv_ok by auto. reflexivity.
Qed.
