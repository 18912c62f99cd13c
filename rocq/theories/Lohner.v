(** * Model of [codac::CtcLohner] (/repo/src/core/contractors/dyn/codac_CtcLohner.cpp)

    A TubeVector is the list of its components, which share the same slicing (codac_CtcLohner.cpp 208-213).
    The arithmetic of IBEX on intervals is given by [arith]; the operations on real vectors and matrices are exact
    (codac_CtcLohner.cpp 153: sums of vectors of doubles).  [bmid] is Interval::mid, [qr] gives the matrix Q of
    Eigen::HouseholderQR, [inv] is ibex::real_inverse, [F] and [J] are eval_vector and jacobian of the IBEX function.
    [None] is the exception GlobalEnclosureError (codac_CtcLohner.cpp 174). *)
From Coq Require Import Reals Bool List Arith.
From Verif Require Import Itv Arith Tube TubeOps CtcDelay Paving Static Picard.
Import ListNotations.
Open Scope R_scope.

(** ** Vectors and matrices of IBEX (ibex_Linear.h, included by codac_CtcLohner.cpp 15) *)
(** ibex::Matrix, codac_CtcLohner.cpp 112 *)
Definition rmat : Type := list (list R).
(** ibex::IntervalMatrix, codac_CtcLohner.cpp 148 *)
Definition imat : Type := list box.
(** a matrix of points, used by the products of codac_CtcLohner.cpp 152, 154 and 180 *)
Definition pts (M : rmat) : imat := map (map pt) M.
(** Matrix::eye, codac_CtcLohner.cpp 133-134 and 148 *)
Definition eye (n : nat) : rmat := map (fun i => map (fun j => if Nat.eqb i j then 1 else 0) (seq 0 n)) (seq 0 n).
(** sum of two vectors of doubles, codac_CtcLohner.cpp 153 *)
Fixpoint vadd (x y : list R) : list R := match x, y with a :: x, b :: y => (a + b) :: vadd x y | _, _ => [] end.
(** product of a double and a vector, codac_CtcLohner.cpp 153 *)
Definition vscal (c : R) (x : list R) : list R := map (Rmult c) x.

Section Lohner.
  Variable A : arith.
  Variable bmid : itv -> R.
  Variables qr inv : rmat -> rmat.
  Variable F : box -> box.
  Variable J : box -> imat.
  Variable contractions : nat.
  Variable eps : R.

  (** operator- of two vectors, used in codac_CtcLohner.cpp 131, 152, 171 and 180 *)
  Definition b_sub (x y : box) : box := if b_is_empty x || b_is_empty y then b_set_empty x else map2 (isub A) x y.
  (** scalar product, for the products of codac_CtcLohner.cpp 146-154 and 180 *)
  Fixpoint idot (x y : box) : itv := match x, y with i :: x, j :: y => iadd A (imul A i j) (idot x y) | _, _ => pt 0 end.
  (** product of a matrix and a vector, codac_CtcLohner.cpp 146, 152, 154 and 180 *)
  Definition imv (M : imat) (x : box) : box := map (fun row => idot row x) M.
  (** a row of the product of two matrices with [n] columns, codac_CtcLohner.cpp 149 and 152 *)
  Fixpoint ivm (n : nat) (row : box) (M : imat) : box :=
    match row, M with a :: row, l :: M => map2 (iadd A) (b_scal A a l) (ivm n row M) | _, _ => repeat (pt 0) n end.
  (** product of two matrices, codac_CtcLohner.cpp 149 and 152 *)
  Definition imm (n : nat) (M M' : imat) : imat := map (fun row => ivm n row M') M.
  (** product of a double and a matrix, codac_CtcLohner.cpp 146 and 148 *)
  Definition imscal (c : R) (M : imat) : imat := map (b_scal A (pt c)) M.
  (** sum of two matrices, codac_CtcLohner.cpp 148 *)
  Fixpoint imadd (M M' : imat) : imat :=
    match M, M' with l :: M, l' :: M' => map2 (iadd A) l l' :: imadd M M' | _, _ => [] end.

  (** ** LohnerAlgorithm *)
  (** the members, codac_CtcLohner.cpp 103-114: u, r, u_tilde, B, Binv, u_hat (z is never read) *)
  Record lohner : Type := mkL { lo_u : box; lo_r : box; lo_ut : box; lo_B : rmat; lo_Binv : rmat; lo_hat : list R }.
  (** the constructor, codac_CtcLohner.cpp 119-136; [n] is dim *)
  Definition lo_init (n : nat) (u0 : box) : lohner :=
    mkL u0 (b_sub u0 (map pt (map bmid u0))) [] (eye n) (eye n) (map bmid u0).
  (** the loop of codac_CtcLohner.cpp 166-173; [sg] is dir * direction *)
  Fixpoint encl_loop (n : nat) (sg h : R) (guess u0 : box) : option box :=
    match n with
    | O => None
    | S n =>
        let u1 := b_add A guess (b_scal A (imul A (pt sg) (bnd 0 h)) (F u0)) in
        if b_is_subset u1 u0 then Some u0
        else encl_loop n sg h guess (b_sub (b_scal A (pt (1 + eps)) u1) (b_scal A (pt eps) u1))
    end.
  (** globalEnclosure, codac_CtcLohner.cpp 164-175 *)
  Definition global_encl (sg h : R) (guess : box) : option box := encl_loop 30 sg h guess guess.
  (** codac_CtcLohner.cpp 146-154; [sg] is direction *)
  Definition lo_body (sg h : R) (s : lohner) (ut : box) : lohner :=
    let n := length (lo_u s) in
    let z1 := imv (imscal (1 / 2 * h * h) (J ut)) (F ut) in
    let m1 := map bmid z1 in
    let a := imadd (pts (eye n)) (imscal (h * sg) (J (lo_u s))) in
    let b1 := qr (map (map bmid) (imm n a (pts (lo_B s)))) in
    let b1inv := inv b1 in
    let r1 := b_add A (imv (imm n (imm n (pts b1inv) a) (pts (lo_B s))) (lo_r s)) (imv (pts b1inv) (b_sub z1 (map pt m1))) in
    let hat1 := vadd (vadd (lo_hat s) (vscal (h * sg) (map bmid (F (map pt (lo_hat s)))))) m1 in
    mkL (b_add A (map pt hat1) (imv (pts b1) r1)) r1 ut b1 b1inv hat1.
  (** the loop of codac_CtcLohner.cpp 145-158; [c] iterations left *)
  Fixpoint lo_iter (c : nat) (sg h : R) (s : lohner) (ut : box) : option lohner :=
    match c with
    | O => Some (mkL (lo_u s) (lo_r s) ut (lo_B s) (lo_Binv s) (lo_hat s))
    | S c =>
        let s1 := lo_body sg h s ut in
        match c with
        | O => Some s1
        | S _ => match global_encl (- sg) h (lo_u s1) with
                 | None => None
                 | Some e => lo_iter c sg h s (b_inter ut e)
                 end
        end
    end.
  (** integrate(1, h), codac_CtcLohner.cpp 138-162 *)
  Definition integrate (sg h : R) (s : lohner) : option lohner :=
    match global_encl sg h (lo_u s) with None => None | Some ut => lo_iter contractions sg h s ut end.
  (** contractStep, codac_CtcLohner.cpp 177-181 *)
  Definition contract_step (x : box) (s : lohner) : lohner :=
    let u := b_inter x (lo_u s) in
    let hat := map bmid u in
    mkL u (b_inter (lo_r s) (imv (pts (lo_Binv s)) (b_sub u (map pt hat)))) (lo_ut s) (lo_B s) (lo_Binv s) hat.

  (** ** CtcLohner *)
  (** the gate of a slice towards which the integration goes, codac_CtcLohner.cpp 211 and 230 *)
  Definition out_gate (fwd : bool) (s : slice) : itv := if fwd then s_out s else s_in s.
  (** the loops of codac_CtcLohner.cpp 208-218 and 227-237, over the ranks [ks]; [out]: output_gate *)
  Fixpoint lo_slices (fwd : bool) (ks : list nat) (s : lohner) (xs : list tube) (out : box) : option (lohner * list tube * box) :=
    match ks with
    | [] => Some (s, xs, out)
    | k :: ks =>
        match slices_at k xs with
        | [] => None
        | q :: _ =>
            match integrate (if fwd then 1 else -1) (s_ub q - s_lb q) s with
            | None => None
            | Some s =>
                let gate := map (out_gate fwd) (slices_at k xs) in
                let s := contract_step gate s in
                lo_slices fwd ks s (put_env k (map2 inter (cod_k k xs) (lo_ut s)) xs) gate
            end
        end
    end.
  (** contract(TubeVector, t_propa) in one direction, codac_CtcLohner.cpp 202-220 and 221-239 *)
  Definition lohner_dir (fwd : bool) (xs : list tube) : option (list tube) :=
    match xs with
    | [] => Some xs
    | x :: _ =>
        let nb := length x in
        let gate := if fwd then map s_in (slices_at 0 xs) else map s_out (slices_at (nb - 1) xs) in
        let ks := if fwd then seq 0 nb else rev (seq 0 nb) in
        match lo_slices fwd ks (lo_init (length xs) gate) xs [] with
        | None => None
        | Some (s, ys, out) =>
            Some (on_comps (fun g y => tube_set_at g (if fwd then tf x else t0 x) y) (b_inter out (lo_u s)) ys)
        end
    end.
  (** contract(TubeVector, t_propa), codac_CtcLohner.cpp 198-240 *)
  Definition ctc_lohner (fwd bwd : bool) (xs : list tube) : option (list tube) :=
    match (if fwd then lohner_dir true xs else Some xs) with
    | None => None
    | Some ys => if bwd then lohner_dir false ys else Some ys
    end.
  (** contract(Tube, t_propa), codac_CtcLohner.cpp 242-247 *)
  Definition ctc_lohner_tube (fwd bwd : bool) (x : tube) : option tube :=
    match ctc_lohner fwd bwd [x] with Some (y :: _) => Some y | _ => None end.
End Lohner.
