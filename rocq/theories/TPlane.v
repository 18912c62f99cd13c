(** The t-plane: detection of the loops of a robot from tubes of positions and velocities.

    Modelled file: /repo/src/robotics/loops/codac_TPlane.cpp, lines 92-219, with the tubes of Tube.v without
    synthesis tree and exact arithmetic.  A node is a tree value (the copies between [TPlane] and [Paving],
    lines 128-138 and 203-213, are not modelled).  Not modelled: extraction of connected subsets, proofs of loops, summaries. *)

From Coq Require Import Reals List Bool NArith.
From Verif Require Import Itv Arith Tube TubeOps Integral Static Paving Codac2Box.
Import ListNotations.
Local Open Scope R_scope.

(** codac_Paving.h: a node of the paving, with the members [m_value], [m_box] and the two sub-pavings, both null or both set.
    codac_Paving.h 220, codac_Set.h 113-114 *)
Inductive tpl :=
| TpLeaf (v : N) (b : box)
| TpNode (v : N) (b : box) (l r : tpl).

(** codac_TPlane.cpp, lines 92-109: the arguments of [compute_detections]: positions, velocities,
    [with_derivative]. *)
Record tp_in := mkTP { tp_p : list tube; tp_v : list tube; tp_der : bool }.

(** codac_TPlane.cpp, lines 153, 169-170: a vector of doubles seen as a box; an infinite (or not-a-number)
    double gives an empty interval. *)
Definition vec_box (l : list (option R)) : box := map (fun o => match o with Some a => pt a | None => Emp end) l.

(** codac_TPlane.cpp, lines 169-170: difference of two vectors of doubles; infinite when one of them is. *)
Definition vec_sub (l m : list (option R)) : list (option R) :=
  map (fun q => match q with (Some a, Some b) => Some (a - b) | _ => None end) (combine l m).

(** IntervalVector::interior_contains of IBEX, used in codac_TPlane.cpp, lines 156-157, for the null vector. *)
Definition interior0 (b : box) : bool :=
  negb (b_is_empty b) &&
  forallb (fun i => match i with
                    | Emp => false
                    | Itv l h => match l with Some a => Rltb a 0 | None => true end && match h with Some c => Rltb 0 c | None => true end
                    end) b.

(** codac_TPlane.cpp, line 152: [v.partial_integral(t1,t2)], codac_TubeVector.cpp, lines 968-983, and
    codac_Tube.cpp, lines 1454-1462. *)
Definition tp_pint (v : list tube) (l1 u1 l2 u2 : R) : box * box :=
  (map (fun x => xsub (fst (partial_integral exact x l2 u2)) (fst (partial_integral exact x l1 u1))) v,
   map (fun x => xsub (snd (partial_integral exact x l2 u2)) (snd (partial_integral exact x l1 u1))) v).

(** codac_TPlane.cpp, lines 152-153: the box [integ]. *)
Definition tp_integ (v : list tube) (l1 u1 l2 u2 : R) : box :=
  let q := tp_pint v l1 u1 l2 u2 in
  b_hull (vec_box (map lbound (fst q))) (vec_box (map ubound (snd q))).

(** codac_TPlane.cpp, lines 155-157: [derivative_out]. *)
Definition derivative_out (i : tp_in) (l1 u1 l2 u2 : R) : bool :=
  i_is_strict_subset (xsub (bnd l1 u1) (bnd l2 u2)) POS
  || negb (interior0 (tp_integ (tp_v i) l1 u1 l2 u2))
  || negb (interior0 (map (fun x => eval_itv x (hull (bnd l1 u1) (bnd l2 u2))) (tp_v i))).

(** codac_TPlane.cpp, lines 159-161: [derivative_in]; [box_neg_reals] and [box_pos_reals], lines 143-144,
    have two components. *)
Definition derivative_in (i : tp_in) (l1 u1 l2 u2 : R) : bool :=
  let q := tp_pint (tp_v i) l1 u1 l2 u2 in
  i_is_strict_subset (xsub (bnd l1 u1) (bnd l2 u2)) NEG
  && m_is_strict_subset (fst q) [NEG; NEG] && m_is_strict_subset (snd q) [POS; POS].

(** codac_TPlane.cpp, lines 166-167: [p.eval(t)], codac_TubeVector.cpp, lines 378-391. *)
Definition tp_eval (p : list tube) (l u : R) : box * box :=
  (map (fun x => fst (eval_bounds x l u)) p, map (fun x => snd (eval_bounds x l u)) p).

(** codac_TPlane.cpp, lines 168-170: [enc_bounds]. *)
Definition tp_enc (p : list tube) (l1 u1 l2 u2 : R) : box * box :=
  let uy1 := tp_eval p l1 u1 in
  let uy2 := tp_eval p l2 u2 in
  (b_hull (vec_box (vec_sub (map lbound (fst uy1)) (map ubound (snd uy2))))
          (vec_box (vec_sub (map ubound (fst uy1)) (map lbound (snd uy2)))),
   b_hull (vec_box (vec_sub (map lbound (snd uy1)) (map ubound (fst uy2))))
          (vec_box (vec_sub (map ubound (snd uy1)) (map lbound (fst uy2))))).

(** codac_TPlane.cpp, lines 172-176: [primitive_out]; the components 0 and 1. *)
Definition primitive_out (i : tp_in) (l1 u1 l2 u2 : R) : bool :=
  let enc := tp_enc (tp_p i) l1 u1 l2 u2 in
  i_is_strict_subset (xsub (bnd l1 u1) (bnd l2 u2)) POS
  || i_is_strict_subset (nth 0 (fst enc) ALL) POS || i_is_strict_subset (nth 1 (fst enc) ALL) POS
  || i_is_strict_subset (nth 0 (snd enc) ALL) NEG || i_is_strict_subset (nth 1 (snd enc) ALL) NEG.

(** codac_TPlane.cpp, lines 178-182: [primitive_in]. *)
Definition primitive_in (i : tp_in) (l1 u1 l2 u2 : R) : bool :=
  let enc := tp_enc (tp_p i) l1 u1 l2 u2 in
  i_is_strict_subset (xsub (bnd l1 u1) (bnd l2 u2)) NEG
  && i_is_strict_subset (nth 0 (fst enc) ALL) NEG && i_is_strict_subset (nth 1 (fst enc) ALL) NEG
  && i_is_strict_subset (nth 0 (snd enc) ALL) POS && i_is_strict_subset (nth 1 (snd enc) ALL) POS.

(** codac_TPlane.cpp, lines 142-193: the value given to a leaf of box [l1,u1] x [l2,u2]; [None]: the leaf
    is bisected. *)
Definition tp_class (i : tp_in) (prec l1 u1 l2 u2 : R) : option N :=
  let d_out := tp_der i && derivative_out i l1 u1 l2 u2 in
  let d_in := tp_der i && derivative_in i l1 u1 l2 u2 in
  if d_out || primitive_out i l1 u1 l2 u2 then Some V_OUT
  else if d_in && primitive_in i l1 u1 l2 u2 then Some V_IN
  else if Rltb (Rmax (u1 - l1) (u2 - l2)) prec then Some V_UNKNOWN
  else None.

(** codac_TPlane.cpp, lines 119-120: the box of an unbounded plane is set to the domain of the tubes. *)
Definition tp_init (i : tp_in) (b : box) : box :=
  if existsb is_unbounded b then
    match tp_p i with x :: _ => let d := bnd (t0 x) (tf x) in [d; d] | [] => b end
  else b.

(** codac_TPlane.cpp, lines 108-218: [compute_detections] ([extract_subsets] false).  [bis] is [Paving::bisect],
    codac_Paving.cpp, lines 117-128.  [None]: not enough fuel, or a box that is not made of two
    bounded intervals. *)
Fixpoint tp_detect (i : tp_in) (prec : R) (bis : box -> box * box) (fuel : nat) (n : tpl) : option tpl :=
  match fuel with
  | O => None
  | S fuel =>
      match n with
      | TpLeaf v b =>
          let b := tp_init i b in
          if N.eqb v V_OUT then Some (TpLeaf v b)
          else
            match b with
            | [Itv (Some l1) (Some u1); Itv (Some l2) (Some u2)] =>
                match tp_class i prec l1 u1 l2 u2 with
                | Some w => Some (TpLeaf w b)
                | None =>
                    match tp_detect i prec bis fuel (TpLeaf v (fst (bis b))), tp_detect i prec bis fuel (TpLeaf v (snd (bis b))) with
                    | Some l, Some r => Some (TpNode v b l r)
                    | _, _ => None
                    end
                end
            | _ => None
            end
      | TpNode v b l r =>
          let b := tp_init i b in
          if N.eqb v V_OUT then Some (TpNode v b l r)
          else
            match tp_detect i prec bis fuel l, tp_detect i prec bis fuel r with
            | Some l, Some r => Some (TpNode v b l r)
            | _, _ => None
            end
      end
  end.
