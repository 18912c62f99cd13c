(** * The hull of a set known by a separator, and the union of separators with bounding boxes

    Models /repo/src/unsupported/separators/codac_CtcHull.cpp and codac_SepUnionBbox.cpp.  The operations of IBEX on boxes are
    those of Static.v and Paving.v; IntervalVector::diff and the bisector are parameters. *)

From Coq Require Import Reals Bool List Arith.
Import ListNotations.
From Verif Require Import Itv Tube Static Sivia Paving Separators SepProj.
Open Scope R_scope.

(** ** CtcHull *)
(** Outcome of the loop of codac_CtcHull.cpp 31-54: finished, not finished yet, exception of the bisector *)
Inductive hres : Type := HDone (x : box) | HMore | HExc.
(** [X.max_diam() <= eps], codac_CtcHull.cpp 47, 51; the width of an unbounded box is infinite *)
Definition dle (a : option R) (eps : R) : bool := match a with Some a => Rleb a eps | None => false end.
(** The loop, codac_CtcHull.cpp 31-54: [lst] the boxes to study, [xins] the box x_inside *)
Fixpoint hull_loop (diff : box -> box -> list box) (bis : box -> option (box * box)) (sep : sep_t) (eps : R)
    (fuel : nat) (lst : list box) (xins : box) : hres :=
  match lst with
  | [] => HDone xins
  | X :: lst =>
      match fuel with
      | O => HMore
      | S fuel =>
          let loop := hull_loop diff bis sep eps fuel in
          if b_is_subset X xins then loop lst xins
          else
            let xin := fst (sep X X) in
            let xout := snd (sep X X) in
            let xins := if b_is_empty xin || negb (box_eqb xin X) then hull_all xins (diff X xin) else xins in
            let X := b_inter X (b_inter xin xout) in
            if b_is_empty X then loop lst xins
            else if dle (max_diam X) eps then loop lst (b_hull xins X)
            else match bis X with
                 | Some (x1, x2) => loop (lst ++ [x1; x2]) xins
                 | None => HExc
                 end
      end
  end.
(** CtcHull::contract, codac_CtcHull.cpp 27-57 *)
Definition ctc_hull diff bis sep eps (fuel : nat) (x : box) : hres :=
  match hull_loop diff bis sep eps fuel [x] (repeat Emp (length x)) with
  | HDone xins => HDone (b_inter x xins)
  | r => r
  end.

(** ** SepUnionBbox *)
(** The loop of SepUnionBbox::separate, codac_SepUnionBbox.cpp 31-37, from the index [i] on; [x] is the box of line 27, [save]
    the box of line 29; [None] when bbox[i] does not exist *)
Fixpoint union_bbox_loop (seps : list sep_t) (bbox : list box) (x save : box) (i : nat) (x_in x_out res : box) : option (box * box) :=
  match seps with
  | [] => Some (x_in, res)
  | s :: seps =>
      match nth_error bbox i with
      | None => None
      | Some b =>
          if negb (Paving.b_intersects x b) then union_bbox_loop seps bbox x save (S i) x_in x_out res
          else
            let xo := if Nat.ltb 0 i then save else x_out in
            let xo := b_inter xo x_in in
            let r := s x_in xo in
            union_bbox_loop seps bbox x save (S i) (fst r) (snd r) (b_hull res (snd r))
      end
  end.
(** SepUnionBbox::separate, codac_SepUnionBbox.cpp 25-40; [None] also when the assertion of line 26 fails *)
Definition sep_union_bbox (seps : list sep_t) (bbox : list box) (x_in x_out : box) : option (box * box) :=
  if box_eqb x_in x_out
  then union_bbox_loop seps bbox (b_inter x_in x_out) x_out 0 x_in x_out (repeat Emp (length x_out))
  else None.
