(** Tests of thick sets: disks with an uncertain centre, thin and thick functions, translated boxes.

    Modelled files:
    - /repo/src/unsupported/thickset/codac_ThickTest.h
    - /repo/src/unsupported/thickset/codac_ThickTest.cpp (lines 14-50 and 140-154)

    The interval operators are the exact ones of Arith.v and Geometry.v (the result is (-oo,+oo) for products
    and squares of unbounded operands).  Not modelled: [ThickSector] and [ThinInverse]. *)

From Coq Require Import Reals List Bool.
From Verif Require Import Itv Arith Static Paving Geometry Thick.
Import ListNotations.
Local Open Scope R_scope.

(** codac_ThickTest.h, lines 40-58: class [ThickDisk], members [mx], [my], [Rmin], [Rmax], [bbox];
    [Rmin] and [Rmax] hold squared distances. *)
Record tdisk := mkD { d_mx : itv; d_my : itv; d_rmin : itv; d_rmax : itv; d_bbox : box }.

(** codac_ThickTest.h, lines 44-45: [Interval(-Rmax.ub(), Rmax.ub())]; empty when the interval is
    empty (the bounds are not numbers). *)
Definition sym_itv (r : itv) : itv :=
  match r with Itv _ (Some u) => mk (Some (- u)) (Some u) | Itv _ None => ALL | Emp => Emp end.

(** codac_ThickTest.h, lines 42-46: the constructor from four intervals. *)
Definition td_new (mx my rmin rmax : itv) : tdisk :=
  mkD mx my (xsqr rmin) (xsqr rmax) [xadd mx (sym_itv (xsqr rmax)); xadd my (sym_itv (xsqr rmax))].

(** codac_ThickTest.h, lines 47-51: the constructor from three numbers. *)
Definition td_new_r (mx my r : R) : tdisk :=
  let sq := mk (Some 0) (Some (r * r)) in
  let s := mk (Some (- r)) (Some r) in
  mkD (pt mx) (pt my) sq sq [xadd (pt mx) s; xadd (pt my) s].

(** codac_ThickTest.h, line 54: [setParams]; the bounding box is left as it is. *)
Definition td_set_params (d : tdisk) (mx my : itv) : tdisk := mkD mx my (d_rmin d) (d_rmax d) (d_bbox d).

(** codac_ThickTest.cpp, lines 18 and 20: [ibex::sign] of an interval. *)
Definition i_sign (i : itv) : itv :=
  match i with
  | Emp => Emp
  | Itv l h =>
      if match h with Some b => Rltb b 0 | None => false end then pt (-1)
      else if match l with Some a => Rltb 0 a | None => false end then pt 1
      else mk (Some (-1)) (Some 1)
  end.

(** codac_ThickTest.cpp, lines 18-19 (and 20-21): one term of [Xm], for a component [x] and the centre
    [l,u] in this dimension. *)
Definition td_min (x : itv) (l u : R) : itv :=
  xmul (i_max (pt 0) (i_sign (xmul (xsub x (pt u)) (xsub x (pt l)))))
       (i_min (xsqr (xsub x (pt l))) (xsqr (xsub x (pt u)))).

(** codac_ThickTest.cpp, line 23 (and 24): one term of [Xp]. *)
Definition td_max (x : itv) (l u : R) : itv :=
  i_max (xsqr (xsub x (pt l))) (xsqr (xsub x (pt u))).

(** codac_ThickTest.cpp, line 39: [B1.ub() < 0], false when the bound is infinite or not a number. *)
Definition ub_neg (i : itv) : bool := match i with Itv _ (Some u) => Rltb u 0 | _ => false end.

(** codac_ThickTest.cpp, lines 14-50: [ThickDisk::test].  [None]: the box has not two components, or a
    parameter of the disk is empty or unbounded (not modelled). *)
Definition td_test (d : tdisk) (X : box) : option tb :=
  match X with
  | [x; y] =>
      if negb (b_intersects X (d_bbox d)) then Some TOut
      else
        match d_mx d, d_my d, d_rmin d, d_rmax d with
        | Itv (Some xl) (Some xu), Itv (Some yl) (Some yu), Itv (Some il) (Some iu), Itv (Some al) (Some au) =>
            let Xm := xadd (td_min x xl xu) (td_min y yl yu) in
            let Xp := xadd (td_max x xl xu) (td_max y yl yu) in
            let Xub := hull Xm Xp in
            if negb (intersects (d_rmax d) Xub) then Some TOut
            else if is_subset Xub (d_rmin d) then Some TIn
            else
              let b1 := is_subset (xsub Xm (pt au)) (Itv None (Some 0)) in
              let b2 := is_subset (xsub (pt al) Xp) (Itv None (Some 0)) in
              let incl := ub_neg (xsub Xm (pt il)) || ub_neg (xsub (pt iu) Xp) in
              if incl && b1 && b2 then Some TMaybe
              else if incl && negb (b1 && b2) then Some TMaybeOut
              else if negb incl && (b1 && b2) then Some TMaybeIn
              else Some TUnk
        | _, _, _, _ => None
        end
  | _ => None
  end.

(** codac_ThickTest.h, lines 133-141: [ThinfIn::test]; [F] is [f.eval_vector]. *)
Definition thinf_test (F : box -> box) (y X : box) : tb :=
  if b_is_subset (F X) y then TIn else if negb (b_intersects (F X) y) then TOut else TUnk.

(** codac_ThickTest.cpp, lines 140-154: [ThickfIn::test]; the body is the one of
    [ThickBox::is_inside]. *)
Definition thickf_test (F_lb F_ub : box -> box) (y X : box) : tb :=
  let Z := tb_new (F_lb X) (F_ub X) in
  if b_is_subset (tb_superset Z) y then TIn
  else if negb (b_intersects (tb_superset Z) y) then TOut
  else
    let b1 := tb_intersects Z y in
    let b2 := tb_is_not_subset Z y in
    if b1 && b2 then TMaybe else if negb b1 && b2 then TMaybeOut else if negb b2 && b1 then TMaybeIn else TUnk.

(** codac_ThickTest.h, line 173: the two boxes [box + dX.lb()], [box + dX.ub()], for a bounded
    [dX]; an infinite bound gives an empty component here. *)
Definition tr_box (low : bool) (dX X : box) : box :=
  map2 (fun x d => match d with
                   | Itv l h => match (if low then l else h) with Some a => xadd x (pt a) | None => Emp end
                   | Emp => Emp
                   end) X dX.

(** codac_ThickTest.h, lines 168-178: [ThickTranslateInBox::test]. *)
Definition translate_test (dX y X : box) : tb := tb_is_inside (tb_new (tr_box true dX X) (tr_box false dX X)) y.
