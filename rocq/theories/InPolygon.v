(** * PdcInPolygon and SepPolygon (src/core/geometry/codac_PdcInPolygon.cpp, codac_SepPolygon.cpp) *)
From Coq Require Import Reals Bool List Arith.
Import ListNotations.
From Verif Require Import Itv Arith Static.
Open Scope R_scope.

(** ibex::BoolInterval without EMPTY_BOOL, codac_PdcInPolygon.cpp 69-93 *)
Inductive pdc : Type := YES | NO | MAYBE.
(** a segment: the lists ax, ay, bx, by of codac_PdcInPolygon.h 102-108, read together *)
Definition segment : Type := (R * R) * (R * R).
(** the constructor from the vertices, codac_PdcInPolygon.cpp 29-40: from each vertex to the next one, and from the last
    to the first (the same in codac_SepPolygon.cpp 44-56) *)
Definition edges (vs : list (R * R)) : list segment :=
  map (fun i => (nth (i mod length vs) vs (0, 0), nth ((i + 1) mod length vs) vs (0, 0))) (seq 0 (length vs)).
Section InPolygon.
  Variable E : elem.
  (** [ibex::atan2] *)
  Variable iatan2 : itv -> itv -> itv.
  (** [2*Interval::PI], codac_PdcInPolygon.cpp 84 *)
  Variable two_pi : itv.
  (** [Interval::mid], codac_PdcInPolygon.cpp 71-72 *)
  Variable mid : itv -> R.
  Notation "x +' y" := (iadd (ar E) x y) (at level 50, left associativity).
  Notation "x -' y" := (isub (ar E) x y) (at level 50, left associativity).
  Notation "x *' y" := (imul (ar E) x y) (at level 40, left associativity).
  (** codac_PdcInPolygon.cpp 51-64 *)
  Definition argument (mx my : itv) (xa ya xb yb : R) : itv :=
    let ma_x := pt xa -' mx in
    let ma_y := pt ya -' my in
    let mb_x := pt xb -' mx in
    let mb_y := pt yb -' my in
    let norm_ma := isqrt E (isqr E ma_x +' isqr E ma_y) in
    let norm_mb := isqrt E (isqr E mb_x +' isqr E mb_y) in
    let cos_theta := idiv E (ma_x *' mb_x +' ma_y *' mb_y) (norm_ma *' norm_mb) in
    let sin_theta := idiv E (ma_x *' mb_y -' ma_y *' mb_x) (norm_ma *' norm_mb) in
    iatan2 sin_theta cos_theta.
  (** the loop, codac_PdcInPolygon.cpp 74-77 *)
  Definition theta_sum (es : list segment) (mx my : itv) : itv :=
    fold_left (fun th e => th +' argument mx my (fst (fst e)) (snd (fst e)) (fst (snd e)) (snd (snd e))) es (pt 0).
  (** codac_PdcInPolygon.cpp 81-92 *)
  Definition decide_theta (theta : itv) : pdc :=
    if negb (contains theta 0) then YES
    else if is_empty (inter theta two_pi) && contains theta 0 then NO
    else MAYBE.
  (** codac_PdcInPolygon.cpp 69-93 *)
  Definition in_polygon (es : list segment) (x : box) : pdc :=
    decide_theta (theta_sum es (pt (mid (nth 0 x Emp))) (pt (mid (nth 1 x Emp)))).

  (** the contractor on the border: the union of the contractors on the segments, codac_SepPolygon.cpp 26-56 and 63-79;
      [ctc_f], [ctc_g] as in Static.v *)
  Definition poly_ctc (ctc_f ctc_g : ctc_t) (es : list segment) : ctc_t :=
    ctc_union 2 (map (fun e => ctc_segment2 ctc_f ctc_g (fst (fst e)) (snd (fst e)) (fst (snd e)) (snd (snd e))) es).
  (** ibex::SepBoundaryCtc, the class that SepPolygon extends (codac_SepPolygon.cpp 63-79). Its code is not in the
      repository; codac_SepPolygon.h 59-60 tells what it does: contract on the border, then classify the removed parts
      with the test. [diff] is [IntervalVector::diff]. *)
  Definition sep_boundary (diff : box -> box -> list box) (ctc : ctc_t) (test : box -> pdc) (x_in x_out : box) : box * box :=
    let x := b_inter x_in x_out in
    let xb := ctc x in
    fold_left (fun r d => match test d with
                          | YES => (fst r, b_hull (snd r) d)
                          | NO => (b_hull (fst r) d, snd r)
                          | MAYBE => (b_hull (fst r) d, b_hull (snd r) d)
                          end) (diff x xb) (xb, xb).
  (** codac_SepPolygon.cpp 63-79 *)
  Definition sep_polygon (diff : box -> box -> list box) (ctc_f ctc_g : ctc_t) (es : list segment) (x_in x_out : box) : box * box :=
    sep_boundary diff (poly_ctc ctc_f ctc_g es) (in_polygon es) x_in x_out.
End InPolygon.
