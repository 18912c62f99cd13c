(** * SIVIA

    Models /repo/src/core/sivia/codac_sivia.cpp.  The drawing of the boxes and the counters that are displayed
    (display_result) are not modelled; the boxes are always stored (return_result = true). *)

From Coq Require Import Reals Lra Bool List Arith.
Import ListNotations.
From Verif Require Import Itv Static.
Open Scope R_scope.

(** [x.max_diam() < precision] (codac_sivia.cpp 131-132, 305): each diameter is less than the precision *)
Definition diam_lt (precision : R) (i : itv) : bool :=
  match i with Emp => true | Itv (Some a) (Some b) => Rltb (b - a) precision | _ => false end.
(** the same for a box (codac_sivia.cpp 131-132, 305) *)
Definition max_diam_lt (precision : R) (x : box) : bool := forallb (diam_lt precision) x.

(** the map [boxes], codac_sivia.cpp 76-80 and 231-235 *)
Record paving3 : Type := mkP { p_in : list box; p_out : list box; p_unk : list box }.
(** the [push_front] of codac_sivia.cpp 280-281, 118-119 and 292-293, 140-141 and 313-314 *)
Definition add_in (l : list box) (r : paving3) : paving3 := mkP (rev l ++ p_in r) (p_out r) (p_unk r).
(** codac_sivia.cpp 118-119, 292-293 *)
Definition add_out (l : list box) (r : paving3) : paving3 := mkP (p_in r) (rev l ++ p_out r) (p_unk r).
(** codac_sivia.cpp 140-141, 313-314 *)
Definition add_unk (x : box) (r : paving3) : paving3 := mkP (p_in r) (p_out r) (x :: p_unk r).

(** Outcome of a run with a bounded number of iterations of the loop: finished, not finished yet, exception of the
    bisector (no component can be bisected). codac_sivia.cpp 88-161, 243-324 *)
Inductive outcome : Type := Done (r : paving3) | More | Exc.

(** [diff x0 x] is IntervalVector::diff called by box_diff (codac_sivia.cpp 26-33), [bis] is
    LargestFirst(0.).bisect (lines 82, 148, 155, 237, 319): both are functions of IBEX, given as parameters. *)

(** The loop of _SIVIA, codac_sivia.cpp 88-161.  [n] is x0.size().  [y0] is the part that is not bisected, the empty
    list when the pointer y0 is null: then cart_prod(x,y0) is x and x.subvector(0,n-1) is x. *)
Fixpoint sivia_ctc_loop (diff : box -> box -> list box) (bis : box -> option (box * box)) (ctc : ctc_t)
    (precision : R) (regular : bool) (n : nat) (y0 : box) (fuel : nat) (stack : list box) (r : paving3) : outcome :=
  match stack with
  | [] => Done r
  | xb :: stack =>
      match fuel with
      | O => More
      | S fuel =>
          let loop := sivia_ctc_loop diff bis ctc precision regular n y0 fuel in
          let x := ctc xb in
          let r := add_out (if regular then (if b_is_empty x then [xb] else []) else diff xb x) r in
          if b_is_empty x then loop stack r
          else
            let xr := if regular then xb else x in
            if max_diam_lt precision (firstn n xr) then loop stack (add_unk xr r)
            else match bis (firstn n xr) with
                 | Some (x1, x2) => loop (stack ++ [x1 ++ y0; x2 ++ y0]) r
                 | None => Exc
                 end
      end
  end.
(** _SIVIA and SIVIA for contractors, codac_sivia.cpp 35-186.  The assertion x0.size() >= 2 (line 39) is not
    modelled: it is only needed by the drawing. *)
Definition sivia_ctc diff bis ctc precision regular (x0 y0 : box) (fuel : nat) : outcome :=
  sivia_ctc_loop diff bis ctc precision regular (length x0) y0 fuel [x0 ++ y0] (mkP [] [] []).

(** A separator: [Sep::separate(x_in, x_out)], called in codac_sivia.cpp 250. *)
Definition sep_t : Type := box -> box -> box * box.
(** The loop of SIVIA for separators, codac_sivia.cpp 243-324 *)
Fixpoint sivia_sep_loop (diff : box -> box -> list box) (bis : box -> option (box * box)) (sep : sep_t)
    (precision : R) (regular : bool) (fuel : nat) (stack : list box) (r : paving3) : outcome :=
  match stack with
  | [] => Done r
  | xb :: stack =>
      match fuel with
      | O => More
      | S fuel =>
          let loop := sivia_sep_loop diff bis sep precision regular fuel in
          let x_in := fst (sep xb xb) in
          let x_out := snd (sep xb xb) in
          let x := b_inter x_in x_out in
          let r := add_in (if regular then (if b_is_empty x_in then [xb] else []) else diff xb x_in) r in
          let r := add_out (if regular then (if b_is_empty x_out then [xb] else []) else diff xb x_out) r in
          if b_is_empty x then loop stack r
          else
            let xr := if regular then xb else x in
            if max_diam_lt precision xr then loop stack (add_unk xr r)
            else match bis xr with
                 | Some (x1, x2) => loop (stack ++ [x1; x2]) r
                 | None => Exc
                 end
      end
  end.
(** SIVIA for separators, codac_sivia.cpp 188-336 *)
Definition sivia_sep diff bis sep precision regular (x0 : box) (fuel : nat) : outcome :=
  sivia_sep_loop diff bis sep precision regular fuel [x0] (mkP [] [] []).
