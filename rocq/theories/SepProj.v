(** * Model of [codac::SepProj] (/repo/src/core/separators/codac_SepProj.cpp and codac_SepProj.h)

    The set operations of IBEX on boxes are those of Static.v, the flags those of Separators.v.  [asserts] tells whether
    the assertions are compiled (they are in the default build, CMakeLists.txt 31-32, and not with NDEBUG).  [None] is
    an assertion that fails, or exit(-1).  IntervalVector::diff ([diff]), mid() ([mid]), the bisector ([bis], [None] for
    NoBisectableVariableException) and the separator ([sep]) are those of IBEX; what is expected of them is in
    PropsSepProj.v.  The messages and the memory are not modelled. *)

From Coq Require Import Reals Lra Bool List Arith.
Import ListNotations.
From Verif Require Import Itv Static Sivia Paving Separators.
Open Scope R_scope.

(** ** ImpactStatus *)
(** ImpactStatus(x_in, x_out), codac_SepProj.h 43-53; setCinFlags, setCoutFlags (93-109) are [set_flag] *)
Definition sp_impact (diff : box -> box -> list box) (x_in x_out : box) : flags :=
  if box_eqb x_in x_out then mkF None None
  else let x0 := b_hull x_in x_out in mkF (set_flag diff None x_in x0) (set_flag diff None x_out x0).
(** the loops [x |= boxes[i]], codac_SepProj.h 132-134, 141-143, 150-152, 158-160, codac_SepProj.cpp 121-123 *)
Definition hull_all (x : box) (l : list box) : box := fold_left b_hull l x.
(** reconstrut_v2, codac_SepProj.h 120-172 *)
Definition sp_reconstruct (asserts : bool) (x_in x_out x_old : box) (f : flags) : option (box * box) :=
  match b_is_empty x_in, b_is_empty x_out, f_cin f, f_cout f with
  | _, true, Some _, Some _ => Some (x_old, x_out)
  | false, false, ci, co =>
      Some (match co, ci with None, _ => x_in | Some _, None => x_old | Some lo, Some _ => hull_all x_in lo end,
            match ci, co with None, _ => x_out | Some _, None => x_old | Some li, Some _ => hull_all x_out li end)
  | true, _, Some li, co => Some (x_in, match co with None => x_old | Some _ => hull_all x_out li end)
  | _, true, ci, Some lo => Some (match ci with None => x_old | Some _ => hull_all x_in lo end, x_out)
  | _, _, _, _ => if asserts then None else Some (x_in, x_out)
  end.

(** ** The contractions *)
(** SepProj::process, codac_SepProj.cpp 50-114: x_in, x_out, the flags and the returned value *)
Definition sp_process (asserts : bool) (diff : box -> box -> list box) (sep : sep_t) (x_in x_out y : box) (f : flags)
    (use_point : bool) : option (box * box * flags * bool) :=
  if asserts && negb (box_eqb x_in x_out) then None
  else
    let x := b_inter x_in x_out in
    if b_is_empty x then Some (x_in, x_out, f, true)
    else
      let r := sep (x ++ y) (x ++ y) in
      if asserts && negb (box_eqb (b_hull (fst r) (snd r)) (x ++ y)) then None
      else if b_is_empty (fst r) && b_is_empty (snd r) then None
      else if b_is_empty (fst r) || negb (box_eqb y (skipn (length x_in) (fst r))) then
        let x_in := b_set_empty x_in in Some (x_in, x_out, mkF (set_flag diff (f_cin f) x_in x) (f_cout f), true)
      else
        let x_in := firstn (length x_in) (fst r) in
        let f := mkF (set_flag diff (f_cin f) x_in x) (f_cout f) in
        let stop := b_is_empty (snd r) in
        let x_out := if stop then b_set_empty x_out else firstn (length x_out) (snd r) in
        Some (x_in, x_out, if use_point then f else mkF (f_cin f) (set_flag diff (f_cout f) x_out x), stop).
(** complementaryUnion(x, y, x0), codac_SepProj.cpp 117-135 *)
Definition sp_complementary (asserts : bool) (diff : box -> box -> list box) (x y x0 : box) : option box :=
  if box_eqb x x0 then Some x
  else let x := hull_all x (diff x0 y) in
       if asserts && negb (box_eqb (b_hull x y) x0) then None else Some x.
(** SepProj::fixpoint, codac_SepProj.cpp 137-190: x_in and x_out; the body of the loop is executed once (break of
    line 177, condition [false &&] of line 180); the returned value is not used *)
Definition sp_fixpoint (asserts : bool) (diff : box -> box -> list box) (mid : box -> list R) (sep : sep_t)
    (x_in x_out y : box) : option (box * box) :=
  let x0 := b_hull x_in x_out in
  let f := sp_impact diff x_in x_out in
  let x_in := b_inter x_in x_out in
  let x_out := b_inter x_out x_in in
  match sp_process asserts diff sep x_in x_out y f false with
  | None => None
  | Some (a, b, f, stop) =>
      match (if stop then Some (a, f)
             else match sp_process asserts diff sep a (b_inter x_out a) (map pt (mid y)) f true with
                  | None => None
                  | Some (a, _, f, _) => Some (a, f)
                  end) with
      | None => None
      | Some (a, f) =>
          match sp_reconstruct asserts a b x0 f with
          | None => None
          | Some (a, b) => if asserts && negb (box_eqb (b_hull a b) x0) then None else Some (a, b)
          end
      end
  end.

(** ** SepProj::separate *)
(** IntervalVector::max_diam(), used in codac_SepProj.cpp 265; [None] is the infinite width of an unbounded box *)
Fixpoint max_diam (x : box) : option R :=
  match x with
  | [] => Some 0
  | i :: x => match (match i with Emp => Some 0 | Itv (Some a) (Some b) => Some (b - a) | _ => None end), max_diam x with
              | Some d, Some e => Some (Rmax d e)
              | _, _ => None
              end
  end.
(** [<] between two widths, codac_SepProj.cpp 265 *)
Definition dlt (a b : option R) : bool :=
  match a, b with Some a, Some b => Rltb a b | Some _, None => true | None, _ => false end.
(** IntervalVector::is_flat() of a box that is not empty, used in codac_SepProj.cpp 265 *)
Definition b_is_flat (x : box) : bool := existsb is_degenerated x.
(** the test of codac_SepProj.cpp 265; y0 is a copy of y (line 236), that fixpoint does not change *)
Definition sp_small (prec : R) (x y : box) : bool :=
  b_is_empty x || b_is_flat x || dlt (max_diam x) (Some prec) || b_is_empty y ||
  dlt (max_diam y) (option_map (Rmult (1 / 10)) (max_diam x)).
(** x_in, x_res and the queue l, codac_SepProj.cpp 211-216 *)
Record sp_state : Type := mkSP { sp_in : box; sp_res : box; sp_queue : list (box * box) }.
(** one turn of the loop, codac_SepProj.cpp 220-281, for the pair (x_out_save, y) at the front of the queue, the rest
    of which is [l] *)
Definition sp_turn (asserts : bool) (diff : box -> box -> list box) (mid : box -> list R)
    (bis : box -> option (box * box)) (sep : sep_t) (prec : R) (x_old0 x_in x_res x_out y : box) (l : list (box * box))
    : option sp_state :=
  if b_is_subset x_out x_res then Some (mkSP x_in x_res l)
  else match sp_complementary asserts diff x_out x_in x_old0 with
       | None => None
       | Some x_out =>
           if asserts && negb (box_eqb (b_hull x_in x_out) x_old0) then None
           else match sp_fixpoint asserts diff mid sep x_in x_out y with
                | None => None
                | Some (x_in, x_out) =>
                    if b_is_empty x_out then Some (mkSP x_in x_res l)
                    else if asserts && negb (box_eqb (b_hull x_in x_out) x_old0) then None
                    else if sp_small prec (b_inter x_in x_out) y then Some (mkSP x_in (b_hull x_res x_out) l)
                    else if b_is_empty y || b_is_subset x_out x_res then Some (mkSP x_in x_res l)
                    else match bis y with
                         | None => Some (mkSP x_in x_res l)
                         | Some (y1, y2) => Some (mkSP x_in x_res (l ++ [(x_out, y1); (x_out, y2)]))
                         end
                end
       end.
(** what a call of SepProj::separate gives: x_in and x_out, an assertion that fails, or a loop longer than the fuel;
    codac_SepProj.cpp 203-287 *)
Inductive sp_outcome : Type := SPDone (x_in x_out : box) | SPAbort | SPFuel.
(** the loop, codac_SepProj.cpp 219-285 *)
Fixpoint sp_loop (asserts : bool) diff mid bis sep (prec : R) (x_old0 : box) (fuel : nat) (s : sp_state) : sp_outcome :=
  match sp_queue s with
  | [] => SPDone (sp_in s) (sp_res s)
  | (x_out, y) :: l =>
      match fuel with
      | O => SPFuel
      | S fuel =>
          match sp_turn asserts diff mid bis sep prec x_old0 (sp_in s) (sp_res s) x_out y l with
          | None => SPAbort
          | Some s => sp_loop asserts diff mid bis sep prec x_old0 fuel s
          end
      end
  end.
(** SepProj::separate, codac_SepProj.cpp 203-287 *)
Definition sp_separate (asserts : bool) diff mid bis sep (prec : R) (y_init : box) (fuel : nat) (x_in x_out : box)
    : sp_outcome :=
  if asserts && negb (box_eqb x_in x_out) then SPAbort
  else sp_loop asserts diff mid bis sep prec (b_inter x_in x_out) fuel
         (mkSP x_in (b_set_empty x_in) [(x_out, y_init)]).
