(** * Model of [codac::CtcDelay] and [codac::CtcStatic]
      (/repo/src/core/contractors/dyn/codac_CtcDelay.cpp, codac_CtcStatic.cpp) *)
From Coq Require Import Reals Bool List Arith.
From Verif Require Import Itv Arith Tube TubeOps.
Import ListNotations.
Open Scope R_scope.

(** ibex::Interval::is_interior_subset (IBEX), used in codac_CtcDelay.cpp 83 and 139 *)
Definition is_interior_subset (i j : itv) : bool :=
  match i, j with
  | Emp, _ => true
  | _, Emp => false
  | Itv l1 h1, Itv l2 h2 =>
      match l1, l2 with _, None => true | Some a, Some b => Rltb b a | None, Some _ => false end &&
      match h1, h2 with _, None => true | Some a, Some b => Rltb a b | None, Some _ => false end
  end.
(** ibex::Interval::diam (IBEX): 0 for the empty set, infinite (None) if unbounded;
    read by codac_CtcDelay.cpp 60-170 *)
Definition diam (i : itv) : option R :=
  match i with Emp => Some 0 | Itv (Some a) (Some b) => Some (b - a) | _ => None end.
(** comparison of two widths, codac_CtcDelay.cpp 60-170 *)
Definition diam_lt (i j : itv) : bool :=
  match diam i, diam j with
  | Some a, Some b => Rltb a b | Some _, None => true | None, _ => false
  end.
(** Slice::is_empty, codac_Slice.cpp 380-383 *)
Definition slice_is_empty (s : slice) : bool := is_empty (s_cod s) || is_empty (s_in s) || is_empty (s_out s).

(** One iteration of the loops of CtcDelay::contract, codac_CtcDelay.cpp 60-115 (over the slices of
    [x], [sh] = addition, [bk t_y t_x] = [t_y - t_x]) and 120-170 (over the slices of [y],
    [sh] = subtraction, [bk t_x t_y] = [t_y - t_x]).  [x] is the tube whose slice [k] is contracted,
    [y] the other one.  [None]: everything is set empty (return of lines 97-101, 112-115, 150-154,
    167-171).  The evaluations and inversions go through the synthesis tree of the tube, which
    gives the same results (C13). *)
Definition delay_slice (sh bk : itv -> itv -> itv) (y : tube) (k : nat) (a : itv) (x : tube) : option (itv * tube) :=
  match nth_error x k with
  | None => Some (a, x)
  | Some s =>
      let d := s_dom s in
      let intv := sh d a in
      let sy := eval_itv y intv in
      let '(a1, sy1, stop) :=
        if is_interior_subset sy (s_cod s) then (a, sy, false)
        else
          let a1 := inter a (bk (invert y (s_cod s) intv) d) in
          if diam_lt a1 a then
            if is_empty a1 then (a1, sy, true) else (a1, eval_itv y (sh d a1), false)
          else (a1, sy, false) in
      if stop then None
      else
        let x := set_envelope k (inter (s_cod s) sy1) true x in
        let x := match nth_error x k with
                 | Some s => set_input_gate k (inter (s_in s) (eval_itv y (sh (pt (s_lb s)) a1))) true x
                 | None => x end in
        let x := match nth_error x k with
                 | Some s => set_output_gate k (inter (s_out s) (eval_itv y (sh (pt (s_ub s)) a1))) true x
                 | None => x end in
        match nth_error x k with
        | Some s => if slice_is_empty s then None else Some (a1, x)
        | None => Some (a1, x)
        end
  end.
(** The loop over the slices: ranks [k], [k+1], ... for [n] slices; codac_CtcDelay.cpp 58-115, 120-170 *)
Fixpoint delay_loop (sh bk : itv -> itv -> itv) (y : tube) (n k : nat) (a : itv) (x : tube) : option (itv * tube) :=
  match n with
  | O => Some (a, x)
  | S n => match delay_slice sh bk y k a x with
           | Some (a, x) => delay_loop sh bk y n (S k) a x
           | None => None
           end
  end.
(** CtcDelay::contract(a, x, y), codac_CtcDelay.cpp 46-177 *)
Definition ctc_delay (A : arith) (a : itv) (x y : tube) : itv * tube * tube :=
  let emptied := (Emp, tube_set Emp x, tube_set Emp y) in
  if is_empty a || tube_is_empty x || tube_is_empty y then emptied
  else
    match delay_loop (iadd A) (fun ty tx => isub A ty tx) y (length x) 0 a x with
    | None => emptied
    | Some (a, x) =>
        match delay_loop (isub A) (fun tx ty => isub A ty tx) x (length y) 0 a y with
        | None => emptied
        | Some (a, y) => if is_empty a || tube_is_empty x || tube_is_empty y then (Emp, tube_set Emp x, tube_set Emp y)
                         else (a, x, y)
        end
    end.
(** CtcDelay::contract for vectors, codac_CtcDelay.cpp 179-199: one component after the other *)
Fixpoint delay_comps (A : arith) (a : itv) (xys : list (tube * tube)) : itv * list (tube * tube) :=
  match xys with
  | [] => (a, [])
  | (x, y) :: r =>
      let '(a, x, y) := ctc_delay A a x y in
      let '(a, r) := delay_comps A a r in
      (a, (x, y) :: r)
  end.
(** the tests of codac_CtcDelay.cpp 179-199 *)
Definition delay_any_empty (a : itv) (xys : list (tube * tube)) : bool :=
  is_empty a || existsb (fun p => tube_is_empty (fst p)) xys || existsb (fun p => tube_is_empty (snd p)) xys.
(** codac_CtcDelay.cpp 179-199 *)
Definition ctc_delay_vec (A : arith) (a : itv) (xys : list (tube * tube)) : itv * list (tube * tube) :=
  let clear xys := map (fun p => (tube_set Emp (fst p), tube_set Emp (snd p))) xys in
  if delay_any_empty a xys then (Emp, clear xys)
  else
    let '(a, xys) := delay_comps A a xys in
    if delay_any_empty a xys then (Emp, clear xys) else (a, xys).

(** ** CtcStatic *)
(** [ctc] is the static contractor (its method contract on a box); [temporal] is m_temporal_ctc:
    the first component of the boxes is then the time; [rt] is m_restricted_tdomain.
    The slices at rank [k] of the tubes [xs] (which have the same slicing). codac_CtcStatic.cpp 140-150 *)
Definition slices_at (k : nat) (xs : list tube) : list slice :=
  flat_map (fun x => match nth_error x k with Some s => [s] | None => [] end) xs.
(** box given to the contractor, codac_CtcStatic.cpp 152-180 *)
Definition with_time (temporal : bool) (t : itv) (box : list itv) : list itv := if temporal then t :: box else box.
(** components read after the contraction, codac_CtcStatic.cpp 152-208 *)
Definition without_time (temporal : bool) (box : list itv) : list itv := if temporal then tl box else box.
(** writes on each component; the contracted boxes have one interval for each tube; codac_CtcStatic.cpp 152-208 *)
Fixpoint on_comps (f : itv -> tube -> tube) (box : list itv) (xs : list tube) : list tube :=
  match box, xs with
  | e :: box, x :: xs => f e x :: on_comps f box xs
  | _, _ => xs
  end.
(** CtcStatic::contract(Slice**, n), one iteration: codac_CtcStatic.cpp 152-208.  [last]: this is the
    last slice of the first tube (186). *)
Definition static_slice (ctc : list itv -> list itv) (temporal : bool) (rt : itv) (k : nat) (last : bool) (xs : list tube) : list tube :=
  match slices_at k xs with
  | [] => xs
  | (s0 :: _) as ss =>
      if negb (intersects (s_dom s0) rt) then xs
      else
        let env := without_time temporal (ctc (with_time temporal (s_dom s0) (map s_cod ss))) in
        let ing := without_time temporal (ctc (with_time temporal (pt (s_lb s0)) (map s_in ss))) in
        let xs := on_comps (fun g x => set_input_gate k g true x) ing
                    (on_comps (fun e x => set_envelope k e true x) env xs) in
        if last then
          let outg := without_time temporal (ctc (with_time temporal (pt (s_ub s0)) (map s_out (slices_at k xs)))) in
          on_comps (fun g x => set_output_gate k g true x) outg xs
        else xs
  end.
(** the loop 152-209.  The writes on component [i] only read the tube [i], so that the envelopes may
    be written before the gates of the other components. *)
Definition ctc_static (ctc : list itv -> list itv) (temporal : bool) (rt : itv) (xs : list tube) : list tube :=
  match xs with
  | [] => []
  | x0 :: _ =>
      fold_left (fun xs k => static_slice ctc temporal rt k (Nat.eqb (S k) (length x0)) xs) (seq 0 (length x0)) xs
  end.
