(** * Model of TubePaving, /repo/src/core/paving/codac_TubePaving.cpp

    Both TubePaving::compute have the structure of SIVIAPaving::compute ([Paving.compute]): a test decides the box
    (OUT or IN), otherwise the box is UNKNOWN below the precision, or bisected (61-75 and 106-118).  The tubes have
    no synthesis; the components of a TubeVector share their slicing. *)

From Coq Require Import Reals Bool List NArith.
Import ListNotations.
From Verif Require Import Itv Tube CtcEval Static Paving.
Open Scope R_scope.

(** The loop 45-56 of codac_TubePaving.cpp, on the slices [x0] and [xs] (suffixes of the components): is there, among
    the slices that end before [ub], one whose codomains enclose [y]?  49-50 is the [forallb]. *)
Fixpoint in_slices (y : box) (ub : R) (x0 : tube) (xs : list tube) : bool :=
  match x0 with
  | [] => false
  | s :: r =>
      if Rleb (s_ub s) ub then
        forallb (fun q => is_subset (fst q) (s_cod (snd q))) (combine y (s :: map (hd s) xs)) || in_slices y ub r (map (@tl slice) xs)
      else false
  end.
(** One turn of the loop 40-57 of codac_TubePaving.cpp for the inversion [w]: [s[j] = x[j].slice(w.lb())] (43), a null
    pointer outside of the domain *)
Definition in_window (xs : list tube) (y : box) (w : itv) : bool :=
  match xs, w with
  | x0 :: r, Itv (Some lb) (Some ub) =>
      if in_tdomain x0 lb then in_slices y ub (skipn (time_to_index lb x0) x0) (map (fun x => skipn (time_to_index lb x) x) r) else false
  | _, _ => false
  end.
(** Tube::tdomain(), codac_Tube.cpp 247-252 *)
Definition tube_tdomain (x : tube) : itv := match x with [] => Emp | _ => bnd (t0 x) (tf x) end.
(** TubePaving::compute(precision, TubeVector), codac_TubePaving.cpp 31-57 and 61-65.  The [delete s] of an array (59)
    is undefined in C++ and not modelled. *)
Definition test_tubes (xs : list tube) (y : box) : option N :=
  let ws := vinvert_list xs y (match xs with [] => Emp | x0 :: _ => tube_tdomain x0 end) in
  match ws with
  | [] => Some V_OUT
  | _ => if existsb (in_window xs y) ws then Some V_IN else None
  end.

(** The loop 97-103 of codac_TubePaving.cpp: every slice that starts before [ub] encloses [y1] *)
Fixpoint all_slices (y1 : itv) (ub : R) (x : tube) : bool :=
  match x with
  | [] => true
  | s :: r => if Rleb (s_lb s) ub then is_subset y1 (s_cod s) && all_slices y1 ub r else true
  end.
(** TubePaving::compute(precision, Tube), codac_TubePaving.cpp 82-107 *)
Definition test_tube (x : tube) (y : box) : option N :=
  let y0 := nth 0 y Emp in
  let y1 := nth 1 y Emp in
  let t := tube_tdomain x in
  if is_empty (inter t y0) || is_empty (inter (codomain x) y1) || is_empty (inter y1 (eval_itv x (inter t y0))) then Some V_OUT
  else if is_subset y0 t && is_subset y1 (eval_itv x y0) then
    match y0 with
    | Itv (Some lb) (Some ub) => if all_slices y1 ub (skipn (time_to_index lb x) x) then Some V_IN else None
    | _ => None
    end
  else None.
(** TubePaving p(box); p.compute(precision, x): codac_TubePaving.cpp 20-24, then 26-76 *)
Definition tube_paving_vec (xs : list tube) bis precision (y : box) (fuel : nat) : option pav :=
  sivia_paving (test_tubes xs) bis precision y fuel.
(** TubePaving p(box); p.compute(precision, x): codac_TubePaving.cpp 20-24, then 78-119 *)
Definition tube_paving (x : tube) bis precision (y : box) (fuel : nat) : option pav :=
  sivia_paving (test_tube x) bis precision y fuel.
