(** * Measures of tubes: volume, thickness, particular slices

    /repo/src/core/domains/slice/codac_Slice.cpp, /repo/src/core/domains/tube/codac_Tube.cpp, codac_TubeVector.cpp.

    A width is a real number or [None] for +oo.  Simplifications: exact arithmetic; the width of an empty interval is 0, the middle
    of an empty interval is NaN ([None] of [mid]), that of a half-line is plus or minus the largest double [big] (conventions of
    ibex::Interval, not in /repo). *)

From Coq Require Import Reals Lra Bool List Arith ZArith Lia.
From Verif Require Import Itv Arith Tube TubeOps Trajectory.
Import ListNotations.
Open Scope R_scope.

(** Slice::diam(interval), codac_Slice.cpp 122-132; also Interval::diam() of IBEX, codac_Tube.cpp 452, 919, 932, 942 *)
Definition wd (i : itv) : option R :=
  match i with
  | Emp => Some 0
  | Itv (Some l) (Some h) => Some (h - l)
  | _ => None
  end.
(** [a > b] on widths, codac_Tube.cpp 452, 942, codac_TubeVector.cpp 640 *)
Definition wgt (a b : option R) : bool :=
  match a, b with
  | _, None => false
  | None, Some _ => true
  | Some a, Some b => Rltb b a
  end.
(** [a + b] on widths, codac_Tube.cpp 635, codac_TubeVector.cpp 337 *)
Definition wadd (a b : option R) : option R :=
  match a, b with Some a, Some b => Some (a + b) | _, _ => None end.

(** Slice::volume, codac_Slice.cpp 139-142; the width of the domain of a slice is positive, so that the product with +oo is +oo *)
Definition slice_volume (s : slice) : option R := option_map (fun w => (s_ub s - s_lb s) * w) (wd (s_cod s)).
(** the loop of Tube::volume, codac_Tube.cpp 631-637 *)
Fixpoint volume_loop (vol : R) (x : tube) : option R :=
  match x with
  | [] => Some vol
  | s :: r => match slice_volume s with None => None | Some v => volume_loop (vol + v) r end
  end.
(** Tube::volume, codac_Tube.cpp 628-638 *)
Definition volume (x : tube) : option R := volume_loop 0 x.
(** TubeVector::volume, codac_TubeVector.cpp 333-339 *)
Definition tv_volume (v : list tube) : option R := fold_left (fun vol x => wadd vol (volume x)) v (Some 0).

(** the loop of Tube::wider_slice, codac_Tube.cpp 428-433 *)
Fixpoint wider_loop (best : slice) (m : R) (x : tube) : slice :=
  match x with
  | [] => best
  | s :: r => if Rltb m (s_ub s - s_lb s) then wider_loop s (s_ub s - s_lb s) r else wider_loop best m r
  end.
(** Tube::wider_slice, codac_Tube.cpp 423-436; [None] is the null pointer *)
Definition wider_slice (x : tube) : option slice :=
  match x with [] => None | s :: _ => Some (wider_loop s 0 x) end.

(** the loop of Tube::largest_slice, codac_Tube.cpp 447-457 *)
Fixpoint largest_loop (best : slice) (m : option R) (x : tube) : slice :=
  match x with
  | [] => best
  | s :: r =>
      if is_unbounded (s_cod s) then s
      else if wgt (wd (s_cod s)) m then largest_loop s (wd (s_cod s)) r
      else largest_loop best m r
  end.
(** Tube::largest_slice, codac_Tube.cpp 443-460 *)
Definition largest_slice (x : tube) : option slice :=
  match x with [] => None | s :: _ => Some (largest_loop s (Some 0) x) end.
(** Tube::max_diam, codac_Tube.cpp 911-920; the outer [None] is the use of a null pointer *)
Definition max_diam_tube (x : tube) : option (option R) :=
  match largest_slice x with
  | None => None
  | Some s => Some (if is_unbounded (s_cod s) then None else wd (s_cod s))
  end.

(** the loop of Tube::max_gate_diam, codac_Tube.cpp 934-951 *)
Fixpoint gate_diam_loop (m : option R) (t : R) (x : tube) : option R * R :=
  match x with
  | [] => (m, t)
  | s :: r =>
      if is_unbounded (s_out s) then (None, s_ub s)
      else if wgt (wd (s_out s)) m then gate_diam_loop (wd (s_out s)) (s_ub s) r
      else gate_diam_loop m t r
  end.
(** Tube::max_gate_diam(t), codac_Tube.cpp 922-952: the width and the instant *)
Definition max_gate_diam (x : tube) : option (option R * R) :=
  match x with
  | [] => None
  | s :: _ => Some (if is_unbounded (s_in s) then (None, s_lb s) else gate_diam_loop (wd (s_in s)) (s_lb s) x)
  end.

(** Interval::mid() of IBEX, codac_Tube.cpp 474 *)
Definition mid (big : R) (i : itv) : option R :=
  match i with
  | Emp => None
  | Itv (Some l) (Some h) => Some ((l + h) / 2)
  | Itv None None => Some 0
  | Itv None (Some _) => Some (- big)
  | Itv (Some _) None => Some big
  end.
(** [fabs(s->output_gate().mid() - s->input_gate().mid())], codac_Tube.cpp 474, codac_TubeVector.cpp 658; [None] is NaN *)
Definition steepness (big : R) (s : slice) : option R :=
  match mid big (s_out s), mid big (s_in s) with Some o, Some i => Some (Rabs (o - i)) | _, _ => None end.
(** the loop of Tube::steepest_slice, codac_Tube.cpp 472-480; a comparison with NaN is false *)
Fixpoint steepest_loop (big : R) (best : slice) (m : R) (x : tube) : slice :=
  match x with
  | [] => best
  | s :: r =>
      match steepness big s with
      | Some d => if Rltb m d then steepest_loop big s d r else steepest_loop big best m r
      | None => steepest_loop big best m r
      end
  end.
(** Tube::steepest_slice, codac_Tube.cpp 467-483 *)
Definition steepest_slice (big : R) (x : tube) : option slice :=
  match x with [] => None | s :: _ => Some (steepest_loop big s 0 x) end.
(** the loop of TubeVector::steepest_slice, codac_TubeVector.cpp 655-667; the outer [None] is the use of a null pointer *)
Fixpoint tv_steepest_loop (big : R) (best : option slice) (m : R) (v : list tube) : option (option slice) :=
  match v with
  | [] => Some best
  | x :: r =>
      match steepest_slice big x with
      | None => None
      | Some s =>
          match steepness big s with
          | Some d => if Rleb m d then tv_steepest_loop big (Some s) d r else tv_steepest_loop big best m r
          | None => tv_steepest_loop big best m r
          end
      end
  end.
(** TubeVector::steepest_slice, codac_TubeVector.cpp 650-668 *)
Definition tv_steepest_slice (big : R) (v : list tube) : option (option slice) := tv_steepest_loop big None 0 v.

(** the loop of TubeVector::max_gate_diam, codac_TubeVector.cpp 636-647; [t] is the variable of the caller *)
Fixpoint tv_gate_diam_loop (m : option R) (t : R) (v : list tube) : option (option R * R) :=
  match v with
  | [] => Some (m, t)
  | x :: r =>
      match max_gate_diam x with
      | None => None
      | Some (mi, ti) => if wgt mi m then tv_gate_diam_loop mi ti r else tv_gate_diam_loop m t r
      end
  end.
(** TubeVector::max_gate_diam, codac_TubeVector.cpp 632-648 *)
Definition tv_max_gate_diam (t : R) (v : list tube) : option (option R * R) := tv_gate_diam_loop (Some 0) t v.

(** Tube::index(slice), codac_Tube.cpp 512-523, on the addresses of the slices from [it] on.  With no slice
    at all the answer is 0. *)
Fixpoint index_loop (a : nat) (i : Z) (l : list nat) : Z :=
  match l with
  | [] => i
  | b :: r => if Nat.eqb b a then i else match r with [] => (-1)%Z | _ => index_loop a (i + 1)%Z r end
  end.
(** Tube::index(slice), codac_Tube.cpp 512-523 *)
Definition index (a : nat) (l : list nat) : Z := index_loop a 0%Z l.

(** Tube::overlaps(x, ratio), codac_Tube.cpp 1136-1150 *)
Definition overlaps (x y : tube) (ratio : R) : bool :=
  let inter := tube_binary inter x y in
  let range := fold_left (fun w s => if is_empty (s_cod s) then w else w + (s_ub s - s_lb s)) inter 0 in
  Rleb ratio (range / (tf x - t0 x)).

(** ** Thickness as a trajectory *)
(** a sequence of calls to Trajectory::set(y,t), codac_Tube.cpp 956-978 *)
Fixpoint sets (l : list (option R * R)) (d : traj) : option traj :=
  match l with
  | [] => Some d
  | (None, _) :: _ => None
  | (Some y, t) :: r => match traj_set y t d with Some d => sets r d | None => None end
  end.
(** the calls of one turn of the loop of Tube::diam(gates_thicknesses), codac_Tube.cpp 966-973; [nf] is ibex::next_float and [pf]
    ibex::previous_float.  Simplification: an infinite thickness is not a value of a trajectory, the outcome is [None]. *)
Definition diam_calls (nf pf : R -> R) (gates : bool) (s : slice) (last : bool) : list (option R * R) :=
  (wd (s_cod s), nf (s_lb s)) :: (wd (s_cod s), pf (s_ub s)) ::
  (if gates then [(wd (s_out s), s_ub s)] else if last then [(wd (s_cod s), s_ub s)] else []).
(** the loop of Tube::diam(gates_thicknesses), codac_Tube.cpp 964-976 *)
Fixpoint diam_loop (nf pf : R -> R) (gates : bool) (x : tube) : list (option R * R) :=
  match x with
  | [] => []
  | s :: r => diam_calls nf pf gates s (match r with [] => true | _ => false end) ++ diam_loop nf pf gates r
  end.
(** Tube::diam(gates_thicknesses), codac_Tube.cpp 954-979 *)
Definition tube_diam (nf pf : R -> R) (gates : bool) (x : tube) : option traj :=
  match x with
  | [] => None
  | s :: _ => sets ((wd (if gates then s_in s else s_cod s), s_lb s) :: diam_loop nf pf gates x) traj_new
  end.
(** Tube::diam(v), codac_Tube.cpp 981-999; [poly] gives the vertices (p[i][0], p[i][1]) of Slice::polygon(v), [ip] is
    Slice::interpol(t, v) *)
Fixpoint diam_v_loop (poly : slice -> slice -> list (R * R)) (ip : R -> slice -> slice -> itv) (x v : tube) : list (option R * R) :=
  match x, v with
  | s :: r, sv :: rv => map (fun p => (wd (ip (fst p) s sv), snd p)) (poly s sv) ++ diam_v_loop poly ip r rv
  | _, _ => []
  end.
(** Tube::diam(v), codac_Tube.cpp 981-999 *)
Definition tube_diam_v poly ip (x v : tube) : option traj := sets (diam_v_loop poly ip x v) traj_new.

(** the loop of TubeVector::diag(start,end,gates), codac_TubeVector.cpp 621-627: [ks] the instants of the first component of [diams],
    of which [sel] are the components from start_index to end_index *)
Fixpoint diag_loop (sel : list traj) (ks : list R) (d : traj) : option traj :=
  match ks with
  | [] => Some d
  | t :: r =>
      let sq := fold_left (fun acc x => match acc, traj_at x t with Some a, Some v => Some (a + v * v) | _, _ => None end) sel (Some 0) in
      match sq with
      | Some q => match traj_set (sqrt q) t d with Some d => diag_loop sel r d | None => None end
      | None => None
      end
  end.
(** TubeVector::diag(start,end,gates), codac_TubeVector.cpp 612-630; TubeVector::diam 583-589; [None] also when one of the assertions
    614-616 fails *)
Definition tv_diag (nf pf : R -> R) (gates : bool) (st en : nat) (v : list tube) : option traj :=
  if Nat.leb st en && Nat.ltb en (length v) then
    match fold_right (fun x acc => match tube_diam nf pf gates x, acc with Some d, Some l => Some (d :: l) | _, _ => None end) (Some []) v with
    | Some (d0 :: ds) => diag_loop (firstn (S en - st) (skipn st (d0 :: ds))) (map fst (t_map d0)) traj_new
    | _ => None
    end
  else None.
(** Slice::polygon(v), codac_Slice_polygon.cpp 86-205.  Simplification: only for the derivative v = [0,0] and bounded gates, where no vertex is
    added between the gates *)
Definition polygon_0 (s sv : slice) : list (R * R) :=
  match s_in s, s_out s with
  | Itv (Some il) (Some iu), Itv (Some ol) (Some ou) => [(s_lb s, il); (s_ub s, ol); (s_ub s, ou); (s_lb s, iu)]
  | _, _ => []
  end.
(** Slice::interpol(t, v), codac_Slice.cpp 207-237.  Simplification: only for the derivative v = [0,0] *)
Definition interpol_0 (t : R) (s sv : slice) : itv :=
  if Rleb (s_lb s) t && Rleb t (s_ub s) then inter (s_out s) (s_in s) else ALL.
