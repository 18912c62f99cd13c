(** * Model of CtcLinobs of codac2, on tubes of polygons

    /repo/src/core/2/contractors/codac2_CtcLinobs.cpp, with the slices of /repo/src/core/2/domains/tube/codac2_Slice.h
    for polygons.  The polygons, the exponential and the arithmetic are those of Linobs.v: [exp_at], [fwd_gate],
    [bwd_gate] and [polygon_envelope] are the same functions (codac2_CtcLinobs.cpp 23-42, 141-159, identical to
    codac_CtcLinobs.cpp 22-41, 243-261).  The tubes x and u share their temporal domain (assertion of line 83): their
    lists of cells have the same instants.  [None] is a failed assertion or the dereference of a null pointer. *)

From Coq Require Import Reals Bool List Arith.
Import ListNotations.
From Verif Require Import Itv Arith Linobs Codac2.
Open Scope R_scope.

Section LINOBS2.
Variable c : linobs.
(** the polygons of this object, codac2_CtcLinobs.cpp 81 *)
Notation P := (po (l_po c)).
(** ConvexPolygon::is_empty, used in codac2_Slice.h 113, 115, and set_empty, 285 *)
Variables (p_is_empty : P -> bool) (p_emp : P).

(** Slice<ConvexPolygon>, codac2_Slice.h 38-41, with the temporal domain of its TSlice *)
Record cell : Type := Cell { k_t : itv; k_x : P }.
(** the iterators on the slices, codac2_CtcLinobs.cpp 87, 97: reversed prefix, element, suffix *)
Definition kiter : Type := (list cell * cell * list cell)%type.
(** Slice::is_gate, codac2_Slice.h 105-108 *)
Definition k_gate (s : cell) : bool := is_degenerated (k_t s).
(** assignment of _codomain, codac2_Slice.h 255 *)
Definition k_set (s : cell) (p : P) : cell := Cell (k_t s) p.
(** Slice::input_gate, codac2_Slice.h 221-233, and Slice::output_gate, 235-247; [l] starts with the previous (next) slice *)
Definition k_side (l : list cell) (s : cell) : P :=
  match l with
  | [] => k_x s
  | g :: _ => if k_gate g then k_x g else p_inter _ (k_x s) (k_x g)
  end.
(** Slice::is_empty, codac2_Slice.h 110-116 *)
Definition k_is_empty (i : kiter) : bool :=
  let '(rl, s, r) := i in
  if k_gate s then p_is_empty (k_x s) else p_is_empty (k_side rl s) || p_is_empty (k_side r s).
(** Slice::set_empty(true), codac2_Slice.h 283-293: propagated to all the slices of the tube *)
Definition k_empty (i : kiter) : kiter :=
  let '(rl, s, r) := i in
  (map (fun s => k_set s p_emp) rl, k_set s p_emp, map (fun s => k_set s p_emp) r).
(** lines 257-266 (268-277) of Slice::set, codac2_Slice.h: the slice, then the previous (next) ones *)
Definition k_set_side (l : list cell) (s : cell) : cell * list cell :=
  match l with
  | [] => (s, [])
  | g :: l' =>
      if k_gate s then (k_set s (p_inter _ (k_x s) (k_x g)), l)
      else if k_gate g then (s, k_set g (p_inter _ (k_x g) (k_x s)) :: l')
      else (s, l)
  end.
(** Slice::set, codac2_Slice.h 249-281, with propagation *)
Definition k_assign (p : P) (i : kiter) : kiter :=
  let '(rl, s, r) := i in
  let '(s, rl) := k_set_side rl (k_set s p) in
  let '(s, r) := k_set_side r s in
  if k_is_empty (rl, s, r) then k_empty (rl, s, r) else (rl, s, r).

(** t0_tf().diam(), codac2_CtcLinobs.cpp 123, 133, 138; the slices are bounded (lines 90, 100) *)
Definition k_dt (s : cell) : R := match k_t s with Itv (Some l) (Some h) => h - l | _ => 0 end.
(** t0_tf().is_unbounded(), codac2_CtcLinobs.cpp 90, 100 *)
Definition k_unbounded (s : cell) : bool := match k_t s with Itv (Some _) (Some _) => false | Emp => false | _ => true end.

(** lines 117-125 of CtcLinobs::contract on a slice, codac2_CtcLinobs.cpp *)
Definition k_fwd (u : itv) (i : kiter) : option kiter :=
  let '(rl, s, r) := i in
  match r with
  | [] => Some i
  | g :: r' =>
      if k_gate g then
        let '(l, g, r') := k_assign (fwd_gate c (k_x g) (k_side rl s) (k_dt s) u) (s :: rl, g, r') in
        match l with s :: rl => Some (rl, s, g :: r') | [] => None end
      else None
  end.
(** lines 127-135, codac2_CtcLinobs.cpp *)
Definition k_bwd (u : itv) (i : kiter) : option kiter :=
  let '(rl, s, r) := i in
  match rl with
  | [] => Some i
  | g :: rl' =>
      if k_gate g then
        let '(rl', g, l) := k_assign (bwd_gate c (k_x g) (k_side r s) (k_dt s) u) (rl', g, s :: r) in
        match l with s :: r => Some (g :: rl', s, r) | [] => None end
      else None
  end.
(** lines 137-138, codac2_CtcLinobs.cpp; [prev] is null for the first slice *)
Definition k_env (u : itv) (i : kiter) : option kiter :=
  let '(rl, s, r) := i in
  match rl with
  | [] => None
  | g :: _ => Some (k_assign (polygon_envelope c (k_x g) (k_dt s) u) i)
  end.
(** CtcLinobs::contract on a slice, codac2_CtcLinobs.cpp 106-139; [iu] is the slice of the input *)
Definition k_contract (fwd bwd env : bool) (iu : iter) (i : kiter) : option kiter :=
  let '(_, su, _) := iu in
  if k_is_empty i || slice_is_empty iu then Some (k_empty i)
  else
    let '(_, s, _) := i in
    if k_gate s then Some i
    else
      match (if fwd then k_fwd (ts_x su) i else Some i) with
      | None => None
      | Some i =>
          match (if bwd then k_bwd (ts_x su) i else Some i) with
          | None => None
          | Some i => if env then k_env (ts_x su) i else Some i
          end
      end.

(** the loop of codac2_CtcLinobs.cpp 87-94, from the iterator on [l] ([lu] for the input) *)
Fixpoint fwd_loop (env : bool) (rlu lu : list tslice) (rl l : list cell) : option (list cell) :=
  match lu, l with
  | su :: ru, s :: r =>
      if k_gate s || k_unbounded s then fwd_loop env (su :: rlu) ru (s :: rl) r
      else
        match k_contract true false env (rlu, su, ru) (rl, s, r) with
        | None => None
        | Some (rl, s, r) => fwd_loop env (su :: rlu) ru (s :: rl) r
        end
  | _, _ => Some (rev_append rl l)
  end.
(** the loop of codac2_CtcLinobs.cpp 97-103: [rl] is the reversed list of the slices that remain *)
Fixpoint bwd_loop (env : bool) (rlu lu : list tslice) (rl l : list cell) : option (list cell) :=
  match rlu, rl with
  | su :: ru, s :: r =>
      if k_gate s || k_unbounded s then bwd_loop env ru (su :: lu) r (s :: l)
      else
        match k_contract false true env (ru, su, lu) (r, s, l) with
        | None => None
        | Some (rl, s, l) => bwd_loop env ru (su :: lu) rl (s :: l)
        end
  | _, _ => Some (rev_append rl l)
  end.
(** CtcLinobs::contract on tubes, codac2_CtcLinobs.cpp 81-104; the assertion of line 84 *)
Definition linobs2_contract (fwd bwd env : bool) (x : list cell) (u : list tslice) : option (list cell) :=
  if all_gates_defined u then
    match (if fwd then fwd_loop (env && negb bwd) [] u [] x else Some x) with
    | None => None
    | Some x => if bwd then bwd_loop env (rev u) [] (rev x) [] else Some x
    end
  else None.
End LINOBS2.
