(** * Model of [codac::Slice] and [codac::Tube] (first part: structure and values)

    /repo/src/core/domains/slice/codac_Slice.cpp, /repo/src/core/domains/tube/codac_Tube.cpp

    A tube is the list of its slices in chronological order (the C++ doubly linked list).
    Two neighbouring slices share one gate object by pointer; in the model each slice stores
    the value of both of its gates and every write to a gate goes through [put_gate], which
    writes both copies.  The cached member [m_tdomain] is the hull of the slices' domains.
    Simplification: no synthesis tree here (mode NONE); see TreeSynthesis.v. *)

From Coq Require Import Reals Lra Bool List Arith Lia.
From Verif Require Import Itv Arith.
Import ListNotations.
Open Scope R_scope.

(** Slice members: m_tdomain = [s_lb,s_ub], m_codomain, *m_input_gate, *m_output_gate
    (codac_Slice.h, class Slice). codac_Slice.h 669-671 *)
Record slice := mkS { s_lb : R; s_ub : R; s_cod : itv; s_in : itv; s_out : itv }.
(** the list of slices, m_first_slice and the links of the slices: codac_Tube.h 1220 *)
Definition tube := list slice.

(** Slice::tdomain(); codac_Slice.cpp 70-73 *)
Definition s_dom (s : slice) : itv := Itv (Some (s_lb s)) (Some (s_ub s)).

(** write of m_codomain, codac_Slice.h 669-671 *)
Definition set_cod (y : itv) (s : slice) := mkS (s_lb s) (s_ub s) y (s_in s) (s_out s).
(** write of *m_input_gate, codac_Slice.h 669-671 *)
Definition set_in  (g : itv) (s : slice) := mkS (s_lb s) (s_ub s) (s_cod s) g (s_out s).
(** write of *m_output_gate, codac_Slice.h 669-671 *)
Definition set_out (g : itv) (s : slice) := mkS (s_lb s) (s_ub s) (s_cod s) (s_in s) g.
(** write of m_tdomain, codac_Slice.h 669 *)
Definition set_dom (a b : R) (s : slice) := mkS a b (s_cod s) (s_in s) (s_out s).

(** Slice::Slice(tdomain, codomain), codac_Slice.cpp 24-30 *)
Definition slice_new (a b : R) (y : itv) : slice := mkS a b y y y.

(** Apply [f] to the element of rank [k] (no effect when there is none). Access of codac_Tube.cpp 333-359. *)
Fixpoint upd {A} (k : nat) (f : A -> A) (l : list A) : list A :=
  match l, k with
  | [], _ => []
  | a :: r, O => f a :: r
  | a :: r, S k' => a :: upd k' f r
  end.

(** Write to the gate of rank [k] (the input gate of slice k, output gate of slice k-1):
    the pointer m_input_gate / m_output_gate is shared by the neighbours
    (Slice::chain_slices, codac_Slice.cpp 561-578). *)
Definition put_gate (k : nat) (g : itv) (x : tube) : tube :=
  upd k (set_in g) (match k with O => x | S k' => upd k' (set_out g) x end).

(** codomain of a neighbour, if there is one: codac_Slice.cpp 484-518 *)
Definition cod_at (x : tube) (k : nat) : option itv := option_map s_cod (nth_error x k).
(** the conditional intersections of codac_Slice.cpp 484-518 *)
Definition inter_opt (g : itv) (o : option itv) : itv :=
  match o with None => g | Some c => inter g c end.

(** codomain of the previous slice, if there is one; codac_Slice.cpp 484-500 *)
Definition prev_cod (x : tube) (k : nat) : option itv :=
  match k with O => None | S k' => cod_at x k' end.

(** Slice::set_input_gate, codac_Slice.cpp 484-500, called on slice [k] *)
Definition set_input_gate (k : nat) (g : itv) (consistency : bool) (x : tube) : tube :=
  let g' := if consistency
            then inter_opt (inter_opt g (cod_at x k)) (prev_cod x k)
            else g in
  put_gate k g' x.

(** Slice::set_output_gate, codac_Slice.cpp 502-518, called on slice [k] *)
Definition set_output_gate (k : nat) (g : itv) (consistency : bool) (x : tube) : tube :=
  let g' := if consistency
            then inter_opt (inter_opt g (cod_at x k)) (cod_at x (S k))
            else g in
  put_gate (S k) g' x.

(** Slice::set_envelope, codac_Slice.cpp 467-482, called on slice [k] *)
Definition set_envelope (k : nat) (y : itv) (consistency : bool) (x : tube) : tube :=
  match nth_error x k with
  | None => x
  | Some s =>
    let x1 := upd k (set_cod y) x in
    if consistency
    then put_gate (S k) (inter (s_out s) y) (put_gate k (inter (s_in s) y) x1)
    else x1
  end.

(** Slice::set, codac_Slice.cpp 443-460, called on slice [k] *)
Definition slice_set (k : nat) (y : itv) (x : tube) : tube :=
  let x1 := upd k (set_cod y) x in
  let x2 := put_gate k (inter_opt y (prev_cod x1 k)) x1 in
  put_gate (S k) (inter_opt y (cod_at x2 (S k))) x2.

(** Slice::chain_slices, codac_Slice.cpp 561-578, on a slice and the slices that follow *)
Definition chain_rest (a : slice) (rest : tube) : slice * tube :=
  match rest with
  | [] => (a, [])
  | b :: r => let g := inter (s_out a) (s_in b) in (set_out g a, set_in g b :: r)
  end.

(** Tube::tdomain(): hull of the slices' domains (m_tdomain is a cached copy); codac_Tube.cpp 247-250 *)
Definition t0 (x : tube) : R := match x with [] => 0 | s :: _ => s_lb s end.
(** codac_Tube.cpp 247-250 *)
Fixpoint tf (x : tube) : R :=
  match x with [] => 0 | [s] => s_ub s | _ :: r => tf r end.

(** Tube::time_to_index(double), codac_Tube.cpp 491-510 *)
Fixpoint time_to_index (t : R) (x : tube) : nat :=
  match x with
  | [] => 0%nat
  | s :: r => if Rltb t (s_ub s) then 0%nat
              else match r with [] => 0%nat | _ => S (time_to_index t r) end
  end.

(** Tube::slice(double), codac_Tube.cpp 366-387 (domain test 368-369 included) *)
Definition in_tdomain (x : tube) (t : R) : bool :=
  match x with [] => false | _ => Rleb (t0 x) t && Rleb t (tf x) end.
(** codac_Tube.cpp 366-387 *)
Fixpoint slice_find (t : R) (x : tube) : option slice :=
  match x with
  | [] => None
  | s :: r => if Rltb t (s_ub s) then Some s
              else match r with [] => Some s | _ => slice_find t r end
  end.
(** codac_Tube.cpp 366-387 *)
Definition slice_at (x : tube) (t : R) : option slice :=
  if in_tdomain x t then slice_find t x else None.

(** Tube::sample(double, Slice* ), codac_Tube.cpp 533-564, on the slice [s] followed by [rest].
    The new slice is a copy whose input gate is dropped, chained to the next slice, then to
    the sampled one; its input gate is then set (consistently) to its codomain. *)
Definition sample_slice (t : R) (s : slice) (rest : tube) : tube :=
  if Reqb (s_lb s) t || Reqb (s_ub s) t then s :: rest
  else
    let new0 := set_dom t (s_ub s) s in
    let s1 := set_dom (s_lb s) t s in
    let '(new1, rest1) := chain_rest new0 rest in
    let g := inter (inter (s_cod new1) (s_cod new1)) (s_cod s1) in
    set_out g s1 :: set_in g new1 :: rest1.

(** Tube::sample(double), codac_Tube.cpp 525-531: slice(t) is the first slice such that
    t < ub, else the last one. *)
Fixpoint sample (t : R) (x : tube) : tube :=
  match x with
  | [] => []
  | s :: r => if Rltb t (s_ub s) then sample_slice t s r
              else match r with [] => sample_slice t s r | _ => s :: sample t r end
  end.

(** Tube::sample(double, Interval), codac_Tube.cpp 566-579, also Tube::set(y, double) 1168-1173 *)
Definition sample_gate (t : R) (g : itv) (x : tube) : tube :=
  let x1 := sample t x in
  let k := time_to_index t x1 in
  match nth_error x1 k with
  | None => x1
  | Some s => if Reqb t (s_lb s) then set_input_gate k g true x1
              else set_output_gate k g true x1
  end.

(** Tube::sample(const Tube&), codac_Tube.cpp 581-587 *)
Definition sample_as (x y : tube) : tube :=
  fold_left (fun acc s => sample (s_ub s) acc) y x.

(** Slice::merge_slices, codac_Slice.cpp 580-607, on slices [k] and [k+1] *)
Definition merge_at (k : nat) (x : tube) : tube :=
  match nth_error x k, nth_error x (S k) with
  | Some s1, Some s2 =>
    let x1 := set_envelope k (hull (s_cod s1) (s_cod s2)) true x in
    let x2 := upd k (fun s => set_out (s_out s2)
                     (set_dom (Rmin (s_lb s1) (s_lb s2)) (Rmax (s_ub s1) (s_ub s2)) s)) x1 in
    firstn (S k) x2 ++ skipn (S (S k)) x2
  | _, _ => x
  end.

(** Tube::remove_gate(double), codac_Tube.cpp 594-604: the gate must exist (assert) *)
Definition remove_gate (t : R) (x : tube) : tube :=
  match time_to_index t x with O => x | S k => merge_at k x end.

(** Tube::set(y), codac_Tube.cpp 1154-1159 *)
Definition tube_set (y : itv) (x : tube) : tube :=
  fold_left (fun acc k => slice_set k y acc) (seq 0 (length x)) x.

(** Tube::set(y, double t), codac_Tube.cpp 1168-1173 *)
Definition tube_set_at (y : itv) (t : R) (x : tube) : tube := sample_gate t y x.

(** Tube::shift_tdomain, codac_Tube.cpp 1280-1287 and Slice::shift_tdomain, codac_Slice.cpp 549-557 *)
Definition shift_slice (a : R) (s : slice) := set_dom (s_lb s + a) (s_ub s + a) s.
(** codac_Tube.cpp 1280-1287 *)
Definition shift_tdomain (a : R) (x : tube) : tube := map (shift_slice a) x.

(** Tube::Tube(tdomain, codomain), codac_Tube.cpp 33-42 *)
Definition tube_one (a b : R) (y : itv) : tube := [slice_new a b y].

(** Slice::operator()(double), codac_Slice.cpp 144-159 *)
Definition slice_eval (s : slice) (t : R) : itv :=
  if negb (Rleb (s_lb s) t && Rleb t (s_ub s)) then ALL
  else if Reqb t (s_lb s) then s_in s
  else if Reqb t (s_ub s) then s_out s
  else s_cod s.

(** Tube::operator()(double), codac_Tube.cpp 646-652 *)
Definition eval_t (x : tube) (t : R) : itv :=
  match slice_at x t with None => ALL | Some s => slice_eval s t end.

(** Tube::operator()(const Interval&), codac_Tube.cpp 654-695, mode NONE, for an interval with
    finite bounds [a<=b] (unbounded ones are outside of the domain: ALL).  The loop of lines
    688-689 runs from slice(a) up to slice(b), the latter being excluded when it starts at b. *)
Definition eval_itv (x : tube) (t : itv) : itv :=
  match t with
  | Emp => Emp
  | Itv (Some a) (Some b) =>
      if Rltb a (t0 x) || Rltb (tf x) b then ALL
      else if Reqb a b then eval_t x a
      else
        let i := time_to_index a x in
        let j := time_to_index b x in
        let last := match nth_error x j with
                    | Some s => if Reqb (s_lb s) b then j else S j
                    | None => S j
                    end in
        fold_left hull (map s_cod (firstn (last - i) (skipn i x))) Emp
  | _ => ALL
  end.

(** Tube::codomain() / codomain_box(), codac_Tube.cpp 623-626, 1546-1560 (mode NONE) *)
Definition codomain (x : tube) : itv := fold_left hull (map s_cod x) Emp.

(** Tube::is_empty(), codac_Tube.cpp 1101-1119 *)
Definition tube_is_empty (x : tube) : bool :=
  match x with
  | [] => false
  | s :: _ => is_empty (s_in s) || existsb (fun s => is_empty (s_cod s) || is_empty (s_out s)) x
  end.
