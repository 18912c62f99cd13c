(** * Tube::contains of codac2 (codac2_Slice.h, codac2_Tube.h) *)

From Coq Require Import Reals Bool List.
Import ListNotations.
From Verif Require Import Itv TubeOps Static Paving.
Open Scope R_scope.

(** Slice<IntervalVector>, with the temporal domain of its TSlice; codac2_Slice.h 38-65, codac2_TSlice.h 31-54 *)
Record vslice := VS { v_t : itv; v_x : box }.
(** Slice::is_gate, codac2_Slice.h 105-108 *)
Definition v_gate (s : vslice) : bool := is_degenerated (v_t s).
(** Slice::input_gate (codac2_Slice.h 221-233; [l] are the previous slices, the nearest first)
    and Slice::output_gate (235-247; [l] are the next slices) *)
Definition v_side (l : list vslice) (s : vslice) : box :=
  match l with
  | [] => v_x s
  | p :: _ => if v_gate p then v_x p else b_inter (v_x s) (v_x p)
  end.

(** the loop of Slice::contains, codac2_Slice.h 163-188: the list of subdomains is a stack (the right half is
    pushed last, hence read first); [tr] is the evaluation of the trajectory on an interval, [eps] is
    EPSILON_CONTAINS, [fuel] bounds the number of bisections of a branch (None: not enough).
    The value YES stands for [is_contained] (set by v_contains below). *)
Fixpoint v_bisect (fuel : nat) (tr : itv -> box) (cod : box) (eps l u : R) : option bool3 :=
  match fuel with
  | O => None
  | S n =>
    let e := tr (bnd l u) in
    if negb (b_intersects cod e) then Some NO
    else if negb (b_is_subset e cod) then
      if Rltb (u - l) eps then Some MAYBE
      else let m := l + (u - l) / 2 in
           match v_bisect n tr cod eps m u with
           | Some YES => v_bisect n tr cod eps l m
           | r => r
           end
    else Some YES
  end.
(** Slice::contains(TrajectoryVector), codac2_Slice.h 123-192, of the slice [s] between [pl] (previous slices) and
    [nl] (next slices); [dom] is x.tdomain(); None also stands for an evaluation at an infinite instant *)
Definition v_contains (fuel : nat) (dom : itv) (tr : itv -> box) (eps : R) (pl nl : list vslice) (s : vslice) : option bool3 :=
  if negb (intersects (v_t s) dom) then Some MAYBE
  else
    let is_contained := if is_subset (v_t s) dom then YES else MAYBE in
    match inter (v_t s) dom with
    | Itv (Some a) (Some b) =>
      let e := tr (bnd a b) in
      let ei := tr (pt a) in
      let eo := tr (pt b) in
      if negb (b_intersects (v_x s) e) || negb (b_intersects (v_side pl s) ei) || negb (b_intersects (v_side nl s) eo) then Some NO
      else if negb (b_is_subset ei (v_side pl s)) || negb (b_is_subset eo (v_side nl s)) then Some MAYBE
      else if b_is_subset e (v_x s) then Some is_contained
      else match v_bisect fuel tr (v_x s) eps a b with
           | Some YES => Some is_contained
           | r => r
           end
    | _ => None
    end.
(** the loop of Tube::contains, codac2_Tube.h 206-215 *)
Fixpoint v_loop (fuel : nat) (dom : itv) (tr : itv -> box) (eps : R) (pl l : list vslice) (res : bool3) : option bool3 :=
  match l with
  | [] => Some res
  | s :: r =>
    if v_gate s then v_loop fuel dom tr eps (s :: pl) r res
    else match v_contains fuel dom tr eps pl r s with
         | Some YES => v_loop fuel dom tr eps (s :: pl) r res
         | Some MAYBE => v_loop fuel dom tr eps (s :: pl) r MAYBE
         | q => q
         end
  end.
(** TDomain::t0_tf, codac2_TDomain.cpp 49-53 *)
Definition v_t0_tf (d : list vslice) : itv :=
  match d, rev d with
  | s :: _, e :: _ => Itv (match v_t s with Itv a _ => a | Emp => None end) (match v_t e with Itv _ b => b | Emp => None end)
  | _, _ => Emp
  end.
(** Tube::contains, codac2_Tube.h 202-216; None when the assertion of line 204 fails *)
Definition vtube_contains (fuel : nat) (dom : itv) (tr : itv -> box) (eps : R) (d : list vslice) : option bool3 :=
  if itv_eqb dom (v_t0_tf d) then v_loop fuel dom tr eps [] d YES else None.
