(** * The bisections of contains() with floating-point instants

    The loops of Slice::contains (codac_Slice.cpp 411-436) and of its copy for codac2 (codac2_Slice.h 163-188),
    where the bounds of the subdomains are doubles and each operation is rounded. *)

From Coq Require Import Reals ZArith Bool List.
From Flocq Require Import Core.
Import ListNotations.
From Verif Require Import Itv Tube TubeOps Static Paving Codac2Contains Double.
Open Scope R_scope.

(** EPSILON_CONTAINS, codac_Slice.h 24, codac2_Slice.h 27: 1000 times the smallest positive double *)
Definition eps_contains : R := 1000 * bpow radix2 (-1074).

Section Float.
(** the rounding mode: rounding of a real to an integer; the exponent of the doubles is not bounded above.
    (IBEX works with upward rounding; codac_Slice.cpp 428-432) *)
Variable rnd : R -> Z.
(** the result of an operation on doubles, codac_Slice.cpp 431 *)
Definition fl (x : R) : R := round radix2 fexp64 rnd x.
(** t.diam(), codac_Slice.cpp 428 *)
Definition f_diam (l u : R) : R := fl (u - l).
(** t.lb() + t.diam() / 2., codac_Slice.cpp 431-432 *)
Definition f_mid (l u : R) : R := fl (l + fl (f_diam l u / 2)).

(** one turn of the loop: the list of subdomains that remain, or the returned verdict; codac_Slice.cpp 414-436.
    [disj l u] is the test of line 421, [subs l u] the one of line 426 *)
Definition f_turn (disj subs : R -> R -> bool) (st : list (R * R)) : list (R * R) + bool3 :=
  match st with
  | [] => inr YES
  | (l, u) :: r =>
    if disj l u then inr NO
    else if negb (subs l u) then
      if Rltb (f_diam l u) eps_contains then inr MAYBE
      else inl ((f_mid l u, u) :: (l, f_mid l u) :: r)
    else inl r
  end.
(** [n] turns of the loop, codac_Slice.cpp 414-436 *)
Fixpoint f_run (disj subs : R -> R -> bool) (n : nat) (st : list (R * R)) : list (R * R) + bool3 :=
  match n with
  | O => inl st
  | S n => match f_turn disj subs st with
           | inl st' => f_run disj subs n st'
           | inr r => inr r
           end
  end.

(** the test of codac_Slice.cpp 419-421; [tr] is the evaluation of the trajectory *)
Definition disj1 (tr : itv -> itv) (cod : itv) (l u : R) : bool := negb (intersects (tr (bnd l u)) cod).
(** the test of codac_Slice.cpp 426 *)
Definition subs1 (tr : itv -> itv) (cod : itv) (l u : R) : bool := is_subset (tr (bnd l u)) cod.
(** Slice::contains(Trajectory), codac_Slice.cpp 385-439, stopped after [n] turns of the loop (None) *)
Definition f_contains (tr : itv -> itv) (s : slice) (n : nat) : option bool3 :=
  let e := tr (s_dom s) in
  let ei := tr (pt (s_lb s)) in
  let eo := tr (pt (s_ub s)) in
  if negb (intersects e (s_cod s)) || negb (intersects ei (s_in s)) || negb (intersects eo (s_out s)) then Some NO
  else if negb (is_subset ei (s_in s)) || negb (is_subset eo (s_out s)) then Some MAYBE
  else if is_subset e (s_cod s) then Some YES
  else match f_run (disj1 tr (s_cod s)) (subs1 tr (s_cod s)) n [(s_lb s, s_ub s)] with
       | inr r => Some r
       | inl _ => None
       end.

(** the test of codac2_Slice.h 171-173 *)
Definition disj2 (tr : itv -> box) (cod : box) (l u : R) : bool := negb (b_intersects cod (tr (bnd l u))).
(** the test of codac2_Slice.h 178 *)
Definition subs2 (tr : itv -> box) (cod : box) (l u : R) : bool := b_is_subset (tr (bnd l u)) cod.
(** Slice::contains(TrajectoryVector), codac2_Slice.h 136-190, for a slice whose temporal domain [a,b] is in the
    domain of the trajectory, stopped after [n] turns of the loop (None) *)
Definition f_contains2 (tr : itv -> box) (pl nl : list vslice) (s : vslice) (a b : R) (n : nat) : option bool3 :=
  let e := tr (bnd a b) in
  let ei := tr (pt a) in
  let eo := tr (pt b) in
  if negb (b_intersects (v_x s) e) || negb (b_intersects (v_side pl s) ei) || negb (b_intersects (v_side nl s) eo) then Some NO
  else if negb (b_is_subset ei (v_side pl s)) || negb (b_is_subset eo (v_side nl s)) then Some MAYBE
  else if b_is_subset e (v_x s) then Some YES
  else match f_run (disj2 tr (v_x s)) (subs2 tr (v_x s)) n [(a, b)] with
       | inr r => Some r
       | inl _ => None
       end.
End Float.
