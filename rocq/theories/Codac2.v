(** * codac2: temporal domains and sliced tubes

    Model of /repo/src/core/2/domains/tube: TSlice, TDomain, Slice<Interval>, Tube<Interval> and TubeEvaluation.

    Simplifications.  Several tubes share a TDomain, through a map from the tubes to their slices in each TSlice; all
    operations treat the keys of this map separately, so the model follows one tube: a TSlice is a temporal domain and
    the codomain of the slice of this tube.  Instants and bounds are exact reals, possibly infinite for the bounds of
    the TDomain; instants given to [sample] are finite.  An iterator on the list of TSlices is the list before it
    (reversed), the element, and the list after it.  [None] stands for an undefined behaviour or an assertion. *)

From Coq Require Import Reals Bool List Arith.
Import ListNotations.
From Verif Require Import Itv.
Open Scope R_scope.

(** class TSlice, codac2_TSlice.h 28-53, with the slice of one tube (Slice<Interval>::_codomain, codac2_Slice.h 358) *)
Record tslice : Type := TS { ts_t : itv; ts_x : itv }.
(** TSlice::is_gate, codac2_TSlice.cpp 39-42 *)
Definition is_gate (s : tslice) : bool := is_degenerated (ts_t s).
(** lb() and ub() of the temporal domain of a TSlice; [None] is infinite (ibex::Interval); codac2_TSlice.h 48 *)
Definition t_lb (s : tslice) : option R := match ts_t s with Itv a _ => a | Emp => None end.
(** codac2_TSlice.h 48 *)
Definition t_ub (s : tslice) : option R := match ts_t s with Itv _ b => b | Emp => None end.
(** list<TSlice>::iterator: reversed prefix, element, suffix; codac2_TDomain.h 35 *)
Definition iter : Type := (list tslice * tslice * list tslice)%type.
(** the list an iterator belongs to; codac2_TDomain.h 35 *)
Definition whole (i : iter) : list tslice := let '(rl, s, r) := i in rev_append rl (s :: r).

(** TDomain::TDomain(t0_tf), codac2_TDomain.cpp 23-27, with a tube of codomain [x] *)
Definition td_new (t0_tf x : itv) : list tslice := [TS t0_tf x].
(** TDomain::TDomain(t0_tf, dt, with_gates), codac2_TDomain.cpp 29-47: the loop of lines 35-43, with fuel.  The
    condition t < ub+dt is tested; the additions are exact. *)
Fixpoint td_loop (n : nat) (ub dt : R) (g : bool) (x : itv) (t : R) : option (list tslice) :=
  match n with
  | O => None
  | S n' =>
      if Rltb t (ub + dt) then
        let t_next := Rmin ub (t + dt) in
        let here := (if g then [TS (pt t) x] else []) ++ [TS (bnd t t_next) x] in
        if Reqb t_next ub then Some here
        else match td_loop n' ub dt g x (t + dt) with Some l => Some (here ++ l) | None => None end
      else Some []
  end.
(** the whole constructor, codac2_TDomain.cpp 29-47; the assertions of lines 31-33 are the hypotheses lb < ub, 0 < dt *)
Definition td_new_dt (n : nat) (lb ub dt : R) (g : bool) (x : itv) : option (list tslice) :=
  match td_loop n ub dt g x lb with
  | Some l => Some (l ++ (if g then [TS (pt ub) x] else []))
  | None => None
  end.

(** TDomain::t0_tf, codac2_TDomain.cpp 49-53: lb() of the first TSlice and ub() of the last one *)
Definition d_lb (d : list tslice) : option R := match d with s :: _ => t_lb s | [] => None end.
(** codac2_TDomain.cpp 49-53 *)
Definition d_ub (d : list tslice) : option R := match rev d with s :: _ => t_ub s | [] => None end.
(** codac2_TDomain.cpp 49-53 *)
Definition t0_tf (d : list tslice) : itv := Itv (d_lb d) (d_ub d).

(** the loop of TDomain::all_gates_defined, codac2_TDomain.cpp 75-91, from the iterator [it] *)
Fixpoint alternate (l : list tslice) : bool :=
  match l with
  | [] => true
  | s :: r =>
      if is_gate s then false
      else match r with [] => true | g :: r' => if is_gate g then alternate r' else false end
  end.
(** TDomain::all_gates_defined, codac2_TDomain.cpp 65-93 *)
Definition all_gates_defined (d : list tslice) : bool :=
  if is_degenerated (t0_tf d) then true
  else if Nat.eqb (length d) 1 then false
  else alternate (tl d).

(** the test of TDomain::iterator_tslice, codac2_TDomain.cpp 103-105 *)
Definition ts_at (s : tslice) (t : R) : bool :=
  (is_gate s && opt_eqb (t_lb s) (Some t)) || (lo_leb_r (t_lb s) t && ub_gt (ts_t s) t).
(** the loop of TDomain::iterator_tslice, codac2_TDomain.cpp 100-110; the last element when none is found *)
Fixpoint find_ts (t : R) (rl : list tslice) (s : tslice) (r : list tslice) : iter :=
  if ts_at s t then (rl, s, r)
  else match r with [] => (rl, s, []) | s' :: r' => find_ts t (s :: rl) s' r' end.
(** TDomain::iterator_tslice, codac2_TDomain.cpp 95-111; [None] is end() *)
Definition iterator_tslice (t : R) (d : list tslice) : option iter :=
  match d with
  | [] => None
  | s :: r => if contains (t0_tf d) t then Some (find_ts t [] s r) else None
  end.

(** TDomain::sample(t, with_gates), codac2_TDomain.cpp 113-193; [n] bounds the recursive calls (three are enough) *)
Fixpoint sample (n : nat) (g : bool) (t : R) (d : list tslice) : option iter :=
  match n with
  | O => None
  | S n' =>
      match d with
      | [] => None
      | s0 :: r0 =>
          if (match d_lb d with Some l => Rleb t l | None => false end) then
            if is_gate s0 && opt_eqb (t_lb s0) (Some t) then Some ([], s0, r0)
            else
              let ts := TS (Itv (Some t) (d_lb d)) ALL in
              if g then (if is_gate ts then Some ([], ts, d) else sample n' g t (ts :: d))
              else Some ([], ts, d)
          else if (match d_ub d with Some u => Rltb u t | None => false end) then
            let ts := TS (Itv (d_ub d) (Some t)) ALL in
            if g then sample n' g t (d ++ [ts]) else Some (rev d, ts, [])
          else
            match iterator_tslice t d with
            | None => None
            | Some (rl, s, r) =>
                if is_gate s || (negb g && (opt_eqb (t_lb s) (Some t) || opt_eqb (Some t) (d_ub d))) then Some (rl, s, r)
                else
                  let a := TS (Itv (t_lb s) (Some t)) (ts_x s) in
                  let b := TS (Itv (Some t) (t_ub s)) (ts_x s) in
                  if is_gate a then Some (rl, a, b :: r)
                  else if g then sample n' g t (rev_append rl (a :: b :: r))
                  else Some (a :: rl, b, r)
            end
      end
  end.
(** TDomain::delete_gates, codac2_TDomain.cpp 214-225 *)
Definition delete_gates (d : list tslice) : list tslice := filter (fun s => negb (is_gate s)) d.

(** TDomain::are_same, codac2_TDomain.cpp 248-262, for two different objects *)
Fixpoint are_same (d e : list tslice) : bool :=
  match d, e with
  | [], [] => true
  | s :: d', s' :: e' => itv_eqb (ts_t s) (ts_t s') && are_same d' e'
  | _, _ => false
  end.

(** ** Slices *)
(** Slice::input_gate, codac2_Slice.h 221-233, and Slice::output_gate, 235-247; the first argument is the list that
    starts with the previous (next) slice *)
Definition slice_gate (l : list tslice) (s : tslice) : itv :=
  match l with
  | [] => ts_x s
  | p :: _ => if is_gate p then ts_x p else inter (ts_x s) (ts_x p)
  end.
(** Slice::is_empty, codac2_Slice.h 110-116 *)
Definition slice_is_empty (i : iter) : bool :=
  let '(rl, s, r) := i in
  if is_gate s then is_empty (ts_x s) else is_empty (slice_gate rl s) || is_empty (slice_gate r s).
(** assignment of _codomain (codac2_Slice.h 358) *)
Definition set_x (s : tslice) (x : itv) : tslice := TS (ts_t s) x.
(** Slice::set_empty(true), codac2_Slice.h 283-295, from a slice: propagated in both directions, to all slices *)
Definition all_empty (l : list tslice) : list tslice := map (fun s => set_x s Emp) l.
(** lines 257-266 (268-277) of Slice::set, codac2_Slice.h: the slice, then the previous (next) slices *)
Definition set_side (l : list tslice) (s : tslice) : tslice * list tslice :=
  match l with
  | [] => (s, [])
  | p :: l' =>
      if is_gate s then (set_x s (inter (ts_x s) (ts_x p)), l)
      else if is_gate p then (s, set_x p (inter (ts_x p) (ts_x s)) :: l')
      else (s, l)
  end.
(** Slice::set, codac2_Slice.h 249-281, with propagation *)
Definition slice_set (y : itv) (i : iter) : iter :=
  let '(rl, s, r) := i in
  let '(s1, rl1) := set_side rl (set_x s y) in
  let '(s2, r1) := set_side r s1 in
  if slice_is_empty (rl1, s2, r1) then (all_empty rl1, set_x s2 Emp, all_empty r1) else (rl1, s2, r1).

(** ** Tubes *)
(** a loop on the slices: for each one, [None] leaves it, [Some f] calls set(f(codomain()));
    codac2_Tube.h 100-110, 307-318, 365-380 *)
Fixpoint set_loop (fs : list (option (itv -> itv))) (rl l : list tslice) : list tslice :=
  match fs, l with
  | None :: fs', s :: r => set_loop fs' (s :: rl) r
  | Some f :: fs', s :: r => let '(rl', s', r') := slice_set (f (ts_x s)) (rl, s, r) in set_loop fs' (s' :: rl') r'
  | _, _ => rev_append rl l
  end.
(** Tube::set(codomain), codac2_Tube.h 307-318: the slices, then the gates *)
Definition tube_set (y : itv) (d : list tslice) : list tslice :=
  let d1 := set_loop (map (fun s => if is_gate s then None else Some (fun _ => y)) d) [] d in
  set_loop (map (fun s => if is_gate s then Some (fun _ => y) else None) d1) [] d1.
(** Tube::operator=, codac2_Tube.h 100-110; [z]: the slices of the other tube (same TDomain) *)
Definition tube_assign (z d : list tslice) : list tslice := set_loop (map (fun s => Some (fun _ => ts_x s)) z) [] d.
(** Tube::operator&=, codac2_Tube.h 365-380; the assertion of line 367 is a hypothesis *)
Definition tube_inter (z d : list tslice) : list tslice := set_loop (map (fun s => Some (fun c => inter c (ts_x s))) z) [] d.
(** Tube::inflate(rad), codac2_Tube.h 329-338, for an inflation of intervals [infl] (ibex::Interval::inflate) *)
Definition tube_inflate (infl : itv -> itv) (d : list tslice) : list tslice := map (fun s => set_x s (infl (ts_x s))) d.
(** Tube::set(codomain, t), codac2_Tube.h 320-327 *)
Definition tube_set_at (y : itv) (t : R) (d : list tslice) : option (list tslice) :=
  match sample 3 true t d with Some i => Some (whole (slice_set y i)) | None => None end.
(** Tube::is_empty, codac2_Tube.h 181-192: some gate or some slice is empty *)
Fixpoint some_empty (rl l : list tslice) : bool :=
  match l with [] => false | s :: r => slice_is_empty (rl, s, r) || some_empty (s :: rl) r end.
(** codac2_Tube.h 181-192 *)
Definition tube_is_empty (d : list tslice) : bool := some_empty [] d.
(** Tube::codomain, codac2_Tube.h 218-225 *)
Definition tube_codomain (d : list tslice) : itv := fold_left (fun a s => hull a (ts_x s)) d Emp.
(** Tube::eval(t), codac2_Tube.h 264-279 *)
Definition eval (t : R) (d : list tslice) : itv :=
  if contains (t0_tf d) t then
    match iterator_tslice t d with
    | Some (rl, s, _) =>
        if negb (is_gate s) && opt_eqb (Some t) (t_lb s)
        then match rl with p :: _ => inter (ts_x s) (ts_x p) | [] => ts_x s end
        else ts_x s
    | None => ALL
    end
  else ALL.
(** the loop of Tube::eval(Interval), codac2_Tube.h 297-302, on the slices up to iterator_tslice(t.ub()); [b]: t.ub() *)
Fixpoint eval_loop (b : R) (acc : itv) (l : list tslice) : itv :=
  match l with
  | [] => acc
  | s :: r => if opt_eqb (t_lb s) (Some b) then acc else eval_loop b (hull acc (ts_x s)) r
  end.
(** Tube::eval(Interval), codac2_Tube.h 281-305, for a bounded interval [a,b] *)
Definition eval_itv (a b : R) (d : list tslice) : itv :=
  if is_subset (bnd a b) (t0_tf d) then
    if Reqb a b then eval a d
    else
      match iterator_tslice a d, iterator_tslice b d with
      | Some (rl, s, r), Some (rl', _, _) =>
          eval_loop b (ts_x s) (firstn (S (length rl') - length rl) (s :: r))
      | _, _ => ALL
      end
  else ALL.

(** ** Assignment on an interval *)
(** the element of rank [i] of the list, as an iterator; codac2_TubeEvaluation.h 24-42 *)
Fixpoint at_index (i : nat) (rl l : list tslice) : option iter :=
  match l with
  | [] => None
  | s :: r => match i with O => Some (rl, s, r) | S i' => at_index i' (s :: rl) r end
  end.
(** the rank of an iterator; codac2_TubeEvaluation.h 24-42 *)
Definition index (i : iter) : nat := let '(rl, _, _) := i in length rl.
(** the loop of TubeEvaluation::operator=, codac2_TubeEvaluation.h 39-42, from the rank [i] of it_lb to the rank [j]
    of it_ub; [n] bounds the number of iterations (the length of the list is enough) *)
Fixpoint assign_loop (n : nat) (y : itv) (i j : nat) (d : list tslice) : option (list tslice) :=
  match n with
  | O => Some d
  | S n' =>
      match at_index i [] d with
      | None => Some d
      | Some it => let d' := whole (slice_set y it) in if Nat.eqb i j then Some d' else assign_loop n' y (S i) j d'
      end
  end.
(** TubeEvaluation::operator=, codac2_TubeEvaluation.h 20-45, x([a,b]) = y with a < b: the second sampling inserts
    after it_lb, so its rank is kept; decrementing the iterator begin() is undefined *)
Definition assign_itv (y : itv) (a b : R) (d : list tslice) : option (list tslice) :=
  match sample 3 false a d with
  | None => None
  | Some it =>
      let i := index it in
      match sample 3 false b (whole it) with
      | None => None
      | Some it2 =>
          match index it2 with
          | O => None
          | S j =>
              match at_index i [] (whole it2) with
              | None => None
              | Some (_, s, _) =>
                  let i' := if opt_eqb (t_ub s) (Some a) then S i else i in
                  assign_loop (length (whole it2)) y i' j (whole it2)
              end
          end
      end
  end.
