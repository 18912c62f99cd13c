(** * Model of [codac::CtcFunction] on tubes
      (/repo/src/core/contractors/static/codac_CtcFunction.cpp) *)
From Coq Require Import Reals Bool List Arith.
From Verif Require Import Itv Arith Tube TubeOps CtcDelay.
Import ListNotations.
Open Scope R_scope.

(** codac_CtcFunction.cpp 231-235: for each component, the envelope then the input gate of its slice [k].
    [set_envelope] and [set_input_gate] are called with their default slice_consistency = true
    (codac_Slice.h).  The tubes are distinct objects. *)
Fixpoint fn_set (k : nat) (env ing : list itv) (xs : list tube) : list tube :=
  match env, ing, xs with
  | e :: env, g :: ing, x :: xs => set_input_gate k g true (set_envelope k e true x) :: fn_set k env ing xs
  | _, _, _ => xs
  end.
(** codac_CtcFunction.cpp 246-247: the output gates *)
Fixpoint fn_set_out (k : nat) (outg : list itv) (xs : list tube) : list tube :=
  match outg, xs with
  | g :: outg, x :: xs => set_output_gate k g true x :: fn_set_out k outg xs
  | _, _ => xs
  end.
(** codac_CtcFunction.cpp 220-255, from the slice of rank [k] of each tube, with [n] slices left in the
    first tube.  [ctc] is CtcFwdBwd::contract on a box (IBEX).  [None]: a null pointer of a tube with
    fewer slices is dereferenced (224-225). *)
Fixpoint fn_loop (ctc : list itv -> list itv) (n k : nat) (xs : list tube) : option (list tube) :=
  match n with
  | O => Some xs
  | S n' =>
      if forallb (fun x => Nat.ltb k (length x)) xs then
        let ss := slices_at k xs in
        let xs := fn_set k (ctc (map s_cod ss)) (ctc (map s_in ss)) xs in
        match n' with
        | O => Some (fn_set_out k (ctc (map s_out (slices_at k xs))) xs)
        | S _ => fn_loop ctc n' (S k) xs
        end
      else None
  end.
(** CtcFunction::contract(TubeVector&) and contract(Tube&, ...), codac_CtcFunction.cpp 48-213: the first
    slices, then the loop.  The assertions on the number of components are not modelled. *)
Definition ctc_function (ctc : list itv -> list itv) (xs : list tube) : option (list tube) :=
  match xs with
  | [] => None
  | x0 :: _ => fn_loop ctc (length x0) 0 xs
  end.
