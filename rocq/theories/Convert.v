(** * Conversions between the tubes of codac and the tubes of codac2

    /repo/src/core/2/domains/tube/codac2_Tube.cpp 20-30 and 56-66 (Tube<Interval> only).

    Simplifications: those of Tube.v and Codac2.v (exact reals, no synthesis tree, one tube per
    TDomain); [None] for a failed assertion. *)

From Coq Require Import Reals Bool List.
From Verif Require Import Itv Tube TubeOps Codac2.
Import ListNotations.
Open Scope R_scope.

(** [x_.set(s.codomain(), s.t0_tf())] if [s.t0_tf()] is bounded, codac2_Tube.cpp 24-25 *)
Definition set_cell (x : tube) (s : tslice) : tube :=
  match ts_t s with
  | Itv (Some l) (Some u) => tube_set_itv (ts_x s) l u x
  | _ => x
  end.
(** lines 27-28 of codac2_Tube.cpp: the gates only *)
Definition set_gate_cell (x : tube) (s : tslice) : tube := if is_gate s then set_cell x s else x.

(** to_codac1, codac2_Tube.cpp 20-30; the constructor of line 22 asserts that the temporal domain is
    bounded and not degenerated (codac_Tube.cpp 35) *)
Definition to_codac1 (d : list tslice) : option tube :=
  match t0_tf d with
  | Itv (Some a) (Some b) =>
      if Rltb a b then Some (fold_left set_gate_cell d (fold_left set_cell d (tube_one a b ALL))) else None
  | _ => None
  end.

(** the samplings of to_codac2, codac2_Tube.cpp 59-61 *)
Fixpoint sample_all (l : list R) (d : list tslice) : option (list tslice) :=
  match l with
  | [] => Some d
  | t :: r => match Codac2.sample 3 true t d with Some it => sample_all r (whole it) | None => None end
  end.

(** to_codac2, codac2_Tube.cpp 56-66 *)
Definition to_codac2 (x : tube) : option (list tslice) :=
  match sample_all (map s_lb x ++ [tf x]) (td_new (bnd (t0 x) (tf x)) ALL) with
  | Some d => Some (set_loop (map (fun s => Some (fun _ => Tube.eval_itv x (ts_t s))) d) [] d)
  | None => None
  end.
