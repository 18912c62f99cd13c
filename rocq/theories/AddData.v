(** * Live data on a tube: Domain::add_data *)

From Coq Require Import Reals Bool List.
From Verif Require Import Itv Tube Trajectory.
Import ListNotations.
Open Scope R_scope.

(** The members of a T_TUBE domain used by add_data: the tube, m_traj_lb and m_traj_ub.
    codac_Domain.h 177.  The synthesis tree of the tube is not modelled here. *)
Record dst := mkD { d_tube : tube; d_lb : traj; d_ub : traj }.

(** The loop of Domain::add_data, codac_Domain.cpp 890-904, on the slice of index [n - 1] then on the
    previous ones.  Not modelled: the trigger of the contractors (900). *)
Fixpoint contract_down (n : nat) (lb ub : traj) (x : tube) : option tube :=
  match n with
  | O => Some x
  | S k =>
      match nth_error x k with
      | None => None
      | Some s =>
          if is_subset (bnd (s_lb s) (s_ub s)) (t_dom lb) then
            match traj_on lb (s_lb s) (s_ub s), traj_on ub (s_lb s) (s_ub s) with
            | Some e1, Some e2 =>
                let env := hull e1 e2 in
                if is_subset (s_cod s) env then Some x
                else contract_down k lb ub (set_envelope k env true x)
            | _, _ => None
            end
          else Some x
      end
  end.

(** Domain::add_data(t, [lo,hi]), codac_Domain.cpp 846-905.  The boolean is false when the exception of
    line 860 is thrown.  [None]: failed assertion.  Simplification: the measurement is bounded and not
    empty (with an infinite bound the interpolation 892 gives NaN).
    The starting slice is the one before slice(t) (871-878; index 0 means that there is none, 874) or the
    last one (881-884). *)
Definition add_data (t lo hi : R) (s : dst) : option (bool * dst) :=
  match t_map (d_lb s), t_dom (d_lb s) with
  | [], _ =>
      match traj_set lo t (d_lb s), traj_set hi t (d_ub s) with
      | Some lb, Some ub => Some (true, mkD (d_tube s) lb ub)
      | _, _ => None
      end
  | _, Itv _ (Some prev_t) =>
      if Rleb t prev_t then Some (false, s)
      else
        match traj_set lo t (d_lb s), traj_set hi t (d_ub s) with
        | Some lb, Some ub =>
            if Rltb prev_t (t0 (d_tube s)) then Some (true, mkD (d_tube s) lb ub)
            else
              let n := if Rltb t (tf (d_tube s)) then time_to_index t (d_tube s) else length (d_tube s) in
              match contract_down n lb ub (d_tube s) with
              | Some x => Some (true, mkD x lb ub)
              | None => None
              end
        | _, _ => None
        end
  | _, _ => None
  end.

(** a sequence of calls to ContractorNetwork::add_data on one tube, codac_ContractorNetwork.cpp 416-421;
    a call that throws leaves the domain as it is *)
Fixpoint feed (l : list (R * (R * R))) (s : dst) : option dst :=
  match l with
  | [] => Some s
  | (t, (lo, hi)) :: l =>
      match add_data t lo hi s with
      | Some (_, s') => feed l s'
      | None => None
      end
  end.
(** a tube domain before any data, codac_Domain.h 177 *)
Definition dst_new (x : tube) : dst := mkD x traj_new traj_new.
