(** * Volume of the dynamic domains of a contractor network

    /repo/src/core/cn/codac_Domain.cpp.  A contraction is noticed by the network when the volume of the domain decreases
    ([shrunk] of CN.v).  Simplifications: exact arithmetic; the sum of a number and +oo is +oo. *)

From Coq Require Import Reals Lra Bool List.
From Verif Require Import Itv Tube CN Measure.
Import ListNotations.
Open Scope R_scope.

(** a width or a volume as a double, codac_Domain.cpp 504-574 *)
Definition to_vol (w : option R) : vol := match w with Some r => Fin r | None => Inf end.
(** volume of a gate of a slice, codac_Domain.cpp 527-539 *)
Definition gate_volume (i : itv) : option R :=
  if is_empty i then Some 0 else if is_unbounded i then Some 999999 else wd i.
(** case T_SLICE, codac_Domain.cpp 521-542 *)
Definition dom_slice (s : slice) : vol := to_vol (wadd (wadd (slice_volume s) (gate_volume (s_in s))) (gate_volume (s_out s))).
(** the sum over the gates of a tube, codac_Domain.cpp 547-549 and 561-563, from the value [vol]; an empty list of slices is not a tube *)
Definition add_gates (vol : option R) (x : tube) : option R :=
  match x with
  | [] => None
  | s0 :: _ => fold_left (fun vol s => wadd vol (wd (s_out s))) x (wadd vol (wd (s_in s0)))
  end.
(** case T_TUBE, codac_Domain.cpp 544-551 *)
Definition dom_tube (x : tube) : vol := to_vol (add_gates (volume x) x).
(** case T_TUBE_VECTOR, codac_Domain.cpp 553-567 *)
Definition dom_tube_vector (v : list tube) : vol :=
  to_vol (fold_left (fun vol x => add_gates (wadd vol (volume x)) x) v (Some 0)).

(** ** Networks with domains of several types *)
(** content of a domain, codac_Domain.h 126-135; simplification: each domain has its own content (intervals, tubes and tube vectors; no box,
    and no slice of a tube of the network) *)
Inductive content := DI (i : itv) | DT (x : tube) | DV (v : list tube).
(** Domain::compute_volume, codac_Domain.cpp 504-574 *)
Definition content_volume (c : content) : vol :=
  match c with DI i => itv_volume i | DT x => dom_tube x | DV v => dom_tube_vector v end.
(** a network: what Contractor::contract of each contractor does on the contents (codac_Contractor.cpp 207-409), types, domains of the
    contractors and contractors of the domains (codac_Contractor.h, codac_Domain.h) *)
Record dyn_net := mkDyn {
  dn_run : nat -> (nat -> content) -> nat -> content;
  dn_typ : nat -> ctype;
  dn_doms : nat -> list nat;
  dn_ctcs : nat -> list nat }.
(** a sequence of calls on a new network, with the ratio given to set_fixedpoint_ratio (default 0.0001, codac_ContractorNetwork.h 424); only
    boxes trigger components, codac_ContractorNetwork_solve.cpp 282-297 *)
Definition dyn_exec (g : dyn_net) (ratio : R) (ops : list op) (m : nat -> content) : state (nat -> content) :=
  exec (nat -> content) (dn_run g) (fun d h => content_volume (h d)) (dn_typ g) (dn_doms g) (dn_ctcs g) (fun _ => []) ratio ops
    (init (nat -> content) m).
