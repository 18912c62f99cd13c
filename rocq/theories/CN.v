(** * Contractor network: scheduling

    Models /repo/src/core/cn/codac_ContractorNetwork_solve.cpp, the insertion of contractors in
    codac_ContractorNetwork.cpp, [Contractor::contract] (codac_Contractor.cpp) for interval and
    interval-vector domains and [Domain::compute_volume] for the same domains.

    Not modelled: console output; variables not associated with domains ([contract(var_dom)]) and
    [reset_interm_vars] are in CNVar.v.  The clock is abstracted: [contract] is given the number of contractor
    calls after which the duration test (line 49) interrupts the loop. *)

From Coq Require Import Reals Lra Bool List Arith.
Import ListNotations.
From Verif Require Import Itv Static.
Open Scope R_scope.

(** [Contractor::Type], codac_Contractor.h; codac_Contractor.h 37 *)
Inductive ctype := T_COMPONENT | T_EQUALITY | T_IBEX | T_CODAC | T_CN.
(** test of the type, codac_Contractor.h 37 *)
Definition is_cn (t : ctype) : bool := match t with T_CN => true | _ => false end.
(** test of the type, codac_Contractor.h 37 *)
Definition is_component (t : ctype) : bool := match t with T_COMPONENT => true | _ => false end.
(** the types of line 188-190 of codac_ContractorNetwork_solve.cpp *)
Definition is_contracting (t : ctype) : bool := match t with T_IBEX | T_CODAC | T_EQUALITY => true | _ => false end.

(** A volume ([double]): a real number or +oo. codac_Domain.h 180 *)
Inductive vol := Fin (r : R) | Inf.
(** [current_volume/saved_volume < 1.-ratio], codac_ContractorNetwork_solve.cpp 144 and 259, with the
    conventions of IEEE 754 for a division by zero or an infinite operand (comparisons with NaN are
    false); finite quotients are exact. *)
Definition shrunk (ratio : R) (current saved : vol) : bool :=
  match current, saved with
  | Fin c, Fin s => if Reqb s 0 then (if Rltb c 0 then true else false) else Rltb (c / s) (1 - ratio)
  | Fin _, Inf => Rltb 0 (1 - ratio)
  | Inf, Fin s => if Rltb s 0 then true else false
  | Inf, Inf => false
  end.

Section CN.
  (** [H]: the memory of the domains; [run c]: [Contractor::contract] of contractor [c];
      [volume d]: [Domain::compute_volume] of domain [d]. *)
  Variable H : Type.
  Variable run : nat -> H -> H.
  Variable volume : nat -> H -> vol.
  (** the graph: types and domains of the contractors ([Contractor::type], [Contractor::domains]),
      contractors of a domain ([Domain::contractors]), components of a vector domain *)
  Variable typ : nat -> ctype.
  Variable cdoms : nat -> list nat.
  Variable dctcs : nat -> list nat.
  Variable dcomps : nat -> list nat.
  (** [m_fixedpoint_ratio] *)
  Variable ratio : R.

  (** state of the network: memory, [Contractor::m_active], [Domain::m_volume], [m_deque] and the keys
      of [m_map_ctc]; codac_ContractorNetwork.h 420-421 *)
  Record state := mkSt { heap : H; active : nat -> bool; saved : nat -> vol; deque : list nat; known : list nat }.

  (** write of a field, codac_Contractor.h 72, codac_Domain.h 180 *)
  Definition upd {A} (f : nat -> A) (i : nat) (v : A) : nat -> A := fun j => if Nat.eqb j i then v else f j.

  (** codac_ContractorNetwork_solve.cpp 227-236 *)
  Definition add_ctc_to_queue (c : nat) (q : list nat) : list nat := if is_component (typ c) then q ++ [c] else c :: q.

  (** 266-273: activation of the contractors of a domain; the local deque is returned *)
  Fixpoint activate (l : list nat) (avoid : option nat) (act : nat -> bool) (local : list nat) : (nat -> bool) * list nat :=
    match l with
    | [] => (act, local)
    | c :: l =>
        if negb (match avoid with Some a => Nat.eqb c a | None => false end) && negb (act c)
        then activate l avoid (upd act c true) (add_ctc_to_queue c local)
        else activate l avoid act local
    end.
  (** 257-280; [push_front] of each item of the local deque.  [Domain::contractors] holds the contractors
      already added ([Domain::add_ctc] is called by [add], codac_ContractorNetwork.cpp): the static list
      [dctcs d] is restricted to these. *)
  Definition has (c : nat) (l : list nat) : bool := existsb (Nat.eqb c) l.
  (** codac_ContractorNetwork_solve.cpp 257-280 *)
  Definition trigger1 (d : nat) (avoid : option nat) (s : state) : state :=
    let current := volume d (heap s) in
    let '(act, q) :=
      if shrunk ratio current (saved s d) then
        let '(act, local) := activate (filter (fun c => has c (known s)) (dctcs d)) avoid (active s) [] in
        (act, fold_left (fun q c => c :: q) local (deque s))
      else (active s, deque s) in
    mkSt (heap s) act (upd (saved s) d current) q (known s).
  (** 255-298; the components of a vector are intervals, which have no component *)
  Definition trigger (d : nat) (avoid : option nat) (s : state) : state :=
    fold_left (fun s i => trigger1 i avoid s) (dcomps d) (trigger1 d avoid s).

  (** 51-60: one call.  [set_active] on a sub-network also refills the queue of that sub-network, which
      belongs to the memory [H]. *)
  Definition step (s : state) : state :=
    match deque s with
    | [] => s
    | c :: q =>
        let s := mkSt (run c (heap s)) (if is_cn (typ c) then active s else upd (active s) c false) (saved s) q (known s) in
        fold_left (fun s d => trigger d (Some c) s) (cdoms c) s
    end.
  (** 48-61: at most [n] calls *)
  Fixpoint loop (n : nat) (s : state) : state :=
    match n with
    | O => s
    | S n => match deque s with [] => s | _ => loop n (step s) end
    end.
  (** 35-36: volumes of all the domains (here: of every domain number) *)
  Definition save_volumes (s : state) : state :=
    mkSt (heap s) (active s) (fun d => volume d (heap s)) (deque s) (known s).
  (** 24-77 *)
  Definition contract (n : nat) (s : state) : state := loop n (save_volumes s).

  (** 99-161: one iteration of the ordered mode, then at most [n] of them *)
  Definition run_all (l : list nat) (h : H) : H := fold_left (fun h c => run c h) l h.
  (** the domains of the contractors of the queue, codac_ContractorNetwork_solve.cpp 99-161 *)
  Definition involved (s : state) : list nat := flat_map cdoms (deque s).
  (** codac_ContractorNetwork_solve.cpp 99-161 *)
  Definition ordered_iter (s : state) : state * bool :=
    let h1 := run_all (rev (deque s)) (heap s) in
    let sv := fun d => if has d (involved s) then volume d h1 else saved s d in
    let h2 := run_all (tl (deque s)) h1 in
    let fixed := forallb (fun d => negb (shrunk ratio (volume d h2) (sv d))) (involved s) in
    (mkSt h2 (active s) (fun d => if has d (involved s) then volume d h2 else sv d) (deque s) (known s), fixed).
  (** codac_ContractorNetwork_solve.cpp 99-161 *)
  Fixpoint ordered (n : nat) (s : state) : state :=
    match n with
    | O => s
    | S n => let '(s, fixed) := ordered_iter s in if fixed then s else ordered n s
    end.

  (** 182-200 *)
  Definition trigger_all (s : state) : state :=
    fold_left (fun s c =>
      if is_contracting (typ c) then mkSt (heap s) (upd (active s) c true) (saved s) (add_ctc_to_queue c (deque s)) (known s)
      else mkSt (heap s) (upd (active s) c false) (saved s) (deque s) (known s))
      (known s) (mkSt (heap s) (active s) (saved s) [] (known s)).

  (** codac_ContractorNetwork.cpp 522-538; a new contractor has [m_active = true]
      (codac_Contractor.h 72) *)
  Definition add_ctc (c : nat) (s : state) : state :=
    if has c (known s) then s
    else mkSt (heap s) (upd (active s) c true) (saved s) (add_ctc_to_queue c (deque s)) (c :: known s).

  (** public operations; codac_ContractorNetwork.cpp 522-538, codac_ContractorNetwork_solve.cpp 24-200, 255-298 *)
  Inductive op := Add (c : nat) | Contract (n : nat) | Ordered (n : nat) | TriggerAll | Trigger (d : nat).
  (** one of them, codac_ContractorNetwork_solve.cpp 24-200, 255-298 *)
  Definition apply (o : op) (s : state) : state :=
    match o with
    | Add c => add_ctc c s
    | Contract n => contract n s
    | Ordered n => ordered n s
    | TriggerAll => trigger_all s
    | Trigger d => trigger d None s
    end.
  (** before any call, codac_ContractorNetwork.h 420-424, codac_Domain.h 180 *)
  Definition init (h : H) : state := mkSt h (fun _ => false) (fun _ => Fin (-1)) [] [].
  (** a sequence of calls, codac_ContractorNetwork_solve.cpp 24-200, 255-298 *)
  Definition exec (ops : list op) (s : state) : state := fold_left (fun s o => apply o s) ops s.
End CN.

(** ** Interval and interval-vector domains *)
(** memory: one interval per cell; a domain is the list of its cells (one for an interval); codac_Domain.h 130-134 *)
Definition mem := nat -> itv.
(** codac_Contractor.h 37, codac_Contractor.cpp 207-409 *)
Inductive contractor :=
| Ibex (f : list itv -> list itv) (cells : list nat)  (* [Contractor(Ctc&, v_domains)] on intervals *)
| Equality (a b : nat)                                (* T_EQUALITY on two intervals *)
| Component                                           (* T_COMPONENT: nothing to do *).
(** [dom->interval() = box[i]] for each domain, codac_Contractor.cpp 292-302 *)
Fixpoint write_back (cells : list nat) (b : list itv) (m : mem) : mem :=
  match cells, b with
  | c :: cells, i :: b => write_back cells b (upd m c i)
  | _, _ => m
  end.
(** codac_Contractor.cpp 207-409, T_IBEX on intervals 223-344, T_COMPONENT 358-361, T_EQUALITY 370-376 *)
Definition run_ctc (c : contractor) (m : mem) : mem :=
  match c with
  | Ibex f cells => write_back cells (f (map m cells)) m
  | Equality a b => let i := inter (m a) (m b) in upd (upd m a i) b i
  | Component => m
  end.
(** [interval().diam()]; codac_Domain.cpp 508-519 *)
Definition diam_r (i : itv) : R := match i with Itv (Some a) (Some b) => b - a | _ => 0 end.
(** codac_Domain.cpp 508-519; [IntervalVector::volume] of IBEX: product of the diameters, +oo if a
    component is unbounded, 0 if the box is empty *)
Definition itv_volume (i : itv) : vol :=
  if is_empty i then Fin 0 else if is_unbounded i then Fin 999999 else Fin (diam_r i).
(** codac_Domain.cpp 508-519 *)
Definition box_volume (b : list itv) : vol :=
  if b_is_empty b then Fin 0
  else if existsb is_unbounded b then Inf
  else Fin (fold_right (fun i p => diam_r i * p) 1 b).
(** Domain::compute_volume, codac_Domain.cpp 508-519 *)
Definition dom_volume (cells : list nat) (m : mem) : vol :=
  match cells with [c] => itv_volume (m c) | _ => box_volume (map m cells) end.
