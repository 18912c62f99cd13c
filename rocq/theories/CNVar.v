(** * Contractor network with variables: [contract({var,x})], [reset_interm_vars], [CtcCN]

    Models /repo/src/core/cn/codac_ContractorNetwork_solve.cpp 79-97 ([contract(var_dom)]), 182-213
    ([trigger_all_contractors], [reset_interm_vars]), 238-253 ([reset_value]), 300-367
    ([replace_var_by_dom]), [Domain::set_ref_values], [Domain::is_var_not_associated],
    [Domain::reset_value] (codac_Domain.cpp 340-391, 484-502, 611-642) and
    /repo/src/core/contractors/static/codac_CtcCN.cpp 18-26, over the scheduler of CN.v.

    Domains are intervals and interval vectors.  A domain is identified by the address of its memory
    (codac_Hashcode.cpp, [DomainHashcode]): the number of a scalar domain is the number of the cell of
    its memory, a vector domain has a number of its own and its components are scalar domains.  The
    values of a domain are read and written through a reference which [set_ref_values] changes.

    Simplifications: the vector of variables is in the graph (the branch 305-331 which adds it when only
    some components are there is not taken); the variables are not themselves intermediate variables;
    networks inside networks are not in the graph; the order of [m_map_domains], [m_map_ctc] and [var_dom]
    is the one of the given lists. *)

From Coq Require Import Reals Lra Bool List Arith.
Import ListNotations.
From Verif Require Import Itv Static CN.
Open Scope R_scope.

(** memory and references: [m_ref_values_i], [m_ref_values_iv], codac_Domain.h 130-131; the cells the
    values of a domain are in *)
Record vheap := mkVH { hm : mem; hr : nat -> list nat }.

(** the graph: contractors over scalar domains, [Contractor::domains], [Domain::contractors], components
    of the vectors, variables ([Domain::is_var], codac_Domain.cpp 479-482), intermediate variables with
    their initial values ([m_init_i_ptr], [m_init_iv_ptr]), [m_fixedpoint_ratio];
    codac_ContractorNetwork.h 420-424 *)
Record vnet := mkVN { v_ctc : nat -> contractor; v_doms : nat -> list nat; v_ctcs : nat -> list nat;
                      v_comps : nat -> list nat; v_vars : list nat; v_interm : list (nat * list itv); v_ratio : R }.

Section Net.
  Variable g : vnet.

  (** the cells of the memory of a domain: itself or its components, codac_Hashcode.cpp 95-98, 105-125 *)
  Definition own (d : nat) : list nat := match v_comps g d with [] => [d] | l => l end.
  (** [Domain::interval()] of a scalar domain: the cell referred to, codac_Domain.cpp 403-413 *)
  Definition cell (r : nat -> list nat) (d : nat) : nat := hd d (r d).
  (** a contractor of the graph, on the cells its domains refer to; codac_Contractor.cpp 207-409 *)
  Definition resolve (r : nat -> list nat) (c : contractor) : contractor :=
    match c with
    | Ibex f ds => Ibex f (map (cell r) ds)
    | Equality a b => Equality (cell r a) (cell r b)
    | Component => Component
    end.
  (** [Contractor::contract], codac_Contractor.cpp 207-409 *)
  Definition vrun (c : nat) (h : vheap) : vheap := mkVH (run_ctc (resolve (hr h) (v_ctc g c)) (hm h)) (hr h).
  (** [Domain::compute_volume], codac_Domain.cpp 504-519 *)
  Definition vvolume (d : nat) (h : vheap) : vol :=
    match v_comps g d with
    | [] => itv_volume (hm h (cell (hr h) d))
    | _ => box_volume (map (hm h) (hr h d))
    end.
  (** [Contractor::type], codac_Contractor.h 37 *)
  Definition vtyp (c : nat) : ctype := match v_ctc g c with Ibex _ _ => T_IBEX | Equality _ _ => T_EQUALITY | Component => T_COMPONENT end.
  (** state of the network, codac_ContractorNetwork.h 420-424 *)
  Definition vstate := state vheap.
  (** codac_ContractorNetwork_solve.cpp 255-298 *)
  Definition vtrigger (d : nat) (s : vstate) : vstate := trigger vheap vvolume vtyp (v_ctcs g) (v_comps g) (v_ratio g) d None s.
  (** codac_ContractorNetwork_solve.cpp 182-200 *)
  Definition vtrigger_all (s : vstate) : vstate := trigger_all vheap vtyp s.

  (** [Domain::set_ref_values] with the domain of an argument, whose [m_volume] is still -1
      (codac_Domain.h 180); codac_Domain.cpp 340-391 *)
  Definition set_ref (d : nat) (cells : list nat) (s : vstate) : vstate :=
    mkSt vheap (mkVH (hm (heap _ s)) (upd (hr (heap _ s)) d cells)) (active _ s) (upd (saved _ s) d (Fin (-1))) (deque _ s) (known _ s).
  (** one domain: 336-338 *)
  Definition replace1 (d : nat) (cells : list nat) (s : vstate) : vstate := vtrigger d (set_ref d cells s).
  (** codac_ContractorNetwork_solve.cpp 336-353: the domain, then its components *)
  Definition replace_var (d : nat) (cells : list nat) (s : vstate) : vstate :=
    fold_left (fun s p => replace1 (fst p) [snd p] s) (combine (v_comps g d) cells) (replace1 d cells s).

  (** [Domain::is_var_not_associated], codac_Domain.cpp 484-502; the address of the values is the address
      of the variable *)
  Definition not_associated (r : nat -> list nat) (d : nat) : bool := if list_eq_dec Nat.eq_dec (r d) (own d) then true else false.

  (** result of [contract]: an exception leaves the network in the state reached,
      codac_ContractorNetwork_solve.cpp 31, 85 *)
  Inductive outcome := Done (s : vstate) | Thrown (s : vstate).
  (** the types and the sizes agree, codac_ContractorNetwork_solve.cpp 84-85 and 347-348 (tested for each
      variable in turn; here before the first replacement) *)
  Definition fits (d : nat) (cells : list nat) : bool := Nat.eqb (length cells) (length (own d)).
  (** [ContractorNetwork::contract(var_dom)], codac_ContractorNetwork_solve.cpp 79-97, with the test of
      [contract()] 28-32 *)
  Definition contract_vars (l : list (nat * list nat)) (n : nat) (s : vstate) : outcome :=
    if forallb (fun p => fits (fst p) (snd p)) l then
      let s := fold_left (fun s p => replace_var (fst p) (snd p) s) l s in
      if existsb (not_associated (hr (heap _ s))) (v_vars g) then Thrown s
      else
        let s := contract vheap vrun vvolume vtyp (v_doms g) (v_ctcs g) (v_comps g) (v_ratio g) n s in
        Done (fold_left (fun s p => replace_var (fst p) (own (fst p)) s) l s)
    else Thrown s.

  (** [Domain::reset_value], codac_Domain.cpp 611-642 *)
  Definition reset_value (d : nat) (init : list itv) (s : vstate) : vstate :=
    mkSt vheap (mkVH (write_back (hr (heap _ s) d) init (hm (heap _ s))) (hr (heap _ s))) (active _ s)
         (upd (saved _ s) d (Fin (-1))) (deque _ s) (known _ s).
  (** codac_ContractorNetwork_solve.cpp 202-213 *)
  Definition reset_interm_vars (s : vstate) : vstate :=
    vtrigger_all (fold_left (fun s p => vtrigger (fst p) (reset_value (fst p) (snd p) s)) (v_interm g) s).

  (** [CtcCN::contract], codac_CtcCN.cpp 18-26, on a box in the cells [xs] *)
  Definition ctc_cn (b : nat) (xs : list nat) (n : nat) (s : vstate) : outcome :=
    contract_vars [(b, xs)] n (reset_interm_vars s).

  (** the network after the additions of the contractors [K], codac_ContractorNetwork.cpp 171-270, 522-538 *)
  Definition built (K : list nat) (m : mem) : vstate :=
    fold_left (fun s c => add_ctc vheap vtyp c s) K (init vheap (mkVH m own)).

  (** what can happen before a call: the user writes in their memory, or calls the contractor, or calls
      [contract({b,x})] or [reset_interm_vars] on the network; codac_ContractorNetwork.h 240-310 *)
  Inductive vop := Write (x : nat) (i : itv) | Call (xs : list nat) (n : nat) | Raw (xs : list nat) (n : nat) | ResetInterm.
  (** the memory is changed by the user: the domains are references to it, codac_Domain.h 130-131 *)
  Definition write (x : nat) (i : itv) (s : vstate) : vstate :=
    mkSt vheap (mkVH (upd (hm (heap _ s)) x i) (hr (heap _ s))) (active _ s) (saved _ s) (deque _ s) (known _ s).
  (** one operation, codac_CtcCN.cpp 18-26, codac_ContractorNetwork_solve.cpp 79-97, 202-213 *)
  Definition vapply (b : nat) (o : vop) (s : vstate) : outcome :=
    match o with
    | Write x i => Done (write x i s)
    | Call xs n => ctc_cn b xs n s
    | Raw xs n => contract_vars [(b, xs)] n s
    | ResetInterm => Done (reset_interm_vars s)
    end.
  (** a history without exception, codac_CtcCN.cpp 18-26 *)
  Fixpoint vexec (b : nat) (ops : list vop) (s : vstate) : outcome :=
    match ops with
    | [] => Done s
    | o :: ops => match vapply b o s with Done s => vexec b ops s | Thrown s => Thrown s end
    end.
End Net.
