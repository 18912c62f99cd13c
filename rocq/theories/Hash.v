(** * Keys of the contractors of a network and the container [m_map_ctc]

    Models /repo/src/core/cn/codac_Hashcode.cpp (ContractorHashcode) and [ContractorNetwork::add_ctc]
    (codac_ContractorNetwork.cpp 522-538).  Addresses are natural numbers.  [std::map::find] is modelled by
    its contract: it returns an element whose key is equivalent to the searched one, if there is one. *)

From Coq Require Import List Arith Bool.
Import ListNotations.

(** What the constructor reads of a [Contractor]: its type with the address of the contractor object, and
    the addresses of its domains.  codac_Contractor.h; codac_Hashcode.cpp 24-78 *)
Inductive kind :=
| KEquality | KComponent
| KIbex (addr : nat)
| KEval (addr : nat) | KDeriv (addr : nat) | KDist (addr : nat)   (* dynamic contractors of these classes *)
| KDyn (addr : nat)                                              (* other dynamic contractors *)
| KCn (addr : nat).
(** a Contractor, as read by codac_Hashcode.cpp 24-78 *)
Record desc := mkDesc { d_kind : kind; d_doms : list nat }.

(** [m_n] ([None]: never initialised) and [m_ptr]; codac_Hashcode.h 33-34 *)
Record key := mkKey { k_n : option nat; k_ptr : list nat }.
(** last word of the key, codac_Hashcode.cpp 40-76 *)
Definition code (k : kind) : nat :=
  match k with
  | KEquality => 0 | KComponent => 1 | KIbex a => a
  | KEval _ => 2 | KDeriv _ => 3 | KDist _ => 4 | KDyn a => a
  | KCn a => a
  end.
(** codac_Hashcode.cpp 24-78 *)
Definition key_of (d : desc) : key :=
  match d_kind d with
  | KCn a => mkKey None [a]
  | k => mkKey (Some (length (d_doms d) + 1)) (d_doms d ++ [code k])
  end.
(** codac_Hashcode.cpp 82-90: comparison of the first [min(m_n,a.m_n)] words *)
Fixpoint words_lt (n : nat) (p q : list nat) : bool :=
  match n with
  | O => false
  | S n => match p, q with
           | x :: p, y :: q => if Nat.eqb x y then words_lt n p q else Nat.ltb x y
           | _, _ => false
           end
  end.
(** codac_Hashcode.cpp 80-91; [None]: the result depends on an uninitialised value *)
Definition key_lt (a b : key) : option bool :=
  match k_n a, k_n b with
  | Some n, Some m => Some (words_lt (Nat.min n m) (k_ptr a) (k_ptr b))
  | _, _ => None
  end.
(** equivalence of [std::map]: neither is less than the other; codac_Hashcode.cpp 80-91 *)
Definition key_equiv (a b : key) : bool :=
  match key_lt a b, key_lt b a with Some false, Some false => true | _, _ => false end.

(** [m_map_ctc] and the identities ([Contractor*]) of its values; codac_ContractorNetwork.h 420 *)
Definition cmap := list (key * desc).
(** m_map_ctc.find, codac_ContractorNetwork.cpp 522-538 *)
Definition find (k : key) (m : cmap) : option desc :=
  option_map snd (List.find (fun e => key_equiv k (fst e)) m).
(** codac_ContractorNetwork.cpp 522-538 *)
Definition add (d : desc) (m : cmap) : cmap := match find (key_of d) m with Some _ => m | None => (key_of d, d) :: m end.
(** a sequence of calls, codac_ContractorNetwork.cpp 522-538 *)
Definition add_all (l : list desc) (m : cmap) : cmap := fold_left (fun m d => add d m) l m.
