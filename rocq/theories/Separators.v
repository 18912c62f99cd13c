(** * Separators

    Models /repo/src/core/separators/codac_QInterProjF.cpp (and .h), codac_SepBox.cpp, codac_SepTransform.cpp,
    codac_SepCtcPairProj.cpp (and .h) and codac_SepFixPoint.cpp.  The set operations of IBEX on boxes are those of Static.v. *)

From Coq Require Import Reals Lra Bool List Arith ZArith.
Import ListNotations.
From Verif Require Import Itv Static Sivia.
Open Scope R_scope.

(** ** codac_QInterProjF.cpp *)

(** The doubles -oo, r, +oo stored in the array [x] (codac_QInterProjF.cpp 82, 89-90); NaN is not modelled. *)
Inductive ext : Type := MInf | Fin (r : R) | PInf.
(** [<] and [==] between these doubles, used in codac_QInterProjF.cpp 19, 106 *)
Definition ext_ltb (a b : ext) : bool :=
  match a, b with
  | MInf, MInf => false | MInf, _ => true
  | Fin x, Fin y => Rltb x y | Fin _, PInf => true | Fin _, MInf => false
  | PInf, _ => false
  end.
(** codac_QInterProjF.cpp 19, 106 *)
Definition ext_eqb (a b : ext) : bool :=
  match a, b with MInf, MInf => true | PInf, PInf => true | Fin x, Fin y => Reqb x y | _, _ => false end.
(** [lb()] and [ub()], codac_QInterProjF.cpp 89-90; IBEX gives +oo and -oo for the empty set. *)
Definition ext_lb (i : itv) : ext := match i with Emp => PInf | Itv None _ => MInf | Itv (Some a) _ => Fin a end.
(** codac_QInterProjF.cpp 89-90 *)
Definition ext_ub (i : itv) : ext := match i with Emp => MInf | Itv _ None => PInf | Itv _ (Some b) => Fin b end.
(** [Interval(lb0,rb0)], codac_QInterProjF.cpp 121; a lower bound +oo or an upper bound -oo gives the empty set *)
Definition ext_itv (a b : ext) : itv :=
  match a, b with
  | PInf, _ => Emp | _, MInf => Emp
  | MInf, PInf => Itv None None | MInf, Fin y => Itv None (Some y)
  | Fin x, PInf => Itv (Some x) None | Fin x, Fin y => mk (Some x) (Some y)
  end.

(** [pair<double,int>], codac_QInterProjF.cpp 82; PROJ_LEFT_BOUND (line 16) is [false], PROJ_RIGHT_BOUND (line 17) is
    [true] *)
Definition event : Type := (ext * bool)%type.
(** [paircomp], codac_QInterProjF.cpp 19 *)
Definition paircomp (i j : event) : bool :=
  ext_ltb (fst i) (fst j) || (ext_eqb (fst i) (fst j) && negb (snd i) && snd j).
(** [sort(x,x+2*p,paircomp)], codac_QInterProjF.cpp 93, as an insertion sort: two events that are not ordered by
    paircomp are equal, so that each sorting algorithm gives the same array *)
Fixpoint ev_insert (e : event) (l : list event) : list event :=
  match l with [] => [e] | f :: l => if paircomp f e then f :: ev_insert e l else e :: f :: l end.
(** the whole sort, codac_QInterProjF.cpp 93 *)
Definition ev_sort (l : list event) : list event := fold_right ev_insert [] l.
(** the array filled in codac_QInterProjF.cpp 88-91 *)
Definition events (l : list itv) : list event := flat_map (fun i => [(ext_lb i, false); (ext_ub i, true)]) l.
(** the loops of codac_QInterProjF.cpp 96-104 ([up] = PROJ_LEFT_BOUND) and 112-119 ([up] = PROJ_RIGHT_BOUND, on the
    reversed array): the first value at which the counter is q *)
Fixpoint scan (up : bool) (q c : Z) (x : list event) : option ext :=
  match x with
  | [] => None
  | (v, s) :: x => let c := if Bool.eqb s up then (c + 1)%Z else (c - 1)%Z in
                   if (c =? q)%Z then Some v else scan up q c x
  end.
(** One dimension, codac_QInterProjF.cpp 84-122: the break of line 108, the interval of line 121, or a use of rb0
    that was not assigned in this iteration (the C++ code would use the value of an earlier dimension, or an
    indeterminate value; PropsSep.v shows that this never happens) *)
Inductive qdim : Type := QEmpty | QItv (i : itv) | QUndef.
(** codac_QInterProjF.cpp 84-122 *)
Definition qinter_dim (q : Z) (l : list itv) : qdim :=
  let x := ev_sort (events l) in
  let lb0 := match scan false q 0 x with Some v => v | None => PInf end in
  if ext_eqb lb0 PInf then QEmpty
  else match scan true q 0 (rev x) with Some rb0 => QItv (ext_itv lb0 rb0) | None => QUndef end.
(** The main loop, codac_QInterProjF.cpp 84-122, for the dimensions [dims]: [None] when some rb0 is not assigned,
    [Some None] when the break of line 108 is reached *)
Fixpoint qinter_dims (q : Z) (boxes : list box) (dims : list nat) : option (option box) :=
  match dims with
  | [] => Some (Some [])
  | i :: dims =>
      match qinter_dim q (map (fun b => nth i b Emp) boxes) with
      | QUndef => None
      | QEmpty => Some None
      | QItv v => match qinter_dims q boxes dims with Some (Some r) => Some (Some (v :: r)) | o => o end
      end
  end.
(** [qinter_projf], codac_QInterProjF.cpp 57-126; [None]: an assertion of lines 59-60 fails, or undefined behaviour *)
Definition qinter_projf (bs : list box) (q : Z) : option box :=
  if (q <=? 0)%Z then None
  else match bs with
       | [] => None
       | b0 :: _ =>
           let n := length b0 in
           let boxes := filter (fun b => negb (b_is_empty b)) bs in
           match boxes with
           | [] => Some (repeat Emp n)
           | _ :: _ => match qinter_dims q boxes (seq 0 n) with
                       | None => None | Some None => Some (repeat Emp n) | Some (Some r) => Some r
                       end
           end
       end.
(** [CtcQInterProjF::contract], codac_QInterProjF.cpp 23-33 *)
Definition ctc_qinter (cs : list ctc_t) (q : Z) (x : box) : option box := qinter_projf (map (fun c => c x) cs) q.
(** [SepQInterProjF::separate], codac_QInterProjF.cpp 35-53 *)
Definition sep_qinter (ss : list sep_t) (q : Z) (xin xout : box) : option (box * box) :=
  match qinter_projf (map (fun s => fst (s xin xout)) ss) (q + 1),
        qinter_projf (map (fun s => snd (s xin xout)) ss) (Z.of_nat (length ss) - q) with
  | Some a, Some b => Some (b_inter xin a, b_inter xout b)
  | _, _ => None
  end.

(** ** codac_SepBox.cpp *)

(** line 30: [(sx[k] & [-oo,lb]) | (sx[k] & [ub,+oo])] for the k-th component [i] of x_in and [j] of m_b *)
Definition outside (i j : itv) : itv :=
  hull (inter i (ext_itv MInf (ext_lb j))) (inter i (ext_itv (ext_ub j) PInf)).
(** the loop of codac_SepBox.cpp 26-33, from the component k on *)
Fixpoint sep_box_in (mb x_in : box) (ks : list nat) (acc : box) : box :=
  match ks with
  | [] => acc
  | k :: ks =>
      let i := nth k x_in Emp in let j := nth k mb Emp in
      sep_box_in mb x_in ks
        (if is_subset i j then acc else b_hull acc (firstn k x_in ++ outside i j :: skipn (S k) x_in))
  end.
(** [SepBox::separate], codac_SepBox.cpp 17-35; the assertions of lines 19-20 are hypotheses of the theorems *)
Definition sep_box (mb : box) : sep_t := fun x_in x_out =>
  (b_inter x_in (sep_box_in mb x_in (seq 0 (length x_in)) (repeat Emp (length x_in))), b_inter x_out mb).

(** ** codac_SepTransform.cpp *)

(** [SepTransform::separate], codac_SepTransform.cpp 22-47.  [ffwd], [fbwd] are the evaluations of the two functions,
    [bwd y x] is [ffwd.backward(y,x)]: functions of IBEX, given as parameters. *)
Definition sep_transform (s : sep_t) (ffwd fbwd : box -> box) (bwd : box -> box -> box) : sep_t := fun xin xout =>
  let xin := b_inter xin xout in
  let y := s (ffwd xin) (ffwd xin) in
  let back := fun yb xb => if b_is_empty yb then b_set_empty xb else bwd yb (b_inter xb (fbwd yb)) in
  (back (fst y) xin, back (snd y) xout).

(** ** codac_SepCtcPairProj.cpp *)

(** The members of SepCtcPairProj that separate() reads, codac_SepCtcPairProj.h: the pointers ctcForAll and ctcExist;
    [None] is an indeterminate pointer. codac_SepCtcPairProj.h 144-147 *)
Record pair_proj : Type := mkPP { ctcForAll : option ctc_t; ctcExist : option ctc_t }.
(** CtcForAll and CtcExist are classes of IBEX: [forall_ c y prec] and [exists_ c y prec] are the contractors that are
    built from the contractor [c] on (x,y), the box [y] and the precision. codac_SepCtcPairProj.cpp 16-31 *)
Definition quantifier_t : Type := ctc_t -> box -> R -> ctc_t.
(** constructor of codac_SepCtcPairProj.cpp 16-31; the bit set [vars] is part of the contract of the quantifiers *)
Definition new_ctcs (forall_ exists_ : quantifier_t) (ctc_in ctc_out : ctc_t) (y : box) (prec : R) : pair_proj :=
  mkPP (Some (forall_ ctc_in y prec)) (Some (exists_ ctc_out y prec)).
(** constructor of codac_SepCtcPairProj.cpp 33-49: lines 46-47 are comments *)
Definition new_pair (forall_ exists_ : quantifier_t) (ctc_in ctc_out : ctc_t) (y : box) (prec : R) : pair_proj :=
  mkPP None None.
(** constructor of codac_SepCtcPairProj.cpp 51-67: lines 64-65 are comments *)
Definition new_sep (forall_ exists_ : quantifier_t) (s : sep_t) (y : box) (prec : R) : pair_proj := mkPP None None.
(** [x_in == x_out] on boxes, codac_SepCtcPairProj.cpp 98 *)
Fixpoint box_eqb (a b : box) : bool :=
  match a, b with [], [] => true | x :: a, y :: b => itv_eqb x y && box_eqb a b | _, _ => false end.
(** [SepCtcPairProj::separate], codac_SepCtcPairProj.cpp 95-102; [None]: the assertion fails or an indeterminate
    pointer is dereferenced *)
Definition pp_separate (p : pair_proj) (x_in x_out : box) : option (box * box) :=
  if box_eqb x_in x_out then
    match ctcExist p, ctcForAll p with
    | Some ex, Some fa => Some (fa x_in, ex x_out)
    | _, _ => None
    end
  else None.
(** the destructor, codac_SepCtcPairProj.cpp 88-93: [None] when an indeterminate pointer is deleted *)
Definition pp_destroy (p : pair_proj) : option unit :=
  match ctcExist p, ctcForAll p with Some _, Some _ => Some tt | _, _ => None end.

(** [CtcFromSep::contract], codac_SepCtcPairProj.h 58-62 *)
Definition ctc_from_sep (s : sep_t) (return_ctc_in : bool) (x : box) : box :=
  b_inter x (if return_ctc_in then fst (s x x) else snd (s x x)).

(** ** codac_SepFixPoint.cpp *)

(** The flags impact_cin, impact_cout and the boxes first_cin_boxes, first_cout_boxes (codac_SepFixPoint.h, set in
    codac_SepFixPoint.cpp 45-61): [None] when the flag is false.  n_in, n_out are the lengths of the lists. *)
Record flags : Type := mkF { f_cin : option (list box); f_cout : option (list box) }.
(** setCinFlags and setCoutFlags, codac_SepFixPoint.cpp 45-61; [diff] is IntervalVector::diff *)
Definition set_flag (diff : box -> box -> list box) (f : option (list box)) (x x0 : box) : option (list box) :=
  match f with
  | Some l => Some l
  | None => if box_eqb x x0 then None else Some (diff x0 x)
  end.
(** The loop of SepFixPoint::separate, codac_SepFixPoint.cpp 149-161; [dist] is rel_distance; [None]: the fuel is
    not enough. *)
Fixpoint fix_loop (diff : box -> box -> list box) (dist : box -> box -> R) (ratio : R) (sep : sep_t) (fuel : nat)
    (x_in x_out x : box) (fl : flags) : option (box * box * flags) :=
  match fuel with
  | O => None
  | S fuel =>
      let r := sep x_in x_out in
      let fl := mkF (set_flag diff (f_cin fl) (fst r) x) (set_flag diff (f_cout fl) (snd r) x) in
      let x' := b_inter (fst r) (snd r) in
      if b_is_empty x' then Some (fst r, snd r, fl)
      else if Rltb ratio (dist x x') then fix_loop diff dist ratio sep fuel x' x' x' fl
      else Some (x', x', fl)
  end.
(** [IntervalVector::intersects] (IBEX), codac_SepFixPoint.cpp 121, 128 *)
Definition b_intersects (a b : box) : bool := negb (b_is_empty (b_inter a b)).
(** the loop of codac_SepFixPoint.cpp 118-133 *)
Definition give_back (l_in l_out : list box) (rest : list box) (x_in x_out : box) : box * box :=
  fold_left (fun x r => (if existsb (fun b => b_intersects b r) l_out then b_hull (fst x) r else fst x,
                         if existsb (fun b => b_intersects b r) l_in then b_hull (snd x) r else snd x))
    rest (x_in, x_out).
(** SepFixPoint::reconstruct, codac_SepFixPoint.cpp 90-140; [asserts] tells whether the assertions of lines 114-116
    and 137 are compiled; [None]: one of them fails. *)
Definition reconstruct (diff : box -> box -> list box) (asserts : bool) (x_in x_out x_old : box) (fl : flags)
    : option (box * box) :=
  let x := b_inter x_in x_out in
  if box_eqb x x_old then Some (x_in, x_out)
  else match f_cin fl, f_cout fl with
       | Some _, None => Some (x, x_old)
       | None, Some _ => Some (x_old, x)
       | Some l_in, Some l_out =>
           let rest := diff x_old x in
           if asserts && negb (Nat.eqb (length l_in) 1 && Nat.eqb (length l_out) 1 && Nat.eqb (length rest) 2) then None
           else Some (give_back l_in l_out rest x_in x_out)
       | None, None => if asserts then None else Some (x_in, x_out)
       end.
(** SepFixPoint::separate, codac_SepFixPoint.cpp 142-163 *)
Definition sep_fix (diff : box -> box -> list box) (dist : box -> box -> R) (ratio : R) (asserts : bool) (sep : sep_t)
    (fuel : nat) (x_in x_out : box) : option (box * box) :=
  let x := b_inter x_in x_out in
  match fix_loop diff dist ratio sep fuel x_in x_out x (mkF None None) with
  | None => None
  | Some (a, b, fl) => reconstruct diff asserts a b x fl
  end.
