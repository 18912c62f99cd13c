(** * Topological degree on a connected subset of a paving

    Models /repo/src/core/paving/codac_ConnectedSubset_degree.cpp and the functions of codac_ConnectedSubset.cpp and
    codac_Paving.cpp it calls.  [None]: an assertion fails (the assertions are enabled), a dangling pointer is followed or
    a vector is read out of its bounds.  An [assert("...")] of a string alone never fails. *)

From Coq Require Import Reals Bool List Arith NArith ZArith.
Import ListNotations.
From Verif Require Import Itv Static Sivia Paving.
Open Scope R_scope.

(** component [i] of a box; ibex::IntervalVector, included by codac_IntervalVector.h 15-21 *)
Definition comp (i : nat) (b : box) : itv := nth i b Emp.
(** both components are degenerated, codac_Paving.cpp 206 *)
Definition is_point (b : box) : bool := is_degenerated (comp 0 b) && is_degenerated (comp 1 b).
(** Paving::get_pavings_intersecting, codac_Paving.cpp 198-220, with no_degenerated_intersection = true, after the assertion *)
Fixpoint intersecting_nd (val : N) (b : box) (p : pav) : list cell :=
  let i := b_inter b (c_box (p_cell p)) in
  if b_is_empty i || is_point i then []
  else match p with
       | Leaf c => if meets (c_val c) val then [c] else []
       | Node _ p1 p2 => intersecting_nd val b p1 ++ intersecting_nd val b p2
       end.
(** Loop of codac_ConnectedSubset.cpp 83-89 *)
Definition item_edges (it : cell) (v : list cell) : list box :=
  filter (fun i => negb (is_point i)) (map (fun n => b_inter (c_box it) (c_box n)) v).
(** ConnectedSubset::get_boundary, codac_ConnectedSubset.cpp 70-93, with its default arguments (codac_ConnectedSubset.h 99).
    The flags are not read: without_flag is false (line 81). *)
Fixpoint get_boundary (w : list pav) (items : list cell) : option (list box) :=
  match items with
  | [] => Some []
  | it :: items =>
      if meets (c_val it) V_UNKNOWN then
        match get_neighbours w V_OUT (fun _ => false) it, get_boundary w items with
        | Some v, Some l => Some (item_edges it v ++ l)
        | _, _ => None
        end
      else get_boundary w items
  end.
(** [lb() < lb()] and [ub() < ub()] of two intervals, the bounds being infinite when absent; a bound of the empty set is not
    compared.  Interval::is_strict_interior_subset of IBEX, used in codac_ConnectedSubset.cpp 36 *)
Definition strictly_in (x y : itv) : bool :=
  match x, y with
  | Emp, _ => true
  | _, Emp => false
  | Itv l h, Itv l' h' =>
      match l', l with None, _ => true | Some a, Some b => Rltb a b | Some _, None => false end &&
      match h', h with None, _ => true | Some a, Some b => Rltb b a | Some _, None => false end
  end.
(** ConnectedSubset::is_strictly_included_in_paving, codac_ConnectedSubset.cpp 34-37, for a bounded paving (the functions of
    IBEX that allow an infinite bound to be shared give the same result on it) *)
Definition strictly_included (x y : box) : bool := forallb (fun q => strictly_in (fst q) (snd q)) (combine x y).
(** ConnectedSubset::box_dimension, codac_ConnectedSubset_degree.cpp 238-245 *)
Definition box_dimension (b : box) : nat := length (filter (fun i => negb (is_degenerated i)) b).
(** [b[i].mid() == parent[i].lb()], codac_ConnectedSubset_degree.cpp 87: [b[i]] is degenerated, its middle is its bound *)
Definition at_lb (i j : itv) : bool := match i, j with Itv (Some x) _, Itv (Some l) _ => Reqb x l | _, _ => false end.
(** [b[i].mid() == parent[i].ub()], codac_ConnectedSubset_degree.cpp 89 *)
Definition at_ub (i j : itv) : bool := match i, j with Itv (Some x) _, Itv _ (Some h) => Reqb x h | _, _ => false end.
(** [pow(-1,j)], codac_ConnectedSubset_degree.cpp 88 and 90 *)
Definition minus_one (j : nat) : Z := if Nat.even j then 1%Z else (-1)%Z.
(** Loop of codac_ConnectedSubset_degree.cpp 79-94 *)
Fixpoint orientation_loop (b parent : box) (j : nat) (o : Z) : Z :=
  match b, parent with
  | bi :: b, pi :: parent =>
      if is_degenerated pi then orientation_loop b parent j o
      else let j := S j in
           if is_degenerated bi then
             if at_lb bi pi then (o * minus_one j)%Z
             else if at_ub bi pi then (o * minus_one (S j))%Z
             else orientation_loop b parent j o
           else orientation_loop b parent j o
  | _, _ => 0%Z
  end.
(** ConnectedSubset::orientation, codac_ConnectedSubset_degree.cpp 74-98, after the assertion *)
Definition orientation (b parent : box) (o : Z) : Z := orientation_loop b parent 0 o.

(** codac_ConnectedSubset_degree.cpp 153; when the interval does not contain 0 its middle is positive iff its lower bound is; the
    middle of the empty set is NaN *)
Definition sign_of (i : itv) : Z :=
  if contains i 0 then 0%Z else match i with Itv (Some l) _ => if Rltb 0 l then 1%Z else (-1)%Z | _ => (-1)%Z end.
(** sign_vector on a box of dimension 2, codac_ConnectedSubset_degree.cpp 149-154 *)
Definition sign2 (F : box -> box) (b : box) : list Z := map sign_of (F b).
(** Loop of codac_ConnectedSubset_degree.cpp 167-172 *)
Fixpoint merge_signs (s sj : list Z) : option (list Z) :=
  match s, sj with
  | s, [] => Some s
  | [], _ :: _ => None
  | a :: s, b :: sj =>
      match merge_signs s sj with
      | Some r => if Z.eqb b 0 then Some (a :: r)
                  else if negb (Z.eqb a 0) && negb (Z.eqb a b) then None
                  else Some (b :: r)
      | None => None
      end
  end.
(** Loop of codac_ConnectedSubset_degree.cpp 162-173; [sg] is the recursive call *)
Fixpoint merge_cofaces (sg : box -> option (list Z)) (dim : nat) (l : list box) (s : list Z) : option (list Z) :=
  match l with
  | [] => Some s
  | c :: l =>
      if Nat.eqb (box_dimension c) (S dim) then
        match sg c with
        | Some sj => match merge_signs s sj with Some s => merge_cofaces sg dim l s | None => None end
        | None => None
        end
      else None
  end.
(** case 1 of get_cofaces, codac_ConnectedSubset_degree.cpp 222-229; [root] is get_paving() *)
Definition edge_cofaces (root : pav) (b : box) : option (list box) :=
  match intersecting_nd V_OUT b root with [n] => Some [c_box n] | _ => None end.
(** [bi.intersects(b) && (common_cocoface & bi).max_diam() != 0.], codac_ConnectedSubset_degree.cpp 201 and 207: the common coface
    and [bi] share the vertex [b], max_diam is not called on an empty box *)
Definition along (b common bi : box) : bool := b_intersects bi b && negb (is_point (b_inter common bi)).
(** case 0 of get_cofaces, codac_ConnectedSubset_degree.cpp 195-220; [v_bi] is get_boundary() *)
Definition vertex_cofaces (v_bi : list box) (b common : box) : option (list box) :=
  let v := if Nat.eqb (length (filter (along b common) v_bi)) 2 then filter (along b common) v_bi
           else filter (fun bi => b_intersects bi b) v_bi in
  if Nat.eqb (length v) 2 then Some v else None.
(** sign_vector on an edge, codac_ConnectedSubset_degree.cpp 156-174 *)
Definition sign1 (F : box -> box) (root : pav) (b : box) : option (list Z) :=
  match edge_cofaces root b with
  | Some l => merge_cofaces (fun c => Some (sign2 F c)) 1 l [0; 0]%Z
  | None => None
  end.
(** sign_vector on a vertex, codac_ConnectedSubset_degree.cpp 156-174 *)
Definition sign0 (F : box -> box) (root : pav) (v_bi : list box) (b common : box) : option (list Z) :=
  match vertex_cofaces v_bi b common with
  | Some l => merge_cofaces (sign1 F root) 0 l [0; 0]%Z
  | None => None
  end.
(** ConnectedSubset::all_positive_signs, codac_ConnectedSubset_degree.cpp 66-72 *)
Definition all_positive_signs (s : list Z) : bool := forallb (fun a => Z.eqb a 1) s.
(** compute_local_degree on a vertex, codac_ConnectedSubset_degree.cpp 100-115: n-k-1 is 1 *)
Definition vertex_degree (F : box -> box) (root : pav) (v_bi : list box) (b common : box) : option Z :=
  match sign0 F root v_bi b common with
  | Some s => Some (if negb (Z.eqb (nth 1 s 0%Z) 1) then 0%Z else if all_positive_signs s then 1%Z else 0%Z)
  | None => None
  end.
(** [box_face[i] = box_face[i].lb()] for the component that is not degenerated, codac_ConnectedSubset_degree.cpp 128-129 *)
Definition face_l (b : box) : box := map (fun i => if is_degenerated i then i else match i with Itv l _ => Itv l l | Emp => Emp end) b.
(** [box_face[i] = box_face[i].ub()], codac_ConnectedSubset_degree.cpp 133-134 *)
Definition face_u (b : box) : box := map (fun i => if is_degenerated i then i else match i with Itv _ h => Itv h h | Emp => Emp end) b.
(** compute_local_degree on an edge, codac_ConnectedSubset_degree.cpp 100-140: n-k-1 is 0, one component is not degenerated *)
Definition edge_degree (F : box -> box) (root : pav) (v_bi : list box) (b common : box) : option Z :=
  match sign1 F root b with
  | Some s =>
      if negb (Z.eqb (nth 0 s 0%Z) 1) then Some 0%Z
      else match vertex_degree F root v_bi (face_l b) common, vertex_degree F root v_bi (face_u b) common with
           | Some dl, Some du => Some (- dl + du)%Z
           | _, _ => None
           end
  | None => None
  end.
(** Loop of codac_ConnectedSubset_degree.cpp 53-61; the assertion of line 55 is needed for [edge_degree] *)
Fixpoint degree_loop (F : box -> box) (root : pav) (v_bi l : list box) (degree : Z) : option Z :=
  match l with
  | [] => Some degree
  | b :: l =>
      if negb (Nat.eqb (box_dimension b) 1) then None
      else match edge_cofaces root b with
           | Some (n :: _) =>
               match edge_degree F root v_bi b n with
               | Some d => degree_loop F root v_bi l (degree + orientation b n 1 * d)%Z
               | None => None
               end
           | _ => None
           end
  end.
(** ConnectedSubset::topological_degree, codac_ConnectedSubset_degree.cpp 38-64, with get_paving (codac_ConnectedSubset.cpp
    47-51); the box of the subset is two-dimensional by construction (line 21) *)
Definition topological_degree (w : list pav) (F : box -> box) (items : list cell) : option Z :=
  match items with
  | [] => None
  | it :: _ =>
      match lookup (c_root it) w with
      | None => None
      | Some root =>
          if negb (strictly_included (subset_box items) (c_box (p_cell root))) then Some 0%Z
          else match get_boundary w items with
               | Some v_bi => if Nat.ltb (length v_bi) 4 then None else degree_loop F root v_bi v_bi 0
               | None => None
               end
      end
  end.
(** ConnectedSubset::zero_proven, codac_ConnectedSubset_degree.cpp 22-25 *)
Definition zero_proven (w : list pav) (F : box -> box) (items : list cell) : option bool :=
  option_map (fun d => negb (Z.eqb d 0)) (topological_degree w F items).
(** ConnectedSubset::zeros_number, codac_ConnectedSubset_degree.cpp 27-36; [nonsing] is the result of non_singular_jacobian *)
Definition zeros_number (w : list pav) (F : box -> box) (nonsing : bool) (items : list cell) : option Z :=
  match topological_degree w F items with
  | Some d => Some (if nonsing then Z.abs d else (-1)%Z)
  | None => None
  end.
