(** * Ownership of the analytic expression of a trajectory

    A trajectory object owns its TFunction through the raw pointer m_function.  The model keeps the
    heap of the TFunction blocks and the objects; a program is a list of operations on objects, [None]
    is undefined behaviour (delete of a released block, access to a released block). *)

From Coq Require Import Reals List Arith.
From Verif Require Import Itv Trajectory.
Import ListNotations.

(** the members of a Trajectory object, codac_Trajectory.h 456-465; [o_ana] is m_traj_def_type ==
    ANALYTIC_FNC, [o_ptr = None] is nullptr.  Simplification: addresses are never reused. *)
Record obj := mkO { o_dom : itv; o_cod : itv; o_ana : bool; o_ptr : option nat; o_map : smap }.

(** memory: blocks allocated and not released, next fresh address, objects in scope.
    codac_Trajectory.h 456-465 *)
Record mem := mkM { m_heap : nat -> option tfun; m_next : nat; m_objs : nat -> option obj }.

(** write of a cell of the memory of codac_Trajectory.h 456-465 *)
Definition upd {A} (f : nat -> option A) (i : nat) (v : option A) : nat -> option A :=
  fun j => if Nat.eqb j i then v else f j.

(** the members before any assignment, default member initialisers codac_Trajectory.h 456-465, and
    Trajectory(), codac_Trajectory.cpp 23-27 *)
Definition o_new : obj := mkO Emp Emp false None [].

(** delete m_function: nothing for nullptr, undefined for a released block.
    codac_Trajectory.cpp 88, 100, 392, 417 *)
Definition release (p : option nat) (s : mem) : option mem :=
  match p with
  | None => Some s
  | Some a => match m_heap s a with Some _ => Some (mkM (upd (m_heap s) a None) (m_next s) (m_objs s)) | None => None end
  end.
(** new TFunction(f), codac_Trajectory.cpp 35, 101 *)
Definition alloc (f : tfun) (s : mem) : nat * mem :=
  (m_next s, mkM (upd (m_heap s) (m_next s) (Some f)) (S (m_next s)) (m_objs s)).
(** access to *m_function, codac_Trajectory.cpp 101, 156 *)
Definition deref (p : option nat) (s : mem) : option tfun := match p with Some a => m_heap s a | None => None end.

(** writing the members of an object (no code of its own); codac_Trajectory.h 456-465 *)
Definition put_obj (i : nat) (o : option obj) (s : mem) : mem := mkM (m_heap s) (m_next s) (upd (m_objs s) i o).

(** what the methods of Trajectory read: the expression if the type is ANALYTIC_FNC (156, 194), the map
    otherwise.  codac_Trajectory.cpp 149-180, 182-211.  [None]: access to a released block. *)
Definition view (s : mem) (o : obj) : option traj :=
  if o_ana o then match deref (o_ptr o) s with Some f => Some (mkT (o_dom o) (o_cod o) (Some f) []) | None => None end
  else Some (mkT (o_dom o) (o_cod o) None (o_map o)).

(** operator=, codac_Trajectory.cpp 91-113, on the object [i]; the members of [x] are read when the
    statement reads them: *x.m_function (101) is read after the delete (100), and [x] may be the same
    object *)
Definition assign (i j : nat) (s : mem) : option mem :=
  match m_objs s i, m_objs s j with
  | Some o, Some x =>
      if o_ana x then
        match release (o_ptr o) s with
        | Some s1 =>
            match deref (o_ptr x) s1 with
            | Some f => let (a, s2) := alloc f s1 in
                        Some (put_obj i (Some (mkO (o_dom x) (o_cod x) true (Some a) (o_map o))) s2)
            | None => None
            end
        | None => None
        end
      else Some (put_obj i (Some (mkO (o_dom x) (o_cod x) false (o_ptr o) (o_map x))) s)
  | _, _ => Some s
  end.

(** the operations, codac_Trajectory.cpp 29-113, 374-398 *)
Inductive mop :=
  | MFun (i : nat) (a b : R) (f : tfun)   (* Trajectory i(Interval(a,b), f) *)
  | MMap (i : nat) (m : smap)             (* Trajectory i(m) *)
  | MCopy (i j : nat)                     (* Trajectory i(j) *)
  | MAssign (i j : nat)                   (* i = j *)
  | MSample (i : nat) (dt : R)            (* i.sample(dt) *)
  | MDestroy (i : nat).                   (* end of scope *)

(** One operation.  An operation that the compiler rejects (object not in scope, or declared twice) is
    skipped.
    - Trajectory(tdomain, f), codac_Trajectory.cpp 34-43 (a new block);
    - Trajectory(map), codac_Trajectory.cpp 52-68;
    - Trajectory(const Trajectory&), codac_Trajectory.cpp 29-32: operator= on the default members;
    - operator=, 91-113;
    - sample(dt), 374-398: the type becomes MAP_OF_VALUES and the block is released, m_function keeps
      its value; a failure of the sampling itself (no step, empty domain) is an assertion, skipped;
    - ~Trajectory, 85-89. *)
Definition mexec (s : mem) (op : mop) : option mem :=
  match op with
  | MFun i a b f =>
      match m_objs s i with
      | Some _ => Some s
      | None => let (p, s1) := alloc f s in Some (put_obj i (Some (mkO (bnd a b) (f_itv f (bnd a b)) true (Some p) [])) s1)
      end
  | MMap i m =>
      match m_objs s i with
      | Some _ => Some s
      | None => let x := traj_map m in Some (put_obj i (Some (mkO (t_dom x) (t_cod x) false None (t_map x))) s)
      end
  | MCopy i j =>
      match m_objs s i, m_objs s j with
      | None, Some _ => assign i j (put_obj i (Some o_new) s)
      | _, _ => Some s
      end
  | MAssign i j => assign i j s
  | MSample i dt =>
      match m_objs s i with
      | None => Some s
      | Some o =>
          match view s o with
          | None => None
          | Some x =>
              match traj_sample dt x with
              | None => Some s
              | Some x' =>
                  match (if o_ana o then release (o_ptr o) s else Some s) with
                  | Some s1 => Some (put_obj i (Some (mkO (o_dom o) (o_cod o) false (o_ptr o) (t_map x'))) s1)
                  | None => None
                  end
              end
          end
      end
  | MDestroy i =>
      match m_objs s i with
      | None => Some s
      | Some o =>
          match (if o_ana o then release (o_ptr o) s else Some s) with
          | Some s1 => Some (put_obj i None s1)
          | None => None
          end
      end
  end.
(** a program, the operations of mexec in order (codac_Trajectory.cpp 29-113, 374-398) *)
Fixpoint mrun (l : list mop) (s : mem) : option mem :=
  match l with
  | [] => Some s
  | op :: l => match mexec s op with Some s' => mrun l s' | None => None end
  end.
(** before any object; codac_Trajectory.h 456-465 *)
Definition m_empty : mem := mkM (fun _ => None) 0 (fun _ => None).

(** TrajectoryVector::operator=, codac_TrajectoryVector.cpp 122-136, on the components of the vector [i]:
    the components of [i] are replaced by default trajectories (131), then the ones of [x] are copied
    one by one (132-133), [x] being possibly the same object. *)
Definition vec_assign (i j : nat) (s : nat -> option (list traj)) : nat -> option (list traj) :=
  match s i, s j with
  | Some _, Some x =>
      let s1 := upd s i (Some (repeat traj_new (length x))) in
      match s1 j with Some x' => upd s1 i (Some x') | None => s1 end
  | _, _ => s
  end.
