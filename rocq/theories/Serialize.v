(** * Serialization of intervals, trajectories and tubes

    /repo/src/core/serialize/codac_serialize_intervals.cpp, codac_serialize_trajectories.cpp,
    codac_serialize_tubes.cpp; Tube::serialize and Tube::deserialize,
    /repo/src/core/domains/tube/codac_Tube.cpp 1466-1488 and 1575-1596.

    A stream is a list of bytes.  The representation is the one of a little-endian machine with
    two's complement integers: short int on 2 bytes, int and enum class on 4, double on 8.
    A read beyond the end of the stream sets a flag that is never tested and leaves the variable (not
    initialised before) as it is: the outcome is [Undef], as for a failed assertion.  Streams that are
    not open are not modelled. *)

From Coq Require Import Reals ZArith Bool List.
From Verif Require Import Itv Tube TubeOps Trajectory Double.
Import ListNotations.
Open Scope R_scope.

(** outcome of a reading: a value and the rest of the stream, an exception, or undefined.
    codac_serialize_intervals.cpp 55-91 *)
Inductive res (A : Type) := Ok (a : A) (rest : list Z) | Throw | Undef.
Arguments Ok {A} a rest. Arguments Throw {A}. Arguments Undef {A}.
(** sequence of two statements, as in codac_serialize_intervals.cpp 82-85 *)
Definition bind {A B} (r : res A) (f : A -> list Z -> res B) : res B :=
  match r with Ok a s => f a s | Throw => Throw | Undef => Undef end.

(** bytes of an integer, least significant first: [write((const char* )&z, n)],
    codac_serialize_intervals.cpp 43 *)
Fixpoint le (n : nat) (z : Z) : list Z := match n with O => [] | S n => (z mod 256)%Z :: le n (z / 256)%Z end.
(** the integer of these bytes: codac_serialize_intervals.cpp 61 *)
Fixpoint unle (l : list Z) : Z := match l with [] => 0%Z | b :: l => (b + 256 * unle l)%Z end.
(** [read((char* )&z, n)], codac_serialize_intervals.cpp 61 *)
Definition read (n : nat) (s : list Z) : res Z :=
  if Nat.ltb (length s) n then Undef else Ok (unle (firstn n s)) (skipn n s).
(** the signed integer of [n] bytes, codac_serialize_intervals.cpp 109-110 *)
Definition signed (n : nat) (z : Z) : Z :=
  if (z <? 2 ^ (8 * Z.of_nat n - 1))%Z then z else (z - 2 ^ (8 * Z.of_nat n))%Z.
(** read of a signed integer: codac_serialize_intervals.cpp 109-110 *)
Definition read_int (n : nat) (s : list Z) : res Z := bind (read n s) (fun z s => Ok (signed n z) s).

(** doubles, codac_serialize_intervals.cpp 49-51, 82-84 *)
Definition ser_double (x : xr) : list Z := le 8 (bits_of x).
(** codac_serialize_intervals.cpp 82-84 *)
Definition de_double (s : list Z) : res xr := bind (read 8 s) (fun z s => Ok (of_bits z) s).

(** ** Intervals *)
(** lb() and ub(), codac_serialize_intervals.cpp 49 *)
Definition x_lb (i : itv) : xr := match i with Itv (Some a) _ => XFin a | Itv None _ => XMinf | Emp => XNan end.
(** codac_serialize_intervals.cpp 49 *)
Definition x_ub (i : itv) : xr := match i with Itv _ (Some b) => XFin b | Itv _ None => XPinf | Emp => XNan end.
(** serialize_Interval, codac_serialize_intervals.cpp 21-53; the codes are those of the enum of line 19 *)
Definition ser_itv (i : itv) : list Z :=
  if itv_eqb i Emp then le 4 1
  else if itv_eqb i ALL then le 4 2
  else if itv_eqb i POS then le 4 3
  else if itv_eqb i NEG then le 4 4
  else le 4 0 ++ ser_double (x_lb i) ++ ser_double (x_ub i).
(** Interval(lb,ub) of IBEX, codac_serialize_intervals.cpp 85: empty if lb > ub or if a bound is an infinity of
    the wrong sign.  With a NaN the result depends on the IBEX backend. *)
Definition itv_of (l u : xr) : option itv :=
  match l, u with
  | XNan, _ | _, XNan => None
  | XPinf, _ | _, XMinf => Some Emp
  | XMinf, XPinf => Some ALL
  | XMinf, XFin b => Some (Itv None (Some b))
  | XFin a, XPinf => Some (Itv (Some a) None)
  | XFin a, XFin b => Some (if Rltb b a then Emp else Itv (Some a) (Some b))
  end.
(** deserialize_Interval, codac_serialize_intervals.cpp 55-91 *)
Definition de_itv (s : list Z) : res itv :=
  bind (read_int 4 s) (fun ty s =>
    match ty with
    | 1%Z => Ok Emp s
    | 2%Z => Ok ALL s
    | 3%Z => Ok POS s
    | 4%Z => Ok NEG s
    | 0%Z =>
        bind (de_double s) (fun l s => bind (de_double s) (fun u s =>
          match itv_of l u with Some i => Ok i s | None => Undef end))
    | _ => Throw
    end).

(** [n] successive objects, e.g. codac_serialize_intervals.cpp 112-113 *)
Fixpoint de_list {A} (de : list Z -> res A) (n : nat) (s : list Z) : res (list A) :=
  match n with
  | O => Ok [] s
  | S n => bind (de s) (fun a s => bind (de_list de n s) (fun l s => Ok (a :: l) s))
  end.
(** [short int size = n], codac_serialize_intervals.cpp 98, codac_serialize_trajectories.cpp 102,
    codac_serialize_tubes.cpp 166 *)
Definition short_of (n : nat) : Z := signed 2 (Z.of_nat n mod 2 ^ 16).
(** serialize_IntervalVector, codac_serialize_intervals.cpp 93-102; the loop index is an int, the size a short int *)
Definition ser_box (b : list itv) : list Z :=
  let size := short_of (length b) in le 2 size ++ flat_map ser_itv (firstn (Z.to_nat size) b).
(** deserialize_IntervalVector, codac_serialize_intervals.cpp 104-114; IntervalVector(n) of IBEX asserts n >= 1 *)
Definition de_box (s : list Z) : res (list itv) :=
  bind (read_int 2 s) (fun size s => if (size <? 1)%Z then Undef else de_list de_itv (Z.to_nat size) s).

(** ** Trajectories *)
(** serialize_Trajectory, codac_serialize_trajectories.cpp 20-56; [None]: exception.  The version number is written by
    its first two bytes (29). *)
Definition ser_traj (version : Z) (x : traj) : option (list Z) :=
  match t_fun x with
  | Some _ => None
  | None =>
      if (version =? 2)%Z then
        Some (le 2 version ++ le 4 (Z.of_nat (length (t_map x))) ++
              flat_map (fun kv => ser_double (XFin (fst kv)) ++ ser_double (XFin (snd kv))) (t_map x))
      else None
  end.
(** the loop of deserialize_Trajectory, codac_serialize_trajectories.cpp 81-87.  Simplification: infinite or NaN times
    and values, which have no counterpart in the model of trajectories, are undefined. *)
Fixpoint de_samples (n : nat) (x : traj) (s : list Z) : res traj :=
  match n with
  | O => Ok x s
  | S n =>
      bind (de_double s) (fun t s => bind (de_double s) (fun y s =>
        match t, y with
        | XFin t, XFin y => match traj_set y t x with Some x => de_samples n x s | None => Undef end
        | _, _ => Undef
        end))
  end.
(** deserialize_Trajectory, codac_serialize_trajectories.cpp 58-95 *)
Definition de_traj (s : list Z) : res traj :=
  bind (read_int 2 s) (fun version s =>
    if (version =? 2)%Z then bind (read_int 4 s) (fun n s => de_samples (Z.to_nat n) traj_new s) else Throw).

(** [Some] of all the elements, or an exception as soon as one of them throws: the loops of
    codac_serialize_trajectories.cpp 104-105 and codac_serialize_tubes.cpp 168-169 *)
Fixpoint all_some {A} (l : list (option A)) : option (list A) :=
  match l with
  | [] => Some []
  | Some a :: l => match all_some l with Some r => Some (a :: r) | None => None end
  | None :: _ => None
  end.
(** serialize_TrajectoryVector, codac_serialize_trajectories.cpp 97-106; serialize_TubeVector,
    codac_serialize_tubes.cpp 161-170 *)
Definition ser_vector {A} (ser : A -> option (list Z)) (xs : list A) : option (list Z) :=
  let size := short_of (length xs) in
  match all_some (map ser (firstn (Z.to_nat size) xs)) with
  | Some l => Some (le 2 size ++ concat l)
  | None => None
  end.
(** deserialize_TrajectoryVector, codac_serialize_trajectories.cpp 108-127; deserialize_TubeVector,
    codac_serialize_tubes.cpp 172-192: [new T[size]] throws for a negative size; [copy] is the assignment of
    lines 124 and 189 *)
Definition de_vector {A} (de : list Z -> res A) (copy : A -> A) (s : list Z) : res (list A) :=
  bind (read_int 2 s) (fun size s =>
    if (size <? 0)%Z then Throw
    else bind (de_list de (Z.to_nat size) s) (fun l s => Ok (map copy l) s)).

(** ** Tubes *)
(** serialize_Tube, codac_serialize_tubes.cpp 23-68; [None]: exception, or a tube without slices (58) *)
Definition ser_tube (version : Z) (x : tube) : option (list Z) :=
  if (version =? 2)%Z then
    match x with
    | [] => None
    | s0 :: _ =>
        Some (le 2 version ++ le 4 (Z.of_nat (length x)) ++
              flat_map (fun s => ser_double (XFin (s_lb s))) x ++ ser_double (XFin (tf x)) ++
              flat_map (fun s => ser_itv (s_cod s)) x ++
              ser_itv (s_in s0) ++ flat_map (fun s => ser_itv (s_out s)) x)
    end
  else None.
(** creation of the slices, codac_serialize_tubes.cpp 96-129.  The slices have the codomain [-oo,oo], as their gates;
    Slice::Slice (codac_Slice.cpp 27) asserts a valid domain (codac_DynamicalItem.cpp 23-26): bounded and not degenerate *)
Fixpoint de_slices (n : nat) (lb : R) (s : list Z) : res tube :=
  match n with
  | O => Ok [] s
  | S n =>
      bind (de_double s) (fun u s =>
        match u with
        | XFin ub => if Rltb lb ub then bind (de_slices n ub s) (fun x s => Ok (slice_new lb ub ALL :: x) s) else Undef
        | _ => Undef
        end)
  end.
(** codomains, codac_serialize_tubes.cpp 131-137, from the slice of index [k] *)
Fixpoint de_cods (n k : nat) (x : tube) (s : list Z) : res tube :=
  match n with
  | O => Ok x s
  | S n => bind (de_itv s) (fun y s => de_cods n (S k) (slice_set k y x) s)
  end.
(** output gates, codac_serialize_tubes.cpp 147-151 *)
Fixpoint de_gates (n k : nat) (x : tube) (s : list Z) : res tube :=
  match n with
  | O => Ok x s
  | S n => bind (de_itv s) (fun g s => de_gates n (S k) (set_output_gate k g true x) s)
  end.
(** deserialize_Tube, codac_serialize_tubes.cpp 70-159 *)
Definition de_tube (s : list Z) : res tube :=
  bind (read_int 2 s) (fun version s =>
    if (version =? 2)%Z then
      bind (read_int 4 s) (fun n s =>
        if (n <? 1)%Z then Throw
        else
          let n := Z.to_nat n in
          bind (de_double s) (fun l s =>
            match l with
            | XFin lb =>
                bind (de_slices n lb s) (fun x s =>
                bind (de_cods n 0 x s) (fun x s =>
                bind (de_itv s) (fun g s => de_gates n 0 (set_input_gate 0 g true x) s)))
            | _ => Undef
            end))
    else Throw).

(** ** Files: a tube, and possibly a trajectory *)
(** Tube::serialize, codac_Tube.cpp 1466-1488: a byte 0 separates the two objects (1485) *)
Definition ser_file (x : tube) (y : option traj) : option (list Z) :=
  match ser_tube 2 x with
  | None => None
  | Some l =>
      match y with
      | None => Some l
      | Some y => match ser_traj 2 y with Some l' => Some (l ++ 0%Z :: l') | None => None end
      end
  end.
(** Tube::deserialize, codac_Tube.cpp 1575-1596: the tube is copied (1584), a byte is read (1586); at the end of the
    file there is no trajectory (1591-1592) *)
Definition de_file (s : list Z) : res (tube * option traj) :=
  bind (de_tube s) (fun x s =>
    let x := copy_tube x in
    match s with
    | [] => Ok (x, None) []
    | _ :: s => bind (de_traj s) (fun y s => Ok (x, Some y) s)
    end).
