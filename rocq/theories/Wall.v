(** * Walls of a map and ray casting (src/robotics/objects/codac_Wall.cpp)

    Simplifications: exact arithmetic on vectors of dimension two; a division by zero gives infinite or undefined coordinates, which no
    interval contains, so that the crossing point is [None]. *)

From Coq Require Import Reals Lra Bool List.
From Verif Require Import Itv.
Import ListNotations.
Open Scope R_scope.

(** a point, [Vector] of size 2 in codac_Wall.h 28 *)
Definition point : Type := (R * R)%type.
(** the two ends, codac_Wall.cpp 28-30 *)
Record wall := mkW { w_c1 : point; w_c2 : point }.
(** Wall::contains, codac_Wall.cpp 32-40; the upper bound is a sum of squares: the interval is not empty *)
Definition w_contains (w : wall) (p : point) : bool :=
  let ab := (fst (w_c2 w) - fst (w_c1 w), snd (w_c2 w) - snd (w_c1 w)) in
  let ac := (fst p - fst (w_c1 w), snd p - snd (w_c1 w)) in
  let dp_AB := fst ab * fst ab + snd ab * snd ab in
  let dp_AC := fst ab * fst ac + snd ab * snd ac in
  Rleb 0 dp_AC && Rleb dp_AC dp_AB.
(** operator& of two walls, codac_Wall.cpp 42-54 *)
Definition w_cross (w1 w2 : wall) : option point :=
  let x1 := fst (w_c1 w1) in let x2 := fst (w_c2 w1) in
  let x3 := fst (w_c1 w2) in let x4 := fst (w_c2 w2) in
  let y1 := snd (w_c1 w1) in let y2 := snd (w_c2 w1) in
  let y3 := snd (w_c1 w2) in let y4 := snd (w_c2 w2) in
  let den := (x1 - x2) * (y3 - y4) - (y1 - y2) * (x3 - x4) in
  if Reqb den 0 then None
  else Some (((x1 * y2 - y1 * x2) * (x3 - x4) - (x1 - x2) * (x3 * y4 - y3 * x4)) / den,
             ((x1 * y2 - y1 * x2) * (y3 - y4) - (y1 - y2) * (x3 * y4 - y3 * x4)) / den).
(** the wall [w0], codac_Wall.cpp 58 *)
Definition ray (p : point) (bearing : R) : wall := mkW p (fst p + 999999 * cos bearing, snd p + 999999 * sin bearing).
(** one iteration, codac_Wall.cpp 61-68; [None] is infinity *)
Definition dist_step (p : point) (w0 : wall) (min_dist : option R) (wi : wall) : option R :=
  match w_cross w0 wi with
  | None => min_dist
  | Some pi =>
      if negb (w_contains wi pi) || negb (w_contains w0 pi) then min_dist
      else
        let dist := (fst p - fst pi) ^ 2 + (snd p - snd pi) ^ 2 in
        match min_dist with None => Some dist | Some m => Some (if Rltb dist m then dist else m) end
  end.
(** shorter_dist_to_walls, codac_Wall.cpp 56-71 *)
Definition dist_to_walls (v_walls : list wall) (p : point) (bearing : R) : option R :=
  option_map sqrt (fold_left (dist_step p (ray p bearing)) v_walls None).
(** the values of [a], codac_Wall.cpp 78; at most [n] of them *)
Fixpoint bearings (M_PI : R) (n : nat) (a : R) : list R :=
  match n with
  | O => []
  | S n => if Rltb a (2 * M_PI) then a :: bearings M_PI n (a + 1 / 10) else []
  end.
(** one iteration, codac_Wall.cpp 80-85; [None] is infinity for the distance and an indeterminate value for the bearing *)
Definition contact_step (v_walls : list wall) (p : point) (best : option R * option R) (a : R) : option R * option R :=
  match dist_to_walls v_walls p a, fst best with
  | None, _ => best
  | Some dist, None => (Some dist, Some a)
  | Some dist, Some m => if Rltb dist m then (Some dist, Some a) else best
  end.
(** shorter_contact_to_walls, codac_Wall.cpp 73-89; 100 values are more than enough for the double [M_PI] *)
Definition contact_to_walls (M_PI : R) (v_walls : list wall) (p : point) : option R * option R :=
  fold_left (contact_step v_walls p) (bearings M_PI 100 0) (None, None).
