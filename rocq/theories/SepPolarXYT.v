(** * SepPolarXYT, the separator of the poses that see a landmark in a sector (src/unsupported/geometry/codac_SepPolarXYT.cpp)

    Simplifications: the boxes of dimension three are triples; the operations of IBEX are known by their contract; the [double] operations on the
    bounds are exact; [M_PI] is a parameter. *)
From Coq Require Import Reals Bool List.
From Verif Require Import Itv Arith Static SepPolar.
Open Scope R_scope.

(** atan2, bwd_atan2, bwd_imod of IBEX, codac_SepPolarXYT.cpp 48-55 *)
Record angles := {
  iatan2 : itv -> itv -> itv;                       (* atan2(y,x) *)
  ibwd_atan2 : itv -> itv -> itv -> itv * itv;      (* bwd_atan2(a,y,x): the new y, x *)
  ibwd_imod : itv -> itv -> R -> itv * itv          (* bwd_imod(x,y,p): the new x, y *)
}.
(** the contract of these functions: [a] is the angle of the point [(r cos a, r sin a)], [r > 0]; [x] and [y] are equal modulo [p]; codac_SepPolarXYT.cpp 48-55 *)
Record angles_ok (A : angles) : Prop := {
  iatan2_in : forall a r X Y, - PI < a <= PI -> 0 < r -> In (r * cos a) X -> In (r * sin a) Y -> In a (iatan2 A Y X);
  ibwd_atan2_in : forall a r T X Y, - PI < a <= PI -> 0 < r -> In a T -> In (r * cos a) X -> In (r * sin a) Y ->
    In (r * sin a) (fst (ibwd_atan2 A T Y X)) /\ In (r * cos a) (snd (ibwd_atan2 A T Y X));
  ibwd_imod_in : forall x y k p X Y, In x X -> In y Y -> x = y + IZR k * p -> In x (fst (ibwd_imod A X Y p)) /\ In y (snd (ibwd_imod A X Y p))
}.

(** a box of dimension three, codac_SepPolarXYT.cpp 65-98 *)
Definition box3 : Type := (itv * itv * itv)%type.

Section SepPolarXYT.
  Variables (E : elem) (A : angles).
  (** [Interval::mid] *)
  Variable mid : itv -> R.
  (** the constant [M_PI] of cmath *)
  Variable M_PI : R.
  (** the landmark, codac_SepPolarXYT.cpp 20 *)
  Variables mx my : R.

  (** set_empty of the three components when one is empty, codac_SepPolarXYT.cpp 60-62, 69-70, 96-97; also the effect of [IntervalVector::operator&=] *)
  Definition norm3 (b : box3) : box3 := let '(x, y, t) := b in if is_empty x || is_empty y || is_empty t then (Emp, Emp, Emp) else b.
  (** [IntervalVector::operator&=], codac_SepPolarXYT.cpp 104-105 *)
  Definition inter3 (b c : box3) : box3 := let '(x, y, t) := b in let '(x', y', t') := c in norm3 (inter x x', inter y y', inter t t').
  (** SepPolarXYT::contract(x,y,theta,rho,phi), codac_SepPolarXYT.cpp 29-63: the new x, y, theta *)
  Definition xyt_contract (x y theta rho phi : itv) : box3 :=
    let dx := isub (ar E) (pt mx) x in
    let dy := isub (ar E) (pt my) y in
    let dx := inter dx (imul (ar E) rho (icos E (iadd (ar E) theta phi))) in
    let dy := inter dy (imul (ar E) rho (isin E (iadd (ar E) theta phi))) in
    let a1 := isqr E dx in
    let a2 := isqr E dy in
    let a3 := iadd (ar E) a1 a2 in
    let a4 := isqr E rho in
    let a4 := inter a4 a3 in
    let a3 := inter a3 a4 in
    let a21 := ibwd_add E a3 a2 a1 in
    let dx := ibwd_sqr E (snd a21) dx in
    let dy := ibwd_sqr E (fst a21) dy in
    let a1 := iatan2 A dy dx in
    let a2 := isub (ar E) a1 theta in
    let a2 := snd (ibwd_imod A phi a2 (2 * M_PI)) in
    let a1 := inter a1 (iadd (ar E) a2 theta) in
    let theta := inter theta (isub (ar E) a1 a2) in
    let d := ibwd_atan2 A a1 dy dx in
    let x := inter x (isub (ar E) (pt mx) (snd d)) in
    let y := inter y (isub (ar E) (pt my) (fst d)) in
    norm3 (x, y, theta).
  (** SepPolarXYT::contractOut, codac_SepPolarXYT.cpp 65-71 *)
  Definition xyt_out (rho theta : itv) (b : box3) : box3 := let '(x, y, t) := b in norm3 (xyt_contract x y t rho theta).
  (** the union, codac_SepPolarXYT.cpp 93-95, of the same component of four boxes *)
  Definition hull4 (a b c d : itv) : itv := hull (hull (hull a b) c) d.
  (** SepPolarXYT::contractIn, codac_SepPolarXYT.cpp 74-98, with the members of the constructor, 21-26; line 95 is an assignment *)
  Definition xyt_in (rho theta : itv) (b : box3) : box3 :=
    let limit := mid theta - M_PI in
    let rho_m := upto 0 rho in
    let rho_p := above rho in
    let theta_m := upto limit theta in
    let theta_p := downto theta (limit + 2 * M_PI) in
    let cmpl := bnd 0 (2 * M_PI) in
    let '(x, y, t) := b in
    let '(x1, y1, t1) := xyt_contract x y t POS theta_m in
    let '(x2, y2, t2) := xyt_contract x y t POS theta_p in
    let '(x3, y3, t3) := xyt_contract x y t rho_m cmpl in
    let '(x4, y4, t4) := xyt_contract x y t rho_p cmpl in
    norm3 (inter x (hull4 x1 x2 x3 x4), inter y (hull4 y1 y2 y3 y4), hull4 t1 t2 t3 t4).
  (** SepPolarXYT::separate, codac_SepPolarXYT.cpp 100-109: the new (x_in, x_out) *)
  Definition xyt_separate (rho theta : itv) (x_in x_out : box3) : box3 * box3 :=
    let x_out := inter3 x_out x_in in
    let x_in := inter3 x_in x_out in
    (xyt_in rho theta x_in, xyt_out rho theta x_out).
End SepPolarXYT.
