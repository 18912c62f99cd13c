(** * The 64-bit representation of a double

    [double] values written by [ofstream::write] and read by [ifstream::read]
    (/repo/src/core/serialize/codac_serialize_intervals.cpp 49-51 and 82-85,
    codac_serialize_trajectories.cpp 46-47 and 84-85, codac_serialize_tubes.cpp 44-51 and 97-106).
    The value of a double is a real number, an infinity or NaN; the two zeros have the same value. *)

From Coq Require Import Reals ZArith Lia Lra Bool.
From Flocq Require Import Core IEEE754.Binary IEEE754.Bits.
Open Scope R_scope.

(** the value of a [double], codac_serialize_intervals.cpp 49 *)
Inductive xr := XFin (r : R) | XPinf | XMinf | XNan.

(** finite doubles (binary64): codac_serialize_intervals.cpp 49 *)
Definition fexp64 : Z -> Z := FLT_exp (-1074) 53.
(** finite doubles: codac_serialize_intervals.cpp 49 *)
Definition is_double (r : R) : Prop := generic_format radix2 fexp64 r /\ Rabs r < bpow radix2 1024.

(** the double of a given value, and its bits: codac_serialize_intervals.cpp 50-51 *)
Definition float_of (r : R) : binary64 :=
  binary_normalize 53 1024 (eq_refl _) (eq_refl _) BinarySingleNaN.mode_NE
    (Ztrunc (scaled_mantissa radix2 fexp64 r)) (cexp radix2 fexp64 r) false.
(** the bits of a double: codac_serialize_intervals.cpp 50-51 *)
Definition bits_of (x : xr) : Z :=
  match x with
  | XFin r => bits_of_b64 (float_of r)
  | XPinf => bits_of_b64 (B754_infinity 53 1024 false)
  | XMinf => bits_of_b64 (B754_infinity 53 1024 true)
  | XNan => bits_of_b64 (B754_nan 53 1024 false 1 (eq_refl _))
  end.

(** the value of 64 bits: codac_serialize_intervals.cpp 83-84 *)
Definition of_bits (z : Z) : xr :=
  match b64_of_bits z with
  | B754_zero _ _ _ => XFin 0
  | B754_infinity _ _ false => XPinf
  | B754_infinity _ _ true => XMinf
  | B754_nan _ _ _ _ _ => XNan
  | B754_finite _ _ _ _ _ _ as f => XFin (B2R 53 1024 f)
  end.

(** the values that a [double] can have; codac_serialize_intervals.cpp 49 *)
Definition x_ok (x : xr) : Prop := match x with XFin r => is_double r | _ => True end.

Lemma float_of_ok : forall r, is_double r -> B2R 53 1024 (float_of r) = r /\ is_finite 53 1024 (float_of r) = true.
Proof.
  intros r [G B]. unfold float_of.
  pose proof (binary_normalize_correct 53 1024 (eq_refl _) (eq_refl _) BinarySingleNaN.mode_NE
                (Ztrunc (scaled_mantissa radix2 fexp64 r)) (cexp radix2 fexp64 r) false) as C.
  assert (E : F2R (Float radix2 (Ztrunc (scaled_mantissa radix2 fexp64 r)) (cexp radix2 fexp64 r)) = r)
    by (symmetry; exact G).
  rewrite E in C.
  change (SpecFloat.fexp 53 1024) with fexp64 in C.
  rewrite round_generic in C; [|apply BinarySingleNaN.valid_rnd_round_mode|exact G].
  rewrite Rlt_bool_true in C by exact B.
  split; tauto.
Qed.

Lemma of_bits_of : forall x, x_ok x -> of_bits (bits_of x) = x.
Proof.
  intros x H. unfold of_bits, bits_of, b64_of_bits.
  assert (W : forall f : binary64, binary_float_of_bits 52 11 (eq_refl _) (eq_refl _) (eq_refl _) (bits_of_b64 f) = f)
    by (intros f; apply (binary_float_of_bits_of_binary_float 52 11)).
  destruct x as [r| | |]; rewrite W; auto.
  destruct (float_of_ok r H) as [E F].
  destruct (float_of r) as [s|s|s p e|s m e b] eqn:D; cbn in F; try discriminate.
  - cbn in E. congruence.
  - rewrite E. reflexivity.
Qed.

Lemma bits_of_range : forall x, (0 <= bits_of x < 2 ^ 64)%Z.
Proof.
  assert (W : forall f : binary64, (0 <= bits_of_b64 f < 2 ^ 64)%Z).
  { intros f. exact (bits_of_binary_float_range 52 11 (eq_refl _) (eq_refl _) f). }
  intros x. destruct x; apply W.
Qed.

(** integers up to 2^53 are doubles *)
Lemma double_IZR : forall z, (Z.abs z <= 2 ^ 53)%Z -> is_double (IZR z).
Proof.
  intros z H. split.
  - destruct (Z.eq_dec (Z.abs z) (2 ^ 53)) as [E|E].
    + assert (S : (z = 2 ^ 53 \/ z = - 2 ^ 53)%Z) by lia.
      assert (P : generic_format radix2 fexp64 (IZR (2 ^ 53))).
      { replace (IZR (2 ^ 53)) with (bpow radix2 53) by reflexivity.
        apply generic_format_bpow. unfold fexp64, FLT_exp. lia. }
      destruct S; subst z; auto. rewrite opp_IZR. apply generic_format_opp. auto.
    + apply generic_format_FLT. exists (Float radix2 z 0).
      * unfold F2R; cbn. ring.
      * cbn [Fnum]. change (radix2 ^ 53)%Z with (2 ^ 53)%Z. lia.
      * cbn [Fexp]. lia.
  - rewrite <- abs_IZR. apply Rle_lt_trans with (IZR (2 ^ 53)).
    + apply IZR_le. exact H.
    + replace (IZR (2 ^ 53)) with (bpow radix2 53) by reflexivity. apply bpow_lt. lia.
Qed.
(** half-integers too (examples) *)
Lemma double_half : forall z, (Z.abs z < 2 ^ 53)%Z -> is_double (IZR z / 2).
Proof.
  intros z H. split.
  - apply generic_format_FLT. exists (Float radix2 z (-1)).
    + unfold F2R; cbn. lra.
    + cbn [Fnum]. exact H.
    + cbn [Fexp]. lia.
  - unfold Rdiv. rewrite Rabs_mult, <- abs_IZR, (Rabs_right (/ 2)) by lra.
    apply Rle_lt_trans with (IZR (2 ^ 53)).
    + assert (IZR (Z.abs z) <= IZR (2 ^ 53)) by (apply IZR_le; lia).
      assert (0 <= IZR (Z.abs z)) by (apply IZR_le; lia). lra.
    + replace (IZR (2 ^ 53)) with (bpow radix2 53) by reflexivity. apply bpow_lt. lia.
Qed.
