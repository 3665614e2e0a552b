(** * Executable instance: IEEE doubles (Coq primitive floats)

    Used to run the model on concrete matrices (witnesses and examples) and as the subject of
    C92 and C93.  [r + a * b] is rounded twice: the compiler is assumed not to contract it into an
    fma (x86-64 without -mfma).  [rnd] is [rint] (ties to even),
    [get_si_exp] returns the value itself with exponent 0 when it fits in 62 bits
    and otherwise a truncated mantissa with a positive exponent, like fplll's. *)
From Coq Require Import ZArith Floats Bool List.
From Verif Require Import FP.
Import ListNotations.

Definition two52 : float := 4503599627370496%float.
Definition d_rint (x : float) : float :=
  if PrimFloat.ltb (abs x) two52 then
    (if PrimFloat.leb 0 x then (x + two52) - two52 else (x - two52) + two52)%float
  else x.

Definition d_toZ (x : float) : Z :=
  match Prim2SF x with
  | S754_finite s m e =>
      let a := if (0 <=? e)%Z then (Z.pos m * 2 ^ e)%Z else (Z.pos m / 2 ^ (- e))%Z in
      if s then (- a)%Z else a
  | _ => 0%Z
  end.

Definition d_ofZ (z : Z) : float := SF2Prim (binary_normalize 53 1024 z 0 false).

Definition d_gse (x : float) : Z * Z :=
  let z := d_toZ x in
  let e := Z.max 0 (Z.log2 (Z.abs z) + 1 - 62) in
  (Z.quot z (2 ^ e), e)%Z.

Definition dbl : fpops float := mk_fpops float
  0%float 1%float 0.1%float 0.01%float 0x1.5fd7fe1796495p-37%float
  PrimFloat.add PrimFloat.sub PrimFloat.mul PrimFloat.div
  PrimFloat.opp PrimFloat.abs PrimFloat.sqrt d_rint
  (fun r a b => r + a * b)%float
  (fun r a b => r - a * b)%float
  PrimFloat.leb PrimFloat.ltb
  (fun a b => PrimFloat.ltb b a)
  (fun a => negb (PrimFloat.eqb a 0))
  d_ofZ d_gse d_toZ.

Lemma dbl_expo_nonneg : expo_nonneg dbl.
Proof. intros a. cbn. apply Z.le_max_l. Qed.
