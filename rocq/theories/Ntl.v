(** * Ntl: exchanges with NTL, src/mat.h 50-82, 2933-3020 (compiled when NTL_GMP_LIP is defined)

    External functions, by their documentation: [mpz_export(..,-1,1,0,0,n)] gives the bytes of |n|, least significant first
    (GMP: "the sign of op is ignored"), none for 0; [mpz_import] and [ZZFromBytes] read them as a non-negative integer;
    [BytesFromZZ(p,a,n)] gives the n low bytes of |a|, [NumBytes(a)] their number; a ZZ_p holds a representative in [0,q),
    q the current modulus. *)
From Coq Require Import ZArith Lia List Bool Arith Znumtheory.
From Verif Require Import Base Spec Mat MatOps Structure.
Import ListNotations.
Local Open Scope Z_scope.

(** the bytes of a >= 0, least significant first; [k] bounds their number *)
Fixpoint bytes (k : nat) (a : Z) : list Z :=
  match k with
  | O => []
  | S k' => if a =? 0 then [] else (a mod 256) :: bytes k' (a / 256)
  end.
Fixpoint of_bytes (l : list Z) : Z := match l with [] => 0 | b :: l' => b + 256 * of_bytes l' end.
Definition nbytes (a : Z) : nat := Z.to_nat (Z.log2 (Z.abs a) / 8 + 1).

(** bytes_from_mpz 50-53, mpz_from_bytes 55-58 *)
Definition bytes_from_mpz (n : Z) : list Z := bytes (nbytes n) (Z.abs n).
Definition mpz_from_bytes (l : list Z) : Z := of_bytes l.
(** mpztozz 61-72 *)
Definition mpztozz (n : Z) : Z := of_bytes (bytes_from_mpz n).
(** zztompz 75-82 *)
Definition zztompz (n : Z) : Z := mpz_from_bytes (bytes (nbytes n) (Z.abs n)).

(** next2prime(p, bits), 2933-2941: mpz_nextprime gives a prime greater than its argument.  [p] is a possible result *)
Definition next2prime (bits p : Z) : Prop := prime p /\ 2 ^ (bits + 1) < p.

(** zzmat_to_ntlp, 2949-2990, entries; [q]: the modulus of ZZ_p at the time of the call *)
Definition zzmat_to_ntlp (q p : Z) (A : dmat) : dmat :=
  mkD (dr A) (dc A) (mtab (dr A) (dc A) (fun i j =>
    let a := fn (de A) i j in
    if a =? 0 then 0
    else let x := a mod p in if x =? 0 then 0 else mpztozz x mod q)).

(** ntlp_to_zzmat, 2995-3025 *)
Definition ntlp_to_zzmat (p bits : Z) (Ap : dmat) : dmat :=
  mkD (dr Ap) (dc Ap) (mtab (dr Ap) (dc Ap) (fun i j =>
    let x := fn (de Ap) i j in
    let a := if x =? 0 then 0 else zztompz x in
    if 2 ^ bits <=? a then a - p else a)).

(** ** Facts *)
Lemma bytes_value k : forall a, 0 <= a < 256 ^ Z.of_nat k -> of_bytes (bytes k a) = a.
Proof.
  induction k as [|k IH]; intros a H.
  - cbn in *. lia.
  - cbn [bytes]. destruct (Z.eqb_spec a 0) as [->|N]; [reflexivity|]. cbn [of_bytes]. rewrite IH.
    + pose proof (Z.div_mod a 256 ltac:(lia)). lia.
    + split; [apply Z.div_pos; lia|]. apply Z.div_lt_upper_bound; [lia|].
      rewrite Nat2Z.inj_succ, Z.pow_succ_r in H by lia. lia.
Qed.

Lemma bytes_range k : forall a b, 0 <= a -> In b (bytes k a) -> 0 <= b < 256.
Proof.
  induction k as [|k IH]; intros a b Ha H; [destruct H|]. cbn [bytes] in H. destruct (a =? 0); [destruct H|].
  destruct H as [<-|H]; [apply Z.mod_pos_bound; lia|]. apply (IH (a / 256)); [apply Z.div_pos; lia|exact H].
Qed.

Lemma nbytes_ok a : 0 <= Z.abs a < 256 ^ Z.of_nat (nbytes a).
Proof.
  split; [lia|]. unfold nbytes. pose proof (Z.log2_nonneg (Z.abs a)). pose proof (Z.div_pos (Z.log2 (Z.abs a)) 8 ltac:(lia) ltac:(lia)).
  rewrite Z2Nat.id by lia. change 256 with (2 ^ 8). rewrite <- Z.pow_mul_r by lia.
  destruct (Z.eq_dec (Z.abs a) 0) as [->|N].
  - reflexivity.
  - destruct (Z.log2_spec (Z.abs a) ltac:(lia)) as [_ L]. eapply Z.lt_le_trans; [exact L|]. apply Z.pow_le_mono_r; [lia|].
    pose proof (Z.div_mod (Z.log2 (Z.abs a)) 8 ltac:(lia)). pose proof (Z.mod_pos_bound (Z.log2 (Z.abs a)) 8 ltac:(lia)). lia.
Qed.

Lemma mpztozz_abs n : mpztozz n = Z.abs n.
Proof. unfold mpztozz, bytes_from_mpz. apply bytes_value, nbytes_ok. Qed.
Lemma zztompz_abs n : zztompz n = Z.abs n.
Proof. unfold zztompz, mpz_from_bytes. apply bytes_value, nbytes_ok. Qed.

Lemma fn_de_mtab r c f i j : (i < r)%nat -> (j < c)%nat -> fn (de (mkD r c (mtab r c f))) i j = f i j.
Proof. intros. cbn [de]. now apply fn_mtab. Qed.
