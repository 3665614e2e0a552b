(** * Property C85: exchanges with NTL (mat.h) *)
From Coq Require Import ZArith Lia List Bool Arith Znumtheory.
From Verif Require Import Base Spec Mat MatOps Ntl.
Import ListNotations.
Local Open Scope Z_scope.

(** the conversions between mpz_t and ZZ keep the absolute value and lose the sign; they are exact on non-negative
    integers only *)
Theorem C85_magnitude : forall n, mpztozz n = Z.abs n /\ zztompz n = Z.abs n /\
  (zztompz (mpztozz n) = n <-> 0 <= n).
Proof. intros n. rewrite mpztozz_abs, !zztompz_abs. repeat split; lia. Qed.

(** with a prime p from next2prime(p, bits) that is the current modulus, the matrix sent to ZZ_p and read back has, entry by
    entry, the integer congruent modulo p in [2^bits - p, 2^bits): it is the matrix itself exactly when its entries are in
    that range, in particular when they are at most 2^bits - 1 in absolute value *)
Theorem C85_modular_round_trip : forall bits p A, 0 <= bits -> next2prime bits p ->
  let B := ntlp_to_zzmat p bits (zzmat_to_ntlp p p A) in
  dr B = dr A /\ dc B = dc A /\
  (forall i j, (i < dr A)%nat -> (j < dc A)%nat ->
     (p | fn (de B) i j - fn (de A) i j) /\ 2 ^ bits - p <= fn (de B) i j < 2 ^ bits) /\
  (meq (dr A) (dc A) (fn (de B)) (fn (de A)) <->
   forall i j, (i < dr A)%nat -> (j < dc A)%nat -> 2 ^ bits - p <= fn (de A) i j < 2 ^ bits) /\
  ((forall i j, (i < dr A)%nat -> (j < dc A)%nat -> Z.abs (fn (de A) i j) < 2 ^ bits) -> meq (dr A) (dc A) (fn (de B)) (fn (de A))).
Proof.
  intros bits p A Hb [Pp Hp]. cbv zeta. split; [reflexivity|]. split; [reflexivity|].
  assert (P2 : 2 ^ (bits + 1) = 2 * 2 ^ bits) by (rewrite Z.pow_add_r by lia; lia).
  assert (P0 : 0 < 2 ^ bits) by (apply Z.pow_pos_nonneg; lia).
  assert (V : forall i j, (i < dr A)%nat -> (j < dc A)%nat ->
     (p | fn (de (ntlp_to_zzmat p bits (zzmat_to_ntlp p p A))) i j - fn (de A) i j) /\
     2 ^ bits - p <= fn (de (ntlp_to_zzmat p bits (zzmat_to_ntlp p p A))) i j < 2 ^ bits).
  { intros i j Hi Hj.
    assert (E : fn (de (ntlp_to_zzmat p bits (zzmat_to_ntlp p p A))) i j =
                let x := fn (de A) i j mod p in if 2 ^ bits <=? x then x - p else x).
    { unfold ntlp_to_zzmat. rewrite fn_de_mtab by assumption. cbv zeta.
      replace (fn (de (zzmat_to_ntlp p p A)) i j) with (fn (de A) i j mod p).
      - pose proof (Z.mod_pos_bound (fn (de A) i j) p ltac:(lia)).
        destruct (Z.eqb_spec (fn (de A) i j mod p) 0) as [->|N]; [reflexivity|]. rewrite zztompz_abs, Z.abs_eq by lia. reflexivity.
      - unfold zzmat_to_ntlp. rewrite fn_de_mtab by assumption. cbv zeta.
        destruct (Z.eqb_spec (fn (de A) i j) 0) as [->|N]; [apply Z.mod_0_l; lia|].
        pose proof (Z.mod_pos_bound (fn (de A) i j) p ltac:(lia)).
        destruct (Z.eqb_spec (fn (de A) i j mod p) 0) as [->|N']; [reflexivity|].
        rewrite mpztozz_abs, Z.abs_eq by lia. symmetry. apply Z.mod_small. lia. }
    rewrite E. cbv zeta.
    pose proof (Z.mod_pos_bound (fn (de A) i j) p ltac:(lia)) as M.
    pose proof (Z.div_mod (fn (de A) i j) p ltac:(lia)) as DM.
    set (a := fn (de A) i j) in *. set (x := a mod p) in *. set (q := a / p) in *.
    destruct (Z.leb_spec (2 ^ bits) x).
    - split; [exists (- q - 1); nia|lia].
    - split; [exists (- q); nia|lia]. }
  set (B := ntlp_to_zzmat p bits (zzmat_to_ntlp p p A)) in *.
  assert (R : forall i j, (i < dr A)%nat -> (j < dc A)%nat -> 2 ^ bits - p <= fn (de A) i j < 2 ^ bits -> fn (de B) i j = fn (de A) i j).
  { intros i j Hi Hj Ra. destruct (V i j Hi Hj) as [[k Dk] Rb]. assert (k = 0) by nia. lia. }
  split; [exact V|]. split.
  - split.
    + intros E i j Hi Hj. rewrite <- (E i j Hi Hj). now apply V.
    + intros H i j Hi Hj. apply R; auto.
  - intros H i j Hi Hj. apply R; auto. specialize (H i j Hi Hj). lia.
Qed.

(** 17 is a prime above 2^(3+1); -7 .. 7 come back, 9 does not *)
Example C85_prime : next2prime 3 17.
Proof.
  split; [|reflexivity]. apply prime_intro; [lia|]. intros n Hn. apply Zgcd_1_rel_prime.
  assert (n = 1 \/ n = 2 \/ n = 3 \/ n = 4 \/ n = 5 \/ n = 6 \/ n = 7 \/ n = 8 \/ n = 9 \/ n = 10 \/ n = 11 \/ n = 12 \/
          n = 13 \/ n = 14 \/ n = 15 \/ n = 16) as H by lia.
  repeat (destruct H as [->|H]; [reflexivity|]). subst. reflexivity.
Qed.
Example C85_case : ntlp_to_zzmat 17 3 (zzmat_to_ntlp 17 17 (mkD 2 2 [[-7; 7]; [0; 9]])) = mkD 2 2 [[-7; 7]; [0; -8]].
Proof. vm_compute. reflexivity. Qed.
Example C85_bytes : bytes_from_mpz (-70000) = [112; 17; 1] /\ mpztozz (-70000) = 70000.
Proof. vm_compute. split; reflexivity. Qed.

Print Assumptions C85_magnitude.
Print Assumptions C85_modular_round_trip.
