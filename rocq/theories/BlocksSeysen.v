(** * The Seysen block loop visits the rows kappa-1, ..., 0 once each *)
From Coq Require Import ZArith Lia List Bool Arith.
From Verif Require Import Base Hlll.
Import ListNotations.

Lemma blocks_cover fuel e kappa : kappa < 2 ^ (e + fuel) ->
  concat (map (fun b => block_rows kappa (fst b) (snd b)) (seysen_blocks fuel (2 ^ e) (kappa mod 2 ^ e) kappa))
  = rev (seq 0 (kappa - kappa mod 2 ^ e)).
Proof.
  revert e. induction fuel as [|fuel IH]; intros e H.
  - rewrite Nat.add_0_r in H. cbn [seysen_blocks map concat]. rewrite Nat.mod_small by assumption.
    now rewrite Nat.sub_diag.
  - cbn [seysen_blocks]. destruct (Nat.leb_spec (2 ^ e) kappa) as [L|L].
    + assert (P : 2 ^ e <> 0) by (apply Nat.pow_nonzero; lia).
      pose proof (Nat.div_mod kappa (2 ^ e) P) as D1.
      pose proof (Nat.mod_upper_bound kappa (2 ^ e) P) as M1.
      pose proof (Nat.div_mod (kappa / 2 ^ e) 2 ltac:(lia)) as D2.
      pose proof (Nat.mod_upper_bound (kappa / 2 ^ e) 2 ltac:(lia)) as M2.
      set (bd := if (kappa / 2 ^ e) mod 2 =? 0 then 0 else 2 ^ e).
      assert (BD : bd = 2 ^ e * ((kappa / 2 ^ e) mod 2)).
      { unfold bd. destruct (Nat.eqb_spec ((kappa / 2 ^ e) mod 2) 0) as [->|N]; [lia|].
        replace ((kappa / 2 ^ e) mod 2) with 1 by lia. lia. }
      assert (E2 : kappa mod 2 ^ (e + 1) = kappa mod 2 ^ e + bd).
      { rewrite Nat.pow_add_r. change (2 ^ 1) with 2. rewrite Nat.mod_mul_r by lia. lia. }
      cbn [map concat fst snd].
      replace (2 ^ e * 2) with (2 ^ (e + 1)) by (rewrite Nat.pow_add_r; reflexivity).
      rewrite <- E2, IH by (replace (e + 1 + fuel) with (e + S fuel) by lia; exact H).
      unfold block_rows.
      assert (LE : kappa mod 2 ^ e + bd <= kappa) by (rewrite <- E2; apply Nat.mod_le, Nat.pow_nonzero; lia).
      replace (kappa - kappa mod 2 ^ e) with ((kappa - kappa mod 2 ^ e - bd) + bd) by lia.
      rewrite seq_app, rev_app_distr, Nat.add_0_l. f_equal.
      all: f_equal; f_equal; lia.
    + cbn [map concat]. rewrite Nat.mod_small by lia. now rewrite Nat.sub_diag.
Qed.

Lemma lt_pow2 n : n < 2 ^ n.
Proof. induction n as [|n IH]; cbn; lia. Qed.

Lemma seysen_rows kappa :
  concat (map (fun b => block_rows kappa (fst b) (snd b)) (seysen_blocks (kappa + 1) 1 0 kappa)) = rev (seq 0 kappa).
Proof.
  pose proof (blocks_cover (kappa + 1) 0 kappa) as H. cbn [Nat.pow] in H.
  rewrite Nat.mod_1_r, Nat.sub_0_r in H. apply H.
  rewrite Nat.add_0_l, Nat.pow_add_r. pose proof (lt_pow2 kappa). cbn; lia.
Qed.
