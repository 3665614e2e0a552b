(** * Counters of hlll: Lovasz tests, swaps, verbosity depth *)
From Coq Require Import ZArith Lia List Bool Arith.
From Verif Require Import Base Spec Mat FP Hlll IntSteps HlllInt.
Import ListNotations.

Section Cnt.
Context {F : Type} (fp : fpops F) (c : cfg).

Lemma hlll_loop_cnt fuel delta vb s f kappa pk pR q r s' f' q' :
  hlll_loop fp c fuel delta vb s f kappa pk pR q = Ok (r, s', f', q') ->
  1 <= kappa <= ckmax c ->
  (vdepth q' = vdepth q + (if vb then 1 else 0) /\
   nblov q <= nblov q' <= Z.max (nblov q) (cnblov_max c) /\
   nbswaps q <= nbswaps q' /\
   nbswaps q' - nbswaps q <= nblov q' - nblov q /\
   (r = 0 \/ r = -1) /\
   (r = 0 -> nblov q' < cnblov_max c ->
      exists k1 k2, 0 <= k1 /\ 0 <= k2 /\ nbswaps q' - nbswaps q = k1 + k2 /\
        nblov q' - nblov q = Z.of_nat (ckmax c - kappa) + 2 * k2 + k1))%Z.
Proof.
  revert s f kappa pk pR q. induction fuel as [|fuel IH]; intros s f kappa pk pR q H Hk.
  - cbn [hlll_loop] in H. destruct (negb _) eqn:E; [|discriminate]. injection H as <- <- <- <-.
    apply negb_true_iff, andb_false_iff in E. rewrite Nat.ltb_ge, Z.ltb_ge in E.
    destruct vb; cbn [inc_depth nblov nbswaps vdepth];
      repeat (split; [lia|]); intros _ H; exists 0%Z, 0%Z; lia.
  - cbn [hlll_loop] in H. destruct (negb _) eqn:E.
    { injection H as <- <- <- <-.
      apply negb_true_iff, andb_false_iff in E. rewrite Nat.ltb_ge, Z.ltb_ge in E.
      destruct vb; cbn [inc_depth nblov nbswaps vdepth];
        repeat (split; [lia|]); intros _ H; exists 0%Z, 0%Z; lia. }
    apply negb_false_iff, andb_true_iff in E. rewrite Nat.ltb_lt, Z.ltb_lt in E. destruct E as [E1 E2].
    binv H. binv H. destruct a0 as [[s2 f2] failed].
    destruct failed.
    { injection H as <- <- <- <-.
      destruct vb; cbn [inc_depth nblov nbswaps vdepth]; repeat (split; [lia|]); intros; discriminate. }
    binv H. destruct a0 as [lt nt].
    destruct (fle fp lt nt).
    + binv H. binv H. binv H.
      match type of H with context [if ?b then _ else _] => destruct b end.
      * injection H as <- <- <- <-.
        destruct vb; cbn [inc_depth inc_lov nblov nbswaps vdepth]; repeat (split; [lia|]); intros; discriminate.
      * apply IH in H; [|lia]. cbn [inc_lov nblov nbswaps vdepth] in H.
        destruct H as (D1 & D2 & D3 & D4 & D5 & D6).
        repeat (split; [lia|]). intros R N. destruct (D6 R N) as (k1 & k2 & K).
        exists k1, k2. lia.
    + binv H. apply IH in H; [|lia]. cbn [inc_lov inc_swap nblov nbswaps vdepth] in H.
      destruct H as (D1 & D2 & D3 & D4 & D5 & D6).
      repeat (split; [lia|]). intros R N. destruct (D6 R N) as (k1 & k2 & K).
      destruct (Nat.eq_dec kappa 1) as [->|N1].
      * exists (k1 + 1)%Z, k2. replace (max (1 - 1) 1) with 1 in K by reflexivity. lia.
      * exists k1, (k2 + 1)%Z. lia.
Qed.

Lemma hlll_loop_tests fuel delta vb : forall s f kappa pk pR q r s' f' q',
  hlll_loop fp c fuel delta vb s f kappa pk pR q = Ok (r, s', f', q') -> (nblov q' <= nblov q + Z.of_nat fuel)%Z.
Proof.
  assert (ND : forall q, nblov (inc_depth vb q) = nblov q) by (intros; unfold inc_depth; now destruct vb).
  induction fuel as [|fuel IH]; intros s f kappa pk pR q r s' f' q' H; cbn [hlll_loop] in H; destruct (negb _) eqn:E;
    try discriminate; try (injection H as <- <- <- <-; rewrite ND; lia).
  binv H. binv H. destruct a0 as [[s2 f2] failed]. destruct failed.
  { injection H as <- <- <- <-. rewrite ND; lia. }
  binv H. destruct a0 as [lt nt]. destruct (fle fp lt nt).
  - binv H. binv H. binv H. match type of H with context [if ?b then _ else _] => destruct b end.
    + injection H as <- <- <- <-. rewrite ND. cbn [inc_lov nblov]. lia.
    + apply IH in H. cbn [inc_lov nblov] in H. lia.
  - binv H. apply IH in H. cbn [inc_lov inc_swap nblov] in H. lia.
Qed.

End Cnt.

Section Obj.
Context {F : Type} (fp : fpops F).

Lemma hlll_cnt fuel delta vb junk L r L' : hlll fp fuel delta vb junk L = Ok (r, L') -> 1 <= ckmax (lcfg L) ->
  (vdepth (lc L') = vdepth (lc L) /\
   nblov (lc L) <= nblov (lc L') <= Z.max (nblov (lc L)) (cnblov_max (lcfg L)) /\
   nbswaps (lc L) <= nbswaps (lc L') /\
   nbswaps (lc L') - nbswaps (lc L) <= nblov (lc L') - nblov (lc L) /\
   (r = 0 \/ r = -1) /\
   (r = 0 -> nblov (lc L') < cnblov_max (lcfg L) ->
      Z.of_nat (ckmax (lcfg L) - 1) + (nbswaps (lc L') - nbswaps (lc L))
        <= nblov (lc L') - nblov (lc L)
        <= Z.of_nat (ckmax (lcfg L) - 1) + 2 * (nbswaps (lc L') - nbswaps (lc L))))%Z.
Proof.
  intros H K. unfold hlll in H. binv H. destruct a as [[[r0 s] f] q']. injection H as <- <-.
  apply hlll_loop_cnt in Ha; [|lia]. cbn [lc].
  destruct Ha as (D1 & D2 & D3 & D4 & D5 & D6).
  destruct vb; cbn [nblov nbswaps vdepth] in *; repeat (split; [lia|]);
    intros R N; destruct (D6 R N) as (k1 & k2 & X); lia.
Qed.

Lemma hlll_tests fuel delta vb junk L r L' : hlll fp fuel delta vb junk L = Ok (r, L') -> (nblov (lc L') <= nblov (lc L) + Z.of_nat fuel)%Z.
Proof.
  unfold hlll. intros H. binv H. destruct a as [[[r0 s] f] q]. injection H as <- <-. cbn [lc].
  apply hlll_loop_tests in Ha. destruct vb; exact Ha.
Qed.

End Obj.
