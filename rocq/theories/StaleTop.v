(** * A reduced object can be re-assigned: when the next matrix has no more rows than the basis just
    reduced, the object is ready for another exact reduction *)
From Coq Require Import ZArith Lia List Bool Arith.
From Verif Require Import Base Spec Mat FP Hlll IntSteps HlllInt Safety Structure Fresh Cache Cache2 Cache3 Cache4 Cache5 Cache6 Cache7 Stale.
Import ListNotations.

Section Top.
Context {F : Type} (fp : fpops F).
Hypothesis EX : expo_nonneg fp.
Notation fz := (fzero fp).

(** the floating-point copy is zero wherever the rows of the basis from there on are zero *)
Definition copyzero (L : lattice F) : Prop :=
  forall j i, j < cd (lcfg L) -> i < cn (lcfg L) ->
    (forall i', i <= i' < cn (lcfg L) -> forall j', j' < cd (lcfg L) -> fn (iB (li L)) i' j' = 0%Z) ->
    mget fz (fBfp (lf L)) i j = fz.

Lemma hlll_copy L fuel delta vb junk L' : zero_laws fp -> ready fp L -> (cseysen (lcfg L) < 1)%Z ->
  zrows fp (lcfg L) (iS (li L)) (lf L) -> 2 <= cd (lcfg L) ->
  hlll fp fuel delta vb junk L = Ok (0%Z, L') -> (nblov (lc L') < cnblov_max (lcfg L))%Z ->
  forall j i, j < cd (lcfg L) -> i < cn (lcfg L) -> 
    mget fz (fBfp (lf L')) i j = fset_z fp (fn (iB (li L')) i j).
Proof.
  intros ZL Rdy SEY ZR D2 H NB. pose proof Rdy as (CK & G & W1 & Z1). pose proof ZL as (Z0 & _).
  pose proof H as Hh. rewrite <- hlll_g_real in H. unfold hlll_g in H. binv H. destruct a as [[[rv s] f] q]. injection H as -> <-.
  unfold hlll in Hh. binv Hh. destruct a as [[[rv' s'] f'] q']. injection Hh as -> -> -> ->.
  set (q0 := if vb then _ else _) in *. set (c := lcfg L) in *. cbn [lc li lf lcfg] in *.
  assert (Wg : gwf c (hlll_reset c (lf L))) by (destruct W1; split; assumption).
  assert (X1 : relx c (lf L) (hlll_reset c (lf L))) by (right; right; reflexivity).
  pose proof (loop_vs_ref fp EX c (householder_r fp c) (li L) (lf L) _ fuel delta vb junk junk q0 (hr_sim_real fp c) CK G W1 Wg X1 Z1) as A1.
  rewrite Ha in A1.
  destruct (hlll_loop_g fp c (hr_ref fp) fuel delta vb (li L) _ 1 _ _ _) as [[[[r' s'] g] q']| |] eqn:ER; try contradiction.
  cbn [rsim finrel] in A1. destruct A1 as (<- & <- & <- & G' & R1).
  destruct (R1 D2 eq_refl NB) as (_ & CO).
  apply (hlll_loop_zrows fp c SEY) in Ha0 as (_ & ZZ); auto.
  2:{ apply (b_mono c (li L)), G. } 2:{ apply (b_len c (li L)), G. }
  intros j i Hj Hi. destruct (Nat.lt_ge_cases i (nth j (iS s) 0)) as [Hl|Hl].
  - destruct (CO j Hj) as (CO1 & _). rewrite CO1 by exact Hl. reflexivity.
  - rewrite ZZ by lia. rewrite (b_zero c s (g_bok c s G') j Hj i) by lia. now rewrite Z0.
Qed.

(** the object after [assign] of a matrix whose zero rows at the bottom are zero rows of the basis the object holds *)
Lemma ready_reassign A L : lsafe (cn (lcfg L)) (cd (lcfg L)) L -> zero_laws fp -> staircase (cn (lcfg L)) (cd (lcfg L)) (fn A) ->
  (forall j i, j < cd (lcfg L) -> nth j (matrix_structure (mtab (cn (lcfg L)) (cd (lcfg L)) (fn A)) (cn (lcfg L)) (cd (lcfg L))) 0 <= i < cn (lcfg L) ->
     mget fz (fBfp (lf L)) i j = fz) ->
  ready fp (assign A L) /\ zrows fp (lcfg L) (iS (li (assign A L))) (lf (assign A L)).
Proof.
  intros (H1 & H2 & H3 & Hs & Hf) ZL ST HZ. unfold ready, assign. cbn [lcfg li lf iS].
  split.
  - split; [congruence|]. split; [now apply sgood_init|]. split.
    + pose proof (fwf_reset _ _ Hf) as W. destruct W.
      split; unfold hlll_reset; setf; auto.
      * now rewrite map_length.
      * intros j Hj K. exfalso. unfold hlll_reset in *. setf.
        rewrite nth_imap with (da := false) in K by (destruct Hf; setf; lia).
        apply Nat.ltb_lt in Hj. rewrite Hj in K. discriminate.
    + right. split; [exact ZL|]. exact HZ.
  - split; [|exact HZ]. destruct Hf. assumption.
Qed.

End Top.
