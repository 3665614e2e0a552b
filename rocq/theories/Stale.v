(** * What hlll leaves in the floating-point copy of the basis: zeros below the structure, and a copy of
    the basis above it.  Used for objects that are re-assigned and reduced again (lehmer_lll). *)
From Coq Require Import ZArith Lia List Bool Arith.
From Verif Require Import Base Spec Mat FP Hlll IntSteps HlllInt Safety.
Import ListNotations.

Section Stale.
Context {F : Type} (fp : fpops F).
Variable c : cfg.
Notation fz := (fzero fp).
Notation n := (cn c).
Notation d := (cd c).
Hypothesis SEY : (cseysen c < 1)%Z.

(** column j of the copy is zero from the row the structure gives for it *)
Definition zrows (St : list nat) (f : fst_ F) : Prop :=
  wfm n d (fBfp f) /\ forall j i, j < d -> nth j St 0 <= i < n -> mget fz (fBfp f) i j = fz.

Lemma zrows_same St f f' : fBfp f' = fBfp f -> zrows St f -> zrows St f'.
Proof using. unfold zrows. now intros ->. Qed.

Lemma zrows_setcol St f f' kappa b : kappa < d -> nth kappa St 0 <= n ->
  fBfp f' = setcol_z fp (fBfp f) kappa b (nth kappa St 0) -> zrows St f -> zrows St f'.
Proof using.
  intros Hk Hn E (W & Z). unfold zrows. rewrite E. clear E. split.
  { apply wfm_lupd; [assumption|]. rewrite splice_length; rewrite ?map_length, ?seq_length, (wfm_col n d) by assumption; lia. }
  intros j i Hj Hi. unfold setcol_z, mget. rewrite col_lupd, (wfm_length n d (fBfp f) W), (proj2 (Nat.ltb_lt _ _) Hk), andb_true_r.
  destruct (Nat.eqb_spec j kappa) as [->|N]; [|now apply Z].
  rewrite nth_splice by (rewrite map_length, seq_length, (wfm_col n d) by assumption; lia).
  rewrite map_length, seq_length. cbn [Nat.leb andb Nat.add].
  destruct (Nat.ltb_spec i (nth kappa St 0)); [lia|]. now apply Z.
Qed.

Lemma hr_step_bfp kappa nmax dot k f f' : hr_step fp c kappa nmax dot k f = Ok f' -> fBfp f' = fBfp f.
Proof using.
  unfold hr_step. intros H. binv H. binv H. binv H. binv H. binv H. injection H as <-. cbn [set_Rk fBfp].
  destruct (dot k).
  - binv Ha1. binv Ha1. injection Ha1 as <-. reflexivity.
  - injection Ha1 as <-. reflexivity.
Qed.

Lemma hr_loop_bfp kappa nmax dot f f' : hr_loop fp c kappa nmax dot f = Ok f' -> fBfp f' = fBfp f.
Proof using.
  unfold hr_loop. intros H. refine (mfold_inv (fun g => fBfp g = fBfp f) _ _ _ _ _ _ H); [|reflexivity].
  intros k g g' _ E Hs. apply hr_step_bfp in Hs. congruence.
Qed.

Lemma householder_r_zrows s f kappa f' : householder_r fp c s f kappa = Ok f' -> zrows (iS s) f -> zrows (iS s) f'.
Proof using.
  unfold householder_r. intros H Z. binv H. apply Nat.ltb_lt in Hg. binv H. apply Nat.leb_le in Hg0. binv H.
  injection H as <-. apply (zrows_same _ a); [reflexivity|].
  destruct (kappa =? 0).
  - destruct (nth kappa _ false).
    + injection Ha as <-. revert Z. apply zrows_same. reflexivity.
    + binv Ha. injection Ha as <-. revert Z. apply zrows_setcol with (kappa := kappa) (b := col (iB s) kappa); auto.
  - binv Ha. unfold hr_final in Ha. binv Ha. injection Ha as <-. apply (zrows_same _ a0); [reflexivity|].
    destruct (nth kappa _ false).
    + destruct (_ || _)%bool.
      * destruct (_ <? 0)%Z; [discriminate|]. apply hr_loop_bfp in Ha0. revert Z. apply zrows_same. exact Ha0.
      * injection Ha0 as <-. revert Z. apply zrows_same. reflexivity.
    + binv Ha0. apply hr_loop_bfp in Ha0. revert Z. apply zrows_setcol with (kappa := kappa) (b := col (iB s) kappa); auto.
Qed.

Lemma householder_v_bfp f kappa f' : householder_v fp c f kappa = Ok f' -> fBfp f' = fBfp f.
Proof using.
  unfold householder_v. intros H. binv H. binv H. binv H. binv H. destruct (fle fp fz a); injection H as <-; reflexivity.
Qed.

Lemma size_update_step_bfp kappa i s f b s' f' b' :
  size_update_step fp c kappa i (s, f, b) = Ok (s', f', b') -> fBfp f' = fBfp f /\ iS s' = iS s.
Proof using.
  unfold size_update_step. intros H. binv H. binv H. destruct (fnz fp _).
  - destruct (fgse fp _) as [lx ex]. binv H. injection H as <- <- <-. now split.
  - injection H as <- <- <-. now split.
Qed.

Lemma size_update_R_step_bfp kappa i f vx b f' vx' b' :
  size_update_R_step fp c kappa i (f, vx, b) = Ok (f', vx', b') -> fBfp f' = fBfp f.
Proof using.
  unfold size_update_R_step. intros H. binv H. binv H. destruct (fnz fp _).
  - destruct (fgse fp _) as [lx ex]. injection H as <- <- <-. reflexivity.
  - injection H as <- <- <-. reflexivity.
Qed.

Lemma hs_pass_bfp s f vx kappa start s' f' vx' b : hs_pass fp c s f vx kappa start = Ok (s', f', vx', b) ->
  fBfp f' = fBfp f /\ iS s' = iS s.
Proof using.
  unfold hs_pass. intros H. destruct (_ || _)%bool.
  - binv H. destruct a as [[s1 f1] sd]. injection H as <- <- <- <-. unfold size_update in Ha.
    refine (mfold_inv (fun t => fBfp (snd (fst t)) = fBfp f /\ iS (fst (fst t)) = iS s) _ _ _ (s1, f1, sd) _ _ Ha); [|now split].
    intros i [[t1 g1] b1] [[t2 g2] b2] _ (E1 & E2) Hs. cbn [fst snd] in *. apply size_update_step_bfp in Hs as (A & B). split; congruence.
  - binv H. destruct a as [[f1 vx1] sd]. binv H. injection H as <- <- <- <-. split.
    + unfold size_update_R in Ha.
      refine (mfold_inv (fun t => fBfp (fst (fst t)) = fBfp f) _ _ _ (f1, vx1, sd) _ _ Ha); [|reflexivity].
      intros i [[t1 g1] b1] [[t2 g2] b2] _ E1 Hs. cbn [fst snd] in *. apply size_update_R_step_bfp in Hs. congruence.
    + unfold psize_update_B in Ha0. binv Ha0. injection Ha0 as <-. reflexivity.
Qed.

Lemma hs_loop_zrows fuel : forall s f vx pn kappa start s' f' b, hs_loop fp c fuel s f vx pn kappa start = Ok (s', f', b) ->
  zrows (iS s) f -> zrows (iS s) f' /\ iS s' = iS s.
Proof using.
  induction fuel as [|fuel IH]; intros s f vx pn kappa start s' f' b H Z; cbn [hs_loop] in H; [discriminate|].
  binv H. destruct a as [[[s1 f1] vx1] sd]. apply hs_pass_bfp in Ha as (E1 & E2).
  pose proof (zrows_same _ _ f1 E1 Z) as Z1. destruct sd.
  - binv H. apply householder_r_zrows in Ha; [|rewrite E2; revert Z1; apply zrows_same; reflexivity].
    match type of H with context [if ?q then _ else _] => destruct q end.
    + binv H. injection H as <- <- <-. rewrite <- E2. now split.
    + apply IH in H as (A & B); [|exact Ha]. rewrite <- E2. split; congruence.
  - injection H as <- <- <-. now split.
Qed.

Lemma reduce_zrows fuel s f kappa s' f' b : reduce fp c fuel s f kappa = Ok (s', f', b) ->
  zrows (iS s) f -> zrows (iS s) f' /\ iS s' = iS s.
Proof using SEY.
  unfold reduce. rewrite (proj2 (Z.ltb_lt _ _) SEY). unfold hsizereduce. intros H Z. binv H.
  apply householder_r_zrows in Ha; [|exact Z]. now apply hs_loop_zrows in H.
Qed.

Lemma enter_zrows s f kappa f' : hlll_enter fp c s f kappa = Ok f' -> zrows (iS s) f -> zrows (iS s) f'.
Proof using.
  unfold hlll_enter. intros H Z. destruct (kappa =? 1).
  - binv H. apply householder_r_zrows in Ha; [|revert Z; apply zrows_same; reflexivity].
    apply householder_v_bfp in H. revert Ha. now apply zrows_same.
  - injection H as <-. revert Z. apply zrows_same. reflexivity.
Qed.

Lemma swap_zrows s f kappa : smono c (iS s) -> length (iS s) = d -> 1 <= kappa < d -> zrows (iS s) f -> zrows (iS (swap_i c s kappa)) (swap_f fp f kappa).
Proof using.
  intros SM LS Hk (W & Z). unfold zrows. change (fBfp (swap_f fp f kappa)) with (colswap (fBfp f) (kappa - 1) kappa).
  change (iS (swap_i c s kappa)) with (lupd (iS s) (kappa - 1) (nth kappa (iS s) 0)).
  split; [apply wfm_colswap; auto; lia|]. intros j i Hj Hi.
  pose proof (SM (kappa - 1) kappa ltac:(lia)) as M.
  rewrite (mget_colswap fz n d) by (auto; lia). 
  destruct (Nat.eq_dec j (kappa - 1)) as [->|N1].
  - rewrite nth_lupd_eq in Hi by lia. rewrite Nat.eqb_refl. apply Z; lia.
  - rewrite nth_lupd_neq in Hi by auto. replace (j =? kappa - 1) with false by (symmetry; now apply Nat.eqb_neq).
    destruct (Nat.eqb_spec j kappa) as [->|N2]; apply Z; lia.
Qed.

Lemma hlll_loop_zrows fuel delta vb : forall s f kappa pk p q r s' f' q',
  hlll_loop fp c fuel delta vb s f kappa pk p q = Ok (r, s', f', q') -> 1 <= kappa ->
  smono c (iS s) -> length (iS s) = d -> zrows (iS s) f -> zrows (iS s') f'.
Proof using SEY.
  induction fuel as [|fuel IH]; intros s f kappa pk p q r s' f' q' H Hk SM LS Z; cbn [hlll_loop] in H.
  - destruct (negb _); [|discriminate]. injection H as <- <- <- <-. exact Z.
  - destruct (negb _). { injection H as <- <- <- <-. exact Z. }
    binv H. binv H. destruct a0 as [[s2 f2] failed].
    apply enter_zrows in Ha; [|exact Z]. apply reduce_zrows in Ha0 as (Z2 & E2); [|exact Ha]. rewrite <- E2 in Z2, SM, LS.
    destruct failed. { injection H as <- <- <- <-. exact Z2. }
    binv H. destruct a0 as [lt nt]. destruct (fle fp lt nt).
    + binv H. binv H. binv H. apply householder_v_bfp in Ha1.
      pose proof (zrows_same _ _ a0 Ha1 Z2) as Z3.
      match type of H with context [if ?b then _ else _] => destruct b end.
      * injection H as <- <- <- <-. exact Z3.
      * apply IH in H; auto; lia.
    + binv H. apply Nat.ltb_lt in Hg. apply IH in H; auto; try lia.
      * unfold swap_i. cbn [iS]. apply swap_structure; auto. 
      * unfold swap_i. cbn [iS]. now rewrite lupd_length.
      * apply swap_zrows; auto.
Qed.

End Stale.
