(** * The transformation matrix alone: getU() is unimodular whatever happens to B *)
From Coq Require Import ZArith Lia List Bool Arith Relations.
From Verif Require Import Base Spec Mat FP Hlll IntSteps HlllInt LinDep Structure Hlll2 Object.
Import ListNotations.

(** a structure vector good for the transformation: entry j is at least j + 1, non-decreasing *)
Definition sok (d : nat) (S : list nat) : Prop :=
  length S = d /\ (forall i j, i <= j < d -> nth i S 0 <= nth j S 0) /\ (forall j, j < d -> j < nth j S 0).

Section U.
Variable c : cfg.
Notation d := (cd c).

Lemma istep_sok s t : istep c s t \/ istepP c s t -> sok d (iS s) -> sok d (iS t).
Proof.
  intros St HS. destruct St as [St|St]; [destruct St as [s0 k i a ? ?|s0 k Hk]|destruct St as [s0 k i a r ? ? ?]];
    destruct HS as (L & M & G); cbn [iS]; try (split; auto; fail).
  unfold swap_i; cbn [iS]. split; [now rewrite lupd_length|]. split.
  - apply (swap_structure c (iS s0) k L M Hk).
  - intros j Hj. rewrite nth_lupd, L. destruct (Nat.eqb_spec j (k - 1)); cbn [andb]; [|now apply G].
    destruct (Nat.ltb_spec (k - 1) d); [|now apply G]. specialize (G k ltac:(lia)). lia.
Qed.

Lemma istep_u s t : ctransf c = true -> sok d (iS s) -> uok c s -> istep c s t \/ istepP c s t ->
  uok c t /\ exists E, unimodular d E /\ meq d d (fn (iU t)) (mmul d (fn (iU s)) E).
Proof.
  intros T HS HU St. destruct St as [St|St]; [destruct St as [s0 k i a Hik Hk|s0 k Hk]|destruct St as [s0 k i a r ? ? ?]];
    destruct HS as (L & M & G).
  - rewrite T. cbn [iU iS].
    assert (Zm : zero_from d (iU s0) i (min d (nth i (iS s0) 0))).
    { intros p Hp. apply HU; lia. }
    split.
    + split; cbn [iU iS].
      * apply wfm_colop, HU.
      * intros j Hj. apply (zero_from_red d d); try apply HU; try lia.
        intros ->. apply zero_from_le with (nth i (iS s0) 0); [apply M; lia|apply HU; lia].
    + exists (elem_add i k (- a)). split; [apply unimodular_elem_add; lia|].
      apply red_mmul; try lia; auto. apply HU.
  - unfold swap_i. rewrite T. cbn [iU iS]. split.
    + split; cbn [iU iS].
      * apply wfm_colswap; [apply HU|lia|lia].
      * intros j Hj. apply (zero_from_swap_struct c d (iU s0) (iS s0) k j); auto; apply HU.
    + exists (elem_swap (k - 1) k). split; [apply unimodular_elem_swap; lia|].
      apply swap_mmul; try lia. apply HU.
  - cbn [iU iS]. split; [split; apply HU|]. exists mid. split; [apply unimodular_id|]. apply meq_sym, mmul_id_r.
Qed.

Lemma isteps_u s t : istepsP c s t -> ctransf c = true -> sok d (iS s) -> uok c s ->
  sok d (iS t) /\ uok c t /\ exists E, unimodular d E /\ meq d d (fn (iU t)) (mmul d (fn (iU s)) E).
Proof.
  intros St T. induction St as [x y H|x|x y z _ H1 _ H2]; intros HS HU.
  - split; [eapply istep_sok; eauto|]. eapply istep_u; eauto.
  - do 2 (split; [assumption|]). exists mid. split; [apply unimodular_id|]. apply meq_sym, mmul_id_r.
  - destruct (H1 HS HU) as (S1 & U1 & V & UV & EV). destruct (H2 S1 U1) as (S2 & U2 & W & UW & EW).
    do 2 (split; [assumption|]). exists (mmul d V W). split; [now apply unimodular_mul|].
    apply meq_trans with (mmul d (fn (iU y)) W); [assumption|].
    apply mmul_mul_r. apply mmul_ext; [assumption|apply meq_refl].
Qed.

Lemma isteps_sok s t : istepsP c s t -> sok d (iS s) -> sok d (iS t).
Proof. induction 1 as [x y H|x|x y z _ H1 _ H2]; eauto using istep_sok. Qed.
End U.

Lemma uok_id c s : sok (cd c) (iS s) -> iU s = id_mat (cd c) -> uok c s.
Proof.
  intros (L & M & G) E. split; rewrite E.
  - apply mtab_wfm.
  - intros j Hj i Hi. rewrite id_mat_fn by lia. apply mid_neq. specialize (G j Hj). lia.
Qed.

Section Obj.
Context {F : Type} (fp : fpops F).
Hypothesis EX : expo_nonneg fp.

(** hlll from any state whose structure is good for U and whose U is the identity *)
Lemma hlll_U fuel delta vb junk L r L' :
  hlll fp fuel delta vb junk L = Ok (r, L') ->
  ctransf (lcfg L) = true -> wfm (cn (lcfg L)) (cd (lcfg L)) (iB (li L)) ->
  sok (cd (lcfg L)) (iS (li L)) -> iU (li L) = id_mat (cd (lcfg L)) ->
  lcfg L' = lcfg L /\ wfm (cn (lcfg L)) (cd (lcfg L)) (iB (li L')) /\ sok (cd (lcfg L)) (iS (li L')) /\
  wfm (cd (lcfg L)) (cd (lcfg L)) (iU (li L')) /\ unimodular (cd (lcfg L)) (fn (iU (li L'))) /\
  unimodular (cd (lcfg L)) (fn (getU L')).
Proof.
  intros H T W HS HI. destruct (hlll_inv fp fuel delta vb junk L r L' EX H W) as (E & P & _).
  destruct (isteps_u (lcfg L) _ _ P T HS (uok_id _ _ HS HI)) as (S' & U' & V & UV & EV).
  assert (X : unimodular (cd (lcfg L)) (fn (iU (li L')))).
  { eapply unimodular_ext; [apply meq_sym; exact EV|]. apply unimodular_mul; [|assumption].
    rewrite HI. eapply unimodular_ext; [apply meq_sym, id_mat_fn|apply unimodular_id]. }
  split; [exact E|]. split; [eapply isteps_wf; eauto|]. split; [exact S'|]. split; [apply U'|]. split; [exact X|].
  unfold getU. rewrite E, T. eapply unimodular_ext; [|exact X]. apply meq_sym, fn_mtab.
Qed.

Lemma sok_structure n d A : staircase n d (fn A) -> sok d (matrix_structure (mtab n d (fn A)) n d).
Proof.
  intros HI. split; [apply ms_length|]. split; [intros; now apply ms_mono|].
  intros j Hj. apply ms_staircase; [|assumption]. eapply staircase_ext; [|exact HI]. apply meq_sym, fn_mtab.
Qed.

End Obj.
