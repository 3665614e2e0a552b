(** * Histories of calls on a [Lattice] with any floating-point matrix class *)
From Coq Require Import ZArith Lia List Bool Arith Relations.
From Verif Require Import Base Spec Mat FP Hlll IntSteps HlllInt LinDep Structure Object HlllM HlllMInt.
Import ListNotations.

Section GHist.
Context {F M : Type} (so : sops F) (mo : mops F M).

(** the calls; [GFloat]: anything that changes only floating-point members (setprec,
    householder, ...) *)
Inductive gcall : Type :=
| GHlll (fuel : nat) (delta : F) (verbose : bool) (junk : F)
| GAssign (A : mat Z)                       (* assign(A), hlll.cc 2091-2117 *)
| GNumS (S : nat) (thr : Z)
| GNblovMax (nb : Z)
| GFloat (f : gst F M).

(** assign(A), hlll.cc 2091-2117 *)
Definition g_assign (A : mat Z) (L : glattice (F := F) (M := M)) : glattice :=
  let c := glcfg L in let f := glf L in
  let B := mtab (cn c) (cd c) (fn A) in
  mkGL c (mkI B (if ctransf c then id_mat (cd c) else iU (gli L)) (matrix_structure B (cn c) (cd c)))
      (put_kmin (map (fun _ => (-1)%Z) (gkmin f)) (g_hlll_reset c f))
      (mkC 0 (nbswaps (glc L)) (vdepth (glc L))).

Definition gexec (q : gcall) (L : glattice) : res glattice :=
  match q with
  | GHlll fuel delta vb junk => let* (_, L') := g_hlll so mo fuel delta vb junk L in Ok L'
  | GAssign A => Ok (g_assign A L)
  | GNumS nS thr => Ok (g_set_num_S nS thr L)
  | GNblovMax nb => Ok (g_set_nblov_max nb L)
  | GFloat f => Ok (mkGL (glcfg L) (gli L) f (glc L))
  end.
Definition grun (qs : list gcall) (L : glattice) : res glattice := mfold gexec qs L.

(** the basis given by the last assign, the first argument if there is none *)
Fixpoint gcurrent (A : zmat) (qs : list gcall) : zmat :=
  match qs with
  | [] => A
  | GAssign A' :: qs' => gcurrent (fn A') qs'
  | _ :: qs' => gcurrent A qs'
  end.
Definition gsingle_thread (qs : list gcall) : Prop := forall nS thr, In (GNumS nS thr) qs -> nS = 1.

(** only the integer part matters for the lemmas of Object.v *)
Definition forget (L : glattice (F := F) (M := M)) : lattice unit :=
  mkL (glcfg L) (gli L) (mkF [] [] [] [] [] [] tt [] 0 [] [] []) (glc L).

Hypothesis EX : gse_nonneg so.

Lemma g_hlll_inv fuel delta vb junk L r L' :
  g_hlll so mo fuel delta vb junk L = Ok (r, L') -> wfm (cn (glcfg L)) (cd (glcfg L)) (iB (gli L)) ->
  glcfg L' = glcfg L /\ istepsP (glcfg L) (gli L) (gli L') /\
  (sequential (glcfg L) -> isteps (glcfg L) (gli L) (gli L')).
Proof.
  intros H Hb. unfold g_hlll in H. binv H. destruct a as [[[r0 s] f] q'].
  injection H as <- <-. cbn [glcfg gli]. split; [reflexivity|].
  eapply (g_hlll_loop_int so mo _ EX); [exact Hb| |exact Ha]; lia.
Qed.

Lemma gexec_dims n d u m q L L' :
  gexec q L = Ok L' -> dims n d u m (forget L) -> bok (glcfg L) (gli L) -> dims n d u m (forget L').
Proof.
  intros H D Hb.
  destruct q; try (cbn [gexec] in H; injection H as <-; exact D).
  cbn [gexec] in H. binv H. destruct a as [r L1]. injection H as <-.
  apply g_hlll_inv in Ha as [E _]; [|apply Hb]. unfold dims, forget in *. cbn [lcfg] in *. rewrite E. exact D.
Qed.

Lemma gassign_pres n d u m A L : dims n d u m (forget L) -> pres n d (fn A) (forget (g_assign A L)).
Proof using Type. intros (H1 & H2 & _). unfold pres, g_assign, forget in *. cbn [li lcfg gli glcfg] in *. rewrite H1, H2. now apply pres_init. Qed.
Lemma gassign_presU n d m A L : dims n d true m (forget L) -> staircase n d (fn A) -> presU n d (fn A) (forget (g_assign A L)).
Proof using Type.
  intros (H1 & H2 & H3 & _) HI. unfold presU, g_assign, forget in *. cbn [li lcfg gli glcfg] in *. rewrite H1, H2, H3. now apply presU_init.
Qed.

Lemma gexec_pres n d u m A q L L' : gexec q L = Ok L' -> dims n d u m (forget L) ->
  pres n d A (forget L) -> pres n d (gcurrent A [q]) (forget L').
Proof.
  intros H D (Hb & V & UV & EV).
  destruct q; cbn [gcurrent] in *; cbn [gexec] in H.
  - binv H. destruct a as [r L1]. injection H as <-.
    apply g_hlll_inv in Ha as (E & P & _); [|apply Hb].
    apply istepsP_bok in P as (Hb' & W & UW & EW); [|assumption].
    destruct D as (H1 & H2 & _). cbn [forget lcfg li] in *. rewrite H1, H2 in *.
    split; [cbn [forget lcfg li]; now rewrite E|]. exists (mmul d V W). split; [now apply unimodular_mul|].
    eapply meq_trans; [eassumption|]. apply mmul_mul_r. apply mmul_ext; [assumption|apply meq_refl].
  - injection H as <-. eapply gassign_pres; eassumption.
  - injection H as <-. split; [|eauto]. eapply bok_cfg; [| |exact Hb]; reflexivity.
  - injection H as <-. split; [|eauto]. eapply bok_cfg; [| |exact Hb]; reflexivity.
  - injection H as <-. split; [exact Hb|eauto].
Qed.

Lemma gcurrent_cons A q qs : gcurrent A (q :: qs) = gcurrent (gcurrent A [q]) qs.
Proof using Type. destruct q; reflexivity. Qed.

Lemma grun_pres n d u m qs :
  forall A L L', grun qs L = Ok L' -> dims n d u m (forget L) -> pres n d A (forget L) ->
  dims n d u m (forget L') /\ pres n d (gcurrent A qs) (forget L').
Proof.
  induction qs as [|q qs IH]; intros A L L' H D P.
  - cbn in H. injection H as <-. auto.
  - cbn [grun mfold] in H. binv H. rename a into L1.
    assert (D1 : dims n d u m (forget L1)) by (eapply gexec_dims; eauto; apply P).
    pose proof (gexec_pres n d u m A q L L1 Ha D P) as P1.
    rewrite gcurrent_cons. eapply IH; eassumption.
Qed.

Lemma gnew_dims f0 n d A u m lg vd : dims n d u m (forget (g_new f0 n d A u m lg vd)).
Proof using Type. repeat split. Qed.
Lemma gnew_pres f0 n d A u m lg vd : pres n d (fn A) (forget (g_new f0 n d A u m lg vd)).
Proof using Type. unfold pres, g_new, forget. cbn [li lcfg glcfg gli]. now apply pres_init. Qed.
Lemma g_getbase_fn n d u m L : dims n d u m (forget L) -> meq n d (fn (g_getbase L)) (fn (iB (gli L))).
Proof using Type. intros (<- & <- & _). apply fn_mtab. Qed.

Theorem grun_lattice f0 n d A u m lg vd qs L :
  grun qs (g_new f0 n d A u m lg vd) = Ok L ->
  same_lattice n d (gcurrent (fn A) qs) (fn (g_getbase L)).
Proof.
  intros H. eapply grun_pres in H as [D (Hb & V & UV & EV)]; [|apply gnew_dims|apply gnew_pres].
  apply same_lattice_unimodular with V; [assumption|].
  eapply meq_trans; [eapply g_getbase_fn; eassumption|assumption].
Qed.

Definition gseqn (L : glattice (F := F) (M := M)) : Prop := sequential (glcfg L).

Lemma gexec_presU n d m A q L L' : gexec q L = Ok L' -> dims n d true m (forget L) -> gseqn L ->
  bok (glcfg L) (gli L) -> (staircase n d A -> presU n d A (forget L)) ->
  (forall nS thr, q = GNumS nS thr -> nS = 1) ->
  gseqn L' /\ bok (glcfg L') (gli L') /\
  (staircase n d (gcurrent A [q]) -> presU n d (gcurrent A [q]) (forget L')).
Proof.
  intros H D SQ Hb HP HS.
  destruct q; cbn [gcurrent] in *; cbn [gexec] in H.
  - binv H. destruct a as [r L1]. injection H as <-.
    apply g_hlll_inv in Ha as (E & PP & P); [|apply Hb]. specialize (P SQ).
    split; [unfold gseqn; now rewrite E|].
    split. { rewrite E. now apply istepsP_bok in PP. }
    intros HI. destruct (HP HI) as (_ & Hu & UU & EU). destruct D as (H1 & H2 & H3 & _).
    cbn [forget lcfg li] in *.
    apply isteps_uok in P as (Hb' & Hu' & W & UW & EW & FW); auto.
    rewrite H1, H2 in *.
    split; [cbn [forget lcfg li]; now rewrite E|]. split; [cbn [forget lcfg li]; now rewrite E|]. split.
    + eapply unimodular_ext; [apply meq_sym, FW|]. now apply unimodular_mul.
    + eapply meq_trans; [exact EW|].
      eapply meq_trans. { apply mmul_ext; [exact EU|apply meq_refl]. }
      intros i j Hi Hj. rewrite mmul_assoc.
      apply (mmul_ext n d d); auto; [apply meq_refl|now apply meq_sym].
  - injection H as <-. split; [exact SQ|]. split; [eapply (gassign_pres _ _ _ _ _ _ D)|]. intros HI.
    eapply gassign_presU; eassumption.
  - injection H as <-. split; [|split].
    + left. cbn. eapply HS. reflexivity.
    + eapply bok_cfg; [| |exact Hb]; reflexivity.
    + intros HI. destruct (HP HI) as (_ & [? ?] & UU & EU).
      split; [|split; [|split; assumption]]; cbn [g_set_num_S forget lcfg li glcfg gli].
      * eapply bok_cfg; [| |exact Hb]; reflexivity.
      * now split.
  - injection H as <-. split; [exact SQ|split].
    + eapply bok_cfg; [| |exact Hb]; reflexivity.
    + intros HI. destruct (HP HI) as (_ & [? ?] & UU & EU).
      split; [|split; [|split; assumption]]; cbn [g_set_nblov_max forget lcfg li glcfg gli].
      * eapply bok_cfg; [| |exact Hb]; reflexivity.
      * now split.
  - injection H as <-. split; [exact SQ|]. split; [exact Hb|]. exact HP.
Qed.

Lemma grun_presU n d m qs :
  forall A L L', grun qs L = Ok L' -> dims n d true m (forget L) -> gseqn L ->
  bok (glcfg L) (gli L) -> (staircase n d A -> presU n d A (forget L)) -> gsingle_thread qs ->
  dims n d true m (forget L') /\ (staircase n d (gcurrent A qs) -> presU n d (gcurrent A qs) (forget L')).
Proof.
  induction qs as [|q qs IH]; intros A L L' H D SQ Hb P HS.
  - cbn in H. injection H as <-. auto.
  - cbn [grun mfold] in H. binv H. rename a into L1.
    assert (D1 : dims n d true m (forget L1)) by (eapply gexec_dims; eauto).
    destruct (gexec_presU n d m A q L L1 Ha D SQ Hb P) as (S1 & Hb1 & P1).
    { intros nS thr ->. apply (HS nS thr). now left. }
    rewrite gcurrent_cons. eapply IH; try eassumption.
    intros nS thr I. apply (HS nS thr). now right.
Qed.

Theorem grun_transform f0 n d A m lg vd qs L :
  grun qs (g_new f0 n d A true m lg vd) = Ok L ->
  staircase n d (gcurrent (fn A) qs) ->
  gsingle_thread qs ->
  unimodular d (fn (g_getU L)) /\
  meq n d (fn (g_getbase L)) (mmul d (gcurrent (fn A) qs) (fn (g_getU L))).
Proof.
  intros H HI HS. eapply grun_presU with (A := fn A) in H as [D HP]; try eassumption.
  - destruct (HP HI) as (Hb & Hu & UU & EU). pose proof D as (H1 & H2 & H3 & H4).
    cbn [forget lcfg li] in *.
    assert (EUU : meq d d (fn (g_getU L)) (fn (iU (gli L)))).
    { unfold g_getU. rewrite H3, H2. apply fn_mtab. }
    split.
    + eapply unimodular_ext; [apply meq_sym, EUU|assumption].
    + eapply meq_trans; [eapply g_getbase_fn; eassumption|].
      eapply meq_trans; [exact EU|]. apply mmul_ext; [apply meq_refl|now apply meq_sym].
  - apply gnew_dims.
  - left. reflexivity.
  - apply (gnew_pres f0 n d A true m lg vd).
  - intros HI'. unfold presU, g_new, forget. cbn [li lcfg glcfg gli]. now apply presU_init.
Qed.

End GHist.
Arguments GHlll {F M}. Arguments GAssign {F M}. Arguments GNumS {F M}. Arguments GNblovMax {F M}. Arguments GFloat {F M}.
