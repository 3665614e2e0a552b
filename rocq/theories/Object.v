(** * API histories of a [Lattice] object, and what they preserve *)
From Coq Require Import ZArith Lia List Bool Arith Relations.
From Verif Require Import Base Spec Mat FP Hlll Hlll2 Hlllp IntSteps HlllInt LinDep Structure.
Import ListNotations.

Section Hist.
Context {F : Type} (fp : fpops F).

(** Calls of the public interface on one object (hlll.h 137-260).
    [fuel] bounds the loops of one call, [junk] is the content of the
    uninitialised local vector prevR (hlll.cc 63). *)
Inductive call :=
| CallHlll (fuel : nat) (delta : F) (verbose : bool) (junk : F)
| CallAssign (A : mat Z)
| CallSetNumS (nS : nat) (thr : Z)
| CallSetNblovMax (nb : Z)
| CallShiftAssign (A : mat Z) (sh : list Z)
| CallIsreduced (fp' : fpops F) (fuel : nat) (delta : F) (junk : F) (J1 J2 : junk_t (F := F))
| CallHlllp (fuel : nat) (c501 delta : F) (dthr : Z) (junk : F).

(** one call; the returned value of hlll is not part of the state *)
Definition exec (q : call) (L : lattice F) : res (lattice F) :=
  match q with
  | CallHlll fuel delta verbose junk => let* (_, L') := hlll fp fuel delta verbose junk L in Ok L'
  | CallAssign A => Ok (assign A L)
  | CallSetNumS nS thr => Ok (set_num_S nS thr L)
  | CallSetNblovMax nb => Ok (set_nblov_max nb L)
  | CallShiftAssign A sh => Ok (shift_assign A sh L)
  | CallIsreduced fp' fuel delta junk J1 J2 =>
      let* (_, _, L') := isreduced fp' fuel delta junk J1 J2 L in Ok L'
  | CallHlllp fuel c501 delta dthr junk => let* (_, L') := hlllp fp fuel c501 delta dthr junk L in Ok L'
  end.

Definition run (qs : list call) (L : lattice F) : res (lattice F) := mfold exec qs L.

(** the matrix the object was last given *)
Fixpoint current (A : zmat) (qs : list call) : zmat :=
  match qs with
  | [] => A
  | CallAssign A' :: qs' => current (fn A') qs'
  | CallShiftAssign A' sh :: qs' => current (fun i j => Z.shiftl (fn A' i j) (nth i sh 0%Z)) qs'
  | _ :: qs' => current A qs'
  end.

(** no call ever selects more than one thread *)
Definition single_thread (qs : list call) : Prop :=
  forall nS thr, In (CallSetNumS nS thr) qs -> nS = 1.

(** the arithmetics used by isreduced (temporary precision) convert to integers sanely *)
Definition precisions_ok (qs : list call) : Prop :=
  forall fp' fuel delta junk J1 J2, In (CallIsreduced fp' fuel delta junk J1 J2) qs -> expo_nonneg fp'.

End Hist.
Arguments CallHlll {F}. Arguments CallAssign {F}. Arguments CallSetNumS {F}. Arguments CallSetNblovMax {F}.
Arguments CallShiftAssign {F}. Arguments CallIsreduced {F}. Arguments CallHlllp {F}.

Section Pres.
Context {F : Type}.

Lemma bok_cfg c c' s : cn c = cn c' -> cd c = cd c' -> bok c s -> bok c' s.
Proof. intros E1 E2 [? ? ? ? ?]. split; rewrite <- ?E1, <- ?E2; auto. intros i j H. apply b_mono. now rewrite E2. Qed.

(** dimensions, flags of the object *)
Definition dims (n d : nat) (forU : bool) (method : Z) (L : lattice F) : Prop :=
  cn (lcfg L) = n /\ cd (lcfg L) = d /\ ctransf (lcfg L) = forU /\ cseysen (lcfg L) = method /\ ckmax (lcfg L) = d.

Definition pres (n d : nat) (A : zmat) (L : lattice F) : Prop :=
  bok (lcfg L) (li L) /\
  exists V, unimodular d V /\ meq n d (fn (iB (li L))) (mmul d A V).

Definition presU (n d : nat) (A : zmat) (L : lattice F) : Prop :=
  bok (lcfg L) (li L) /\ uok (lcfg L) (li L) /\
  unimodular d (fn (iU (li L))) /\ meq n d (fn (iB (li L))) (mmul d A (fn (iU (li L)))).

Lemma hlll_inv (fp : fpops F) fuel delta vb junk L r L' : expo_nonneg fp ->
  hlll fp fuel delta vb junk L = Ok (r, L') -> wfm (cn (lcfg L)) (cd (lcfg L)) (iB (li L)) ->
  lcfg L' = lcfg L /\ istepsP (lcfg L) (li L) (li L') /\
  (sequential (lcfg L) -> isteps (lcfg L) (li L) (li L')).
Proof.
  intros EX H Hb. unfold hlll in H. binv H. destruct a as [[[r0 s] f] q'].
  injection H as <- <-. cbn [lcfg li]. split; [reflexivity|].
  eapply (hlll_loop_int fp _ EX); [exact Hb| |exact Ha]; lia.
Qed.

Lemma hlllp_inv (fp : fpops F) fuel c501 delta dthr junk L r L' : expo_nonneg fp ->
  hlllp fp fuel c501 delta dthr junk L = Ok (r, L') -> wfm (cn (lcfg L)) (cd (lcfg L)) (iB (li L)) ->
  lcfg L' = lcfg L /\ istepsP (lcfg L) (li L) (li L') /\
  (sequential (lcfg L) -> isteps (lcfg L) (li L) (li L')).
Proof.
  intros EX H Hb. unfold hlllp in H. binv H. destruct a as [[[r0 s] f] q'].
  injection H as <- <-. cbn [lcfg li]. split; [reflexivity|].
  eapply (hlllp_loop_int fp EX); [exact Hb| |exact Ha]; lia.
Qed.

Lemma isreduced_inv (fp : fpops F) fuel delta junk J1 J2 L r st L' : expo_nonneg fp ->
  isreduced fp fuel delta junk J1 J2 L = Ok (r, st, L') -> wfm (cn (lcfg L)) (cd (lcfg L)) (iB (li L)) ->
  lcfg L' = lcfg L /\ istepsP (lcfg L) (li L) (li L') /\
  (sequential (lcfg L) -> isteps (lcfg L) (li L) (li L')).
Proof.
  intros EX H Hb. unfold isreduced in H. do 4 binv H. destruct a2 as [r3 L3].
  injection H as <- <- <-. cbn [lcfg li]. split; [reflexivity|].
  apply hlll_inv in Ha2; auto. cbn [lcfg li] in Ha2. apply Ha2.
Qed.

Definition exec_step (c : cfg) (s s' : ist) : Prop := istepsP c s s' /\ (sequential c -> isteps c s s').

(** the calls that work on the current basis *)
Definition reducing (q : call (F := F)) : Prop :=
  match q with CallHlll _ _ _ _ => True | CallIsreduced _ _ _ _ _ _ => True | CallHlllp _ _ _ _ _ => True | _ => False end.

Lemma exec_reducing (fp : fpops F) q L L' : expo_nonneg fp -> precisions_ok [q] -> reducing q ->
  exec fp q L = Ok L' -> bok (lcfg L) (li L) ->
  lcfg L' = lcfg L /\ istepsP (lcfg L) (li L) (li L') /\
  (sequential (lcfg L) -> isteps (lcfg L) (li L) (li L')).
Proof.
  intros EX PR HR H Hb. destruct q; cbn [reducing] in HR; try contradiction; cbn [exec] in H.
  - binv H. destruct a as [r L1]. injection H as <-. eapply hlll_inv; [exact EX|exact Ha|apply Hb].
  - binv H. destruct a as [[r st] L1]. injection H as <-. eapply isreduced_inv; [|exact Ha|apply Hb].
    eapply PR. left. reflexivity.
  - binv H. destruct a as [r L1]. injection H as <-. eapply hlllp_inv; [exact EX|exact Ha|apply Hb].
Qed.

Lemma exec_dims (fp : fpops F) n d u m q L L' : expo_nonneg fp -> precisions_ok [q] ->
  exec fp q L = Ok L' -> dims n d u m L -> bok (lcfg L) (li L) -> dims n d u m L'.
Proof.
  intros EX PR H D Hb.
  destruct q; try (cbn [exec] in H; injection H as <-; exact D);
    eapply exec_reducing in H as [E _]; eauto; try exact I; unfold dims; rewrite E; exact D.
Qed.

Lemma pres_init n d A c U : cn c = n -> cd c = d ->
  let s := mkI (mtab n d (fn A)) U (matrix_structure (mtab n d (fn A)) n d) in
  bok c s /\ exists V, unimodular d V /\ meq n d (fn (iB s)) (mmul d (fn A) V).
Proof.
  intros <- <-. cbv zeta. split.
  - apply bok_init. apply mtab_wfm.
  - exists mid. split; [apply unimodular_id|]. cbn [iB].
    eapply meq_trans; [apply fn_mtab|]. apply meq_sym, mmul_id_r.
Qed.

Lemma presU_init n d A c : cn c = n -> cd c = d -> staircase n d (fn A) ->
  let s := mkI (mtab n d (fn A)) (id_mat d) (matrix_structure (mtab n d (fn A)) n d) in
  bok c s /\ uok c s /\ unimodular d (fn (iU s)) /\ meq n d (fn (iB s)) (mmul d (fn A) (fn (iU s))).
Proof.
  intros <- <- HI. cbv zeta. split; [|split; [|split]].
  - apply bok_init. apply mtab_wfm.
  - apply uok_init. eapply staircase_ext; [|eassumption]. apply meq_sym, fn_mtab.
  - apply unimodular_ext with mid; [|apply unimodular_id]. apply meq_sym, id_mat_fn.
  - cbn [iB iU]. eapply meq_trans; [apply fn_mtab|].
    eapply meq_trans; [apply meq_sym, mmul_id_r|].
    apply mmul_ext; [apply meq_refl|apply meq_sym, id_mat_fn].
Qed.

Lemma pres_meq n d A A' L : meq n d A A' -> pres n d A L -> pres n d A' L.
Proof.
  intros E (Hb & V & UV & EV). split; auto. exists V. split; auto.
  eapply meq_trans; [exact EV|]. apply mmul_ext; [assumption|apply meq_refl].
Qed.
Lemma presU_meq n d A A' L : meq n d A A' -> presU n d A L -> presU n d A' L.
Proof.
  intros E (Hb & Hu & UV & EV). repeat (split; auto).
  eapply meq_trans; [exact EV|]. apply mmul_ext; [assumption|apply meq_refl].
Qed.

Lemma assign_pres n d u m A L : dims n d u m L -> pres n d (fn A) (assign A L).
Proof. intros (H1 & H2 & _). unfold pres, assign. cbn [li lcfg]. rewrite H1, H2. now apply pres_init. Qed.
Lemma assign_presU n d m A L : dims n d true m L -> staircase n d (fn A) -> presU n d (fn A) (assign A L).
Proof.
  intros (H1 & H2 & H3 & _) HI. unfold presU, assign. cbn [li lcfg]. rewrite H1, H2, H3. now apply presU_init.
Qed.

Section Runs.
Variable fp : fpops F.
Hypothesis EX : expo_nonneg fp.

Lemma exec_pres n d u m A q L L' : precisions_ok [q] -> exec fp q L = Ok L' -> dims n d u m L ->
  pres n d A L -> pres n d (current A [q]) L'.
Proof.
  intros PR H D (Hb & V & UV & EV).
  assert (RED : reducing q -> pres n d A L').
  { intros HR. eapply exec_reducing in H as (E & P & _); eauto.
    apply istepsP_bok in P as (Hb' & W & UW & EW); [|assumption].
    destruct D as (H1 & H2 & _). rewrite H1, H2 in *.
    split; [now rewrite E|]. exists (mmul d V W). split; [now apply unimodular_mul|].
    eapply meq_trans; [eassumption|]. apply mmul_mul_r. apply mmul_ext; [assumption|apply meq_refl]. }
  destruct q; cbn [current] in *; try (apply RED; exact I); cbn [exec] in H; injection H as <-.
  - eapply assign_pres; eassumption.
  - split; [|eauto]. eapply bok_cfg; [| |exact Hb]; reflexivity.
  - split; [|eauto]. eapply bok_cfg; [| |exact Hb]; reflexivity.
  - eapply pres_meq; [|eapply assign_pres; eassumption].
    destruct D as (-> & -> & _). apply fn_mtab.
Qed.

Lemma current_cons A q qs : current (F := F) A (q :: qs) = current (current A [q]) qs.
Proof. destruct q; reflexivity. Qed.

Lemma precisions_cons (q : call (F := F)) qs : precisions_ok (q :: qs) -> precisions_ok [q] /\ precisions_ok qs.
Proof.
  intros H. split; intros fp' fuel delta junk J1 J2 I; eapply H.
  - destruct I as [I|[]]. left. exact I.
  - right. exact I.
Qed.

Lemma run_pres n d u m qs : precisions_ok qs ->
  forall A L L', run fp qs L = Ok L' -> dims n d u m L -> pres n d A L ->
  dims n d u m L' /\ pres n d (current A qs) L'.
Proof.
  induction qs as [|q qs IH]; intros PR A L L' H D P.
  - cbn in H. injection H as <-. auto.
  - cbn [run mfold] in H. binv H. rename a into L1. apply precisions_cons in PR as [PR1 PR].
    assert (D1 : dims n d u m L1) by (eapply exec_dims; eauto; apply P).
    pose proof (exec_pres n d u m A q L L1 PR1 Ha D P) as P1.
    rewrite current_cons. eapply IH; eassumption.
Qed.

Lemma new_dims J n d A u m lg vd : dims n d u m (new_lattice fp J n d A u m lg vd).
Proof. repeat split. Qed.

Lemma new_pres J n d A u m lg vd : pres n d (fn A) (new_lattice fp J n d A u m lg vd).
Proof. unfold pres, new_lattice. cbn [li lcfg]. now apply pres_init. Qed.

Lemma getbase_fn n d u m L : dims n d u m L -> meq n d (fn (getbase L)) (fn (iB (li L))).
Proof. intros (<- & <- & _). apply fn_mtab. Qed.

Theorem run_lattice J n d A u m lg vd qs L : precisions_ok qs ->
  run fp qs (new_lattice fp J n d A u m lg vd) = Ok L ->
  same_lattice n d (current (fn A) qs) (fn (getbase L)).
Proof.
  intros PR H. eapply run_pres in H as [D (Hb & V & UV & EV)]; eauto; [|apply new_dims|apply new_pres].
  apply same_lattice_unimodular with V; [assumption|].
  eapply meq_trans; [eapply getbase_fn; eassumption|assumption].
Qed.

(** transformation *)
Definition seqn (L : lattice F) : Prop := sequential (lcfg L).

Lemma exec_presU n d m A q L L' : precisions_ok [q] -> exec fp q L = Ok L' -> dims n d true m L -> seqn L ->
  bok (lcfg L) (li L) -> (staircase n d A -> presU n d A L) ->
  (forall nS thr, q = CallSetNumS nS thr -> nS = 1) ->
  seqn L' /\ bok (lcfg L') (li L') /\
  (staircase n d (current A [q]) -> presU n d (current A [q]) L').
Proof.
  intros PR H D SQ Hb HP HS.
  assert (RED : reducing q -> seqn L' /\ bok (lcfg L') (li L') /\ (staircase n d A -> presU n d A L')).
  { intros HR. eapply exec_reducing in H as (E & PP & P); eauto. specialize (P SQ).
    split; [unfold seqn; now rewrite E|].
    split. { rewrite E. now apply istepsP_bok in PP. }
    intros HI. destruct (HP HI) as (_ & Hu & UU & EU). destruct D as (H1 & H2 & H3 & _).
    apply isteps_uok in P as (Hb' & Hu' & W & UW & EW & FW); auto.
    rewrite H1, H2 in *.
    split; [now rewrite E|]. split; [now rewrite E|]. split.
    + eapply unimodular_ext; [apply meq_sym, FW|]. now apply unimodular_mul.
    + eapply meq_trans; [exact EW|].
      eapply meq_trans. { apply mmul_ext; [exact EU|apply meq_refl]. }
      intros i j Hi Hj. rewrite mmul_assoc.
      apply (mmul_ext n d d); auto; [apply meq_refl|now apply meq_sym]. }
  destruct q; cbn [current] in *; try (apply RED; exact I); cbn [exec] in H; injection H as <-.
  - split; [exact SQ|]. split; [eapply assign_pres; eassumption|]. intros HI.
    eapply assign_presU; eassumption.
  - split; [|split].
    + left. cbn. eapply HS. reflexivity.
    + eapply bok_cfg; [| |exact Hb]; reflexivity.
    + intros HI. destruct (HP HI) as (_ & [? ?] & UU & EU).
      split; [|split; [|split; assumption]]; cbn [set_num_S lcfg li].
      * eapply bok_cfg; [| |exact Hb]; reflexivity.
      * now split.
  - split; [exact SQ|split].
    + eapply bok_cfg; [| |exact Hb]; reflexivity.
    + intros HI. destruct (HP HI) as (_ & [? ?] & UU & EU).
      split; [|split; [|split; assumption]]; cbn [set_nblov_max lcfg li].
      * eapply bok_cfg; [| |exact Hb]; reflexivity.
      * now split.
  - split; [exact SQ|].
    split; [eapply assign_pres; eassumption|]. intros HI.
    assert (E : meq n d (fn (mtab (cn (lcfg L)) (cd (lcfg L)) (fun i j => Z.shiftl (fn A0 i j) (nth i sh 0%Z))))
                  (fun i j => Z.shiftl (fn A0 i j) (nth i sh 0%Z))).
    { destruct D as (-> & -> & _). apply fn_mtab. }
    eapply presU_meq; [exact E|]. eapply assign_presU; [eassumption|].
    eapply staircase_ext; [apply meq_sym; exact E|assumption].
Qed.

Lemma run_presU n d m qs : precisions_ok qs ->
  forall A L L', run fp qs L = Ok L' -> dims n d true m L -> seqn L ->
  bok (lcfg L) (li L) -> (staircase n d A -> presU n d A L) -> single_thread qs ->
  dims n d true m L' /\ (staircase n d (current A qs) -> presU n d (current A qs) L').
Proof.
  induction qs as [|q qs IH]; intros PR A L L' H D SQ Hb P HS.
  - cbn in H. injection H as <-. auto.
  - cbn [run mfold] in H. binv H. rename a into L1. apply precisions_cons in PR as [PR1 PR].
    assert (D1 : dims n d true m L1) by (eapply exec_dims; eauto).
    destruct (exec_presU n d m A q L L1 PR1 Ha D SQ Hb P) as (S1 & Hb1 & P1).
    { intros nS thr ->. apply (HS nS thr). now left. }
    rewrite current_cons. eapply IH; try eassumption.
    intros nS thr I. apply (HS nS thr). now right.
Qed.

Theorem run_transform J n d A m lg vd qs L : precisions_ok qs ->
  run fp qs (new_lattice fp J n d A true m lg vd) = Ok L ->
  staircase n d (current (fn A) qs) ->
  single_thread qs ->
  unimodular d (fn (getU L)) /\
  meq n d (fn (getbase L)) (mmul d (current (fn A) qs) (fn (getU L))).
Proof.
  intros PR H HI HS. eapply run_presU with (A := fn A) in H as [D HP]; try eassumption.
  - destruct (HP HI) as (Hb & Hu & UU & EU). pose proof D as (H1 & H2 & H3 & H4).
    assert (EUU : meq d d (fn (getU L)) (fn (iU (li L)))).
    { unfold getU. rewrite H3, H2. apply fn_mtab. }
    split.
    + eapply unimodular_ext; [apply meq_sym, EUU|assumption].
    + eapply meq_trans; [eapply getbase_fn; eassumption|].
      eapply meq_trans; [exact EU|]. apply mmul_ext; [apply meq_refl|now apply meq_sym].
  - apply new_dims.
  - left. reflexivity.
  - apply (new_pres J n d A true m lg vd).
  - intros HI'. unfold presU, new_lattice. cbn [li lcfg]. now apply presU_init.
Qed.

End Runs.
End Pres.
