(** * NullFp: nullspace_fp_hjls (src/nullspace.cc 553-595), on top of restarting_hjls (Restart.v) *)
From Coq Require Import ZArith Lia List Bool Arith Reals Lra.
From Verif Require Import Base Spec SpecReal Mat FP Hlll IntSteps HlllInt LinDep Structure MatOps ZFgas Fgas FgasInt FgasExact NullHjls Hjls Restart.
Import ListNotations.
Local Open Scope nat_scope.

Section Model.
Context {F T : Type}.
(** RT = mpfr_t at precision setprec (560), FT = double (585) *)
Variables (fq : fpops T) (rq : rtops T T) (fp : fpops F) (rf : rtops F F) (conv : T -> F).
Variables (gapF : F -> bool) (epsG : T) (epsF : F) (ubF : Z).

(** maxa, 566-573 *)
Definition nf_max (AZ : dmat) : T :=
  fold_left (fun acc i => fold_left (fun acc j => let t := tabs rq (tofz rq (ent AZ i j)) in if tgt rq t acc then t else acc)
                            (seq 0 (dc AZ)) acc) (seq 0 (dr AZ)) (tzero rq).

(** A := AZ / maxa, 576-582 (the quotients are taken in the order i, j; they are independent) *)
Definition nf_input (AZ : dmat) : mat T :=
  mtab (dr AZ) (dc AZ) (fun i j => tdiv rq (tofz rq (ent AZ i j)) (nf_max AZ)).

(** 553-595.  Result: (the value returned, (the value printed as "nbrel", C)).  nbrel is the value of restarting_hjls,
    printed (588) and dropped: the function returns the constant 0 (591). *)
Definition nullspace_fp_hjls (fuel fh : nat) (gamma : F) (JG : junk_t (F := T)) (JF : junk_t (F := F))
    (jB : nat -> nat -> T) (AZ : dmat) : res (Z * (Z * mat Z)) :=
  let* (nbrel, C) := restarting_hjls fq rq fp rf conv (dr AZ) (dc AZ) 1 gapF epsG epsF ubF fuel fh gamma JG JF jB (nf_input AZ) in
  Ok (0%Z, (nbrel, C)).
End Model.

(** ** the largest absolute value *)
Lemma fmax_spec (rq : rtops R R) (X : rt_exact rq) (g : nat -> Z) l a : (0 <= a)%R ->
  let m := fold_left (fun acc j => let t := tabs rq (tofz rq (g j)) in if tgt rq t acc then t else acc) l a in
  (a <= m)%R /\ (forall j, In j l -> (Rabs (IZR (g j)) <= m)%R) /\
  (m = a \/ exists j, In j l /\ m = Rabs (IZR (g j))).
Proof.
  revert a. induction l as [|x l IH]; intros a Ha; cbv zeta; cbn [fold_left].
  - split; [lra|]. split; [intros j []|now left].
  - set (t := tabs rq (tofz rq (g x))).
    assert (Et : t = Rabs (IZR (g x))) by (unfold t; now rewrite (te_abs _ X), (te_ofz _ X)).
    pose proof (Rabs_pos (IZR (g x))) as Pt.
    assert (Q : let b := if tgt rq t a then t else a in (a <= b)%R /\ (Rabs (IZR (g x)) <= b)%R /\ (b = a \/ b = Rabs (IZR (g x)))).
    { cbv zeta. destruct (tgt rq t a) eqn:E.
      - apply (te_gt _ X) in E. rewrite Et in *. split; [lra|]. split; [lra|now right].
      - assert (~ (t > a)%R) by (intros H; apply (te_gt _ X) in H; congruence). rewrite Et in *. split; [lra|]. split; [lra|now left]. }
    cbv zeta in Q. destruct Q as (Q1 & Q2 & Q3). fold t.
    destruct (IH (if tgt rq t a then t else a) ltac:(lra)) as (I1 & I2 & I3). split; [lra|]. split.
    + intros j [->|Hj]; [lra|now apply I2].
    + destruct I3 as [I3|(j & Hj & I3)].
      * destruct Q3 as [Q3|Q3]; [left; etransitivity; [exact I3|exact Q3]|right; exists x; split; [now left|etransitivity; [exact I3|exact Q3]]].
      * right. exists j. split; [now right|exact I3].
Qed.

Lemma nf_max_spec (rq : rtops R R) (X : rt_exact rq) (AZ : dmat) :
  (0 <= nf_max rq AZ)%R /\ (forall i j, i < dr AZ -> j < dc AZ -> (Rabs (IZR (ent AZ i j)) <= nf_max rq AZ)%R) /\
  (nf_max rq AZ = 0%R \/ exists i j, i < dr AZ /\ j < dc AZ /\ nf_max rq AZ = Rabs (IZR (ent AZ i j))).
Proof.
  unfold nf_max. rewrite (te_zero _ X).
  assert (G : forall l a, (0 <= a)%R ->
    let m := fold_left (fun acc i => fold_left (fun acc j => let t := tabs rq (tofz rq (ent AZ i j)) in if tgt rq t acc then t else acc)
                            (seq 0 (dc AZ)) acc) l a in
    (a <= m)%R /\ (forall i j, In i l -> j < dc AZ -> (Rabs (IZR (ent AZ i j)) <= m)%R) /\
    (m = a \/ exists i j, In i l /\ j < dc AZ /\ m = Rabs (IZR (ent AZ i j)))).
  { induction l as [|x l IH]; intros a Ha; cbv zeta; cbn [fold_left].
    - split; [lra|]. split; [intros i j []|now left].
    - destruct (fmax_spec rq X (ent AZ x) (seq 0 (dc AZ)) a Ha) as (Q1 & Q2 & Q3). cbv zeta in Q1, Q2, Q3.
      destruct (IH _ ltac:(eapply Rle_trans; [exact Ha|exact Q1])) as (I1 & I2 & I3). split; [lra|]. split.
      + intros i j [->|Hi] Hj; [|now apply I2]. eapply Rle_trans; [|exact I1]. apply Q2. apply in_seq. lia.
      + destruct I3 as [I3|(i & j & Hi & Hj & I3)].
        * destruct Q3 as [Q3|(j & Hj & Q3)]; [left; etransitivity; [exact I3|exact Q3]|]. right. exists x, j. apply in_seq in Hj.
          split; [now left|]. split; [lia|etransitivity; [exact I3|exact Q3]].
        * right. exists i, j. split; [now right|]. split; [exact Hj|exact I3]. }
  destruct (G (seq 0 (dr AZ)) 0%R ltac:(lra)) as (G1 & G2 & G3). split; [exact G1|]. split.
  - intros i j Hi Hj. apply G2; [apply in_seq; lia|exact Hj].
  - destruct G3 as [G3|(i & j & Hi & Hj & G3)]; [now left|right]. exists i, j. apply in_seq in Hi. repeat split; [lia|lia|exact G3].
Qed.

Lemma nf_max_pos (rq : rtops R R) (X : rt_exact rq) (AZ : dmat) i j :
  i < dr AZ -> j < dc AZ -> ent AZ i j <> 0%Z -> (0 < nf_max rq AZ)%R.
Proof.
  intros Hi Hj H. destruct (nf_max_spec rq X AZ) as (_ & M & _). specialize (M i j Hi Hj).
  apply IZR_neq, Rabs_pos_lt in H. lra.
Qed.

Lemma nf_prod (rq : rtops R R) (X : rt_exact rq) (DV : forall a b, tdiv rq a b = (a / b)%R) (AZ : dmat) c i : i < dr AZ ->
  sumR (dc AZ) (fun k => mget 0 (nf_input rq AZ) i k * IZR (c k))%R
  = (IZR (sumZ (dc AZ) (fun k => ent AZ i k * c k)%Z) / nf_max rq AZ)%R.
Proof.
  intros Hi. unfold nf_input. unfold Rdiv.
  assert (G : forall m, m <= dc AZ -> sumR m (fun k => mget 0 (nf_input rq AZ) i k * IZR (c k))%R
    = (IZR (sumZ m (fun k => ent AZ i k * c k)%Z) * / nf_max rq AZ)%R).
  { induction m as [|m IH]; intros Hm; cbn [sumR sumZ]; [lra|]. rewrite IH by lia. unfold nf_input.
    rewrite mget_mtab by lia. rewrite DV, (te_ofz _ X), plus_IZR, mult_IZR. unfold Rdiv. ring. }
  apply G. lia.
Qed.
