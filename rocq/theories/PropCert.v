(** * C75, C76: what a 0 return certifies, in any arithmetic; hlllp

    [run] (Object.v) executes a list of calls of the public interface on one object.  The tests
    are those of SpecCert.v, on the matrix that getR returns after the call and with the (rounded)
    operations of the arithmetic. *)
From Coq Require Import ZArith Lia List Bool Arith Floats.
From Verif Require Import Base Spec Mat FP Hlll Hlll2 Hlllp IntSteps HlllInt Structure Object Safety SpecCert Certify Double Examples.
From Verif Require MatOpsFacts.
Import ListNotations.

(** entries of the matrix returned by getR (its lower part is 0) and of the basis *)
Definition Rentry {F} (fp : fpops F) (L : lattice F) (i j : nat) : F := mget (fzero fp) (getR fp (fun _ _ => fzero fp) L) i j.
Definition Bentry {F} (L : lattice F) (i j : nat) : Z := mget 0%Z (getbase L) i j.

(** all the rows where column k of the basis is not zero are among the first l ones *)
Definition height {F} (L : lattice F) (n k l : nat) : Prop := l <= n /\ forall i, l <= i < n -> Bentry L i k = 0%Z.

Section Transfer.
Context {F : Type} (fp : fpops F).

Lemma cert_transfer c501 delta dthr n d u m A L' : d <= n -> dims n d u m L' -> pres n d A L' ->
  certified fp (lcfg L') c501 delta dthr (li L') (fR (lf L')) d ->
  forall k, 1 <= k < d -> lovasz_test fp delta (Rentry fp L') k /\
   ((m < 1)%Z -> (exists i, i < n /\ Bentry L' i k <> 0%Z) ->
      exists l, height L' n k l /\ size_test fp (tolerance fp (fun i => Bentry L' i k) l) (Rentry fp L') k) /\
   ((1 <= m)%Z -> (dthr < Z.of_nat k)%Z -> blocks_test fp c501 (Rentry fp L') k).
Proof.
  intros ND (D1 & D2 & _ & D4 & _) (Hb & _) H k Hk. destruct (H k Hk) as [P1 P2].
  assert (EV : forall i j, i <= j < d -> Rentry fp L' i j = rfun fp (fR (lf L')) i j).
  { intros i j Hij. unfold Rentry, getR, rfun. rewrite D1, D2. rewrite mget_mtab by lia.
    replace (j <? i) with false by (symmetry; apply Nat.ltb_ge; lia).
    replace (i <? min n d) with true by (symmetry; apply Nat.ltb_lt; lia). reflexivity. }
  assert (EB : forall i j, i < n -> j < d -> Bentry L' i j = fn (iB (li L')) i j).
  { intros i j Hi Hj. unfold Bentry, getbase. rewrite D1, D2. now rewrite mget_mtab. }
  split; [|split].
  - destruct P1 as (s & S1 & S2). exists s. rewrite !EV by lia. auto.
  - intros Hm (i0 & Hi0 & NZ). unfold red_cert in P2. rewrite D4 in P2. replace (m <? 1)%Z with true in P2 by (symmetry; apply Z.ltb_lt; lia).
    pose proof (b_zero _ _ Hb k ltac:(lia)) as BZ. pose proof (b_le _ _ Hb k ltac:(lia)) as BL. rewrite D1 in BL.
    set (l := nth k (iS (li L')) 0) in *.
    assert (L1 : 1 <= l).
    { destruct (Nat.eq_dec l 0) as [E|E]; [|lia]. exfalso. apply NZ. rewrite EB by lia.
      rewrite D1 in BZ. rewrite E in BZ. unfold zero_from in BZ. apply BZ; lia. }
    exists l. split.
    + split; [assumption|]. intros i Hi. rewrite EB by lia. unfold zero_from in BZ. apply BZ; lia.
    + specialize (P2 L1). unfold tolerance in *.
      assert (SE : forall q, q <= n -> 1 <= q -> sumsq fp (fun i => fset_z fp (Bentry L' i k)) q = sumsq fp (fun i => fset_z fp (fn (iB (li L')) i k)) q).
      { induction q as [|q IH]; [lia|]. intros Hq _. destruct q as [|q]; cbn [sumsq].
        - rewrite EB by lia. reflexivity.
        - cbn [sumsq] in IH. rewrite IH by lia. rewrite EB by lia. reflexivity. }
      fold l in P2. rewrite SE by lia.
      destruct P2 as [P2|P2]; [left|right]; intros i Hi; rewrite !EV by lia; now apply P2.
  - intros Hm Ht. unfold red_cert in P2. rewrite D4 in P2. replace (m <? 1)%Z with false in P2 by (symmetry; apply Z.ltb_ge; lia).
    replace (dthr <? Z.of_nat k)%Z with true in P2 by (symmetry; apply Z.ltb_lt; lia).
    intros t a e j Hj. specialize (P2 t j Hj). fold e in P2. assert (e <= k) by (unfold e; lia).
    assert (ER : forall q i, i < e - q -> e - q <= e -> residual fp (Rentry fp L') k e q i = residual fp (rfun fp (fR (lf L'))) k e q i).
    { induction q as [|q IH]; intros i Hi _; [cbn [residual]; apply EV; lia|].
      rewrite !residual_eq. rewrite !IH by lia. rewrite !EV by lia. reflexivity. }
    unfold block_coef in *. rewrite ER by lia. rewrite EV by lia. exact P2.
Qed.

End Transfer.

Theorem C75_hlll_certifies :
  forall F (fp : fpops F), expo_nonneg fp ->
  forall J n d A forU method long_flag depth (calls : list (call (F := F))) L fuel delta verbose junk L',
    2 <= d -> d <= n -> precisions_ok calls ->
    run fp calls (new_lattice fp J n d A forU method long_flag depth) = Ok L ->
    hlll fp fuel delta verbose junk L = Ok (0%Z, L') ->
    (nblov (lc L') < cnblov_max (lcfg L'))%Z ->
    forall k, 1 <= k < d ->
      lovasz_test fp delta (Rentry fp L') k /\
      ((method < 1)%Z -> (exists i, i < n /\ Bentry L' i k <> 0%Z) ->
        exists l, height L' n k l /\ size_test fp (tolerance fp (fun i => Bentry L' i k) l) (Rentry fp L') k).
Proof.
  intros F fp EX J n d A u m lg vd qs L fuel delta vb junk L' D2 ND PR HR H HQ k Hk.
  pose proof (run_safe fp n d qs _ ND D2 (new_lsafe fp J n d A u m lg vd)) as S. rewrite HR in S. cbn [safe] in S.
  pose proof H as H0. eapply (hlll_cert fp n d) in H0 as [HC EC]; eauto.
  2:{ pose proof (hlll_safe fp n d fuel delta vb junk L ND S) as S2. rewrite H in S2. destruct S2 as [_ S2]. cbn [snd] in S2. now rewrite S2 in HQ. }
  assert (PR' : precisions_ok (qs ++ [CallHlll fuel delta vb junk])).
  { intros fp' fu de ju J1 J2 I. apply in_app_iff in I as [I|[I|[]]]; [eapply PR; eauto|discriminate]. }
  assert (HR' : run fp (qs ++ [CallHlll fuel delta vb junk]) (new_lattice fp J n d A u m lg vd) = Ok L').
  { unfold run in *. rewrite MatOpsFacts.mfold_app, HR. cbn [mfold bind exec]. rewrite H. reflexivity. }
  eapply run_pres in HR' as [DD PP]; eauto; [|apply new_dims|apply new_pres].
  rewrite <- EC in HC. pose proof (cert_transfer fp _ _ _ n d u m _ L' ND DD PP HC k Hk) as (P1 & P2 & _). auto.
Qed.

(** hlllp(delta, dthreshold): the same, and Seysen's test above the threshold *)
Theorem C76_hlllp_certifies :
  forall F (fp : fpops F), expo_nonneg fp ->
  forall J n d A forU method long_flag depth (calls : list (call (F := F))) L fuel c501 delta dthreshold junk L',
    2 <= d -> d <= n -> precisions_ok calls ->
    run fp calls (new_lattice fp J n d A forU method long_flag depth) = Ok L ->
    hlllp fp fuel c501 delta dthreshold junk L = Ok (0%Z, L') ->
    (nblov (lc L') < cnblov_max (lcfg L'))%Z ->
    forall k, 1 <= k < d ->
      lovasz_test fp delta (Rentry fp L') k /\
      ((method < 1)%Z -> (exists i, i < n /\ Bentry L' i k <> 0%Z) ->
        exists l, height L' n k l /\ size_test fp (tolerance fp (fun i => Bentry L' i k) l) (Rentry fp L') k) /\
      ((1 <= method)%Z -> (dthreshold < Z.of_nat k)%Z -> blocks_test fp c501 (Rentry fp L') k).
Proof.
  intros F fp EX J n d A u m lg vd qs L fuel c501 delta dthr junk L' D2 ND PR HR H HQ k Hk.
  pose proof (run_safe fp n d qs _ ND D2 (new_lsafe fp J n d A u m lg vd)) as S. rewrite HR in S. cbn [safe] in S.
  pose proof H as H0. eapply (hlllp_cert fp n d) in H0 as [HC EC]; eauto.
  2:{ pose proof (hlllp_safe fp n d fuel c501 delta dthr junk L ND S) as S2. rewrite H in S2. destruct S2 as [_ S2]. cbn [snd] in S2. now rewrite S2 in HQ. }
  assert (PR' : precisions_ok (qs ++ [CallHlllp fuel c501 delta dthr junk])).
  { intros fp' fu de ju J1 J2 I. apply in_app_iff in I as [I|[I|[]]]; [eapply PR; eauto|discriminate]. }
  assert (HR' : run fp (qs ++ [CallHlllp fuel c501 delta dthr junk]) (new_lattice fp J n d A u m lg vd) = Ok L').
  { unfold run in *. rewrite MatOpsFacts.mfold_app, HR. cbn [mfold bind exec]. rewrite H. reflexivity. }
  eapply run_pres in HR' as [DD PP]; eauto; [|apply new_dims|apply new_pres].
  rewrite <- EC in HC. exact (cert_transfer fp _ _ _ n d u m _ L' ND DD PP HC k Hk).
Qed.

(** without SEYSEN, or with a threshold that no index passes, hlllp is hlll *)
Theorem C76_hlllp_is_hlll :
  forall F (fp : fpops F), expo_nonneg fp ->
  forall J n d A forU method long_flag depth (calls : list (call (F := F))) L fuel c501 delta dthreshold junk,
    precisions_ok calls ->
    run fp calls (new_lattice fp J n d A forU method long_flag depth) = Ok L ->
    (method < 1)%Z \/ (Z.of_nat d - 1 <= dthreshold)%Z ->
    hlllp fp fuel c501 delta dthreshold junk L = hlll fp fuel delta false junk L.
Proof.
  intros F fp EX J n d A u m lg vd qs L fuel c501 delta dthr junk PR HR H.
  eapply run_pres in HR as [(D1 & D2 & D3 & D4 & D5) _]; eauto; [|apply new_dims|apply new_pres].
  unfold hlllp, hlll. rewrite (hlllp_loop_hlll_v fp (lcfg L) fuel c501 delta dthr false) by (try congruence; rewrite D2, D4; exact H).
  destruct (hlllp_loop _ _ _ _ _ _ _ _ _ _ _ _) as [[[[r s] f] q]| |]; reflexivity.
Qed.

(** hlllp keeps the lattice, tracks the transformation and, for d <= n, never leaves its arrays *)
Theorem C76_hlllp_preserves :
  forall F (fp : fpops F), expo_nonneg fp ->
  forall J n d A forU method long_flag depth (calls : list (call (F := F))) L fuel c501 delta dthreshold junk,
    precisions_ok calls ->
    run fp calls (new_lattice fp J n d A forU method long_flag depth) = Ok L ->
    (2 <= d -> d <= n -> hlllp fp fuel c501 delta dthreshold junk L <> UB) /\
    (forall r L', hlllp fp fuel c501 delta dthreshold junk L = Ok (r, L') ->
      same_lattice n d (current (fn A) calls) (fn (getbase L')) /\
      (forU = true -> independent n d (current (fn A) calls) -> single_thread calls ->
        unimodular d (fn (getU L')) /\ meq n d (fn (getbase L')) (mmul d (current (fn A) calls) (fn (getU L'))))).
Proof.
  intros F fp EX J n d A u m lg vd qs L fuel c501 delta dthr junk PR HR. split.
  - intros D2 ND. pose proof (run_safe fp n d qs _ ND D2 (new_lsafe fp J n d A u m lg vd)) as S. rewrite HR in S. cbn [safe] in S.
    eapply safe_no_UB, (hlllp_safe fp n d fuel c501 delta dthr junk L ND S).
  - intros r L' H.
    assert (PR' : precisions_ok (qs ++ [CallHlllp fuel c501 delta dthr junk])).
    { intros fp' fu de ju J1 J2 I. apply in_app_iff in I as [I|[I|[]]]; [eapply PR; eauto|discriminate]. }
    assert (HR' : run fp (qs ++ [CallHlllp fuel c501 delta dthr junk]) (new_lattice fp J n d A u m lg vd) = Ok L').
    { unfold run in *. rewrite MatOpsFacts.mfold_app, HR. cbn [mfold bind exec]. rewrite H. reflexivity. }
    assert (CU : forall A0 q, current (F := F) A0 (q ++ [CallHlllp fuel c501 delta dthr junk]) = current A0 q).
    { intros A0 q. revert A0. induction q as [|c q IH]; intros A0; [reflexivity|]. destruct c; cbn [current app]; apply IH. }
    split.
    + eapply run_lattice in HR'; eauto. now rewrite CU in HR'.
    + intros -> IN ST. eapply run_transform in HR'; eauto.
      * now rewrite CU in HR'.
      * rewrite CU. now apply independent_staircase.
      * intros nS thr I. apply in_app_iff in I as [I|[I|[]]]; [eapply ST; eauto|discriminate].
Qed.

(** 0.501 of line 3082 *)
Definition d501 : float := 0x1.0083126e978d5p-1%float.

(** a reduction with columns of different heights, then hlllp with SEYSEN and a threshold that is passed *)
Example C75_case :
  exists L', run dbl [CallSetNumS 2 0] (new_lattice dbl Jz 4 3 A1 false 0 true 0) = Ok (set_num_S 2 0 (new_lattice dbl Jz 4 3 A1 false 0 true 0)) /\
    hlll dbl 200 d99 false 0%float (set_num_S 2 0 (new_lattice dbl Jz 4 3 A1 false 0 true 0)) = Ok (0%Z, L') /\
    nblov (lc L') = 10%Z /\ getbase L' = [[-1; 1; 1; -4]; [2; 1; -4; 1]; [3; -5; -2; -3]]%Z /\
    Rentry dbl L' 0 1 = (-2.0647416048350564)%float.
Proof. eexists. split; [reflexivity|]. split; [vm_compute; reflexivity|]. vm_compute. auto. Qed.

Example C76_case :
  exists L', hlllp dbl 200 d501 d99 1 0%float (new_lattice dbl Jz 4 3 A1 true 1 true 0) = Ok (0%Z, L') /\
    (nblov (lc L') < cnblov_max (lcfg L'))%Z /\ getbase L' <> A1.
Proof. eexists. split; [vm_compute; reflexivity|]. vm_compute. split; [reflexivity|discriminate]. Qed.

Print Assumptions C75_hlll_certifies.
Print Assumptions C76_hlllp_certifies.
Print Assumptions C76_hlllp_is_hlll.
Print Assumptions C76_hlllp_preserves.
