(** * FgasExact: decomp when the operations on FP_NR<RT> are exact *)
From Coq Require Import ZArith Lia List Bool Arith Reals Lra.
From Verif Require Import Base Spec SpecReal Mat FP Hlll IntSteps HlllInt LinDep Structure ZFgas Fgas FgasInt.
Import ListNotations.
Local Open Scope nat_scope.

(** no rounding in RT, and the comparisons are those of the reals; FT stays arbitrary *)
Record rt_exact {F} (rt : rtops F R) : Prop := {
  te_zero : tzero rt = 0%R;
  te_add : forall a b, tadd rt a b = (a + b)%R;
  te_sub : forall a b, tsub rt a b = (a - b)%R;
  te_mul : forall a b, tmul rt a b = (a * b)%R;
  te_addmul : forall r a b, taddmul rt r a b = (r + a * b)%R;
  te_submul : forall r a b, tsubmul rt r a b = (r - a * b)%R;
  te_abs : forall a, tabs rt a = Rabs a;
  te_gt : forall a b, tgt rt a b = true <-> (a > b)%R;
  te_ofz : forall z, tofz rt z = IZR z }.

Section Exact.
Context {F : Type} (rt : rtops F R) (X : rt_exact rt).
Variables (d n dec : nat) (transf : bool).
Hypothesis Hn : n = d + dec.
Notation xcol := (@xcol F R rt d n dec transf).
Notation xswap := (@xswap F R rt d n dec transf).
Notation xsteps := (@xsteps F R rt d n dec transf).
Notation xstep := (@xstep F R rt d n dec transf).
Notation tinv := (tinv n dec transf).
Variables (A Y0 : nat -> nat -> R).

Definition einv (P : zmat) (x : gex R) : Prop :=
  wfm d n (xF x) /\ (0 < dec -> wfm d dec (xY x)) /\
  (forall i j, i < d -> j < n -> mget 0%R (xF x) i j = sumR n (fun k => A i k * IZR (P k j))%R) /\
  (0 < dec -> forall r j, r < d -> j < dec ->
     mget 0%R (xY x) r j = sumR d (fun s => IZR (fn (xW x) (dec + s)%nat (dec + r)%nat) * Y0 s j)%R).

Lemma xcol_einv P kappa i xz x x' : i < kappa -> xcol kappa i xz x = Ok x' -> tinv P x -> einv P x ->
  tinv (mmul n P (elem_add i kappa (- xz))) x' /\ einv (mmul n P (elem_add i kappa (- xz))) x'.
Proof.
  intros N H I (W1 & W2 & EF & EY). destruct (xcol_inv rt d n dec transf P _ _ _ _ _ N H I) as (Hi & Hk & I').
  split; [exact I'|]. destruct I as (WW & _). clear I'.
  unfold Fgas.xcol in H. cbv zeta in H. apply guard_Ok in H as [_ H]. binv H. apply Okinj in H. subst x'.
  destruct X as [x0 xa xs xm xam xsm _ _ xz0]. rewrite x0 in *.
  unfold einv. cbn [xF xY xW].
  assert (FF : forall v w : R, (if (xz =? -1)%Z then tadd rt else if (xz =? 1)%Z then tsub rt
              else fun v w => tsubmul rt v w (tofz rt xz)) v w = (v - IZR xz * w)%R).
  { intros v w. destruct (Z.eqb_spec xz (-1)) as [->|]; [rewrite xa; lra|].
    destruct (Z.eqb_spec xz 1) as [->|]; [rewrite xs; lra|]. rewrite xsm, xz0. lra. }
  assert (FY : forall v w : R, (if (xz =? -1)%Z then tsub rt else if (xz =? 1)%Z then tadd rt
              else fun v w => taddmul rt v w (tofz rt xz)) v w = (v + IZR xz * w)%R).
  { intros v w. destruct (Z.eqb_spec xz (-1)) as [->|]; [rewrite xs; lra|].
    destruct (Z.eqb_spec xz 1) as [->|]; [rewrite xa; lra|]. rewrite xam, xz0. lra. }
  split; [now apply wfm_colop|]. split; [|split].
  - intros D. destruct ((dec <=? i) && (0 <? dec)); [|injection Ha as <-; auto].
    unfold yrow in Ha. apply guard_Ok in Ha as [_ Ha]. apply Okinj in Ha. subst a. apply mtab_wfm.
  - intros p q Hp Hq. rewrite (mget_colop 0%R _ d n) by assumption. cbn [Nat.leb andb].
    assert (G : (p <? 0 + d) = true) by (apply Nat.ltb_lt; lia). rewrite G, andb_true_r.
    destruct (Nat.eqb_spec q kappa) as [->|Nq].
    + rewrite FF, !EF by assumption. rewrite <- sumR_mul_l, <- sumR_minus. apply sumR_ext. intros k Hk'.
      rewrite mmul_elem_add by assumption. rewrite Nat.eqb_refl, plus_IZR, mult_IZR, opp_IZR. ring.
    + rewrite EF by assumption. apply sumR_ext. intros k Hk'. rewrite mmul_elem_add by assumption.
      apply Nat.eqb_neq in Nq. rewrite Nq, Z.add_0_r. reflexivity.
  - intros D r j Hr Hj.
    assert (CW : forall s, s < d -> fn (colop 0%Z (redf (- xz)) 0 n (xW x) i kappa) (dec + s) (dec + r)
       = if dec + r =? i then (fn (xW x) (dec + s)%nat i + xz * fn (xW x) (dec + s)%nat kappa)%Z else fn (xW x) (dec + s) (dec + r)).
    { intros s Hs. unfold fn. rewrite (mget_colop 0%Z _ n n) by (try assumption; lia). cbn [Nat.leb andb].
      assert (G : (dec + s <? 0 + n) = true) by (apply Nat.ltb_lt; lia). rewrite G, andb_true_r.
      destruct (dec + r =? i); [|reflexivity]. unfold redf. ring. }
    rewrite (sumR_ext d _ (fun s => IZR (if (dec + r =? i)%nat then (fn (xW x) (dec + s)%nat i + xz * fn (xW x) (dec + s)%nat kappa)%Z
                                        else fn (xW x) (dec + s)%nat (dec + r)%nat) * Y0 s j)%R) by (intros s Hs; now rewrite CW).
    assert (D' : (0 <? dec) = true) by (now apply Nat.ltb_lt). rewrite D', andb_true_r in Ha.
    destruct (Nat.leb_spec dec i) as [L|L].
    + unfold yrow in Ha. apply guard_Ok in Ha as [G Ha]. apply Okinj in Ha. subst a.
      rewrite mget_mtab by assumption.
      destruct (Nat.eqb_spec r (i - dec)) as [->|Nr].
      * replace (dec + (i - dec)) with i by lia. rewrite Nat.eqb_refl. rewrite FY, x0.
        rewrite !EY by (try assumption; lia).
        rewrite <- sumR_mul_l, <- sumR_plus. apply sumR_ext. intros s Hs.
        replace (dec + (i - dec)) with i by lia. replace (dec + (kappa - dec)) with kappa by lia.
        rewrite plus_IZR, mult_IZR. ring.
      * destruct (Nat.eqb_spec (dec + r) i); [lia|]. rewrite x0. now apply EY.
    + injection Ha as <-. destruct (Nat.eqb_spec (dec + r) i); [lia|]. now apply EY.
Qed.

Lemma xswap_einv P p q x x' : xswap p q x = Ok x' -> tinv P x -> einv P x ->
  tinv (mmul n P (elem_swap p q)) x' /\ einv (mmul n P (elem_swap p q)) x'.
Proof.
  intros H I (W1 & W2 & EF & EY). destruct (xswap_inv rt d n dec transf P _ _ _ _ H I) as (Hp & Hq & D0 & I').
  split; [exact I'|]. destruct I as (WW & _). clear I'.
  unfold Fgas.xswap in H. apply guard_Ok in H as [_ H]. binv H. apply Okinj in H. subst x'.
  destruct X as [x0 _ _ _ _ _ _ _ _]. rename a into Yn.
  unfold einv. cbn [xF xY xW].
  split; [now apply wfm_colswap|]. split; [|split].
  - intros D. apply Nat.ltb_lt in D. rewrite D in Ha. apply guard_Ok in Ha as [_ Ha].
    unfold yswap in Ha. apply guard_Ok in Ha as [_ Ha]. apply Okinj in Ha. subst Yn. apply mtab_wfm.
  - intros i j Hi Hj. rewrite (mget_colswap 0%R d n) by assumption. rewrite EF.
    + apply sumR_ext. intros k Hk. now rewrite mmul_elem_swap.
    + assumption.
    + destruct (j =? p); [assumption|]. destruct (j =? q); assumption.
  - intros D r j Hr Hj. specialize (D0 D). destruct D0 as [D1 D2].
    apply Nat.ltb_lt in D. rewrite D in Ha. apply guard_Ok in Ha as [_ Ha].
    unfold yswap in Ha. apply guard_Ok in Ha as [_ Ha]. apply Okinj in Ha. subst Yn. rewrite x0.
    rewrite mget_mtab by assumption. apply Nat.ltb_lt in D.
    rewrite EY; [|exact D|destruct (r =? p - dec); [lia|]; destruct (r =? q - dec); lia|exact Hj].
    apply sumR_ext. intros s Hs. f_equal. f_equal. unfold fn.
    rewrite (mget_colswap 0%Z n n) by (try assumption; lia). f_equal.
    destruct (Nat.eqb_spec r (p - dec)), (Nat.eqb_spec (dec + r) p); try lia;
    destruct (Nat.eqb_spec r (q - dec)), (Nat.eqb_spec (dec + r) q); lia.
Qed.

Lemma xsteps_einv P x x' : xsteps x x' -> tinv P x -> einv P x -> exists P', tinv P' x' /\ einv P' x'.
Proof.
  intros H. revert P. induction H as [x|x y z H IH Hs]; intros P I E; [eauto|].
  destruct (IH P I E) as (P1 & I1 & E1). destruct Hs as [kappa i xz x1 x2 N Hc|p q x1 x2 Hc].
  - eexists. eapply xcol_einv; eauto.
  - eexists. eapply xswap_einv; eauto.
Qed.

End Exact.

(** the start: nothing has been done *)
Lemma start_einv {F} (rt : rtops F R) d n dec transf A Y0 x : rt_exact rt -> n = d + dec ->
  wfm d n (xF x) -> (0 < dec -> wfm d dec (xY x)) -> tinv n dec transf mid x ->
  meq n n (fn (xW x)) mid ->
  (forall i j, i < d -> j < n -> mget 0%R (xF x) i j = A i j) ->
  (forall i j, i < d -> j < dec -> mget 0%R (xY x) i j = Y0 i j) ->
  einv d n dec A Y0 mid x.
Proof.
  intros X Hn W1 W2 I IW EF EY. unfold einv. repeat (split; [assumption|]). split.
  - intros i j Hi Hj. rewrite EF by assumption. rewrite (sumR_single n j).
    + unfold mid. rewrite Nat.eqb_refl. lra.
    + assumption.
    + intros k Hk Nk. unfold mid. apply Nat.eqb_neq in Nk. rewrite Nk. lra.
  - intros D r j Hr Hj. rewrite EY by assumption. rewrite (sumR_single d r).
    + rewrite IW by lia. unfold mid. rewrite Nat.eqb_refl. lra.
    + assumption.
    + intros k Hk Nk. rewrite IW by lia. unfold mid.
      destruct (Nat.eqb_spec (dec + k) (dec + r)); [lia|]. lra.
Qed.
