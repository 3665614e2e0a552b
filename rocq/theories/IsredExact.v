(** * isreduced in exact arithmetic: it decides reducedness up to size reduction *)
From Coq Require Import ZArith Lia Reals Lra List Bool Arith.
From Verif Require Import Base Spec Mat FP Hlll Hlll2 IntSteps HlllInt Structure Object Safety Counters SpecReal Det Fresh Cache Cache2 Cache3 Cache4 Cache5
  Cache6 Cache7 Exact HHMath ExactLoop ExactLoop2 ExactPot ExactTop ExactHH LcondFacts SpecIsred.
Import ListNotations.
Local Open Scope R_scope.

(** ** unitriangular matrices *)
Lemma unitri_id d : unitriangular d mid.
Proof. intros i j Hi Hj. split; intros H; [apply mid_neq; lia|subst; apply mid_eq]. Qed.

Lemma unitri_col d T k i a : (i < k)%nat -> (k < d)%nat -> unitriangular d T ->
  unitriangular d (fun p q => (T p q - (if (q =? k)%nat then a else 0) * T p i)%Z).
Proof.
  intros Hi Hk HT p q Hp Hq. destruct (HT p q Hp Hq) as [H1 H2]. destruct (HT p i Hp ltac:(lia)) as [H3 _].
  destruct (Nat.eqb_spec q k) as [->|N]; split; intros H.
  - rewrite H1, H3 by lia. ring.
  - subst p. rewrite H2, H3 by lia. ring.
  - rewrite H1 by lia. ring.
  - rewrite H2 by lia. ring.
Qed.

(** the R factor of A T *)
Definition rT (d : nat) (r : nat -> nat -> R) (T : zmat) : nat -> nat -> R :=
  fun i j => sumR d (fun l => r i l * IZR (T l j)).

Lemma sumR_mul_r n a f : sumR n (fun i => f i * a) = sumR n f * a.
Proof. induction n as [|n IH]; cbn; [ring|]. rewrite IH. ring. Qed.

Lemma sumR_swap n m (f : nat -> nat -> R) : sumR n (fun i => sumR m (f i)) = sumR m (fun j => sumR n (fun i => f i j)).
Proof.
  induction n as [|n IH]; cbn.
  - symmetry. apply sumR_0. reflexivity.
  - rewrite IH, <- sumR_plus. reflexivity.
Qed.

Lemma rT_diag n d A r T i : R_factor n d A r -> unitriangular d T -> (i < d)%nat -> rT d r T i i = r i i.
Proof.
  intros (U & _ & _) HT Hi. unfold rT. rewrite (sumR_single d i); auto.
  - rewrite (proj2 (HT i i Hi Hi) eq_refl). ring.
  - intros l Hl N. destruct (Nat.lt_ge_cases l i).
    + rewrite (U i l) by lia. ring.
    + rewrite (proj1 (HT l i Hl Hi)) by lia. ring.
Qed.

Lemma rT_next n d A r T i : R_factor n d A r -> unitriangular d T -> (S i < d)%nat ->
  rT d r T i (S i) = r i (S i) + IZR (T i (S i)) * r i i.
Proof.
  intros (U & _ & _) HT Hi. unfold rT.
  rewrite (sumR_ext d _ (fun l => (if (l =? i)%nat then IZR (T i (S i)) * r i i else 0) + (if (l =? S i)%nat then r i (S i) else 0))).
  - rewrite sumR_plus, (sumR_single d i), (sumR_single d (S i)); try lia.
    + rewrite !Nat.eqb_refl. ring.
    + intros l Hl N. apply Nat.eqb_neq in N. now rewrite N.
    + intros l Hl N. apply Nat.eqb_neq in N. now rewrite N.
  - intros l Hl. destruct (Nat.eqb_spec l i) as [E1|N1]; destruct (Nat.eqb_spec l (S i)) as [E|N2]; try lia.
    + subst l. ring.
    + subst l. rewrite (proj2 (HT (S i) (S i) Hi Hi) eq_refl). ring.
    + destruct (Nat.lt_ge_cases l i).
      * rewrite (U i l) by lia. ring.
      * rewrite (proj1 (HT l (S i) Hl Hi)) by lia. ring.
Qed.

Lemma rT_factor n d A r T : R_factor n d A r -> unitriangular d T -> R_factor n d (mmul d A T) (rT d r T).
Proof.
  intros RF HT. pose proof RF as (U & Dg & G). split; [|split].
  - intros i j Hij. unfold rT. apply sumR_0. intros l Hl. destruct (Nat.lt_ge_cases l i).
    + rewrite (U i l) by lia. ring.
    + rewrite (proj1 (HT l j Hl ltac:(lia))) by lia. ring.
  - intros i Hi. rewrite (rT_diag n d A) by assumption. now apply Dg.
  - intros p q Hp Hq.
    transitivity (sumR d (fun l => sumR d (fun m => IZR (T l p) * IZR (T m q) * sumR d (fun i => r i l * r i m)))).
    + unfold rT.
      rewrite (sumR_ext d _ (fun i => sumR d (fun l => sumR d (fun m => IZR (T l p) * IZR (T m q) * (r i l * r i m))))).
      * rewrite sumR_swap. apply sumR_ext. intros l Hl. rewrite sumR_swap. apply sumR_ext. intros m Hm. now rewrite sumR_mul_l.
      * intros i Hi. rewrite <- sumR_mul_r. apply sumR_ext. intros l Hl. rewrite <- sumR_mul_l. apply sumR_ext. intros m Hm. ring.
    + rewrite (sumR_ext d _ (fun l => sumR d (fun m => IZR (T l p) * IZR (T m q) * IZR (sumZ n (fun i => A i l * A i m)%Z)))).
      2:{ intros l Hl. apply sumR_ext. intros m Hm. now rewrite G by lia. }
      rewrite sumZ_IZR.
      rewrite (sumR_ext n _ (fun i => sumR d (fun l => sumR d (fun m => IZR (T l p) * IZR (T m q) * (IZR (A i l) * IZR (A i m)))))).
      * rewrite (sumR_swap n d). apply sumR_ext. intros l Hl. rewrite (sumR_swap n d). apply sumR_ext. intros m Hm.
        rewrite sumR_mul_l, sumZ_IZR. f_equal. apply sumR_ext. intros i Hi. now rewrite mult_IZR.
      * intros i Hi. unfold mmul. rewrite mult_IZR, !sumZ_IZR, <- sumR_mul_r. apply sumR_ext. intros l Hl.
        rewrite <- sumR_mul_l. apply sumR_ext. intros m Hm. rewrite !mult_IZR. ring.
Qed.

Lemma rf_meq n d B B' r : meq n d B B' -> R_factor n d B r -> R_factor n d B' r.
Proof.
  intros E (U & D & G). split; [exact U|]. split; [exact D|]. intros j l Hj Hl. rewrite G by assumption. f_equal.
  apply sumZ_ext. intros i Hi. now rewrite !E by assumption.
Qed.

(** the two forms of the condition *)
Lemma up_to_size_any n d delta A r : R_factor n d A r -> LLL_up_to_size n d delta A -> lovasz_any d delta r.
Proof.
  intros RF (T & HT & r' & RF' & SR & LO) i z Hi.
  pose proof (rT_factor n d A r T RF HT) as RF2.
  destruct (R_factor_unique n d _ _ _ RF2 RF' i ltac:(lia)) as (s & Hs & Es).
  destruct (R_factor_unique n d _ _ _ RF2 RF' (S i) ltac:(lia)) as (s' & Hs' & Es').
  specialize (LO i Hi). specialize (SR i (S i) ltac:(lia)).
  rewrite !Es, !Es' in LO by lia. rewrite !Es in SR by lia.
  rewrite !(rT_diag n d A), (rT_next n d A) in LO by (assumption || lia).
  rewrite (rT_diag n d A), (rT_next n d A) in SR by (assumption || lia).
  set (a := r i i) in *. set (b := r i (S i)) in *. set (t := IZR (T i (S i))) in *. set (e := r (S i) (S i)) in *.
  assert (S1 : Rabs (b + t * a) <= Rabs a / 2).
  { rewrite !Rabs_mult in SR. replace (Rabs s) with 1 in SR; [lra|].
    destruct Hs as [->| ->]; [now rewrite Rabs_R1|]. rewrite Rabs_left; lra. }
  assert (L1 : delta * (a * a) <= (b + t * a) * (b + t * a) + e * e).
  { destruct Hs as [->| ->], Hs' as [->| ->]; lra. }
  apply Rle_trans with (1 := L1). apply Rplus_le_compat_r.
  (* |b + t a| <= |a|/2 is minimal among the b - z a *)
  assert (Q : Rabs (b + t * a) <= Rabs (b - IZR z * a)).
  { destruct (Z.eq_dec z (- T i (S i))) as [->|N].
    - rewrite opp_IZR. fold t. right. f_equal. ring.
    - set (w := (z + T i (S i))%Z). assert (W : 1 <= Rabs (IZR w)).
      { rewrite <- abs_IZR. apply IZR_le. unfold w. lia. }
      replace (b - IZR z * a) with (b + t * a - IZR w * a) by (unfold w, t; rewrite plus_IZR; ring).
      pose proof (Rabs_triang_inv (IZR w * a) (b + t * a)) as TI. rewrite Rabs_mult in TI.
      rewrite (Rabs_minus_sym (b + t * a)).
      pose proof (Rabs_pos a). nra. }
  pose proof (Rabs_pos (b + t * a)).
  assert (forall x : R, x * x = Rabs x * Rabs x) as SQ.
  { intros x. rewrite <- Rabs_mult. symmetry. apply Rabs_right. pose proof (Rle_0_sqr x). unfold Rsqr in *. lra. }
  rewrite (SQ (b + t * a)), (SQ (b - IZR z * a)). apply Rmult_le_compat; auto.
Qed.

Section Isred.
Variable fp : fpops R.
Hypothesis X : exact fp.
Variable c : cfg.
Notation n := (cn c).
Notation d := (cd c).
Notation fz := (fzero fp).
Notation Sj s j := (nth j (iS s) 0%nat).
Notation r g i j := (mget fz (fR g) i j).
Notation EI := (EI fp c).
Notation cur := (cur fp c).
Notation sgood := (sgood c).

Lemma redto_T s s' : sgood s -> redto c s s' -> exists T, unitriangular d T /\ meq n d (fn (iB s')) (mmul d (fn (iB s)) T).
Proof.
  intros G H. induction H as [|s1 k i a H1 IH Hi Hk].
  - exists mid. split; [apply unitri_id|]. intros p q Hp Hq. unfold mmul. now rewrite sumZ_mid_r.
  - destruct IH as (T & HT & E). exists (fun p q => (T p q - (if (q =? k)%nat then a else 0) * T p i)%Z).
    split; [now apply unitri_col|]. cbn [iB].
    destruct (redto_good c s s1 G H1) as [G1 _].
    intros l j Hl Hj.
    assert (EC : fn (colop 0%Z (redf a) 0 (Sj s1 i) (iB s1) k i) l j = (fn (iB s1) l j - (if (j =? k)%nat then a else 0) * fn (iB s1) l i)%Z).
    { unfold fn. rewrite (mget_colop 0%Z _ n d) by (try apply (g_bok c s1 G1); auto). cbn [Nat.leb andb Nat.add].
      destruct (Nat.eqb_spec j k) as [->|]; cbn [andb]; [|ring]. destruct (Nat.ltb_spec l (Sj s1 i)).
      + unfold redf. ring.
      + pose proof (b_zero c s1 (g_bok c s1 G1) i ltac:(lia) l ltac:(lia)) as Z. unfold fn in Z. rewrite Z. ring. }
    rewrite EC, !E by lia. unfold mmul.
    rewrite <- sumZ_mul_l, <- sumZ_minus. apply sumZ_ext. intros p Hp. ring.
Qed.

(** a failing Lovasz test in a state obtained without swap *)
Lemma fail_any s0 kappa s g delta : sgood s0 -> redto c s0 s -> EI kappa s g -> cur s g kappa -> (1 <= kappa)%nat -> (kappa < d)%nat ->
  tail fp c s g kappa + r g (kappa - 1) kappa * r g (kappa - 1) kappa < delta * (r g (kappa - 1) (kappa - 1) * r g (kappa - 1) (kappa - 1)) ->
  forall r0, R_factor n d (fn (iB s0)) r0 -> ~ lovasz_any d delta r0.
Proof.
  intros G0 RT E C H1 Hk L r0 RF0 LA. pose proof (EI_ND fp c _ _ _ E Hk) as ND.
  pose proof (ei_s _ _ _ _ _ E) as G. pose proof (g_gt c s G kappa Hk) as GT.
  destruct (hr_cur fp X c kappa s g E Hk) as (E2 & C2 & M2 & _ & V2 & R2).
  destruct (hv_exact fp X c kappa s _ E2 Hk C2 M2) as (g3 & _ & E3 & R3 & T3 & _).
  destruct (extend fp X c (d - S kappa) (S kappa) s g3 E3 ltac:(lia)) as (g4 & E4 & R4).
  replace (S kappa + (d - S kappa))%nat with d in E4 by lia.
  pose proof (EI_R_factor fp X c s g4 E4 ND) as RF. set (rr := fun i j => if (i <=? j)%nat then r g4 i j else 0) in RF.
  assert (Q1 : rr (kappa - 1)%nat (kappa - 1)%nat = r g (kappa - 1) (kappa - 1)).
  { unfold rr. rewrite Nat.leb_refl, R4, R3, R2 by lia. reflexivity. }
  assert (Q2 : rr (kappa - 1)%nat kappa = r g (kappa - 1) kappa).
  { unfold rr. replace (kappa - 1 <=? kappa)%nat with true by (symmetry; apply Nat.leb_le; lia). rewrite R4, R3 by lia.
    pose proof (C (kappa - 1)%nat ltac:(lia)) as A1. pose proof (C2 (kappa - 1)%nat ltac:(lia)) as A2. rewrite V2, A1 in A2.
    replace (kappa - 1 <? Sj s kappa)%nat with true in A2 by (symmetry; apply Nat.ltb_lt; lia). symmetry. exact A2. }
  assert (Q3 : rr kappa kappa * rr kappa kappa = tail fp c s g kappa).
  { unfold rr. rewrite Nat.leb_refl, R4 by lia. rewrite T3. unfold tail. now rewrite V2. }
  rewrite <- Q1, <- Q2, <- Q3 in L. clear Q1 Q2 Q3.
  destruct (redto_T s0 s G0 RT) as (T & HT & EM).
  pose proof (rf_meq n d _ _ _ EM RF) as RF1. pose proof (rT_factor n d _ _ T RF0 HT) as RF2.
  destruct (R_factor_unique n d _ _ _ RF2 RF1 (kappa - 1) ltac:(lia)) as (sg & Hs & Es).
  destruct (R_factor_unique n d _ _ _ RF2 RF1 kappa ltac:(lia)) as (sg' & Hs' & Es').
  rewrite !Es, !Es' in L by lia.
  specialize (LA (kappa - 1)%nat (- T (kappa - 1)%nat kappa)%Z ltac:(lia)).
  pose proof (rT_next n d _ r0 T (kappa - 1) RF0 HT ltac:(lia)) as N1.
  replace (S (kappa - 1)) with kappa in * by lia.
  rewrite (rT_diag n d _ r0 T (kappa - 1) RF0 HT) in L by lia. rewrite (rT_diag n d _ r0 T kappa RF0 HT) in L by lia. rewrite N1 in L.
  rewrite opp_IZR in LA.
  set (a := r0 (kappa - 1)%nat (kappa - 1)%nat) in *. set (bb := r0 (kappa - 1)%nat kappa) in *.
  set (t := IZR (T (kappa - 1)%nat kappa)) in *. set (e := r0 kappa kappa) in *.
  assert (delta * (a * a) <= (bb + t * a) * (bb + t * a) + e * e).
  { replace (bb + t * a) with (bb - - t * a) by ring. exact LA. }
  destruct Hs as [->| ->], Hs' as [->| ->]; nra.
Qed.

Hypothesis ST : (cS c = 1)%nat.
Hypothesis SEY : (cseysen c < 1)%Z.
Hypothesis CK : ckmax c = d.
Variable delta : R.
Variable vb : bool.

Lemma swaps_mono {F} (fq : fpops F) hr fuel : forall dl s f kappa pk p q rv s' f' q',
  hlll_loop_g fq c hr fuel dl vb s f kappa pk p q = Ok (rv, s', f', q') -> (nbswaps q <= nbswaps q')%Z.
Proof.
  assert (ND : forall q, nbswaps (inc_depth vb q) = nbswaps q) by (intros; unfold inc_depth; now destruct vb).
  induction fuel as [|fuel IH]; intros dl s f kappa pk p q rv s' f' q' H; cbn [hlll_loop_g] in H; destruct (negb _) eqn:E;
    try discriminate; try (injection H as <- <- <- <-; rewrite ND; lia).
  binv H. binv H. destruct a0 as [[s2 f2] failed]. destruct failed.
  { injection H as <- <- <- <-; rewrite ND; lia. }
  binv H. destruct a0 as [lt nt]. destruct (fle fq lt nt).
  - binv H. binv H. binv H. match type of H with context [if ?b then _ else _] => destruct b end.
    + injection H as <- <- <- <-; rewrite ND; cbn [inc_lov nbswaps]; lia.
    + apply IH in H. cbn [inc_lov nbswaps] in H. lia.
  - binv H. apply IH in H. cbn [inc_lov inc_swap nbswaps] in H. lia.
Qed.

Lemma loop_noswap s0 (G0 : sgood s0) fuel : forall s g kappa pk p q,
  (1 <= kappa)%nat -> (kappa <= d \/ kappa = 1)%nat -> EI (lim kappa) s g -> redto c s0 s ->
  (nblov q + (Z.of_nat d - Z.of_nat kappa) < cnblov_max c)%Z -> 
  match hlll_loop_g fp c (hr_ref fp) fuel delta vb s g kappa pk p q with
  | Ok (rv, s', g', q') =>
      (nbswaps q' = nbswaps q /\ redto c s0 s' /\ (nblov q' <= nblov q + Z.max 0 (Z.of_nat d - Z.of_nat kappa))%Z) \/
      ((nbswaps q < nbswaps q')%Z /\ forall r0, R_factor n d (fn (iB s0)) r0 -> ~ lovasz_any d delta r0)
  | _ => True
  end.
Proof.
  assert (ND0 : forall q, nbswaps (inc_depth vb q) = nbswaps q /\ nblov (inc_depth vb q) = nblov q) by (intros; unfold inc_depth; now destruct vb).
  induction fuel as [|fuel IH]; intros s g kappa pk p q H1 HkD E RT NB; cbn [hlll_loop_g];
    destruct (negb _) eqn:EN; auto; try (left; destruct (ND0 q) as [-> ->]; split; [reflexivity|split; [exact RT|lia]]).
  apply negb_false_iff, andb_true_iff in EN as [EN _]. apply Nat.ltb_lt in EN. rewrite CK in EN. rename EN into Hk.
  destruct (enter_exact fp X c kappa s g E H1 Hk) as (g1 & -> & E1 & N1). cbn [bind].
  pose proof (reduce_exact fp X c ST (S fuel) s g1 kappa SEY H1 Hk E1) as RX.
  destruct (reduce_g fp c (hr_ref fp) (S fuel) s g1 kappa) as [[[s2 g2] bad]| |] eqn:ER; cbn [bind]; auto.
  destruct RX as [-> Dn]. pose proof (dn_e _ _ _ _ _ _ _ _ Dn) as E2. pose proof (dn_c _ _ _ _ _ _ _ _ Dn) as C2.
  assert (RT2 : redto c s0 s2) by (eapply redto_trans; [exact RT|apply (dn_i _ _ _ _ _ _ _ _ Dn)]).
  rewrite (lovasz_exact fp X c kappa s2 g2 delta E2 H1 Hk C2). cbn [bind].
  unfold guard. replace (kappa <? d)%nat with true by (symmetry; now apply Nat.ltb_lt).
  destruct (fle fp _ _) eqn:LE.
  - destruct (hv_exact fp X c kappa s2 g2 E2 Hk C2 (dn_m _ _ _ _ _ _ _ _ Dn)) as (g3 & -> & E3 & R3 & T3 & V3 & _). cbn [bind].
    rewrite gR_ok by (pose proof (EI_ND fp c _ _ _ E2 Hk); lia). cbn [bind].
    match goal with |- context [if ?bb then _ else _] => destruct bb eqn:BB end.
    + left. destruct (ND0 (inc_lov q)) as [-> ->]. cbn [inc_lov nbswaps nblov]. split; [reflexivity|]. split; [exact RT2|lia].
    + set (g4 := set_desc _ g3).
      assert (E4 : EI (S kappa) s2 g4).
      { pose proof (ei_w _ _ _ _ _ E3) as [W1 W2 W3]. apply (EI_frame fp c (S kappa) s2 g3); auto. split; assumption. }
      assert (LK : lim (kappa + 1) = S kappa) by (unfold lim; destruct (Nat.eqb_spec (kappa + 1) 1); lia).
      specialize (IH s2 g4 (kappa + 1)%nat (Z.of_nat kappa) (lupd p kappa (fabs fp (r g3 kappa kappa))) (inc_lov q)).
      rewrite LK in IH. cbn [inc_lov nblov nbswaps] in IH.
      specialize (IH ltac:(lia) ltac:(lia) E4 RT2 ltac:(lia)).
      destruct (hlll_loop_g _ _ _ _ _ _ _ _ _ _ _ _) as [[[[rv s5] g5] q5]| |]; auto.
      destruct IH as [(K1 & K2 & K3)|K]; [left|right; exact K]. split; [exact K1|]. split; [exact K2|lia].
  - destruct (hlll_loop_g _ _ _ _ _ _ _ _ _ _ _ _) as [[[[rv s5] g5] q5]| |] eqn:EL; auto. right.
    apply swaps_mono in EL. cbn [inc_swap inc_lov nbswaps] in EL. split; [lia|].
    apply (fail_any s0 kappa s2 g2 delta); auto.
    apply Rnot_le_lt. intros Q. apply (e_le fp X) in Q. congruence.
Qed.

End Isred.
