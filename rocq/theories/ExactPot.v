(** * The potential of LLL: product of the Gram determinants *)
From Coq Require Import ZArith Lia Reals Lra List Bool Arith.
From Verif Require Import Base Spec Mat FP Hlll IntSteps HlllInt Structure Object Safety SpecReal Det Fresh Cache Cache2 Cache4 Cache5 Exact HHMath ExactLoop ExactLoop2.
Import ListNotations.
Local Open Scope R_scope.

(** ** R factors of matrices *)
Lemma rf_red n d (B B' : zmat) r k i a : (i < k)%nat -> (k < d)%nat ->
  (forall l j, (l < n)%nat -> (j < d)%nat -> B' l j = (B l j - (if (j =? k)%nat then a else 0) * B l i)%Z) ->
  R_factor n d B r -> exists r', R_factor n d B' r' /\ forall j, (j < d)%nat -> r' j j = r j j.
Proof.
  intros Hi Hk HB (U & Dg & G). set (e := fun j => if (j =? k)%nat then a else 0%Z).
  set (r' := fun l j => r l j - IZR (e j) * r l i).
  assert (RD : forall j, (j < d)%nat -> r' j j = r j j).
  { intros j Hj. unfold r', e. destruct (Nat.eqb_spec j k) as [->|]; [rewrite (U k i) by lia|]; ring. }
  exists r'. split; [|exact RD]. split; [|split].
  - intros p q Hpq. unfold r', e. rewrite (U p q) by lia. destruct (Nat.eqb_spec q k) as [->|]; [rewrite (U p i) by lia|]; ring.
  - intros p Hp. rewrite RD by assumption. now apply Dg.
  - intros p q Hp Hq.
    transitivity (IZR (sumZ n (fun l => B l p * B l q)%Z) - IZR (e q) * IZR (sumZ n (fun l => B l p * B l i)%Z)
       - IZR (e p) * IZR (sumZ n (fun l => B l i * B l q)%Z) + IZR (e p) * IZR (e q) * IZR (sumZ n (fun l => B l i * B l i)%Z)).
    + rewrite <- !G by lia. rewrite <- !sumR_mul_l, <- !sumR_minus, <- sumR_plus. apply sumR_ext. intros l Hl. unfold r'. ring.
    + rewrite !sumZ_IZR, <- !sumR_mul_l, <- !sumR_minus, <- sumR_plus. apply sumR_ext. intros l Hl.
      rewrite !HB by lia. fold (e p) (e q). rewrite <- !mult_IZR, <- !minus_IZR, <- plus_IZR. f_equal. ring.
Qed.

Definition tr (k j : nat) : nat := if (j =? k - 1)%nat then k else if (j =? k)%nat then (k - 1)%nat else j.

Lemma rf_swap n d (B B' : zmat) r k : (1 <= k)%nat -> (k < d)%nat ->
  (forall l j, (l < n)%nat -> (j < d)%nat -> B' l j = B l (tr k j)) ->
  R_factor n d B r -> exists r', R_factor n d B' r' /\
    (forall j, (j < d)%nat -> j <> (k - 1)%nat -> j <> k -> r' j j = r j j) /\
    r' (k - 1)%nat (k - 1)%nat * r' (k - 1)%nat (k - 1)%nat = r (k - 1)%nat k * r (k - 1)%nat k + r k k * r k k /\
    (r' (k - 1)%nat (k - 1)%nat * r' (k - 1)%nat (k - 1)%nat) * (r' k k * r' k k) =
    (r (k - 1)%nat (k - 1)%nat * r (k - 1)%nat (k - 1)%nat) * (r k k * r k k).
Proof.
  intros H1 Hk HB (U & Dg & G).
  set (p := r (k - 1)%nat k). set (q := r k k). set (rho := sqrt (p * p + q * q)).
  assert (Q : q <> 0) by (apply Dg; lia).
  assert (PQ : 0 < p * p + q * q).
  { pose proof (Rle_0_sqr p). assert (0 < q * q) by (apply Rsqr_pos_lt; assumption). unfold Rsqr in *. lra. }
  assert (RH : rho * rho = p * p + q * q) by (apply sqrt_sqrt; lra).
  assert (RP : 0 < rho) by (now apply sqrt_lt_R0).
  set (r1 := fun i j => r i (tr k j)).
  set (r' := fun i j => if (i =? k - 1)%nat then (p * r1 (k - 1)%nat j + q * r1 k j) / rho
                        else if (i =? k)%nat then (q * r1 (k - 1)%nat j - p * r1 k j) / rho else r1 i j).
  assert (tr1 : tr k (k - 1) = k) by (unfold tr; now rewrite Nat.eqb_refl).
  assert (tr2 : tr k k = (k - 1)%nat) by (unfold tr; replace (k =? k - 1)%nat with false by (symmetry; apply Nat.eqb_neq; lia); now rewrite Nat.eqb_refl).
  assert (tr3 : forall j, j <> (k - 1)%nat -> j <> k -> tr k j = j).
  { intros j N1 N2. unfold tr. apply Nat.eqb_neq in N1, N2. now rewrite N1, N2. }
  assert (trd : forall j, (j < d)%nat -> (tr k j < d)%nat).
  { intros j Hj. unfold tr. destruct (j =? k - 1)%nat; [lia|]. destruct (j =? k)%nat; lia. }
  assert (e1 : (k - 1 =? k - 1)%nat = true) by apply Nat.eqb_refl.
  assert (e2 : (k =? k - 1)%nat = false) by (apply Nat.eqb_neq; lia).
  assert (R11 : r' (k - 1)%nat (k - 1)%nat = rho).
  { unfold r', r1. rewrite e1, tr1. fold p q. rewrite <- RH. field. lra. }
  assert (R22 : r' k k = q * r (k - 1)%nat (k - 1)%nat / rho).
  { unfold r', r1. rewrite e2, Nat.eqb_refl, tr2. rewrite (U k (k - 1)%nat) by lia. field. lra. }
  assert (RJ : forall j, j <> (k - 1)%nat -> j <> k -> r' j j = r j j).
  { intros j N1 N2. unfold r', r1. rewrite tr3 by assumption. apply Nat.eqb_neq in N1, N2. now rewrite N1, N2. }
  exists r'. split; [|split; [|split]].
  - split; [|split].
    + intros i j Hij. unfold r', r1.
      destruct (Nat.eqb_spec i (k - 1)) as [Ei|Ni].
      * rewrite tr3 by lia. rewrite (U (k - 1)%nat j), (U k j) by lia. field. lra.
      * destruct (Nat.eqb_spec i k) as [Ei|Ni2].
        -- destruct (Nat.eq_dec j (k - 1)) as [Ej|Nj].
           ++ rewrite Ej, tr1. fold p q. field. lra.
           ++ rewrite tr3 by lia. rewrite (U (k - 1)%nat j), (U k j) by lia. field. lra.
        -- assert ((tr k j < i)%nat).
           { unfold tr. destruct (Nat.eqb_spec j (k - 1)); [lia|]. destruct (Nat.eqb_spec j k); lia. }
           apply U. split; [assumption|lia].
    + intros i Hi. destruct (Nat.eq_dec i (k - 1)) as [->|N1]; [rewrite R11; lra|].
      destruct (Nat.eq_dec i k) as [->|N2]; [|rewrite RJ by assumption; now apply Dg].
      rewrite R22. apply Rmult_integral_contrapositive. split; [|apply Rinv_neq_0_compat; lra].
      apply Rmult_integral_contrapositive. split; [assumption|apply Dg; lia].
    + intros j l Hj Hl.
      transitivity (sumR d (fun i => r1 i j * r1 i l)).
      * assert (SP : forall f : nat -> R, sumR d f = sumR d (fun i => if (i =? k - 1)%nat then 0 else if (i =? k)%nat then 0 else f i) + f (k - 1)%nat + f k).
        { intros f.
          assert (Z2 : sumR d (fun i => if (i =? k)%nat then f i else 0) = f k).
          { rewrite (sumR_single d k); [now rewrite Nat.eqb_refl|lia|]. intros i Hi N. apply Nat.eqb_neq in N. now rewrite N. }
          assert (Z1 : sumR d (fun i => if (i =? k - 1)%nat then f i else 0) = f (k - 1)%nat).
          { rewrite (sumR_single d (k - 1)); [now rewrite e1|lia|]. intros i Hi N. apply Nat.eqb_neq in N. now rewrite N. }
          etransitivity; [|apply f_equal2; [apply f_equal; exact Z1|exact Z2]]. rewrite <- !sumR_plus. apply sumR_ext. intros i Hi.
          destruct (Nat.eqb_spec i (k - 1)), (Nat.eqb_spec i k); try lia; ring. }
        rewrite (SP (fun i => r' i j * r' i l)), (SP (fun i => r1 i j * r1 i l)).
        rewrite (sumR_ext d (fun i => if (i =? k - 1)%nat then 0 else if (i =? k)%nat then 0 else r' i j * r' i l)
                            (fun i => if (i =? k - 1)%nat then 0 else if (i =? k)%nat then 0 else r1 i j * r1 i l)).
        2:{ intros i Hi. unfold r'. destruct (i =? k - 1)%nat; [reflexivity|]. destruct (i =? k)%nat; reflexivity. }
        rewrite !Rplus_assoc. f_equal. unfold r'. rewrite e1, e2, Nat.eqb_refl.
        apply Rmult_eq_reg_r with (rho * rho); [|nra].
        rewrite RH at 2.
        replace (((p * r1 (k - 1)%nat j + q * r1 k j) / rho * ((p * r1 (k - 1)%nat l + q * r1 k l) / rho) +
          (q * r1 (k - 1)%nat j - p * r1 k j) / rho * ((q * r1 (k - 1)%nat l - p * r1 k l) / rho)) * (rho * rho))
          with ((p * r1 (k - 1)%nat j + q * r1 k j) * (p * r1 (k - 1)%nat l + q * r1 k l) + (q * r1 (k - 1)%nat j - p * r1 k j) * (q * r1 (k - 1)%nat l - p * r1 k l)) by (field; lra).
        ring.
      * unfold r1. rewrite G by auto. apply f_equal. apply sumZ_ext. intros i Hi. now rewrite !HB by assumption.
  - intros j Hj. apply RJ.
  - rewrite R11. exact RH.
  - rewrite R11, R22. fold q. field. lra.
Qed.

(** ** The potential *)
Fixpoint prodZ (k : nat) (f : nat -> Z) : Z := match k with O => 1%Z | S m => (prodZ m f * f m)%Z end.

Lemma prodZ_pos k f : (forall i, (i < k)%nat -> (0 < f i)%Z) -> (0 < prodZ k f)%Z.
Proof. induction k as [|k IH]; intros H; cbn; [lia|]. apply Z.mul_pos_pos; [apply IH; intros; apply H; lia|apply H; lia]. Qed.

Lemma prodZ_ext k f g : (forall i, (i < k)%nat -> f i = g i) -> prodZ k f = prodZ k g.
Proof. induction k as [|k IH]; intros H; cbn; auto. rewrite IH, H by (auto; lia). reflexivity. Qed.

Lemma prodZ_lt k f g m : (m < k)%nat -> (forall i, (i < k)%nat -> (0 < f i)%Z) -> (forall i, (i < k)%nat -> i <> m -> g i = f i) ->
  (0 < g m < f m)%Z -> (prodZ k g < prodZ k f)%Z.
Proof.
  induction k as [|k IH]; intros Hm P E L; [lia|]. cbn.
  assert (PF : (0 < prodZ k f)%Z) by (apply prodZ_pos; intros; apply P; lia).
  destruct (Nat.eq_dec m k) as [->|N].
  - rewrite (prodZ_ext k g f) by (intros; apply E; lia). nia.
  - rewrite (E k) by lia. assert (prodZ k g < prodZ k f)%Z by (apply IH; auto; try lia; intros; try apply P; try apply E; lia).
    pose proof (P k ltac:(lia)). nia.
Qed.

Lemma prodZ_ratio k f g m theta : (m < k)%nat -> (forall i, (i < k)%nat -> (0 < f i)%Z) -> (forall i, (i < k)%nat -> i <> m -> g i = f i) ->
  IZR (g m) <= theta * IZR (f m) -> IZR (prodZ k g) <= theta * IZR (prodZ k f).
Proof.
  induction k as [|k IH]; intros Hm P E L; [lia|]. cbn [prodZ]. rewrite !mult_IZR.
  assert (PF : (0 < prodZ k f)%Z) by (apply prodZ_pos; intros; apply P; lia). apply IZR_lt in PF.
  pose proof (IZR_lt _ _ (P k ltac:(lia))) as PK.
  destruct (Nat.eq_dec m k) as [->|N].
  - rewrite (prodZ_ext k g f) by (intros; apply E; lia).
    apply Rle_trans with (IZR (prodZ k f) * (theta * IZR (f k))); [apply Rmult_le_compat_l; lra|lra].
  - rewrite (E k) by lia. assert (H : IZR (prodZ k g) <= theta * IZR (prodZ k f)) by (apply IH; auto; try lia; intros; try apply P; try apply E; lia).
    rewrite <- Rmult_assoc. apply Rmult_le_compat_r; lra.
Qed.

(** Gram matrix *)
Definition gramZ (n : nat) (B : zmat) (i j : nat) : Z := sumZ n (fun l => B l i * B l j)%Z.

(** product of the leading minors of the Gram matrix *)
Definition potential (n d : nat) (B : zmat) : Z := prodZ d (fun k => detZ (S k) (gramZ n B)).

Lemma minor_rf n d B r k : R_factor n d B r -> (k <= d)%nat -> IZR (detZ k (gramZ n B)) = prodR k (fun i => r i i * r i i).
Proof.
  intros (U & Dg & G) Hk. rewrite detZ_IZR. apply det_gram.
  - intros; apply U; lia.
  - intros; apply Dg; lia.
  - intros i j Hi Hj. unfold gramZ. rewrite <- G by lia. apply sumR_cut; [assumption|].
    intros l Hl. rewrite (U l i) by lia. ring.
Qed.

Lemma minor_pos n d B r k : R_factor n d B r -> (k <= d)%nat -> (0 < detZ k (gramZ n B))%Z.
Proof.
  intros RF Hk. apply lt_IZR. rewrite (minor_rf n d B r k RF Hk). apply prodR_pos. intros i Hi.
  destruct RF as (_ & Dg & _). apply Rsqr_pos_lt, Dg. lia.
Qed.

Lemma potential_pos n d B r : R_factor n d B r -> (0 < potential n d B)%Z.
Proof. intros RF. apply prodZ_pos. intros i Hi. apply (minor_pos n d B r); [assumption|lia]. Qed.

Lemma potential_same n d B B' r r' : R_factor n d B r -> R_factor n d B' r' ->
  (forall j, (j < d)%nat -> r' j j = r j j) -> potential n d B' = potential n d B.
Proof.
  intros R1 R2 E. apply prodZ_ext. intros k Hk. apply eq_IZR.
  rewrite (minor_rf n d B r) by (auto; lia). rewrite (minor_rf n d B' r') by (auto; lia).
  apply prodR_ext. intros i Hi. now rewrite E by lia.
Qed.

Lemma prodR_swap2 k f g m : (S m < k)%nat -> (forall i, (i < k)%nat -> i <> m -> i <> S m -> g i = f i) ->
  g m * g (S m) = f m * f (S m) -> prodR k g = prodR k f.
Proof.
  induction k as [|k IH]; intros Hm E P; [lia|]. destruct (Nat.eq_dec (S m) k) as [<-|N].
  - cbn [prodR]. rewrite (prodR_ext m g f) by (intros; apply E; lia). rewrite !Rmult_assoc. now rewrite P.
  - cbn [prodR]. rewrite (E k), IH by (auto; try lia; intros; apply E; lia). reflexivity.
Qed.

Lemma potential_swap n d B B' r r' k : (1 <= k)%nat -> (k < d)%nat -> R_factor n d B r -> R_factor n d B' r' ->
  (forall j, (j < d)%nat -> j <> (k - 1)%nat -> j <> k -> r' j j = r j j) ->
  r' (k - 1)%nat (k - 1)%nat * r' (k - 1)%nat (k - 1)%nat < r (k - 1)%nat (k - 1)%nat * r (k - 1)%nat (k - 1)%nat ->
  (r' (k - 1)%nat (k - 1)%nat * r' (k - 1)%nat (k - 1)%nat) * (r' k k * r' k k) =
  (r (k - 1)%nat (k - 1)%nat * r (k - 1)%nat (k - 1)%nat) * (r k k * r k k) ->
  (potential n d B' < potential n d B)%Z.
Proof.
  intros H1 Hk R1 R2 E L P. apply (prodZ_lt d _ _ (k - 1)); [lia| | |].
  - intros i Hi. apply (minor_pos n d B r); [assumption|lia].
  - intros i Hi N. apply eq_IZR. rewrite (minor_rf n d B r) by (auto; lia). rewrite (minor_rf n d B' r') by (auto; lia).
    destruct (Nat.lt_ge_cases i (k - 1)).
    + apply prodR_ext. intros j Hj. rewrite E by lia. reflexivity.
    + apply (prodR_swap2 (S i) _ _ (k - 1)).
      * lia.
      * intros j Hj N1 N2. rewrite E by lia. reflexivity.
      * replace (S (k - 1)) with k by lia. exact P.
  - split; [apply (minor_pos n d B' r'); [assumption|lia]|]. apply lt_IZR.
    rewrite (minor_rf n d B r) by (auto; lia). rewrite (minor_rf n d B' r') by (auto; lia). cbn [prodR].
    rewrite (prodR_ext (k - 1) _ (fun i => r i i * r i i)) by (intros j Hj; rewrite E by lia; reflexivity).
    apply Rmult_lt_compat_l; [|exact L]. apply prodR_pos. intros j Hj. destruct R1 as (_ & Dg & _). apply Rsqr_pos_lt, Dg. lia.
Qed.

Lemma potential_ratio n d B B' r r' k theta : (1 <= k)%nat -> (k < d)%nat -> R_factor n d B r -> R_factor n d B' r' ->
  (forall j, (j < d)%nat -> j <> (k - 1)%nat -> j <> k -> r' j j = r j j) ->
  r' (k - 1)%nat (k - 1)%nat * r' (k - 1)%nat (k - 1)%nat <= theta * (r (k - 1)%nat (k - 1)%nat * r (k - 1)%nat (k - 1)%nat) ->
  (r' (k - 1)%nat (k - 1)%nat * r' (k - 1)%nat (k - 1)%nat) * (r' k k * r' k k) =
  (r (k - 1)%nat (k - 1)%nat * r (k - 1)%nat (k - 1)%nat) * (r k k * r k k) ->
  IZR (potential n d B') <= theta * IZR (potential n d B).
Proof.
  intros H1 Hk R1 R2 E L P. apply (prodZ_ratio d _ _ (k - 1)); [lia| | |].
  - intros i Hi. apply (minor_pos n d B r); [assumption|lia].
  - intros i Hi N. apply eq_IZR. rewrite (minor_rf n d B r) by (auto; lia). rewrite (minor_rf n d B' r') by (auto; lia).
    destruct (Nat.lt_ge_cases i (k - 1)).
    + apply prodR_ext. intros j Hj. rewrite E by lia. reflexivity.
    + apply (prodR_swap2 (S i) _ _ (k - 1)).
      * lia.
      * intros j Hj N1 N2. rewrite E by lia. reflexivity.
      * replace (S (k - 1)) with k by lia. exact P.
  - rewrite (minor_rf n d B r) by (auto; lia). rewrite (minor_rf n d B' r') by (auto; lia). cbn [prodR].
    rewrite (prodR_ext (k - 1) _ (fun i => r i i * r i i)) by (intros j Hj; rewrite E by lia; reflexivity).
    set (PP := prodR (k - 1) _).
    replace (theta * (PP * (r (k - 1)%nat (k - 1)%nat * r (k - 1)%nat (k - 1)%nat))) with (PP * (theta * (r (k - 1)%nat (k - 1)%nat * r (k - 1)%nat (k - 1)%nat))) by ring.
    apply Rmult_le_compat_l; [|exact L]. unfold PP. apply Rlt_le, prodR_pos. intros j Hj. destruct R1 as (_ & Dg & _). apply Rsqr_pos_lt, Dg. lia.
Qed.

(** ** In the loop *)
Section Pot.
Variable fp : fpops R.
Hypothesis X : exact fp.
Variable c : cfg.
Notation n := (cn c).
Notation d := (cd c).
Notation fz := (fzero fp).
Notation Sj s j := (nth j (iS s) 0%nat).
Notation b s j := (bval fp s j).
Notation V g := (Vf fp g).
Notation r g i j := (mget fz (fR g) i j).
Notation sgood := (sgood c).
Notation gwf := (gwf c).
Notation EI := (EI fp c).
Notation cur := (cur fp c).
Notation tail := (tail fp c).

(** the data of the first kappa columns can be completed *)
Lemma extend m : forall kappa s g, EI kappa s g -> (kappa + m <= d)%nat ->
  exists g', EI (kappa + m) s g' /\ (forall i j, (i <= j < kappa)%nat -> r g' i j = r g i j).
Proof.
  induction m as [|m IH]; intros kappa s g E Hm.
  - exists g. rewrite Nat.add_0_r. auto.
  - destruct (IH kappa s g E ltac:(lia)) as (g1 & E1 & R1).
    destruct (hr_cur fp X c (kappa + m) s g1 E1 ltac:(lia)) as (E2 & C2 & M2 & _ & _ & R2).
    destruct (hv_exact fp X c (kappa + m) s _ E2 ltac:(lia) C2 M2) as (g3 & _ & E3 & R3 & _).
    exists g3. replace (kappa + S m)%nat with (S (kappa + m)) by lia. split; [exact E3|].
    intros i j Hij. rewrite R3 by lia. rewrite R2 by lia. now apply R1.
Qed.

Lemma EI_R_factor s g : EI d s g -> (d <= n)%nat ->
  R_factor n d (fn (iB s)) (fun i j => if (i <=? j)%nat then r g i j else 0).
Proof.
  intros E ND. split; [|split].
  - intros i j Hij. now replace (i <=? j)%nat with false by (symmetry; apply Nat.leb_gt; lia).
  - intros i Hi. rewrite Nat.leb_refl. apply (ei_c _ _ _ _ _ E i Hi).
  - intros j l Hj Hl.
    transitivity (dot n (b s j) (b s l)).
    + rewrite <- (Hs_dot n (V g) d) by (intros k Hk; apply (ei_v _ _ _ _ _ E k Hk)).
      unfold dot. rewrite (sumR_cut n d); [|assumption|].
      * apply sumR_ext. intros i Hi. rewrite !(Hs_col fp c s g) by (try apply E; lia). reflexivity.
      * intros i Hi. rewrite (Hs_col fp c s g j) by (try apply E; lia).
        replace (i <=? j)%nat with false by (symmetry; apply Nat.leb_gt; lia). ring.
    + rewrite sumZ_IZR. apply sumR_ext. intros i Hi. rewrite !bval_IZR by assumption. now rewrite mult_IZR.
Qed.

Definition D (s : ist) : Z := potential n d (fn (iB s)).

Lemma rf_exists s : sgood s -> independent n d (fn (iB s)) -> exists r, R_factor n d (fn (iB s)) r.
Proof.
  intros G I. destruct (Nat.eq_dec d 0) as [E0|N0].
  - exists (fun _ _ => 0). split; [|split]; intros; lia.
  - set (g := mkF (mtab n d (fun _ _ => 0)) [] (mtab n d (fun _ _ => 0)) [] [] (repeat 0 d) 0 [] 0%nat [] [] []).
    assert (E : EI 0 s g).
    { split; auto; try (intros; lia). unfold g. split; cbn [fR fV fnB2]; auto using mtab_wfm. apply repeat_length. }
    destruct (extend d 0 s g E ltac:(lia)) as (g' & E' & _). eexists. apply (EI_R_factor s g'); auto.
    apply (sgood_ND c s G). lia.
Qed.

Lemma D_pos s : sgood s -> independent n d (fn (iB s)) -> (0 < D s)%Z.
Proof. intros G I. destruct (rf_exists s G I) as (r & RF). now apply (potential_pos n d _ r). Qed.

Lemma redto_good s s' : sgood s -> redto c s s' -> sgood s' /\ (independent n d (fn (iB s)) -> independent n d (fn (iB s'))).
Proof.
  intros G H. induction H as [|s1 k i a H1 [G1 I1] Hi Hk]; [auto|].
  assert (St : isteps c s1 (mkI (colop 0%Z (redf a) 0 (Sj s1 i) (iB s1) k i)
                  (if ctransf c then colop 0%Z (redf a) 0 (min d (Sj s1 i)) (iU s1) k i else iU s1) (iS s1)))
    by (apply Relation_Operators.rt_step; apply is_red; assumption).
  split.
  - apply (sgood_steps c s1); [now apply isteps_P|reflexivity|assumption].
  - intros I. apply (independent_step c s1); auto.
Qed.

Lemma D_red s s' : sgood s -> independent n d (fn (iB s)) -> redto c s s' -> D s' = D s.
Proof.
  intros G I H. induction H as [|s1 k i a H1 IH Hi Hk]; [reflexivity|].
  rewrite <- IH. destruct (redto_good s s1 G H1) as [G1 I1].
  destruct (rf_exists s1 G1 (I1 I)) as (rr & RF).
  destruct (rf_red n d (fn (iB s1)) (fn (colop 0%Z (redf a) 0 (Sj s1 i) (iB s1) k i)) rr k i a Hi Hk) as (r' & RF' & E); auto.
  - intros l j Hl Hj. unfold fn. rewrite (mget_colop 0%Z _ n d) by (try apply (g_bok c s1 G1); auto). cbn [Nat.leb andb Nat.add].
    destruct (Nat.eqb_spec j k) as [->|]; cbn [andb]; [|ring]. destruct (Nat.ltb_spec l (Sj s1 i)).
    + unfold redf. ring.
    + pose proof (b_zero c s1 (g_bok c s1 G1) i ltac:(lia) l ltac:(lia)) as Z. unfold fn in Z. rewrite Z. ring.
  - unfold D. cbn [iB]. now apply (potential_same n d _ _ rr r').
Qed.

Lemma D_swap kappa s g : EI kappa s g -> cur s g kappa -> (1 <= kappa)%nat -> (kappa < d)%nat ->
  tail s g kappa + r g (kappa - 1) kappa * r g (kappa - 1) kappa < r g (kappa - 1) (kappa - 1) * r g (kappa - 1) (kappa - 1) ->
  (D (swap_i c s kappa) < D s)%Z.
Proof.
  intros E C H1 Hk L. pose proof (EI_ND fp c _ _ _ E Hk) as ND.
  pose proof (ei_s _ _ _ _ _ E) as G. pose proof (g_gt c s G kappa Hk) as GT.
  destruct (hr_cur fp X c kappa s g E Hk) as (E2 & C2 & M2 & _ & V2 & R2).
  destruct (hv_exact fp X c kappa s _ E2 Hk C2 M2) as (g3 & _ & E3 & R3 & T3 & _).
  destruct (extend (d - S kappa) (S kappa) s g3 E3 ltac:(lia)) as (g4 & E4 & R4).
  replace (S kappa + (d - S kappa))%nat with d in E4 by lia.
  pose proof (EI_R_factor s g4 E4 ND) as RF. set (rr := fun i j => if (i <=? j)%nat then r g4 i j else 0) in RF.
  assert (Q1 : rr (kappa - 1)%nat (kappa - 1)%nat = r g (kappa - 1) (kappa - 1)).
  { unfold rr. rewrite Nat.leb_refl, R4, R3, R2 by lia. reflexivity. }
  assert (Q2 : rr (kappa - 1)%nat kappa = r g (kappa - 1) kappa).
  { unfold rr. replace (kappa - 1 <=? kappa)%nat with true by (symmetry; apply Nat.leb_le; lia). rewrite R4, R3 by lia.
    pose proof (C (kappa - 1)%nat ltac:(lia)) as A1. pose proof (C2 (kappa - 1)%nat ltac:(lia)) as A2. rewrite V2, A1 in A2.
    replace (kappa - 1 <? Sj s kappa)%nat with true in A2 by (symmetry; apply Nat.ltb_lt; lia). symmetry. exact A2. }
  assert (Q3 : rr kappa kappa * rr kappa kappa = tail s g kappa).
  { unfold rr. rewrite Nat.leb_refl, R4 by lia. rewrite T3. unfold ExactLoop2.tail. now rewrite V2. }
  destruct (rf_swap n d (fn (iB s)) (fn (iB (swap_i c s kappa))) rr kappa H1 Hk) as (r' & RF' & A1 & A2 & A3); auto.
  { intros l j Hl Hj. unfold fn, mget. rewrite swap_B by auto. reflexivity. }
  unfold D. apply (potential_swap n d _ _ rr r' kappa); auto. rewrite A2, Q1, Q2, Q3. lra.
Qed.

Lemma D_ratio theta kappa s g : EI kappa s g -> cur s g kappa -> (1 <= kappa)%nat -> (kappa < d)%nat ->
  tail s g kappa + r g (kappa - 1) kappa * r g (kappa - 1) kappa <= theta * (r g (kappa - 1) (kappa - 1) * r g (kappa - 1) (kappa - 1)) ->
  IZR (D (swap_i c s kappa)) <= theta * IZR (D s).
Proof.
  intros E C H1 Hk L. pose proof (EI_ND fp c _ _ _ E Hk) as ND.
  pose proof (ei_s _ _ _ _ _ E) as G. pose proof (g_gt c s G kappa Hk) as GT.
  destruct (hr_cur fp X c kappa s g E Hk) as (E2 & C2 & M2 & _ & V2 & R2).
  destruct (hv_exact fp X c kappa s _ E2 Hk C2 M2) as (g3 & _ & E3 & R3 & T3 & _).
  destruct (extend (d - S kappa) (S kappa) s g3 E3 ltac:(lia)) as (g4 & E4 & R4).
  replace (S kappa + (d - S kappa))%nat with d in E4 by lia.
  pose proof (EI_R_factor s g4 E4 ND) as RF. set (rr := fun i j => if (i <=? j)%nat then r g4 i j else 0) in RF.
  assert (Q1 : rr (kappa - 1)%nat (kappa - 1)%nat = r g (kappa - 1) (kappa - 1)).
  { unfold rr. rewrite Nat.leb_refl, R4, R3, R2 by lia. reflexivity. }
  assert (Q2 : rr (kappa - 1)%nat kappa = r g (kappa - 1) kappa).
  { unfold rr. replace (kappa - 1 <=? kappa)%nat with true by (symmetry; apply Nat.leb_le; lia). rewrite R4, R3 by lia.
    pose proof (C (kappa - 1)%nat ltac:(lia)) as A1. pose proof (C2 (kappa - 1)%nat ltac:(lia)) as A2. rewrite V2, A1 in A2.
    replace (kappa - 1 <? Sj s kappa)%nat with true in A2 by (symmetry; apply Nat.ltb_lt; lia). symmetry. exact A2. }
  assert (Q3 : rr kappa kappa * rr kappa kappa = tail s g kappa).
  { unfold rr. rewrite Nat.leb_refl, R4 by lia. rewrite T3. unfold ExactLoop2.tail. now rewrite V2. }
  destruct (rf_swap n d (fn (iB s)) (fn (iB (swap_i c s kappa))) rr kappa H1 Hk) as (r' & RF' & A1 & A2 & A3); auto.
  { intros l j Hl Hj. unfold fn, mget. rewrite swap_B by auto. reflexivity. }
  unfold D. apply (potential_ratio n d _ _ rr r' kappa); auto. rewrite A2, Q1, Q2, Q3. lra.
Qed.

End Pot.
