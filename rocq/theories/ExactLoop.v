(** * hlll in exact arithmetic: the invariant of the main loop *)
From Coq Require Import ZArith Lia Reals Lra List Bool Arith.
From Verif Require Import Base Spec Mat FP Hlll IntSteps HlllInt Structure Object Safety SpecReal Fresh Cache Cache2 Cache4 Cache5 Exact HHMath.
Import ListNotations.
Local Open Scope R_scope.

Lemma Hs_extV n V V' K w : (forall k i, (k < K)%nat -> (k <= i < n)%nat -> V i k = V' i k) ->
  forall i, (i < n)%nat -> Hs n V K w i = Hs n V' K w i.
Proof.
  induction K as [|k IH]; intros E i Hi; cbn [Hs]; auto.
  assert (EV : forall i, (i < n)%nat -> vk V k i = vk V' k i).
  { intros l Hl. unfold vk. destruct (Nat.leb_spec k l); auto; apply E; lia. }
  unfold refl. rewrite EV by assumption. rewrite IH by (auto; intros; apply E; lia).
  rewrite (dot_ext n (vk V k) (Hs n V k w) (vk V' k) (Hs n V' k w)); [reflexivity|exact EV|].
  intros l Hl. apply IH; auto.
Qed.

Lemma unit2_ext n V V' k : (forall i, (k <= i < n)%nat -> V i k = V' i k) -> unit2 n V k -> unit2 n V' k.
Proof.
  intros E U. unfold unit2 in *. rewrite <- U. symmetry. apply dot_ext; intros l Hl; unfold vk;
    destruct (Nat.leb_spec k l); auto; apply E; lia.
Qed.

Section Loop.
Variable fp : fpops R.
Hypothesis X : exact fp.
Variable c : cfg.
Notation n := (cn c).
Notation d := (cd c).
Notation fz := (fzero fp).
Notation Sj s j := (nth j (iS s) 0%nat).
Notation b s j := (bval fp s j).
Notation V g := (Vf fp g).
Notation r g i j := (mget fz (fR g) i j).
Notation sgood := (sgood c).
Notation gwf := (gwf c).

Let EX : expo_nonneg fp := e_expo fp X.

Definition vgood (s : ist) (g : fst_ R) (k : nat) : Prop :=
  unit2 n (V g) k /\ forall i, (Sj s k <= i < n)%nat -> V g i k = 0.

Definition colH (s : ist) (g : fst_ R) (j : nat) : Prop :=
  (forall i, (i < n)%nat -> Hs n (V g) (S j) (b s j) i = if (i <=? j)%nat then r g i j else 0) /\ r g j j <> 0.

Record EI (kappa : nat) (s : ist) (g : fst_ R) : Prop := {
  ei_w : gwf g;
  ei_s : sgood s;
  ei_i : independent n d (fn (iB s));
  ei_v : forall k, (k < kappa)%nat -> vgood s g k;
  ei_c : forall j, (j < kappa)%nat -> colH s g j }.

(** the current column *)
Definition cur (s : ist) (g : fst_ R) (kappa : nat) : Prop :=
  forall i, (i < n)%nat -> Hs n (V g) kappa (b s kappa) i = if (i <? Sj s kappa)%nat then r g i kappa else 0.

Definition redd (g : fst_ R) (m kappa : nat) : Prop :=
  forall i, (m <= i < kappa)%nat -> Rabs (r g i kappa) <= Rabs (r g i i) / 2.

Lemma bval_IZR s j i : b s j i = IZR (fn (iB s) i j).
Proof. unfold bval. now rewrite (e_setz fp X). Qed.

Lemma b_zero' s j i : sgood s -> (j < d)%nat -> (Sj s j <= i < n)%nat -> b s j i = 0.
Proof. intros G Hj Hi. rewrite bval_IZR. rewrite (b_zero c s (g_bok c s G) j Hj i) by lia. reflexivity. Qed.

Lemma EI_ND kappa s g : EI kappa s g -> (kappa < d)%nat -> (d <= n)%nat.
Proof. intros E H. apply (sgood_ND c s (ei_s _ _ _ E)). lia. Qed.

Lemma Hs_col s g j K i : colH s g j -> (j < K)%nat -> (i < n)%nat ->
  Hs n (V g) K (b s j) i = if (i <=? j)%nat then r g i j else 0.
Proof.
  intros [C _] HK Hi. rewrite (Hs_stable n (V g) j K); [now apply C|lia|].
  intros l Hl. rewrite C by lia. now replace (l <=? j)%nat with false by (symmetry; apply Nat.leb_gt; lia).
Qed.

(** *** the tail of the current column is not zero *)
Definition comb (s : ist) (a : nat -> R) : nat -> R := fun i => sumR d (fun j => IZR (fn (iB s) i j) * a j).

Lemma comb_sub s (a : nat -> R) (j : nat) (x : R) : (j < d)%nat ->
  forall i, comb s (fun q => a q - (if (q =? j)%nat then x else 0)) i = comb s a i - x * b s j i.
Proof.
  intros Hj i. unfold comb. rewrite bval_IZR.
  rewrite (sumR_ext d _ (fun q => IZR (fn (iB s) i q) * a q - (if (q =? j)%nat then IZR (fn (iB s) i j) * x else 0))).
  - rewrite sumR_minus, (sumR_single d j (fun q => if (q =? j)%nat then _ else _)); auto.
    + rewrite Nat.eqb_refl. ring.
    + intros q _ Nq. apply Nat.eqb_neq in Nq. now rewrite Nq.
  - intros q Hq. destruct (Nat.eqb_spec q j) as [->|]; ring.
Qed.

Lemma tail_pos kappa s g : EI kappa s g -> (kappa < d)%nat ->
  0 < sumR n (fun i => if (kappa <=? i)%nat then Hs n (V g) kappa (b s kappa) i * Hs n (V g) kappa (b s kappa) i else 0).
Proof.
  intros E Hk. set (w := Hs n (V g) kappa (b s kappa)).
  assert (NN : 0 <= sumR n (fun i => if (kappa <=? i)%nat then w i * w i else 0)).
  { apply sumR_nonneg. intros i _. destruct (kappa <=? i)%nat; [|lra]. pose proof (Rle_0_sqr (w i)). unfold Rsqr in *. lra. }
  destruct NN as [P|Z]; [exact P|exfalso].
  assert (W0 : forall i, (kappa <= i < n)%nat -> w i = 0).
  { intros i Hi. rewrite (sumR_ext n _ (fun i => (if (kappa <=? i)%nat then w i else 0) * (if (kappa <=? i)%nat then w i else 0))) in Z.
    - symmetry in Z. pose proof (sumR_sq_0 n _ Z i ltac:(lia)) as Q. cbn beta in Q.
      now replace (kappa <=? i)%nat with true in Q by (symmetry; apply Nat.leb_le; lia).
    - intros l Hl. destruct (kappa <=? l)%nat; ring. }
  pose proof (EI_ND _ _ _ E Hk) as ND.
  assert (KEY : forall m, (m <= kappa)%nat -> exists a : nat -> R, a kappa = 1 /\
     forall i, (kappa - m <= i < n)%nat -> Hs n (V g) kappa (comb s a) i = 0).
  { induction m as [|m IH]; intros Hm.
    - exists (fun q => if (q =? kappa)%nat then 1 else 0). rewrite Nat.eqb_refl. split; [reflexivity|].
      intros i Hi. transitivity (w i); [|apply W0; lia]. apply Hs_ext; [|lia]. intros l Hl. unfold comb.
      rewrite (sumR_single d kappa); auto.
      + rewrite Nat.eqb_refl, bval_IZR. ring.
      + intros q _ Nq. apply Nat.eqb_neq in Nq. rewrite Nq. ring.
    - destruct IH as (a & A1 & A2); [lia|].
      set (j := (kappa - S m)%nat). assert (Hj : (j < kappa)%nat) by (unfold j; lia).
      pose proof (ei_c _ _ _ E j Hj) as C. pose proof C as [_ C2].
      set (x := Hs n (V g) kappa (comb s a) j / r g j j).
      exists (fun q => a q - (if (q =? j)%nat then x else 0)). split.
      + replace (kappa =? j)%nat with false by (symmetry; apply Nat.eqb_neq; lia). lra.
      + intros i Hi. rewrite (Hs_ext n (V g) kappa _ (fun i => comb s a i - x * b s j i)) by
          (try lia; intros; apply comb_sub; lia).
        rewrite Hs_sub by lia. rewrite (Hs_col s g j kappa i C Hj) by lia.
        destruct (Nat.leb_spec i j).
        * assert (i = j) as -> by lia. unfold x. field. exact C2.
        * rewrite A2 by lia. ring. }
  destruct (KEY kappa ltac:(lia)) as (a & A1 & A2). rewrite Nat.sub_diag in A2.
  assert (Z0 : dot n (comb s a) (comb s a) = 0).
  { rewrite <- (Hs_dot n (V g) kappa) by (intros k Hkk; apply (ei_v _ _ _ E k Hkk)).
    apply sumR_0. intros i Hi. rewrite A2 by lia. ring. }
  assert (Z1 : forall i, (i < n)%nat -> comb s a i = 0) by (intros i Hi; apply (sumR_sq_0 n (comb s a)); auto).
  pose proof (independent_real n d (fn (iB s)) (ei_i _ _ _ E) a Z1 kappa Hk). lra.
Qed.

(** *** recomputation of the column *)
Lemma EI_frame kappa s g g' : EI kappa s g -> gwf g' ->
  (forall k i, (k < kappa)%nat -> (i < n)%nat -> V g' i k = V g i k) ->
  (forall j i, (j < kappa)%nat -> (i <= j)%nat -> r g' i j = r g i j) -> EI kappa s g'.
Proof.
  intros [W G I Vg C] W' HV HR. split; auto.
  - intros k Hk. destruct (Vg k Hk) as [U Z]. split.
    + apply (unit2_ext n (V g) (V g')); auto. intros i Hi. symmetry. apply HV; lia.
    + intros i Hi. rewrite HV by lia. now apply Z.
  - intros j Hj. destruct (C j Hj) as [C1 C2]. split.
    + intros i Hi. rewrite (Hs_extV n (V g') (V g)) by (auto; intros; apply HV; lia).
      rewrite C1 by assumption. destruct (Nat.leb_spec i j); auto. now rewrite HR.
    + now rewrite HR by lia.
Qed.

Lemma fst_fR_lupd (g : fst_ R) kappa v i j : gwf g -> (kappa < d)%nat ->
  mget fz (lupd (fR g) kappa v) i j = if (j =? kappa)%nat then nth i v fz else r g i j.
Proof.
  intros W Hk. unfold mget. rewrite col_lupd, (wfm_length n d) by apply W.
  replace (kappa <? d)%nat with true by (symmetry; now apply Nat.ltb_lt). rewrite andb_true_r. now destruct (j =? kappa)%nat.
Qed.

Lemma hr_cur kappa s g : EI kappa s g -> (kappa < d)%nat ->
  let g' := householder_ref fp s g kappa in
  EI kappa s g' /\ cur s g' kappa /\ fnmax g' = Sj s kappa /\
  nth kappa (fnB2 g') fz = dot n (b s kappa) (b s kappa) /\ V g' = V g /\
  (forall i j, j <> kappa -> r g' i j = r g i j).
Proof.
  intros E Hk g'. pose proof (EI_ND _ _ _ E Hk) as ND. pose proof (ei_w _ _ _ E) as W. pose proof (ei_s _ _ _ E) as G.
  pose proof (g_gt c s G kappa Hk) as G1. pose proof (g_le c s G kappa Hk) as G2.
  assert (LR : length (col (fR g) kappa) = n) by (apply (wfm_col n d); [apply W|lia]).
  set (v := rcol fp (V g) s kappa (col (fR g) kappa)).
  assert (Lv : length v = n) by (now apply (rcol_length fp c)).
  assert (RG : forall i j, r g' i j = if (j =? kappa)%nat then nth i v fz else r g i j).
  { intros i j. unfold g', householder_ref. setf. fold v. now apply fst_fR_lupd. }
  assert (RN : forall i j, j <> kappa -> r g' i j = r g i j).
  { intros i j Nj. rewrite RG. apply Nat.eqb_neq in Nj. now rewrite Nj. }
  assert (W' : gwf g').
  { destruct W. unfold g', householder_ref. split; setf; auto; [now apply wfm_lupd|now rewrite lupd_length]. }
  split; [|split; [|split; [reflexivity|split; [|split; [reflexivity|exact RN]]]]].
  - apply (EI_frame kappa s g); auto. intros j i Hj Hi. apply RN. lia.
  - change (V g') with (V g). intros i Hi.
    destruct (wch_extend fp (exact_zero_laws fp X) (V g) (Sj s kappa) n (b s kappa) kappa) as [I1 I2]; try lia.
    { intros l Hl. rewrite (e_zero fp X). apply b_zero'; auto. }
    { intros j l Hj Hl. rewrite (e_zero fp X). apply (ei_v _ _ _ E j Hj).
      pose proof (b_mono c s (g_bok c s G) j kappa ltac:(lia)). lia. }
    rewrite <- (wch_Hs n (V g) fp X) by lia. destruct (Nat.ltb_spec i (Sj s kappa)).
    + rewrite I1 by assumption. rewrite RG, Nat.eqb_refl. symmetry. apply (rcol_nth fp c); auto.
    + rewrite I2 by lia. apply (e_zero fp X).
  - unfold g', householder_ref. setf. rewrite nth_lupd_eq by (destruct W as [_ _ Wn]; rewrite Wn; exact Hk).
    rewrite dotf_sum by (auto; lia). cbn [Nat.leb]. unfold dot. symmetry. apply sumR_cut; auto.
    intros i Hi. rewrite b_zero' by auto. ring.
Qed.

(** *** one size-reduction step *)
Lemma gR_ok (M : mat R) i j : (i < n)%nat -> (j < d)%nat -> gR fp c M i j = Ok (mget fz M i j).
Proof.
  intros Hi Hj. unfold gR, guard. apply Nat.ltb_lt in Hi, Hj. now rewrite Hi, Hj.
Qed.

Lemma rop_exact k v w : rop fp (fst (fgse fp (IZR k))) (snd (fgse fp (IZR k))) (IZR k) v w = v - IZR k * w.
Proof.
  pose proof (e_gse fp X k) as E. unfold rop. destruct (fgse fp (IZR k)) as [lx ex]. cbn [fst snd] in *.
  rewrite !(e_submul fp X), (e_sub fp X), (e_add fp X).
  destruct (Z.eqb_spec ex 0) as [->|]; [|reflexivity]. rewrite Z.mul_1_r in E. subst lx.
  destruct (Z.eqb_spec k 1) as [->|]; [ring|]. destruct (Z.eqb_spec k (-1)) as [->|]; ring.
Qed.

Lemma bcoef_exact k : bcoef c (fst (fgse fp (IZR k))) (snd (fgse fp (IZR k))) (fset_f fp (IZR k)) = k.
Proof.
  pose proof (e_gse fp X k) as E. rewrite (e_setf fp X). unfold bcoef. destruct (fgse fp (IZR k)) as [lx ex]. cbn [fst snd] in *.
  destruct (Z.eqb_spec ex 0) as [->|].
  - rewrite Z.mul_1_r in E. subst lx. destruct (Z.eqb_spec k 1) as [->|]; [ring|]. destruct (Z.eqb_spec k (-1)) as [->|]; [ring|].
    now destruct (clong c).
  - now destruct (clong c).
Qed.

(** column operations b_k := b_k - a b_i, i < k *)
Inductive redto (s0 : ist) : ist -> Prop :=
| red_refl : redto s0 s0
| red_step s k i a : redto s0 s -> (i < k)%nat -> (k < d)%nat ->
    redto s0 (mkI (colop 0%Z (redf a) 0 (Sj s i) (iB s) k i)
                  (if ctransf c then colop 0%Z (redf a) 0 (min d (Sj s i)) (iU s) k i else iU s) (iS s)).

Lemma redto_trans s0 s1 s2 : redto s0 s1 -> redto s1 s2 -> redto s0 s2.
Proof. intros H1 H2. induction H2; auto. now apply red_step. Qed.

Record pinv (kappa m : nat) (s0 : ist) (g0 : fst_ R) (s : ist) (g : fst_ R) : Prop := {
  pi_e : EI kappa s g;
  pi_c : cur s g kappa;
  pi_r : redd g m kappa;
  pi_S : iS s = iS s0;
  pi_B : forall j, j <> kappa -> col (iB s) j = col (iB s0) j;
  pi_R : forall i j, j <> kappa -> r g i j = r g0 i j;
  pi_t : forall i, (kappa <= i)%nat -> r g i kappa = r g0 i kappa;
  pi_g : g = set_x (fx g) (set_R (fR g) g0);
  pi_i : redto s0 s }.

Lemma bval_neq s s0 kappa j : (forall j, j <> kappa -> col (iB s) j = col (iB s0) j) -> j <> kappa -> b s j = b s0 j.
Proof. intros H N. unfold bval, mget. now rewrite H. Qed.

Lemma independent_step s t : sgood s -> isteps c s t -> independent n d (fn (iB s)) -> independent n d (fn (iB t)).
Proof.
  intros G St I. destruct (istepsP_bok c s t (isteps_P c s t St) (g_bok c s G)) as (_ & U & UU & EU).
  now apply (Spec.independent_mul n d (fn (iB s)) U).
Qed.

Lemma step_inv kappa m s0 g0 s g dn : (S m <= kappa)%nat -> (kappa < d)%nat -> pinv kappa (S m) s0 g0 s g ->
  exists s' g' dn', size_update_step fp c kappa m (s, g, dn) = Ok (s', g', dn') /\ pinv kappa m s0 g0 s' g' /\
    (dn' = dn \/ dn' = true) /\
    (Rabs (r g m kappa) <= Rabs (r g m m) / 2 -> (forall x, Rabs x <= / 2 -> frnd fp x = 0) -> dn' = dn /\ s' = s /\ fR g' = fR g) /\
    (dn' = false -> s' = s /\ fR g' = fR g).
Proof.
  intros Hm Hk P. pose proof (pi_e _ _ _ _ _ _ P) as E. pose proof (EI_ND _ _ _ E Hk) as ND.
  pose proof (ei_s _ _ _ E) as G. pose proof (ei_w _ _ _ E) as W.
  unfold size_update_step. rewrite !gR_ok by lia. cbn [bind].
  set (rmk := r g m kappa). set (rmm := r g m m).
  pose proof (ei_c _ _ _ E m ltac:(lia)) as CM. pose proof CM as [_ NZ]. fold rmm in NZ.
  rewrite (e_div fp X). destruct (e_rnd fp X (rmk / rmm)) as (k & Ek & Hkk).
  assert (RED : Rabs (rmk - IZR k * rmm) <= Rabs rmm / 2).
  { replace (rmk - IZR k * rmm) with ((rmk / rmm - IZR k) * rmm) by (field; assumption).
    rewrite Rabs_mult. apply Rle_trans with (/ 2 * Rabs rmm); [|lra].
    apply Rmult_le_compat_r; [apply Rabs_pos|assumption]. }
  assert (HALF : Rabs rmk <= Rabs rmm / 2 -> (forall x, Rabs x <= / 2 -> frnd fp x = 0) -> frnd fp (rmk / rmm) = 0).
  { intros H1 H2. apply H2. unfold Rdiv. rewrite Rabs_mult, Rabs_inv.
    apply Rmult_le_reg_r with (Rabs rmm); [now apply Rabs_pos_lt|].
    rewrite Rmult_assoc, Rinv_l by (now apply Rabs_no_R0). lra. }
  destruct (fnz fp (frnd fp (rmk / rmm))) eqn:NZk.
  - apply (e_nz fp X) in NZk.
    rewrite Ek in *. destruct (fgse fp (IZR k)) as [lx ex] eqn:GS.
    assert (Hex : (0 <= ex)%Z) by (pose proof (EX (IZR k)) as Q; rewrite GS in Q; exact Q).
    pose proof (g_le c s G m ltac:(lia)) as G2. pose proof (g_gt c s G m ltac:(lia)) as G1.
    unfold guard. replace (Sj s m <=? n)%nat with true by (symmetry; now apply Nat.leb_le).
    setf. do 3 eexists. split; [reflexivity|].
    set (g' := set_R _ _). rewrite !(colop_bop c lx ex) by assumption.
    pose proof (bcoef_exact k) as BC. rewrite GS in BC. cbn [fst snd] in BC. rewrite BC.
    set (s' := mkI _ _ _).
    assert (St : isteps c s s') by (apply Relation_Operators.rt_step; apply is_red; lia).
    assert (G' : sgood s') by (apply (sgood_steps c s); [now apply isteps_P|reflexivity|exact G]).
    assert (RG : forall i j, (i < n)%nat -> r g' i j = if ((j =? kappa)%nat && (i <? m + 1)%nat)%bool then r g i kappa - IZR k * r g i m else r g i j).
    { intros i j Hi. unfold g'. setf. rewrite (mget_colop fz _ n d) by (try apply W; auto; lia). cbn [Nat.leb andb Nat.add].
      pose proof (rop_exact k (r g i kappa) (r g i m)) as RO. rewrite GS in RO. cbn [fst snd] in RO. now rewrite RO. }
    assert (OUT : forall i j, (n <= i)%nat -> r g' i j = r g i j).
    { intros i j Hi. unfold g'. setf. rewrite !(mget_out fz n d) by (first [apply wfm_colop, W | apply W | now left]). reflexivity. }
    assert (RN : forall i j, j <> kappa -> r g' i j = r g i j).
    { intros i j Nj. destruct (Nat.lt_ge_cases i n); [|now apply OUT]. rewrite RG by assumption. apply Nat.eqb_neq in Nj. now rewrite Nj. }
    assert (W' : gwf g') by (destruct W; unfold g'; split; setf; auto; now apply wfm_colop).
    assert (CB : forall j, j <> kappa -> col (iB s') j = col (iB s) j) by (intros j Nj; unfold s', colop; cbn [iB]; now apply col_lupd_neq).
    assert (BB : forall i, (i < n)%nat -> b s' kappa i = b s kappa i - IZR k * b s m i).
    { intros i Hi. rewrite !bval_IZR. unfold s', fn. cbn [iB].
      rewrite (mget_colop 0%Z _ n d) by (try apply (g_bok c s G); auto). rewrite Nat.eqb_refl. cbn [Nat.leb andb Nat.add].
      destruct (Nat.ltb_spec i (Sj s m)).
      - unfold redf. rewrite minus_IZR, mult_IZR. reflexivity.
      - pose proof (b_zero' s m i G ltac:(lia) ltac:(lia)) as Z. rewrite bval_IZR in Z. unfold fn in Z. rewrite Z. ring. }
    assert (E' : EI kappa s' g').
    { split; auto.
      - apply (independent_step s); auto. apply E.
      - intros q Hq. exact (ei_v _ _ _ E q Hq).
      - intros j Hj. destruct (ei_c _ _ _ E j Hj) as [C1 C2]. split.
        + rewrite (bval_neq s' s kappa) by (auto; lia). intros i Hi. change (V g') with (V g). rewrite C1, RN by (auto; lia). reflexivity.
        + rewrite RN by lia. exact C2. }
    split; [|split; [auto|split; [|discriminate]]].
    + split.
      * exact E'.
      * intros i Hi. change (V g') with (V g).
        rewrite (Hs_ext n (V g) kappa _ (fun i => b s kappa i - IZR k * b s m i)) by assumption.
        rewrite Hs_sub by assumption. rewrite (pi_c _ _ _ _ _ _ P i Hi), (Hs_col s g m kappa i CM) by lia.
        change (iS s') with (iS s). rewrite RG, Nat.eqb_refl by assumption. cbn [andb].
        pose proof (g_gt c s G kappa Hk).
        destruct (Nat.leb_spec i m), (Nat.ltb_spec i (m + 1)), (Nat.ltb_spec i (Sj s kappa)); try lia; ring.
      * intros i Hi. rewrite RG, Nat.eqb_refl by lia. cbn [andb]. rewrite RN by lia.
        destruct (Nat.ltb_spec i (m + 1)).
        -- assert (i = m) as -> by lia. exact RED.
        -- apply (pi_r _ _ _ _ _ _ P). lia.
      * exact (pi_S _ _ _ _ _ _ P).
      * intros j Nj. rewrite CB by assumption. now apply (pi_B _ _ _ _ _ _ P).
      * intros i j Nj. rewrite RN by assumption. now apply (pi_R _ _ _ _ _ _ P).
      * intros i Hi. rewrite <- (pi_t _ _ _ _ _ _ P i Hi). destruct (Nat.lt_ge_cases i n); [|now apply OUT].
        rewrite RG, Nat.eqb_refl by assumption. cbn [andb].
        now replace (i <? m + 1)%nat with false by (symmetry; apply Nat.ltb_ge; lia).
      * unfold g'. rewrite (pi_g _ _ _ _ _ _ P). reflexivity.
      * apply red_step; [apply (pi_i _ _ _ _ _ _ P)|lia|lia].
    + intros H1 H2. contradiction NZk. now apply HALF.
  - do 3 eexists. split; [reflexivity|].
    assert (K0 : IZR k = 0).
    { destruct (Req_dec (IZR k) 0) as [Z|Z]; auto. exfalso. rewrite Ek in NZk.
      assert (fnz fp (IZR k) = true) by (now apply (e_nz fp X)). congruence. }
    split; [|split; [auto|split; [auto|auto]]].
    destruct P as [P1 P2 P3 P4 P5 P6 P7 P8 P9]. split; auto.
    + apply (EI_frame kappa s g); auto. destruct W; split; assumption.
    + intros i Hi. destruct (Nat.eq_dec i m) as [->|N]; [|apply P3; lia].
      setf. fold rmk rmm. replace rmk with (rmk - IZR k * rmm) by (rewrite K0; ring). exact RED.
    + setf. rewrite P8. reflexivity.
Qed.

Lemma seq_down (m : nat) : rev (seq 0 (S m)) = m :: rev (seq 0 m).
Proof. rewrite seq_S, rev_app_distr. reflexivity. Qed.

Lemma pass_gen kappa s0 g0 : (kappa < d)%nat -> forall m s g dn, (m <= kappa)%nat -> pinv kappa m s0 g0 s g ->
  exists s' g' dn', mfold (size_update_step fp c kappa) (rev (seq 0 m)) (s, g, dn) = Ok (s', g', dn') /\
     pinv kappa 0 s0 g0 s' g' /\
     (redd g 0 kappa -> (forall x, Rabs x <= / 2 -> frnd fp x = 0) -> dn' = dn).
Proof.
  intros Hk. induction m as [|m IH]; intros s g dn Hm P.
  - do 3 eexists. split; [reflexivity|]. auto.
  - rewrite seq_down. cbn [mfold].
    destruct (step_inv kappa m s0 g0 s g dn Hm Hk P) as (s1 & g1 & dn1 & -> & P1 & _ & Q1 & _). cbn [bind].
    destruct (IH s1 g1 dn1 ltac:(lia) P1) as (s2 & g2 & dn2 & -> & P2 & Q2).
    do 3 eexists. split; [reflexivity|]. split; [exact P2|]. intros H1 H2.
    destruct (Q1 (H1 m ltac:(lia)) H2) as (-> & -> & ER). apply Q2; auto.
    intros i Hi. rewrite ER. now apply H1.
Qed.

Lemma pinv_refl kappa s g : EI kappa s g -> cur s g kappa -> pinv kappa kappa s g s g.
Proof. intros E C. split; auto; [intros i Hi; lia|now destruct g|apply red_refl]. Qed.

(** *** hsizereduce, single thread *)
Hypothesis ST : (cS c = 1)%nat.

Lemma hs_pass_exact kappa s g vx : (1 <= kappa)%nat -> (kappa < d)%nat -> EI kappa s g -> cur s g kappa ->
  exists s' g' dn, hs_pass fp c s g vx kappa (hs_start kappa 0) = Ok (s', g', vx, dn) /\ pinv kappa 0 s g s' g' /\
   (redd g 0 kappa -> (forall x, Rabs x <= / 2 -> frnd fp x = 0) -> dn = false).
Proof.
  intros H1 Hk E C. unfold hs_pass, hs_start. rewrite ST. cbn [Nat.eqb orb Nat.ltb Nat.leb].
  unfold size_update, down. rewrite Nat.sub_0_r. replace (S (kappa - 1)) with kappa by lia.
  destruct (pass_gen kappa s g Hk kappa s g false (le_n _) (pinv_refl _ _ _ E C)) as (s' & g' & dn & -> & P & Q).
  cbn [bind]. do 3 eexists. split; [reflexivity|]. auto.
Qed.

Lemma mu_ok kappa s g theta : EI kappa s g -> (kappa < d)%nat -> redd g 0 kappa ->
  forall is, (forall i, In i is -> (i < kappa)%nat) -> mu_anomaly fp c (fR g) kappa theta is = Ok false.
Proof.
  intros E Hk Rd is. pose proof (EI_ND _ _ _ E Hk) as ND. induction is as [|i is IH]; intros H; cbn [mu_anomaly]; auto.
  pose proof (H i (or_introl eq_refl)) as Hi. rewrite !gR_ok by lia. cbn [bind].
  rewrite (e_abs fp X), (e_div fp X).
  destruct (fcmp1 fp _ _) eqn:EC; [|apply IH; intros; apply H; now right]. exfalso.
  apply (e_cmp fp X) in EC. rewrite (e_add fp X), (e_abs fp X), (e_one fp X) in EC.
  pose proof (Rabs_pos (fdiv fp theta (r g i i))). pose proof (Rd i ltac:(lia)) as Q. cbn beta in Q.
  destruct (ei_c _ _ _ E i Hi) as [_ NZ].
  assert (Rabs (r g i kappa / r g i i) <= / 2); [|lra].
  unfold Rdiv. rewrite Rabs_mult, Rabs_inv. apply Rmult_le_reg_r with (Rabs (r g i i)); [now apply Rabs_pos_lt|].
  rewrite Rmult_assoc, Rinv_l by (now apply Rabs_no_R0). lra.
Qed.

(** what a reduction of column kappa leaves; [Pr]: the way the new column is reduced *)
Record done (Pr : fst_ R -> Prop) (kappa : nat) (s0 : ist) (g0 : fst_ R) (s : ist) (g : fst_ R) : Prop := {
  dn_e : EI kappa s g;
  dn_c : cur s g kappa;
  dn_r : Pr g;
  dn_m : fnmax g = Sj s kappa;
  dn_S : iS s = iS s0;
  dn_B : forall j, j <> kappa -> col (iB s) j = col (iB s0) j;
  dn_V : V g = V g0;
  dn_R : forall i j, j <> kappa -> r g i j = r g0 i j;
  dn_t : forall i, (kappa <= i < n)%nat -> Hs n (V g) kappa (b s kappa) i = Hs n (V g0) kappa (b s0 kappa) i;
  dn_i : redto s0 s }.

Lemma tail_same kappa s0 g0 s g : EI kappa s0 g0 -> (kappa < d)%nat -> cur s0 g0 kappa -> pinv kappa 0 s0 g0 s g ->
  forall i, (kappa <= i < n)%nat -> Hs n (V g) kappa (b s kappa) i = Hs n (V g0) kappa (b s0 kappa) i.
Proof.
  intros E Hk C P i Hi. rewrite (pi_c _ _ _ _ _ _ P i), (C i), (pi_S _ _ _ _ _ _ P), (pi_t _ _ _ _ _ _ P i) by lia. reflexivity.
Qed.

Lemma pinv_V kappa m s0 g0 s g : pinv kappa m s0 g0 s g -> V g = V g0 /\ fnmax g = fnmax g0.
Proof. intros P. pose proof (pi_g _ _ _ _ _ _ P) as E. unfold Vf. rewrite E. split; reflexivity. Qed.

Lemma hs_loop_exact fuel : forall s g vx pn kappa, (1 <= kappa)%nat -> (kappa < d)%nat -> EI kappa s g -> cur s g kappa ->
  fnmax g = Sj s kappa ->
  match hs_loop_g fp c (hr_ref fp) fuel s g vx pn kappa (hs_start kappa 0) with
  | Ok (s', g', bad) => bad = false /\ done (fun g => redd g 0 kappa) kappa s g s' g'
  | UB => False
  | NoFuel => (forall x, Rabs x <= / 2 -> frnd fp x = 0) -> (fuel < 2)%nat /\ (redd g 0 kappa -> fuel = 0%nat)
  end.
Proof.
  induction fuel as [|fuel IH]; intros s g vx pn kappa H1 Hk E C M; cbn [hs_loop_g].
  { intros _. split; [lia|auto]. }
  destruct (hs_pass_exact kappa s g vx H1 Hk E C) as (s1 & g1 & dn & -> & P & Q). cbn [bind].
  destruct (pinv_V _ _ _ _ _ _ P) as [EV EM].
  destruct dn.
  - unfold hr_ref. cbn [bind]. set (g2 := set_kept _ g1).
    assert (E2 : EI kappa s1 g2).
    { pose proof (pi_e _ _ _ _ _ _ P) as E1. pose proof (ei_w _ _ _ E1) as [W1 W2 W3].
      apply (EI_frame kappa s1 g1); auto. split; assumption. }
    destruct (hr_cur kappa s1 g2 E2 Hk) as (E3 & C3 & M3 & N3 & V3 & R3).
    set (g3 := householder_ref fp s1 g2 kappa) in *.
    change (V g2) with (V g1) in V3.
    assert (RR : forall i, (i < kappa)%nat -> r g3 i kappa = r g1 i kappa).
    { intros i Hi. pose proof (EI_ND _ _ _ E Hk) as ND. pose proof (g_gt c s1 (ei_s _ _ _ E3) kappa Hk) as GT.
      pose proof (C3 i ltac:(lia)) as A1. pose proof (pi_c _ _ _ _ _ _ P i ltac:(lia)) as A2. rewrite V3 in A1.
      rewrite A1 in A2. replace (i <? Sj s1 kappa)%nat with true in A2 by (symmetry; apply Nat.ltb_lt; lia). exact A2. }
    assert (RD : redd g3 0 kappa).
    { intros i Hi. rewrite RR, R3 by lia. exact (pi_r _ _ _ _ _ _ P i Hi). }
    assert (D3 : done (fun g => redd g 0 kappa) kappa s g s1 g3).
    { split; auto.
      - exact (pi_S _ _ _ _ _ _ P).
      - exact (pi_B _ _ _ _ _ _ P).
      - intros i j Nj. rewrite R3 by assumption. exact (pi_R _ _ _ _ _ _ P i j Nj).
      - intros i Hi. rewrite V3. apply (tail_same kappa s g s1 g1); auto.
      - exact (pi_i _ _ _ _ _ _ P). }
    match goal with |- context [if ?bb then _ else _] => destruct bb end.
    + rewrite (mu_ok kappa s1 g3 _ E3 Hk RD) by (intros i Hi; apply in_seq in Hi; lia). cbn [bind]. auto.
    + specialize (IH s1 g3 vx (flt fp (nth kappa (fnB2 g3) fz) (fmul fp (f01 fp) (nth kappa (fnB2 g2) fz))) kappa H1 Hk E3 C3 M3).
      destruct (hs_loop_g _ _ _ _ _ _ _ _ _ _) as [[[s4 g4] bad]| |]; auto.
      * destruct IH as [-> D4]. split; [reflexivity|]. destruct D3, D4. split; auto; try congruence.
        -- intros j Nj. rewrite dn_B1 by assumption. auto.
        -- intros i j Nj. rewrite dn_R1 by assumption. auto.
        -- intros i Hi. rewrite dn_t1 by assumption. auto.
        -- now apply redto_trans with s1.
      * intros H. destruct (IH H) as [I1 I2]. rewrite (I2 RD) in *. split; [lia|].
        intros Rg. specialize (Q Rg H). discriminate.
  - split; [reflexivity|].
    destruct P as [P1 P2 P3 P4 P5 P6 P7 P8 P9]. split; auto; try congruence.
    intros i Hi. apply (tail_same kappa s g s1 g1); auto. now split.
Qed.

Lemma reduce_exact fuel s g kappa : (cseysen c < 1)%Z -> (1 <= kappa)%nat -> (kappa < d)%nat -> EI kappa s g ->
  match reduce_g fp c (hr_ref fp) fuel s g kappa with
  | Ok (s', g', bad) => bad = false /\ done (fun g => redd g 0 kappa) kappa s g s' g'
  | UB => False
  | NoFuel => (forall x, Rabs x <= / 2 -> frnd fp x = 0) -> (fuel < 2)%nat
  end.
Proof.
  intros SEY H1 Hk E. unfold reduce_g. replace (cseysen c <? 1)%Z with true by (symmetry; now apply Z.ltb_lt).
  unfold hsizereduce_g, hr_ref. cbn [bind].
  destruct (hr_cur kappa s g E Hk) as (E3 & C3 & M3 & N3 & V3 & R3).
  pose proof (hs_loop_exact fuel s (householder_ref fp s g kappa) (repeat fz n) true kappa H1 Hk E3 C3 M3) as L.
  fold (hr_ref fp) in *. change (fun s f kappa => Ok (householder_ref fp s f kappa)) with (hr_ref fp) in *.
  destruct (hs_loop_g _ _ _ _ _ _ _ _ _ _) as [[[s4 g4] bad]| |]; auto.
  - destruct L as [-> D]. split; [reflexivity|]. destruct D. split; auto.
    + intros i j Nj. rewrite dn_R0 by assumption. now apply R3.
  - intros H. now apply L.
Qed.

End Loop.
