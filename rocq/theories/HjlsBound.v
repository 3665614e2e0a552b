(** * HjlsBound: the diagonal of R during Fgas::decomp, in exact arithmetic

    As long as no column has been set aside (ldim = 0) the columns 0..d-1 of R are the R factor of the columns 0..d-1 of
    F, for the reflectors kept in V: [colok]. *)
From Coq Require Import ZArith Lia List Bool Arith Reals Lra.
From Verif Require Import Base Spec SpecReal Mat FP Hlll IntSteps HlllInt Structure Safety MatOpsFacts ZFgas Fgas FgasSafe
  Cache Exact HHMath.
Import ListNotations.
Local Open Scope R_scope.

Lemma Hs_V_ext n V V' K w : (forall k i, (k < K)%nat -> (k <= i < n)%nat -> V i k = V' i k) ->
  forall i, (i < n)%nat -> Hs n V K w i = Hs n V' K w i.
Proof.
  induction K as [|K IH]; intros E i Hi; cbn [Hs]; [reflexivity|]. unfold refl, vk.
  rewrite (IH (fun k i a b => E k i (Nat.lt_lt_succ_r _ _ a) b) i Hi).
  rewrite (dot_ext n _ (Hs n V K w) (fun i => if (K <=? i)%nat then V' i K else 0) (Hs n V' K w)).
  - destruct (Nat.leb_spec K i) as [L|L]; [|reflexivity]. now rewrite (E K i (Nat.lt_succ_diag_r K) (conj L Hi)).
  - intros l Hl. destruct (Nat.leb_spec K l) as [L|L]; [|reflexivity]. apply E; lia.
  - intros l Hl. apply IH; [intros; apply E; lia|assumption].
Qed.

Lemma sumR_sq_pos m (y : nat -> R) : 0 < sumR m (fun i => y i * y i) -> exists k, (k < m)%nat /\ y k <> 0 /\ forall i, (i < k)%nat -> y i = 0.
Proof.
  induction m as [|m IH]; cbn [sumR]; intros H; [lra|].
  destruct (Rlt_dec 0 (sumR m (fun i => y i * y i))) as [P|P].
  - destruct (IH P) as (k & Hk & Y & Z). exists k. split; [lia|auto].
  - assert (P0 : sumR m (fun i => y i * y i) = 0).
    { apply Rle_antisym; [lra|]. clear. induction m as [|m IH]; cbn [sumR]; [lra|]. pose proof (Rle_0_sqr (y m)) as Q. unfold Rsqr in Q. lra. }
    exists m. split; [lia|]. split; [intros E; rewrite P0, E in H; lra|].
    clear -P0. revert P0. induction m as [|m IH]; cbn [sumR]; intros P0 i Hi; [lia|].
    assert (Q : 0 <= sumR m (fun i => y i * y i)).
    { clear. induction m as [|m IH]; cbn [sumR]; [lra|]. pose proof (Rle_0_sqr (y m)) as Q. unfold Rsqr in Q. lra. }
    pose proof (Rle_0_sqr (y m)) as Q'. unfold Rsqr in Q'.
    destruct (Nat.eq_dec i m) as [->|N]; [nra|]. apply IH; [lra|lia].
Qed.

Lemma sumR_le_one m (y : nat -> R) k : (k < m)%nat -> y k * y k <= sumR m (fun i => y i * y i).
Proof.
  induction m as [|m IH]; cbn [sumR]; intros H; [lia|]. pose proof (Rle_0_sqr (y m)) as Q'. unfold Rsqr in Q'.
  destruct (Nat.eq_dec k m) as [->|N].
  - assert (Q : 0 <= sumR m (fun i => y i * y i)).
    { clear. induction m as [|m IH]; cbn [sumR]; [lra|]. pose proof (Rle_0_sqr (y m)) as Q. unfold Rsqr in Q. lra. }
    lra.
  - specialize (IH ltac:(lia)). lra.
Qed.

Section HB.
Variables (fp : fpops R) (rt : rtops R R).
Hypothesis X : exact fp.
Hypothesis TF : forall x, tfp rt x = x.
Variables (d n dec : nat) (transf : bool) (gap : R -> bool) (epsilon : R) (ubound : Z).
Hypothesis DN : (d <= n)%nat.
Notation fz := (fzero fp).
Notation tz := (tzero rt).
Notation r z i j := (mget fz (gR z) i j).
Definition Vz (z : fgas R R) (i k : nat) : R := mget fz (gV z) i k.
Definition Fz (z : fgas R R) (j i : nat) : R := mget tz (xF (gx z)) i j.
Notation gwf := (FgasSafe.gwf d n).
Notation ghouseholder := (ghouseholder fp rt d n).
Notation ghsizereduce := (ghsizereduce fp rt d n dec transf).

(** column j of R, and the reflector j, computed from column j of F *)
Record colok (z : fgas R R) (j : nat) : Prop := {
  co_above : forall i, (i < j)%nat -> r z i j = Hs d (Vz z) j (Fz z j) i;
  co_below : forall i, (j < i < d)%nat -> r z i j = 0;
  co_diag : let w := Hs d (Vz z) j (Fz z j) in
            let q := sumR d (fun i => if (j <=? i)%nat then w i * w i else 0) in
            let sg := if Rle_dec 0 (w j) then sqrt q else - sqrt q in
            let s2 := sqrt (sg * (w j + sg)) in
            r z j j = - sg /\
            forall i, (j <= i < d)%nat -> Vz z i j = if (i =? j)%nat then (w j + sg) / s2 else w i / s2 }.

(** what column operations on the columns l leave alone *)
Record frame (l : nat -> Prop) (z z' : fgas R R) : Prop := {
  fr_R : forall i j, ~ l j -> r z' i j = r z i j;
  fr_V : forall i j, ~ l j -> Vz z' i j = Vz z i j;
  fr_F : forall i j, ~ l j -> Fz z' j i = Fz z j i }.

Lemma frame_refl l z : frame l z z.
Proof. split; reflexivity. Qed.
Lemma frame_trans l z1 z2 z3 : frame l z1 z2 -> frame l z2 z3 -> frame l z1 z3.
Proof.
  intros [A1 A2 A3] [B1 B2 B3].
  split; intros i j H; [rewrite B1, A1|rewrite B2, A2|rewrite B3, A3]; auto.
Qed.
Lemma frame_imp (l l' : nat -> Prop) z z' : (forall j, l j -> l' j) -> frame l z z' -> frame l' z z'.
Proof. intros I [A B C]. split; intros i j H; [apply A|apply B|apply C]; auto. Qed.

Lemma colok_eq z z' j : (j < d)%nat -> (forall k i, (k <= j)%nat -> Vz z' i k = Vz z i k) -> (forall i, r z' i j = r z i j) ->
  (forall i, Fz z' j i = Fz z j i) -> colok z j -> colok z' j.
Proof.
  intros Hj EV ER EF [A B D].
  assert (EH : forall i, (i < d)%nat -> Hs d (Vz z') j (Fz z' j) i = Hs d (Vz z) j (Fz z j) i).
  { intros i Hi. rewrite (Hs_ext d (Vz z') j (Fz z' j) (Fz z j)) by auto.
    apply Hs_V_ext; [|assumption]. intros k l Hk Hl. apply EV. lia. }
  split.
  - intros i Hi. rewrite ER, EH by lia. now apply A.
  - intros i Hi. rewrite ER. now apply B.
  - cbv zeta in *. rewrite ER, !EH by lia.
    rewrite (sumR_ext d _ (fun i => if (j <=? i)%nat then Hs d (Vz z) j (Fz z j) i * Hs d (Vz z) j (Fz z j) i else 0)).
    + destruct D as [D1 D2]. split; [exact D1|]. intros i Hi. rewrite EV, D2 by lia. now rewrite EH by lia.
    + intros i Hi. rewrite !EH by assumption. reflexivity.
Qed.

Lemma colok_frame (l : nat -> Prop) z z' j : (j < d)%nat -> frame l z z' -> (forall k, (k <= j)%nat -> ~ l k) -> colok z j -> colok z' j.
Proof.
  intros Hj [A B C] N. apply colok_eq; auto.
Qed.

(** ** householder *)
Lemma gh_step_exact kappa k z : gwf z -> (kappa < n)%nat -> (k < d)%nat ->
  exists z', gh_step fp d n kappa k z = Ok z' /\ gwf z' /\ gx z' = gx z /\ gV z' = gV z /\ gN z' = gN z /\ gldim z' = gldim z /\
    (forall i j, j <> kappa -> r z' i j = r z i j) /\
    (forall i, (i < d)%nat -> r z' i kappa = refl d (Vz z) k (fun i => r z i kappa) i).
Proof.
  intros (A & B & C) Hk Hd. unfold gh_step, guard.
  replace ((k <? d)%nat && (kappa <? n)%nat)%bool with true by (symmetry; rewrite andb_true_iff, !Nat.ltb_lt; lia). cbv zeta.
  assert (LR : length (col (gR z) kappa) = d) by (now apply (wfm_col d n)).
  assert (LV : length (col (gV z) k) = d) by (now apply (wfm_col d d)).
  rewrite scalarprod_dotf by lia. cbn [bind]. rewrite dotf_sum by (auto; lia).
  set (p := sumR d _).
  assert (P : p = dot d (vk (Vz z) k) (fun i => r z i kappa)).
  { unfold p, dot. apply sumR_ext. intros i Hi. unfold vk, Vz, mget. destruct (k <=? i)%nat; ring. }
  eexists. split; [reflexivity|]. cbn [set_gR gx gR gV gN gldim].
  set (L := map _ _). assert (LL : length L = (d - k)%nat) by (unfold L; now rewrite map_length, seq_length).
  assert (LS : length (splice k L (col (gR z) kappa)) = d) by (rewrite splice_length; lia).
  split; [split; [now apply wfm_lupd|split; assumption]|]. split; [reflexivity|]. split; [reflexivity|]. split; [reflexivity|]. split; [reflexivity|]. split.
  - intros i j N. unfold mget. now rewrite col_lupd_neq.
  - intros i Hi. unfold mget at 1. rewrite col_lupd_eq by (rewrite (wfm_length _ _ _ A); assumption).
    rewrite nth_splice by lia. rewrite LL. unfold refl. rewrite <- P. unfold vk.
    destruct (Nat.leb_spec k i).
    + replace (i <? k + (d - k))%nat with true by (symmetry; apply Nat.ltb_lt; lia). cbn [andb].
      unfold L. rewrite nth_map_seq by lia. rewrite (e_submul fp X), !nth_skipn. cbn [Nat.add].
      replace (k + (i - k))%nat with i by lia. reflexivity.
    + cbn [andb]. unfold mget. ring.
Qed.

Lemma gh_steps_exact kappa K z : gwf z -> (kappa < n)%nat -> (K <= d)%nat ->
  exists z', mfold (gh_step fp d n kappa) (seq 0 K) z = Ok z' /\ gwf z' /\ gx z' = gx z /\ gV z' = gV z /\ gN z' = gN z /\ gldim z' = gldim z /\
    (forall i j, j <> kappa -> r z' i j = r z i j) /\
    (forall i, (i < d)%nat -> r z' i kappa = Hs d (Vz z) K (fun i => r z i kappa) i).
Proof.
  intros W Hk. induction K as [|K IH]; intros HK.
  - exists z. split; [reflexivity|]. split; [exact W|]. do 4 (split; [reflexivity|]). split; reflexivity.
  - destruct IH as (z1 & E1 & W1 & X1 & V1 & N1 & L1 & F1 & R1); [lia|]. rewrite seq_S, mfold_app, E1. cbn [bind mfold Nat.add].
    destruct (gh_step_exact kappa K z1 W1 Hk) as (z2 & E2 & W2 & X2 & V2 & N2 & L2 & F2 & R2); [lia|]. rewrite E2. cbn [bind].
    exists z2. split; [reflexivity|]. split; [exact W2|]. do 4 (split; [congruence|]). split.
    + intros i j H. rewrite F2, F1 by assumption. reflexivity.
    + intros i Hi. rewrite R2 by assumption. cbn [Hs].
      replace (Vz z1) with (Vz z) by (unfold Vz; now rewrite V1). now apply refl_ext.
Qed.

Lemma colset_R (M : mat R) kappa (g : nat -> R) : wfm d n M -> (kappa < n)%nat ->
  let M' := lupd M kappa (splice 0 (map g (seq 0 d)) (col M kappa)) in
  wfm d n M' /\ (forall i j, j <> kappa -> mget fz M' i j = mget fz M i j) /\ (forall i, (i < d)%nat -> mget fz M' i kappa = g i).
Proof.
  intros W Hk M'. assert (LR : length (col M kappa) = d) by (now apply (wfm_col d n)).
  assert (LM : length (map g (seq 0 d)) = d) by (now rewrite map_length, seq_length).
  assert (LS : length (splice 0 (map g (seq 0 d)) (col M kappa)) = d) by (rewrite splice_length; lia).
  split; [now apply wfm_lupd|]. split.
  - intros i j N. unfold mget, M'. now rewrite col_lupd_neq.
  - intros i Hi. unfold mget, M'. rewrite col_lupd_eq by (rewrite (wfm_length _ _ _ W); assumption).
    rewrite nth_splice by lia. rewrite LM. replace (0 <=? i)%nat with true by reflexivity.
    replace (i <? 0 + d)%nat with true by (symmetry; apply Nat.ltb_lt; lia). cbn [andb]. rewrite Nat.sub_0_r, nth_map_seq by lia. reflexivity.
Qed.

Lemma ghouseholder_col kappa z z' : gwf z -> gldim z = 0%nat -> (kappa < n)%nat -> ghouseholder kappa z = Ok z' ->
  gwf z' /\ gldim z' = 0%nat /\ gx z' = gx z /\ frame (fun j => j = kappa) z z' /\ ((d <= kappa)%nat -> gV z' = gV z) /\
  ((kappa < d)%nat -> colok z' kappa).
Proof.
  intros W L Hk H. unfold Fgas.ghouseholder in H. apply guard_Ok in H as [_ H].
  set (g := fun i => tfp rt (mget tz (xF (gx z)) i kappa)) in H.
  destruct (colset_R (gR z) kappa g (proj1 W) Hk) as (WM & MN & MK). set (M := lupd (gR z) kappa _) in *. cbv zeta in WM, MN, MK.
  cbn [bind] in H. binv H. set (z2 := set_gN (lupd (gN (set_gR M z)) kappa a) (set_gR M z)) in H.
  assert (W2 : gwf z2).
  { unfold z2, FgasSafe.gwf. cbn [set_gN set_gR gR gV gN]. destruct W as (A & B & C). split; [exact WM|]. split; [exact B|]. now rewrite lupd_length. }
  assert (X2 : gx z2 = gx z) by reflexivity. assert (V2 : gV z2 = gV z) by reflexivity.
  assert (R2 : gR z2 = M) by reflexivity. assert (L2 : gldim z2 = 0%nat) by (exact L).
  clear Ha. clearbody z2. cbv zeta in H. rewrite L2, Nat.sub_0_r in H.
  assert (FK : forall i, (i < d)%nat -> r z2 i kappa = Fz z kappa i).
  { intros i Hi. rewrite R2, MK by assumption. unfold g. rewrite TF. reflexivity. }
  destruct (Nat.ltb_spec kappa d) as [Lt|Ge].
  - destruct (gh_steps_exact kappa kappa z2 W2 Hk ltac:(lia)) as (z3 & E3 & W3 & X3 & V3 & _ & L3 & F3 & R3). rewrite E3 in H. cbn [bind] in H.
    unfold rget, guard in H. replace ((kappa <? d)%nat && (kappa <? n)%nat)%bool with true in H
      by (symmetry; rewrite andb_true_iff, !Nat.ltb_lt; lia). cbn [bind] in H.
    assert (LR : length (col (gR z3) kappa) = d) by (apply (wfm_col d n); [apply W3|assumption]).
    unfold fp_norm, fp_norm_sq in H. rewrite scalarprod_dotf in H by lia. cbn [bind] in H. rewrite dotf_sum in H by (auto; lia).
    set (w := Hs d (Vz z) kappa (Fz z kappa)).
    assert (RW : forall i, (i < d)%nat -> r z3 i kappa = w i).
    { intros i Hi. rewrite R3 by assumption. unfold w. replace (Vz z2) with (Vz z) by (unfold Vz; now rewrite V2).
      now apply Hs_ext. }
    set (q := sumR d (fun i => if (kappa <=? i)%nat then w i * w i else 0)).
    assert (EQ : sumR d (fun i => if (kappa <=? i)%nat then nth i (col (gR z3) kappa) fz * nth i (col (gR z3) kappa) fz else 0) = q).
    { apply sumR_ext. intros i Hi. change (nth i (col (gR z3) kappa) fz) with (r z3 i kappa). now rewrite RW. }
    rewrite EQ in H. clear EQ. rewrite (e_sqrt fp X), (RW kappa Lt) in H.
    set (sg := if Rle_dec 0 (w kappa) then sqrt q else - sqrt q).
    assert (ES : (if fle fp fz (w kappa) then (sqrt q, fneg fp (sqrt q)) else (fneg fp (sqrt q), sqrt q)) = (sg, - sg)).
    { unfold sg. destruct (Rle_dec 0 (w kappa)) as [P|P].
      - replace (fle fp fz (w kappa)) with true by (symmetry; apply (e_le fp X); rewrite (e_zero fp X); assumption). now rewrite (e_neg fp X).
      - destruct (fle fp fz (w kappa)) eqn:E; [exfalso; apply (e_le fp X) in E; rewrite (e_zero fp X) in E; lra|].
        rewrite (e_neg fp X). f_equal. lra. }
    rewrite ES in H. rewrite (e_add fp X), (e_mul fp X), (e_sqrt fp X) in H. set (s2 := sqrt (sg * (w kappa + sg))) in H.
    assert (WM4 : wfm d n (mset (gR z3) kappa kappa (- sg))) by (apply wfm_mset, W3).
    assert (M4 : forall i j, mget fz (mset (gR z3) kappa kappa (- sg)) i j = if ((i =? kappa)%nat && (j =? kappa)%nat)%bool then - sg else r z3 i j).
    { intros i j. rewrite (mget_mset fz d n) by (try apply W3; assumption). reflexivity. }
    injection H as <-.
    set (rcol := map _ _). set (vcol := map _ _).
    assert (Lv : length vcol = d) by (unfold vcol; now rewrite map_length, seq_length).
    assert (Lr : length rcol = d) by (unfold rcol; now rewrite map_length, seq_length).
    assert (WV : wfm d d (gV z3)) by (apply W3).
    match goal with |- FgasSafe.gwf d n ?Z /\ _ => set (zz := Z) end.
    assert (Rzz : forall i j, r zz i j = if (j =? kappa)%nat then nth i rcol fz else r z3 i j).
    { intros i j. unfold zz. cbn [gR set_gR set_gV]. destruct (Nat.eqb_spec j kappa) as [->|N].
      - unfold mget. rewrite col_lupd_eq by (rewrite (wfm_length _ _ _ WM4); assumption). reflexivity.
      - unfold mget at 1. rewrite col_lupd_neq by assumption. fold (mget fz (mset (gR z3) kappa kappa (- sg)) i j).
        rewrite M4. apply Nat.eqb_neq in N. now rewrite N, andb_false_r. }
    assert (Vzz : forall i j, Vz zz i j = if (j =? kappa)%nat then nth i vcol fz else Vz z i j).
    { intros i j. unfold zz, Vz. cbn [gV set_gR set_gV]. destruct (Nat.eqb_spec j kappa) as [->|N].
      - unfold mget. rewrite col_lupd_eq by (rewrite (wfm_length _ _ _ WV); assumption). reflexivity.
      - unfold mget at 1. rewrite col_lupd_neq by assumption. fold (mget fz (gV z3) i j). now rewrite V3, V2. }
    split; [|split; [|split; [|split; [|split]]]].
    + unfold zz, FgasSafe.gwf. cbn [gR gV gN set_gR set_gV]. destruct W3 as (A & B & C).
      split; [now apply wfm_lupd|]. split; [now apply wfm_lupd|exact C].
    + unfold zz. cbn [gldim set_gR set_gV]. congruence.
    + unfold zz. cbn [gx set_gR set_gV]. congruence.
    + split.
      * intros i j N. rewrite Rzz. apply Nat.eqb_neq in N as N'. rewrite N', F3 by assumption. rewrite R2. now apply MN.
      * intros i j N. rewrite Vzz. apply Nat.eqb_neq in N. now rewrite N.
      * intros i j N. unfold Fz, zz. cbn [gx set_gR set_gV]. now rewrite X3, X2.
    + intros G. lia.
    + intros _.
      assert (EF : forall i, Fz zz kappa i = Fz z kappa i) by (intros i; unfold Fz, zz; cbn [gx set_gR set_gV]; now rewrite X3, X2).
      assert (EH : forall i, (i < d)%nat -> Hs d (Vz zz) kappa (Fz zz kappa) i = w i).
      { intros i Hi. unfold w. rewrite (Hs_ext d (Vz zz) kappa (Fz zz kappa) (Fz z kappa)) by auto. apply Hs_V_ext; [|assumption].
        intros k l K1 K2. rewrite Vzz. replace (k =? kappa)%nat with false by (symmetry; apply Nat.eqb_neq; lia). reflexivity. }
      assert (RC : forall i, (i < d)%nat -> r zz i kappa = if (kappa <? i)%nat then 0 else if (i =? kappa)%nat then - sg else w i).
      { intros i Hi. rewrite Rzz, Nat.eqb_refl. unfold rcol. rewrite nth_map_seq by assumption. cbn [Nat.add].
        destruct (Nat.ltb_spec kappa i); [apply (e_zero fp X)|]. cbn [gR set_gR set_gV]. rewrite M4, Nat.eqb_refl, andb_true_r.
        destruct (i =? kappa)%nat; [reflexivity|now apply RW]. }
      split.
      * intros i Hi. rewrite RC, EH by lia. replace (kappa <? i)%nat with false by (symmetry; apply Nat.ltb_ge; lia).
        replace (i =? kappa)%nat with false by (symmetry; apply Nat.eqb_neq; lia). reflexivity.
      * intros i Hi. rewrite RC by lia. now replace (kappa <? i)%nat with true by (symmetry; apply Nat.ltb_lt; lia).
      * cbv zeta. rewrite !EH by assumption.
        rewrite (sumR_ext d _ (fun i => if (kappa <=? i)%nat then w i * w i else 0)) by (intros i Hi; rewrite EH by assumption; reflexivity).
        fold q. fold sg. fold s2. split.
        -- rewrite RC by assumption. now rewrite Nat.ltb_irrefl, Nat.eqb_refl.
        -- intros i Hi. rewrite EH by lia. rewrite Vzz, Nat.eqb_refl. unfold vcol. rewrite nth_map_seq by lia. cbn [Nat.add gR].
           destruct (Nat.eqb_spec i kappa) as [->|N]; [apply (e_div fp X)|].
           replace (kappa <? i)%nat with true by (symmetry; apply Nat.ltb_lt; lia). rewrite (e_div fp X). f_equal.
           rewrite M4. apply Nat.eqb_neq in N. rewrite N. cbn [andb]. apply RW. lia.
  - destruct (gh_steps_exact kappa d z2 W2 Hk (le_n _)) as (z3 & E3 & W3 & X3 & V3 & _ & L3 & F3 & R3). rewrite E3 in H. injection H as <-.
    split; [exact W3|]. split; [congruence|]. split; [congruence|]. split; [|split; [intros _; congruence|intros; lia]].
    split.
    + intros i j N. rewrite F3 by assumption. rewrite R2. now apply MN.
    + intros i j N. unfold Vz. now rewrite V3, V2.
    + intros i j N. unfold Fz. now rewrite X3, X2.
Qed.

(** ** hsizereduce *)
Lemma wf_of {A} (P : A -> Prop) m a : safe P m -> m = Ok a -> P a.
Proof. intros S ->. exact S. Qed.

Definition fwf (z : fgas R R) : Prop := gwf z /\ wfm d n (xF (gx z)) /\ gldim z = 0%nat.

Lemma xcol_F kappa i xz x x' : (i < kappa)%nat -> wfm d n (xF x) -> xcol rt d n dec transf kappa i xz x = Ok x' ->
  wfm d n (xF x') /\ forall a j, j <> kappa -> mget tz (xF x') a j = mget tz (xF x) a j.
Proof.
  intros Hi W H. unfold xcol in H. apply guard_Ok in H as [G H]. apply andb_true_iff in G as [G1 G2]. apply Nat.ltb_lt in G1, G2.
  binv H. injection H as <-. cbn [xF]. split; [now apply wfm_colop|]. intros a0 j N. unfold mget, colop. now rewrite col_lupd_neq.
Qed.

Lemma gelims_frame kappa l : (kappa < n)%nat -> (forall i, In i l -> (i < kappa)%nat) -> forall z b z' b',
  fwf z -> mfold (gelim fp rt d n dec transf kappa) l (z, b) = Ok (z', b') ->
  fwf z' /\ frame (fun j => j = kappa) z z' /\ gV z' = gV z /\ (b' = false -> z' = z).
Proof.
  intros Hk. induction l as [|i l IH]; intros Hl z b z' b' W H; cbn [mfold] in H.
  - injection H as <- <-. split; [exact W|]. split; [apply frame_refl|]. split; [reflexivity|auto].
  - binv H. destruct a as [z1 b1].
    assert (E : fwf z1 /\ frame (fun j => j = kappa) z z1 /\ gV z1 = gV z /\ ((b1 = true) \/ (b1 = b /\ z1 = z))).
    { unfold gelim in Ha. binv Ha. binv Ha. destruct (fnz fp _).
      - binv Ha. injection Ha as <- <-. destruct W as (W1 & W2 & W3).
        apply xcol_F in Ha2 as [Q1 Q2]; [|apply Hl; now left|exact W2].
        split; [split; [|split; [exact Q1|exact W3]]|].
        + destruct W1 as (A & B & C). split; [cbn [gR set_gR set_gx]; now apply wfm_colop|]. split; [exact B|exact C].
        + split; [split|split; [reflexivity|now left]].
          * intros p j N. cbn [gR set_gR set_gx]. unfold mget, colop. now rewrite col_lupd_neq.
          * reflexivity.
          * intros p j N. unfold Fz. cbn [gx set_gR set_gx]. now apply Q2.
      - injection Ha as <- <-. split; [exact W|]. split; [apply frame_refl|]. split; [reflexivity|]. right. auto. }
    destruct E as (E1 & E2 & E3 & E4). pose proof H as H'. apply IH in H; [|intros j Hj; apply Hl; now right|exact E1].
    destruct H as (H1 & H2 & H3 & H4). split; [exact H1|]. split; [eapply frame_trans; eauto|]. split; [congruence|].
    intros Bf. destruct E4 as [E4|[_ E4]]; [|rewrite <- E4; auto]. exfalso. subst b1.
    assert (K : forall l z b z' b', mfold (gelim fp rt d n dec transf kappa) l (z, b) = Ok (z', b') -> b = true -> b' = true).
    { clear. induction l as [|i l IH]; intros z b z' b' H B; cbn [mfold] in H; [injection H as _ <-; exact B|].
      binv H. destruct a as [z1 b1]. apply IH in H; [exact H|]. unfold gelim in Ha. binv Ha. binv Ha. destruct (fnz fp _).
      - binv Ha. now injection Ha as _ <-.
      - injection Ha as _ <-. exact B. }
    apply K in H'; [congruence|reflexivity].
Qed.

Lemma ghouse_fwf kappa z z' : (kappa < n)%nat -> fwf z -> ghouseholder kappa z = Ok z' ->
  fwf z' /\ frame (fun j => j = kappa) z z' /\ ((d <= kappa)%nat -> gV z' = gV z) /\ ((kappa < d)%nat -> colok z' kappa).
Proof.
  intros Hk (W1 & W2 & W3) H. apply ghouseholder_col in H as (A & B & C & D & E & G); auto.
  split; [split; [exact A|split; [now rewrite C|exact B]]|]. auto.
Qed.

Lemma ghs_loop_frame fuel kappa : (kappa < n)%nat -> forall z z', fwf z -> ((kappa < d)%nat -> colok z kappa) ->
  ghs_loop fp rt d n dec transf fuel kappa z = Ok z' ->
  fwf z' /\ frame (fun j => j = kappa) z z' /\ ((d <= kappa)%nat -> gV z' = gV z) /\ ((kappa < d)%nat -> colok z' kappa).
Proof.
  intros Hk. induction fuel as [|fuel IH]; intros z z' W C H; cbn [ghs_loop] in H; [discriminate|].
  binv H. destruct a as [z1 sd]. apply gelims_frame in Ha; [|exact Hk|intros i Hi; eapply elim_list_lt; eauto|exact W].
  destruct Ha as (A1 & A2 & A3 & A4). destruct sd.
  - binv H. apply ghouse_fwf in Ha as (B1 & B2 & B3 & B4); [|exact Hk|exact A1].
    assert (F : frame (fun j => j = kappa) z a) by (eapply frame_trans; eauto).
    assert (V : (d <= kappa)%nat -> gV a = gV z) by (intros Q; rewrite B3 by assumption; exact A3).
    destruct (flt fp _ _).
    + apply IH in H as (H1 & H2 & H3 & H4); [|exact B1|exact B4].
      split; [exact H1|]. split; [eapply frame_trans; eauto|]. split; [intros Q; rewrite H3, V by assumption; reflexivity|exact H4].
    + injection H as <-. auto.
  - injection H as <-. rewrite (A4 eq_refl) in *. auto using frame_refl.
Qed.

Lemma ghsize_frame fuel kappa z z' : (kappa < n)%nat -> fwf z -> ghsizereduce fuel kappa z = Ok z' ->
  fwf z' /\ frame (fun j => j = kappa) z z' /\ ((d <= kappa)%nat -> gV z' = gV z) /\ ((kappa < d)%nat -> colok z' kappa).
Proof.
  intros Hk W H. unfold Fgas.ghsizereduce in H. binv H. apply ghouse_fwf in Ha as (B1 & B2 & B3 & B4); [|exact Hk|exact W].
  apply ghs_loop_frame in H as (H1 & H2 & H3 & H4); [|exact Hk|exact B1|exact B4].
  split; [exact H1|]. split; [eapply frame_trans; eauto|]. split; [intros Q; rewrite H3, B3 by assumption; reflexivity|exact H4].
Qed.

Definition good (K : nat) (z : fgas R R) : Prop := fwf z /\ forall j, (j < K)%nat -> (j < d)%nat -> colok z j.

Lemma ghsize_good fuel kappa z z' : (kappa < n)%nat -> good kappa z -> ghsizereduce fuel kappa z = Ok z' -> good (S kappa) z'.
Proof.
  intros Hk [W G] H. apply ghsize_frame in H as (H1 & H2 & H3 & H4); auto. split; [exact H1|]. intros j Hj Hd.
  destruct (Nat.eq_dec j kappa) as [->|N]; [now apply H4|]. apply (colok_frame (fun j => j = kappa) z z'); auto; [intros k L ->; lia|].
  apply G; lia.
Qed.

Lemma ghsizes_good fuel a m : forall z z', (a + m <= n)%nat -> good a z -> mfold (ghsizereduce fuel) (seq a m) z = Ok z' -> good (a + m) z'.
Proof.
  revert a. induction m as [|m IH]; intros a z z' L G H; cbn [seq mfold] in H.
  - injection H as <-. now rewrite Nat.add_0_r.
  - binv H. apply ghsize_good in Ha; [|lia|exact G]. replace (a + S m)%nat with (S a + m)%nat by lia. eapply IH; eauto. lia.
Qed.

(** the columns on the right do not disturb those on the left *)
Lemma ghsizes_right fuel a m : forall z z', (d <= a)%nat -> (a + m <= n)%nat -> good d z -> mfold (ghsizereduce fuel) (seq a m) z = Ok z' -> good d z'.
Proof.
  revert a. induction m as [|m IH]; intros a z z' A L G H; cbn [seq mfold] in H.
  - injection H as <-. exact G.
  - binv H. destruct G as [W G]. apply ghsize_frame in Ha as (H1 & H2 & H3 & _); [|lia|exact W].
    eapply (IH (S a)); [lia|lia| |exact H]. split; [exact H1|]. intros j Hj Hd.
    destruct H2 as [F1 F2 F3]. apply (colok_eq z); auto.
    + intros k i Hk. unfold Vz. now rewrite H3.
    + intros i. apply F1. lia.
    + intros i. apply F3. lia.
Qed.

Lemma xswap_F p q x x' : wfm d n (xF x) -> xswap rt d n dec transf p q x = Ok x' ->
  (p < n)%nat /\ (q < n)%nat /\ wfm d n (xF x') /\ forall i j, j <> p -> j <> q -> mget tz (xF x') i j = mget tz (xF x) i j.
Proof.
  intros W H. unfold xswap in H. apply guard_Ok in H as [G H]. apply andb_true_iff in G as [G1 G2]. apply Nat.ltb_lt in G1, G2.
  binv H. injection H as <-. cbn [xF]. split; [exact G1|]. split; [exact G2|]. split; [now apply wfm_colswap|].
  intros i j N1 N2. rewrite (mget_colswap tz d n) by assumption.
  apply Nat.eqb_neq in N1, N2. now rewrite ?N1, ?N2.
Qed.

Lemma swap_good p q z x' : (p <= q)%nat -> good d z -> xswap rt d n dec transf p q (gx z) = Ok x' -> good p (set_gx x' z).
Proof.
  intros L [(W1 & W2 & W3) G] H. apply xswap_F in H as (A & B & C & D); [|exact W2].
  split; [split; [exact W1|split; [exact C|exact W3]]|]. intros j Hj Hd.
  apply (colok_eq z); auto; try reflexivity. intros i. unfold Fz. cbn [set_gx gx]. apply D; lia.
Qed.

(** ** decomp *)
Lemma gleft_ge M g hi m : gleft fp d n dec M g hi = Ok m -> (dec <= m)%nat.
Proof.
  unfold gleft. intros H. apply guard_Ok in H as [_ H]. binv H. binv H. destruct a0 as [m0 t0]. injection H as <-.
  assert (K : forall l m t m' t', (forall j, In j l -> (dec <= j)%nat) -> (dec <= m)%nat ->
    mfold (fun j st => let '(m, t1) := st in
              guard (j <? length g)%nat
              (let* r := rget fp d n M j j in
               let t2 := fabs fp (fmul fp (nth j g fz) r) in
               Ok (if flt fp t1 t2 then (j, t2) else (m, t1)))) l (m, t) = Ok (m', t') -> (dec <= m')%nat).
  { induction l as [|j l IH]; intros m1 t1 m' t' Hl Hm Q; cbn [mfold] in Q; [injection Q as <- _; exact Hm|].
    binv Q. destruct a0 as [m2 t2]. apply IH in Q; [exact Q|intros; apply Hl; now right|].
    apply guard_Ok in Ha1 as [_ Ha1]. binv Ha1. cbv zeta in Ha1. destruct (flt fp _ _); injection Ha1 as <- _; [|exact Hm].
    apply Hl. now left. }
  eapply K; [|apply le_n|exact Ha0]. intros j Hj. apply in_seq in Hj. lia.
Qed.

Lemma gright_ge M row lo hi m : gright fp d n M row lo hi = Ok m -> (lo <= m)%nat.
Proof.
  unfold gright. intros H. binv H. binv H. destruct a0 as [m0 t0]. injection H as <-.
  assert (K : forall l m t m' t', (forall j, In j l -> (lo <= j)%nat) -> (lo <= m)%nat ->
    mfold (fun j st => let '(m, t1) := st in
             let* r := rget fp d n M row j in
             let t2 := fabs fp r in
             Ok (if flt fp t1 t2 then (j, t2) else (m, t1))) l (m, t) = Ok (m', t') -> (lo <= m')%nat).
  { induction l as [|j l IH]; intros m1 t1 m' t' Hl Hm Q; cbn [mfold] in Q; [injection Q as <- _; exact Hm|].
    binv Q. destruct a0 as [m2 t2]. apply IH in Q; [exact Q|intros; apply Hl; now right|].
    binv Ha1. cbv zeta in Ha1. destruct (flt fp _ _); injection Ha1 as <- _; [|exact Hm]. apply Hl. now left. }
  eapply K; [|apply le_n|exact Ha0]. intros j Hj. apply in_seq in Hj. lia.
Qed.

Lemma greds_ldim fuel l z z' : mfold (ghsizereduce fuel) l z = Ok z' -> gldim z' = gldim z.
Proof. intros H. now apply greds_steps in H as [_ H]. Qed.

Lemma gloop_ldim fuel g target ts : forall z maxh dg my rr z',
  gloop fp rt d n dec transf gap epsilon ubound fuel g target ts z maxh dg my = Ok (rr, z') -> (gldim z <= gldim z')%nat.
Proof.
  induction fuel as [|fuel IH]; intros z maxh dg my rr z' H; cbn [gloop] in H; [discriminate|].
  cbv zeta in H. apply guard_Ok in H as [_ H]. binv H. destruct a as [hit mY]. clear Ha. binv H.
  assert (DL : (gldim z <= gldim a)%nat).
  { destruct hit.
    - binv Ha. injection Ha as <-. cbn [set_gl gldim]. destruct (_ <? _)%Z.
      + binv Ha0. injection Ha0 as <-. cbn [set_gx gldim inc_gn]. lia.
      + injection Ha0 as <-. cbn [inc_gn gldim]. lia.
    - injection Ha as <-. cbn [inc_gn gldim]. lia. }
  clear Ha. destruct (_ <=? _)%Z; [injection H as <- <-; auto|].
  binv H. binv H. destruct (_ <? _)%Z; [injection H as <- <-; auto|].
  binv H. destruct a2; [injection H as <- <-; auto|].
  binv H. destruct a2; [injection H as <- <-; auto|].
  binv H. destruct (_ <? _)%Z.
  - binv H. binv H. apply IH in H.
    match goal with Q : mfold (ghsizereduce _) _ _ = Ok _ |- _ => apply greds_ldim in Q; cbn [set_gx gldim] in Q end. lia.
  - binv H. apply guard_Ok in H as [_ H]. binv H. binv H. binv H. apply IH in H.
    match goal with Q : mfold (ghsizereduce _) _ _ = Ok _ |- _ => apply greds_ldim in Q end.
    match goal with Q : ghsizereduce _ _ _ = Ok _ |- _ => apply ghsizereduce_steps in Q as [_ Q]; cbn [set_gx gldim] in Q end. lia.
Qed.

Lemma gloop_good fuel g target ts : forall z maxh dg my rr z',
  gloop fp rt d n dec transf gap epsilon ubound fuel g target ts z maxh dg my = Ok (rr, z') ->
  gldim z' = 0%nat -> good d z -> good d z'.
Proof.
  induction fuel as [|fuel IH]; intros z maxh dg my rr z' H LD G; cbn [gloop] in H; [discriminate|].
  pose proof (gloop_ldim (S fuel) g target ts z maxh dg my rr z') as LM. cbn [gloop] in LM. specialize (LM H).
  cbv zeta in H. apply guard_Ok in H as [D0 H]. apply Nat.ltb_lt in D0. binv H. destruct a as [hit mY]. clear Ha. binv H.
  assert (GA : gldim a = 0%nat -> good d a).
  { destruct hit; [binv Ha; injection Ha as <-; cbn [set_gl gldim]; lia|]. injection Ha as <-. intros _. split; [exact (proj1 G)|]. intros j Hj _. apply (colok_eq z); auto. now apply G. }
  assert (DA : (gldim a <= gldim z')%nat).
  { clear -H X TF DN. destruct (_ <=? _)%Z; [injection H as <- <-; auto|].
    binv H. binv H. destruct (_ <? _)%Z; [injection H as <- <-; auto|].
    binv H. destruct a2; [injection H as <- <-; auto|].
    binv H. destruct a2; [injection H as <- <-; auto|].
    binv H. destruct (_ <? _)%Z.
    - binv H. binv H. apply gloop_ldim in H.
      match goal with Q : mfold (ghsizereduce _) _ _ = Ok _ |- _ => apply greds_ldim in Q; cbn [set_gx gldim] in Q end. lia.
    - binv H. apply guard_Ok in H as [_ H]. binv H. binv H. binv H. apply gloop_ldim in H.
      match goal with Q : mfold (ghsizereduce _) _ _ = Ok _ |- _ => apply greds_ldim in Q end.
      match goal with Q : ghsizereduce _ _ _ = Ok _ |- _ => apply ghsizereduce_steps in Q as [_ Q]; cbn [set_gx gldim] in Q end. lia. }
  assert (LA : gldim a = 0%nat) by lia. specialize (GA LA). clear Ha G DA LM.
  destruct (_ <=? _)%Z; [injection H as <- <-; auto|].
  binv H. binv H. destruct (_ <? _)%Z; [injection H as <- <-; auto|].
  binv H. destruct a2; [injection H as <- <-; auto|].
  binv H. destruct a2; [injection H as <- <-; auto|].
  binv H. rewrite LA, !Nat.sub_0_r in H. destruct (Z.ltb_spec (Z.of_nat a2) (Z.of_nat d - Z.of_nat 0 - 1)) as [Lt|_].
  - binv H. binv H. apply IH in H; auto. apply swap_good in Ha4; [|lia|exact GA].
    match goal with Q : mfold (ghsizereduce _) _ _ = Ok _ |- _ => apply ghsizes_good in Q; [|lia|exact Ha4] end.
    replace d with (a2 + (d - a2))%nat by lia. assumption.
  - binv H. apply guard_Ok in H as [_ H]. binv H. binv H. binv H. apply IH in H; auto.
    match goal with Q : mfold (ghsizereduce _) _ _ = Ok _ |- _ => apply ghsizes_right in Q; [|lia|lia|exact GA] end.
    match goal with Q : gright _ _ _ _ _ _ _ = Ok _ |- _ => apply gright_ge in Q end.
    match goal with Q : xswap _ _ _ _ _ _ _ _ = Ok _ |- _ => apply swap_good in Q; [|lia|assumption] end.
    match goal with Q : ghsizereduce _ _ _ = Ok _ |- _ => apply ghsize_good in Q; [|lia|assumption] end.
    replace (S (d - 1)) with d in * by lia. assumption.
Qed.

Lemma gdecomp_good fuel gamma target ts z rr z' : fwf z -> 
  gdecomp fp rt d n dec transf gap epsilon ubound fuel gamma target ts z = Ok (rr, z') -> gldim z' = 0%nat -> good d z'.
Proof.
  intros W H LD. unfold gdecomp in H. apply guard_Ok in H as [_ H]. binv H.
  assert (G : good d a).
  { apply ghsizes_good in Ha; [|lia|split; [exact W|intros; lia]]. cbn [Nat.add] in Ha. destruct Ha as [A B].
    split; [exact A|]. intros j _ Hj. apply B; lia. }
  destruct (0 <? dec)%nat.
  - binv H. binv H. binv H. destruct (tgt rt _ _).
    + injection H as <- <-. exact G.
    + eapply gloop_good; eauto.
  - binv H. eapply gloop_good; eauto.
Qed.

(** ** a vector that has an integer product with every column of F *)
Lemma good_reflects z : good d z -> (forall i, (i < d)%nat -> r z i i <> 0) ->
  forall j, (j < d)%nat -> unit2 d (Vz z) j /\
    forall i, (i < d)%nat -> Hs d (Vz z) d (Fz z j) i = if (i <=? j)%nat then r z i j else 0.
Proof.
  intros [(W1 & W2 & W3) G] NZ.
  assert (U2 : forall j, (j < d)%nat -> unit2 d (Vz z) j /\
    (forall i, (i < d)%nat -> Hs d (Vz z) (S j) (Fz z j) i = if (i <=? j)%nat then r z i j else 0)).
  { intros j Hj. destruct (G j Hj Hj) as [A B C]. cbv zeta in C. set (w := Hs d (Vz z) j (Fz z j)) in *.
    set (q := sumR d _) in C. set (sg := if Rle_dec 0 (w j) then sqrt q else - sqrt q) in *. destruct C as [C1 C2].
    assert (Q : 0 < q).
    { assert (Q0 : 0 <= q).
      { unfold q. clearbody w. clear. generalize d. induction d0 as [|m IH]; cbn [sumR]; [lra|]. destruct (j <=? m)%nat; [|lra].
        pose proof (Rle_0_sqr (w m)) as Q. unfold Rsqr in Q. lra. }
      destruct (Rle_lt_or_eq_dec _ _ Q0) as [|E]; [assumption|]. exfalso. apply (NZ j Hj). rewrite C1. unfold sg.
      rewrite <- E, sqrt_0. destruct (Rle_dec 0 (w j)); lra. }
    destruct (hh_vector d (Vz z) j w Hj Q C2) as (H1 & H2 & H3 & _). split; [exact H1|].
    intros i Hi. cbn [Hs]. fold w. destruct (Nat.leb_spec i j) as [L|L].
    - destruct (Nat.eq_dec i j) as [->|N]; [rewrite H3; now rewrite C1|]. rewrite refl_below by lia. symmetry. apply A. lia.
    - apply H2. lia. }
  intros j Hj. destruct (U2 j Hj) as [A U]. split; [exact A|]. intros i Hi. rewrite (Hs_stable d (Vz z) j d); [now apply U|lia|].
  intros l Hl. rewrite U by lia. now replace (l <=? j)%nat with false by (symmetry; apply Nat.leb_gt; lia).
Qed.

Theorem dual_bound z (u : nat -> R) : good d z -> (forall i, (i < d)%nat -> r z i i <> 0) ->
  (forall j, (j < d)%nat -> exists k : Z, dot d u (Fz z j) = IZR k) ->
  (forall j, (j < dec)%nat -> (j < d)%nat -> dot d u (Fz z j) = 0) ->
  0 < dot d u u ->
  exists i, (dec <= i < d)%nat /\ 1 <= r z i i * r z i i * dot d u u.
Proof.
  intros G NZ IN ZD UP.
  pose proof (good_reflects z G NZ) as U2.
  set (y := Hs d (Vz z) d u).
  assert (YU : dot d y y = dot d u u) by (apply Hs_dot; intros k Hk; now apply U2).
  assert (YF : forall j, (j < d)%nat -> dot d u (Fz z j) = sumR d (fun i => y i * if (i <=? j)%nat then r z i j else 0)).
  { intros j Hj. rewrite <- (Hs_dot d (Vz z) d u (Fz z j)) by (intros k Hk; now apply U2). fold y. unfold dot. apply sumR_ext.
    intros i Hi. f_equal. destruct (U2 j Hj) as [_ U].
    now apply U. }
  assert (YP : 0 < sumR d (fun i => y i * y i)) by (change (0 < dot d y y); lra).
  destruct (sumR_sq_pos d y YP) as (k & Hk & Yk & Z).
  assert (YK : dot d u (Fz z k) = y k * r z k k).
  { rewrite YF by assumption. rewrite (sumR_single d k); [|assumption|].
    - now rewrite Nat.leb_refl.
    - intros i Hi N. destruct (Nat.leb_spec i k); [rewrite Z by lia|]; ring. }
  pose proof (NZ k Hk) as Rk.
  assert (K2 : (dec <= k)%nat).
  { destruct (Nat.lt_ge_cases k dec) as [L|L]; [|exact L]. exfalso. rewrite (ZD k L Hk) in YK. symmetry in YK.
    apply Rmult_integral in YK. tauto. }
  exists k. split; [lia|]. destruct (IN k Hk) as (m & Em). rewrite Em in YK.
  assert (M0 : m <> 0%Z). { intros ->. symmetry in YK. apply Rmult_integral in YK. tauto. }
  assert (M1 : 1 <= IZR m * IZR m).
  { rewrite <- mult_IZR. apply IZR_le. nia. }
  rewrite YK in M1. pose proof (sumR_le_one d y k Hk) as LE. fold (dot d y y) in LE. rewrite YU in LE.
  pose proof (Rle_0_sqr (r z k k)) as SQ. unfold Rsqr in SQ.
  apply (Rle_trans _ (r z k k * r z k k * (y k * y k))); [nra|]. now apply Rmult_le_compat_l.
Qed.
End HB.
