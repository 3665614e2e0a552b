(** * The orthogonalisation data that hlll keeps are what a recomputation gives *)
From Coq Require Import ZArith Lia List Bool Arith.
From Verif Require Import Base Spec Mat FP Hlll IntSteps HlllInt Structure Object Safety Fresh.
Import ListNotations.

Ltac setf := cbn [set_R set_Rk set_V set_Bfp set_VR set_nB2 set_x set_toR set_nmax set_kept set_kmin set_desc
                  fR fRk fV fBfp fVR fnB2 fx ftoR fnmax fkept fkmin fdesc] in *.

Section Dot.
Context {F : Type} (fp : fpops F).
Notation fz := (fzero fp).

Lemma sp_loop_fold k : forall acc v w, k <= length v -> k <= length w ->
  sp_loop fp acc v w k = fold_left (fun a i => faddmul fp a (nth i v fz) (nth i w fz)) (seq 0 k) acc.
Proof.
  induction k as [|k IH]; intros acc v w Hv Hw; [now destruct v|].
  destruct v as [|a v]; [cbn in Hv; lia|]. destruct w as [|b w]; [cbn in Hw; lia|].
  cbn [sp_loop seq fold_left nth]. rewrite IH by (cbn in *; lia).
  rewrite <- seq_shift. generalize (faddmul fp acc a b). generalize (seq 0 k).
  induction l as [|i l IHl]; intros acc'; cbn [map fold_left nth]; auto.
Qed.

Lemma fold_left_ext_in {A B} (f g : A -> B -> A) l : forall a, (forall a x, In x l -> f a x = g a x) ->
  fold_left f l a = fold_left g l a.
Proof.
  induction l as [|x l IH]; intros a H; cbn; auto. rewrite H by (now left). apply IH. intros; apply H; now right.
Qed.

Lemma fold_left_map {A B C} (f : A -> B -> A) (g : C -> B) l : forall a,
  fold_left f (map g l) a = fold_left (fun a x => f a (g x)) l a.
Proof. induction l as [|x l IH]; intros a; cbn; auto. Qed.

Lemma seq_add_map k m a : seq (k + a) m = map (fun i => k + i) (seq a m).
Proof.
  revert a. induction m as [|m IH]; intros a; cbn; auto. f_equal. rewrite <- IH. f_equal. lia.
Qed.

Lemma scalarprod_dotf v w k m : k < m -> m <= length v -> m <= length w ->
  scalarprod fp (skipn k v) (skipn k w) (m - k) =
  Ok (dotf fp (fun i => nth i v fz) (fun i => nth i w fz) k m).
Proof.
  intros Hk Hv Hw.
  assert (Ev : length (skipn k v) = length v - k) by apply skipn_length.
  assert (Ew : length (skipn k w) = length w - k) by apply skipn_length.
  pose proof (fun i => nth_skipn k v i fz) as Nv. pose proof (fun i => nth_skipn k w i fz) as Nw.
  destruct (skipn k v) as [|a v'] eqn:V; [cbn in Ev; lia|].
  destruct (skipn k w) as [|b w'] eqn:W; [cbn in Ew; lia|].
  unfold scalarprod. cbn [length] in *.
  unfold guard. replace (m - k <=? S (length v')) with true by (symmetry; apply Nat.leb_le; lia).
  replace (m - k <=? S (length w')) with true by (symmetry; apply Nat.leb_le; lia). cbn [andb].
  f_equal. rewrite sp_loop_fold by lia. unfold dotf.
  pose proof (Nv 0) as N1. pose proof (Nw 0) as N2. cbn [nth] in N1, N2. rewrite Nat.add_0_r in *.
  rewrite <- N1, <- N2. replace (S k) with (S k + 0) at 1 by lia.
  rewrite seq_add_map, fold_left_map. replace (m - S k) with (m - k - 1) by lia.
  apply fold_left_ext_in. intros acc i _.
  pose proof (Nv (S i)) as M1. pose proof (Nw (S i)) as M2. cbn [nth] in M1, M2.
  rewrite M1, M2. now replace (k + S i) with (S k + i) by lia.
Qed.

Lemma dotf_ext v w v' w' k m : k < m -> (forall i, k <= i < m -> v i = v' i) -> (forall i, k <= i < m -> w i = w' i) ->
  dotf fp v w k m = dotf fp v' w' k m.
Proof.
  intros Hk Hv Hw. unfold dotf. rewrite Hv, Hw by lia. apply fold_left_ext_in.
  intros a i Hi. apply in_seq in Hi. rewrite Hv, Hw by lia. reflexivity.
Qed.

Lemma wch_ext V V' m b b' k : k <= m ->
  (forall j i, j < k -> j <= i < m -> V i j = V' i j) -> (forall i, i < m -> b i = b' i) ->
  forall i, i < m -> wch fp V m b k i = wch fp V' m b' k i.
Proof.
  revert b b'. induction k as [|k IH]; intros b b' Hk HV Hb i Hi; cbn [wch]; auto.
  rewrite (dotf_ext _ _ (fun i => V' i k) (wch fp V' m b' k) k m) by
    (first [lia | intros; apply HV; lia | intros; apply IH; auto; try lia; intros; apply HV; lia]).
  rewrite (IH b b') by (auto; try lia; intros; apply HV; lia).
  destruct (Nat.leb_spec k i); cbn [andb]; auto. destruct (Nat.ltb_spec i m); auto.
  rewrite HV by lia. reflexivity.
Qed.

Lemma dotv_ext V V' m b b' k : k < m ->
  (forall j i, j <= k -> j <= i < m -> V i j = V' i j) -> (forall i, i < m -> b i = b' i) ->
  dotv fp V m b k = dotv fp V' m b' k.
Proof.
  intros Hk HV Hb. unfold dotv. apply dotf_ext; [exact Hk| |].
  - intros. apply HV; lia.
  - intros. apply wch_ext; auto; try lia. intros. apply HV; lia.
Qed.

Lemma wch_below V m b k k' i : i < k -> k <= k' -> wch fp V m b k' i = wch fp V m b k i.
Proof.
  intros Hi H. induction H as [|k' H IH]; auto. cbn [wch].
  replace (k' <=? i) with false by (symmetry; apply Nat.leb_gt; lia). cbn [andb]. exact IH.
Qed.

Lemma wch_S V m b k i : k <= i < m -> wch fp V m b (S k) i = fsubmul fp (wch fp V m b k i) (V i k) (dotv fp V m b k).
Proof.
  intros H. cbn [wch]. replace (k <=? i) with true by (symmetry; apply Nat.leb_le; lia).
  replace (i <? m) with true by (symmetry; apply Nat.ltb_lt; lia). reflexivity.
Qed.

(** *** extension by zeros *)
Definition zero_laws : Prop :=
  fset_z fp 0 = fz /\ (forall a, faddmul fp a fz fz = a) /\ (forall p, fsubmul fp fz fz p = fz).

Hypothesis ZL : zero_laws.

Lemma dotf_extend v w k m m' : k < m -> m <= m' -> (forall i, m <= i < m' -> v i = fz /\ w i = fz) ->
  dotf fp v w k m' = dotf fp v w k m.
Proof.
  destruct ZL as (_ & ZA & _). intros Hk Hm H. unfold dotf.
  replace (m' - S k) with (m - S k + (m' - m)) by lia. rewrite seq_app, fold_left_app.
  replace (S k + (m - S k)) with m by lia.
  generalize (fold_left (fun acc i => faddmul fp acc (v i) (w i)) (seq (S k) (m - S k)) (fmul fp (v k) (w k))).
  assert (X : forall l a, (forall i, In i l -> v i = fz /\ w i = fz) ->
            fold_left (fun acc i => faddmul fp acc (v i) (w i)) l a = a).
  { induction l as [|i l IH]; intros a Hl; cbn; auto. destruct (Hl i (or_introl eq_refl)) as [-> ->].
    rewrite ZA. apply IH. intros; apply Hl; now right. }
  intros a. apply X. intros i Hi. apply in_seq in Hi. apply H. lia.
Qed.

Lemma wch_extend V m m' b k : m <= m' -> k <= m -> (forall i, m <= i < m' -> b i = fz) ->
  (forall j i, j < k -> m <= i < m' -> V i j = fz) ->
  (forall i, i < m -> wch fp V m' b k i = wch fp V m b k i) /\ (forall i, m <= i < m' -> wch fp V m' b k i = fz).
Proof.
  destruct ZL as (_ & _ & ZS). intros Hm. induction k as [|k IH]; intros Hk Hb HV.
  - cbn [wch]. auto.
  - destruct IH as [I1 I2]; auto; try lia.
    assert (D : dotf fp (fun i => V i k) (wch fp V m' b k) k m' = dotf fp (fun i => V i k) (wch fp V m b k) k m).
    { rewrite (dotf_extend _ _ k m m') by (first [lia | intros; split; [apply HV; lia|apply I2; lia]]).
      apply dotf_ext; auto. intros. apply I1. lia. }
    split; intros i Hi; cbn [wch]; rewrite D.
    + rewrite I1 by assumption. replace (i <? m') with true by (symmetry; apply Nat.ltb_lt; lia).
      replace (i <? m) with true by (symmetry; apply Nat.ltb_lt; lia). reflexivity.
    + replace (k <=? i) with true by (symmetry; apply Nat.leb_le; lia).
      replace (i <? m') with true by (symmetry; apply Nat.ltb_lt; lia). cbn [andb].
      rewrite I2, HV by lia. apply ZS.
Qed.

Lemma dotv_extend V m m' b k : m <= m' -> k < m -> (forall i, m <= i < m' -> b i = fz) ->
  (forall j i, j <= k -> m <= i < m' -> V i j = fz) -> dotv fp V m' b k = dotv fp V m b k.
Proof.
  intros Hm Hk Hb HV. unfold dotv.
  destruct (wch_extend V m m' b k) as [I1 I2]; auto; try lia.
  { intros; apply HV; lia. }
  rewrite (dotf_extend _ _ k m m') by (first [lia | intros; split; [apply HV; lia|apply I2; lia]]).
  apply dotf_ext; auto. intros. apply I1. lia.
Qed.

End Dot.

Section HR.
Context {F : Type} (fp : fpops F) (c : cfg).
Notation n := (cn c).
Notation d := (cd c).
Notation fz := (fzero fp).
Notation fwf := (Safety.fwf c).

(** ** hr_step, hr_loop *)
Lemma hr_step_eq (kappa nmax : nat) (dot : nat -> bool) (k : nat) (f : fst_ F) : fwf f -> d <= n -> kappa < d -> k <= kappa -> k < nmax -> nmax <= n ->
  let w i := if k =? 0 then mget fz (fBfp f) i kappa else mget fz (fRk f) i (k - 1) in
  let p := dotf fp (fun i => mget fz (fV f) i k) w k nmax in
  let f1 := if dot k then set_VR (mset (fVR f) k kappa p) f else f in
  let a := mget fz (fVR f1) k kappa in
  hr_step fp c kappa nmax dot k f =
  Ok (set_Rk (lupd (fRk f) k (splice k (map (fun i => fsubmul fp (w (k + i)) (mget fz (fV f) (k + i) k) a) (seq 0 (nmax - k)))
                                (col (fRk f) k))) f1).
Proof.
  intros W ND Hk Hkk Hkn Hn. cbn zeta. unfold hr_step.
  assert (LV : length (col (fV f) k) = n) by (apply (wfm_col n d); [apply W|lia]).
  assert (G1 : gcol c (fV f) k k = Ok (skipn k (col (fV f) k))).
  { unfold gcol, guard. replace (k <? d) with true by (symmetry; apply Nat.ltb_lt; lia).
    replace (k <=? n) with true by (symmetry; apply Nat.leb_le; lia). reflexivity. }
  rewrite G1. cbn [bind].
  set (X := if k =? 0 then col (fBfp f) kappa else col (fRk f) (k - 1)).
  assert (LX : length X = n).
  { unfold X. destruct (Nat.eqb_spec k 0) as [E|E]; apply (wfm_col (cn c) d); try apply W; lia. }
  assert (G2 : (if k =? 0 then gcol c (fBfp f) kappa 0 else gcol c (fRk f) (k - 1) k) = Ok (skipn k X)).
  { unfold X, gcol, guard. destruct (Nat.eqb_spec k 0) as [->|E]; cbn [skipn].
    - replace (kappa <? d) with true by (symmetry; apply Nat.ltb_lt; lia). reflexivity.
    - replace (k - 1 <? d) with true by (symmetry; apply Nat.ltb_lt; lia).
      replace (k <=? n) with true by (symmetry; apply Nat.leb_le; lia). reflexivity. }
  rewrite G2. cbn [bind].
  assert (EW : forall i, nth i X fz = if k =? 0 then mget fz (fBfp f) i kappa else mget fz (fRk f) i (k - 1)).
  { intros i. unfold X, mget. now destruct (k =? 0). }
  rewrite (scalarprod_dotf fp (col (fV f) k) X k nmax) by lia. cbn [bind].
  assert (EP : dotf fp (fun i => nth i (col (fV f) k) fz) (fun i => nth i X fz) k nmax =
     dotf fp (fun i => mget fz (fV f) i k) (fun i => if k =? 0 then mget fz (fBfp f) i kappa else mget fz (fRk f) i (k - 1)) k nmax).
  { apply dotf_ext; auto. }
  rewrite EP.
  replace (k <? d) with true by (symmetry; apply Nat.ltb_lt; lia).
  replace (kappa <? d) with true by (symmetry; apply Nat.ltb_lt; lia). cbn [andb guard].
  set (p := dotf fp _ _ _ _).
  set (f1 := if dot k then set_VR (mset (fVR f) k kappa p) f else f).
  replace (if dot k then Ok (set_VR (mset (fVR f) k kappa p) f) else Ok f) with (Ok f1)
    by (unfold f1; now destruct (dot k)).
  cbn [bind]. unfold gVR.
  replace (k <? d) with true by (symmetry; apply Nat.ltb_lt; lia).
  replace (kappa <? d) with true by (symmetry; apply Nat.ltb_lt; lia). cbn [andb guard bind].
  unfold fmasub. replace (k <? d) with true by (symmetry; apply Nat.ltb_lt; lia).
  rewrite !skipn_length, LX, LV.
  replace (k + (nmax - k) <=? n) with true by (symmetry; apply Nat.leb_le; lia).
  replace (nmax - k <=? n - k) with true by (symmetry; apply Nat.leb_le; lia). cbn [andb guard bind].
  assert (ER : fRk f1 = fRk f) by (unfold f1; now destruct (dot k)).
  rewrite ER. f_equal. f_equal. f_equal. f_equal. apply map_ext. intros i. rewrite !nth_skipn, EW. reflexivity.
Qed.

(** what is valid in VR and Rkept for column [kappa] *)
Definition VRok (f : fst_ F) (s : ist) (j m k : nat) : Prop :=
  mget fz (fVR f) k j = dotv fp (Vf fp f) m (bval fp s j) k.

(** the state after the reflectors 0..m-1 *)
Definition hr_mid (kappa nmax : nat) (b : nat -> F) (f : fst_ F) (m : nat) (t : fst_ F) : Prop :=
  exists rk vr, t = set_Rk rk (set_VR vr f) /\ wfm n d rk /\ wfm d d vr /\
  (forall k j, j <> kappa -> mget fz vr k j = mget fz (fVR f) k j) /\
  (forall k, m <= k -> mget fz vr k kappa = mget fz (fVR f) k kappa) /\
  (forall k, k < m -> mget fz vr k kappa = dotv fp (Vf fp f) nmax b k) /\
  (forall k i, k < m -> k <= i < nmax -> mget fz rk i k = wch fp (Vf fp f) nmax b (S k) i).

Lemma hr_loop_ok kappa nmax dot f b : fwf f -> d <= n -> 1 <= kappa -> kappa < d -> kappa < nmax -> nmax <= n ->
  (forall i, i < nmax -> mget fz (fBfp f) i kappa = b i) ->
  (forall k, k < kappa -> dot k = false -> mget fz (fVR f) k kappa = dotv fp (Vf fp f) nmax b k) ->
  exists t, hr_loop fp c kappa nmax dot f = Ok t /\ hr_mid kappa nmax b f kappa t.
Proof.
  intros W ND H1 Hk Hkn Hn HB HV. unfold hr_loop.
  replace (min kappa nmax - 1) with (kappa - 1) by lia.
  replace (0 :: seq 1 (kappa - 1)) with (seq 0 kappa) by (destruct kappa; [lia|]; cbn [seq]; repeat f_equal; lia).
  assert (X : forall m, m <= kappa -> exists t, mfold (hr_step fp c kappa nmax dot) (seq 0 m) f = Ok t /\ hr_mid kappa nmax b f m t).
  2:{ apply X. lia. }
  assert (MF : forall A S (g : A -> S -> res S) l l' s, mfold g (l ++ l') s = (let* t := mfold g l s in mfold g l' t)).
  { intros A S g l. induction l as [|x l IH]; intros l' s; cbn [mfold app bind]; auto.
    destruct (g x s); cbn [bind]; auto. }
  induction m as [|m IH]; intros Hm.
  - exists f. split; [reflexivity|]. exists (fRk f), (fVR f). split; [now destruct f|].
    split; [apply W|]. split; [apply W|]. repeat split; auto; intros; lia.
  - destruct IH as (t & Et & (rk & vr & -> & Wrk & Wvr & I1 & I2 & I3 & I4)); [lia|].
    rewrite seq_S, MF, Et. cbn [bind mfold Nat.add].
    set (t := set_Rk rk (set_VR vr f)).
    assert (Wt : fwf t) by (apply fwf_Rk; [apply fwf_VR; assumption|assumption]).
    pose proof (hr_step_eq kappa nmax dot m t Wt ND Hk ltac:(lia) ltac:(lia) Hn) as E. cbn zeta in E. rewrite E. cbn [bind].
    unfold t in *. setf. clear E Wt.
    eexists. split; [reflexivity|].
    set (w := fun i => if m =? 0 then mget fz (fBfp f) i kappa else mget fz rk i (m - 1)) in *.
    assert (Ew : forall i, m <= i < nmax -> w i = wch fp (Vf fp f) nmax b m i).
    { intros i Hi. unfold w. destruct (Nat.eqb_spec m 0) as [->|N].
      - cbn [wch]. apply HB. lia.
      - rewrite I4 by lia. now replace (S (m - 1)) with m by lia. }
    assert (Ep : dotf fp (fun i => mget fz (fV f) i m) w m nmax = dotv fp (Vf fp f) nmax b m).
    { unfold dotv, Vf. apply dotf_ext; auto; lia. }
    set (vr' := if dot m then mset vr m kappa (dotv fp (Vf fp f) nmax b m) else vr).
    assert (Evr' : mget fz vr' m kappa = dotv fp (Vf fp f) nmax b m).
    { unfold vr'. destruct (dot m) eqn:Ed.
      - rewrite (mget_mset fz d d) by (auto; lia). now rewrite !Nat.eqb_refl.
      - rewrite I2 by lia. apply HV; [lia|assumption]. }
    match goal with |- hr_mid _ _ _ _ _ (set_Rk ?r ?g) => set (rk' := r); set (g0 := g) end.
    assert (Eg : fVR g0 = vr' /\ set_Rk rk' g0 = set_Rk rk' (set_VR vr' f)).
    { unfold g0, vr'. rewrite Ep. destruct (dot m); setf; auto. }
    destruct Eg as [Eg1 Eg2].
    exists rk', vr'. split; [exact Eg2|].
    assert (Wvr' : wfm d d vr') by (unfold vr'; destruct (dot m); [now apply wfm_mset|assumption]).
    assert (Lc : length (col rk m) = n) by (apply (wfm_col n d); auto; lia).
    assert (Wrk' : wfm n d rk').
    { unfold rk'. apply wfm_lupd; auto. rewrite splice_length; rewrite ?map_length, ?seq_length; lia. }
    split; [assumption|]. split; [assumption|].
    assert (GV : forall k j, mget fz vr' k j = if (k =? m) && (j =? kappa) then dotv fp (Vf fp f) nmax b m else mget fz vr k j).
    { intros k j. destruct ((k =? m) && (j =? kappa))%bool eqn:E.
      - apply andb_true_iff in E as [E1 E2]. apply Nat.eqb_eq in E1, E2. now subst.
      - unfold vr'. destruct (dot m); auto. rewrite (mget_mset fz d d) by (auto; lia). now rewrite E. }
    split; [|split; [|split]].
    + intros k j Hj. rewrite GV. replace (j =? kappa) with false by (symmetry; now apply Nat.eqb_neq).
      rewrite andb_false_r. now apply I1.
    + intros k Hkm. rewrite GV. replace (k =? m) with false by (symmetry; apply Nat.eqb_neq; lia). cbn [andb].
      apply I2. lia.
    + intros k Hkm. rewrite GV, Nat.eqb_refl, andb_true_r. destruct (Nat.eqb_spec k m) as [->|N]; auto. apply I3. lia.
    + intros k i Hkm Hi. unfold rk', mget. rewrite col_lupd.
      destruct Wrk as [Lrk _]. rewrite Lrk. replace (m <? d) with true by (symmetry; apply Nat.ltb_lt; lia).
      rewrite andb_true_r. destruct (Nat.eqb_spec k m) as [->|N].
      * rewrite nth_splice by (rewrite ?map_length, ?seq_length; lia). rewrite map_length, seq_length.
        replace (m <=? i) with true by (symmetry; apply Nat.leb_le; lia).
        replace (i <? m + (nmax - m)) with true by (symmetry; apply Nat.ltb_lt; lia). cbn [andb].
        rewrite nth_map_seq by lia. replace (m + (0 + (i - m))) with i by lia.
        change (fsubmul fp (w i) (Vf fp f i m) (mget fz (fVR g0) m kappa) = wch fp (Vf fp f) nmax b (S m) i).
        rewrite Eg1, Evr'. rewrite wch_S by lia. rewrite Ew by lia. reflexivity.
      * apply I4; lia.
Qed.

End HR.
