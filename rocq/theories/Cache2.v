(** * The invariant of the kept data, and householder_r *)
From Coq Require Import ZArith Lia List Bool Arith.
From Verif Require Import Base Spec Mat FP Hlll IntSteps HlllInt Structure Object Safety Fresh Cache.
Import ListNotations.

Section Inv.
Context {F : Type} (fp : fpops F) (c : cfg).
Notation n := (cn c).
Notation d := (cd c).
Notation fz := (fzero fp).
Notation fwf := (Safety.fwf c).
Notation Sj s j := (nth j (iS s) 0).
Notation VRok := (VRok fp).

Record sgood (s : ist) : Prop := {
  g_bok : bok c s;
  g_gt : forall j, j < d -> j < Sj s j;
  g_le : forall j, j < d -> Sj s j <= n }.

Definition Rkok (f : fst_ F) (s : ist) (kappa : nat) : Prop :=
  forall k i, k < kappa -> k <= i < Sj s kappa ->
    mget fz (fRk f) i k = wch fp (Vf fp f) (Sj s kappa) (bval fp s kappa) (S k) i.

(** what a marked column j guarantees *)
Definition colok (f : fst_ F) (s : ist) (j : nat) : Prop :=
  (forall i, i < Sj s j -> mget fz (fBfp f) i j = bval fp s j i) /\
  nth j (fnB2 f) fz = dotf fp (bval fp s j) (bval fp s j) 0 (Sj s j) /\
  (0 <= nth j (fkmin f) 0 <= Z.of_nat j)%Z.

Definition kept (f : fst_ F) (j : nat) : Prop := nth j (fkept f) false = true.

(** the other columns *)
Record others (kappa : nat) (s : ist) (f : fst_ F) : Prop := {
  o_lo : forall j, j < kappa -> kept f j /\ (forall k, k < j -> VRok f s j (Sj s j) k);
  o_hi : forall j, kappa < j < d -> kept f j -> (nth j (fkmin f) 0 <= Z.of_nat kappa)%Z /\
            (forall k, (Z.of_nat k < nth j (fkmin f) 0)%Z -> VRok f s j (Sj s j) k);
  o_col : forall j, j < d -> j <> kappa -> kept f j -> colok f s j }.

(** either all columns have the same number of rows, or zeros are neutral *)
Definition const_struct (s : ist) : Prop := forall i j, i < d -> j < d -> Sj s i = Sj s j.
Definition zalt (s : ist) (f : fst_ F) (lim : nat) : Prop :=
  const_struct s \/
  (zero_laws fp /\
   (forall j i, j < d -> Sj s j <= i < n -> mget fz (fBfp f) i j = fz) /\
   (forall k i, k < lim -> Sj s k <= i < n -> Vf fp f i k = fz)).

Record Pre (kappa : nat) (s : ist) (f : fst_ F) : Prop := {
  p_wf : fwf f;
  p_oth : others kappa s f;
  p_z : zalt s f kappa;
  p_me : kept f kappa -> colok f s kappa /\
     (forall k, (Z.of_nat k < nth kappa (fkmin f) 0)%Z -> VRok f s kappa (Sj s kappa) k) /\
     (nth kappa (fdesc f) 0 = 0 \/ kappa <= nth kappa (fdesc f) 0 \/
      ((forall k, k < kappa -> VRok f s kappa (Sj s kappa) k) /\ Rkok f s kappa)) }.

Record Post (kappa : nat) (s : ist) (f : fst_ F) : Prop := {
  q_wf : fwf f;
  q_oth : others kappa s f;
  q_z : zalt s f kappa;
  q_kept : kept f kappa;
  q_col : colok f s kappa;
  q_VR : forall k, k < kappa -> VRok f s kappa (Sj s kappa) k;
  q_Rk : Rkok f s kappa;
  q_nmax : fnmax f = Sj s kappa }.

(** the column written by householder_r *)
Definition rcol (V : nat -> nat -> F) (s : ist) (kappa : nat) (old : list F) : list F :=
  splice 0 (map (wch fp V (Sj s kappa) (bval fp s kappa) kappa) (seq 0 (Sj s kappa))) old.

(** everything householder_r does *)
Record hrout (kappa : nat) (s : ist) (f f' : fst_ F) : Prop := {
  h_R : fR f' = lupd (fR f) kappa (rcol (Vf fp f) s kappa (col (fR f) kappa));
  h_V : fV f' = fV f;
  h_x : fx f' = fx f;
  h_nmax : fnmax f' = Sj s kappa;
  h_desc : fdesc f' = fdesc f;
  h_kmin : fkmin f' = lupd (fkmin f) kappa (Z.of_nat kappa);
  h_kept : fkept f' = lupd (fkept f) kappa true;
  h_nB2 : fnB2 f' = lupd (fnB2 f) kappa (dotf fp (bval fp s kappa) (bval fp s kappa) 0 (Sj s kappa));
  h_Bfp1 : forall i, i < Sj s kappa -> mget fz (fBfp f') i kappa = bval fp s kappa i;
  h_Bfp2 : forall i j, j <> kappa \/ Sj s kappa <= i -> mget fz (fBfp f') i j = mget fz (fBfp f) i j;
  h_VR1 : forall k, k < kappa -> mget fz (fVR f') k kappa = dotv fp (Vf fp f) (Sj s kappa) (bval fp s kappa) k;
  h_VR2 : forall k j, j <> kappa -> mget fz (fVR f') k j = mget fz (fVR f) k j;
  h_Rk : forall k i, k < kappa -> k <= i < Sj s kappa ->
     mget fz (fRk f') i k = wch fp (Vf fp f) (Sj s kappa) (bval fp s kappa) (S k) i }.

Lemma bok_wfm s : bok c s -> wfm n d (iB s).
Proof. now intros []. Qed.

Lemma lupd_same (l : list bool) i : nth i l false = true -> lupd l i true = l.
Proof. intros H. rewrite <- H. apply lupd_nth_id. Qed.

Lemma setcol_mget (M : mat F) s kappa m i j : wfm n d M -> kappa < d -> m <= n ->
  mget fz (setcol_z fp M kappa (col (iB s) kappa) m) i j =
  if (j =? kappa) && (i <? m) then bval fp s kappa i else mget fz M i j.
Proof.
  intros W Hk Hm. unfold setcol_z, mget at 1. rewrite col_lupd, (wfm_length n d) by assumption.
  replace (kappa <? d) with true by (symmetry; now apply Nat.ltb_lt). rewrite andb_true_r.
  destruct (Nat.eqb_spec j kappa) as [->|N]; cbn [andb]; [|reflexivity].
  rewrite nth_splice by (rewrite map_length, seq_length, (wfm_col n d) by assumption; lia).
  rewrite map_length, seq_length. cbn [Nat.leb andb Nat.add]. destruct (Nat.ltb_spec i m); [|reflexivity].
  rewrite nth_map_seq by lia. rewrite Nat.sub_0_r. reflexivity.
Qed.

Lemma setcol_wf (M : mat F) b kappa m : wfm n d M -> kappa < d -> m <= n -> wfm n d (setcol_z fp M kappa b m).
Proof.
  intros W Hk Hm. apply wfm_lupd; auto. rewrite splice_length; rewrite ?map_length, ?seq_length, (wfm_col n d) by assumption; lia.
Qed.

Lemma firstn_splice_eq (l old : list F) (g : nat -> F) m : m <= length l -> (forall i, i < m -> nth i l fz = g i) ->
  splice 0 (firstn m l) old = splice 0 (map g (seq 0 m)) old.
Proof.
  intros Hl H. f_equal. apply (nth_ext_len _ _ fz).
  - rewrite firstn_length, map_length, seq_length. lia.
  - rewrite firstn_length. intros i Hi. rewrite nth_firstn by lia. rewrite nth_map_seq by lia. apply H. lia.
Qed.

Lemma Ok_inj {A} (a b : A) : Ok a = Ok b -> a = b.
Proof. congruence. Qed.

(** column 0 *)
Lemma householder_r_0 s f : sgood s -> 0 < d -> d <= n -> fwf f -> (kept f 0 -> colok f s 0) ->
  exists f', householder_r fp c s f 0 = Ok f' /\ hrout 0 s f f'.
Proof.
  intros G Hd ND W HK. pose proof (g_gt s G 0 Hd) as G1. pose proof (g_le s G 0 Hd) as G2.
  unfold householder_r, guard. replace (0 <? d) with true by (symmetry; now apply Nat.ltb_lt).
  replace (Sj s 0 <=? n) with true by (symmetry; now apply Nat.leb_le). cbn [Nat.eqb]. setf.
  destruct (nth 0 (fkept f) false) eqn:K.
  - destruct (HK K) as (K1 & K2 & K3). cbn [bind]. setf. eexists. split; [reflexivity|].
    assert (LB : length (col (fBfp f) 0) = n) by (apply (wfm_col n d); [apply W|lia]).
    split; setf; auto; try (intros; lia).
    + f_equal. unfold rcol. cbn [wch]. apply firstn_splice_eq; [lia|]. exact K1.
    + now rewrite lupd_same.
    + rewrite <- K2. symmetry. apply lupd_nth_id.
  - setf. set (Bf := setcol_z fp (fBfp f) 0 (col (iB s) 0) (Sj s 0)).
    assert (WB : wfm n d Bf) by (apply setcol_wf; auto; apply W).
    assert (LB : length (col Bf 0) = n) by (apply (wfm_col n d); [assumption|lia]).
    assert (GB : forall i j, mget fz Bf i j = if (j =? 0) && (i <? Sj s 0) then bval fp s 0 i else mget fz (fBfp f) i j)
      by (intros; apply setcol_mget; auto; apply W).
    assert (LR : length (col (fR f) 0) = n) by (apply (wfm_col n d); [apply W|lia]).
    set (R0 := splice 0 (firstn (Sj s 0) (col Bf 0)) (col (fR f) 0)).
    assert (ER0 : R0 = rcol (Vf fp f) s 0 (col (fR f) 0)).
    { unfold R0, rcol. cbn [wch]. apply firstn_splice_eq; [lia|]. intros i Hi.
      change (nth i (col Bf 0) fz) with (mget fz Bf i 0). rewrite GB. cbn [Nat.eqb andb].
      replace (i <? Sj s 0) with true by (symmetry; now apply Nat.ltb_lt). reflexivity. }
    assert (LR0 : length R0 = n).
    { unfold R0. rewrite splice_length; rewrite ?firstn_length; lia. }
    unfold gcol, guard. replace (0 <? d) with true by (symmetry; now apply Nat.ltb_lt). cbn [Nat.leb andb bind skipn].
    rewrite col_lupd_eq by (rewrite (wfm_length n d); [lia|apply W]).
    unfold fp_norm_sq.
    assert (SP := scalarprod_dotf fp R0 R0 0 (Sj s 0) ltac:(lia) ltac:(lia) ltac:(lia)).
    cbn [skipn] in SP. rewrite Nat.sub_0_r in SP. rewrite SP. clear SP. cbn [bind]. setf.
    eexists. split; [reflexivity|]. split; setf; auto; try (intros; lia).
    + now rewrite ER0.
    + f_equal. apply dotf_ext; [lia| |]; intros i Hi; rewrite ER0; unfold rcol;
        (rewrite nth_splice by (rewrite map_length, seq_length; lia)); rewrite map_length, seq_length;
        cbn [Nat.leb andb Nat.add]; (replace (i <? Sj s 0) with true by (symmetry; apply Nat.ltb_lt; lia));
        (rewrite nth_map_seq by lia); now rewrite Nat.sub_0_r.
    + intros i Hi. rewrite GB. cbn [Nat.eqb andb]. replace (i <? Sj s 0) with true by (symmetry; now apply Nat.ltb_lt). reflexivity.
    + intros i j H. rewrite GB. destruct H as [H|H].
      * now replace (j =? 0) with false by (symmetry; now apply Nat.eqb_neq).
      * replace (i <? Sj s 0) with false by (symmetry; now apply Nat.ltb_ge). now rewrite andb_false_r.
Qed.

(** the final copy *)
Lemma hr_final_ok s kappa f t : sgood s -> 1 <= kappa -> kappa < d -> wfm n d (fR t) ->
  Vf fp t = Vf fp f ->
  (forall k i, k < kappa -> k <= i < Sj s kappa ->
     mget fz (fRk t) i k = wch fp (Vf fp f) (Sj s kappa) (bval fp s kappa) (S k) i) ->
  exists tr, hr_final fp c kappa (Sj s kappa) t =
     Ok (set_R (lupd (fR t) kappa (rcol (Vf fp f) s kappa (col (fR t) kappa))) (set_toR tr t)).
Proof.
  intros G H1 Hk WR EV HR. pose proof (g_gt s G kappa Hk) as G1. pose proof (g_le s G kappa Hk) as G2.
  unfold hr_final, guard. replace (kappa <? d) with true by (symmetry; now apply Nat.ltb_lt).
  replace (Sj s kappa <=? n) with true by (symmetry; now apply Nat.leb_le). cbn [andb]. setf.
  eexists. f_equal. f_equal. f_equal. unfold rcol. f_equal.
  apply map_ext_in. intros i Hi. apply in_seq in Hi.
  replace (kappa <? Sj s kappa) with true by (symmetry; now apply Nat.ltb_lt). cbn [andb].
  destruct (Nat.leb_spec kappa i).
  - rewrite HR by lia. now replace (S (kappa - 1)) with kappa by lia.
  - rewrite HR by lia. symmetry. apply wch_below; lia.
Qed.

Lemma householder_r_out kappa s f : sgood s -> kappa < d -> Pre kappa s f ->
  exists f', householder_r fp c s f kappa = Ok f' /\ hrout kappa s f f'.
Proof.
  intros G Hk P. assert (ND : d <= n).
  { pose proof (g_gt s G (d - 1) ltac:(lia)). pose proof (g_le s G (d - 1) ltac:(lia)). lia. }
  pose proof (p_wf _ _ _ P) as W.
  destruct (Nat.eq_dec kappa 0) as [->|N0].
  { apply householder_r_0; auto. intros K. now apply (p_me _ _ _ P). }
  pose proof (g_gt s G kappa Hk) as G1. pose proof (g_le s G kappa Hk) as G2.
  unfold householder_r, guard. replace (kappa <? d) with true by (symmetry; now apply Nat.ltb_lt).
  replace (Sj s kappa <=? n) with true by (symmetry; now apply Nat.leb_le).
  replace (kappa =? 0) with false by (symmetry; now apply Nat.eqb_neq). setf.
  destruct (nth kappa (fkept f) false) eqn:K.
  - destruct (p_me _ _ _ P K) as ((K1 & K2 & K3) & KV & KR).
    destruct ((nth kappa (fdesc f) 0 <? 1) || (kappa <=? nth kappa (fdesc f) 0)) eqn:Q.
    + replace (nth kappa (fkmin f) 0%Z <? 0)%Z with false by (symmetry; apply Z.ltb_ge; lia).
      set (f0 := set_nmax (Sj s kappa) f).
      assert (W0 : fwf f0) by (now apply fwf_nmax).
      destruct (hr_loop_ok fp c kappa (Sj s kappa) (fun k => (nth kappa (fkmin f) 0 <=? Z.of_nat k)%Z) f0 (bval fp s kappa) W0)
        as (t & Et & (rk & vr & -> & Wrk & Wvr & I1 & I2 & I3 & I4)); auto; try lia.
      { intros k Hkk Hd. apply Z.leb_gt in Hd. exact (KV k Hd). }
      rewrite Et. cbn [bind].
      destruct (hr_final_ok s kappa f (set_Rk rk (set_VR vr f0)) G) as (tr & ->); auto; try lia.
      { setf. apply W. }
      cbn [bind]. unfold f0 in *. setf. eexists. split; [reflexivity|]. split; setf; auto.
      * now rewrite lupd_same.
      * rewrite <- K2. symmetry. apply lupd_nth_id.
    + apply orb_false_iff in Q as [Q1 Q2]. apply Nat.ltb_ge in Q1. apply Nat.leb_gt in Q2.
      destruct KR as [KR|[KR|[KR1 KR2]]]; [lia|lia|]. cbn [bind].
      destruct (hr_final_ok s kappa f (set_nmax (Sj s kappa) f) G) as (tr & ->); auto; try lia.
      { setf. apply W. }
      cbn [bind]. setf. eexists. split; [reflexivity|]. split; setf; auto.
      * now rewrite lupd_same.
      * rewrite <- K2. symmetry. apply lupd_nth_id.
  - set (Bf := setcol_z fp (fBfp f) kappa (col (iB s) kappa) (Sj s kappa)).
    assert (WB : wfm n d Bf) by (apply setcol_wf; auto; apply W).
    assert (LB : length (col Bf kappa) = n) by (apply (wfm_col n d); [assumption|lia]).
    assert (GB : forall i j, mget fz Bf i j = if (j =? kappa) && (i <? Sj s kappa) then bval fp s kappa i else mget fz (fBfp f) i j)
      by (intros; apply setcol_mget; auto; apply W).
    unfold gcol, guard. replace (kappa <? d) with true by (symmetry; now apply Nat.ltb_lt). cbn [Nat.leb andb bind skipn].
    unfold fp_norm_sq.
    assert (SP := scalarprod_dotf fp (col Bf kappa) (col Bf kappa) 0 (Sj s kappa) ltac:(lia) ltac:(lia) ltac:(lia)).
    cbn [skipn] in SP. rewrite Nat.sub_0_r in SP. rewrite SP. clear SP. cbn [bind].
    match goal with |- context [hr_loop _ _ _ _ _ ?g] => set (f0 := g) end.
    assert (HBk : forall i, i < Sj s kappa -> mget fz Bf i kappa = bval fp s kappa i).
    { intros i Hi. rewrite GB, Nat.eqb_refl. now replace (i <? Sj s kappa) with true by (symmetry; now apply Nat.ltb_lt). }
    assert (EQ : dotf fp (fun i => nth i (col Bf kappa) fz) (fun i => nth i (col Bf kappa) fz) 0 (Sj s kappa) =
                 dotf fp (bval fp s kappa) (bval fp s kappa) 0 (Sj s kappa)).
    { apply dotf_ext; [lia| |]; intros i Hi; apply HBk; lia. }
    assert (W1 : fwf (set_kmin (lupd (fkmin f) kappa (Z.of_nat kappa)) f0)).
    { unfold f0. setf.
      pose proof (fwf_but_mark c ND (set_nmax (Sj s kappa) f) kappa ltac:(now apply fwf_nmax) Hk) as M.
      unfold fwf_but in M. setf. rewrite EQ.
      apply (fwf_nB2 c _ (lupd (fnB2 f) kappa (dotf fp (bval fp s kappa) (bval fp s kappa) 0 (Sj s kappa)))) in M;
        [|rewrite lupd_length; apply W].
      apply (fwf_Bfp c _ Bf) in M; [|assumption]. exact M. }
    destruct (hr_loop_ok fp c kappa (Sj s kappa) (fun _ => true) (set_kmin (lupd (fkmin f) kappa (Z.of_nat kappa)) f0) (bval fp s kappa) W1)
        as (t & Et & (rk & vr & -> & Wrk & Wvr & I1 & I2 & I3 & I4)); auto; try lia.
    unfold hr_loop in *. rewrite hr_loop_kmin_gen in Et.
    destruct (mfold _ _ f0) as [t| |] eqn:E0; [|discriminate|discriminate].
    apply Ok_inj in Et. cbn [bind].
    assert (Er : fR t = fR f /\ fV t = fV f /\ fRk t = rk /\ fVR t = vr /\ fnB2 t = fnB2 f0 /\ fBfp t = Bf /\ fx t = fx f
        /\ fnmax t = Sj s kappa /\ fdesc t = fdesc f /\ fkept t = lupd (fkept f) kappa true).
    { repeat split; [apply (f_equal fR) in Et|apply (f_equal fV) in Et|apply (f_equal fRk) in Et|apply (f_equal fVR) in Et
        |apply (f_equal fnB2) in Et|apply (f_equal fBfp) in Et|apply (f_equal fx) in Et|apply (f_equal fnmax) in Et
        |apply (f_equal fdesc) in Et|apply (f_equal fkept) in Et]; exact Et. }
    destruct Er as (Er & Ev & Erk & Evr & En & Eb & Ex & Em & Ed & Ek).
    pose proof (hr_loop_kmin_same fp c kappa (Sj s kappa) (fun _ => true) f0 t E0) as EK.
    destruct (hr_final_ok s kappa f t G) as (tr & ->); auto; try lia.
    { rewrite Er. apply W. }
    { unfold Vf. now rewrite Ev. }
    { intros k i H1 H2. rewrite Erk. now apply I4. }
    cbn [bind]. unfold f0 in EK. setf. eexists. split; [reflexivity|]. split; setf; auto.
    + now rewrite Er.
    + now rewrite EK.
    + rewrite En. unfold f0. setf. now rewrite EQ.
    + intros i Hi. rewrite Eb. auto.
    + intros i j H. rewrite Eb, GB. destruct H as [H|H].
      * now replace (j =? kappa) with false by (symmetry; now apply Nat.eqb_neq).
      * replace (i <? Sj s kappa) with false by (symmetry; now apply Nat.ltb_ge). now rewrite andb_false_r.
    + rewrite Evr. exact I3.
    + rewrite Evr. exact I1.
    + rewrite Erk. exact I4.
Qed.

End Inv.
