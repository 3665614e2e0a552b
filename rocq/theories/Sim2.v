(** * Lock step: householder_r and householder_v *)
From Coq Require Import ZArith Lia List Bool Arith.
From Verif Require Import Base Spec Mat FP Hlll HlllM Safety Sim.
Import ListNotations.

Ltac setg := cbn [set_R set_Rk set_V set_Bfp set_VR set_nB2 set_x set_toR set_nmax set_kept set_kmin set_desc
                  fR fRk fV fBfp fVR fnB2 fx ftoR fnmax fkept fkmin fdesc
                  put_R put_Rk put_V put_Bfp put_VR put_nB2 put_x put_toR put_nmax put_kept put_kmin put_desc
                  gR_ gRk gV gBfp gVR_ gnB2 gx gtoR gnmax gkept gkmin gdesc] in *.

Section S2.
Context {F G M : Type} (fp : fpops F) (so : sops G) (mo : mops G M)
        (v : G -> F) (mv : M -> nat -> nat -> F) (mwf : M -> Prop) (c : cfg).
Notation n := (cn c).
Notation d := (cd c).
Notation fz := (fzero fp).
Notation gz := (s_zero so).
Hypothesis ND : d <= n.
Hypothesis SL : slaws fp so v.
Hypothesis ML : mlaws fp so mo v mv mwf n d.

(** dimensions (fwf without the clause on kappamin) *)
Definition fwd (f : fst_ F) : Prop := fwf c (set_kmin (repeat 0%Z d) f).
Lemma fwf_fwd f : fwf c f -> fwd f.
Proof.
  intros []. split; setg; auto; [apply repeat_length|].
  intros j Hj _. destruct (nth_in_or_default j (repeat 0%Z d) 0%Z) as [I| -> ]; [|lia].
  apply repeat_spec in I. rewrite I. lia.
Qed.
Lemma fwd_R f A : fwd f -> wfm n d A -> fwd (set_R A f).
Proof. intros W H. exact (fwf_R c _ A W H). Qed.
Lemma fwd_Rk f A : fwd f -> wfm n d A -> fwd (set_Rk A f).
Proof. intros W H. exact (fwf_Rk c _ A W H). Qed.
Lemma fwd_V f A : fwd f -> wfm n d A -> fwd (set_V A f).
Proof. intros W H. exact (fwf_V c _ A W H). Qed.
Lemma fwd_Bfp f A : fwd f -> wfm n d A -> fwd (set_Bfp A f).
Proof. intros W H. exact (fwf_Bfp c _ A W H). Qed.
Lemma fwd_VR f A : fwd f -> wfm d d A -> fwd (set_VR A f).
Proof. intros W H. exact (fwf_VR c _ A W H). Qed.
Lemma fwd_nB2 f A : fwd f -> length A = d -> fwd (set_nB2 A f).
Proof. intros W H. exact (fwf_nB2 c _ A W H). Qed.
Lemma fwd_toR f A : fwd f -> length A = n -> fwd (set_toR A f).
Proof. intros W H. exact (fwf_toR c _ A W H). Qed.
Lemma fwd_kept f k b : fwd f -> k < d -> fwd (set_kept (lupd (fkept f) k b) f).
Proof.
  intros W H. destruct b.
  - apply (fwf_kept_true c _ k W H). setg.
    destruct (nth_in_or_default k (repeat 0%Z d) 0%Z) as [I| -> ]; [|lia]. apply repeat_spec in I. rewrite I. lia.
  - exact (fwf_kept_false c _ k W H).
Qed.
Lemma fwd_dim f : fwd f -> wfm n d (fR f) /\ wfm n d (fRk f) /\ wfm n d (fV f) /\ wfm n d (fBfp f) /\ wfm d d (fVR f) /\
  length (fnB2 f) = d /\ length (ftoR f) = n.
Proof. intros []. setg. auto 10. Qed.

Record rel (g : gst G M) (f : fst_ F) : Prop := {
  r_wR : mwf (gR_ g); r_wRk : mwf (gRk g); r_wV : mwf (gV g); r_wB : mwf (gBfp g);
  r_B : forall i j, i < n -> j < d -> mv (gBfp g) i j = mget fz (fBfp f) i j;
  r_VR : fVR f = map (map v) (gVR_ g);
  r_nB2 : fnB2 f = map v (gnB2 g); r_x : fx f = v (gx g); r_toR : ftoR f = map v (gtoR g);
  r_nm : fnmax f = gnmax g; r_kept : fkept f = gkept g; r_kmin : fkmin f = gkmin g; r_desc : fdesc f = gdesc g;
  r_wf : fwd f }.

(** entries that agree *)
Definition Rcol (m j : nat) (g : gst G M) (f : fst_ F) : Prop :=
  forall i, i < m -> mv (gR_ g) i j = mget fz (fR f) i j.
Definition Vcol (j : nat) (g : gst G M) (f : fst_ F) : Prop :=
  forall i, j <= i < n -> mv (gV g) i j = mget fz (fV f) i j.
Definition Kcol (kk m : nat) (g : gst G M) (f : fst_ F) : Prop :=
  forall k i, k < kk -> k <= i < m -> mv (gRk g) i k = mget fz (fRk f) i k.
(** Bfp is zero below the structure *)
Definition bz (s : ist) (f : fst_ F) : Prop :=
  forall i j, j < d -> nth j (iS s) 0 <= i < n -> mget fz (fBfp f) i j = fz.
(** the structure: at least a diagonal, non-decreasing, inside the matrix *)
Definition swf (s : ist) : Prop :=
  (forall j, j < d -> j + 1 <= nth j (iS s) 0 <= n) /\
  (forall i j, i <= j -> j < d -> nth i (iS s) 0 <= nth j (iS s) 0).
Lemma swf_sok s : swf s -> sok c s.
Proof. intros [H _] j Hj. now apply H. Qed.

Record core (s : ist) (kappa : nat) (g : gst G M) (f : fst_ F) : Prop := {
  c_rel : rel g f; c_bz : bz s f;
  c_V : forall k, k < kappa -> Vcol k g f;
  c_R : forall k, k < kappa -> Rcol (k + 1) k g f }.

Lemma gcol_ok (A : mat F) j k : j < d -> k <= n -> gcol c A j k = Ok (skipn k (col A j)).
Proof.
  intros Hj Hk. unfold gcol. rewrite (proj2 (Nat.ltb_lt j d) Hj), (proj2 (Nat.leb_le k n) Hk). reflexivity.
Qed.
Lemma gR_ok (A : mat F) i j : i < n -> j < d -> gR fp c A i j = Ok (mget fz A i j).
Proof.
  intros Hi Hj. unfold gR. rewrite (proj2 (Nat.ltb_lt i n) Hi), (proj2 (Nat.ltb_lt j d) Hj). reflexivity.
Qed.
Lemma gVR_ok (A : mat F) i j : i < d -> j < d -> gVR fp c A i j = Ok (mget fz A i j).
Proof.
  intros Hi Hj. unfold gVR. rewrite (proj2 (Nat.ltb_lt i d) Hi), (proj2 (Nat.ltb_lt j d) Hj). reflexivity.
Qed.
Lemma nth_col (A : mat F) j k i : nth i (skipn k (col A j)) fz = mget fz A (k + i) j.
Proof. unfold mget. apply nth_skipn. Qed.
Lemma skip_len (A : mat F) j k : wfm n d A -> j < d -> length (skipn k (col A j)) = n - k.
Proof. intros W Hj. rewrite skipn_length. now rewrite (wfm_col n d). Qed.

Lemma mget_fmasub A j k w z a l A' i j' : wfm n d A -> fmasub fp c A j k w z a l = Ok A' ->
  mget fz A' i j' = if (j' =? j) && ((k <=? i) && (i <? k + l))
                    then fsubmul fp (nth (i - k) w fz) (nth (i - k) z fz) a else mget fz A i j'.
Proof.
  intros W H. unfold fmasub in H. apply guard_Ok in H as [HG H]. injection H as <-.
  apply andb_true_iff in HG as [HG _]. apply andb_true_iff in HG as [HG _]. apply andb_true_iff in HG as [G1 G2].
  apply Nat.ltb_lt in G1. apply Nat.leb_le in G2.
  unfold mget. rewrite col_lupd. destruct (Nat.eqb_spec j' j) as [->|N]; cbn [andb]; [|reflexivity].
  rewrite (wfm_length n d A W), (proj2 (Nat.ltb_lt j d) G1).
  rewrite nth_splice by (rewrite map_length, seq_length, (wfm_col n d) by assumption; lia).
  rewrite map_length, seq_length.
  destruct ((k <=? i) && (i <? k + l)) eqn:E; [|reflexivity].
  apply andb_true_iff in E as [E1 E2]. apply Nat.leb_le in E1. apply Nat.ltb_lt in E2.
  rewrite nth_map_seq by lia. reflexivity.
Qed.
Lemma fmasub_ok A j k w z a l : j < d -> k + l <= n -> l <= length w -> l <= length z ->
  exists A', fmasub fp c A j k w z a l = Ok A'.
Proof.
  intros. unfold fmasub. eexists. rewrite (proj2 (Nat.ltb_lt _ _) H), !(proj2 (Nat.leb_le _ _)) by assumption. reflexivity.
Qed.

(** frame of householder_r's inner loop *)
Definition fr (g g' : gst G M) (f f' : fst_ F) : Prop :=
  gR_ g' = gR_ g /\ gV g' = gV g /\ gBfp g' = gBfp g /\ gdesc g' = gdesc g /\ gnmax g' = gnmax g /\
  fR f' = fR f /\ fV f' = fV f /\ fBfp f' = fBfp f /\ fdesc f' = fdesc f /\ fnmax f' = fnmax f.
Lemma fr_refl g f : fr g g f f.
Proof. repeat split. Qed.
Lemma fr_trans g1 g2 g3 f1 f2 f3 : fr g1 g2 f1 f2 -> fr g2 g3 f2 f3 -> fr g1 g3 f1 f3.
Proof. unfold fr. intuition congruence. Qed.
Lemma core_fr s kappa g g' f f' : core s kappa g f -> rel g' f' -> fr g g' f f' -> core s kappa g' f'.
Proof.
  intros [C1 C2 C3 C4] R (E1 & E2 & E3 & E4 & E5 & E6 & E7 & E8 & E9 & E10).
  split; auto.
  - unfold bz. now rewrite E8.
  - unfold Vcol. now rewrite E2, E7.
  - unfold Rcol. now rewrite E1, E6.
Qed.


Lemma hr_step_sim kappa nmax dot k g f : rel g f -> kappa < d -> nmax <= n -> k < kappa -> k < nmax ->
  Vcol k g f -> (k <> 0 -> forall i, k <= i < nmax -> mv (gRk g) i (k - 1) = mget fz (fRk f) i (k - 1)) ->
  rrel (fun g' f' => rel g' f' /\ fr g g' f f' /\
          (forall i, k <= i < nmax -> mv (gRk g') i k = mget fz (fRk f') i k) /\
          (forall i j, i < n -> j < d -> j <> k ->
             mv (gRk g') i j = mv (gRk g) i j /\ mget fz (fRk f') i j = mget fz (fRk f) i j))
       (g_hr_step so mo c kappa nmax dot k g) (hr_step fp c kappa nmax dot k f).
Proof.
  intros RL Hkd Hnn Hk Hkn HV HK. pose proof (r_wf _ _ RL) as W.
  destruct (fwd_dim f W) as (WR & WRk & WV & WB & WVR & WnB & WtR).
  unfold g_hr_step, hr_step in *. rewrite gcol_ok in * by lia. cbn [bind] in *.
  set (len := nmax - k) in *.
  set (w := if k =? 0 then skipn 0 (col (fBfp f) kappa) else skipn k (col (fRk f) (k - 1))).
  assert (EW : (if k =? 0 then gcol c (fBfp f) kappa 0 else gcol c (fRk f) (k - 1) k) = Ok w).
  { unfold w. destruct (k =? 0); apply gcol_ok; lia. }
  rewrite EW in *. cbn [bind] in *.
  destruct (if k =? 0 then (gBfp g, kappa) else (gRk g, k - 1)) as [Wm jw] eqn:EWm.
  assert (HW : mwf Wm /\ jw < d /\ length w = n - k /\ forall i, i < len -> nth i w fz = mv Wm (k + i) jw).
  { unfold w, len in *. destruct (Nat.eqb_spec k 0) as [->|N]; injection EWm as <- <-.
    - split; [apply RL|]. split; [lia|]. split; [rewrite skip_len; [lia|assumption|lia]|].
      intros i Hi. rewrite nth_col. symmetry. apply RL; lia.
    - split; [apply RL|]. split; [lia|]. split; [rewrite skip_len; [lia|assumption|lia]|].
      intros i Hi. rewrite nth_col. symmetry. apply HK; lia. }
  destruct HW as (W1 & W2 & W3 & W4).
  assert (LV : length (skipn k (col (fV f) k)) = n - k) by (apply skip_len; [assumption|lia]).
  assert (GD : (k <? d) && (kappa <? d) = true) by bool_lia.
  rewrite GD in *. unfold guard at 1.
  (* the common end *)
  assert (END : forall g1 f1, rel g1 f1 -> fr g g1 f f1 -> gRk g1 = gRk g -> fRk f1 = fRk f ->
    rrel (fun g' f' => rel g' f' /\ fr g g' f f' /\
          (forall i, k <= i < nmax -> mv (gRk g') i k = mget fz (fRk f') i k) /\
          (forall i j, i < n -> j < d -> j <> k ->
             mv (gRk g') i j = mv (gRk g) i j /\ mget fz (fRk f') i j = mget fz (fRk f) i j))
      (let* rk := m_fmasub mo k k Wm jw k (gV g1) k k (mget gz (gVR_ g1) k kappa) len (gRk g1) in Ok (put_Rk rk g1))
      (let* a := gVR fp c (fVR f1) k kappa in
        let* rk := fmasub fp c (fRk f1) k k w (skipn k (col (fV f) k)) a len in Ok (set_Rk rk f1))).
  { intros g1 f1 R1 FR E1 E2. rewrite gVR_ok in * by lia. cbn [bind] in *.
    assert (EA : mget fz (fVR f1) k kappa = v (mget gz (gVR_ g1) k kappa)).
    { rewrite (r_VR _ _ R1). apply mget_mapmap. apply SL. }
    rewrite EA in *.
    destruct (fmasub_ok (fRk f1) k k w (skipn k (col (fV f) k)) (v (mget gz (gVR_ g1) k kappa)) len) as [A' EF]; try lia.
    assert (WA : wfm n d A').
    { pose proof (safe_fmasub fp c ND (fRk f1) k k w (skipn k (col (fV f) k)) (v (mget gz (gVR_ g1) k kappa)) len) as S.
      rewrite EF in S. apply S; try lia. rewrite E2. exact WRk. }
    rewrite EF in *. cbn [bind safe] in *.
    assert (EV : gV g1 = gV g) by apply FR.
    eapply rrel_okl.
    { apply (l_fmasub _ _ _ _ _ _ _ _ ML); try lia; try assumption; apply R1. }
    intros rk (K1 & K2 & K3). cbn [rrel].
    assert (RK : forall i j', mget fz A' i j' = if (j' =? k) && ((k <=? i) && (i <? k + len))
        then fsubmul fp (nth (i - k) w fz) (nth (i - k) (skipn k (col (fV f) k)) fz) (v (mget gz (gVR_ g1) k kappa)) else mget fz (fRk f1) i j').
    { intros i j'. eapply mget_fmasub; [|exact EF]. now rewrite E2. }
    split; [|split; [|split]].
    - destruct R1. split; setg; auto. now apply fwd_Rk.
    - destruct FR as (F1 & F2 & F3 & F4 & F5 & F6 & F7 & F8 & F9 & F10). unfold fr; setg. auto 12.
    - intros i Hi. setg. rewrite RK, Nat.eqb_refl.
      replace ((k <=? i) && (i <? k + len)) with true by (symmetry; bool_lia). cbn [andb].
      replace i with (k + (i - k)) at 1 by lia. rewrite K3 by lia.
      rewrite W4 by lia. rewrite nth_col. rewrite EV. rewrite HV by lia. reflexivity.
    - intros i j Hi Hj Nj. setg. rewrite K2 by lia. rewrite E1. split; [reflexivity|].
      rewrite RK. destruct (Nat.eqb_spec j k); [lia|]. cbn [andb]. now rewrite E2. }
  destruct (dot k).
  - assert (ED : scalarprod fp (skipn k (col (fV f) k)) w len = Ok (spf fp (fun i => mv (gV g) (k + i) k) (fun i => mv Wm (k + i) jw) len)).
    { apply scalarprod_spf with (z := fz); try lia. intros i Hi. rewrite nth_col, W4 by lia. split; [|reflexivity]. apply HV. lia. }
    rewrite ED in *. cbn [bind guard] in *.
    destruct (l_dot _ _ _ _ _ _ _ _ ML (gV g) k k Wm jw k len (mget gz (gVR_ g) k kappa)) as (p & EP & VP); try lia; try assumption; [apply RL|].
    rewrite EP. cbn [bind]. apply END; auto.
    + destruct RL. split; setg; auto.
      * rewrite mset_mapmap, VP. now rewrite r_VR0.
      * apply fwd_VR; [assumption|]. now apply wfm_mset.
    + repeat split.
  - cbn [bind]. apply END; auto using fr_refl.
Qed.

Lemma hr_loop_sim s kappa nmax dot g f : core s kappa g f -> kappa < d -> nmax <= n -> 1 <= kappa -> kappa < nmax ->
  rrel (fun g' f' => core s kappa g' f' /\ fr g g' f f' /\ Kcol kappa nmax g' f')
       (g_hr_loop so mo c kappa nmax dot g) (hr_loop fp c kappa nmax dot f).
Proof.
  intros C Hk Hn H1 H2. unfold g_hr_loop, hr_loop.
  assert (GEN : forall m k0 g1 f1, k0 + m <= kappa -> core s kappa g1 f1 -> fr g g1 f f1 -> Kcol k0 nmax g1 f1 ->
    rrel (fun g' f' => core s kappa g' f' /\ fr g g' f f' /\ Kcol (k0 + m) nmax g' f')
      (mfold (g_hr_step so mo c kappa nmax dot) (seq k0 m) g1) (mfold (hr_step fp c kappa nmax dot) (seq k0 m) f1)).
  { induction m as [|m IH]; intros k0 g1 f1 Hm C1 FR K1; cbn [seq mfold].
    - cbn [rrel]. rewrite Nat.add_0_r. auto.
    - eapply rrel_bind; [apply hr_step_sim; try lia; [apply C1|apply C1; lia|]|].
      + intros N i Hi. apply K1; lia.
      + intros g2 f2 (R2 & FR2 & KA & KB).
        assert (C2 : core s kappa g2 f2) by (eapply core_fr; eauto).
        eapply rrel_weaken; [|apply (IH (S k0) g2 f2); try lia; auto].
        * intros a b (A1 & A2 & A3). rewrite <- plus_n_Sm. auto.
        * eapply fr_trans; eauto.
        * intros k i Hk' Hi. destruct (Nat.eq_dec k k0) as [->|N]; [now apply KA|].
          destruct (KB i k) as [-> ->]; try lia. apply K1; lia. }
  replace (0 :: seq 1 (min kappa nmax - 1)) with (seq 0 kappa).
  - apply (GEN kappa 0 g f); try lia; auto using fr_refl. intros k i Hk'. lia.
  - rewrite Nat.min_l by lia. destruct kappa as [|kk]; [lia|]. cbn [seq]. now rewrite Nat.sub_succ, Nat.sub_0_r.
Qed.

Lemma mfold_toR (h : nat -> res G) (y : nat -> F) : forall m t, m <= length t ->
  (forall i, i < m -> okv v (h i) (y i)) ->
  okp (fun t' => map v t' = splice 0 (map y (seq 0 m)) (map v t))
      (mfold (fun i t => let* x := h i in Ok (lupd t i x)) (seq 0 m) t).
Proof.
  induction m as [|m IH]; intros t Hm H.
  - exists t. split; [reflexivity|]. cbn. reflexivity.
  - assert (EQ : forall t1, mfold (fun i t => let* x := h i in Ok (lupd t i x)) (seq 0 (S m)) t1 =
      (let* t2 := mfold (fun i t => let* x := h i in Ok (lupd t i x)) (seq 0 m) t1 in
       let* x := h m in Ok (lupd t2 m x))).
    { rewrite seq_S. cbn [Nat.add]. generalize (seq 0 m) as l. intros l t1. revert t1.
      induction l as [|a l IHl]; intros t1; cbn [app mfold].
      - cbn [bind]. destruct (h m); reflexivity.
      - destruct (h a); cbn [bind]; auto. }
    rewrite EQ. destruct (IH t ltac:(lia)) as (t2 & -> & E2); [intros; apply H; lia|]. cbn [bind].
    destruct (H m ltac:(lia)) as (x & -> & Ex). cbn [bind]. eexists. split; [reflexivity|].
    rewrite map_lupd, E2, Ex.
    assert (L1 : length (splice 0 (map y (seq 0 m)) (map v t)) = length t)
      by (rewrite splice_length; rewrite !map_length, ?seq_length; lia).
    apply nth_ext with (d := y 0) (d' := y 0).
    + rewrite lupd_length, L1, splice_length; rewrite !map_length, ?seq_length; lia.
    + intros i Hi. rewrite lupd_length, L1 in Hi. rewrite nth_lupd, L1.
      rewrite !nth_splice by (rewrite !map_length, seq_length; lia).
      rewrite !map_length, !seq_length. cbn [Nat.leb andb Nat.add]. rewrite (proj2 (Nat.ltb_lt m _)) by lia. rewrite andb_true_r.
      rewrite !Nat.sub_0_r. destruct (Nat.eqb_spec i m) as [->|N].
      * rewrite (proj2 (Nat.ltb_lt m (S m))) by lia. now rewrite nth_map_seq by lia.
      * destruct (Nat.ltb_spec i m).
        -- rewrite (proj2 (Nat.ltb_lt i (S m))) by lia. now rewrite !nth_map_seq by lia.
        -- rewrite (proj2 (Nat.ltb_ge i (S m))) by lia. reflexivity.
Qed.

Lemma nth_splice0 (t l : list F) i : length t <= length l -> i < length t -> nth i (splice 0 t l) fz = nth i t fz.
Proof.
  intros H Hi. rewrite nth_splice by lia. cbn [Nat.leb andb Nat.add]. rewrite (proj2 (Nat.ltb_lt _ _) Hi). now rewrite Nat.sub_0_r.
Qed.

Definition bigframe (g g' : gst G M) (f f' : fst_ F) : Prop :=
  gV g' = gV g /\ fV f' = fV f /\ gRk g' = gRk g /\ fRk f' = fRk f.

Lemma core_setR s kappa g f RG RF : core s kappa g f -> mwf RG -> wfm n d RF ->
  (forall i j, i < n -> j < kappa -> kappa < d -> mv RG i j = mv (gR_ g) i j /\ mget fz RF i j = mget fz (fR f) i j) -> kappa < d ->
  core s kappa (put_R RG g) (set_R RF f).
Proof.
  intros [C1 C2 C3 C4] H1 H2 H3 Hk. split.
  - destruct C1. split; setg; auto. now apply fwd_R.
  - exact C2.
  - exact C3.
  - intros k Hk' i Hi. setg. destruct (H3 i k) as [-> ->]; try lia. now apply C4.
Qed.

Lemma hr_final_sim s kappa nmax g f : core s kappa g f -> kappa < d -> nmax <= n -> 1 <= kappa -> kappa < nmax ->
  Kcol kappa nmax g f ->
  rrel (fun g' f' => core s kappa g' f' /\ Kcol kappa nmax g' f' /\ Rcol nmax kappa g' f' /\
                     gdesc g' = gdesc g /\ fdesc f' = fdesc f /\ gnmax g' = gnmax g)
       (g_hr_final mo c kappa nmax g) (hr_final fp c kappa nmax f).
Proof.
  intros C Hk Hn H1 H2 HK. pose proof (c_rel _ _ _ _ C) as RL. pose proof (r_wf _ _ RL) as W.
  destruct (fwd_dim f W) as (WR & WRk & WV & WB & WVR & WnB & WtR).
  unfold g_hr_final, hr_final in *.
  assert (GD : (kappa <? d) && (nmax <=? n) = true) by bool_lia. rewrite GD in *. cbn [guard] in *.
  set (y := fun i => if (kappa <? nmax) && (kappa <=? i) then mget fz (fRk f) i (kappa - 1) else mget fz (fRk f) i i) in *.
  assert (LT : length (gtoR g) = n).
  { pose proof WtR as L. rewrite (r_toR _ _ RL), map_length in L. exact L. }
  eapply rrel_okl.
  { apply mfold_toR with (h := fun i => if (kappa <? nmax) && (kappa <=? i) then m_getnn mo (gRk g) i (kappa - 1) else m_getnn mo (gRk g) i i)
      (y := y); [lia|].
    intros i Hi. unfold y. rewrite (proj2 (Nat.ltb_lt _ _) H2). cbn [andb].
    destruct (Nat.leb_spec kappa i).
    - destruct (l_getnn _ _ _ _ _ _ _ _ ML (gRk g) i (kappa - 1)) as (x & E & Ex); try lia; [apply RL|].
      exists x. split; [exact E|]. rewrite Ex. apply HK; lia.
    - destruct (l_getnn _ _ _ _ _ _ _ _ ML (gRk g) i i) as (x & E & Ex); try lia; [apply RL|].
      exists x. split; [exact E|]. rewrite Ex. apply HK; lia. }
  intros t Et. cbn beta in Et.
  assert (Lt : length t = n).
  { rewrite <- (map_length v), Et, splice_length; rewrite !map_length, ?seq_length; lia. }
  eapply rrel_okl.
  { apply (l_setcolf _ _ _ _ _ _ _ _ ML); try lia; try assumption; [setg; apply RL]. }
  intros RG (K1 & K2 & K3). cbn [rrel]. setg.
  set (RF := lupd (fR f) kappa (splice 0 (map y (seq 0 nmax)) (col (fR f) kappa))) in *.
  assert (WRF : wfm n d RF) by (apply wfm_lupd; [assumption|]; rewrite splice_length; rewrite ?map_length, ?seq_length, (wfm_col n d) by assumption; lia).
  assert (C' : core s kappa (put_toR t g) (set_toR (splice 0 (map y (seq 0 nmax)) (ftoR f)) f)).
  { destruct C as [C1 C2 C3 C4]. split; auto. destruct C1. split; setg; auto.
    - now rewrite Et, r_toR0.
    - apply fwd_toR; [assumption|]. rewrite splice_length; rewrite ?map_length, ?seq_length; lia. }
  split; [|split; [|split]].
  - apply (core_setR s kappa _ _ RG RF C'); auto.
    intros i j Hi Hj _. setg. split; [apply K2; lia|].
    unfold RF, mget. now rewrite col_lupd_neq by lia.
  - exact HK.
  - intros i Hi. setg. rewrite K3 by lia. rewrite <- (nth_mapv v _ _ _ fz) by apply SL.
    rewrite Et. unfold RF, mget. rewrite col_lupd_eq by (rewrite (wfm_length n d); [lia|assumption]).
    rewrite !nth_splice0; rewrite ?map_length, ?seq_length, ?(wfm_col n d) by (assumption || lia); try lia. reflexivity.
  - auto.
Qed.

Lemma mget_setcol_z (A : mat F) kappa b nmax i j : wfm n d A -> kappa < d -> nmax <= n ->
  mget fz (setcol_z fp A kappa b nmax) i j =
  if (j =? kappa) && (i <? nmax) then fset_z fp (nth i b 0%Z) else mget fz A i j.
Proof.
  intros W Hk Hn. unfold setcol_z, mget. rewrite col_lupd, (wfm_length n d A W), (proj2 (Nat.ltb_lt _ _) Hk), andb_true_r.
  destruct (Nat.eqb_spec j kappa) as [->|N]; cbn [andb]; [|reflexivity].
  rewrite nth_splice by (rewrite map_length, seq_length, (wfm_col n d) by assumption; lia).
  rewrite map_length, seq_length. cbn [Nat.leb andb Nat.add]. rewrite Nat.sub_0_r.
  destruct (Nat.ltb_spec i nmax); [|reflexivity]. now rewrite nth_map_seq by lia.
Qed.

Lemma mget_copy (A B : mat F) j k l i : wfm n d A -> wfm n d B -> j < d -> k < d -> l <= n -> i < l ->
  mget fz (lupd A j (splice 0 (firstn l (col B k)) (col A j))) i j = mget fz B i k.
Proof.
  intros WA WB Hj Hk Hl Hi. unfold mget. rewrite col_lupd_eq by (rewrite (wfm_length n d); assumption).
  assert (LL : length (firstn l (col B k)) = l) by (rewrite firstn_length, (wfm_col n d) by assumption; lia).
  rewrite nth_splice0; rewrite ?LL, ?(wfm_col n d) by assumption; try lia.
  now apply nth_firstn.
Qed.

(** marking, conversion of the column *)
Lemma conv_sim s kappa g f : core s kappa g f -> swf s -> kappa < d ->
  okp (fun b => let g2 := put_Bfp b (put_kept (lupd (gkept g) kappa true) g) in
                let f2 := set_Bfp (setcol_z fp (fBfp f) kappa (col (iB s) kappa) (nth kappa (iS s) 0))
                                  (set_kept (lupd (fkept f) kappa true) f) in
                core s kappa g2 f2)
      (m_setcolz mo kappa (col (iB s) kappa) (nth kappa (iS s) 0) (gBfp g)).
Proof.
  intros [C1 C2 C3 C4] [HS _] Hk. specialize (HS kappa Hk). set (nm := nth kappa (iS s) 0) in *.
  destruct (l_setcolz _ _ _ _ _ _ _ _ ML (gBfp g) kappa (col (iB s) kappa) nm) as (b & E & B1 & B2 & B3 & B4);
    [apply C1|lia|lia|].
  exists b. split; [exact E|]. cbn zeta.
  destruct (fwd_dim f (r_wf _ _ C1)) as (WR & WRk & WV & WB & WVR & WnB & WtR).
  assert (WB' : wfm n d (setcol_z fp (fBfp f) kappa (col (iB s) kappa) nm)) by (apply (setcol_wfm fp c ND); auto; lia).
  split.
  - pose proof (r_B _ _ C1) as RB. pose proof (r_kept _ _ C1) as RK. pose proof (r_wf _ _ C1) as RW.
    destruct C1. split; setg; auto.
    + intros i j Hi Hj. rewrite mget_setcol_z by (auto; lia).
      destruct (Nat.eqb_spec j kappa) as [->|N]; cbn [andb].
      * destruct (Nat.ltb_spec i nm); [now apply B3|].
        assert (Z0 : mget fz (fBfp f) i kappa = fz) by (apply C2; [lia|fold nm; lia]).
        rewrite Z0. apply B4; [lia|]. rewrite RB by lia. exact Z0.
      * rewrite B2 by lia. now apply RB.
    + now rewrite RK.
    + apply fwd_Bfp; [|assumption]. now apply fwd_kept.
  - intros i j Hj Hi. setg. rewrite mget_setcol_z by (auto; lia).
    destruct (Nat.eqb_spec j kappa) as [->|N]; cbn [andb]; [|now apply C2].
    destruct (Nat.ltb_spec i nm); [fold nm in Hi; lia|]. now apply C2.
  - exact C3.
  - exact C4.
Qed.

Lemma core_nB2 s kappa g f k q : core s kappa g f -> core s kappa (put_nB2 (lupd (gnB2 g) k q) g) (set_nB2 (lupd (fnB2 f) k (v q)) f).
Proof.
  intros [C1 C2 C3 C4]. split; auto. pose proof (r_nB2 _ _ C1) as E. pose proof (r_wf _ _ C1) as RW.
  destruct C1. split; setg; auto.
  - now rewrite map_lupd, E.
  - apply fwd_nB2; [assumption|]. rewrite lupd_length. now destruct (fwd_dim f RW) as (_ & _ & _ & _ & _ & ? & _).
Qed.

Lemma core_nmax s kappa g f m : core s kappa g f -> m <= n -> core s kappa (put_nmax m g) (set_nmax m f).
Proof.
  intros [C1 C2 C3 C4] Hm. split; auto. destruct C1. split; setg; auto.
  exact (fwf_nmax c _ m r_wf0 Hm).
Qed.
Lemma core_kmin s kappa g f k : core s kappa g f -> core s kappa (put_kmin (lupd (gkmin g) k (Z.of_nat k)) g) (set_kmin (lupd (fkmin f) k (Z.of_nat k)) f).
Proof.
  intros [C1 C2 C3 C4]. split; auto. pose proof (r_kmin _ _ C1) as E. destruct C1. split; setg; auto. now rewrite E.
Qed.

Lemma norm2_sim (A : M) (A' : mat F) kappa l old : mwf A -> wfm n d A' -> kappa < d -> 1 <= l <= n ->
  (forall i, i < l -> mv A i kappa = mget fz A' i kappa) ->
  exists q, m_norm2 mo A kappa 0 (Z.of_nat l) old = Ok q /\
            (let* b := gcol c A' kappa 0 in fp_norm_sq fp b l) = Ok (v q).
Proof.
  intros W W' Hk Hl H. destruct (l_norm2 _ _ _ _ _ _ _ _ ML A kappa 0 l old) as (q & E & Eq); auto; try lia.
  exists q. split; [exact E|]. rewrite gcol_ok by lia. cbn [bind]. unfold fp_norm_sq. rewrite Eq.
  apply scalarprod_spf with (z := fz); try lia; try (rewrite skip_len by assumption; lia).
  intros i Hi. rewrite nth_col. cbn [Nat.add]. rewrite H by lia. auto.
Qed.

Lemma householder_r_sim0 s kappa g f : core s kappa g f -> fwf c f -> swf s -> kappa < d ->
  (1 <= kappa -> 1 <= nth kappa (gdesc g) 0 < kappa -> Kcol kappa (nth kappa (iS s) 0) g f) ->
  rrel (fun g' f' => core s kappa g' f' /\ (1 <= kappa -> Kcol kappa (nth kappa (iS s) 0) g' f') /\
                     Rcol (nth kappa (iS s) 0) kappa g' f' /\ gdesc g' = gdesc g /\ gnmax g' = nth kappa (iS s) 0)
       (g_householder_r so mo c s g kappa) (householder_r fp c s f kappa).
Proof.
  intros C W HS Hk HK. pose proof (proj1 HS kappa Hk) as Hnm.
  unfold g_householder_r, householder_r.
  set (nm := nth kappa (iS s) 0) in *.
  replace (kappa <? d) with true by (symmetry; bool_lia). cbn [guard].
  replace (nm <=? n) with true by (symmetry; bool_lia). cbn [guard].
  assert (C0 : core s kappa (put_nmax nm g) (set_nmax nm f)) by (apply core_nmax; auto; lia).
  eapply rrel_bind with (P := fun g' f' => core s kappa g' f' /\ (1 <= kappa -> Kcol kappa nm g' f') /\
                     Rcol nm kappa g' f' /\ gdesc g' = gdesc g /\ gnmax g' = nm).
  2:{ intros g1 f1 (A1 & A2 & A3 & A4 & A5). cbn [rrel]. split; [now apply core_kmin|]. auto. }
  pose proof (c_rel _ _ _ _ C0) as RL0.
  pose proof (r_kept _ _ RL0) as EK. pose proof (r_kmin _ _ RL0) as EM. pose proof (r_desc _ _ RL0) as ED.
  set (g0 := put_nmax nm g) in *. set (f0 := set_nmax nm f) in *.
  assert (HK0 : 1 <= kappa -> 1 <= nth kappa (gdesc g0) 0 < kappa -> Kcol kappa nm g0 f0) by exact HK.
  assert (D0 : gdesc g0 = gdesc g /\ gnmax g0 = nm) by (split; reflexivity). destruct D0 as [D0 N0].
  assert (KM : nth kappa (fkept f0) false = true -> (0 <= nth kappa (fkmin f0) 0)%Z) by exact (w_km c f W kappa Hk).
  replace (nth kappa (gkept g0) false) with (nth kappa (fkept f0) false) by now rewrite EK.
  clearbody g0 f0. clear HK. rename HK0 into HK.
  destruct (fwd_dim f0 (r_wf _ _ RL0)) as (WR & WRk & WV & WB & WVR & WnB & WtR).
  (* copying the column of Bfp to R *)
  assert (COPY : forall g1 f1, core s 0 g1 f1 -> kappa = 0 ->
     okp (fun R' => core s 0 (put_R R' g1) (set_R (lupd (fR f1) kappa (splice 0 (firstn nm (col (fBfp f1) kappa)) (col (fR f1) kappa))) f1) /\
                    forall i, i < nm -> mv R' i kappa = mget fz (fBfp f1) i kappa)
         (m_copycol mo kappa (gBfp g1) kappa nm (gR_ g1))).
  { intros g1 f1 C1 E0. pose proof (c_rel _ _ _ _ C1) as R1.
    destruct (fwd_dim f1 (r_wf _ _ R1)) as (WR1 & _ & _ & WB1 & _).
    destruct (l_copycol _ _ _ _ _ _ _ _ ML (gR_ g1) kappa (gBfp g1) kappa nm) as (R' & E & K1 & K2 & K3); try lia; try apply R1.
    exists R'. split; [exact E|]. split.
    - apply core_setR; auto; try lia. apply (copyR_wfm c ND); auto. lia.
    - intros i Hi. rewrite K3 by lia. apply R1; lia. }
  destruct (Nat.eqb_spec kappa 0) as [E0|E0].
  - rewrite E0 in C0 at 1. destruct (nth kappa (fkept f0) false).
    + destruct (COPY g0 f0 C0 E0) as (R' & E & C1 & VR'). rewrite E. cbn [bind rrel]. rewrite E0 in *.
      split; [exact C1|]. split; [lia|]. split; [|auto].
      intros i Hi. setg. rewrite VR' by lia. symmetry. apply mget_copy; auto; lia.
    + destruct (conv_sim s kappa g0 f0) as (b & E & C1); auto; [now rewrite E0|]. fold nm in E, C1. cbn zeta in C1.
      change (gBfp (put_kept (lupd (gkept g0) kappa true) g0)) with (gBfp g0). rewrite E. cbn [bind].
      set (g2 := put_Bfp b _) in *. 
      change (setcol_z fp (fBfp (set_kept (lupd (fkept f0) kappa true) f0)) kappa (col (iB s) kappa) nm)
        with (setcol_z fp (fBfp f0) kappa (col (iB s) kappa) nm).
      set (f2 := set_Bfp (setcol_z fp (fBfp f0) kappa (col (iB s) kappa) nm) _) in *.
      assert (D2 : gdesc g2 = gdesc g /\ gnmax g2 = nm) by (unfold g2; setg; auto).
      assert (LB : fnB2 f2 = fnB2 f0) by reflexivity.
      clearbody g2 f2. rewrite E0 in C1 at 1.
      destruct (fwd_dim f2 (r_wf _ _ (c_rel _ _ _ _ C1))) as (WR2 & _ & _ & WB2 & _ & WnB2 & _).
      destruct (COPY g2 f2 C1 E0) as (R' & E' & C2 & VR'). rewrite E'. cbn [bind].
      set (g3 := put_R R' g2) in *.
      set (f3 := set_R (lupd (fR f2) kappa (splice 0 (firstn nm (col (fBfp f2) kappa)) (col (fR f2) kappa))) f2) in *.
      assert (RC : Rcol nm kappa g3 f3).
      { intros i Hi. unfold g3, f3. setg. rewrite VR' by lia. symmetry. apply mget_copy; auto; lia. }
      assert (D3 : gdesc g3 = gdesc g /\ gnmax g3 = nm) by (unfold g3; setg; auto).
      clearbody g3 f3. pose proof (c_rel _ _ _ _ C2) as R3.
      destruct (fwd_dim f3 (r_wf _ _ R3)) as (WR3 & _ & _ & WB3 & _ & WnB3 & _).
      destruct (norm2_sim (gR_ g3) (fR f3) kappa nm (nth kappa (gnB2 g3) gz)) as (q & E1 & E2); auto; try lia; [apply R3|].
      rewrite E1, E2. cbn [bind rrel]. rewrite E0 in *.
      split; [now apply core_nB2|]. split; [lia|]. split; [exact RC|]. setg. exact D3.
  - eapply rrel_bind with (P := fun g' f' => core s kappa g' f' /\ Kcol kappa nm g' f' /\ gdesc g' = gdesc g /\ gnmax g' = nm).
    2:{ intros g4 f4 (C4 & K4 & D4 & N4). eapply rrel_weaken; [|apply (hr_final_sim s); eauto; lia].
        intros g5 f5 (C5 & K5 & R5 & D5 & D5' & N5). rewrite D5, N5. auto. }
    replace (nth kappa (gkmin g0) 0%Z) with (nth kappa (fkmin f0) 0%Z) by now rewrite EM.
    replace (nth kappa (gdesc g0) 0) with (nth kappa (fdesc f0) 0) by now rewrite ED.
    destruct (nth kappa (fkept f0) false) eqn:KE.
    + destruct ((nth kappa (fdesc f0) 0 <? 1) || (kappa <=? nth kappa (fdesc f0) 0)) eqn:DE.
      * destruct (Z.ltb_spec (nth kappa (fkmin f0) 0%Z) 0); [specialize (KM eq_refl); lia|].
        eapply rrel_weaken; [|apply hr_loop_sim; eauto; lia].
        intros g4 f4 (C4 & F4 & K4). destruct F4 as (_ & _ & _ & F4 & F5 & _). rewrite F4, F5. auto.
      * cbn [rrel]. split; [exact C0|]. split; [|auto]. apply HK; [lia|].
        rewrite <- ED. apply orb_false_iff in DE as [DE DE2]. apply Nat.ltb_ge in DE. apply Nat.leb_gt in DE2. lia.
    + destruct (conv_sim s kappa g0 f0) as (b & E & C1); auto. fold nm in E, C1. cbn zeta in C1.
      change (gBfp (put_kept (lupd (gkept g0) kappa true) g0)) with (gBfp g0). rewrite E. cbn [bind].
      set (g2 := put_Bfp b _) in *.
      change (setcol_z fp (fBfp (set_kept (lupd (fkept f0) kappa true) f0)) kappa (col (iB s) kappa) nm)
        with (setcol_z fp (fBfp f0) kappa (col (iB s) kappa) nm).
      set (f2 := set_Bfp (setcol_z fp (fBfp f0) kappa (col (iB s) kappa) nm) _) in *.
      assert (D2 : gdesc g2 = gdesc g /\ gnmax g2 = nm) by (unfold g2; setg; auto).
      clearbody g2 f2. pose proof (c_rel _ _ _ _ C1) as R2.
      destruct (fwd_dim f2 (r_wf _ _ R2)) as (_ & _ & _ & WB2 & _ & WnB2 & _).
      destruct (norm2_sim (gBfp g2) (fBfp f2) kappa nm (nth kappa (gnB2 g2) gz)) as (q & E1 & E2); auto; try lia; [apply R2|intros; apply R2; lia|].
      rewrite E1, E2. cbn [bind].
      eapply rrel_weaken; [|apply hr_loop_sim; [apply core_nB2; exact C1|lia|lia|lia|lia]].
      intros g4 f4 (C4 & F4 & K4). destruct F4 as (_ & _ & _ & F4 & F5 & _). rewrite F4, F5. setg. tauto.
Qed.

Lemma householder_r_sim s kappa g f : core s kappa g f -> fwf c f -> swf s -> kappa < d ->
  (1 <= kappa -> 1 <= nth kappa (gdesc g) 0 < kappa -> Kcol kappa (nth kappa (iS s) 0) g f) ->
  rrel (fun g' f' => (core s kappa g' f' /\ (1 <= kappa -> Kcol kappa (nth kappa (iS s) 0) g' f') /\
                     Rcol (nth kappa (iS s) 0) kappa g' f' /\ gdesc g' = gdesc g /\ gnmax g' = nth kappa (iS s) 0) /\ fwf c f')
       (g_householder_r so mo c s g kappa) (householder_r fp c s f kappa).
Proof.
  intros C W HS Hk HK. apply rrel_safe; [now apply householder_r_sim0|].
  apply householder_r_safe; auto using swf_sok.
Qed.

Lemma set0_fold kappa : kappa < d -> forall m a V, a + m <= n -> mwf V ->
  okp (fun V' => mwf V' /\ keeps mv n d kappa V V' /\
         forall k, k < n -> mv V' k kappa = if (a <=? k) && (k <? a + m) then fz else mv V k kappa)
      (mfold (fun i V => m_set0 mo i kappa V) (seq a m) V).
Proof.
  intros Hk. induction m as [|m IH]; intros a V Hm HV; cbn [seq mfold].
  - exists V. split; [reflexivity|]. split; [assumption|]. split; [intros i j; auto|].
    intros k Hk'. destruct (Nat.leb_spec a k), (Nat.ltb_spec k (a + 0)); cbn [andb]; auto; lia.
  - destruct (l_set0 _ _ _ _ _ _ _ _ ML V a kappa) as (V1 & -> & W1 & K1 & E1); try lia; auto. cbn [bind].
    destruct (IH (S a) V1 ltac:(lia) W1) as (V2 & -> & W2 & K2 & E2).
    exists V2. split; [reflexivity|]. split; [assumption|]. split.
    + intros i j Hi Hj N. rewrite K2, K1 by assumption. reflexivity.
    + intros k Hk'. rewrite E2, E1 by assumption.
      destruct (Nat.leb_spec (S a) k), (Nat.ltb_spec k (S a + m)), (Nat.leb_spec a k), (Nat.ltb_spec k (a + S m)), (Nat.eqb_spec k a); cbn [andb]; auto; lia.
Qed.

Lemma householder_v_sim s kappa nm g f : core s kappa g f -> fwf c f -> kappa < d -> Rcol nm kappa g f -> gnmax g = nm ->
  kappa < nm <= n ->
  rrel (fun g' f' => (core s (kappa + 1) g' f' /\ Rcol nm kappa g' f' /\ (forall kk m, Kcol kk m g f -> Kcol kk m g' f') /\
                     gdesc g' = gdesc g /\ gnmax g' = nm) /\ fwf c f')
       (g_householder_v so mo c g kappa) (householder_v fp c f kappa).
Proof.
  intros C W Hk HR EN Hnm. apply rrel_safe; [|now apply householder_v_safe].
  pose proof (c_rel _ _ _ _ C) as RL.
  destruct (fwd_dim f (r_wf _ _ RL)) as (WR & WRk & WV & WB & WVR & WnB & WtR).
  unfold g_householder_v, householder_v. rewrite EN, (r_nm _ _ RL), EN.
  destruct (l_get _ _ _ _ _ _ _ _ ML (gR_ g) kappa kappa) as (w0 & E0 & V0); try lia; [apply RL|].
  rewrite HR in V0 by lia. rewrite E0, gR_ok, gcol_ok by lia. cbn [bind].
  replace (nm <=? n) with true by (symmetry; bool_lia). cbn [guard].
  replace (Z.of_nat nm - Z.of_nat kappa - 1)%Z with (Z.of_nat (nm - kappa - 1)) by lia.
  replace (Z.of_nat nm - Z.of_nat kappa)%Z with (Z.of_nat (nm - kappa)) by lia.
  destruct (l_norm _ _ _ _ _ _ _ _ ML (gR_ g) kappa kappa (nm - kappa) gz) as (nr & E1 & V1); try lia; [apply RL|].
  rewrite E1. cbn [bind].
  assert (EF : fp_norm fp (skipn kappa (col (fR f) kappa)) (nm - kappa) = Ok (v nr)).
  { unfold fp_norm, fp_norm_sq. rewrite V1.
    erewrite scalarprod_spf with (z := fz); [cbn [bind]; reflexivity| | | |]; try lia;
      try (rewrite skip_len by assumption; lia).
    intros i Hi. rewrite nth_col, HR by lia. auto. }
  rewrite EF. cbn [bind].
  rewrite (l_ge0 _ _ _ SL), V0.
  set (bb := fle fp fz (mget fz (fR f) kappa kappa)).
  assert (PR : exists s' rkk, (if bb then (nr, s_neg so nr) else (s_neg so nr, nr)) = (s', rkk) /\
     (if bb then (v nr, fneg fp (v nr)) else (fneg fp (v nr), v nr)) = (v s', v rkk)).
  { destruct bb; eexists _, _; (split; [reflexivity|]); rewrite (l_neg _ _ _ SL); reflexivity. }
  destruct PR as (s' & rkk & -> & ->).
  destruct (l_set _ _ _ _ _ _ _ _ ML (gR_ g) kappa kappa rkk) as (R' & ER & WR' & KR & VR'); try lia; [apply RL|].
  rewrite ER. cbn [bind].
  destruct (l_add _ _ _ SL w0 s') as (w & -> & Vw). cbn [bind].
  destruct (l_mul _ _ _ SL s' w) as (s1 & -> & Vs1). cbn [bind].
  destruct (l_sqrt _ _ _ SL s1) as (s2 & -> & Vs2). cbn [bind].
  rewrite V0 in Vw. rewrite Vw in Vs1. rewrite Vs1 in Vs2. rewrite <- Vs2, <- Vw.
  setg.
  destruct (l_divc _ _ _ _ _ _ _ _ ML (gV g) kappa (kappa + 1) R' kappa (kappa + 1) s2 (nm - kappa - 1)) as (Va & -> & WVa & KVa & VVa); try lia; auto; [apply RL|].
  cbn [bind].
  destruct (set0_fold kappa Hk (n - nm) nm Va ltac:(lia) WVa) as (Vb & -> & WVb & KVb & VVb). cbn [bind].
  destruct (l_div _ _ _ SL w s2) as (q & -> & Vq). cbn [bind].
  destruct (l_set _ _ _ _ _ _ _ _ ML Vb kappa kappa q) as (Vc & -> & WVc & KVc & VVc); try lia; auto.
  cbn [bind rrel].
  set (RF := mset (fR f) kappa kappa (v rkk)).
  assert (WRF : wfm n d RF) by (apply wfm_mset; assumption).
  assert (RFv : forall i j, mget fz RF i j = if (i =? kappa) && (j =? kappa) then v rkk else mget fz (fR f) i j).
  { intros i j. apply (mget_mset fz n d); auto; lia. }
  set (nc := map _ (seq 0 n)).
  assert (LN : length nc = n) by (unfold nc; rewrite map_length, seq_length; reflexivity).
  assert (C1 : core s kappa (put_V Vc (put_R R' g)) (set_V (lupd (fV f) kappa nc) (set_R RF f))).
  { destruct C as [C1 C2 C3 C4]. split.
    - destruct C1. split; setg; auto. apply fwd_V; [now apply fwd_R|]. now apply wfm_lupd.
    - exact C2.
    - intros k Hk' i Hi. setg. rewrite KVc, KVb, KVa by lia. unfold mget. rewrite col_lupd_neq by lia. now apply C3.
    - intros k Hk' i Hi. setg. rewrite KR by lia. rewrite RFv. destruct (Nat.eqb_spec k kappa); [lia|].
      rewrite andb_false_r. now apply C4. }
  assert (R1 : Rcol nm kappa (put_V Vc (put_R R' g)) (set_V (lupd (fV f) kappa nc) (set_R RF f))).
  { intros i Hi. setg. rewrite VR', RFv, Nat.eqb_refl, andb_true_r by lia. destruct (i =? kappa); [reflexivity|]. now apply HR. }
  split; [|split; [exact R1|split; [|auto]]].
  - destruct C1 as [D1 D2 D3 D4]. split; auto.
    + intros k Hk'. destruct (Nat.eq_dec k kappa) as [->|N]; [|apply D3; lia].
      intros i Hi. setg. unfold mget. rewrite col_lupd_eq by (rewrite (wfm_length n d); assumption).
      unfold nc. rewrite nth_map_seq by lia. cbn [Nat.add]. rewrite VVc by lia.
      destruct (Nat.eqb_spec i kappa) as [->|N]; [exact Vq|].
      rewrite VVb by lia. destruct (Nat.leb_spec nm i).
      * rewrite (proj2 (Nat.ltb_lt i _)) by lia. reflexivity.
      * cbn [andb]. rewrite (proj2 (Nat.ltb_lt kappa i)) by lia.
        replace i with (kappa + 1 + (i - kappa - 1)) at 1 by lia. rewrite VVa by lia.
        replace (kappa + 1 + (i - kappa - 1)) with i by lia. rewrite VR' by lia.
        destruct (Nat.eqb_spec i kappa); [lia|]. rewrite HR by lia.
        fold (mget fz RF i kappa). rewrite RFv. destruct (Nat.eqb_spec i kappa); [lia|]. reflexivity.
    + intros k Hk'. destruct (Nat.eq_dec k kappa) as [->|N]; [|apply D4; lia].
      intros i Hi. apply R1. lia.
  - intros kk m H. exact H.
Qed.
End S2.
