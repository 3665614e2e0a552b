(** * The number of threads and the TRANSFORM flag do not change what hlll does to the basis *)
From Coq Require Import ZArith Lia List Bool Arith.
From Verif Require Import Base Spec Mat FP Hlll Hlll2 Hlllp IntSteps HlllInt Structure Object Cache3.
Import ListNotations.

(** one thread, no transformation *)
Definition plain (c : cfg) : cfg :=
  mkCfg (cn c) (cd c) false (ckmax c) (cnblov_max c) (cseysen c) (clong c) 1 0.

Section Threads.
Context {F : Type} (fp : fpops F).
Hypothesis EX : expo_nonneg fp.
Variable c : cfg.
Notation n := (cn c).
Notation d := (cd c).
Notation fz := (fzero fp).
Notation c0 := (plain c).

Definition same (s s0 : ist) : Prop := iB s = iB s0 /\ iS s = iS s0.

Lemma gR_plain M i j : gR fp c0 M i j = gR fp c M i j.
Proof. reflexivity. Qed.

Lemma hr_plain s s0 f kappa : same s s0 -> householder_r fp c0 s0 f kappa = householder_r fp c s f kappa.
Proof. destruct s as [B U T], s0 as [B0 U0 T0]. intros [E1 E2]. cbn [iB iS] in *. subst. reflexivity. Qed.

Lemma hv_plain f kappa : householder_v fp c0 f kappa = householder_v fp c f kappa.
Proof. reflexivity. Qed.

Lemma enter_plain s s0 f kappa : same s s0 -> hlll_enter fp c0 s0 f kappa = hlll_enter fp c s f kappa.
Proof. intros E. unfold hlll_enter. now rewrite (hr_plain s s0 _ 0 E). Qed.

Lemma lovasz_plain delta s s0 f kappa : same s s0 -> lovasz fp c0 delta s0 f kappa = lovasz fp c delta s f kappa.
Proof. destruct s as [B U T], s0 as [B0 U0 T0]. intros [E1 E2]. cbn [iB iS] in *. subst. reflexivity. Qed.

Lemma swap_same s s0 kappa : same s s0 -> same (swap_i c s kappa) (swap_i c0 s0 kappa).
Proof. intros [E1 E2]. unfold swap_i. split; cbn [iB iS]; congruence. Qed.

(** *** the sequential pass *)
Definition q3 (x y : ist * fst_ F * bool) : Prop :=
  same (fst (fst x)) (fst (fst y)) /\ snd (fst x) = snd (fst y) /\ snd x = snd y.

Lemma su_step kappa i x y : q3 x y -> rsim q3 (size_update_step fp c kappa i x) (size_update_step fp c0 kappa i y).
Proof.
  destruct x as [[s f] b], y as [[s0 f0] b0]. intros ([E1 E2] & E3 & E4). cbn [fst snd] in *. subst f0 b0.
  unfold size_update_step. change (gR fp c0) with (gR fp c).
  destruct (gR fp c (fR f) i kappa) as [rik| |]; cbn [bind rsim]; auto.
  destruct (gR fp c (fR f) i i) as [rii| |]; cbn [bind rsim]; auto.
  destruct (fnz fp _).
  - destruct (fgse fp _) as [lx ex]. rewrite <- E1, <- E2. apply rsim_guard. cbn [rsim]. split; [|split; reflexivity]. split; reflexivity.
  - cbn [rsim]. split; [|split; reflexivity]. now split.
Qed.

(** *** the two phases of the parallel pass, in one go *)
Definition bpart (kappa : nat) (vx : list F) (nm : nat) (is : list nat) (B : mat Z) : mat Z :=
  fold_left (fun B i => psize_thread_step fp c kappa vx 0 nm i B) is B.

Lemma bpart_ext kappa vx vx' nm is : (forall i, In i is -> nth i vx fz = nth i vx' fz) ->
  forall B, bpart kappa vx nm is B = bpart kappa vx' nm is B.
Proof.
  unfold bpart. induction is as [|i is IH]; intros H B; cbn [fold_left]; [reflexivity|].
  rewrite IH by (intros; apply H; now right). f_equal. unfold psize_thread_step. now rewrite (H i (or_introl eq_refl)).
Qed.

Lemma colop_more a m m' (B : mat Z) kappa i : wfm n d B -> kappa < d -> m <= m' -> m' <= n -> zero_from n B i m ->
  colop 0%Z (redf a) 0 m B kappa i = colop 0%Z (redf a) 0 m' B kappa i.
Proof.
  intros W Hk Hm Hn Z. apply (mat_ext 0%Z n d); try (now apply wfm_colop).
  intros r j Hr Hj. rewrite !(mget_colop 0%Z _ n d) by (auto; lia). cbn [Nat.leb andb Nat.add].
  destruct (j =? kappa) eqn:Ej; cbn [andb]; auto. apply Nat.eqb_eq in Ej. subst j.
  destruct (Nat.ltb_spec r m), (Nat.ltb_spec r m'); auto; try lia.
  unfold redf. pose proof (Z r ltac:(lia)) as Q. unfold fn in Q. rewrite Q. lia.
Qed.

Definition f_of (r : res (ist * fst_ F * bool)) : res (ist * fst_ F * bool) := r.

Lemma two_phases kappa nm is : NoDup is -> kappa < d -> nm <= n -> (forall i, In i is -> i < kappa) ->
  forall s0 f vx b, wfm n d (iB s0) -> n <= length vx ->
  (forall i, In i is -> nth i (iS s0) 0 <= nm /\ zero_from n (iB s0) i (nth i (iS s0) 0)) ->
  rsim (fun x y => snd (fst x) = fst (fst y) /\ snd x = snd y /\ length (snd (fst y)) = length vx /\
      (forall j, ~ In j is -> nth j (snd (fst y)) fz = nth j vx fz) /\
      iS (fst (fst x)) = iS s0 /\ iB (fst (fst x)) = bpart kappa (snd (fst y)) nm is (iB s0))
    (mfold (size_update_step fp c0 kappa) is (s0, f, b))
    (mfold (size_update_R_step fp c kappa) is (f, vx, b)).
Proof.
  intros ND Hk Hnm Hin. induction is as [|i is IH]; intros s0 f vx b W L Z; cbn [mfold].
  { cbn [rsim fst snd]. auto 7. }
  inversion ND as [|i' is' NI ND']; subst.
  assert (Hi : i < kappa) by (apply Hin; now left).
  unfold size_update_step at 1, size_update_R_step at 1. change (gR fp c0) with (gR fp c).
  unfold gR at 1 3. unfold guard at 1 3. destruct ((i <? n) && (kappa <? d))%bool eqn:G1; cbn [bind rsim]; auto.
  apply andb_true_iff in G1 as [G1 _]. apply Nat.ltb_lt in G1.
  destruct (gR fp c (fR f) i i) as [rii| |]; cbn [bind rsim]; auto.
  set (x := frnd fp (fdiv fp _ rii)). destruct (Z i (or_introl eq_refl)) as [Zi1 Zi2].
  destruct (fnz fp x) eqn:NZ.
  - destruct (fgse fp x) as [lx ex] eqn:GS. unfold guard. change (cn c0) with n.
    assert (Hex : (0 <= ex)%Z) by (pose proof (EX x) as Q; rewrite GS in Q; exact Q).
    replace (nth i (iS s0) 0 <=? n) with true by (symmetry; apply Nat.leb_le; lia). cbn [bind].
    set (g1 := set_R _ _). set (s1 := mkI _ _ _).
    assert (B1 : iB s1 = psize_thread_step fp c kappa (lupd vx i x) 0 nm i (iB s0)).
    { unfold s1, psize_thread_step. cbn [iB]. rewrite nth_lupd_eq by lia. rewrite NZ, GS.
      rewrite !colop_bop by assumption. change (bcoef c0) with (bcoef c). apply colop_more; auto. }
    assert (CB : forall j, j <> kappa -> col (iB s1) j = col (iB s0) j).
    { intros j Nj. unfold s1, colop. cbn [iB]. now apply col_lupd_neq. }
    assert (W1 : wfm n d (iB s1)) by (unfold s1; cbn [iB]; now apply wfm_colop).
    specialize (IH ND' (fun j H => Hin j (or_intror H)) s1 g1 (lupd vx i x) true W1).
    rewrite lupd_length in IH. specialize (IH L).
    assert (Z1 : forall j, In j is -> nth j (iS s1) 0 <= nm /\ zero_from n (iB s1) j (nth j (iS s1) 0)).
    { intros j Hj. destruct (Z j (or_intror Hj)) as [Q1 Q2]. split; [exact Q1|]. intros r Hr.
      unfold fn, mget. rewrite CB by (pose proof (Hin j (or_intror Hj)); lia). now apply Q2. }
    specialize (IH Z1). revert IH. apply rsim_mono. intros [[sx fx] bx] [[fy vy] by_]. cbn [fst snd].
    intros (Q1 & Q2 & Q3 & Q4 & Q5 & Q6). split; [exact Q1|]. split; [exact Q2|]. split; [exact Q3|]. split; [|split; [exact Q5|]].
    + intros j Hj. rewrite Q4 by (intros Hq; apply Hj; now right). apply nth_lupd_neq. intros ->. apply Hj. now left.
    + rewrite Q6, B1. unfold bpart. cbn [fold_left]. f_equal. unfold psize_thread_step. now rewrite Q4, nth_lupd_eq by (auto; lia).
  - cbn [bind].
    specialize (IH ND' (fun j H => Hin j (or_intror H)) s0 (set_x x f) (lupd vx i x) b W).
    rewrite lupd_length in IH. specialize (IH L (fun j H => Z j (or_intror H))).
    revert IH. apply rsim_mono. intros [[sx fx] bx] [[fy vy] by_]. cbn [fst snd].
    intros (Q1 & Q2 & Q3 & Q4 & Q5 & Q6). split; [exact Q1|]. split; [exact Q2|]. split; [exact Q3|]. split; [|split; [exact Q5|]].
    + intros j Hj. rewrite Q4 by (intros Hq; apply Hj; now right). apply nth_lupd_neq. intros ->. apply Hj. now left.
    + rewrite Q6. unfold bpart. cbn [fold_left]. f_equal. unfold psize_thread_step. rewrite Q4, nth_lupd_eq by (auto; lia). now rewrite NZ.
Qed.

Hypothesis S1 : 1 <= cS c.

Definition qpass (vx : list F) (x y : ist * fst_ F * list F * bool) : Prop :=
  same (fst (fst (fst x))) (fst (fst (fst y))) /\ snd (fst (fst x)) = snd (fst (fst y)) /\ snd x = snd y /\
  n <= length (snd (fst x)).

Lemma NoDup_down hi : NoDup (down hi 0).
Proof. unfold down. apply NoDup_rev, seq_NoDup. Qed.

Lemma pass_plain s s0 f vx vx0 kappa start : same s s0 -> bok c s -> n <= length vx -> start + 1 = kappa -> kappa < d ->
  rsim (qpass vx) (hs_pass fp c s f vx kappa start) (hs_pass fp c0 s0 f vx0 kappa start).
Proof.
  intros E Hb L Hs Hk. unfold hs_pass at 2. change (cS c0) with 1. cbn [Nat.eqb orb].
  unfold hs_pass. destruct (_ || _)%bool.
  - unfold size_update. eapply rsim_bind.
    + apply (rsim_mfold q3); [now split|]. intros i x y _. apply su_step.
    + intros [[s1 f1] b1] [[s2 f2] b2] (Q1 & Q2 & Q3). cbn [fst snd] in *. subst. cbn [rsim]. unfold qpass. cbn [fst snd]. auto.
  - destruct E as [E1 E2].
    assert (NM : psize_nmax s start <= n).
    { unfold psize_nmax.
      assert (K : forall is m, m <= n -> (forall i, In i is -> i < d) -> fold_left (fun m i => max m (nth i (iS s) 0)) is m <= n).
      { induction is as [|i is IH]; intros m Hm Hi; cbn [fold_left]; auto. apply IH.
        - pose proof (b_le c s Hb i (Hi i (or_introl eq_refl))). lia.
        - intros; apply Hi; now right. }
      apply K; [apply (b_le c s Hb); lia|]. intros i Hi. apply in_down in Hi. lia. }
    pose proof (two_phases kappa (psize_nmax s start) (down start 0) (NoDup_down start) Hk NM) as T.
    specialize (T ltac:(intros i Hi; apply in_down in Hi; lia) s0 f vx false).
    rewrite <- E1, <- E2 in T. specialize (T (b_wf c s Hb) L).
    assert (Z : forall i, In i (down start 0) -> nth i (iS s) 0 <= psize_nmax s start /\ zero_from n (iB s) i (nth i (iS s) 0)).
    { intros i Hi. split.
      - unfold psize_nmax. apply fold_max_ge. left. apply in_down in Hi. apply in_down. lia.
      - apply (b_zero c s Hb). apply in_down in Hi. lia. }
    specialize (T Z). unfold size_update, size_update_R.
    destruct (mfold (size_update_step fp c0 kappa) (down start 0) (s0, f, false)) as [[[s1 f1] b1]| |],
      (mfold (size_update_R_step fp c kappa) (down start 0) (f, vx, false)) as [[[f2 vx2] b2]| |]; cbn [rsim bind] in *; auto; try contradiction.
    cbn [fst snd] in T. destruct T as (Q1 & Q2 & Q3 & Q4 & Q5 & Q6). subst f2 b2.
    unfold psize_update_B, guard. replace (start + 1 <? d) with true by (symmetry; apply Nat.ltb_lt; lia).
    replace (psize_nmax s start <=? n) with true by (symmetry; now apply Nat.leb_le). cbn [andb bind rsim].
    unfold qpass. cbn [fst snd]. split; [|split; [reflexivity|split; [reflexivity|lia]]].
    split; cbn [iB iS]; [|congruence]. rewrite Q6. rewrite threads_seq by (auto; try lia; apply (b_wf c s Hb)). reflexivity.
Qed.

Lemma hr_dim s f kappa f' : householder_r fp c s f kappa = Ok f' -> kappa < d.
Proof. apply householder_r_dim. Qed.

Lemma hs_loop_plain fuel : forall s s0 f vx vx0 pn kappa start, same s s0 -> bok c s -> n <= length vx -> start + 1 = kappa -> kappa < d ->
  rsim q3 (hs_loop fp c fuel s f vx pn kappa start) (hs_loop fp c0 fuel s0 f vx0 pn kappa start).
Proof.
  induction fuel as [|fuel IH]; intros s s0 f vx vx0 pn kappa start E Hb L Hs Hk; cbn [hs_loop]; [exact I|].
  pose proof (pass_plain s s0 f vx vx0 kappa start E Hb L Hs Hk) as P.
  pose proof (hs_pass_int fp c EX s f vx kappa start) as PI.
  destruct (hs_pass fp c s f vx kappa start) as [[[[s1 f1] vx1] sd]| |], (hs_pass fp c0 s0 f vx0 kappa start) as [[[[s2 f2] vx2] sd2]| |];
    cbn [rsim bind] in *; auto; try contradiction.
  unfold qpass in P. cbn [fst snd] in P. destruct P as (P1 & <- & <- & P4).
  destruct sd; [|cbn [rsim]; split; auto].
  assert (Hb1 : bok c s1).
  { destruct (PI s1 f1 vx1 true (b_wf c s Hb) ltac:(lia) Hk eq_refl) as [St _]. now apply (isteps_bok c s). }
  rewrite (hr_plain s1 s2) by assumption.
  destruct (householder_r fp c s1 _ kappa) as [f3| |]; cbn [bind rsim]; auto.
  destruct (_ && _)%bool.
  - change (mu_anomaly fp c0) with (mu_anomaly fp c). destruct (mu_anomaly fp c _ _ _ _) as [bad| |]; cbn [bind rsim]; auto.
    split; auto.
  - apply IH; auto.
Qed.

(** *** Seysen, one thread *)
Definition q5 (x y : ist * fst_ F * list F * list F * bool) : Prop :=
  same (fst (fst (fst (fst x)))) (fst (fst (fst (fst y)))) /\ snd (fst (fst (fst x))) = snd (fst (fst (fst y))) /\
  snd (fst (fst x)) = snd (fst (fst y)) /\ snd (fst x) = snd (fst y) /\ snd x = snd y.
Definition q4 (x y : ist * fst_ F * list F * bool) : Prop :=
  same (fst (fst (fst x))) (fst (fst (fst y))) /\ snd (fst (fst x)) = snd (fst (fst y)) /\
  snd (fst x) = snd (fst y) /\ snd x = snd y.

Lemma sey_step kappa a i x y : q4 x y -> rsim q4 (seysen_update_step fp c kappa a i x) (seysen_update_step fp c0 kappa a i y).
Proof.
  destruct x as [[[s f] vx] b], y as [[[s0 f0] vx0] b0]. intros ([E1 E2] & E3 & E4 & E5). cbn [fst snd] in *. subst f0 vx0 b0.
  unfold seysen_update_step. change (cn c0) with n. destruct (fnz fp _).
  - destruct (fgse fp _) as [lx ex]. rewrite <- E1, <- E2. apply rsim_guard. cbn [rsim]. unfold q4. cbn [fst snd]. split; [|auto]. split; reflexivity.
  - cbn [rsim]. unfold q4. cbn [fst snd]. split; [|auto]. now split.
Qed.

Lemma sey_block kappa ix bd x y : cS c = 1 -> q5 x y -> rsim q5 (seysen_block fp c kappa ix bd x) (seysen_block fp c0 kappa ix bd y).
Proof.
  intros ST. destruct x as [[[[s f] vx] tmp] b], y as [[[[s0 f0] vx0] tmp0] b0]. intros (E1 & E2 & E3 & E4 & E5). cbn [fst snd] in *. subst f0 vx0 tmp0 b0.
  unfold seysen_block. change (gR fp c0) with (gR fp c). change (seysen_coefs_step fp c0) with (seysen_coefs_step fp c).
  rewrite ST. change (cS c0) with 1. cbn [Nat.eqb orb].
  destruct (mfold _ _ tmp) as [tmp1| |]; cbn [bind rsim]; auto.
  destruct (mfold (seysen_coefs_step _ _ _ _) _ _) as [[vx1 tmp2]| |]; cbn [bind rsim]; auto.
  eapply rsim_bind.
  - apply (rsim_mfold q4); [unfold q4; cbn [fst snd]; auto|]. intros i x y _. apply sey_step.
  - intros [[[s1 f1] v1] b1] [[[s2 f2] v2] b2] (Q1 & Q2 & Q3 & Q4). cbn [fst snd] in *. subst. cbn [rsim]. unfold q5. cbn [fst snd]. auto.
Qed.

Definition q2 (x y : ist * fst_ F) : Prop := same (fst x) (fst y) /\ snd x = snd y.

Lemma sey_loop fuel : cS c = 1 -> forall s s0 f vx tmp n0 n1 kappa, same s s0 ->
  rsim q2 (seysen_loop fp c fuel s f vx tmp n0 n1 kappa) (seysen_loop fp c0 fuel s0 f vx tmp n0 n1 kappa).
Proof.
  intros ST. induction fuel as [|fuel IH]; intros s s0 f vx tmp n0 n1 kappa E; cbn [seysen_loop]; [exact I|].
  unfold seysen_pass. eapply rsim_bind.
  - apply (rsim_mfold q5); [unfold q5; cbn [fst snd]; auto|]. intros p x y _. now apply sey_block.
  - intros [[[[s1 f1] v1] t1] b1] [[[[s2 f2] v2] t2] b2] (Q1 & Q2 & Q3 & Q4 & Q5). cbn [fst snd] in *. subst f2 v2 t2 b2.
    destruct b1; [|cbn [rsim]; now split].
    rewrite (hr_plain s1 s2) by assumption.
    destruct (householder_r fp c s1 _ kappa) as [f3| |]; cbn [bind rsim]; auto. change (gR fp c0) with (gR fp c).
    destruct (negb _).
    + destruct (gR fp c (fR f3) (kappa - 1) kappa) as [r1| |]; cbn [bind rsim]; auto.
      destruct (gR fp c (fR f3) (kappa - 1) (kappa - 1)) as [r2| |]; cbn [bind rsim]; auto. now split.
    + now apply IH.
Qed.

Hypothesis SQ : cS c = 1 \/ (cseysen c < 1)%Z.

Lemma reduce_plain fuel s s0 f kappa : same s s0 -> bok c s -> 1 <= kappa ->
  rsim q3 (reduce fp c fuel s f kappa) (reduce fp c0 fuel s0 f kappa).
Proof.
  intros E Hb H1. unfold reduce. change (cseysen c0) with (cseysen c). destruct (cseysen c <? 1)%Z eqn:SE.
  - unfold hsizereduce. rewrite (hr_plain s s0) by assumption.
    destruct (householder_r fp c s f kappa) as [f1| |] eqn:HR; cbn [bind rsim]; auto. apply hr_dim in HR.
    apply hs_loop_plain; auto.
    + rewrite repeat_length. lia.
    + unfold hs_start. cbn [Nat.ltb Nat.leb]. lia.
  - assert (ST : cS c = 1) by (destruct SQ as [Q|Q]; [exact Q|apply Z.ltb_ge in SE; lia]).
    unfold seysenreduce. destruct E as [E1 E2]. rewrite <- E2. rewrite (hr_plain s s0) by (now split).
    destruct (householder_r fp c s _ kappa) as [f1| |]; cbn [bind rsim]; auto.
    eapply rsim_bind; [apply sey_loop; [exact ST|now split]|].
    intros [s1 f2] [s2 f3] [Q1 Q2]. cbn [fst snd] in *. subst. cbn [rsim]. split; auto.
Qed.

(** *** the whole loop *)
Definition qh (x y : Z * ist * fst_ F * cnt) : Prop :=
  fst (fst (fst x)) = fst (fst (fst y)) /\ same (snd (fst (fst x))) (snd (fst (fst y))) /\ snd (fst x) = snd (fst y) /\ snd x = snd y.

Lemma loop_plain fuel delta vb : forall s s0 f kappa pk p q, same s s0 -> bok c s -> 1 <= kappa ->
  rsim qh (hlll_loop fp c fuel delta vb s f kappa pk p q) (hlll_loop fp c0 fuel delta vb s0 f kappa pk p q).
Proof.
  induction fuel as [|fuel IH]; intros s s0 f kappa pk p q E Hb H1; cbn [hlll_loop];
    change (ckmax c0) with (ckmax c); change (cnblov_max c0) with (cnblov_max c);
    (destruct (negb _); [cbn [rsim]; now split|]); [exact I|].
  rewrite (enter_plain s s0) by assumption.
  destruct (hlll_enter fp c s f kappa) as [f1| |]; cbn [bind rsim]; auto.
  pose proof (reduce_plain (S fuel) s s0 f1 kappa E Hb H1) as RP.
  pose proof (reduce_int fp c EX (S fuel) s f1 kappa) as RI.
  destruct (reduce fp c (S fuel) s f1 kappa) as [[[s1 f2] bad]| |], (reduce fp c0 (S fuel) s0 f1 kappa) as [[[s2 f3] bad2]| |];
    cbn [rsim bind] in *; auto; try contradiction.
  destruct RP as (R1 & R2 & R3). cbn [fst snd] in *. subst f3 bad2.
  destruct (RI s1 f2 bad (b_wf c s Hb) H1 eq_refl) as [St _]. pose proof (isteps_bok c s s1 St Hb) as Hb1.
  destruct bad; [cbn [rsim]; now split|].
  rewrite (lovasz_plain delta s1 s2) by assumption.
  destruct (lovasz fp c delta s1 f2 kappa) as [[lt nt]| |]; cbn [bind rsim]; auto.
  change (gR fp c0) with (gR fp c). change (cd c0) with d. unfold guard.
  destruct (fle fp lt nt); destruct (Nat.ltb_spec kappa d) as [Hk|Hk]; cbn [rsim]; auto.
  - rewrite hv_plain. destruct (householder_v fp c f2 kappa) as [f4| |]; cbn [bind rsim]; auto.
    destruct (gR fp c (fR f4) kappa kappa) as [rkk| |]; cbn [bind rsim]; auto.
    destruct (_ && _)%bool; [cbn [rsim]; now split|]. apply IH; auto. lia.
  - apply IH; auto; [now apply swap_same| |lia].
    apply (isteps_bok c s1); auto. apply Relation_Operators.rt_step. left. apply is_swap. lia.
Qed.

(** *** hlllp *)
Definition q6 (x y : ist * fst_ F * list F * list F * list bool * bool) : Prop :=
  same (fst (fst (fst (fst (fst x))))) (fst (fst (fst (fst (fst y))))) /\
  snd (fst (fst (fst (fst x)))) = snd (fst (fst (fst (fst y)))) /\ snd (fst (fst (fst x))) = snd (fst (fst (fst y))) /\
  snd (fst (fst x)) = snd (fst (fst y)) /\ snd (fst x) = snd (fst y) /\ snd x = snd y.

Lemma ns_block_plain c501 kappa ix bd x y : q6 x y -> rsim q6 (ns_block fp c c501 kappa ix bd x) (ns_block fp c0 c501 kappa ix bd y).
Proof.
  destruct x as [[[[[s f] vx] tmp] bb] b], y as [[[[[s0 f0] vx0] tmp0] bb0] b0]. intros (E1 & E2 & E3 & E4 & E5 & E6). cbn [fst snd] in *. subst f0 vx0 tmp0 bb0 b0.
  unfold ns_block. change (gR fp c0) with (gR fp c). change (ns_coefs_step fp c0) with (ns_coefs_step fp c). change (ns_R_step fp c0) with (ns_R_step fp c).
  destruct (mfold _ _ tmp) as [tmp1| |]; cbn [bind rsim]; auto.
  destruct (mfold (ns_coefs_step _ _ _ _ _) _ _) as [[[[vx1 tmp2] bb1] b1]| |]; cbn [bind rsim]; auto.
  destruct (mfold (ns_R_step _ _ _ _ _ _) _ _) as [R1| |]; cbn [bind rsim]; auto.
  eapply rsim_bind.
  - apply (rsim_mfold same); [exact E1|]. intros i t t0 _ [T1 T2]. unfold ns_B_step. change (cn c0) with n.
    destruct (nth i bb1 true); [now split|]. destruct (fgse fp _) as [lx ex]. rewrite <- T1, <- T2. apply rsim_guard. split; reflexivity.
  - intros s1 s2 Q. cbn [rsim]. unfold q6. cbn [fst snd]. repeat (split; [reflexivity || exact Q|]). reflexivity.
Qed.

Lemma ns_loop_plain fuel c501 : forall s s0 f vx tmp bd kappa, same s s0 ->
  rsim q2 (ns_loop fp c fuel c501 s f vx tmp bd kappa) (ns_loop fp c0 fuel c501 s0 f vx tmp bd kappa).
Proof.
  induction fuel as [|fuel IH]; intros s s0 f vx tmp bd kappa E; cbn [ns_loop]; [exact I|].
  eapply rsim_bind.
  - apply (rsim_mfold q6); [unfold q6; cbn [fst snd]; repeat (split; [reflexivity || exact E|]); reflexivity|]. intros p x y _. now apply ns_block_plain.
  - intros [[[[[s1 f1] v1] t1] bb1] b1] [[[[[s2 f2] v2] t2] bb2] b2] (Q1 & Q2 & Q3 & Q4 & Q5 & Q6). cbn [fst snd] in *. subst f2 v2 t2 bb2 b2.
    destruct b1; [|cbn [rsim]; now split].
    rewrite (hr_plain s1 s2) by assumption.
    destruct (householder_r fp c s1 _ kappa) as [f3| |]; cbn [bind rsim]; auto.
Qed.

Lemma reducep_plain fuel c501 dthr s s0 f kappa : same s s0 -> bok c s -> 1 <= kappa ->
  rsim q3 (reducep fp c fuel c501 dthr s f kappa) (reducep fp c0 fuel c501 dthr s0 f kappa).
Proof.
  intros E Hb H1. pose proof (reduce_plain fuel s s0 f kappa E Hb H1) as R. unfold reduce in R. unfold reducep.
  change (cseysen c0) with (cseysen c) in *. destruct (cseysen c <? 1)%Z; [exact R|]. destruct (dthr <? _)%Z; [|exact R].
  unfold newseysenreduce. rewrite (hr_plain s s0) by assumption.
  destruct (householder_r fp c s f kappa) as [f1| |]; cbn [bind rsim]; auto.
  eapply rsim_bind; [now apply ns_loop_plain|].
  intros [s1 f2] [s2 f3] [Q1 Q2]. cbn [fst snd] in *. subst. cbn [rsim]. split; auto.
Qed.

Lemma loopp_plain fuel c501 delta dthr : forall s s0 f kappa pk p q, same s s0 -> bok c s -> 1 <= kappa ->
  rsim qh (hlllp_loop fp c fuel c501 delta dthr s f kappa pk p q) (hlllp_loop fp c0 fuel c501 delta dthr s0 f kappa pk p q).
Proof.
  induction fuel as [|fuel IH]; intros s s0 f kappa pk p q E Hb H1; cbn [hlllp_loop];
    change (cd c0) with d; change (cnblov_max c0) with (cnblov_max c);
    (destruct (negb _) eqn:G; [cbn [rsim]; now split|]); [exact I|].
  apply negb_false_iff, andb_true_iff in G as [Hk _]. apply Nat.ltb_lt in Hk.
  rewrite (enter_plain s s0) by assumption.
  destruct (hlll_enter fp c s f kappa) as [f1| |]; cbn [bind rsim]; auto.
  pose proof (reducep_plain (S fuel) c501 dthr s s0 f1 kappa E Hb H1) as RP.
  pose proof (reducep_int fp EX c (S fuel) c501 dthr s f1 kappa) as RI.
  destruct (reducep fp c (S fuel) c501 dthr s f1 kappa) as [[[s1 f2] bad]| |], (reducep fp c0 (S fuel) c501 dthr s0 f1 kappa) as [[[s2 f3] bad2]| |];
    cbn [rsim bind] in *; auto; try contradiction.
  destruct RP as (R1 & R2 & R3). cbn [fst snd] in *. subst f3 bad2.
  destruct (RI s1 f2 bad (b_wf c s Hb) H1 eq_refl) as [St _]. pose proof (isteps_bok c s s1 St Hb) as Hb1.
  destruct bad; [cbn [rsim]; now split|].
  rewrite (lovasz_plain delta s1 s2) by assumption.
  destruct (lovasz fp c delta s1 f2 kappa) as [[lt nt]| |]; cbn [bind rsim]; auto.
  change (gR fp c0) with (gR fp c).
  destruct (fle fp lt nt).
  - rewrite hv_plain. destruct (householder_v fp c f2 kappa) as [f4| |]; cbn [bind rsim]; auto.
    destruct (gR fp c (fR f4) kappa kappa) as [rkk| |]; cbn [bind rsim]; auto.
    destruct (_ && _)%bool; [cbn [rsim]; now split|]. apply IH; auto. lia.
  - apply IH; auto; [now apply swap_same| |lia].
    apply (isteps_bok c s1); auto. apply Relation_Operators.rt_step. left. apply is_swap. lia.
Qed.

End Threads.

(** ** Objects and histories *)
Section Histories.
Context {F : Type} (fp : fpops F).
Hypothesis EX : expo_nonneg fp.

Definition thr_ok (c : cfg) : Prop := 1 <= cS c /\ (cS c = 1 \/ (cseysen c < 1)%Z).
Definition alike (L L0 : lattice F) : Prop :=
  lcfg L0 = plain (lcfg L) /\ same (li L) (li L0) /\ lf L = lf L0 /\ lc L = lc L0 /\ bok (lcfg L) (li L) /\ thr_ok (lcfg L).

Lemma hlll_plain (fp' : fpops F) fuel delta vb junk L L0 : expo_nonneg fp' -> alike L L0 ->
  rsim (fun x y => fst x = fst y /\ alike (snd x) (snd y)) (hlll fp' fuel delta vb junk L) (hlll fp' fuel delta vb junk L0).
Proof.
  intros EX' (E1 & E2 & E3 & E4 & E5 & E6 & E7).
  pose proof (hlll_inv fp' fuel delta vb junk L) as HI.
  unfold hlll in *. rewrite E1, <- E3, <- E4.
  pose proof (loop_plain fp' EX' (lcfg L) E6 E7 fuel delta vb (li L) (li L0) (hlll_reset (lcfg L) (lf L)) 1 (-1)%Z
    (repeat junk (cd (lcfg L))) (if vb then mkC (nblov (lc L)) (nbswaps (lc L)) (vdepth (lc L) - 1) else lc L) E2 E5 ltac:(lia)) as P.
  change (hlll_reset (plain (lcfg L)) (lf L)) with (hlll_reset (lcfg L) (lf L)). change (cd (plain (lcfg L))) with (cd (lcfg L)).
  destruct (hlll_loop fp' (lcfg L) _ _ _ _ _ _ _ _ _) as [[[[r s] f] q]| |],
    (hlll_loop fp' (plain (lcfg L)) _ _ _ _ _ _ _ _ _) as [[[[r' s'] f'] q']| |]; cbn [rsim bind] in *; auto; try contradiction.
  destruct P as (P1 & P2 & P3 & P4). cbn [fst snd] in *. subst. split; [reflexivity|].
  unfold alike. cbn [lcfg li lf lc]. split; [reflexivity|]. split; [exact P2|]. split; [reflexivity|]. split; [reflexivity|]. split; [|now split].
  destruct (HI _ _ EX' eq_refl (b_wf _ _ E5)) as (_ & St & _). eapply istepsP_bok; [exact St|exact E5].
Qed.

Lemma hlllp_plain fuel c501 delta dthr junk L L0 : alike L L0 ->
  rsim (fun x y => fst x = fst y /\ alike (snd x) (snd y)) (hlllp fp fuel c501 delta dthr junk L) (hlllp fp fuel c501 delta dthr junk L0).
Proof.
  intros (E1 & E2 & E3 & E4 & E5 & E6 & E7).
  pose proof (hlllp_inv fp fuel c501 delta dthr junk L) as HI.
  unfold hlllp in *. rewrite E1, <- E3, <- E4.
  pose proof (loopp_plain fp EX (lcfg L) E6 E7 fuel c501 delta dthr (li L) (li L0) (hlll_reset (lcfg L) (lf L)) 1 (-1)%Z
    (repeat junk (cd (lcfg L))) (lc L) E2 E5 ltac:(lia)) as P.
  change (hlll_reset (plain (lcfg L)) (lf L)) with (hlll_reset (lcfg L) (lf L)). change (cd (plain (lcfg L))) with (cd (lcfg L)).
  destruct (hlllp_loop fp (lcfg L) _ _ _ _ _ _ _ _ _ _) as [[[[r s] f] q]| |],
    (hlllp_loop fp (plain (lcfg L)) _ _ _ _ _ _ _ _ _ _) as [[[[r' s'] f'] q']| |]; cbn [rsim bind] in *; auto; try contradiction.
  destruct P as (P1 & P2 & P3 & P4). cbn [fst snd] in *. subst. split; [reflexivity|].
  unfold alike. cbn [lcfg li lf lc]. split; [reflexivity|]. split; [exact P2|]. split; [reflexivity|]. split; [reflexivity|]. split; [|now split].
  destruct (HI _ _ EX eq_refl (b_wf _ _ E5)) as (_ & St & _). eapply istepsP_bok; [exact St|exact E5].
Qed.

Lemma householder_plain (fp' : fpops F) c B f : householder fp' (plain c) B f = householder fp' c B f.
Proof. reflexivity. Qed.

Lemma isreduced_plain (fp' : fpops F) fuel delta junk J1 J2 L L0 : expo_nonneg fp' -> alike L L0 ->
  rsim (fun x y => fst x = fst y /\ alike (snd x) (snd y)) (isreduced fp' fuel delta junk J1 J2 L) (isreduced fp' fuel delta junk J1 J2 L0).
Proof.
  intros EX' (E1 & E2 & E3 & E4 & E5 & E6 & E7). destruct E2 as [E2 E2']. unfold isreduced. cbv zeta. rewrite E1, <- E3, <- E4, <- E2.
  change (setprec fp' (plain (lcfg L))) with (setprec fp' (lcfg L)). rewrite householder_plain.
  change (gR fp' (plain (lcfg L))) with (gR fp' (lcfg L)).
  destruct (householder fp' (lcfg L) _ _) as [f2| |]; cbn [bind rsim]; auto.
  destruct (gR fp' (lcfg L) (fR f2) 0 1) as [r1| |]; cbn [bind rsim]; auto.
  destruct (gR fp' (lcfg L) (fR f2) 1 1) as [r2| |]; cbn [bind rsim]; auto.
  set (La := mkL (lcfg L) (li L) f2 (mkC 0 (nbswaps (lc L)) (vdepth (lc L)))).
  set (Lb := mkL (plain (lcfg L)) (li L0) f2 (mkC 0 (nbswaps (lc L)) (vdepth (lc L)))).
  pose proof (hlll_plain fp' fuel delta false junk La Lb EX') as P.
  assert (AL : alike La Lb) by (unfold alike, La, Lb; cbn [lcfg li lf lc]; repeat (split; auto)).
  specialize (P AL).
  pose proof (hlll_inv fp' fuel delta false junk La) as HI.
  destruct (hlll fp' fuel delta false junk La) as [[r L1]| |], (hlll fp' fuel delta false junk Lb) as [[r' L1']| |]; cbn [bind rsim] in *; auto; try contradiction.
  destruct (HI _ _ EX' eq_refl (b_wf _ _ E5)) as (HC & _).
  destruct P as (P0 & P1 & P2 & P3 & P4 & P5 & P6). cbn [fst snd] in *. subst r'. rewrite <- P4. split; [reflexivity|].
  rewrite HC in P5. change (lcfg La) with (lcfg L) in P5. rewrite <- P3.
  unfold alike. cbn [lcfg li lf lc]. repeat (split; auto).
Qed.

(** all the calls but set_num_S *)
Definition not_threads (q : call (F := F)) : bool := match q with CallSetNumS _ _ => false | _ => true end.
Definition threads_ok (m : Z) (qs : list (call (F := F))) : Prop :=
  forall nS thr, In (CallSetNumS nS thr) qs -> 1 <= nS /\ (nS = 1 \/ (m < 1)%Z).

Lemma assign_alike A L L0 : alike L L0 -> alike (assign A L) (assign A L0).
Proof.
  intros (E1 & E2 & E3 & E4 & E5 & E6 & E7). unfold alike, assign. cbn [lcfg li lf lc]. rewrite E1, E3, E4.
  split; [reflexivity|]. split; [split; reflexivity|]. split; [reflexivity|]. split; [reflexivity|]. split; [|now split].
  apply bok_init, mtab_wfm.
Qed.

Lemma run_plain qs : precisions_ok qs -> forall L L0, threads_ok (cseysen (lcfg L)) qs -> alike L L0 ->
  rsim alike (run fp qs L) (run fp (filter not_threads qs) L0).
Proof.
  induction qs as [|q qs IH]; intros PR L L0 TH AL; [exact AL|].
  assert (PR' : precisions_ok qs) by (intros ? ? ? ? ? ? H; eapply PR; right; exact H).
  assert (TH' : threads_ok (cseysen (lcfg L)) qs) by (intros ? ? H; apply TH with thr; now right).
  specialize (IH PR').
  assert (K : not_threads q = true -> rsim (fun x y => alike x y /\ cseysen (lcfg x) = cseysen (lcfg L)) (exec fp q L) (exec fp q L0) ->
    rsim alike (run fp (q :: qs) L) (run fp (filter not_threads (q :: qs)) L0)).
  { intros NT P. cbn [filter]. rewrite NT. unfold run in *. cbn [mfold].
    destruct (exec fp q L) as [L1| |], (exec fp q L0) as [L2| |]; cbn [rsim bind] in *; auto; try contradiction.
    destruct P as [P1 P2]. apply IH; [now rewrite P2|exact P1]. }
  destruct q as [fuel delta vb junk|A|nS thr|nb|A sh|fp' fuel delta junk J1 J2|fuel c501 delta dthr junk]; try (apply K; [reflexivity|]).
  - cbn [exec]. pose proof (hlll_plain fp fuel delta vb junk L L0 EX AL) as P.
    pose proof (hlll_inv fp fuel delta vb junk L) as HI.
    destruct (hlll fp fuel delta vb junk L) as [[r L1]| |], (hlll fp fuel delta vb junk L0) as [[r' L2]| |]; cbn [rsim bind] in *; auto; try contradiction.
    split; [apply P|]. destruct AL as (_ & _ & _ & _ & Hb & _). now destruct (HI _ _ EX eq_refl (b_wf _ _ Hb)) as (-> & _).
  - cbn [exec rsim]. split; [now apply assign_alike|reflexivity].
  - cbn [filter not_threads]. unfold run. cbn [mfold exec bind]. apply IH; [exact TH'|].
    destruct AL as (E1 & E2 & E3 & E4 & E5 & E6 & E7). unfold alike, set_num_S. cbn [lcfg li lf lc].
    destruct (TH nS thr (or_introl eq_refl)) as [T1 T2].
    split; [rewrite E1; reflexivity|]. split; [exact E2|]. split; [exact E3|]. split; [exact E4|]. split; [|now split].
    eapply bok_cfg; [| |exact E5]; reflexivity.
  - cbn [exec rsim]. split; [|reflexivity].
    destruct AL as (E1 & E2 & E3 & E4 & E5 & E6 & E7). unfold alike, set_nblov_max. cbn [lcfg li lf lc].
    split; [rewrite E1; reflexivity|]. split; [exact E2|]. split; [exact E3|]. split; [exact E4|]. split; [|now split].
    eapply bok_cfg; [| |exact E5]; reflexivity.
  - cbn [exec rsim]. split; [|reflexivity]. unfold shift_assign. destruct AL as (E1 & AL). rewrite E1. apply assign_alike. now split.
  - cbn [exec]. assert (EX' : expo_nonneg fp') by (eapply PR; left; reflexivity).
    pose proof (isreduced_plain fp' fuel delta junk J1 J2 L L0 EX' AL) as P.
    assert (SE : forall x L1, isreduced fp' fuel delta junk J1 J2 L = Ok (x, L1) -> lcfg L1 = lcfg L).
    { intros x L1 H. unfold isreduced in H. cbv zeta in H. binv H. binv H. binv H. binv H. destruct a2 as [r L3]. now injection H as _ <-. }
    destruct (isreduced fp' fuel delta junk J1 J2 L) as [[x L1]| |], (isreduced fp' fuel delta junk J1 J2 L0) as [[x' L2]| |];
      cbn [rsim bind] in *; auto; try contradiction.
    destruct x, x'. cbn [bind rsim]. split; [apply P|]. now rewrite (SE _ _ eq_refl).
  - cbn [exec]. pose proof (hlllp_plain fuel c501 delta dthr junk L L0 AL) as P.
    pose proof (hlllp_inv fp fuel c501 delta dthr junk L) as HI.
    destruct (hlllp fp fuel c501 delta dthr junk L) as [[r L1]| |], (hlllp fp fuel c501 delta dthr junk L0) as [[r' L2]| |]; cbn [rsim bind] in *; auto; try contradiction.
    split; [apply P|]. destruct AL as (_ & _ & _ & _ & Hb & _). now destruct (HI _ _ EX eq_refl (b_wf _ _ Hb)) as (-> & _).
Qed.

Lemma new_alike J n d A u m lg vd : exists L0, forall u',
  alike (new_lattice fp J n d A u m lg vd) L0 /\ alike (new_lattice fp J n d A u' m lg vd) L0.
Proof.
  exists (let L := new_lattice fp J n d A u m lg vd in mkL (plain (lcfg L)) (li L) (lf L) (lc L)). intros u'. cbv zeta.
  assert (B : forall u0, bok (lcfg (new_lattice fp J n d A u0 m lg vd)) (li (new_lattice fp J n d A u0 m lg vd))).
  { intros u0. unfold new_lattice. cbn [lcfg li]. apply (bok_init (mkCfg n d u0 d 4294967295%Z m lg 1 1000000%Z)). apply mtab_wfm. }
  split; (split; [reflexivity|]; split; [split; reflexivity|]; split; [reflexivity|]; split; [reflexivity|]; split; [apply B|]; split; [cbn; lia|now left]).
Qed.

Lemma rsim_join {A B : Type} (Q : A -> B -> Prop) (x x' : res A) y : rsim Q x y -> rsim Q x' y -> rsim (fun a b => exists z, Q a z /\ Q b z) x x'.
Proof. destruct x, x', y; cbn [rsim]; auto; try contradiction. eauto. Qed.

End Histories.
