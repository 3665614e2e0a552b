(** * What a 0 return of hlll and hlllp certifies in the computed R *)
From Coq Require Import ZArith Lia List Bool Arith.
From Verif Require Import Base Spec Mat FP Hlll Hlllp IntSteps HlllInt Structure Object Safety SpecCert.
From Verif Require SeysenTop.
Import ListNotations.

Section Frame.
Context {F : Type} (fp : fpops F) (c : cfg).
Notation n := (cn c).
Notation d := (cd c).
Notation fz := (fzero fp).

Ltac setf := cbn [set_R set_Rk set_V set_Bfp set_VR set_nB2 set_x set_toR set_nmax set_kept set_kmin set_desc
                  fR fRk fV fBfp fVR fnB2 fx ftoR fnmax fkept fkmin fdesc] in *.

(** only column k changes *)
Definition keep {T} (k : nat) (M N : mat T) : Prop := forall j, j <> k -> col N j = col M j.
Definition keeps (k : nat) (s s' : ist) : Prop := iS s' = iS s /\ keep k (iB s) (iB s').
Definition keepf (k : nat) (f f' : fst_ F) : Prop := keep k (fR f) (fR f') /\ fnmax f' = fnmax f.

Lemma keep_refl {T} k (M : mat T) : keep k M M. Proof. easy. Qed.
Lemma keep_trans {T} k (M N P : mat T) : keep k M N -> keep k N P -> keep k M P.
Proof. intros H1 H2 j Hj. rewrite H2, H1; auto. Qed.
Lemma keep_lupd {T} k (M : mat T) v : keep k M (lupd M k v).
Proof. intros j Hj. now apply col_lupd_neq. Qed.
Lemma keep_colop {T} (z : T) g b l M k i : keep k M (colop z g b l M k i).
Proof. unfold colop. apply keep_lupd. Qed.
Lemma keeps_trans k s t u : keeps k s t -> keeps k t u -> keeps k s u.
Proof. intros [A B] [C D]. split; [congruence|]. eapply keep_trans; eauto. Qed.
Lemma keepf_trans k s t u : keepf k s t -> keepf k t u -> keepf k s u.
Proof. intros [A B] [C D]. split; [|congruence]. eapply keep_trans; eauto. Qed.
Lemma keeps_refl k s : keeps k s s. Proof. now split. Qed.
Lemma keepf_refl k s : keepf k s s. Proof. now split. Qed.

Lemma size_update_step_keep kappa i s f b s' f' b' :
  size_update_step fp c kappa i (s, f, b) = Ok (s', f', b') -> keeps kappa s s' /\ keepf kappa f f'.
Proof.
  intros H. unfold size_update_step in H. binv H. binv H. destruct (fnz fp _).
  - destruct (fgse fp _) as [lx expo]. binv H. injection H as <- <- <-. split; split; setf; cbn [iS iB]; auto using keep_colop.
  - injection H as <- <- <-. split; split; setf; auto using keep_refl.
Qed.

Lemma size_update_keep s f kappa from s' f' b :
  size_update fp c s f kappa from = Ok (s', f', b) -> keeps kappa s s' /\ keepf kappa f f'.
Proof.
  intros H. unfold size_update in H.
  pose proof (mfold_inv (fun t => keeps kappa s (fst (fst t)) /\ keepf kappa f (snd (fst t)))
    (size_update_step fp c kappa) (down from 0) (s, f, false) (s', f', b)) as M. cbn [fst snd] in M.
  apply M; auto using keeps_refl, keepf_refl.
  intros i [[t g] b1] [[t' g'] b2] _ [A B] E. cbn [fst snd] in *.
  apply size_update_step_keep in E as [C D]. split; [eapply keeps_trans|eapply keepf_trans]; eauto.
Qed.

Lemma size_update_R_keep f vx kappa from f' vx' b :
  size_update_R fp c f vx kappa from = Ok (f', vx', b) -> keepf kappa f f'.
Proof.
  intros H. unfold size_update_R in H.
  pose proof (mfold_inv (fun t => keepf kappa f (fst (fst t)))
    (size_update_R_step fp c kappa) (down from 0) (f, vx, false) (f', vx', b)) as M. cbn [fst snd] in M.
  apply M; auto using keepf_refl.
  intros i [[g v] b1] [[g' v'] b2] _ A E. cbn [fst snd] in *. eapply keepf_trans; [exact A|].
  unfold size_update_R_step in E. binv E. binv E. destruct (fnz fp _).
  - destruct (fgse fp _) as [lx expo]. injection E as <- <- <-. split; setf; auto using keep_colop.
  - injection E as <- <- <-. split; setf; auto using keep_refl.
Qed.

Lemma psize_keep s kappa from vx s' : psize_update_B fp c s kappa from vx = Ok s' -> keeps kappa s s'.
Proof.
  intros H. unfold psize_update_B in H. binv H. injection H as <-. split; cbn [iS iB]; auto.
  set (nmax := psize_nmax s from). clearbody nmax.
  assert (T : forall l B, keep kappa B (psize_thread fp c kappa from vx nmax (cS c) l B)).
  { intros l B. unfold psize_thread. generalize (down from 0) as is. intros is. revert B.
    induction is as [|i is IH]; intros B; cbn [fold_left]; [apply keep_refl|].
    eapply keep_trans; [|apply IH]. unfold psize_thread_step. destruct (fnz fp _); [|apply keep_refl].
    destruct (fgse fp _). apply keep_colop. }
  generalize (iB s) as B. generalize (seq 0 (cS c)) as ls.
  induction ls as [|l ls IH]; intros B; cbn [fold_left]; [apply keep_refl|].
  eapply keep_trans; [apply T|apply IH].
Qed.

Lemma hs_pass_keep s f vx kappa start s' f' vx' b :
  hs_pass fp c s f vx kappa start = Ok (s', f', vx', b) -> keeps kappa s s' /\ keepf kappa f f'.
Proof.
  intros H. unfold hs_pass in H. destruct (_ || _)%bool.
  - binv H. destruct a as [[s1 f1] sd]. injection H as <- <- <- <-. eapply size_update_keep; eauto.
  - binv H. destruct a as [[f1 v1] sd]. binv H. injection H as <- <- <- <-.
    split; [eapply psize_keep; eauto|eapply size_update_R_keep; eauto].
Qed.

(** a pass that did nothing *)
Lemma size_update_idle s f kappa from s' f' : size_update fp c s f kappa from = Ok (s', f', false) ->
  fR f' = fR f /\ forall i, i <= from -> fnz fp (frnd fp (fdiv fp (mget fz (fR f) i kappa) (mget fz (fR f) i i))) = false.
Proof.
  unfold size_update.
  assert (G : forall l b, mfold (size_update_step fp c kappa) l (s, f, b) = Ok (s', f', false) ->
    forall R0, fR f = R0 -> b = false /\ fR f' = R0 /\ forall i, In i l -> fnz fp (frnd fp (fdiv fp (mget fz R0 i kappa) (mget fz R0 i i))) = false).
  { intros l. revert s f. induction l as [|i l IH]; intros s f b H R0 E; cbn [mfold] in H.
    - injection H as <- <- ->. repeat split; auto. intros i [].
    - binv H. destruct a as [[s1 f1] b1]. unfold size_update_step in Ha. binv Ha. binv Ha.
      unfold gR in Ha0, Ha1. binv Ha0. binv Ha1. injection Ha0 as <-. injection Ha1 as <-. rewrite E in Ha.
      destruct (fnz fp _) eqn:X.
      + destruct (fgse fp _) as [lx expo]. binv Ha. injection Ha as <- <- <-.
        edestruct IH as [Q _]; [exact H|reflexivity|discriminate].
      + injection Ha as <- <- <-. destruct (IH _ _ _ H R0) as (Q1 & Q2 & Q3); [exact E|].
        repeat split; auto. intros j [<-|J]; auto. }
  intros H. destruct (G _ _ H _ eq_refl) as (_ & A & B). split; [exact A|]. intros i Hi. apply B. apply in_down. lia.
Qed.

Lemma size_update_R_idle f vx kappa from f' vx' : size_update_R fp c f vx kappa from = Ok (f', vx', false) ->
  fR f' = fR f /\ forall i, i <= from -> fnz fp (frnd fp (fdiv fp (mget fz (fR f) i kappa) (mget fz (fR f) i i))) = false.
Proof.
  unfold size_update_R.
  assert (G : forall l b, mfold (size_update_R_step fp c kappa) l (f, vx, b) = Ok (f', vx', false) ->
    forall R0, fR f = R0 -> b = false /\ fR f' = R0 /\ forall i, In i l -> fnz fp (frnd fp (fdiv fp (mget fz R0 i kappa) (mget fz R0 i i))) = false).
  { intros l. revert f vx. induction l as [|i l IH]; intros f vx b H R0 E; cbn [mfold] in H.
    - injection H as <- <- ->. repeat split; auto. intros i [].
    - binv H. destruct a as [[s1 f1] b1]. unfold size_update_R_step in Ha. binv Ha. binv Ha.
      unfold gR in Ha0, Ha1. binv Ha0. binv Ha1. injection Ha0 as <-. injection Ha1 as <-. rewrite E in Ha.
      destruct (fnz fp _) eqn:X.
      + destruct (fgse fp _) as [lx expo]. injection Ha as <- <- <-.
        edestruct IH as [Q _]; [exact H|reflexivity|discriminate].
      + injection Ha as <- <- <-. destruct (IH _ _ _ H R0) as (Q1 & Q2 & Q3); [exact E|].
        repeat split; auto. intros j [<-|J]; auto. }
  intros H. destruct (G _ _ H _ eq_refl) as (_ & A & B). split; [exact A|]. intros i Hi. apply B. apply in_down. lia.
Qed.

Lemma hs_pass_idle s f vx kappa start s' f' vx' : hs_pass fp c s f vx kappa start = Ok (s', f', vx', false) ->
  fR f' = fR f /\ forall i, i <= start -> fnz fp (frnd fp (fdiv fp (mget fz (fR f) i kappa) (mget fz (fR f) i i))) = false.
Proof.
  intros H. unfold hs_pass in H. destruct (_ || _)%bool.
  - binv H. destruct a as [[s1 f1] sd]. injection H as <- <- <- ->. eapply size_update_idle; eauto.
  - binv H. destruct a as [[f1 v1] sd]. binv H. injection H as <- <- <- ->. eapply size_update_R_idle; eauto.
Qed.

(** householder_r *)
Lemma hr_loop_keep kappa nmax dot f g : hr_loop fp c kappa nmax dot f = Ok g ->
  fR g = fR f /\ fnmax g = fnmax f /\ fnB2 g = fnB2 f.
Proof.
  unfold hr_loop. apply (mfold_inv (fun t => fR t = fR f /\ fnmax t = fnmax f /\ fnB2 t = fnB2 f)); auto.
  intros k t t' _ E H. unfold hr_step in H. repeat binv H.
  destruct (dot k).
  - repeat binv Ha1. injection Ha1 as <-. injection H as <-. setf. auto.
  - injection Ha1 as <-. injection H as <-. setf. auto.
Qed.

Lemma hr_final_keep kappa nmax f g : hr_final fp c kappa nmax f = Ok g -> keepf kappa f g /\ fnB2 g = fnB2 f.
Proof. intros H. unfold hr_final in H. binv H. injection H as <-. split; [split|]; setf; auto using keep_lupd. Qed.

Lemma householder_r_keep s f kappa f' : householder_r fp c s f kappa = Ok f' ->
  keep kappa (fR f) (fR f') /\ fnmax f' = nth kappa (iS s) 0.
Proof.
  intros H. unfold householder_r in H. binv H. binv H. binv H. injection H as <-. setf.
  destruct (kappa =? 0).
  - destruct (nth kappa (fkept f) false).
    + injection Ha as <-. setf. auto using keep_lupd.
    + binv Ha. injection Ha as <-. setf. auto using keep_lupd.
  - binv Ha. apply hr_final_keep in Ha as [[A1 A2] _].
    assert (P : fR a0 = fR f /\ fnmax a0 = nth kappa (iS s) 0).
    { destruct (nth kappa (fkept f) false).
      - destruct (_ || _)%bool.
        + destruct (_ <? _)%Z; [discriminate|]. apply hr_loop_keep in Ha0 as (E1 & E2 & _). setf. auto.
        + injection Ha0 as <-. setf. auto.
      - binv Ha0. apply hr_loop_keep in Ha0 as (E1 & E2 & _). setf. auto. }
    destruct P as [P1 P2]. rewrite P1 in A1. split; [exact A1|congruence].
Qed.

Lemma sp_loop_sumsq (v : nat -> F) m : forall (l : list F) k, m <= length l -> (forall i, i < m -> nth i l fz = v (S k + i)) ->
  sp_loop fp (sumsq fp v (S k)) l l m = sumsq fp v (S k + m).
Proof.
  induction m as [|m IH]; intros l k Hl E; [replace (S k + 0) with (S k) by lia; destruct l; reflexivity|].
  destruct l as [|a l]; [cbn in Hl; lia|]. cbn [sp_loop].
  pose proof (E 0 ltac:(lia)) as E0. cbn [nth] in E0. rewrite Nat.add_0_r in E0.
  replace (faddmul fp (sumsq fp v (S k)) a a) with (sumsq fp v (S (S k))) by (rewrite E0; reflexivity).
  rewrite IH.
  - now replace (S (S k) + m) with (S k + S m) by lia.
  - cbn in Hl. lia.
  - intros i Hi. specialize (E (S i) ltac:(lia)). cbn [nth] in E. rewrite E. f_equal. lia.
Qed.

Lemma norm_sq_sumsq (l : list F) k (v : nat -> F) q : fp_norm_sq fp l k = Ok q -> 1 <= k ->
  (forall i, i < k -> nth i l fz = v i) -> q = sumsq fp v k.
Proof.
  intros H Hk E. unfold fp_norm_sq, scalarprod in H. destruct l as [|a l]; [discriminate|]. binv H. injection H as <-.
  apply andb_true_iff in Hg as [Hg _]. apply Nat.leb_le in Hg. cbn [length] in Hg.
  pose proof (sp_loop_sumsq v (k - 1) l 0) as SP. cbn [sumsq] in SP. rewrite (E 0 ltac:(lia) : a = v 0). rewrite SP.
  - now replace (1 + (k - 1)) with k by lia.
  - lia.
  - intros i Hi. specialize (E (S i) ltac:(lia)). exact E.
Qed.

Lemma householder_r_norm s f kappa f' : wfm n d (fBfp f) -> length (fnB2 f) = d -> kappa <> 0 -> 1 <= nth kappa (iS s) 0 ->
  nth kappa (fkept f) false = false ->
  householder_r fp c s f kappa = Ok f' ->
  nth kappa (fnB2 f') fz = sumsq fp (fun i => fset_z fp (fn (iB s) i kappa)) (nth kappa (iS s) 0).
Proof.
  intros WB LB K0 NM K H. unfold householder_r in H. binv H. binv H. binv H. injection H as <-. setf.
  apply Nat.ltb_lt in Hg. apply Nat.leb_le in Hg0.
  destruct (Nat.eqb_spec kappa 0) as [E0|_]; [lia|].
  binv Ha. apply hr_final_keep in Ha as [_ A2]. rewrite A2. rewrite K in Ha0. binv Ha0.
  apply hr_loop_keep in Ha0 as (_ & _ & E). rewrite E. setf. rewrite nth_lupd_eq by lia.
  binv Ha. unfold gcol in Ha0. binv Ha0. injection Ha0 as <-. cbn [skipn] in Ha.
  unfold setcol_z in Ha. rewrite col_lupd_eq in Ha by (rewrite (wfm_length _ _ _ WB); lia).
  eapply norm_sq_sumsq; [exact Ha|lia|]. intros i Hi.
  pose proof (wfm_col _ _ _ kappa WB Hg) as LC.
  rewrite nth_splice by (rewrite map_length, seq_length, LC; lia).
  rewrite map_length, seq_length. cbn [Nat.leb andb Nat.add]. replace (i <? _) with true by (symmetry; apply Nat.ltb_lt; lia).
  rewrite Nat.sub_0_r, nth_map_seq by lia. reflexivity.
Qed.

(** ** What each reduction leaves behind *)

Definition rfun (R : mat F) : nat -> nat -> F := fun i j => mget fz R i j.

(** the size test of column k, with the tolerance of column k of B *)
Definition size_cert (s : ist) (R : mat F) (k : nat) : Prop :=
  1 <= nth k (iS s) 0 -> size_test fp (tolerance fp (fun i => fn (iB s) i k) (nth k (iS s) 0)) (rfun R) k.

Lemma mu_anomaly_false R kappa theta l : mu_anomaly fp c R kappa theta l = Ok false ->
  forall i, In i l -> fcmp1 fp (fabs fp (fdiv fp (mget fz R i kappa) (mget fz R i i)))
                        (fadd fp (fabs fp (fdiv fp theta (mget fz R i i))) (fone fp)) = false.
Proof.
  induction l as [|i l IH]; intros H j J; [easy|]. cbn [mu_anomaly] in H. binv H. binv H.
  unfold gR in Ha, Ha0. binv Ha. binv Ha0. injection Ha as <-. injection Ha0 as <-.
  destruct (fcmp1 fp _ _) eqn:E; [discriminate|]. destruct J as [<-|J]; auto.
Qed.

Hypothesis ND : d <= n.

Lemma hs_loop_cert fuel s0 kappa : sok c s0 -> 1 <= kappa < d -> forall s f vx ns s' f',
  fwf c f -> iS s = iS s0 -> fnmax f = nth kappa (iS s0) 0 ->
  hs_loop fp c fuel s f vx ns kappa (kappa - 1) = Ok (s', f', false) ->
  keeps kappa s s' /\ keepf kappa f f' /\ size_cert s' (fR f') kappa.
Proof.
  intros Hs Hk. induction fuel as [|fuel IH]; intros s f vx ns s' f' W E NM H; cbn [hs_loop] in H; [discriminate|].
  binv H. destruct a as [[[s1 f1] v1] sd].
  pose proof (hs_pass_keep _ _ _ _ _ _ _ _ _ Ha) as [K1 K2].
  pose proof (hs_pass_safe fp c ND s f vx kappa (kappa - 1) W (sok_eq c s0 s E Hs) ltac:(lia) ltac:(lia)) as P.
  rewrite Ha in P. destruct P as [E1 W1]. cbn [fst snd] in E1, W1.
  destruct sd.
  - binv H.
    assert (W2 : fwf c (set_kept (lupd (fkept f1) kappa false) f1)) by (apply fwf_kept_false; auto; lia).
    pose proof (householder_r_keep _ _ _ _ Ha0) as [K3 K4]. setf.
    pose proof (householder_r_safe fp c ND s1 _ kappa W2 (sok_eq c s0 s1 ltac:(congruence) Hs) ltac:(lia)) as P3.
    rewrite Ha0 in P3. cbn [safe] in P3.
    assert (KF : keepf kappa f a).
    { split; [eapply keep_trans; [apply K2|exact K3]|]. rewrite K4, NM. congruence. }
    destruct (negb ns && negb _)%bool.
    + binv H. injection H as <- <- ->. split; [assumption|]. split; [assumption|].
      intros LN. right. intros i Hi. pose proof (mu_anomaly_false _ _ _ _ Ha1 i) as MU.
      unfold rfun, tolerance. rewrite <- (householder_r_norm s1 (set_kept (lupd (fkept f1) kappa false) f1) kappa a); auto.
      * apply MU. apply in_seq. lia.
      * setf. apply W1.
      * setf. apply W1.
      * lia.
      * setf. rewrite nth_lupd_eq; auto. rewrite (w_kept c f1 W1). lia.
    + apply IH in H as (Q1 & Q2 & Q3); auto; try congruence.
      split; [eapply keeps_trans; eauto|]. split; [eapply keepf_trans; eauto|]. exact Q3.
  - injection H as <- <-. split; [assumption|]. split; [assumption|].
    apply hs_pass_idle in Ha as [ER Z]. intros _. left. intros i Hi. unfold rfun. rewrite ER. apply Z. lia.
Qed.

Lemma hsizereduce_cert fuel s f kappa s' f' : fwf c f -> sok c s -> 1 <= kappa < d ->
  hsizereduce fp c fuel s f kappa 0 = Ok (s', f', false) ->
  keeps kappa s s' /\ keep kappa (fR f) (fR f') /\ fnmax f' = nth kappa (iS s') 0 /\ size_cert s' (fR f') kappa.
Proof.
  intros W Hs Hk H. unfold hsizereduce in H. binv H.
  pose proof (householder_r_safe fp c ND s f kappa W Hs ltac:(lia)) as P. rewrite Ha in P. cbn [safe] in P.
  apply householder_r_keep in Ha as [K1 K2]. cbn [hs_start Nat.ltb Nat.leb] in H.
  apply (hs_loop_cert fuel s) in H as (Q1 & (Q2 & Q3) & Q4); auto.
  split; [assumption|]. split; [eapply keep_trans; eauto|]. split; [|assumption].
  destruct Q1 as [Q1 _]. congruence.
Qed.

(** seysenreduce: frame only *)
Lemma seysen_block_keep kappa ix bd s f vx tmp b s' f' vx' tmp' b' :
  seysen_block fp c kappa ix bd (s, f, vx, tmp, b) = Ok (s', f', vx', tmp', b') -> keeps kappa s s' /\ keepf kappa f f'.
Proof.
  intros H. unfold seysen_block in H. binv H. binv H. destruct a0 as [vx1 tmp2]. destruct (_ || _)%bool.
  - binv H. destruct a0 as [[[s1 f1] v2] sd]. injection H as <- <- <- <- <-.
    pose proof (mfold_inv (fun t => keeps kappa s (fst (fst (fst t))) /\ keepf kappa f (snd (fst (fst t))))
      (seysen_update_step fp c kappa (kappa - ix - bd)) (block_rows kappa ix bd) (s, f, vx1, false) (s1, f1, v2, sd)) as M.
    cbn [fst snd] in M. apply M; auto using keeps_refl, keepf_refl.
    intros i [[[t g] v] b1] [[[t' g'] v'] b2] _ [A B] E. cbn [fst snd] in *.
    unfold seysen_update_step in E. destruct (fnz fp _).
    + destruct (fgse fp _) as [lx expo]. binv E. injection E as <- <- <- <-.
      split; [eapply keeps_trans; [exact A|]|eapply keepf_trans; [exact B|]]; split; setf; cbn [iS iB]; auto using keep_colop.
    + injection E as <- <- <- <-. auto.
  - injection H as <- <- <- <- <-. auto using keeps_refl, keepf_refl.
Qed.

Lemma seysen_pass_keep s f vx tmp kappa s' f' vx' tmp' b :
  seysen_pass fp c s f vx tmp kappa = Ok (s', f', vx', tmp', b) -> keeps kappa s s' /\ keepf kappa f f'.
Proof.
  intros H. unfold seysen_pass in H.
  pose proof (mfold_inv (fun t => keeps kappa s (fst (fst (fst (fst t)))) /\ keepf kappa f (snd (fst (fst (fst t)))))
    (fun b st => seysen_block fp c kappa (fst b) (snd b) st) (seysen_blocks (kappa + 1) 1 0 kappa) (s, f, vx, tmp, false) (s', f', vx', tmp', b)) as M.
  cbn [fst snd] in M. apply M; auto using keeps_refl, keepf_refl.
  intros [ix bd] [[[[t g] v] w] b1] [[[[t' g'] v'] w'] b2] _ [A B] E. cbn [fst snd] in *.
  apply seysen_block_keep in E as [C D]. split; [eapply keeps_trans|eapply keepf_trans]; eauto.
Qed.

Lemma seysen_loop_keep fuel kappa : forall s f vx tmp n0 n1 s' f',
  fnmax f = nth kappa (iS s) 0 ->
  seysen_loop fp c fuel s f vx tmp n0 n1 kappa = Ok (s', f') -> keeps kappa s s' /\ keepf kappa f f'.
Proof.
  induction fuel as [|fuel IH]; intros s f vx tmp n0 n1 s' f' NM H; cbn [seysen_loop] in H; [discriminate|].
  binv H. destruct a as [[[[s1 f1] v1] t1] sd]. apply seysen_pass_keep in Ha as [K1 K2].
  destruct sd; [|injection H as <- <-; auto].
  binv H. apply householder_r_keep in Ha as [K3 K4]. setf.
  assert (KF : keepf kappa f a).
  { split; [eapply keep_trans; [apply K2|exact K3]|]. rewrite K4, NM. destruct K1 as [-> _]. reflexivity. }
  destruct (negb _).
  - binv H. binv H. injection H as <- <-. auto.
  - apply IH in H as [Q1 Q2]; auto.
    split; [eapply keeps_trans; eauto|eapply keepf_trans; eauto].
Qed.

Lemma seysenreduce_keep fuel s f kappa s' f' b : seysenreduce fp c fuel s f kappa = Ok (s', f', b) ->
  keeps kappa s s' /\ keep kappa (fR f) (fR f') /\ fnmax f' = nth kappa (iS s') 0.
Proof.
  intros H. unfold seysenreduce in H. binv H. binv H. destruct a0 as [s2 f2]. injection H as <- <- <-.
  apply householder_r_keep in Ha as [K1 K2]. setf.
  apply seysen_loop_keep in Ha0 as [Q1 [Q2 Q3]]; auto.
  split; [assumption|]. split; [eapply keep_trans; eauto|]. destruct Q1 as [Q1 _]. congruence.
Qed.

(** newseysenreduce *)
Lemma ns_block_keep c501 kappa ix bdm s f vx tmp bd b s' f' vx' tmp' bd' b' :
  ns_block fp c c501 kappa ix bdm (s, f, vx, tmp, bd, b) = Ok (s', f', vx', tmp', bd', b') -> keeps kappa s s' /\ keepf kappa f f'.
Proof.
  intros H. unfold ns_block in H. binv H. binv H. destruct a0 as [[[vx1 tmp2] bd1] sd1]. binv H. binv H.
  injection H as <- <- <- <- <- <-. split; [|split; setf; auto].
  - pose proof (mfold_inv (fun t => keeps kappa s t) (ns_B_step fp c kappa vx1 bd1) (block_rows kappa ix bdm) s a1) as M.
    apply M; auto using keeps_refl. intros i t t' _ A E. unfold ns_B_step in E.
    destruct (nth i bd1 true); [injection E as <-; auto|]. destruct (fgse fp _). binv E. injection E as <-.
    eapply keeps_trans; [exact A|]. split; cbn [iS iB]; auto using keep_colop.
  - pose proof (mfold_inv (fun t => keep kappa (fR f) t) (ns_R_step fp c kappa (kappa - ix - bdm) vx1 bd1) (block_rows kappa ix bdm) (fR f) a0) as M.
    apply M; auto using keep_refl. intros i t t' _ A E. unfold ns_R_step in E.
    destruct (nth i bd1 true); [injection E as <-; auto|]. destruct (fgse fp _). binv E. injection E as <-.
    eapply keep_trans; [exact A|]. apply keep_colop.
Qed.

(** no coefficient of the block [a,e) exceeds the bound *)
Definition block_ok (c501 : F) (R : mat F) (kappa a e : nat) : Prop :=
  forall j, a <= j < e -> fcmp1 fp (fabs fp (block_coef fp (rfun R) kappa e j)) c501 = false.

Lemma residual_eq (r : nat -> nat -> F) k e m i :
  residual fp r k e (S m) i = fsubmul fp (residual fp r k e m i) (r i (e - S m))
    (fdiv fp (residual fp r k e m (e - S m)) (r (e - S m) (e - S m))).
Proof. reflexivity. Qed.

(** the values of tmpcolR after the update with column i *)
Lemma fold_submul (R : mat F) (x : F) i l : forall (t : list F), NoDup l -> (forall k, In k l -> k < length t) ->
  length (fold_left (fun t k => lupd t k (fsubmul fp (nth k t fz) (mget fz R k i) x)) l t) = length t /\
  forall k, nth k (fold_left (fun t k => lupd t k (fsubmul fp (nth k t fz) (mget fz R k i) x)) l t) fz =
            if existsb (Nat.eqb k) l then fsubmul fp (nth k t fz) (mget fz R k i) x else nth k t fz.
Proof.
  induction l as [|a l IH]; intros t ND' Hl; cbn [fold_left existsb]; [auto|].
  inversion ND' as [|? ? NI ND2]; subst.
  edestruct (IH (lupd t a (fsubmul fp (nth a t fz) (mget fz R a i) x)) ND2) as [L V].
  { intros k Hin. rewrite lupd_length. apply Hl. now right. }
  rewrite lupd_length in L. split; [exact L|]. intros k. rewrite V.
  destruct (Nat.eqb_spec k a) as [->|NE]; cbn [orb].
  - replace (existsb (Nat.eqb a) l) with false.
    + rewrite nth_lupd_eq; auto. apply Hl. now left.
    + symmetry. apply not_true_is_false. intros EX. apply existsb_exists in EX as (y & Y1 & Y2). apply Nat.eqb_eq in Y2. now subst.
  - rewrite nth_lupd_neq by assumption. reflexivity.
Qed.

Lemma ns_coefs_sd c501 R restdim l : forall vx tmp bd b vx' tmp' bd',
  mfold (ns_coefs_step fp c c501 R restdim) l (vx, tmp, bd, b) = Ok (vx', tmp', bd', false) -> b = false.
Proof.
  induction l as [|i l IH]; intros vx tmp bd b vx' tmp' bd' H; cbn [mfold] in H; [now injection H|].
  binv H. destruct a as [[[v t] b1] b2]. apply IH in H. subst b2. unfold ns_coefs_step in Ha. binv Ha. binv Ha. injection Ha as _ _ _ E.
  now apply orb_false_iff in E.
Qed.

Lemma ns_coefs_ok c501 R kappa a e : kappa <= d -> e <= kappa -> forall m vx tmp bd vx' tmp' bd',
  a + m <= e -> length tmp = kappa -> length bd = kappa ->
  (forall i, a <= i < a + m -> nth i tmp fz = residual fp (rfun R) kappa e (e - (a + m)) i) ->
  mfold (ns_coefs_step fp c c501 R a) (rev (seq a m)) (vx, tmp, bd, false) = Ok (vx', tmp', bd', false) ->
  length tmp' = kappa /\ length bd' = kappa /\
  (forall j, a <= j < a + m -> nth j bd' true = true) /\ (forall j, ~ a <= j < a + m -> nth j bd' true = nth j bd true) /\
  (forall j, a <= j < a + m -> fcmp1 fp (fabs fp (block_coef fp (rfun R) kappa e j)) c501 = false).
Proof.
  intros Hkd He. induction m as [|m IH]; intros vx tmp bd vx' tmp' bd' Hm LT LB HT H.
  - cbn in H. injection H as <- <- <-. repeat split; auto; intros; lia.
  - rewrite seq_S, rev_app_distr in H. cbn [rev app mfold] in H. binv H. destruct a0 as [[[v t] b1] b2].
    pose proof (ns_coefs_sd _ _ _ _ _ _ _ _ _ _ _ H) as E2. subst b2.
    unfold ns_coefs_step in Ha. binv Ha. binv Ha. injection Ha as <- <- <- EB. unfold gR in Ha0. binv Ha0. injection Ha0 as <-.
    cbn [orb] in EB. rewrite EB in H. cbn [negb] in H.
    assert (EC : nth (a + m) tmp fz = residual fp (rfun R) kappa e (e - 1 - (a + m)) (a + m)).
    { rewrite HT by lia. f_equal. lia. }
    edestruct (fold_submul R (fdiv fp (nth (a + m) tmp fz) (mget fz R (a + m) (a + m))) (a + m) (seq a (a + m - a)) tmp) as [FL FV].
    { apply seq_NoDup. } { intros k Hin. apply in_seq in Hin. lia. }
    apply IH in H as (L1 & L2 & P1 & P2 & P3).
    + repeat split; auto.
      * intros j Hj. destruct (Nat.eq_dec j (a + m)) as [->|NE]; [|apply P1; lia].
        rewrite P2 by lia. rewrite nth_lupd_eq by lia. reflexivity.
      * intros j Hj. rewrite P2 by lia. rewrite nth_lupd_neq by lia. reflexivity.
      * intros j Hj. destruct (Nat.eq_dec j (a + m)) as [->|NE]; [|apply P3; lia].
        unfold block_coef. rewrite <- EC. exact EB.
    + lia.
    + now rewrite FL.
    + now rewrite lupd_length.
    + intros i Hi. rewrite FV.
      replace (existsb (Nat.eqb i) (seq a (a + m - a))) with true.
      2:{ symmetry. apply existsb_exists. exists i. split; [apply in_seq; lia|apply Nat.eqb_refl]. }
      replace (e - (a + m)) with (S (e - 1 - (a + m))) by lia. rewrite residual_eq.
      replace (e - S (e - 1 - (a + m))) with (a + m) by lia. rewrite <- EC. rewrite HT by lia.
      replace (e - (a + S m)) with (e - 1 - (a + m)) by lia. reflexivity.
Qed.

Lemma load_rows R kappa l : forall (t t1 : list F), NoDup l -> (forall i, In i l -> i < length t) ->
  mfold (fun i t => let* r := gR fp c R i kappa in Ok (lupd t i r)) l t = Ok t1 ->
  length t1 = length t /\ forall i, In i l -> nth i t1 fz = mget fz R i kappa.
Proof.
  intros t t1 HN HL H.
  assert (G : length t1 = length t /\ (forall i, In i l -> nth i t1 fz = mget fz R i kappa) /\ forall i, ~ In i l -> nth i t1 fz = nth i t fz).
  { revert t HN HL H. induction l as [|a l IH]; intros t HN HL H; cbn [mfold] in H.
    - injection H as <-. repeat split; auto. intros i [].
    - binv H. binv Ha. unfold gR in Ha0. binv Ha0. injection Ha0 as <-. injection Ha as <-. inversion HN as [|? ? NI ND2]; subst.
      apply IH in H as (Q1 & Q2 & Q3); auto.
      2:{ intros i Hi. rewrite lupd_length. apply HL. now right. }
      rewrite lupd_length in Q1. repeat split; auto.
      + intros i [<-|Hi]; auto. rewrite Q3 by assumption. rewrite nth_lupd_eq; auto. apply HL. now left.
      + intros i Hi. rewrite Q3 by (intros X; apply Hi; now right). apply nth_lupd_neq. intros ->. apply Hi. now left. }
  tauto.
Qed.

Lemma ns_block_sd c501 kappa ix bdm s f vx tmp bd b s' f' vx' tmp' bd' :
  ns_block fp c c501 kappa ix bdm (s, f, vx, tmp, bd, b) = Ok (s', f', vx', tmp', bd', false) -> b = false.
Proof.
  intros H. unfold ns_block in H. binv H. binv H. destruct a0 as [[[vx1 tmp2] bd1] sd1]. binv H. binv H.
  injection H as <- <- <- <- <- ->. eapply ns_coefs_sd; eauto.
Qed.

Lemma ns_block_idle c501 kappa ix bdm s f vx tmp bd s' f' vx' tmp' bd' : kappa < d -> ix + bdm <= kappa ->
  length tmp = kappa -> length bd = kappa ->
  ns_block fp c c501 kappa ix bdm (s, f, vx, tmp, bd, false) = Ok (s', f', vx', tmp', bd', false) ->
  fR f' = fR f /\ length tmp' = kappa /\ length bd' = kappa /\ block_ok c501 (fR f) kappa (kappa - ix - bdm) (kappa - ix).
Proof.
  intros Hk Hb LT LB H. unfold ns_block in H. binv H. binv H. destruct a0 as [[[vx1 tmp2] bd1] sd1]. binv H. binv H.
  injection H as <- <- <- <- <- ->.
  assert (IB : forall i, In i (block_rows kappa ix bdm) <-> kappa - ix - bdm <= i < kappa - ix).
  { intros i. unfold block_rows. rewrite <- in_rev, in_seq. lia. }
  apply load_rows in Ha as [L1 V1].
  2:{ unfold block_rows. apply NoDup_rev, seq_NoDup. }
  2:{ intros i Hi. apply IB in Hi. lia. }
  unfold block_rows in Ha0.
  assert (QQ := ns_coefs_ok c501 (fR f) kappa (kappa - ix - bdm) (kappa - ix) ltac:(lia) ltac:(lia) bdm vx a bd vx1 tmp2 bd1 ltac:(lia) ltac:(lia) ltac:(lia)).
  edestruct QQ as (Q1 & Q2 & Q3 & _ & Q5); [|exact Ha0|].
  { intros i Hi. replace (kappa - ix - (kappa - ix - bdm + bdm)) with 0 by lia. cbn [residual]. apply V1. apply IB. lia. }
  replace (kappa - ix - bdm + bdm) with (kappa - ix) in Q3, Q5 by lia.
  split; [|split; [assumption|split; [assumption|exact Q5]]]. setf.
  pose proof (mfold_inv (fun t => t = fR f) (ns_R_step fp c kappa (kappa - ix - bdm) vx1 bd1) (block_rows kappa ix bdm) (fR f) a0) as M.
  apply M; auto. intros i t t' I -> E. apply IB in I. unfold ns_R_step in E. rewrite Q3 in E by assumption. now injection E.
Qed.

Lemma ns_pass_idle c501 kappa l : kappa < d -> (forall b, In b l -> fst b + snd b <= kappa) -> forall s f vx tmp bd b s' f' vx' tmp' bd',
  length tmp = kappa -> length bd = kappa ->
  mfold (fun b st => ns_block fp c c501 kappa (fst b) (snd b) st) l (s, f, vx, tmp, bd, b) = Ok (s', f', vx', tmp', bd', false) ->
  b = false /\ fR f' = fR f /\ forall p, In p l -> block_ok c501 (fR f) kappa (kappa - fst p - snd p) (kappa - fst p).
Proof.
  intros Hk. induction l as [|[ix bdm] l IH]; intros HB s f vx tmp bd b s' f' vx' tmp' bd' LT LB H; cbn [mfold] in H.
  - injection H as <- <- <- <- <- ->. repeat split; auto. intros p [].
  - binv H. destruct a as [[[[[s1 f1] v1] t1] b1] sd1]. cbn [fst snd] in Ha.
    assert (sd1 = false) as ->.
    { clear -H. revert s1 f1 v1 t1 b1 sd1 H. induction l as [|q l IH]; intros s1 f1 v1 t1 b1 sd1 H; cbn [mfold] in H; [now injection H|].
      binv H. destruct a as [[[[[s2 f2] v2] t2] b2] sd2]. apply IH in H. subst sd2. eapply ns_block_sd; eauto. }
    pose proof (ns_block_sd _ _ _ _ _ _ _ _ _ _ _ _ _ _ _ Ha) as ->.
    apply ns_block_idle in Ha as (Q1 & Q2 & Q3 & Q4); auto.
    2:{ apply (HB (ix, bdm)). now left. }
    apply IH in H as (_ & P2 & P3); auto.
    2:{ intros p Hp. apply HB. now right. }
    rewrite Q1 in P2, P3. repeat split; auto. intros p [<-|Hp]; auto.
Qed.

Lemma ns_pass_lengths c501 kappa l s f vx tmp bd b s' f' vx' tmp' bd' b' :
  mfold (fun b st => ns_block fp c c501 kappa (fst b) (snd b) st) l (s, f, vx, tmp, bd, b) = Ok (s', f', vx', tmp', bd', b') ->
  length tmp' = length tmp /\ length bd' = length bd.
Proof.
  intros H.
  pose proof (mfold_inv (fun t => length (snd (fst (fst t))) = length tmp /\ length (snd (fst t)) = length bd)
    (fun b st => ns_block fp c c501 kappa (fst b) (snd b) st) l (s, f, vx, tmp, bd, b) (s', f', vx', tmp', bd', b')) as M.
  cbn [fst snd] in M. apply M; auto.
  clear M H. intros p [[[[[s1 f1] v1] t1] b1] d1] [[[[[s2 f2] v2] t2] b2] d2] _ [A B] E. cbn [fst snd] in *.
  unfold ns_block in E. binv E. binv E. destruct a0 as [[[vx1 tmp2] bd1] sd1]. binv E. binv E.
  injection E as <- <- <- <- <- <-.
  assert (LA : length a = length t1).
  { apply (mfold_inv (fun t => length t = length t1)) in Ha; auto. clear. intros i t t' _ E H. binv H. injection H as <-. now rewrite lupd_length. }
  pose proof (mfold_inv (fun t => length (snd (fst (fst t))) = length t1 /\ length (snd (fst t)) = length b1)
    (ns_coefs_step fp c c501 (fR f1) (kappa - fst p - snd p)) (block_rows kappa (fst p) (snd p)) (v1, a, b1, d1) (vx1, tmp2, bd1, sd1)) as M.
  cbn [fst snd] in M. destruct M as [M1 M2]; auto; [|split; congruence].
  intros i [[[v t] bb] x] [[[v' t'] bb'] x'] _ [A1 A2] E. cbn [fst snd] in *. unfold ns_coefs_step in E. binv E. binv E. injection E as <- <- <- <-.
  rewrite lupd_length. split; auto. rewrite <- A1.
  assert (G : forall (y : F) L (t : list F), length (fold_left (fun t k => lupd t k (fsubmul fp (nth k t fz) (mget fz (fR f1) k i) y)) L t) = length t).
  { intros y. induction L as [|k L IH]; intros w; cbn [fold_left]; auto. rewrite IH. now rewrite lupd_length. }
  apply G.
Qed.

Lemma blocks_fst_snd kappa p : In p (seysen_blocks (kappa + 1) 1 0 kappa) -> fst p + snd p <= kappa.
Proof. intros I. apply (seysen_blocks_le (kappa + 1) 0). cbn [Nat.pow]. now rewrite Nat.mod_1_r. Qed.

Lemma blocks_all c501 R kappa :
  (forall p, In p (seysen_blocks (kappa + 1) 1 0 kappa) -> block_ok c501 R kappa (kappa - fst p - snd p) (kappa - fst p)) ->
  blocks_test fp c501 (rfun R) kappa.
Proof.
  intros H t. cbv zeta. intros j Hj.
  assert (T : 2 ^ t <= kappa).
  { destruct (Nat.le_gt_cases (2 ^ t) kappa); auto. rewrite (Nat.mod_small kappa (2 ^ t)) in Hj by lia. lia. }
  pose proof (SeysenTop.blocks_closed kappa (kappa + 1) 0 t) as Q. cbn [Nat.pow] in Q. rewrite Nat.mod_1_r in Q.
  assert (IN := Q ltac:(lia) ltac:(pose proof (Nat.pow_gt_lin_r 2 t ltac:(lia)); lia) T). clear Q.
  apply H in IN. cbn [fst snd] in IN. apply IN.
  assert (MM : kappa mod 2 ^ t <= kappa mod 2 ^ (t + 1)).
  { rewrite Nat.pow_add_r. change (2 ^ 1) with 2. assert (2 ^ t <> 0) by (apply Nat.pow_nonzero; lia). rewrite Nat.mod_mul_r by lia. lia. }
  lia.
Qed.

Lemma ns_loop_cert fuel c501 kappa : kappa < d -> forall s f vx tmp bd s' f',
  fnmax f = nth kappa (iS s) 0 -> length tmp = kappa -> length bd = kappa ->
  ns_loop fp c fuel c501 s f vx tmp bd kappa = Ok (s', f') ->
  keeps kappa s s' /\ keepf kappa f f' /\ blocks_test fp c501 (rfun (fR f')) kappa.
Proof.
  intros Hk. induction fuel as [|fuel IH]; intros s f vx tmp bd s' f' NM LT LB H; cbn [ns_loop] in H; [discriminate|].
  binv H. destruct a as [[[[[s1 f1] v1] t1] b1] sd].
  assert (KK : keeps kappa s s1 /\ keepf kappa f f1).
  { pose proof (mfold_inv (fun t => keeps kappa s (fst (fst (fst (fst (fst t))))) /\ keepf kappa f (snd (fst (fst (fst (fst t))))))
      (fun b st => ns_block fp c c501 kappa (fst b) (snd b) st) (seysen_blocks (kappa + 1) 1 0 kappa) (s, f, vx, tmp, bd, false) (s1, f1, v1, t1, b1, sd)) as M.
    cbn [fst snd] in M. apply M; auto using keeps_refl, keepf_refl.
    intros [ix bdm] [[[[[t g] v] w] bb] x1] [[[[[t' g'] v'] w'] bb'] x2] _ [A B] E. cbn [fst snd] in *.
    apply ns_block_keep in E as [C D]. split; [eapply keeps_trans|eapply keepf_trans]; eauto. }
  destruct KK as [K1 K2]. pose proof (ns_pass_lengths _ _ _ _ _ _ _ _ _ _ _ _ _ _ _ Ha) as [L1 L2].
  destruct sd.
  - binv H. apply householder_r_keep in Ha0 as [K3 K4]. setf.
    assert (KF : keepf kappa f a).
    { split; [eapply keep_trans; [apply K2|exact K3]|]. rewrite K4, NM. destruct K1 as [-> _]. reflexivity. }
    apply IH in H as (Q1 & Q2 & Q3); auto; try congruence.
    split; [eapply keeps_trans; eauto|]. split; [eapply keepf_trans; eauto|exact Q3].
  - injection H as <- <-. split; [assumption|]. split; [assumption|].
    apply ns_pass_idle in Ha as (_ & ER & P); auto using blocks_fst_snd. rewrite ER. now apply blocks_all.
Qed.

(** the certificate of each of the reductions *)
Definition red_cert (c501 : F) (dthr : Z) (s : ist) (R : mat F) (k : nat) : Prop :=
  if (cseysen c <? 1)%Z then size_cert s R k
  else if (dthr <? Z.of_nat k)%Z then blocks_test fp c501 (rfun R) k else True.

Lemma reducep_cert fuel c501 dthr s f kappa s' f' : fwf c f -> sok c s -> 1 <= kappa < d ->
  reducep fp c fuel c501 dthr s f kappa = Ok (s', f', false) ->
  keeps kappa s s' /\ keep kappa (fR f) (fR f') /\ fnmax f' = nth kappa (iS s') 0 /\ red_cert c501 dthr s' (fR f') kappa.
Proof.
  intros W Hs Hk H. unfold reducep in H. unfold red_cert. destruct (_ <? 1)%Z.
  - eapply hsizereduce_cert; eauto.
  - destruct (_ <? _)%Z.
    + unfold newseysenreduce in H. binv H. binv H. destruct a0 as [s2 f2]. injection H as <- <-.
      apply householder_r_keep in Ha as [K1 K2].
      apply ns_loop_cert in Ha0 as (Q1 & (Q2 & Q3) & Q4); auto; try lia; try (now rewrite repeat_length).
      split; [assumption|]. split; [eapply keep_trans; eauto|]. split; [|assumption]. destruct Q1 as [Q1 _]. congruence.
    + apply seysenreduce_keep in H as (Q1 & Q2 & Q3). auto.
Qed.

(** the tests only look at the columns up to k *)
Definition agree (k : nat) (r r' : nat -> nat -> F) : Prop :=
  (forall i j, j < k -> r' i j = r i j) /\ (forall i, i < k -> r' i k = r i k).

Lemma size_test_ext theta r r' k : agree k r r' -> size_test fp theta r k -> size_test fp theta r' k.
Proof.
  intros [A B] [H|H]; [left|right]; intros i Hi; rewrite (A i i), (B i) by assumption; now apply H.
Qed.

Lemma residual_ext r r' k e m i : agree k r r' -> 1 <= k -> e <= k -> i < k -> residual fp r' k e m i = residual fp r k e m i.
Proof.
  intros [A B] Hk He. revert i. induction m as [|m IH]; intros i Hi; [now apply B|].
  rewrite !residual_eq. rewrite !IH by lia. rewrite !A by lia. reflexivity.
Qed.

Lemma blocks_test_ext bound r r' k : agree k r r' -> 1 <= k -> blocks_test fp bound r k -> blocks_test fp bound r' k.
Proof.
  intros A Hk H t a e j Hj. specialize (H t j Hj). fold e in H.
  assert (e <= k) by (unfold e; lia).
  unfold block_coef in *. rewrite (residual_ext r r') by (auto; lia). destruct A as [A _]. rewrite A by lia. exact H.
Qed.

Lemma lovasz_test_ext delta r r' k : agree k r r' -> r' k k = r k k -> 1 <= k -> lovasz_test fp delta r k -> lovasz_test fp delta r' k.
Proof.
  intros [A B] E Hk (s & S1 & S2). exists s. rewrite E, (A (k - 1) (k - 1)), (B (k - 1)) by lia. auto.
Qed.

Lemma size_cert_ext s s' R R' k : nth k (iS s') 0 = nth k (iS s) 0 -> col (iB s') k = col (iB s) k ->
  agree k (rfun R) (rfun R') -> size_cert s R k -> size_cert s' R' k.
Proof.
  intros E1 E2 A H. unfold size_cert, fn, mget in *. rewrite E1, E2. intros P. eapply size_test_ext; [exact A|]. now apply H.
Qed.

Lemma red_cert_ext c501 dthr s s' R R' k : nth k (iS s') 0 = nth k (iS s) 0 -> col (iB s') k = col (iB s) k ->
  agree k (rfun R) (rfun R') -> 1 <= k -> red_cert c501 dthr s R k -> red_cert c501 dthr s' R' k.
Proof.
  intros E1 E2 A Hk H. unfold red_cert in *. destruct (_ <? 1)%Z; [eapply size_cert_ext; eauto|].
  destruct (_ <? _)%Z; auto. eapply blocks_test_ext; eauto.
Qed.

Lemma agree_keep k R R' : (forall j, j <= k -> col R' j = col R j) -> agree k (rfun R) (rfun R') /\ rfun R' k k = rfun R k k.
Proof. intros H. unfold agree, rfun, mget. repeat split; intros; rewrite H by lia; reflexivity. Qed.

(** ** the main loop *)
Definition certified (c501 delta : F) (dthr : Z) (s : ist) (R : mat F) (kappa : nat) : Prop :=
  forall k, 1 <= k < kappa -> lovasz_test fp delta (rfun R) k /\ red_cert c501 dthr s R k.

Lemma certified_ext c501 delta dthr s s' R R' kappa :
  (forall j, j < kappa -> nth j (iS s') 0 = nth j (iS s) 0) -> (forall j, j < kappa -> col (iB s') j = col (iB s) j) ->
  (forall j, j < kappa -> col R' j = col R j) ->
  certified c501 delta dthr s R kappa -> certified c501 delta dthr s' R' kappa.
Proof.
  intros H1 H2 H3 H k Hk. destruct (H k Hk) as [A B]. destruct (agree_keep k R R') as [G1 G2].
  { intros j Hj. apply H3. lia. }
  split; [eapply lovasz_test_ext; eauto; lia|eapply red_cert_ext; [apply H1; lia|apply H2; lia|exact G1|lia|exact B]].
Qed.

Lemma householder_v_R f kappa f' : householder_v fp c f kappa = Ok f' ->
  exists nr rkk, fp_norm fp (skipn kappa (col (fR f) kappa)) (fnmax f - kappa) = Ok nr /\ (rkk = nr \/ rkk = fneg fp nr) /\
    kappa < n /\ kappa < d /\ fR f' = mset (fR f) kappa kappa rkk.
Proof.
  intros H. unfold householder_v in H. binv H. unfold gR in Ha. binv Ha. injection Ha as <-.
  apply andb_true_iff in Hg as [G1 G2]. apply Nat.ltb_lt in G1, G2. binv H. unfold gcol in Ha. binv Ha. injection Ha as <-. binv H. binv H.
  destruct (fle fp fz _); injection H as <-; setf; eauto 10.
Qed.

Lemma lovasz_cert delta s f kappa f' lt nt : wfm n d (fR f) -> 1 <= kappa -> fnmax f = nth kappa (iS s) 0 ->
  lovasz fp c delta s f kappa = Ok (lt, nt) -> fle fp lt nt = true -> householder_v fp c f kappa = Ok f' ->
  keep kappa (fR f) (fR f') /\ agree kappa (rfun (fR f)) (rfun (fR f')) /\ lovasz_test fp delta (rfun (fR f')) kappa.
Proof.
  intros W Hk NM HL LE HV. apply householder_v_R in HV as (nr & rkk & N1 & N2 & Kn & Kd & ->).
  unfold lovasz in HL. binv HL. unfold gR in Ha. binv Ha. injection Ha as <-.
  binv HL. unfold gcol in Ha. binv Ha. injection Ha as <-. binv HL. rewrite <- NM in Ha. rewrite N1 in Ha. injection Ha as <-.
  binv HL. unfold gR in Ha. binv Ha. injection Ha as <-. injection HL as <- <-.
  assert (V : forall i j, rfun (mset (fR f) kappa kappa rkk) i j = if (i =? kappa) && (j =? kappa) then rkk else rfun (fR f) i j).
  { intros i j. unfold rfun. now rewrite (mget_mset fz n d). }
  split; [unfold mset; apply keep_lupd|]. split.
  - split; intros; rewrite V.
    + replace (j =? kappa) with false by (symmetry; apply Nat.eqb_neq; lia). now rewrite andb_false_r.
    + replace (i =? kappa) with false by (symmetry; apply Nat.eqb_neq; lia). reflexivity.
  - exists nr. rewrite !V, Nat.eqb_refl. cbn [andb].
    replace (kappa - 1 =? kappa) with false by (symmetry; apply Nat.eqb_neq; lia). cbn [andb]. split; [exact N2|exact LE].
Qed.

Lemma hlllp_loop_cert fuel c501 delta dthr : forall s f kappa pk pR q s' f' q',
  fwf c (set_nmax 0 f) -> (kappa <> 1 -> fwf c f) -> sok c s -> 1 <= kappa ->
  certified c501 delta dthr s (fR f) kappa ->
  hlllp_loop fp c fuel c501 delta dthr s f kappa pk pR q = Ok (0%Z, s', f', q') ->
  (nblov q' < cnblov_max c)%Z -> certified c501 delta dthr s' (fR f') d.
Proof.
  assert (NMX : forall f : fst_ F, fwf c f -> fwf c (set_nmax 0 f)) by (intros; apply fwf_nmax; auto; lia).
  assert (EX : forall s f kappa s' f' q q', certified c501 delta dthr s (fR f) kappa ->
     negb ((kappa <? d) && (nblov q <? cnblov_max c)%Z) = true -> (nblov q < cnblov_max c)%Z ->
     s' = s -> f' = f -> q' = q -> certified c501 delta dthr s' (fR f') d).
  { intros s f kappa s' f' q q' H E Q -> -> ->. apply negb_true_iff, andb_false_iff in E. rewrite Nat.ltb_ge, Z.ltb_ge in E.
    destruct E as [E|E]; [|lia]. intros k Hk. apply H. lia. }
  induction fuel as [|fuel IH]; intros s f kappa pk pR q s' f' q' W0 W Hs Hk HC H HQ; cbn [hlllp_loop] in H.
  - destruct (negb _) eqn:E; [|discriminate]. injection H as <- <- <-. eauto.
  - destruct (negb _) eqn:E. { injection H as <- <- <-. eauto. }
    clear EX. apply negb_false_iff, andb_true_iff in E. rewrite Nat.ltb_lt, Z.ltb_lt in E. destruct E as [E1 E2].
    binv H. rename a into f1.
    pose proof (hlll_enter_safe fp c ND s f kappa W0 W Hs ltac:(lia)) as W1. rewrite Ha in W1. cbn [safe] in W1.
    assert (C1 : certified c501 delta dthr s (fR f1) kappa).
    { unfold hlll_enter in Ha. destruct (Nat.eqb_spec kappa 1) as [->|NE].
      - intros k Hk1. lia.
      - injection Ha as <-. exact HC. }
    binv H. destruct a as [[s2 f2] failed]. rename Ha0 into RP.
    pose proof (reducep_safe fp c ND (S fuel) c501 dthr s f1 kappa W1 Hs ltac:(lia)) as W2. rewrite RP in W2. destruct W2 as [ES W2].
    cbn [fst snd] in ES, W2.
    destruct failed; [discriminate|].
    apply reducep_cert in RP as ((_ & K1) & K2 & K3 & K4); auto; try lia.
    assert (Hs2 : sok c s2) by (eapply sok_eq; eauto).
    assert (C2 : certified c501 delta dthr s2 (fR f2) kappa).
    { eapply certified_ext; [| | |exact C1]; intros j Hj; [now rewrite ES|apply K1; lia|apply K2; lia]. }
    binv H. destruct a as [lt nt]. destruct (fle fp lt nt) eqn:LE.
    + binv H. rename a into f3. binv H.
      pose proof (householder_v_safe fp c ND f2 kappa W2 ltac:(lia)) as W3. rewrite Ha1 in W3. cbn [safe] in W3.
      destruct (lovasz_cert delta s2 f2 kappa f3 lt nt) as (K5 & K6 & K7); auto; [apply W2|].
      match type of H with context [if ?b then _ else _] => destruct b end; [discriminate|].
      assert (W4 : fwf c (set_desc (if kappa =? 1 then lupd (lupd (fdesc f3) kappa 0) 0 0 else lupd (fdesc f3) kappa 0) f3)).
      { apply fwf_desc; auto. destruct (kappa =? 1); rewrite ?lupd_length; apply W3. }
      eapply IH; [| | | | |exact H|exact HQ]; auto; try lia. setf.
      intros k Hk1. destruct (Nat.eq_dec k kappa) as [->|NE].
      * split; [exact K7|]. eapply red_cert_ext; [| |exact K6|lia|exact K4]; reflexivity.
      * assert (HK : 1 <= k < kappa) by lia. revert k HK NE Hk1.
        assert (C3 : certified c501 delta dthr s2 (fR f3) kappa).
        { eapply certified_ext; [| | |exact C2]; intros j Hj; auto. apply K5; lia. }
        intros k HK _ _. now apply C3.
    + assert (W4 : fwf c (swap_f fp f2 kappa)) by (apply swap_f_fwf; auto; lia).
      eapply IH; [| | | | |exact H|exact HQ]; auto; try lia; [now apply swap_i_sok|].
      unfold swap_f, swap_i. setf. destruct (Nat.eq_dec kappa 1) as [->|NE]; [intros k Hk1; lia|].
      replace (max (kappa - 1) 1) with (kappa - 1) by lia.
      eapply certified_ext with (s := s2) (R := fR f2); cbn [iS iB]; auto.
      * intros j Hj. apply nth_lupd_neq. lia.
      * intros j Hj. unfold colswap. rewrite !col_lupd_neq by lia. reflexivity.
      * intros k Hk1. apply C2. lia.
Qed.

End Frame.

(** ** Objects *)
Section Obj.
Context {F : Type} (fp : fpops F).
Ltac setf := cbn [set_R set_Rk set_V set_Bfp set_VR set_nB2 set_x set_toR set_nmax set_kept set_kmin set_desc
                  fR fRk fV fBfp fVR fnB2 fx ftoR fnmax fkept fkmin fdesc] in *.

Lemma hlllp_cert n d fuel c501 delta dthr junk L L' : d <= n -> lsafe n d L ->
  hlllp fp fuel c501 delta dthr junk L = Ok (0%Z, L') -> (nblov (lc L') < cnblov_max (lcfg L))%Z ->
  certified fp (lcfg L) c501 delta dthr (li L') (fR (lf L')) d /\ lcfg L' = lcfg L.
Proof.
  intros ND (H1 & H2 & H3 & Hs & Hf) H HQ. unfold hlllp in H. binv H. destruct a as [[[r s] f] q]. injection H as -> <-.
  cbn [lc li lf lcfg] in *. split; auto. rewrite <- H2.
  eapply (hlllp_loop_cert fp (lcfg L)) in Ha; auto; try lia.
  - apply (fwf_reset _ _ Hf).
  - intros k Hk. lia.
Qed.

(** hlll, verbose or not, is the loop of hlllp with a threshold that is never passed *)
Lemma hlllp_loop_hlll_v c fuel c501 delta dthr vb : ckmax c = cd c -> (cseysen c < 1)%Z \/ (Z.of_nat (cd c) - 1 <= dthr)%Z ->
  forall s f kappa pk pR q,
  hlll_loop fp c fuel delta vb s f kappa pk pR q =
  match hlllp_loop fp c fuel c501 delta dthr s f kappa pk pR q with
  | Ok (r, s', f', q') => Ok (r, s', f', inc_depth vb q') | UB => UB | NoFuel => NoFuel end.
Proof.
  intros CK H. induction fuel as [|fuel IH]; intros s f kappa pk pR q; cbn [hlllp_loop hlll_loop]; rewrite CK.
  { destruct (negb _); reflexivity. }
  destruct (negb _) eqn:G; [reflexivity|]. apply negb_false_iff, andb_true_iff in G as [G _].
  assert (E : forall f1, reducep fp c (S fuel) c501 dthr s f1 kappa = reduce fp c (S fuel) s f1 kappa).
  { intros f1. unfold reducep, reduce. destruct (Z.ltb_spec (cseysen c) 1); [reflexivity|].
    apply Nat.ltb_lt in G. replace (dthr <? Z.of_nat kappa)%Z with false; [reflexivity|]. symmetry. apply Z.ltb_ge. lia. }
  destruct (hlll_enter fp c s f kappa) as [f1| |]; cbn [bind]; auto. rewrite E.
  destruct (reduce fp c (S fuel) s f1 kappa) as [[[s2 f2] failed]| |]; cbn [bind]; auto.
  destruct failed; [reflexivity|].
  destruct (lovasz fp c delta s2 f2 kappa) as [[lt nt]| |]; cbn [bind]; auto.
  unfold guard. rewrite G. destruct (fle fp lt nt).
  - destruct (householder_v fp c f2 kappa) as [f3| |]; cbn [bind]; auto.
    destruct (gR fp c (fR f3) kappa kappa) as [rkk| |]; cbn [bind]; auto.
    destruct (_ && _)%bool; [reflexivity|]. apply IH.
  - apply IH.
Qed.

Lemma hlll_cert n d fuel delta vb junk L L' : d <= n -> lsafe n d L ->
  hlll fp fuel delta vb junk L = Ok (0%Z, L') -> (nblov (lc L') < cnblov_max (lcfg L))%Z ->
  certified fp (lcfg L) delta delta (Z.of_nat d) (li L') (fR (lf L')) d /\ lcfg L' = lcfg L.
Proof.
  intros ND (H1 & H2 & H3 & Hs & Hf) H HQ. unfold hlll in H. binv H. destruct a as [[[r s] f] q]. injection H as -> <-.
  rewrite (hlllp_loop_hlll_v _ fuel delta delta (Z.of_nat d)) in Ha by (try right; lia).
  destruct (hlllp_loop _ _ _ _ _ _ _ _ _ _ _ _) as [[[[r s1] f1] q1]| |] eqn:E; try discriminate. injection Ha as -> <- <- <-.
  cbn [lc li lf lcfg] in *. split; auto. rewrite <- H2 in *.
  eapply (hlllp_loop_cert fp (lcfg L)) in E; auto; try lia.
  - apply (fwf_reset _ _ Hf).
  - intros k Hk. lia.
  - destruct vb; exact HQ.
Qed.

End Obj.
