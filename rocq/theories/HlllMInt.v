(** * hlll over any floating-point matrix class refines the elementary integer steps *)
From Coq Require Import ZArith Lia List Bool Arith Relations.
From Coq Require Import ZifyBool ZifyNat.
From Verif Require Import Base Spec Mat FP Hlll IntSteps HlllInt HlllM.
Import ListNotations.

(** [get_si_exp] never returns a negative exponent *)
Definition gse_nonneg {F} (so : sops F) : Prop :=
  forall a lx e, s_gse so a = Ok (lx, e) -> (0 <= e)%Z.

Section Refine.
Context {F M : Type} (so : sops F) (mo : mops F M) (c : cfg).
Notation n := (cn c).
Notation d := (cd c).
Hypothesis EX : gse_nonneg so.

Lemma g_size_update_step_int kappa i s f b s' f' b' :
  i < kappa -> kappa < d ->
  g_size_update_step so mo c kappa i (s, f, b) = Ok (s', f', b') -> isteps c s s'.
Proof.
  intros Hi Hk H. unfold g_size_update_step in H. do 5 binv H.
  destruct a3.
  - binv H. destruct a3 as [lx expo]. apply EX in Ha4.
    binv H. binv H. binv H. injection H as <- <- <-.
    rewrite !colop_bop by assumption.
    apply rt_step. now apply is_red.
  - injection H as <- <- <-. apply rt_refl.
Qed.

Lemma g_size_update_int kappa from s f s' f' b' :
  from < kappa -> kappa < d ->
  g_size_update so mo c s f kappa from = Ok (s', f', b') -> isteps c s s'.
Proof.
  intros Hf Hk H. unfold g_size_update in H.
  pose proof (mfold_inv (fun t => isteps c s (fst (fst t))) (g_size_update_step so mo c kappa)
                (down from 0) (s, f, false) (s', f', b')) as Q.
  cbn in Q. apply Q; auto.
  - intros i [[t1 f1] b1] [[t2 f2] b2] Hin Ht Hs. cbn in *. apply in_down in Hin.
    eapply rt_trans; [exact Ht|]. eapply g_size_update_step_int; [| |exact Hs]; lia.
  - apply rt_refl.
Qed.

(** the triples used by psize_update_B have nonnegative exponents *)
Definition tmax (t : trip) : trip :=
  let '(b, (lx, e), z) := t in (b, (lx, Z.max 0 e), z).
Definition tfp' : fpops trip :=
  mk_fpops trip t0 t0 t0 t0 t0 (fun a _ => a) (fun a _ => a) (fun a _ => a) (fun a _ => a)
    (fun a => a) (fun a => a) (fun a => a) (fun a => a) (fun a _ _ => a) (fun a _ _ => a)
    (fun _ _ => false) (fun _ _ => false) (fun _ _ => false)
    (fun t => fst (fst t)) (fun _ => t0) (fun t => snd (fst (tmax t))) (fun t => snd t).

Lemma tfp'_expo : expo_nonneg tfp'.
Proof. intros [[b [lx e]] z]. cbn. lia. Qed.

Definition tok (t : trip) : Prop := (0 <= snd (snd (fst t)))%Z.

Lemma psize_thread_step_t kappa ts ib nl i B : tok (nth i ts t0) ->
  psize_thread_step tfp c kappa ts ib nl i B = psize_thread_step tfp' c kappa ts ib nl i B.
Proof.
  intros H. unfold psize_thread_step. cbn [fzero tfp tfp' fnz fgse fset_f].
  destruct (nth i ts t0) as [[b [lx e]] z]. cbn [tok fst snd tmax] in *.
  unfold tok in H; cbn in H. rewrite Z.max_r by assumption. reflexivity.
Qed.

Lemma fold_left_ext_in {A B} (f g : A -> B -> A) l a :
  (forall x b, In b l -> f x b = g x b) -> fold_left f l a = fold_left g l a.
Proof.
  revert a. induction l as [|b l IH]; intros a H; cbn; [reflexivity|].
  rewrite H by (now left). apply IH. intros; apply H; now right.
Qed.

Lemma psize_t s kappa from ts : (forall i, tok (nth i ts t0)) ->
  psize_update_B tfp c s kappa from ts = psize_update_B tfp' c s kappa from ts.
Proof.
  intros H. unfold psize_update_B. f_equal. f_equal. f_equal.
  apply fold_left_ext_in. intros B l _. unfold psize_thread.
  apply fold_left_ext_in. intros B' i _. now apply psize_thread_step_t.
Qed.

Lemma g_trip_tok x t : g_trip so c x = Ok t -> tok t.
Proof.
  unfold g_trip. intros H. binv H. destruct a.
  - binv H. destruct a as [lx e]. binv H. injection H as <-. apply EX in Ha0. exact Ha0.
  - injection H as <-. unfold tok. cbn. lia.
Qed.

Lemma g_psize_update_B_int kappa from vx s s' :
  wfm n d (iB s) -> from < kappa -> kappa < d ->
  g_psize_update_B so c s kappa from vx = Ok s' -> istepsP c s s'.
Proof.
  intros W Hf Hk H. unfold g_psize_update_B in H. binv H.
  assert (T : forall i, tok (nth i a t0)).
  { refine (mfold_inv (fun ts => forall i, tok (nth i ts t0)) _ _ _ _ _ _ Ha).
    - intros p t t' _ Ht Hs i. binv Hs. injection Hs as <-. rewrite nth_lupd.
      destruct ((i =? p) && _)%bool; [|apply Ht]. eapply g_trip_tok; eauto.
    - intros i. unfold tok.
      destruct (Nat.lt_ge_cases i (length vx)).
      + rewrite nth_repeat. cbn. lia.
      + rewrite nth_overflow by (rewrite repeat_length; lia). cbn. lia. }
  rewrite psize_t in H by exact T.
  eapply psize_update_B_int; [apply tfp'_expo| | | |exact H]; auto.
Qed.

Lemma g_hs_pass_int s f vx kappa start s' f' vx' b :
  wfm n d (iB s) -> start < kappa -> kappa < d ->
  g_hs_pass so mo c s f vx kappa start = Ok (s', f', vx', b) ->
  istepsP c s s' /\ (cS c = 1 -> isteps c s s').
Proof.
  intros Hb Hs Hk H. unfold g_hs_pass in H.
  destruct ((cS c =? 1) || _)%bool eqn:E.
  - binv H. destruct a as [[s1 f1] sd]. injection H as <- <- <- <-.
    assert (isteps c s s1) by (eapply g_size_update_int; [exact Hs|exact Hk|exact Ha]).
    split; [now apply isteps_P|auto].
  - binv H. destruct a as [[f1 vx1] sd]. binv H. injection H as <- <- <- <-.
    split.
    + eapply g_psize_update_B_int; [| | |exact Ha0]; auto.
    + intros E1. rewrite E1 in E. discriminate.
Qed.

Lemma g_hs_loop_int fuel s f vx pn kappa start s' f' b :
  wfm n d (iB s) -> start < kappa -> kappa < d ->
  g_hs_loop so mo c fuel s f vx pn kappa start = Ok (s', f', b) ->
  istepsP c s s' /\ (cS c = 1 -> isteps c s s').
Proof.
  revert s f vx pn. induction fuel as [|fuel IH]; intros s f vx pn Hb Hs Hk H; cbn [g_hs_loop] in H; [discriminate|].
  binv H. destruct a as [[[s1 f1] vx1] sd].
  destruct (g_hs_pass_int _ _ _ _ _ _ _ _ _ Hb Hs Hk Ha) as [P1 P2].
  destruct sd.
  - binv H. binv H.
    match type of H with context [if ?q then _ else _] => destruct q end.
    + binv H. binv H. binv H. injection H as <- <- <-. auto.
    + apply IH in H as [Q1 Q2]; auto.
      * split; [eapply istepsP_trans; eauto|]. intros E. eapply isteps_trans; eauto.
      * eapply isteps_wf; eauto.
  - injection H as <- <- <-. auto.
Qed.

Lemma g_householder_r_dim s f kappa f' : g_householder_r so mo c s f kappa = Ok f' -> kappa < d.
Proof using Type. unfold g_householder_r. intros H. binv H. now apply Nat.ltb_lt. Qed.

Lemma g_hsizereduce_int fuel s f kappa fromk s' f' b :
  wfm n d (iB s) -> 1 <= kappa ->
  g_hsizereduce so mo c fuel s f kappa fromk = Ok (s', f', b) ->
  istepsP c s s' /\ (cS c = 1 -> isteps c s s').
Proof.
  intros Hb Hk H. unfold g_hsizereduce in H. binv H.
  eapply g_hs_loop_int; [exact Hb| | |exact H]; [now apply hs_start_lt | eapply g_householder_r_dim; exact Ha].
Qed.

Lemma g_seysen_update_step_int kappa restdim i s f vx b s' f' vx' b' :
  i < kappa -> kappa < d ->
  g_seysen_update_step so mo c kappa restdim i (s, f, vx, b) = Ok (s', f', vx', b') -> isteps c s s'.
Proof.
  intros Hi Hk H. unfold g_seysen_update_step in H. binv H. binv H.
  destruct a0.
  - binv H. destruct a0 as [lx expo]. apply EX in Ha1.
    binv H. binv H. binv H. injection H as <- <- <- <-.
    rewrite !colop_bop by assumption.
    apply rt_step. now apply is_red.
  - injection H as <- <- <- <-. apply rt_refl.
Qed.

Lemma g_seysen_block_int kappa dec bdim s f vx tmp b s' f' vx' tmp' b' :
  dec + bdim <= kappa -> kappa < d ->
  g_seysen_block so mo c kappa dec bdim (s, f, vx, tmp, b) = Ok (s', f', vx', tmp', b') -> isteps c s s'.
Proof.
  intros Hd Hk H. unfold g_seysen_block in H. binv H. binv H. destruct a0 as [vx1 tmp2].
  destruct ((cS c =? 1) || _)%bool.
  - binv H. destruct a0 as [[[s1 f1] vx2] sd]. injection H as <- <- <- <- <-.
    pose proof (mfold_inv (fun t => isteps c s (fst (fst (fst t)))) (g_seysen_update_step so mo c kappa (kappa - dec - bdim))
                (block_rows kappa dec bdim) (s, f, vx1, false) (s1, f1, vx2, sd)) as Q.
    cbn in Q. apply Q; auto.
    + intros i [[[t1 g1] w1] b1] [[[t2 g2] w2] b2] Hin Ht Hs. cbn in *.
      eapply rt_trans; [exact Ht|]. eapply g_seysen_update_step_int; [| |exact Hs]; [|lia].
      eapply block_rows_lt; eauto.
    + apply rt_refl.
  - injection H as <- <- <- <- <-. apply rt_refl.
Qed.

Lemma g_seysen_pass_int s f vx tmp kappa s' f' vx' tmp' b :
  kappa < d -> g_seysen_pass so mo c s f vx tmp kappa = Ok (s', f', vx', tmp', b) -> isteps c s s'.
Proof.
  intros Hk H. unfold g_seysen_pass in H.
  pose proof (mfold_inv (fun t => isteps c s (fst (fst (fst (fst t)))))
     (fun b st => g_seysen_block so mo c kappa (fst b) (snd b) st)
     (seysen_blocks (kappa + 1) 1 0 kappa) (s, f, vx, tmp, false) (s', f', vx', tmp', b)) as Q.
  cbn in Q. apply Q; auto.
  - intros [dec bd] [[[[t1 g1] w1] u1] b1] [[[[t2 g2] w2] u2] b2] Hin Ht Hs. cbn in *.
    eapply rt_trans; [exact Ht|]. eapply g_seysen_block_int; [| |exact Hs]; [|lia].
    change (fst (dec, bd) + snd (dec, bd) <= kappa).
    apply (seysen_blocks_le (kappa + 1) 0). cbn [Nat.pow]. rewrite Nat.mod_1_r. exact Hin.
  - apply rt_refl.
Qed.

Lemma g_seysen_loop_int fuel s f vx tmp n0 n1 kappa s' f' :
  kappa < d -> g_seysen_loop so mo c fuel s f vx tmp n0 n1 kappa = Ok (s', f') -> isteps c s s'.
Proof.
  revert s f vx tmp n0 n1. induction fuel as [|fuel IH]; intros s f vx tmp n0 n1 Hk H; cbn [g_seysen_loop] in H; [discriminate|].
  binv H. destruct a as [[[[s1 f1] vx1] tmp1] sd].
  apply g_seysen_pass_int in Ha; [|assumption].
  destruct sd.
  - binv H. binv H.
    match type of H with context [if ?q then _ else _] => destruct q end.
    + binv H. binv H. injection H as <- <-. assumption.
    + apply IH in H; auto. eapply isteps_trans; eauto.
  - injection H as <- <-. assumption.
Qed.

Lemma g_seysenreduce_int fuel s f kappa s' f' b :
  g_seysenreduce so mo c fuel s f kappa = Ok (s', f', b) -> isteps c s s'.
Proof.
  intros H. unfold g_seysenreduce in H. binv H. binv H. destruct a0 as [s2 f2]. injection H as <- <- <-.
  eapply g_seysen_loop_int; [|exact Ha0]. eapply g_householder_r_dim; eauto.
Qed.

Lemma g_reduce_int fuel s f kappa s' f' b :
  wfm n d (iB s) -> 1 <= kappa -> g_reduce so mo c fuel s f kappa = Ok (s', f', b) ->
  istepsP c s s' /\ ((cS c = 1 \/ (1 <= cseysen c)%Z) -> isteps c s s').
Proof.
  intros Hb Hk H. unfold g_reduce in H. destruct (cseysen c <? 1)%Z eqn:E.
  - apply g_hsizereduce_int in H as [P Q]; auto. split; [assumption|].
    intros [G|G]; [auto|lia].
  - apply g_seysenreduce_int in H. split; [now apply isteps_P|auto].
Qed.

Lemma g_hlll_loop_int fuel delta vb s f kappa pk pR sv q r s' f' q' :
  wfm n d (iB s) -> 1 <= kappa ->
  g_hlll_loop so mo c fuel delta vb s f kappa pk pR sv q = Ok (r, s', f', q') ->
  istepsP c s s' /\ (sequential c -> isteps c s s').
Proof.
  revert s f kappa pk pR sv q. induction fuel as [|fuel IH]; intros s f kappa pk pR sv q Hb Hk H.
  - cbn [g_hlll_loop] in H. destruct (negb _); [|discriminate]. injection H as <- <- <- <-.
    split; [|intros _]; apply rt_refl.
  - cbn [g_hlll_loop] in H. destruct (negb _).
    { injection H as <- <- <- <-. split; [|intros _]; apply rt_refl. }
    binv H. binv H. destruct a0 as [[s2 f2] failed].
    apply g_reduce_int in Ha0 as [P Q]; auto.
    destruct failed.
    { injection H as <- <- <- <-. auto. }
    binv H. destruct a0 as [[lt nt] sv'].
    assert (Hb2 : wfm n d (iB s2)) by (eapply isteps_wf; eauto).
    destruct (s_le so lt nt).
    + binv H. binv H. binv H.
      match type of H with context [if ?b then _ else _] => destruct b end.
      * injection H as <- <- <- <-. auto.
      * apply IH in H as [P' Q']; auto; [|lia].
        split; [eapply istepsP_trans; eauto|]. intros E. eapply isteps_trans; eauto.
    + binv H. apply Nat.ltb_lt in Hg. binv H.
      assert (St : istep c s2 (swap_i c s2 kappa)) by (apply is_swap; lia).
      assert (Hb3 : wfm n d (iB (swap_i c s2 kappa))) by (apply (istep_wf c s2); auto).
      apply IH in H as [P' Q']; auto; [|lia].
      split.
      * eapply rt_trans; [exact P|]. eapply rt_trans; [|exact P']. apply rt_step. now left.
      * intros E. eapply rt_trans; [apply Q, E|]. eapply rt_trans; [|apply Q', E]. now apply rt_step.
Qed.

End Refine.
