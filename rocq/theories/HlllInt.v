(** * hlll refines the elementary integer steps, for every floating point *)
From Coq Require Import ZArith Lia List Bool Arith Relations.
From Coq Require Import ZifyBool ZifyNat.
From Verif Require Import Base Spec Mat FP Hlll IntSteps.
Import ListNotations.

Ltac binv H :=
  match type of H with
  | bind _ _ = Ok _ =>
      let a := fresh "a" in let Ha := fresh "Ha" in
      apply bind_Ok in H; destruct H as (a & Ha & H)
  | guard _ _ = Ok _ =>
      let Hg := fresh "Hg" in
      apply guard_Ok in H; destruct H as [Hg H]
  end.

(** ** Row slices *)
Section Slices.
Local Open Scope nat_scope.

Lemma slice_beg_0 m S : 1 <= S -> slice_beg m S 0 = 0.
Proof.
  intros HS. unfold slice_beg. rewrite Nat.mul_0_r, Nat.add_0_l.
  destruct (0 + 1 <=? m mod S) eqn:E; [reflexivity|]. apply Nat.leb_gt in E. lia.
Qed.

Lemma slice_beg_S m S l : 1 <= S -> slice_beg m S (l + 1) = slice_beg m S l + slice_len m S l.
Proof.
  intros HS. unfold slice_beg, slice_len.
  destruct (l + 1 + 1 <=? m mod S) eqn:E1; destruct (l + 1 <=? m mod S) eqn:E2;
    repeat match goal with
           | H : (_ <=? _) = true |- _ => apply Nat.leb_le in H
           | H : (_ <=? _) = false |- _ => apply Nat.leb_gt in H
           end; nia.
Qed.

Lemma slice_beg_last m S : 1 <= S -> slice_beg m S S = m.
Proof.
  intros HS. unfold slice_beg.
  pose proof (Nat.mod_upper_bound m S). pose proof (Nat.div_mod m S).
  destruct (S + 1 <=? m mod S) eqn:E; [apply Nat.leb_le in E; lia|]. lia.
Qed.

Lemma slice_beg_mono m S l l' : 1 <= S -> l <= l' -> slice_beg m S l <= slice_beg m S l'.
Proof.
  intros HS H. induction H as [|l' H IH]; [lia|].
  replace (Datatypes.S l') with (l' + 1) by lia. rewrite slice_beg_S by assumption. lia.
Qed.

Lemma slice_end m S l : 1 <= S -> l < S -> slice_beg m S l + slice_len m S l <= m.
Proof.
  intros HS Hl. rewrite <- slice_beg_S by assumption.
  rewrite <- (slice_beg_last m S HS) at 2. apply slice_beg_mono; lia.
Qed.

End Slices.

Section Refine.
Context {F : Type} (fp : fpops F) (c : cfg).
Notation n := (cn c).
Notation d := (cd c).
Hypothesis EX : expo_nonneg fp.

(** the integer multiple applied by [bop] *)
Definition bcoef (lx expo xz : Z) : Z :=
  (if (expo =? 0)%Z then
    if (lx =? 1)%Z then 1
    else if (lx =? -1)%Z then -1
    else if clong c then lx else xz
  else if clong c then lx * 2 ^ expo else xz)%Z.

Lemma bop_redf lx expo xz v w : (0 <= expo)%Z -> bop c lx expo xz v w = redf (bcoef lx expo xz) v w.
Proof.
  intros He. unfold bop, bcoef, redf.
  destruct (expo =? 0)%Z eqn:E0.
  - destruct (lx =? 1)%Z; [ring|]. destruct (lx =? -1)%Z; [ring|]. destruct (clong c); ring.
  - destruct (clong c); [|ring]. rewrite Z.shiftl_mul_pow2 by assumption. ring.
Qed.

Lemma colop_bop lx expo xz b l M j k : (0 <= expo)%Z ->
  colop 0%Z (bop c lx expo xz) b l M j k = colop 0%Z (redf (bcoef lx expo xz)) b l M j k.
Proof. intros H. apply colop_ext. intros. now apply bop_redf. Qed.

(** *** size_update *)
Lemma size_update_step_int kappa i s f b s' f' b' :
  i < kappa -> kappa < d ->
  size_update_step fp c kappa i (s, f, b) = Ok (s', f', b') -> isteps c s s'.
Proof.
  intros Hi Hk H. unfold size_update_step in H. binv H. binv H.
  destruct (fnz fp _).
  - destruct (fgse fp _) as [lx expo] eqn:E.
    assert (He : (0 <= expo)%Z).
    { pose proof (EX (frnd fp (fdiv fp a a0))) as P. rewrite E in P. exact P. }
    binv H. injection H as <- <- <-.
    rewrite !colop_bop by assumption.
    apply rt_step. now apply is_red.
  - injection H as <- <- <-. apply rt_refl.
Qed.

Lemma size_update_int kappa from s f s' f' b' :
  from < kappa -> kappa < d ->
  size_update fp c s f kappa from = Ok (s', f', b') -> isteps c s s'.
Proof.
  intros Hf Hk H. unfold size_update in H.
  pose proof (mfold_inv (fun t => isteps c s (fst (fst t))) (size_update_step fp c kappa)
                (down from 0) (s, f, false) (s', f', b')) as M.
  cbn in M. apply M; auto.
  - intros i [[t1 f1] b1] [[t2 f2] b2] Hin Ht Hs. cbn in *. apply in_down in Hin.
    eapply rt_trans; [exact Ht|]. eapply size_update_step_int; [| |exact Hs]; lia.
  - apply rt_refl.
Qed.

(** *** psize_update_B *)
Definition updx (vx : list F) (i : nat) (v w : Z) : Z :=
  let xf := nth i vx (fzero fp) in
  if fnz fp xf then bop c (fst (fgse fp xf)) (snd (fgse fp xf)) (fset_f fp xf) v w else v.

Lemma psize_thread_step_eq kappa vx ibeg nloc i B :
  psize_thread_step fp c kappa vx ibeg nloc i B =
  if fnz fp (nth i vx (fzero fp)) then colop 0%Z (updx vx i) ibeg nloc B kappa i else B.
Proof.
  unfold psize_thread_step, updx. destruct (fnz fp _) eqn:E; [|reflexivity].
  destruct (fgse fp _) as [lx expo] eqn:G. cbn. reflexivity.
Qed.

Lemma thread_wfm kappa vx ibeg nloc is B : wfm n d B ->
  wfm n d (fold_left (fun B i => psize_thread_step fp c kappa vx ibeg nloc i B) is B).
Proof.
  revert B. induction is as [|i is IH]; intros B W; cbn; [assumption|].
  apply IH. rewrite psize_thread_step_eq. destruct (fnz fp _); [now apply wfm_colop|assumption].
Qed.

Lemma thread_get kappa vx ibeg nloc is B r j :
  wfm n d B -> kappa < d -> r < n -> (forall i, In i is -> i < kappa) ->
  mget 0%Z (fold_left (fun B i => psize_thread_step fp c kappa vx ibeg nloc i B) is B) r j =
  if ((j =? kappa) && ((ibeg <=? r) && (r <? ibeg + nloc)))%bool
  then fold_left (fun v i => updx vx i v (mget 0%Z B r i)) is (mget 0%Z B r kappa)
  else mget 0%Z B r j.
Proof.
  revert B. induction is as [|i is IH]; intros B W Hk Hr Hin; cbn [fold_left].
  - destruct (_ && _)%bool eqn:E; [|reflexivity]. apply andb_true_iff in E as [E _].
    apply Nat.eqb_eq in E. now subst.
  - set (B1 := psize_thread_step fp c kappa vx ibeg nloc i B).
    assert (W1 : wfm n d B1).
    { unfold B1. rewrite psize_thread_step_eq. destruct (fnz fp _); [now apply wfm_colop|assumption]. }
    assert (G : forall q, mget 0%Z B1 r q =
       if ((q =? kappa) && ((ibeg <=? r) && (r <? ibeg + nloc)))%bool
       then updx vx i (mget 0%Z B r kappa) (mget 0%Z B r i) else mget 0%Z B r q).
    { intros q. unfold B1. rewrite psize_thread_step_eq. destruct (fnz fp _) eqn:E.
      - now rewrite (mget_colop 0%Z _ n d).
      - unfold updx. rewrite E. destruct ((q =? kappa) && _)%bool eqn:E2; [|reflexivity].
        apply andb_true_iff in E2 as [E2 _]. apply Nat.eqb_eq in E2. now subst. }
    rewrite IH; auto; [|intros; apply Hin; now right].
    destruct ((j =? kappa) && _)%bool eqn:E.
    + rewrite (G kappa). rewrite Nat.eqb_refl. apply andb_true_iff in E as [_ E]. rewrite E. cbn [andb].
      assert (X : forall is0 v, (forall i, In i is0 -> i < kappa) ->
         fold_left (fun v i => updx vx i v (mget 0%Z B1 r i)) is0 v =
         fold_left (fun v i => updx vx i v (mget 0%Z B r i)) is0 v).
      { induction is0 as [|p is0 IH0]; intros v Hp; cbn; [reflexivity|].
        rewrite (G p). assert (p < kappa) by (apply Hp; now left).
        replace (p =? kappa) with false by lia. cbn [andb]. apply IH0. intros; apply Hp; now right. }
      apply X. intros; apply Hin; now right.
    + rewrite (G j), E. reflexivity.
Qed.

Lemma threads_wfm kappa from vx nmax S B ls : wfm n d B ->
  wfm n d (fold_left (fun B l => psize_thread fp c kappa from vx nmax S l B) ls B).
Proof.
  revert B. induction ls as [|l ls IH]; intros B W; cbn; [assumption|].
  apply IH. now apply thread_wfm.
Qed.

Lemma threads_get kappa from vx nmax S B m r j :
  1 <= S -> m <= S -> wfm n d B -> from < kappa -> kappa < d -> r < n ->
  mget 0%Z (fold_left (fun B l => psize_thread fp c kappa from vx nmax S l B) (seq 0 m) B) r j =
  if ((j =? kappa) && (r <? slice_beg nmax S m))%bool
  then fold_left (fun v i => updx vx i v (mget 0%Z B r i)) (down from 0) (mget 0%Z B r kappa)
  else mget 0%Z B r j.
Proof.
  intros HS Hm W Hf Hk Hr. induction m as [|m IH] in Hm, j |- *.
  - cbn [seq fold_left]. rewrite slice_beg_0 by assumption.
    replace (r <? 0) with false by lia. now rewrite andb_false_r.
  - rewrite seq_S, fold_left_app. cbn [fold_left Nat.add].
    unfold psize_thread at 1.
    assert (Hin : forall i, In i (down from 0) -> i < kappa).
    { intros i Hi. apply in_down in Hi. lia. }
    rewrite thread_get; auto; [|now apply threads_wfm].
    replace (Datatypes.S m) with (m + 1) by lia. rewrite slice_beg_S by assumption.
    destruct (j =? kappa) eqn:Ej; cbn [andb].
    2:{ rewrite IH by lia. rewrite Ej. reflexivity. }
    apply Nat.eqb_eq in Ej. subst j.
    destruct (r <? slice_beg nmax S m) eqn:E1.
    + replace (slice_beg nmax S m <=? r) with false by lia. cbn [andb].
      rewrite IH by lia. rewrite Nat.eqb_refl. cbn [andb].
      replace (r <? slice_beg nmax S m + slice_len nmax S m) with true by lia. reflexivity.
    + replace (slice_beg nmax S m <=? r) with true by lia. cbn [andb].
      destruct (r <? slice_beg nmax S m + slice_len nmax S m) eqn:E2.
      * assert (X : forall is v, (forall i, In i is -> i < kappa) ->
          fold_left (fun v i => updx vx i v (mget 0%Z (fold_left (fun B l => psize_thread fp c kappa from vx nmax S l B) (seq 0 m) B) r i)) is v =
          fold_left (fun v i => updx vx i v (mget 0%Z B r i)) is v).
        { induction is as [|p is IHp]; intros v Hp; cbn [fold_left]; [reflexivity|].
          rewrite IH by lia. assert (p < kappa) by (apply Hp; now left).
          replace (p =? kappa) with false by lia. cbn [andb]. apply IHp. intros; apply Hp; now right. }
        rewrite X by assumption. rewrite IH by lia. rewrite Nat.eqb_refl. reflexivity.
      * rewrite IH by lia. rewrite Nat.eqb_refl. reflexivity.
Qed.

(** all threads together = one pass over the full rows [0, nmax) *)
Lemma threads_seq kappa from vx nmax S B :
  1 <= S -> wfm n d B -> from < kappa -> kappa < d ->
  fold_left (fun B l => psize_thread fp c kappa from vx nmax S l B) (seq 0 S) B =
  fold_left (fun B i => psize_thread_step fp c kappa vx 0 nmax i B) (down from 0) B.
Proof.
  intros HS W Hf Hk. apply (mat_ext 0%Z n d).
  - now apply threads_wfm.
  - now apply thread_wfm.
  - intros r j Hr Hj. rewrite threads_get by (auto; lia).
    rewrite thread_get; auto.
    + rewrite slice_beg_last by assumption. cbn [Nat.leb andb]. rewrite Nat.add_0_l. reflexivity.
    + intros i Hi. apply in_down in Hi. lia.
Qed.

Lemma fold_max_ge is (S : list nat) m i : (In i is \/ nth i S 0 <= m) ->
  nth i S 0 <= fold_left (fun m i => max m (nth i S 0)) is m.
Proof.
  revert m. induction is as [|p is IH]; intros m H; cbn [fold_left].
  - destruct H as [[]|H]; lia.
  - apply IH. destruct H as [[->|H]|H]; [right; lia|now left|right; lia].
Qed.

Lemma psize_int_steps kappa vx nmax is s :
  wfm n d (iB s) -> kappa < d -> (forall i, In i is -> i < kappa /\ nth i (iS s) 0 <= nmax) ->
  istepsP c s (mkI (fold_left (fun B i => psize_thread_step fp c kappa vx 0 nmax i B) is (iB s)) (iU s) (iS s)).
Proof.
  revert s. induction is as [|i is IH]; intros s W Hk Hin; cbn [fold_left].
  - destruct s. apply rt_refl.
  - set (s1 := mkI (psize_thread_step fp c kappa vx 0 nmax i (iB s)) (iU s) (iS s)).
    assert (St : istepsP c s s1).
    { unfold s1, psize_thread_step. destruct (fnz fp _).
      - destruct (fgse fp _) as [lx expo] eqn:E.
        assert (He : (0 <= expo)%Z).
        { pose proof (EX (nth i vx (fzero fp))) as P. rewrite E in P. exact P. }
        rewrite colop_bop by assumption. apply rt_step. right.
        apply is_redP; auto; apply Hin; now left.
      - destruct s. apply rt_refl. }
    eapply rt_trans; [exact St|].
    apply (IH s1); auto.
    + unfold s1. cbn. change (psize_thread_step fp c kappa vx 0 nmax i (iB s)) with
        (fold_left (fun B i => psize_thread_step fp c kappa vx 0 nmax i B) [i] (iB s)). now apply thread_wfm.
    + intros p Hp. apply Hin. now right.
Qed.

Lemma psize_update_B_int kappa from vx s s' :
  wfm n d (iB s) -> from < kappa -> kappa < d ->
  psize_update_B fp c s kappa from vx = Ok s' -> istepsP c s s'.
Proof.
  intros W Hf Hk H. unfold psize_update_B in H. binv H. injection H as <-.
  destruct (Nat.eq_dec (cS c) 0) as [E|E].
  - rewrite E. cbn. destruct s. apply rt_refl.
  - rewrite threads_seq by (auto; lia). apply psize_int_steps; auto.
    intros i Hi. apply in_down in Hi. split; [lia|].
    unfold psize_nmax. apply fold_max_ge. left. apply in_down. lia.
Qed.

(** *** hsizereduce *)
Definition parallel_possible : Prop := cS c <> 1.

Lemma hs_pass_int s f vx kappa start s' f' vx' b :
  wfm n d (iB s) -> start < kappa -> kappa < d ->
  hs_pass fp c s f vx kappa start = Ok (s', f', vx', b) ->
  istepsP c s s' /\ (cS c = 1 -> isteps c s s').
Proof.
  intros Hb Hs Hk H. unfold hs_pass in H.
  destruct ((cS c =? 1) || _)%bool eqn:E.
  - binv H. destruct a as [[s1 f1] sd]. injection H as <- <- <- <-.
    assert (isteps c s s1) by (eapply size_update_int; [exact Hs|exact Hk|exact Ha]).
    split; [now apply isteps_P|auto].
  - binv H. destruct a as [[f1 vx1] sd]. binv H. injection H as <- <- <- <-.
    split.
    + eapply psize_update_B_int; [| | |exact Ha0]; auto.
    + intros E1. rewrite E1 in E. discriminate.
Qed.

Lemma isteps_bok s t : istepsP c s t -> bok c s -> bok c t.
Proof. intros H Hb. now apply (istepsP_bok c s t H Hb). Qed.
Lemma istep_wf s t : istep c s t \/ istepP c s t -> wfm n d (iB s) -> wfm n d (iB t).
Proof.
  intros [[s0 k i a ? ?|s0 k ?]|[s0 k i a r ? ? ?]] W; unfold swap_i; cbn [iB].
  - now apply wfm_colop.
  - apply wfm_colswap; [assumption|lia|lia].
  - now apply wfm_colop.
Qed.
Lemma isteps_wf s t : istepsP c s t -> wfm n d (iB s) -> wfm n d (iB t).
Proof. induction 1 as [x y H|x|x y z _ H1 _ H2]; eauto using istep_wf. Qed.

Lemma hs_loop_int fuel s f vx pn kappa start s' f' b :
  wfm n d (iB s) -> start < kappa -> kappa < d ->
  hs_loop fp c fuel s f vx pn kappa start = Ok (s', f', b) ->
  istepsP c s s' /\ (cS c = 1 -> isteps c s s').
Proof.
  revert s f vx pn. induction fuel as [|fuel IH]; intros s f vx pn Hb Hs Hk H; cbn [hs_loop] in H; [discriminate|].
  binv H. destruct a as [[[s1 f1] vx1] sd].
  destruct (hs_pass_int _ _ _ _ _ _ _ _ _ Hb Hs Hk Ha) as [P1 P2].
  destruct sd.
  - binv H.
    match type of H with context [if ?q then _ else _] => destruct q end.
    + binv H. injection H as <- <- <-. auto.
    + apply IH in H as [Q1 Q2]; auto.
      * split; [eapply istepsP_trans; eauto|]. intros E. eapply isteps_trans; eauto.
      * eapply isteps_wf; eauto.
  - injection H as <- <- <-. auto.
Qed.

Lemma householder_r_dim s f kappa f' : householder_r fp c s f kappa = Ok f' -> kappa < d.
Proof. unfold householder_r. intros H. binv H. now apply Nat.ltb_lt. Qed.

Lemma hs_start_lt kappa fromk : 1 <= kappa -> hs_start kappa fromk < kappa.
Proof. intros H. unfold hs_start. destruct (0 <? fromk); lia. Qed.

Lemma hsizereduce_int fuel s f kappa fromk s' f' b :
  wfm n d (iB s) -> 1 <= kappa ->
  hsizereduce fp c fuel s f kappa fromk = Ok (s', f', b) ->
  istepsP c s s' /\ (cS c = 1 -> isteps c s s').
Proof.
  intros Hb Hk H. unfold hsizereduce in H. binv H.
  eapply hs_loop_int; [exact Hb| | |exact H]; [now apply hs_start_lt | eapply householder_r_dim; exact Ha].
Qed.

(** *** seysenreduce *)
Lemma seysen_update_step_int kappa restdim i s f vx b s' f' vx' b' :
  i < kappa -> kappa < d ->
  seysen_update_step fp c kappa restdim i (s, f, vx, b) = Ok (s', f', vx', b') -> isteps c s s'.
Proof.
  intros Hi Hk H. unfold seysen_update_step in H.
  destruct (fnz fp _).
  - destruct (fgse fp _) as [lx expo] eqn:E.
    assert (He : (0 <= expo)%Z).
    { pose proof (EX (frnd fp (nth i vx (fzero fp)))) as P. rewrite E in P. exact P. }
    binv H. injection H as <- <- <- <-.
    rewrite !colop_bop by assumption.
    apply rt_step. now apply is_red.
  - injection H as <- <- <- <-. apply rt_refl.
Qed.

Lemma block_rows_lt kappa dec b i : dec + b <= kappa -> In i (block_rows kappa dec b) -> i < kappa.
Proof. intros H Hi. unfold block_rows in Hi. apply in_rev in Hi. apply in_seq in Hi. lia. Qed.

Lemma block_rows_lt' kappa dec b i : dec + b <= kappa \/ b = 0 -> In i (block_rows kappa dec b) -> i < kappa.
Proof. intros [H|H] Hi; unfold block_rows in Hi; apply in_rev in Hi; apply in_seq in Hi; lia. Qed.

Lemma seysen_block_int kappa dec bdim s f vx tmp b s' f' vx' tmp' b' :
  dec + bdim <= kappa -> kappa < d ->
  seysen_block fp c kappa dec bdim (s, f, vx, tmp, b) = Ok (s', f', vx', tmp', b') -> isteps c s s'.
Proof.
  intros Hd Hk H. unfold seysen_block in H. binv H. binv H. destruct a0 as [vx1 tmp2].
  destruct ((cS c =? 1) || _)%bool.
  - binv H. destruct a0 as [[[s1 f1] vx2] sd]. injection H as <- <- <- <- <-.
    pose proof (mfold_inv (fun t => isteps c s (fst (fst (fst t)))) (seysen_update_step fp c kappa (kappa - dec - bdim))
                (block_rows kappa dec bdim) (s, f, vx1, false) (s1, f1, vx2, sd)) as M.
    cbn in M. apply M; auto.
    + intros i [[[t1 g1] w1] b1] [[[t2 g2] w2] b2] Hin Ht Hs. cbn in *.
      eapply rt_trans; [exact Ht|]. eapply seysen_update_step_int; [| |exact Hs]; [|lia].
      eapply block_rows_lt; eauto.
    + apply rt_refl.
  - injection H as <- <- <- <- <-. apply rt_refl.
Qed.

(** the blocks never exceed the column: dec + bdim <= kappa.  With ld = 2^e and
    dec = kappa mod 2^e. *)
Lemma seysen_blocks_le fuel e kappa b :
  In b (seysen_blocks fuel (2 ^ e) (kappa mod 2 ^ e) kappa) -> fst b + snd b <= kappa.
Proof.
  revert e. induction fuel as [|fuel IH]; intros e H; [destruct H|].
  cbn [seysen_blocks] in H.
  destruct (2 ^ e <=? kappa) eqn:E; [|destruct H].
  apply Nat.leb_le in E.
  assert (P : 2 ^ e <> 0) by (apply Nat.pow_nonzero; lia).
  pose proof (Nat.div_mod kappa (2 ^ e) P) as D1.
  assert (D2 : kappa mod 2 ^ (e + 1) = kappa mod 2 ^ e + 2 ^ e * ((kappa / 2 ^ e) mod 2)).
  { rewrite Nat.pow_add_r. cbn [Nat.pow Nat.mul]. rewrite Nat.add_0_r.
    rewrite Nat.mod_mul_r by lia. reflexivity. }
  pose proof (Nat.mod_upper_bound (kappa / 2 ^ e) 2 ltac:(lia)) as M2.
  pose proof (Nat.mod_le kappa (2 ^ (e + 1)) ltac:(apply Nat.pow_nonzero; lia)) as M3.
  destruct H as [<-|H]; cbn [fst snd].
  - destruct ((kappa / 2 ^ e) mod 2 =? 0) eqn:E0; [lia|]. nia.
  - replace (2 ^ e * 2) with (2 ^ (e + 1)) in H by (rewrite Nat.pow_add_r; reflexivity).
    apply (IH (e + 1)). rewrite D2.
    destruct ((kappa / 2 ^ e) mod 2 =? 0) eqn:E0.
    + apply Nat.eqb_eq in E0. rewrite E0, Nat.mul_0_r. exact H.
    + apply Nat.eqb_neq in E0. replace ((kappa / 2 ^ e) mod 2) with 1 by lia. now rewrite Nat.mul_1_r.
Qed.

Lemma seysen_pass_int s f vx tmp kappa s' f' vx' tmp' b :
  kappa < d -> seysen_pass fp c s f vx tmp kappa = Ok (s', f', vx', tmp', b) -> isteps c s s'.
Proof.
  intros Hk H. unfold seysen_pass in H.
  pose proof (mfold_inv (fun t => isteps c s (fst (fst (fst (fst t)))))
     (fun b st => seysen_block fp c kappa (fst b) (snd b) st)
     (seysen_blocks (kappa + 1) 1 0 kappa) (s, f, vx, tmp, false) (s', f', vx', tmp', b)) as M.
  cbn in M. apply M; auto.
  - intros [dec bd] [[[[t1 g1] w1] u1] b1] [[[[t2 g2] w2] u2] b2] Hin Ht Hs. cbn in *.
    eapply rt_trans; [exact Ht|]. eapply seysen_block_int; [| |exact Hs]; [|lia].
    change (fst (dec, bd) + snd (dec, bd) <= kappa).
    apply (seysen_blocks_le (kappa + 1) 0). cbn [Nat.pow]. rewrite Nat.mod_1_r. exact Hin.
  - apply rt_refl.
Qed.

Lemma seysen_loop_int fuel s f vx tmp n0 n1 kappa s' f' :
  kappa < d -> seysen_loop fp c fuel s f vx tmp n0 n1 kappa = Ok (s', f') -> isteps c s s'.
Proof.
  revert s f vx tmp n0 n1. induction fuel as [|fuel IH]; intros s f vx tmp n0 n1 Hk H; cbn [seysen_loop] in H; [discriminate|].
  binv H. destruct a as [[[[s1 f1] vx1] tmp1] sd].
  apply seysen_pass_int in Ha; [|assumption].
  destruct sd.
  - binv H.
    match type of H with context [if ?q then _ else _] => destruct q end.
    + binv H. binv H. injection H as <- <-. assumption.
    + apply IH in H; auto. eapply isteps_trans; eauto.
  - injection H as <- <-. assumption.
Qed.

Lemma seysenreduce_int fuel s f kappa s' f' b :
  seysenreduce fp c fuel s f kappa = Ok (s', f', b) -> isteps c s s'.
Proof.
  intros H. unfold seysenreduce in H. binv H. binv H. destruct a0 as [s2 f2]. injection H as <- <- <-.
  eapply seysen_loop_int; [|exact Ha0]. eapply householder_r_dim; eauto.
Qed.

(** *** hlll *)
Lemma reduce_int fuel s f kappa s' f' b :
  wfm n d (iB s) -> 1 <= kappa -> reduce fp c fuel s f kappa = Ok (s', f', b) ->
  istepsP c s s' /\ ((cS c = 1 \/ (1 <= cseysen c)%Z) -> isteps c s s').
Proof.
  intros Hb Hk H. unfold reduce in H. destruct (cseysen c <? 1)%Z eqn:E.
  - apply hsizereduce_int in H as [P Q]; auto. split; [assumption|].
    intros [G|G]; [auto|lia].
  - apply seysenreduce_int in H. split; [now apply isteps_P|auto].
Qed.

Definition sequential : Prop := cS c = 1 \/ (1 <= cseysen c)%Z.

Lemma hlll_loop_int fuel delta vb s f kappa pk pR q r s' f' q' :
  wfm n d (iB s) -> 1 <= kappa ->
  hlll_loop fp c fuel delta vb s f kappa pk pR q = Ok (r, s', f', q') ->
  istepsP c s s' /\ (sequential -> isteps c s s').
Proof.
  revert s f kappa pk pR q. induction fuel as [|fuel IH]; intros s f kappa pk pR q Hb Hk H.
  - cbn [hlll_loop] in H. destruct (negb _); [|discriminate]. injection H as <- <- <- <-.
    split; [|intros _]; apply rt_refl.
  - cbn [hlll_loop] in H. destruct (negb _).
    { injection H as <- <- <- <-. split; [|intros _]; apply rt_refl. }
    binv H. binv H. destruct a0 as [[s2 f2] failed].
    apply reduce_int in Ha0 as [P Q]; auto.
    destruct failed.
    { injection H as <- <- <- <-. auto. }
    binv H. destruct a0 as [lt nt].
    assert (Hb2 : wfm n d (iB s2)) by (eapply isteps_wf; eauto).
    destruct (fle fp lt nt).
    + binv H. binv H. binv H.
      match type of H with context [if ?b then _ else _] => destruct b end.
      * injection H as <- <- <- <-. auto.
      * apply IH in H as [P' Q']; auto; [|lia].
        split; [eapply istepsP_trans; eauto|]. intros E. eapply isteps_trans; eauto.
    + binv H. apply Nat.ltb_lt in Hg.
      assert (St : istep c s2 (swap_i c s2 kappa)) by (apply is_swap; lia).
      assert (Hb3 : wfm n d (iB (swap_i c s2 kappa))) by (apply (istep_wf s2); auto).
      apply IH in H as [P' Q']; auto; [|lia].
      split.
      * eapply rt_trans; [exact P|]. eapply rt_trans; [|exact P']. apply rt_step. now left.
      * intros E. eapply rt_trans; [apply Q, E|]. eapply rt_trans; [|apply Q', E]. now apply rt_step.
Qed.

End Refine.
