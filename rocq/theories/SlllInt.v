(** * The integer side of [SLattice::hlll]: the basis is the padded input times a unimodular matrix *)
From Coq Require Import ZArith Lia List Bool Arith Relations.
From Coq Require Import ZifyBool ZifyNat.
From Verif Require Import Base Spec Mat FP Hlll Hlll2 IntSteps HlllInt Structure UOnly Object Slll.
Import ListNotations.

Lemma Okinj {A} (a b : A) : Ok a = Ok b -> a = b.
Proof. congruence. Qed.

Lemma mfold_seq_inv {A} (P : nat -> A -> Prop) (g : nat -> A -> res A) m a a' :
  (forall k t t', k < m -> P k t -> g k t = Ok t' -> P (S k) t') ->
  P 0 a -> mfold g (seq 0 m) a = Ok a' -> P m a'.
Proof.
  intros Hg H0.
  assert (G : forall l k t, k + l = m -> P k t -> mfold g (seq k l) t = Ok a' -> P m a').
  { induction l as [|l IH]; intros k t E Hk H.
    - cbn in H. injection H as <-. now replace m with k by lia.
    - cbn [seq mfold] in H. apply bind_Ok in H as (t1 & Ht & H).
      apply (IH (S k) t1); [lia| |assumption]. apply (Hg k t); auto; lia. }
  apply (G m 0 a); auto.
Qed.

(** ** A square block inside the identity *)
Section Embed.
Local Open Scope Z_scope.

Definition embed (sh k : nat) (V : zmat) : zmat := fun i j =>
  if ((sh <=? i) && (i <? sh + k) && (sh <=? j) && (j <? sh + k))%nat%bool
  then V (i - sh)%nat (j - sh)%nat else mid i j.

Lemma embed_in sh k V i j : (i < k)%nat -> (j < k)%nat -> embed sh k V (sh + i)%nat (sh + j)%nat = V i j.
Proof.
  intros Hi Hj. unfold embed.
  replace ((sh <=? sh + i) && (sh + i <? sh + k) && (sh <=? sh + j) && (sh + j <? sh + k))%nat%bool with true by lia.
  f_equal; lia.
Qed.

Lemma mul_embed d sh k M V i j : (sh + k <= d)%nat -> (j < d)%nat ->
  mmul d M (embed sh k V) i j =
  if ((sh <=? j) && (j <? sh + k))%nat%bool
  then sumZ k (fun l => M i (sh + l)%nat * V l (j - sh)%nat) else M i j.
Proof.
  intros Hd Hj. unfold mmul. destruct ((sh <=? j) && (j <? sh + k))%nat%bool eqn:E.
  - replace d with (sh + (k + (d - sh - k)))%nat by lia.
    rewrite sumZ_split, sumZ_split.
    rewrite (sumZ_0 sh).
    2:{ intros l Hl. unfold embed. replace (sh <=? l)%nat with false by lia. cbn [andb]. rewrite mid_neq by lia. ring. }
    rewrite (sumZ_0 (d - sh - k)).
    2:{ intros l Hl. unfold embed. replace (sh + (k + l) <? sh + k)%nat with false by lia.
        rewrite andb_false_r. cbn [andb]. rewrite mid_neq by lia. ring. }
    rewrite Z.add_0_l, Z.add_0_r. apply sumZ_ext. intros l Hl. f_equal.
    replace j with (sh + (j - sh))%nat at 1 by lia. rewrite embed_in by lia. reflexivity.
  - rewrite (sumZ_single d j); [|assumption|].
    + unfold embed. rewrite <- !andb_assoc, E, !andb_false_r, mid_eq. ring.
    + intros l _ N. unfold embed. rewrite <- !andb_assoc, E, !andb_false_r, mid_neq by assumption. ring.
Qed.

Lemma embed_mul d sh k V W : (sh + k <= d)%nat ->
  meq d d (mmul d (embed sh k V) (embed sh k W)) (embed sh k (mmul k V W)).
Proof.
  intros Hd i j Hi Hj. rewrite mul_embed by assumption. unfold embed at 3.
  destruct ((sh <=? j) && (j <? sh + k))%nat%bool eqn:E.
  - rewrite <- !andb_assoc, E, andb_true_r.
    destruct ((sh <=? i) && (i <? sh + k))%nat%bool eqn:Ei.
    + unfold mmul. apply sumZ_ext. intros l Hl. f_equal.
      replace i with (sh + (i - sh))%nat at 1 by lia. now rewrite embed_in by lia.
    + rewrite sumZ_0; [now rewrite mid_neq by lia|]. intros l Hl. unfold embed. rewrite Ei. cbn [andb].
      rewrite mid_neq by lia. ring.
  - rewrite <- !andb_assoc, E, !andb_false_r. unfold embed. rewrite <- !andb_assoc, E, !andb_false_r. reflexivity.
Qed.

Lemma embed_ext d sh k V W : (sh + k <= d)%nat -> meq k k V W -> meq d d (embed sh k V) (embed sh k W).
Proof.
  intros Hd H i j Hi Hj. unfold embed.
  destruct ((sh <=? i) && (i <? sh + k) && (sh <=? j) && (j <? sh + k))%nat%bool eqn:E; [|reflexivity]. apply H; lia.
Qed.

Lemma embed_mid d sh k : meq d d (embed sh k mid) mid.
Proof.
  intros i j Hi Hj. unfold embed.
  destruct ((sh <=? i) && (i <? sh + k) && (sh <=? j) && (j <? sh + k))%nat%bool eqn:E; [|reflexivity].
  unfold mid. destruct (Nat.eqb_spec i j) as [->|N]; [now rewrite Nat.eqb_refl|].
  replace (i - sh =? j - sh)%nat with false by lia. reflexivity.
Qed.

Lemma unimodular_embed d sh k V : (sh + k <= d)%nat -> unimodular k V -> unimodular d (embed sh k V).
Proof.
  intros Hd (W & H1 & H2). exists (embed sh k W). split.
  - eapply meq_trans; [now apply embed_mul|]. eapply meq_trans; [|apply embed_mid].
    now apply embed_ext.
  - eapply meq_trans; [now apply embed_mul|]. eapply meq_trans; [|apply embed_mid].
    now apply embed_ext.
Qed.
End Embed.

(** ** Row-sliced column updates with any coefficient function *)
Section Slices.
Variables (n d : nat) (act : nat -> bool) (h : nat -> Z -> Z -> Z) (kappa : nat) (rows : list nat).
Hypothesis Hk : kappa < d.
Hypothesis Hin : forall i, In i rows -> i < kappa.

Definition gthread (is : list nat) (ibeg nloc : nat) (B : mat Z) : mat Z :=
  fold_left (fun B i => if act i then B else colop 0%Z (h i) ibeg nloc B kappa i) is B.
Definition hval (is : list nat) (B : mat Z) (r : nat) (v : Z) : Z :=
  fold_left (fun v i => if act i then v else h i v (mget 0%Z B r i)) is v.

Lemma gthread_wfm is ibeg nloc B : wfm n d B -> wfm n d (gthread is ibeg nloc B).
Proof.
  unfold gthread. revert B. induction is as [|i is IH]; intros B W; cbn [fold_left]; [assumption|].
  apply IH. destruct (act i); [assumption|now apply wfm_colop].
Qed.

Lemma hval_ext is B C r v : (forall i, In i is -> mget 0%Z B r i = mget 0%Z C r i) -> hval is B r v = hval is C r v.
Proof.
  unfold hval. revert v. induction is as [|i is IH]; intros v H; cbn [fold_left]; [reflexivity|].
  rewrite (H i) by now left. apply IH. intros; apply H; now right.
Qed.

Lemma gthread_get is ibeg nloc B r j : wfm n d B -> r < n -> (forall i, In i is -> i < kappa) ->
  mget 0%Z (gthread is ibeg nloc B) r j =
  if ((j =? kappa) && ((ibeg <=? r) && (r <? ibeg + nloc)))%bool then hval is B r (mget 0%Z B r kappa) else mget 0%Z B r j.
Proof.
  revert B. induction is as [|i is IH]; intros B W Hr Hi.
  - unfold gthread, hval. cbn [fold_left]. destruct (_ && _)%bool eqn:E; [|reflexivity]. f_equal. lia.
  - set (B1 := if act i then B else colop 0%Z (h i) ibeg nloc B kappa i).
    assert (W1 : wfm n d B1) by (unfold B1; destruct (act i); [assumption|now apply wfm_colop]).
    change (gthread (i :: is) ibeg nloc B) with (gthread is ibeg nloc B1).
    assert (Ik : i < kappa) by (apply Hi; now left).
    assert (Hi' : forall i, In i is -> i < kappa) by (intros; apply Hi; now right).
    rewrite IH by assumption.
    assert (G : forall q, mget 0%Z B1 r q = if ((q =? kappa) && ((ibeg <=? r) && (r <? ibeg + nloc)) && negb (act i))%bool
       then h i (mget 0%Z B r kappa) (mget 0%Z B r i) else mget 0%Z B r q).
    { intros q. unfold B1. destruct (act i); cbn [negb]; [now rewrite andb_false_r|].
      rewrite andb_true_r. now rewrite (mget_colop 0%Z _ n d) by assumption. }
    destruct ((j =? kappa) && _)%bool eqn:E.
    + rewrite (G kappa), Nat.eqb_refl. apply andb_true_iff in E as [_ E]. rewrite E. cbn [andb].
      rewrite (hval_ext is B1 B r).
      2:{ intros p Hp. rewrite (G p). specialize (Hi' p Hp). replace (p =? kappa) with false by lia. reflexivity. }
      unfold hval at 2. cbn [fold_left]. unfold hval. destruct (act i); reflexivity.
    + rewrite (G j). rewrite E. reflexivity.
Qed.

Lemma gthreads_get nmax S B m r j : 1 <= S -> m <= S -> wfm n d B -> r < n ->
  mget 0%Z (fold_left (fun B l => gthread rows (slice_beg nmax S l) (slice_len nmax S l) B) (seq 0 m) B) r j =
  if ((j =? kappa) && (r <? slice_beg nmax S m))%bool then hval rows B r (mget 0%Z B r kappa) else mget 0%Z B r j.
Proof.
  intros HS Hm W Hr. revert j. induction m as [|m IH]; intros j.
  - cbn [seq fold_left]. rewrite slice_beg_0 by assumption. replace (r <? 0) with false by lia. now rewrite andb_false_r.
  - rewrite seq_S, fold_left_app. cbn [fold_left Nat.add].
    set (B1 := fold_left _ (seq 0 m) B) in *.
    assert (W1 : wfm n d B1).
    { unfold B1. clear - W. revert B W. induction (seq 0 m) as [|l ls IH]; intros B W; cbn [fold_left]; [assumption|].
      apply IH. now apply gthread_wfm. }
    specialize (IH ltac:(lia)).
    rewrite gthread_get by assumption.
    replace (Datatypes.S m) with (m + 1) by lia. rewrite slice_beg_S by assumption.
    destruct (j =? kappa) eqn:Ej; cbn [andb].
    2:{ rewrite IH. rewrite Ej. reflexivity. }
    assert (j = kappa) by lia. subst j.
    assert (X : hval rows B1 r (mget 0%Z B r kappa) = hval rows B r (mget 0%Z B r kappa)).
    { apply hval_ext. intros i Hi. rewrite IH. specialize (Hin i Hi). now replace (i =? kappa) with false by lia. }
    rewrite !IH, Nat.eqb_refl. cbn [andb].
    destruct (r <? slice_beg nmax S m) eqn:E1.
    + replace (slice_beg nmax S m <=? r) with false by lia. cbn [andb].
      now replace (r <? slice_beg nmax S m + slice_len nmax S m) with true by lia.
    + replace (slice_beg nmax S m <=? r) with true by lia. cbn [andb].
      destruct (r <? slice_beg nmax S m + slice_len nmax S m) eqn:E2; [assumption|reflexivity].
Qed.

(** all slices together = one pass over the rows [0, nmax) *)
Lemma gthreads_seq nmax S B : 1 <= S -> wfm n d B ->
  fold_left (fun B l => gthread rows (slice_beg nmax S l) (slice_len nmax S l) B) (seq 0 S) B = gthread rows 0 nmax B.
Proof.
  intros HS W. apply (mat_ext 0%Z n d).
  - clear - W. revert B W. induction (seq 0 S) as [|l ls IH]; intros B W; cbn [fold_left]; [assumption|].
    apply IH. now apply gthread_wfm.
  - now apply gthread_wfm.
  - intros r j Hr Hj. rewrite gthreads_get by (auto; lia). rewrite gthread_get by auto.
    rewrite slice_beg_last by assumption. reflexivity.
Qed.
End Slices.

Section SL.
Context {F : Type} (fp : fpops F) (f0001 f501 fgap : F) (fmul2 : F -> Z -> F).
Hypothesis EX : expo_nonneg fp.
Notation fz := (fzero fp).

Lemma EXs : expo_nonneg (fp_s fp f0001).
Proof. exact EX. Qed.

Section C.
Variable c : cfg.
Notation n := (cn c).
Notation d := (cd c).

(** *** Seysen *)
Lemma ss_update_step_int kappa restdim vx bd i s f s' f' : i < kappa -> kappa < d ->
  ss_update_step fp c kappa restdim vx bd i (s, f) = Ok (s', f') -> isteps c s s'.
Proof.
  intros Hi Hk H. unfold ss_update_step in H. destruct (nth i bd true).
  - injection H as <- <-. apply rt_refl.
  - destruct (fgse fp (nth i vx fz)) as [lx expo] eqn:E.
    assert (He : (0 <= expo)%Z) by (pose proof (EX (nth i vx fz)) as P; rewrite E in P; exact P).
    binv H. injection H as <- <-. rewrite !colop_bop by assumption. apply rt_step. now apply is_red.
Qed.

Lemma ss_pupdate_int s f kappa from restdim rows vx bd s' :
  wfm n d (iB s) -> kappa < d -> (forall i, In i rows -> i < kappa /\ restdim <= i <= from + 1) -> 
  ss_pupdate_B fp c s f kappa from restdim rows vx bd = Ok s' -> istepsP c s s'.
Proof.
  intros W Hk Hr H. unfold ss_pupdate_B in H. binv H. assert (E0 := f_equal (fun r => match r with Ok a => a | _ => s end) H). cbv beta iota in E0. subst s'. clear H.
  assert (E : forall b l B, ss_thread fp c (fx f) kappa rows vx bd b l B =
     gthread (fun i => nth i bd true) (fun i => bop c (fst (fgse fp (nth i vx fz))) (snd (fgse fp (nth i vx fz))) (fset_f fp (fx f)))
       kappa rows b l B).
  { intros b l B. unfold ss_thread, gthread. generalize B. induction rows as [|i is IH]; intros B0; cbn [fold_left]; [reflexivity|].
    rewrite IH by (intros; apply Hr; now right). f_equal. destruct (nth i bd true); [reflexivity|].
    destruct (fgse fp (nth i vx fz)). reflexivity. }
  match goal with |- context [fold_left ?g (seq 0 2) (iB s)] =>
    replace (fold_left g (seq 0 2) (iB s)) with
      (fold_left (fun B l => gthread (fun i => nth i bd true)
         (fun i => bop c (fst (fgse fp (nth i vx fz))) (snd (fgse fp (nth i vx fz))) (fset_f fp (fx f)))
         kappa rows (slice_beg (ss_nmax s from restdim) 2 l) (slice_len (ss_nmax s from restdim) 2 l) B) (seq 0 2) (iB s))
  end.
  2:{ cbn [seq fold_left]. now rewrite !E. }
  rewrite (gthreads_seq n d) by (auto; try lia; intros i Hi; now apply Hr).
  unfold gthread.
  assert (G : forall is t, (forall i, In i is -> i < kappa /\ nth i (iS t) 0 <= ss_nmax s from restdim) ->
    istepsP c t (mkI (fold_left (fun B i => if nth i bd true then B else
       colop 0%Z (bop c (fst (fgse fp (nth i vx fz))) (snd (fgse fp (nth i vx fz))) (fset_f fp (fx f))) 0 (ss_nmax s from restdim) B kappa i) is (iB t)) (iU t) (iS t))).
  { induction is as [|i is IH]; intros t Hi; cbn [fold_left].
    - destruct t. apply rt_refl.
    - destruct (nth i bd true).
      + apply IH. intros; apply Hi; now right.
      + rewrite colop_bop by apply EX.
        set (t1 := mkI (colop 0%Z (redf (bcoef c (fst (fgse fp (nth i vx fz))) (snd (fgse fp (nth i vx fz))) (fset_f fp (fx f)))) 0
                          (ss_nmax s from restdim) (iB t) kappa i) (iU t) (iS t)).
        eapply rt_trans; [|apply (IH t1); intros p Hp; apply Hi; now right].
        apply rt_step. right. apply is_redP; try assumption; apply Hi; now left. }
  apply G. intros i Hi. destruct (Hr i Hi) as [H1 H2]. split; [assumption|].
  unfold ss_nmax. apply fold_max_ge. left. apply in_down. lia.
Qed.

Lemma ss_block_int kappa dec bdim s f vx tmp bd dn s' f' vx' tmp' bd' dn' :
  wfm n d (iB s) -> dec + bdim <= kappa -> kappa < d ->
  ss_block fp f501 c kappa dec bdim (s, f, vx, tmp, bd, dn) = Ok (s', f', vx', tmp', bd', dn') -> istepsP c s s'.
Proof.
  intros W Hd Hk H. unfold ss_block in H. binv H. binv H. destruct a0 as [[[vx1 tmp2] bd1] dn1].
  destruct (bdim <=? 255).
  - binv H. destruct a0 as [s1 f1]. injection H as <- <- <- <- <- <-.
    match type of Ha1 with mfold ?g ?l ?x = _ =>
      pose proof (mfold_inv (fun t => isteps c s (fst t)) g l x (s1, f1)) as M end.
    cbn in M. apply isteps_P. apply M; auto.
    + intros i [t1 g1] [t2 g2] Hin Ht Hs. cbn in *. eapply rt_trans; [exact Ht|].
      eapply ss_update_step_int; [| |exact Hs]; [|lia]. eapply block_rows_lt; eauto.
    + apply rt_refl.
  - binv H. binv H. injection H as <- <- <- <- <- <-.
    eapply ss_pupdate_int; [exact W|exact Hk| |exact Ha2].
    intros i Hi. split; [eapply block_rows_lt; eauto|].
    unfold block_rows in Hi. apply in_rev, in_seq in Hi. lia.
Qed.

Lemma ss_pass_int s f vx tmp bd kappa s' f' vx' tmp' bd' b : wfm n d (iB s) ->
  kappa < d -> ss_pass fp f501 c s f vx tmp bd kappa = Ok (s', f', vx', tmp', bd', b) -> istepsP c s s'.
Proof.
  intros W Hk H. unfold ss_pass in H.
  match type of H with mfold ?g ?l ?x = _ =>
    pose proof (mfold_inv (fun t => istepsP c s (fst (fst (fst (fst (fst t)))))) g l x (s', f', vx', tmp', bd', b)) as M end.
  cbn in M. apply M; auto.
  - intros [dec bdm] [[[[[t1 g1] w1] u1] x1] b1] [[[[[t2 g2] w2] u2] x2] b2] Hin Ht Hs. cbn in *.
    eapply rt_trans; [exact Ht|]. eapply ss_block_int; [| | |exact Hs]; [eapply isteps_wf; eauto| |lia].
    change (fst (dec, bdm) + snd (dec, bdm) <= kappa).
    apply (seysen_blocks_le (kappa + 1) 0). cbn [Nat.pow]. rewrite Nat.mod_1_r. exact Hin.
  - apply rt_refl.
Qed.

Lemma ss_loop_int fuel s f vx tmp bd kappa s' f' : wfm n d (iB s) -> kappa < d ->
  ss_loop fp f501 c fuel s f vx tmp bd kappa = Ok (s', f') -> istepsP c s s'.
Proof.
  revert s f vx tmp bd. induction fuel as [|fuel IH]; intros s f vx tmp bd W Hk H; cbn [ss_loop] in H; [discriminate|].
  binv H. destruct a as [[[[[s1 f1] vx1] tmp1] bd1] sd].
  apply ss_pass_int in Ha; auto. destruct sd.
  - binv H. apply IH in H; auto; [eapply istepsP_trans; eauto|eapply isteps_wf; eauto].
  - injection H as <- <-. assumption.
Qed.

Lemma ss_seysen_int fuel s f kappa s' f' : wfm n d (iB s) ->
  ss_seysenreduce fp f501 c fuel s f kappa = Ok (s', f') -> istepsP c s s'.
Proof.
  intros W H. unfold ss_seysenreduce in H. binv H. eapply ss_loop_int; [exact W| |exact H].
  eapply householder_r_dim; eauto.
Qed.

Lemma sl_size_int fuel s f i s' f' : wfm n d (iB s) -> 1 <= i ->
  sl_size fp f0001 f501 c fuel s f i = Ok (s', f') -> istepsP c s s'.
Proof.
  intros W Hi H. unfold sl_size in H. destruct (cseysen c <? 1)%Z.
  - binv H. destruct a as [[s1 f1] b]. injection H as <- <-.
    eapply (hsizereduce_int (fp_s fp f0001) c EXs) in Ha; auto. apply Ha.
  - eapply ss_seysen_int; eauto.
Qed.

Lemma sl_gap_loop_int fuel dorig is s f g s' f' : wfm n d (iB s) -> (forall i, In i is -> 1 <= i) ->
  sl_gap_loop fp f0001 f501 fgap c fuel dorig is s f = Ok (g, s', f') -> istepsP c s s'.
Proof.
  revert s f. induction is as [|i is IH]; intros s f W Hi H; cbn [sl_gap_loop] in H.
  - injection H as <- <- <-. apply rt_refl.
  - binv H. destruct a as [s1 f1]. apply sl_size_int in Ha; [|assumption|apply Hi; now left].
    assert (W1 : wfm n d (iB s1)) by (eapply isteps_wf; eauto).
    assert (Hi' : forall i, In i is -> 1 <= i) by (intros; apply Hi; now right).
    binv H. destruct (_ && _)%bool.
    + binv H. binv H. destruct (fcmp1 fp fgap _).
      * injection H as <- <- <-. assumption.
      * eapply istepsP_trans; [exact Ha|]. eapply IH; eauto.
    + eapply istepsP_trans; [exact Ha|]. eapply IH; eauto.
Qed.

Lemma sl_reduce_gap_int fuel dorig s f g s' f' : wfm n d (iB s) ->
  sl_reduce_gap fp f0001 f501 fgap c fuel dorig s f = Ok (g, s', f') -> istepsP c s s'.
Proof.
  intros W H. unfold sl_reduce_gap in H. binv H. binv H.
  eapply sl_gap_loop_int; [exact W| |exact H]. intros i Hi. apply in_seq in Hi. lia.
Qed.

(** *** The structure stays constant *)
Definition cst (r : nat) (s : ist) : Prop := forall i, i < d -> nth i (iS s) 0 = r.

Lemma istepsP_cst r s t : istepsP c s t -> length (iS s) = d -> cst r s -> length (iS t) = d /\ cst r t.
Proof using Type.
  clear EX f0001 f501 fgap fmul2.
  induction 1 as [x y H|x|x y z _ H1 _ H2]; intros L C.
  - destruct H as [H|H]; [destruct H as [s k i a ? ?|s k Hk]|destruct H as [s k i a q ? ? ?]]; try (split; [exact L|exact C]).
    split; unfold swap_i; [cbn [iS]; now rewrite lupd_length|].
    intros i Hi. cbn [iS]. rewrite nth_lupd. destruct (_ && _)%bool; apply C; lia.
  - auto.
  - destruct (H1 L C). auto.
Qed.

(** the invariant: [P] is the padded input matrix *)
Definition sinv (P : zmat) (r : nat) (s : ist) : Prop :=
  bok c s /\ cst r s /\ exists V, unimodular d V /\ meq n d (fn (iB s)) (mmul d P V).

Lemma sinv_steps P r s t : istepsP c s t -> sinv P r s -> sinv P r t.
Proof using Type.
  clear EX f0001 f501 fgap fmul2.
  intros St (Hb & Hc & V & UV & EV). destruct (istepsP_bok c s t St Hb) as (Hb' & W & UW & EW).
  split; [assumption|]. split; [apply (istepsP_cst r s t St); [apply Hb|assumption]|].
  exists (mmul d V W). split; [now apply unimodular_mul|].
  eapply meq_trans; [exact EW|]. apply mmul_mul_r. apply mmul_ext; [assumption|apply meq_refl].
Qed.

Lemma sinv_mul P r s B U E : sinv P r s -> wfm n d B -> unimodular d E ->
  meq n d (fn B) (mmul d (fn (iB s)) E) -> sinv P r (mkI B U (iS s)).
Proof using Type.
  clear EX f0001 f501 fgap fmul2.
  intros (Hb & Hc & V & UV & EV) W UE HE. split; [|split; [exact Hc|]].
  - split; cbn [iB iS]; try apply Hb; try assumption.
    intros j Hj i Hi. rewrite HE by lia. unfold mmul. apply sumZ_0. intros l Hl.
    rewrite (b_zero c s Hb l Hl i); [ring|]. rewrite Hc in * by assumption. lia.
  - cbn [iB]. exists (mmul d V E). split; [now apply unimodular_mul|].
    eapply meq_trans; [exact HE|]. apply mmul_mul_r. apply mmul_ext; [assumption|apply meq_refl].
Qed.

Lemma sinv_U P r s U : sinv P r s -> sinv P r (mkI (iB s) U (iS s)).
Proof using Type.
  clear EX f0001 f501 fgap fmul2.
  intros H. apply (sinv_mul P r s (iB s) U mid); auto; [apply H|apply unimodular_id|apply meq_sym, mmul_id_r].
Qed.

(** *** The block reductions *)
Lemma sl_RZ_diag cb R RZ : sl_RZ fp fmul2 c cb R = Ok RZ ->
  forall i j, i < d -> j < d -> (j < i -> fn RZ i j = 0%Z) /\ (i = j -> fn RZ i j <> 0%Z).
Proof.
  intros H i j Hi Hj. unfold sl_RZ in H. binv H. binv H. injection H as <-. rewrite fn_mtab by assumption. split.
  - intros L. now replace (j <? i) with true by lia.
  - intros ->. rewrite Nat.ltb_irrefl, Nat.eqb_refl. cbn [andb].
    match goal with |- context [(?x =? 0)%Z] => destruct (Z.eqb_spec x 0) end; [discriminate|assumption].
Qed.

Definition blk (U : zmat) (sdim sh : nat) : zmat := fun i j => U (sh + i) (sh + j).

Lemma sl_block_red_U fuel delta junk Jb lovmax RZ sdim off odd k U sw q t U' sw' q' t' :
  (forall i, i < d -> fn RZ i i <> 0%Z) ->
  sl_block_red fp c fuel delta junk Jb lovmax RZ sdim off odd k (U, sw, q, t) = Ok (U', sw', q', t') ->
  unimodular sdim (blk (fn U') sdim (k * sdim + off)) /\ k * sdim + off + sdim <= d /\
  forall i j, i < d -> j < d -> (i < k * sdim + off \/ j < k * sdim + off) -> fn U' i j = fn U i j.
Proof.
  intros D H. unfold sl_block_red in H. binv H. destruct a as [[Uk nsw] nlov]. binv H. binv H.
  injection H as <- <- <- <-. unfold sl_block_out in Ha. binv Ha. binv Ha. destruct a1 as [r BR'].
  apply Okinj in Ha. injection Ha as <- <- <-. unfold sl_getblock in Ha1. binv Ha1. apply Okinj in Ha1. subst a0.
  unfold sl_putblock in Ha0. binv Ha0. injection Ha0 as <-.
  assert (L : k * sdim + off + sdim <= d) by lia.
  rename Ha2 into Ha0.
  eapply (hlll_U fp EX) in Ha0.
  - destruct Ha0 as (E & _ & _ & _ & _ & UU). cbn in E.
    split; [|split; [assumption|]].
    + eapply unimodular_ext; [|exact UU]. intros i j Hi Hj. unfold blk.
      cbn in Hi, Hj. rewrite fn_mtab by lia.
      match goal with |- context [if ?b then _ else _] => replace b with true by lia end.
      f_equal; lia.
    + intros i j Hi Hj O. rewrite fn_mtab by assumption.
      match goal with |- context [if ?b then _ else _] => replace b with false by lia end. reflexivity.
  - reflexivity.
  - cbn. apply mtab_wfm.
  - cbn. apply sok_structure.
    intros j Hj. exists j, j. split; [lia|]. split; [lia|]. rewrite fn_mtab by assumption. apply D. lia.
  - reflexivity.
Qed.

Lemma sl_blocks_U fuel delta junk Jb lovmax RZ sdim off odd nb U sw q t U' sw' q' t' :
  (forall i, i < d -> fn RZ i i <> 0%Z) ->
  mfold (sl_block_red fp c fuel delta junk Jb lovmax RZ sdim off odd) (seq 0 nb) (U, sw, q, t) = Ok (U', sw', q', t') ->
  forall k, k < nb -> unimodular sdim (blk (fn U') sdim (k * sdim + off)) /\ k * sdim + off + sdim <= d.
Proof.
  intros D H.
  pose proof (mfold_seq_inv (fun m (st : bacc) => forall k, k < m ->
     unimodular sdim (blk (fn (fst (fst (fst st)))) sdim (k * sdim + off)) /\ k * sdim + off + sdim <= d)
     (sl_block_red fp c fuel delta junk Jb lovmax RZ sdim off odd) nb (U, sw, q, t) (U', sw', q', t')) as M. cbn in M. eapply M; [| |exact H].
  - intros m [[[U1 sw1] q1] t1] [[[U2 sw2] q2] t2] Hm HP Hs k Hk. cbn in *.
    apply sl_block_red_U in Hs as (X & Y & Z); [|assumption].
    destruct (Nat.eq_dec k m) as [->|N]; [auto|].
    destruct (HP k ltac:(lia)) as [A1 A2]. split; [|assumption].
    eapply unimodular_ext; [|exact A1]. intros i j Hi Hj. unfold blk. symmetry. apply Z; try lia. nia.
  - intros k Hk. lia.
Qed.

Lemma sl_block_prod_int P r U sdim sh B B' s : iB s = B -> sinv P r s ->
  sl_block_prod c U sdim sh B = Ok B' -> unimodular sdim (blk (fn U) sdim sh) -> sinv P r (mkI B' (iU s) (iS s)).
Proof.
  intros E Hs H UU. unfold sl_block_prod in H. binv H. injection H as <-.
  assert (L : sh + sdim <= d) by lia.
  eapply (sinv_mul P r s _ _ (embed sh sdim (blk (fn U) sdim sh))); auto.
  - apply mtab_wfm.
  - now apply unimodular_embed.
  - intros i j Hi Hj. rewrite fn_mtab by assumption. rewrite mul_embed by assumption.
    destruct ((sh <=? j) && (j <? sh + sdim)) eqn:Ej; [|now rewrite E].
    apply sumZ_ext. intros l Hl. unfold blk. rewrite E. f_equal. f_equal. lia.
Qed.

Lemma sl_pmatprod_int P r S dec U s B' : sinv P r s ->
  sl_pmatprod c S dec U (iB s) = Ok B' ->
  (forall k, k < (if dec =? 0 then S else S - 1) ->
     unimodular (d / S) (blk (fn U) (d / S) (k * (d / S) + (if dec =? 0 then 0 else d / S / 2)))) ->
  sinv P r (mkI B' (iU s) (iS s)).
Proof.
  intros Hs H UU. unfold sl_pmatprod in H.
  refine (mfold_inv (fun B => sinv P r (mkI B (iU s) (iS s))) _ _ _ _ _ _ H).
  - intros b B1 B2 Hb HB HP. apply in_seq in Hb.
    change (mkI B2 (iU s) (iS s)) with (mkI B2 (iU (mkI B1 (iU s) (iS s))) (iS (mkI B1 (iU s) (iS s)))).
    eapply sl_block_prod_int; [|exact HB|exact HP|]; [reflexivity|]. apply UU. lia.
  - destruct s. exact Hs.
Qed.

Lemma sl_half_int P r fuel delta junk Jb lovmax S dorig odd afmax s f sw q gs ts s' f' sw' q' :
  sinv P r s -> 0 < S ->
  sl_half fp f0001 f501 fgap fmul2 c fuel delta junk Jb lovmax S dorig odd afmax s f sw q = Ok (gs, ts, s', f', sw', q') ->
  sinv P r s'.
Proof.
  intros Hs HS H. unfold sl_half in H. binv H. binv H. destruct a0 as [[[U sw1] q1] tests]. binv H. binv H.
  destruct a1 as [[gs1 s1] f1].
  pose proof (sl_RZ_diag _ _ _ Ha) as D.
  assert (D' : forall i, i < d -> fn a i i <> 0%Z) by (intros i Hi; now apply D).
  pose proof (sl_blocks_U _ _ _ _ _ _ _ _ _ _ _ _ _ _ _ _ _ _ D' Ha0) as BU.
  assert (Eo : d / S / 2 = d / (2 * S)) by (rewrite Nat.div_div by lia; f_equal; lia).
  assert (Hs1 : sinv P r (mkI a0 (iU s) (iS s))).
  { eapply sl_pmatprod_int; [exact Hs|exact Ha1|]. intros k Hk. destruct (odd =? 0); [|rewrite Eo]; now apply BU. }
  assert (Hs2 : sinv P r (mkI a0 U (iS s))) by exact (sinv_U P r _ U Hs1).
  assert (Hs3 : sinv P r s1).
  { eapply sinv_steps; [|exact Hs2]. eapply sl_reduce_gap_int; [|exact Ha2]. apply Hs2. }
  destruct (2 <=? gs1)%Z.
  - injection H as <- <- <- <- <- <-. assumption.
  - binv H. injection H as <- <- <- <- <- <-. assumption.
Qed.

Lemma sl_loop_int P r fuel delta junk Jb lovmax S dorig afmax s f sw q gs s' f' sw' q' :
  sinv P r s -> 0 < S ->
  sl_loop fp f0001 f501 fgap fmul2 c fuel delta junk Jb lovmax S dorig afmax s f sw q = Ok (gs, s', f', sw', q') ->
  sinv P r s'.
Proof.
  revert s f sw q. induction fuel as [|fuel IH]; intros s f sw q Hs HS H; cbn [sl_loop] in H; [discriminate|].
  binv H. destruct a as [[[[[gs1 t1] s1] f1] sw1] q1].
  apply (sl_half_int P r) in Ha; auto. destruct (2 <=? gs1)%Z.
  { injection H as <- <- <- <- <-. assumption. }
  binv H. destruct a as [[[[[gs2 t2] s2] f2] sw2] q2].
  apply (sl_half_int P r) in Ha0; auto. destruct (2 <=? gs2)%Z.
  { injection H as <- <- <- <- <-. assumption. }
  destruct (_ && _)%bool.
  { injection H as <- <- <- <- <-. assumption. }
  eapply IH; [exact Ha0|assumption|exact H].
Qed.
End C.

(** ** Objects *)
Definition sobj (P : zmat) (L : slattice F) : Prop := exists r, sinv (scfg L) P r (si L).

Lemma slll_int P fuel delta junk Jb S lovmax L g L' : sobj P L ->
  slll fp f0001 f501 fgap fmul2 fuel delta junk Jb S lovmax L = Ok (g, L') ->
  sobj P L' /\ scfg L' = scfg L /\ snorig L' = snorig L /\ sdorig L' = sdorig L /\ samax L' = samax L.
Proof.
  intros (r & Hs) H. unfold slll in H. binv H. binv H. binv H. binv H. destruct a1 as [[[[g1 s1] f1] sw1] q1].
  injection H as <- <-. cbn. split; [|auto]. exists r. eapply sl_loop_int; [exact Hs| |exact Ha1]. lia.
Qed.

Lemma new_slattice_int J n d A S forU m lg vd L : new_slattice fp J n d A S forU m lg vd = Ok L ->
  let p := pad_dim d (2 * S) in
  scfg L = mkCfg (n + p) (d + p) forU (d + p) 4294967295%Z m lg 1 1000000%Z /\ snorig L = n /\ sdorig L = d /\
  samax L = (if p =? 0 then 0%Z else (max_abs n d A * Z.of_nat d)%Z) /\
  forall i j, i < n + p -> j < d + p -> fn (iB (si L)) i j =
    (if (i <? n) && (j <? d) then fn A i j else if (n <=? i) && (j =? d + (i - n)) then samax L else 0%Z).
Proof using Type.
  clear EX f0001 f501 fgap fmul2.
  intros H p. unfold new_slattice in H. fold p in H. binv H. apply Okinj in H. subst L. cbn [scfg snorig sdorig samax si iB]. repeat (split; [reflexivity|]).
  intros i j Hi Hj. now rewrite fn_mtab by assumption.
Qed.

Lemma new_slattice_sobj J n d A S forU m lg vd L : new_slattice fp J n d A S forU m lg vd = Ok L ->
  sobj (fn (iB (si L))) L.
Proof using Type.
  clear EX f0001 f501 fgap fmul2.
  intros H. unfold new_slattice in H. binv H. apply Okinj in H. subst L. unfold sobj. cbn [si scfg iB].
  set (p := pad_dim d (2 * S)).
  match goal with |- context [mkI ?b _ _] => set (B := b) end.
  set (st := matrix_structure B (n + p) (d + p)).
  exists (last st 0).
  assert (L : length st = d + p) by apply ms_length.
  assert (EL : forall i, i < d + p -> nth i st 0 <= last st 0).
  { intros i Hi. destruct (exists_last (l := st)) as (l & x & E); [intros E; rewrite E in L; cbn in L; lia|].
    assert (X : last st 0 = nth (d + p - 1) st 0).
    { rewrite <- L, E, last_last, app_length. cbn. rewrite app_nth2 by lia.
      replace (length l + 1 - 1 - length l) with 0 by lia. reflexivity. }
    rewrite X. apply ms_mono. lia. }
  assert (NR : forall i, i < d + p -> nth i (repeat (last st 0) (d + p)) 0 = last st 0).
  { intros i Hi. apply nth_error_nth. now rewrite nth_error_repeat. }
  split; [|split].
  - split; cbn [iB iS cn cd].
    + apply mtab_wfm.
    + apply repeat_length.
    + intros j Hj. cbn [cd] in Hj. rewrite NR by assumption.
      destruct (exists_last (l := st)) as (l & x & E); [intros E; rewrite E in L; cbn in L; lia|].
      assert (X : last st 0 = nth (d + p - 1) st 0).
      { rewrite <- L, E, last_last, app_length. cbn. rewrite app_nth2 by lia.
        replace (length l + 1 - 1 - length l) with 0 by lia. reflexivity. }
      rewrite X. apply ms_le. lia.
    + intros i j Hij. cbn [cd] in Hij. rewrite !NR by lia. lia.
    + intros j Hj i Hi. rewrite NR in Hi by assumption.
      apply (ms_zero B (n + p) (d + p)); [assumption|]. specialize (EL j Hj). fold st. lia.
  - intros i Hi. cbn. now apply NR.
  - exists mid. split; [apply unimodular_id|]. apply meq_sym, mmul_id_r.
Qed.

End SL.
