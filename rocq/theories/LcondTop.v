(** * lcond: the values computed in exact arithmetic *)
From Coq Require Import ZArith Lia Reals Lra List Bool Arith Floats.
From Verif Require Import Base Spec Mat FP Hlll Hlll2 IntSteps HlllInt Structure Object Safety SpecReal Cache4 Exact ExactLoop ExactHH Lcond LcondFacts LcondTri Double Examples.
From Verif Require MatOpsFacts.
Import ListNotations.
Local Open Scope R_scope.

(** FP_NR<FT>::exponent(): the e with 2^(e-1) <= x < 2^e *)
Definition expo_ok (fexpo : R -> Z) : Prop :=
  forall x, 0 < x -> powerRZ 2 (fexpo x - 1) <= x < powerRZ 2 (fexpo x).

Definition Rexpo (x : R) : Z := up (ln x / ln 2).
Lemma Rexpo_ok : expo_ok Rexpo.
Proof.
  intros x Hx. unfold Rexpo. destruct (archimed (ln x / ln 2)) as [H1 H2].
  assert (L2 : 0 < ln 2) by (rewrite <- ln_1; apply ln_increasing; lra).
  rewrite !powerRZ_Rpower by lra.
  assert (EX : x = Rpower 2 (ln x / ln 2)).
  { unfold Rpower. replace (ln x / ln 2 * ln 2) with (ln x) by (field; lra). now rewrite exp_ln. }
  revert H1 H2 EX. generalize (ln x / ln 2). intros y H1 H2 EX. rewrite EX. split.
  - apply Rle_Rpower; [lra|]. rewrite minus_IZR. lra.
  - apply Rpower_lt; lra.
Qed.

Lemma expo_unique fexpo x e : expo_ok fexpo -> powerRZ 2 (e - 1) <= x < powerRZ 2 e -> fexpo x = e.
Proof.
  intros H [A B]. assert (P : 0 < x) by (eapply Rlt_le_trans; [|exact A]; apply powerRZ_lt; lra).
  destruct (H x P) as [C D].
  assert (Q : forall a b, powerRZ 2 a < powerRZ 2 b -> (a < b)%Z).
  { intros a b L. rewrite !powerRZ_Rpower in L by lra. apply lt_IZR. apply Rnot_le_lt. intros G.
    assert (Rpower 2 (IZR b) <= Rpower 2 (IZR a)) by (apply Rle_Rpower; lra). lra. }
  pose proof (Q (e - 1)%Z (fexpo x) ltac:(lra)). pose proof (Q (fexpo x - 1)%Z e ltac:(lra)). lia.
Qed.

(** ** C50 *)
Section P.
Variable fp : fpops R.
Hypothesis X : exact fp.
Variable fexpo : R -> Z.
Hypothesis EXP : expo_ok fexpo.
Notation fz := (fzero fp).

Lemma lsafe_gwf n d (L : lattice R) : lsafe n d L -> gwf (lcfg L) (lf L).
Proof. intros (_ & _ & _ & _ & W). destruct W. now split. Qed.

Lemma lcond_any_exact junk n d (L : lattice R) : (1 <= d)%nat -> lsafe n d L -> wfm n d (iB (li L)) ->
  independent n d (fn (iB (li L))) -> (d <= n)%nat ->
  exists v L', lcond_any fp fexpo junk L = Ok (v, L') /\ iB (li L') = iB (li L) /\ lcfg L' = lcfg L /\
    (exists r XX, R_factor n d (fn (iB (li L))) r /\ inverse d r XX) /\
    forall r XX, R_factor n d (fn (iB (li L))) r -> inverse d r XX ->
      cond_F d r XX < powerRZ 2 v /\ ((forall i j, junk i j = 0) -> powerRZ 2 (v - 1) <= cond_F d r XX).
Proof.
  intros D1 LS WB I ND. pose proof (lsafe_gwf n d L LS) as GW. destruct LS as (En & Ed & _).
  destruct (householder_exact fp X (lcfg L) (iB (li L)) (lf L)) as (f & Hf & _ & RF); rewrite ?En, ?Ed; auto.
  unfold lcond_any. rewrite Hf. cbn [bind]. unfold guard. rewrite En, Ed in *.
  replace (d <=? n)%nat with true by (symmetry; now apply Nat.leb_le).
  eexists _, _. split; [reflexivity|]. split; [reflexivity|]. split; [reflexivity|].
  set (r0 := fun i j => mget fz (fR f) i j) in *.
  destruct RF as (U & D & G).
  assert (INV : exists XX, inverse d r0 XX).
  { destruct (higham_exact fp X d (fR f) (mtab d d (fun i j => Rabs (mget fz (fR f) i j))) (mtab d d junk)) as [H1 _].
    - apply mtab_wfm.
    - intros i Hi. now rewrite mget_mtab.
    - apply (hrow_inverse d r0 U D _ H1). }
  split; [destruct INV as (XX & HI); exists r0, XX; exact (conj (conj U (conj D G)) HI)|].
  intros r XX RF' IX. destruct INV as (X0 & I0).
  rewrite (cond_F_unique n d (fn (iB (li L))) r r0 XX X0 RF' (conj U (conj D G)) IX I0).
  rewrite (cond_value_exact fp X d (fR f) (mtab d d junk) X0 D1 (mtab_wfm d d junk) U D I0).
  set (cv := cond_F d r0 (fun i k => if (i <=? k)%nat then X0 i k else mget fz (mtab d d junk) i k)).
  change (cond_F d r0 X0 < powerRZ 2 (fexpo cv) /\ ((forall i j, junk i j = 0) -> powerRZ 2 (fexpo cv - 1) <= cond_F d r0 X0)).
  assert (UP : forall i k, (k < i < d)%nat -> X0 i k = 0) by (apply (inverse_upper d r0 U D X0 I0)).
  assert (LE : cond_F d r0 X0 <= cv).
  { unfold cv, cond_F. apply sqrt_le_1_alt. apply sumR_le. intros i Hi. apply sumR_le. intros j Hj.
    assert (E : sumR d (fun k => Rabs (r0 i k) * Rabs (X0 k j)) <=
                sumR d (fun k => Rabs (r0 i k) * Rabs (if (k <=? j)%nat then X0 k j else mget fz (mtab d d junk) k j))).
    { apply sumR_le. intros k Hk. apply Rmult_le_compat_l; [apply Rabs_pos|]. destruct (Nat.leb_spec k j); [lra|].
      rewrite UP by lia. rewrite Rabs_R0. apply Rabs_pos. }
    assert (N0 : 0 <= sumR d (fun k => Rabs (r0 i k) * Rabs (X0 k j))) by (apply sumR_nonneg; intros; apply Rmult_le_pos; apply Rabs_pos).
    exact (Rmult_le_compat _ _ _ _ N0 N0 E E). }
  assert (ONE : 0 < cond_F d r0 X0).
  { unfold cond_F. apply sqrt_lt_R0. set (h := fun i => sumR d _). apply Rlt_le_trans with (h 0%nat).
    - unfold h. set (h' := fun j => _ * _). apply Rlt_le_trans with (h' 0%nat).
      + unfold h'. rewrite (sumR_single d 0).
        * rewrite <- Rabs_mult, (Rmult_comm (r0 0%nat 0%nat)), (inverse_diag d r0 U D X0 0 I0) by lia. rewrite Rabs_R1. lra.
        * lia.
        * intros k Hk Nk. rewrite UP by lia. rewrite Rabs_R0. ring.
      + apply sumR_term; [|lia]. intros. unfold h'. apply Rle_0_sqr.
    - apply sumR_term; [|lia]. intros. unfold h. apply sumR_nonneg. intros. apply Rle_0_sqr. }
  destruct (EXP cv ltac:(lra)) as [A B]. split; [lra|].
  intros J0. replace (cond_F d r0 X0) with cv; [exact A|].
  unfold cv, cond_F. f_equal. apply sumR_ext. intros i Hi. apply sumR_ext. intros j Hj.
  f_equal; apply sumR_ext; intros k Hk; f_equal; f_equal; (destruct (Nat.leb_spec k j); [reflexivity|]);
    rewrite mget_mtab, J0, UP by lia; reflexivity.
Qed.

(** the R factor used by the triangular variant *)
Lemma tri_R_exact c B R0 : wfm (cn c) (cd c) R0 -> wfm (cn c) (cd c) B -> (cd c <= cn c)%nat ->
  exists R1, tri_R fp c B R0 = Ok R1 /\ wfm (cn c) (cd c) R1 /\
    forall i j, (i <= j < cd c)%nat -> mget fz R1 i j = IZR (fn B i j).
Proof.
  intros W WB ND. unfold tri_R. set (step := fun (j : nat) (R : mat R) => _).
  assert (G : forall m, (m <= cd c)%nat -> exists R1, mfold step (seq 0 m) R0 = Ok R1 /\ wfm (cn c) (cd c) R1 /\
    forall i j, (i <= j < m)%nat -> mget fz R1 i j = IZR (fn B i j)).
  { induction m as [|m IH]; intros Hm.
    - exists R0. split; [reflexivity|]. split; [exact W|intros; lia].
    - destruct IH as (R1 & E1 & W1 & F1); [lia|]. rewrite seq_S, MatOpsFacts.mfold_app, E1. cbn [bind mfold Nat.add].
      unfold step at 1. unfold guard. replace (m <? cn c)%nat with true by (symmetry; apply Nat.ltb_lt; lia). cbn [bind].
      eexists. split; [reflexivity|]. unfold setcol_z.
      assert (LR : length (col R1 m) = cn c) by (apply (wfm_col (cn c) (cd c)); auto; lia).
      assert (LM : length (map (fun i => fset_z fp (nth i (col B m) 0%Z)) (seq 0 (m + 1))) = (m + 1)%nat) by (now rewrite map_length, seq_length).
      split.
      + apply wfm_lupd; auto. rewrite splice_length; lia.
      + intros i j Hij. unfold mget. rewrite col_lupd, (wfm_length (cn c) (cd c)) by auto.
        destruct (Nat.eqb_spec j m) as [->|N].
        * replace (m <? cd c)%nat with true by (symmetry; apply Nat.ltb_lt; lia). cbn [andb].
          rewrite nth_splice by lia. rewrite LM. cbn [Nat.leb Nat.add andb].
          replace (i <? m + 1)%nat with true by (symmetry; apply Nat.ltb_lt; lia). rewrite Nat.sub_0_r, nth_map_seq by lia.
          rewrite (e_setz fp X). reflexivity.
        * cbn [andb]. apply F1. lia. }
  destruct (G (cd c) (le_n _)) as (R1 & E1 & W1 & F1). exists R1. auto.
Qed.

Lemma fmaxq_exact q l : (forall p, In p l -> 0 <= q p) ->
  0 <= fmaxq fp q l /\ (forall p, In p l -> q p <= fmaxq fp q l) /\ (fmaxq fp q l = 0 \/ exists p, In p l /\ fmaxq fp q l = q p).
Proof.
  intros H. unfold fmaxq. rewrite (e_zero fp X).
  assert (G : forall l acc, let m := fold_left (fun e p => if flt fp e (q p) then q p else e) l acc in
     acc <= m /\ (forall p, In p l -> q p <= m) /\ (m = acc \/ exists p, In p l /\ m = q p)).
  { clear l H. induction l as [|p l IH]; intros acc m.
    - split; [unfold m; cbn; lra|]. split; [intros ? []|now left].
    - unfold m. cbn [fold_left]. set (acc' := if flt fp acc (q p) then q p else acc).
      assert (A : acc <= acc' /\ q p <= acc' /\ (acc' = acc \/ acc' = q p)).
      { unfold acc'. destruct (flt fp acc (q p)) eqn:E.
        - apply (e_lt fp X) in E. (split; [lra|split; [lra|now right]]).
        - assert (~ acc < q p) by (intros G; apply (e_lt fp X) in G; congruence). (split; [lra|split; [lra|now left]]). }
      destruct (IH acc') as (B1 & B2 & B3). destruct A as (A1 & A2 & A3). split; [lra|]. split.
      + intros p' [<-|Hp]; [lra|now apply B2].
      + destruct B3 as [B3|(p' & Hp & B3)]; [|right; exists p'; split; [now right|exact B3]].
        destruct A3 as [A3|A3]; [left; congruence|right; exists p; split; [now left|congruence]]. }
  destruct (G l 0) as (A & B & C). auto.
Qed.

Lemma tri_pairs_eta d p : In p (flat_map (fun j => map (fun i => (i, j)) (seq 0 j)) (seq 1 (d - 1))) <-> (fst p < snd p < d)%nat.
Proof.
  rewrite in_flat_map. split.
  - intros (j & Hj & Hp). apply in_seq in Hj. apply in_map_iff in Hp as (i & <- & Hi). apply in_seq in Hi. cbn. lia.
  - intros H. destruct p as [i j]. cbn in H. exists j. split; [apply in_seq; lia|]. apply in_map_iff. exists i. split; [reflexivity|]. apply in_seq. lia.
Qed.

Lemma tri_pairs_quo d p : In p (flat_map (fun j => map (fun i => (i, j)) (seq 0 d)) (seq 0 d)) <-> (fst p < d /\ snd p < d)%nat.
Proof.
  rewrite in_flat_map. split.
  - intros (j & Hj & Hp). apply in_seq in Hj. apply in_map_iff in Hp as (i & <- & Hi). apply in_seq in Hi. cbn. lia.
  - intros H. destruct p as [i j]. cbn in H. exists j. split; [apply in_seq; lia|]. apply in_map_iff. exists i. split; [reflexivity|]. apply in_seq. lia.
Qed.

(** what lcond(TRIANGULAR_PROPER) returns *)
Lemma lcond_tri_value n d (L : lattice R) : (1 <= d)%nat -> lsafe n d L -> wfm n d (iB (li L)) -> (d <= n)%nat ->
  let r := fun i j => IZR (fn (iB (li L)) i j) in
  (forall i, (i < d)%nat -> r i i <> 0) ->
  exists eta Q L',
    lcond_tri fp fexpo L = Ok ((fexpo Q + (Z.of_nat d - 1 + fexpo (1 + eta)) + (1 + zexpo (Z.of_nat d)))%Z, L') /\
    iB (li L') = iB (li L) /\ lcfg L' = lcfg L /\
    0 <= eta /\ (forall i j, (i < j < d)%nat -> Rabs (r i j / r i i) <= eta) /\
    (eta = 0 \/ exists i j, (i < j < d)%nat /\ eta = Rabs (r i j / r i i)) /\
    (forall i j, (i < d)%nat -> (j < d)%nat -> Rabs (r j j / r i i) <= Q) /\
    (Q = 0 \/ exists i j, (i < d)%nat /\ (j < d)%nat /\ Q = Rabs (r j j / r i i)).
Proof.
  intros D1 LS WB ND r DI. pose proof (lsafe_gwf n d L LS) as GW. destruct LS as (En & Ed & _). destruct GW as [WR _ _].
  unfold lcond_tri. rewrite En, Ed in *. 
  destruct (tri_R_exact (lcfg L) (iB (li L)) (fR (lf L))) as (R1 & E1 & W1 & F1); rewrite ?En, ?Ed; auto.
  rewrite E1. cbn [bind]. rewrite Ed in F1. unfold guard. replace (d <=? n)%nat with true by (symmetry; now apply Nat.leb_le).
  rewrite (e_add fp X), (e_one fp X).
  exists (tri_eta fp d R1), (tri_quo fp d R1). eexists. split; [reflexivity|]. split; [reflexivity|]. split; [reflexivity|].
  unfold tri_eta, tri_quo.
  destruct (fmaxq_exact (fun p => fabs fp (fdiv fp (mget fz R1 (fst p) (snd p)) (mget fz R1 (fst p) (fst p))))
     (flat_map (fun j => map (fun i => (i, j)) (seq 0 j)) (seq 1 (d - 1)))) as (A1 & A2 & A3).
  { intros p _. rewrite (e_abs fp X). apply Rabs_pos. }
  destruct (fmaxq_exact (fun p => fabs fp (fdiv fp (mget fz R1 (snd p) (snd p)) (mget fz R1 (fst p) (fst p))))
     (flat_map (fun j => map (fun i => (i, j)) (seq 0 d)) (seq 0 d))) as (_ & B2 & B3).
  { intros p _. rewrite (e_abs fp X). apply Rabs_pos. }
  split; [exact A1|]. split; [|split; [|split]].
  - intros i j H. specialize (A2 (i, j) ltac:(apply tri_pairs_eta; exact H)). cbn [fst snd] in A2.
    rewrite (e_abs fp X), (e_div fp X), !F1 in A2 by lia. exact A2.
  - destruct A3 as [A3|((i, j) & Hp & A3)]; [now left|right]. apply tri_pairs_eta in Hp. cbn [fst snd] in *.
    exists i, j. split; [exact Hp|]. rewrite A3, (e_abs fp X), (e_div fp X), !F1 by lia. reflexivity.
  - intros i j Hi Hj. specialize (B2 (i, j) ltac:(apply tri_pairs_quo; cbn; auto)). cbn [fst snd] in B2.
    rewrite (e_abs fp X), (e_div fp X), !F1 in B2 by lia. exact B2.
  - destruct B3 as [B3|((i, j) & Hp & B3)]; [now left|right]. apply tri_pairs_quo in Hp. cbn [fst snd] in *. destruct Hp.
    exists i, j. split; [assumption|]. split; [assumption|]. rewrite B3, (e_abs fp X), (e_div fp X), !F1 by lia. reflexivity.
Qed.
End P.
