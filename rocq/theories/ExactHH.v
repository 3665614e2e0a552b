(** * Lattice::householder() in exact arithmetic: it computes the R factor *)
From Coq Require Import ZArith Lia Reals Lra List Bool Arith.
From Verif Require Import Base Spec Mat FP Hlll Hlll2 IntSteps HlllInt Structure Object Safety SpecReal Fresh Cache Cache2 Cache4 Cache5 Exact HHMath ExactLoop ExactLoop2.
From Verif Require MatOpsFacts.
Import ListNotations.
Local Open Scope R_scope.

Section HH.
Variable fp : fpops R.
Hypothesis X : exact fp.
Variable c : cfg.
Notation n := (cn c).
Notation d := (cd c).
Notation fz := (fzero fp).
Notation b s j := (bval fp s j).
Notation V g := (Vf fp g).
Notation r g i j := (mget fz (fR g) i j).
Notation EI := (EI fp c).
Notation gwf := (gwf c).

(** the integer state with the trivial structure *)
Definition flat (B : mat Z) : ist := mkI B [] (repeat n d).

Lemma flat_S B j : (j < d)%nat -> nth j (iS (flat B)) 0%nat = n.
Proof using Type. clear X. intros H. cbn. rewrite (nth_indep _ 0%nat n) by (rewrite repeat_length; lia). apply nth_repeat. Qed.

Lemma flat_good B : wfm n d B -> (d <= n)%nat -> sgood c (flat B).
Proof.
  intros W ND. split.
  - split.
    + exact W.
    + cbn. apply repeat_length.
    + intros j Hj. rewrite flat_S by assumption. lia.
    + intros j l H. rewrite !flat_S by lia. lia.
    + intros j Hj i Hi. rewrite flat_S in Hi by assumption. lia.
  - intros j Hj. rewrite flat_S by assumption. lia.
  - intros j Hj. rewrite flat_S by assumption. lia.
Qed.


(** the reflections 0..K-1 *)
Lemma reflects_exact B kappa K : (K <= kappa)%nat -> (kappa < d)%nat -> forall g, wfm n d B -> EI kappa (flat B) g ->
  exists g', mfold (hh_reflect fp c kappa) (seq 0 K) (set_R (setcol_z fp (fR g) kappa (col B kappa) n) g) = Ok g' /\
    gwf g' /\ V g' = V g /\
    (forall i, (i < n)%nat -> r g' i kappa = Hs n (V g) K (b (flat B) kappa) i) /\
    (forall i j, j <> kappa -> r g' i j = r g i j).
Proof.
  intros HK Hk g WB E. pose proof (ei_w _ _ _ _ _ E) as W. pose proof (EI_ND fp c _ _ _ E Hk) as ND.
  induction K as [|K IH].
  - eexists. split; [reflexivity|]. setf.
    assert (LR : length (col (fR g) kappa) = n) by (apply (wfm_col n d); [apply W|lia]).
    assert (Lb : length (col B kappa) = n) by (apply (wfm_col n d); auto).
    assert (LM : length (map (fun i => fset_z fp (nth i (col B kappa) 0%Z)) (seq 0 n)) = n) by (now rewrite map_length, seq_length).
    assert (Ls : length (splice 0 (map (fun i => fset_z fp (nth i (col B kappa) 0%Z)) (seq 0 n)) (col (fR g) kappa)) = n)
      by (rewrite splice_length; lia).
    split; [|split; [|split]].
    + destruct W. split; setf; auto. unfold setcol_z. now apply wfm_lupd.
    + reflexivity.
    + intros i Hi. unfold setcol_z. rewrite (fst_fR_lupd fp c g) by auto. rewrite Nat.eqb_refl.
      rewrite nth_splice by lia. rewrite LM. cbn [Nat.leb Nat.add andb].
      replace (i <? n)%nat with true by (symmetry; now apply Nat.ltb_lt). rewrite Nat.sub_0_r.
      rewrite nth_map_seq by assumption. reflexivity.
    + intros i j Nj. unfold setcol_z. rewrite (fst_fR_lupd fp c g) by auto. apply Nat.eqb_neq in Nj. now rewrite Nj.
  - destruct IH as (g1 & E1 & W1 & V1 & R1 & N1); [lia|]. rewrite seq_S, MatOpsFacts.mfold_app, E1. cbn [bind mfold Nat.add].
    set (w := Hs n (V g) K (b (flat B) kappa)) in *.
    assert (LR : length (col (fR g1) kappa) = n) by (apply (wfm_col n d); [apply W1|lia]).
    assert (LV : length (col (fV g1) K) = n) by (apply (wfm_col n d); [apply W1|lia]).
    unfold hh_reflect. rewrite !(gcol_ok c) by lia. cbn [bind].
    rewrite scalarprod_dotf by lia. cbn [bind]. rewrite dotf_sum by (auto; lia).
    set (p := sumR n _).
    assert (P : p = dot n (vk (V g) K) w).
    { unfold p, dot. apply sumR_ext. intros i Hi. unfold vk. destruct (K <=? i)%nat; [|ring].
      change (nth i (col (fV g1) K) fz) with (V g1 i K). rewrite V1. f_equal. now apply R1. }
    unfold fmasub, guard. rewrite !skipn_length, LR, LV.
    replace ((kappa <? d)%nat && (K + (n - K) <=? n)%nat && (n - K <=? n - K)%nat && (n - K <=? n - K)%nat)%bool with true.
    2:{ symmetry. rewrite !andb_true_iff, !Nat.leb_le, Nat.ltb_lt. lia. }
    cbn [bind]. eexists. split; [reflexivity|].
    set (L := map _ _). assert (LL : length L = (n - K)%nat) by (unfold L; now rewrite map_length, seq_length).
    split; [|split; [|split]].
    + destruct W1. split; setf; auto. apply wfm_lupd; auto. rewrite splice_length; lia.
    + exact V1.
    + intros i Hi. setf. rewrite (fst_fR_lupd fp c g1) by auto. rewrite Nat.eqb_refl.
      rewrite nth_splice by lia. rewrite LL. cbn [Hs]. fold w. unfold refl. rewrite <- P. unfold vk.
      destruct (Nat.leb_spec K i).
      * replace (i <? K + (n - K))%nat with true by (symmetry; apply Nat.ltb_lt; lia). cbn [andb].
        unfold L. rewrite nth_map_seq by lia. rewrite (e_submul fp X), !nth_skipn.
        cbn [Nat.add]. replace (K + (i - K))%nat with i by lia.
        change (nth i (col (fV g1) K) fz) with (V g1 i K). rewrite V1.
        rewrite <- R1 by assumption. reflexivity.
      * cbn [andb]. change (nth i (col (fR g1) kappa) fz) with (r g1 i kappa). rewrite R1 by assumption. ring.
    + intros i j Nj. setf. rewrite (fst_fR_lupd fp c g1) by auto. pose proof Nj as Nj'. apply Nat.eqb_neq in Nj. rewrite Nj. now apply N1.
Qed.

Lemma hh_col_exact B kappa g : wfm n d B -> EI kappa (flat B) g -> (kappa < d)%nat ->
  (forall i j, (j < kappa)%nat -> (j < i < d)%nat -> r g i j = 0) ->
  exists g', hh_col fp c B kappa g = Ok g' /\ EI (S kappa) (flat B) g' /\
    (forall i j, (j < S kappa)%nat -> (j < i < d)%nat -> r g' i j = 0).
Proof.
  intros WB E Hk Z. pose proof (EI_ND fp c _ _ _ E Hk) as ND.
  destruct (reflects_exact B kappa kappa (le_n _) Hk g WB E) as (g1 & E1 & W1 & V1 & R1 & N1).
  set (g2 := set_nmax n g1).
  assert (EI2 : EI kappa (flat B) g2).
  { apply (EI_frame fp c kappa (flat B) g); auto.
    - destruct W1. now split.
    - intros k i _ _. change (V g2) with (V g1). now rewrite V1.
    - intros j i Hj _. change (r g2 i j) with (r g1 i j). apply N1. lia. }
  assert (C2 : cur fp c (flat B) g2 kappa).
  { intros i Hi. rewrite flat_S by assumption. replace (i <? n)%nat with true by (symmetry; now apply Nat.ltb_lt).
    change (V g2) with (V g1). rewrite V1. change (r g2 i kappa) with (r g1 i kappa). symmetry. now apply R1. }
  destruct (hv_exact fp X c kappa (flat B) g2 EI2 Hk C2) as (g3 & H3 & EI3 & RN & _ & VN & _).
  { rewrite flat_S by assumption. reflexivity. }
  unfold hh_col. rewrite E1. cbn [bind].
  unfold householder_v in H3. change (fnmax g2) with n in H3. change (fR g2) with (fR g1) in H3.
  change (fV g2) with (fV g1) in H3. cbv zeta in H3. cbn [set_R fV fR] in H3. change (fV g2) with (fV g1) in H3.
  rewrite (gR_ok fp c) in * by lia. cbn [bind] in *. rewrite (gcol_ok c) in * by lia. cbn [bind] in *.
  unfold guard in H3. rewrite Nat.leb_refl in H3.
  destruct (fp_norm fp (skipn kappa (col (fR g1) kappa)) (n - kappa)) as [nr| |]; try discriminate. cbn [bind] in *.
  destruct (if fle fp fz (r g1 kappa kappa) then (nr, fneg fp nr) else (fneg fp nr, nr)) as [s rkk] eqn:ES.
  unfold guard. replace ((kappa + 1 <=? n)%nat && (d <=? n)%nat)%bool with true
    by (symmetry; rewrite andb_true_iff, !Nat.leb_le; lia).
  eexists. split; [reflexivity|].
  cbv zeta in H3. assert (H3' := f_equal (fun q => match q with Ok y => y | _ => g1 end) H3). cbv beta iota in H3'. clear H3. rename H3' into H3. set (s2 := fsqrt fp _) in *.
  match goal with |- EI _ _ (set_R ?R4 (set_V ?V3 _)) /\ _ => set (R4' := R4); set (V3' := V3) end.
  assert (EV : V3' = fV g3).
  { rewrite <- H3. setf. unfold V3'. f_equal. apply map_ext_in. intros i Hi. apply in_seq in Hi.
    destruct (i =? kappa)%nat; auto. now replace (n <=? i)%nat with false by (symmetry; apply Nat.leb_gt; lia). }
  assert (ER : fR g3 = mset (fR g1) kappa kappa rkk) by (rewrite <- H3; reflexivity).
  assert (W3 : gwf g3) by (now apply (ei_w _ _ _ _ _ EI3)).
  assert (RR : forall i j, (i < n)%nat -> mget fz R4' i j = if ((j =? kappa)%nat && (kappa <? i)%nat && (i <? d)%nat)%bool then 0 else r g3 i j).
  { intros i j Hi. unfold R4'. rewrite <- ER. rewrite (fst_fR_lupd fp c g3) by auto.
    destruct (Nat.eqb_spec j kappa) as [->|Nj]; cbn [andb]; [|reflexivity].
    rewrite nth_map_seq by assumption. cbn [Nat.add]. destruct ((kappa <? i)%nat && (i <? d)%nat)%bool; [apply (e_zero fp X)|reflexivity]. }
  assert (W' : gwf (set_R R4' (set_V V3' g1))).
  { rewrite EV. destruct W3. destruct W1. split; setf; auto. unfold R4'. rewrite <- ER. apply wfm_lupd; auto.
    now rewrite map_length, seq_length. }
  split.
  - apply (EI_frame fp c (S kappa) (flat B) g3); auto.
    + intros k i _ _. unfold Vf. setf. now rewrite EV.
    + intros j i Hj Hi. setf. rewrite RR by lia. destruct (Nat.eqb_spec j kappa) as [->|]; cbn [andb]; auto.
      now replace (kappa <? i)%nat with false by (symmetry; apply Nat.ltb_ge; lia).
  - intros i j Hj Hi. setf. rewrite RR by lia. destruct (Nat.eqb_spec j kappa) as [->|Nj]; cbn [andb].
    + replace (kappa <? i)%nat with true by (symmetry; apply Nat.ltb_lt; lia).
      now replace (i <? d)%nat with true by (symmetry; apply Nat.ltb_lt; lia).
    + rewrite RN by lia. change (r g2 i j) with (r g1 i j). rewrite N1 by assumption. apply Z; lia.
Qed.

Lemma householder_exact B g : wfm n d B -> independent n d (fn B) -> (d <= n)%nat -> gwf g ->
  exists g', householder fp c B g = Ok g' /\ EI d (flat B) g' /\ R_factor n d (fn B) (fun i j => r g' i j).
Proof.
  intros WB I ND W.
  assert (G : forall K, (K <= d)%nat -> exists g', mfold (hh_col fp c B) (seq 0 K) g = Ok g' /\ EI K (flat B) g' /\
     (forall i j, (j < K)%nat -> (j < i < d)%nat -> r g' i j = 0)).
  { induction K as [|K IH]; intros HK.
    - exists g. split; [reflexivity|]. split; [|intros; lia]. split; auto; try (intros; lia). now apply flat_good.
    - destruct IH as (g1 & E1 & EI1 & Z1); [lia|]. rewrite seq_S, MatOpsFacts.mfold_app, E1. cbn [bind mfold Nat.add].
      destruct (hh_col_exact B K g1 WB EI1 ltac:(lia) Z1) as (g2 & E2 & EI2 & Z2). rewrite E2. cbn [bind].
      exists g2. auto. }
  destruct (G d (le_n d)) as (g' & E1 & E2 & Z). exists g'. split; [exact E1|]. split; [exact E2|].
  split; [intros i j H; apply Z; lia|]. split.
  - intros i Hi. apply (ei_c _ _ _ _ _ E2 i Hi).
  - intros j l Hj Hl.
    transitivity (dot n (Hs n (V g') d (b (flat B) j)) (Hs n (V g') d (b (flat B) l))).
    + unfold dot. rewrite (sumR_cut n d) by (try lia; intros i Hi; rewrite !(Hs_col fp c (flat B) g' _ d) by (try lia; now apply (ei_c _ _ _ _ _ E2));
        replace (i <=? j)%nat with false by (symmetry; apply Nat.leb_gt; lia); ring).
      apply sumR_ext. intros i Hi. rewrite !(Hs_col fp c (flat B) g' _ d) by (try lia; now apply (ei_c _ _ _ _ _ E2)).
      destruct (Nat.leb_spec i j), (Nat.leb_spec i l); auto; rewrite ?(Z i j), ?(Z i l) by lia; ring.
    + rewrite Hs_dot by (intros k Hk; apply (ei_v _ _ _ _ _ E2 k Hk)). unfold dot. rewrite sumZ_IZR. apply sumR_ext.
      intros i Hi. rewrite !bval_IZR by exact X. cbn [iB flat]. now rewrite mult_IZR.
Qed.
End HH.
